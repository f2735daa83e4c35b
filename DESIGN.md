# Design of the formal model of smooth_feedback

Target: `/repo` (pettni/smooth_feedback, header-only C++20).  Nothing in `/repo` is built, run or changed;
every definition of the model cites the file and lines it was read from.

## 1. Conventions

* Coq 8.16.1, one flat directory `rocq/theories`.  For a component `Foo` there are
  * `FooModel.v`: the model of the code, definition by definition, with the cited lines and the simplifications,
  * `FooSpec.v`: vocabulary of the properties that does not mention the model (where it is more than a line or two),
  * `FooFacts.v` and similar: lemmas,
  * `FooProps.v`, `FooThms.v` and similar: the theorems of the properties,
  * `FooCases.v`, `FooCex.v`, `FooExamples.v` (or the end of `FooProps.v`): for each theorem a concrete case that meets its
    hypotheses, the counterexamples, and `Print Assumptions`.
* Names of theorems start with the id of the property, e.g. `C17_mesh_is_partition`.
  * suffix `_partial`: less than the property says; the comment and section 3 say what is missing.
  * suffix `_refuted`: the property is false for the code as it is; the theorem exhibits a witness.
  * A property with a `_refuted` theorem has the status "partial" in `MANIFEST.json`, and its note begins with REFUTED.
* Arithmetic.  C++ `double` is modelled by exact arithmetic in an arbitrary mathcomp `realFieldType` (archimedean or real
  closed where termination or square roots need it).  So theorems hold in Q, in R and in every ordered field, and use no
  axioms.  The exceptions are `Time*.v`, `Loop*.v`, `FMesh*.v` and `FPid*.v`, where rounding is the property: there doubles are Flocq's binary64 (in
  all but `Time*.v` with overflow to infinity and NaN).
* Derivatives are epsilon-delta derivatives over the same field (`Calc.v`: `deriv`, `partialn`, `hessn`, uniqueness, sums,
  products and chain rules).  A "correct derivative" in a theorem always means a derivative of the value function in this
  sense and never a formula of the model.
* Infinite bounds are the values `NegInf | Fin x | PosInf` of an inductive type; NaN is not modelled.
* Sparse matrices are functions from positions to `option F`: the stored pattern and the values are both visible.
* Undefined behaviour and loops that do not end are distinct outcomes (`None`, or "no amount of fuel suffices").
* Objects with state (QPSolver, MPC, ASIFilter, PID, EKF, the solution and mesh objects) are modelled with their state, and
  properties are stated for every history of public calls.

## 2. Trusted base

1. Coq's kernel (and `coqchk`).
2. Axioms, as printed by `Print Assumptions` in the files:
   * every theorem outside of `Time*.v`, `Loop*.v`, `FMesh*.v`, `FPid*.v`, `FQp*.v` and `FInf*.v`: none ("Closed under the global context");
   * `C66_*`, `C95_*`, `C96_*`, `C97_*`, `C99_*`, `C102_*`, `C103_*`, `C104_*`, `C105_*`, `C106_*`, `C107_*`, `C108_*`, `C109_*`, `C110_*` (files `Time*.v`, `Loop*.v`, `FMesh*.v`, `FPid*.v`, `FQp*.v`, `FInf*.v`, `FScale*.v`, `FEval*.v`, `FEkf*.v`, `FEst*.v`, `FPred*.v`, `FFilt*.v`, `FOcp*.v`): the standard library's `ClassicalDedekindReals.sig_forall_dec`,
     `ClassicalDedekindReals.sig_not_dec`, `FunctionalExtensionality.functional_extensionality_dep` and
     `Classical_Prop.classic` (real numbers and Flocq).
   No axioms of our own, no `Admitted`, no flags.
3. The model is a faithful reading of the C++ text.  In particular:
   * exact arithmetic instead of floating point, except for C66, C95, C96, C97, C99, C102, C103, C104, C105, C106, C107, C108, C109 and C110;
   * Eigen: matrix expressions have their mathematical meaning; `LDLT`/`SimplicialLDLT::solve` is the exact solution of the
     symmetric system given by the triangle that Eigen reads; whether a factorization succeeds is an oracle;
     `prune`, `coeffRef`, `setZero`, iteration over inner vectors follow the documentation of Eigen;
   * the library `smooth` (not in the repository) through explicit hypotheses:
     `lgr_nodes` gives nodes and weights of Gauss-Radau quadrature (`lgr_ok`), `binary_interval_search` finds the interval,
     `diff::dr` gives derivatives, groups satisfy `lie_ok` (exp, Ad, dr_exp, dr_expinv, their products); the hypotheses are
     shown to be satisfiable by instances (`FlatGroup.v`: vectors, products and step-two nilpotent groups satisfy `lie_ok`);
   * boost odeint's explicit Runge-Kutta steppers; user functions are total and pure;
   * clocks are oracles that may return any sequence of values;
   * IPOPT and OSQP: only the contract of their interfaces (call-backs, order of structure and value calls, validation of data
     and settings, meaning of status codes, of infinite bounds 1e19 and of zero time limits), written down in `IpoptModel.v`
     and `OsqpModel.v`.

Modelled: `qp.hpp`, `qp_solver.hpp`, `collocation/mesh.hpp`, `collocation/mesh_function.hpp`, `collocation/dyn_error.hpp`,
`utils/sparse.hpp`, `nlp.hpp`, `ocp_to_nlp.hpp`, `ocp_to_qp.hpp`, `ocp_flatten.hpp`, `mpc.hpp`, `asif_func.hpp`, `asif.hpp`,
`ekf.hpp`, `pid.hpp`, `time.hpp`, `compat/ipopt.hpp`, `compat/osqp.hpp`, and of `ocp.hpp` the structs and
`test_ocp_derivatives` (the numerical derivatives are given functions, the random points a given list).

Not modelled: printing and verbose output, `compat/ros.hpp`
(same arithmetic as the integral clock of `time.hpp`), memory allocation and performance, templates and concepts (whether
a program compiles), automatic differentiation back-ends, exceptions, examples and plotting, internals of IPOPT and OSQP.

Notes that hold for all files: groups are general in `EkfModel`, `PidModel`, `AsifModel`, `FlatModel` and for the dynamics part of
`OqpModel`; the NLP, cost and constraint parts and MPC are modelled for vector spaces X = R^Nx, U = R^Nu.

## 3. Properties: what is modelled and how it is proved

### QP solver (`qp_solver.hpp`; files `Qp*.v`, `QF.v`, `LinAlg.v`)

Modelled: `scale`, fill of the dense and sparse KKT matrix, factorization with the state of the object, the ADMM loop with its
32-bit counter, `check_stopping`, unscaling, codes, `polish_qp`, warm starts, `analyze`.

* C01 proved.  Invariant of the scaling rounds (factors positive), then an equivalence of feasibility, objective and KKT
  conditions of the scaled and original problem; iterates of the scaled problem are images of iterates of the original one.
* C02, C03 proved.  Loop invariant: z within bounds and y in the normal cone; with the stopping test this gives the residual
  bounds, and for convex P the bound on the objective.  For a successful polish see C15.
* C04 proved.  Fixed points of the iteration are the KKT pairs; a warm start at a KKT pair is returned.
* C05 proved.  Quasi-definite matrix: kernel is zero; invariant on the reused sparse pattern of the solver object.
* C06 proved.  Lyapunov function of the relaxed ADMM step; residuals are summable; termination in an archimedean field.
* C07 refuted as stated (min x s.t. 1e-5 x = 0 is declared infeasible with scaling off).  Proved: the verdict comes with an
  approximate Farkas certificate, and is sound for zero tolerance.
* C08 refuted (min 0 s.t. x >= 1000 is declared dual infeasible).  Proved: there is an approximate recession direction.
* C09, C10 proved by induction on the loop; C10 for max_iter < 2^32, and with the rules for MaxTime in QpTime.v (added after a wrong program that ignored whether a limit is set went unnoticed).
* C11 refuted for stop_check_iter = 1 (no check is made, no end without max_iter); proved for larger values.
* C12 refuted (residuals use the lower triangle of P); proved for the iterates.
* C13 refuted for sparse problems of varying structure (stale symbolic analysis); proved for dense problems and for equal structure.
* C14 refuted (PolishFailed is overwritten by Optimal); proved: code and iterations do not depend on polishing.
* C15 refuted (min 1e-4 x on [-1,1] gives x = -500, Optimal); proved if polishing fails.
* C16 proved: index sets, write-back and fixed points of the refinement.
* C94 proved (`QpPolish.v`): the refinement is the proximal point iteration of the monotone map (x, y) -> (Px + A'y, -Ax), so each
  step moves towards every solution of the system and steps never become longer; this gives the residual delta |t*| / sqrt K after
  K steps from zero without rank conditions on the active rows.  `C94_dense` and `C94_sparse` compare the answer with the one of the
  same call without polishing (`polished`); `C94_unscaled` is the same in units of the user.  Assumed: the factorization succeeds on
  the quasidefinite matrices (`quasi_ok`), which `C94_nonsingular` shows to be nonsingular.  The condition on the active rows is
  needed: `C15_refuted` is a case in which the rows are not the right ones.
* C100 (`QpOwn.v`, dense problems) refuted (`C100_refuted`): `solve` takes the guess by reference (line 344) and `sol()` returns a
  reference to `sol_` (line 292).  Line 438 overwrites `sol_.primal` with the scaled guess before line 440 reads the guess again, so z
  starts at sy A (x / sx) instead of sy A x.  For min 0 subject to 16 x = 16 (factors 1/4) a copy of the solution is returned at the first
  test and the solver's own solution is not.  Proved: without scaling the two calls are equal in every history (`C100_unscaled`), and
  with scaling an Optimal answer still satisfies the tolerances of C02 (`C100_optimal`, polishing off).  `MPC` and `ASIFilter` keep copies
  and are not affected.  Modelled: line 438-440 with the alias; `dual` (line 439) is read before it is written, entry by entry.
* C101 (`QpEquil.v`, symmetric P, exact square roots) proved for the columns: one round takes nonzero column norms in [a, b] with
  a >= 1e-8 to norms in [sqrt(a / b), 1], so entries are at most 1 (`C101_entries`, all problems) and ten rounds suffice when
  b <= 1e16 a (`C101_columns`: norms in [0.9, 1]; also when the loop ends early, because the test looks at the norms before the last round).
  Refuted for the cost (`C101_cost_refuted`): lines 669-671 also promise similar norms of the columns of [P q], but c_ is chosen before
  the rounds; for min x^2 / 2 + 1e6 x the scaled q is 1000 times the scaled P.
* C102 (`FQp*.v`, binary64) proved: modelled are the clamping, unscaling, the optimality test and the returned values; the scaled point,
  the multipliers and the vector that is clamped are arbitrary doubles, so nothing is assumed about the factorization or the iterations.
  Products A x, P x, A^T y are sums of rounded products in any order, also with fused multiply-add (relation `dot`); `lpNorm` of a
  vector with NaN may be anything.  The exact residual of the constraints (`C102_primal`), the exact gradient (`C102_dual`) and the
  bounds (`C102_bounds`) hold up to the tolerances and a rounding term; together for the returned values: `C102_answer`.  The size
  condition is needed (`C102_overflow_refuted`, about the test, not about a run from a given start): for 2 x = 0 and x = 2^1023 both
  sides of the test are infinite and it passes.  The scaling is C104.  Not modelled in doubles: factorization, iterations, polishing.
* C103 (`FInf*.v`, binary64; dx_us_ and dy_us_ are arbitrary doubles) refuted in two ways.  `C103_zero_refuted`, from `C103_stalled`: if the
  point does not change any more in double arithmetic (dx = 0) and the residuals are above the tolerances, for instance because the
  tolerances are smaller than the rounding errors, every problem whose rows have only one bound is called dual infeasible, also
  min x^2 / 2 + x.  `C103_overflow_refuted`: when u^T dy+ and l^T dy- overflow with opposite signs the sum is NaN, `std::max(norm, NaN)` is
  norm, and x <= 3 * 2^1022, x >= 2^1023 is called infeasible.  Proved without overflow: the primal verdict has a nonzero dy that is a
  Farkas certificate up to the tolerance and rounding (`C103_primal`); the dual verdict has an approximate recession direction (`C103_dual`).
* C104 (`FScale*.v`, binary64, dense problems) proved for data up to 2^b, b <= 400 (`C104_range`): c_ in [2^-(b+1), 2^20], all other factors in
  [2^-(b+163), 2^154].  A size condition is needed (`C104_overflow_refuted`): with two columns of norm 2^1023 `sx_inc_.mean()` overflows,
  c_ is zero, and no multiplier that the solver returns is finite.  Each round multiplies by at most 2^14 (the cut-off 1e-8); the norm that
  is computed for a column is at most 2^(160+b) times its factor, because rounding is monotone and scaling by powers of two exact, so a
  factor that shrinks ends above the square root of factor / 2^(161+b).  `C104_answer` joins this with C102.
* C98 (`QpSym*.v`) refuted for rows without bounds (`C98_free_refuted`): `check_stopping` tests such a row like a row with a lower
  bound, so min x with the row -inf <= -x <= inf is DualInfeasible after two iterations, and with -inf <= x <= inf the solver never
  returns with the default parameters.  Proved otherwise (`C98_dense`, `C98_sparse`): permutations with signs are orthogonal matrices,
  scaling factors are permuted, each iterate of the new problem is the image of the iterate of the old one (induction over the loop),
  the active sets correspond, and refinement commutes with the (rectangular) orthogonal matrix.  Assumed: whether a factorization
  succeeds does not depend on order and signs (`fair`; true for success = nonsingular), P symmetric.
* C93 proved (`QpObj.v`): the field is computed from the unscaled point after polishing on all paths.  The lower bound on the value
  uses the multipliers of the exact solution, the upper bound those of the answer.  `C93_upper`: with only the upper triangle of P
  given, the reported objective misses half of the mixed terms (compare C12, C89).

Further observations, not claims: `scale()` asserts for m = 0 or n = 0; a failed factorization overwrites PrimalInfeasible by
Unknown; max_time is only examined at stopping checks; `analyze()` does not reset the factorization flag.

### Mesh (`collocation/mesh.hpp`; files `Mesh*.v`, `PolyFacts.v`)

* C17, C18 proved by induction over histories of refinements (Kmin >= 1).
* C19 refuted: the first sub-interval keeps the old degree.  `C19_refine_ph_partial` gives the exact result; `C19_count` (`MeshCount.v`) says without the formula of the
  code that the interval is replaced by the least number n >= 2 of intervals of equal length with D <= n Kmin.
* C20 proved; the lround expression is an arbitrary integer.
* C21-C23 proved with polynomials (Lagrange basis, Radau quadrature).
* C24 refuted: derivatives miss the factor (2/(tf-t0))^p.  The partial theorem gives the value that is returned.
* C25 proved.  C26 refuted for 2^32 points (32-bit accumulator), proved below.
* C97 (`FMesh*.v`, in binary64; the table of degree K is any table of K + 1 doubles from -1 to 1 with gaps >= 1/1000) refuted for
  unbounded histories: with Kmin = 5, Kmax = 10, refining the last interval 35 times makes an interval [1, 1] (`C97_refuted`).
  Proved for n initial intervals and r divisions into at most 2^b parts with n 2^(b r) <= 10^11: the lengths are at least
  1/(n 2^(b r)) - 2^-48 (`C97_partition`), and the nodes are finite, strictly increasing, from exactly 0 to exactly 1 (`C97_nodes`).
  The std::size_t sum D + Kmin - 1 does not wrap in the model; the targets D of refine_errors are arbitrary.
* C105 (`FEval*.v`, binary64) refuted for unbounded histories: in the mesh of `C97_refuted` the point t = 1 has the coordinate 0/0 = NaN and the
  differentiation matrix of the last interval is multiplied by infinity (`C105_refuted`).  Proved for the histories of C97
  (`C105_history`; `C105_coord`, `C105_monotone`, `C105_dscale` for single intervals, `C105_weights` for any partition with intervals of
  at least 2^-900): rounding is monotone, so t - tau0 <= tauf - tau0 holds also after rounding; differences of doubles have a
  relative error of 2^-53 even if they are subnormal.  `C105_node`: the coordinate of a node is the tabulated one up to 2^-48 / (tauf -
  tau0).  The tables of weights are any tables of positive doubles with sum 2 up to dl.  Not modelled in doubles: the polynomials.
* C106 (`FEkf*.v`, binary64, `EKF::update` with scalar state and measurement) refuted: with h = p = 0.7 and r = 2^-80 the new variance is
  -2^-52 p, and a second measurement with a positive variance then has a gain below -10^15 and leaves a variance below -1/10
  (`C106_negative_refuted`; the cause is the form (I - K H) P of ekf.hpp:138).  Proved for 2^-200 <= |h|, p <= 2^200 and 0 <= r <= 2^600, with or
  without contraction to fused multiply-adds: the new variance is p r / (h^2 p + r) up to 2^-50 p (`C106_error`), is at most p, and is
  nonnegative if r >= 2^-51 h^2 p (`C106_range`).  For any sequence of at most 2^48 measurements with r >= h^2 p the variance is positive and the
  inverse of the total information 1/p + sum h^2/r up to a relative error of 2^-48 per measurement (`C106_run`).  If the state is
  measured directly (h = 1), the variance is never negative and never grows, for every r >= 0 (`C106_direct` in `FEstProps.v`).  Not modelled: several dimensions (exact arithmetic in C59-C62), the estimate.
* C107 (`FEst*.v`, binary64, scalar state, measurement function h(x) = x with derivative exactly 1) refuted as stated: from the estimate -1 the
  measurement y = 3 * 2^-54 leads to 4/3 y (`C107_overshoot_refuted`).  Proved: the estimate moves towards the measurement and passes it by at
  most 2^-52 of the distance (`C107_towards`), not at all if y/2 <= x <= 2y (`C107_between`); for any number of measurements in [A, B] it never leaves
  [A, B] by more than 2^-51 (B - A), so overshoots do not add up (`C107_run`); `C107_error`: it is the exact estimate up to 2^-50 (|x| + |y|).
  Not modelled: numerical differentiation, where the derivative is not exactly 1.
* C108 (`FPred*.v`, binary64, `EKF::predict` with a scalar linear system and Euler's method; the time steps are those of C95) refuted at the limit:
  a = -7/27, dt = 1/(2|a|), p = 253/4, q = 0 satisfy -2 a dt <= 1 but give a negative variance (`C108_negative_refuted`).  Proved: a step with
  -2 a dt <= 1 - 2^-50 leaves a nonnegative variance (`C108_nonneg`), each step is the exact Euler step up to 2^-50 of the sum of the absolute
  terms (`C108_error`), and for a = 0 a whole call of predict gives p + q tau up to 2^-51 per step of the time loop (`C108_walk`).  Not modelled: other
  steppers of odeint, the internals of odeint (its Euler step is taken as p + s d), several dimensions (exact arithmetic in C59, C62).
* C109 (`FFilt*.v`, binary64) proved: `C109_filter` combines C106_direct, C107 and C108_walk by induction over any sequence of calls of predict and
  update of a filter with f = 0 and h(x) = x; the number of solver steps of a call is bounded by 2 tau/dt + 1 with C95.  Hypotheses: bounds against
  overflow, and fewer than 2^43 solver steps in total, which bounds the growth of the variance by rounding.
* C110 (`FOcp*.v`, binary64) **refuted**: with t0 = 0.3, tf = 0.9 and tau = 1 the sample time is 0.9000000000000001, one unit in the last place after
  tf (`C110_outside_refuted`).  Proved: the sample time is between t0 and tf + 2^-52 (tf - t0), equal to t0 at tau = 0, and at most tf (equal to tf at
  tau = 1) if t0 = 0, as in ocp_to_nlp.hpp and every OCP, or tf <= 2 t0 (`C110_sample`); it is exact up to 2^-51 (|t0| + tf - t0)
  (`C110_sample_error`) and does not decrease with tau (`C110_sample_monotone`).  The argument of the solution functions is in [0, 1], 0 and 1 at
  the ends, does not decrease, and is exact up to 2^-51 (`C110_back`); for t0 = 0 the sample time of a node is mapped back to the node up to 2^-49
  (`C110_round_trip`).  The nodes tau are taken as any doubles in [0, 1] (their rounding is C97), and
  Mesh::eval at the argument is C105.

Observations: Kmin = 0 divides by zero; `refine_errors` with Ki = 1 divides by log(1).

### Mesh functions (`mesh_function.hpp`, `dyn_error.hpp`; files `MeshFun*.v`, `Calc.v`)

* C27-C29 proved.  Loops over nodes are modelled as updates of sparse matrices; closed form by induction over intervals and nodes;
  chain rule gives equality with the epsilon-delta derivatives of the modelled value.  C29 needs the node count below 2^32 (C26).
* C30 proved for every earlier content of the result object.  C31 proved in both directions (polynomials through the nodes).

### Sparse utilities (`utils/sparse.hpp`; files `Sparse*.v`)

* C32, C73 proved.  C34 proved for every twice differentiable f, g.
* C33 refuted for sparse sources: positions not stored in the source keep old values.  Proved otherwise.

### OCP to NLP (`ocp_to_nlp.hpp`; files `Nlp*.v`)

* C35-C37 proved, for every state of the object.
* C38 refuted: the blocks (q, x0) and (q, xf) of second derivatives are written below the diagonal and lost.  The partial theorems
  cover all other entries, `*_cross` the lost ones, `C38_no_cross_terms` the full claim if these derivatives vanish.
* C39 refuted: division by zero for Ncr = 0 or Nu = 0.  Otherwise the round trip is proved; multipliers of variable bounds are lost.
* C90 refuted (`DerivModel.v`, `DerivProps.v`): isApprox is called with the literal precision 1e-4, so eps is only one of two
  accepted tolerances; a Jacobian of 10001 instead of 10000 passes for every eps.  `C90_test` gives the exact condition,
  `C90_correct` shows that correct derivatives pass.  Functions without derivatives are skipped silently.
* C92 refuted (`MeshTransfer.v`, `NlpRefine*.v`): refine_errors splits intervals into ones with Kmin points, so a trajectory of higher
  degree is replaced by an interpolant (`C92_refined_refuted`: t^2 on [0,1] with two points).  `C92_moved`: on every new interval that
  lies in an old one with at most as many points the functions are unchanged, since both are the same polynomial;
  `C92_nodes`: they always agree at the new nodes; `C92_refined_partial`, `C92_increased`: the whole trajectory is unchanged if no
  interval with more than Kmin points is split, and if degrees are increased.

### OCP to QP (`ocp_to_qp.hpp`; files `Oqp*.v`)

* C40, C44 proved.
* C41 refuted: factor 1/2 on the end-point Hessian, derivatives of theta at q = 1.  Proved: exact P and q for all problems.
* C42 refuted for end constraints that depend on the integral; proved for running rows and end rows without it.
* C43 refuted for varying patterns of the end-constraint Jacobian; proved for constant patterns and every history.

Observation: line 493 passes Nce and Ncr in swapped order.

### MPC (`mpc.hpp`; files `Mpc*.v`)

* C45 refuted: set_weights has no effect (proved for every history).
* C46 refuted: line 221 tests Q instead of R; undefined behaviour for Nu > Nx.  Proved: exact blocks.
* C47 refuted: the final weight is written to the block of the initial state.
* C48 refuted for running constraints without set_time; proved for those with it.
* C49 refuted: copies share the desired trajectories; proved without copies or without setters.
* C50, C51, C74 proved for every history.

### ASIF (`asif_func.hpp`, `asif.hpp`; files `Asif*.v`)

* C52, C53, C55, C56, C76 proved.  C76 for an exact solver.
* C54 refuted (late samples if dt does not divide tau); proved within dt.
* C57 refuted for dt <= 0; exact condition for termination proved.
* C96 (`LoopAsif.v`, `LoopCases.v`; the time variables only, in binary64) refuted for the default parameters T = 1, K = 10,
  dt = 0.1 (`C96_default_refuted`): 0.5 + 0.1 < 0.1 * 6 after rounding, so a second step is taken, constraint 6 is evaluated at 0.7
  instead of 0.6, constraint 7 at 0.7 again, and no constraint is imposed at 0.6.  Proved for 2^-900 <= T <= 2^1000, K < 2^32 and
  T <= 2^52 dt: all loops end and constraint k is evaluated in [k T/K, k T/K + dt] up to rounding (`C96_asif`); exactly at k T/K if
  dt is a multiple of a power of two that divides T/K and the sums have 53 bits (`C96_exact`).  `C96_forever_refuted`: the loop
  never ends for T = 1, K = 1, dt = 2^-54.
* C75 refuted (sensitivity uses the state after the step); proved for affine closed loops.

### EKF (`ekf.hpp`; files `Ekf*.v`) and PID (`pid.hpp`; files `Pid*.v`)

* C58 refuted for tau < 0 with the default dt; exact condition for termination proved.
* C95 (`LoopEkf.v`; the time variables only, in binary64): `C95_ekf_ends` and `C95_ekf_steps` for tau <= 2^53 dt.  Refuted without
  this condition: if dt is a power of two and tau > 2^53 dt the loop never ends (`C95_ekf_forever`, `C95_ekf_refuted`).
* C59-C61 proved: symmetry for every history and stepper, Joseph form, information form and least squares.
* C62 refuted (Euler step maps covariance 1 to -1); sufficient conditions proved.
* C63-C65 proved by induction over histories of operations.
* C99 (`FPid*.v`, in binary64 with T = double, with infinities and NaN; `cwiseMax`/`cwiseMin` compare like `std::max`/`std::min`,
  which Eigen's scalar and SSE versions do; no fused multiply-add) refuted: after one error that is not a number every later
  control is not a number, also with ki = 0 and a finite limit, until `reset_integral` (`C99_nan`, `C99_refuted`); with the
  default limit infinity the integral can overflow, and ki * i = 0 * infinity (`C99_overflow_refuted`, all data finite).  Proved:
  with a finite limit the integral is finite and within it for every history of times (also NaN or out of order) and errors
  (also infinite) (`C99_bounded`; the difference of different times is never rounded to 0), and it differs from the exact
  limited integral by at most 2^-53 w + 2^-1074 per call plus 2^-51 times the integral of the absolute error (`C99_accuracy`).
  The control is finite and has a relative error of 2^-50 of the sum of the absolute values of its terms for data up to 2^500 (`C99_output`).

### Time (`time.hpp`; files `Time*.v`)

* C66 refuted as an equality (15 ns become 14 ns) and, above 2^53 ticks, up to a tick.  Proved: error bounds and exactness when
  intermediate results are representable.

### Flattening (`ocp_flatten.hpp`; files `Flat*.v`)

* C67, C68 proved over groups with `lie_ok`; Hessians for references of constant velocity (`C68_accel_refuted` for others).
* C69 proved: all entries of the table, and that the series inverts that of dr_exp in nilpotent algebras.
* C77 refuted for accelerating references; proved for constant velocity (Hessian exact for nilpotent groups, else that of the
  truncated series).
* C78 refuted (multipliers are copied); the right multiplier is `C78_multiplier`.

### IPOPT and OSQP (`compat/ipopt.hpp`, `compat/osqp.hpp`; files `Ipopt*.v`, `Osqp*.v`)

* C70 refuted for patterns that depend on the point; proved for all call sequences for constant patterns, and that the programs
  of `ocp_to_nlp` are of this kind.
* C71 refuted (return values of IPOPT ignored; uninitialised OSQP workspace after a failed setup); proved when the solver runs.
* C72 refuted for zero limits; proved otherwise.
* C79 refuted for finite bounds of at least 1e19; C80 refuted without or with repeated option; C81 refuted for entries of at most
  1e-18 in dense programs.  Each with the exact or strongest true version.
* C91 refuted (`IpoptStart.v`): IPOPT asks for multipliers whenever warm_start_init_point is "yes", so a guess with only x, the
  user option "yes" without guess, or the result of a call that stopped before the optimization make get_starting_point copy from
  empty vectors.  `C91_defined` gives the exact condition; `C91_warm`, `C91_cold`, `C91_resume`, `C91_moved` the claim otherwise.

### Components together (files `End*.v`)

* C82, C83 proved from C02: the stopping test compares Ax with z in the bounds; the triangle inequality turns the tolerance, which
  depends on z, into one that depends on Ax; monotonicity of the multipliers gives the distance.
* C84 proved: `filter_run` with `builtin`, the model of solve_qp, as its solver.
* C85 proved: C04 for the first check of the loop, then induction over the calls with the invariant that the guess is zero.
* C86 proved: `mpc_run` with `mpc_solve`, the sparse solver, as its solver; each kind of row is rewritten with a tolerance
  (`running_near`, `end_near`, `dyn_near`) and combined with C82.
* C87 proved: `bexec_pat` computes the pattern of a list of block operations from patterns only; the patterns of an update and of a
  call are the same, by induction over the calls; then C13 for objects that only see one pattern.
* C88 proved: the Hessian of an MPC object is diagonal and not negative (`cost_diag`, `cost_ge0`), zero satisfies the rows on the
  reference, so zero is a solution with zero multipliers; C87 reduces each call to a new solver, C85 gives the result, and
  induction over the calls shows that guesses are zero.
* C89 refuted.  ocp_to_qp.hpp:179 and 189-191 write the upper part of P only (`block_add(..., true)`), qp.hpp:34 and 63 say that
  only the upper part is used, and the factorization uses the symmetric extension, but check_stopping (qp_solver.hpp:589 and 627)
  multiplies with the stored P.  `C89_not_optimal`: a solver started at the solution never answers Optimal if the stored P leaves a
  residual there; `C89_runs_on`: if moreover a row has two finite bounds (every dynamics row has) and there is no limit on
  iterations or time, which is the default, it never returns.  `C89_refuted`: x' = u with the cost
  x0^2 + x0 xf + xf^2 - 3 (x0 + xf) is such a case, with the default parameters.  `C89_separable_partial`: costs without mixed second
  derivatives (`C89_diagonal`: then P is diagonal) are solved as meant.  The program of MPC has a diagonal Hessian with the default
  weights.

### Not expressible

None of the properties was dropped.  Run-time quantities (wall clock, memory, speed) appear only as oracles.

## 4. Tests of the theorems

`seeded/LOG.jsonl` has one line per wrong program: a definition of the model was edited in a scratch copy as a realistic bug
would, the development was rebuilt, and the theorems that fail were recorded.  Where a theorem still held although its
English claim had become false, it was tightened.
