{
 "claims": [
  {
   "property": "C01",
   "status": "proved",
   "theorems": [
    "C01_positive",
    "C01_equivalent",
    "C01_warmstart",
    "C01_iterates"
   ],
   "note": "Exact arithmetic; sqrt an oracle that keeps positivity; n,m>0 (scale() asserts otherwise)."
  },
  {
   "property": "C02",
   "status": "proved",
   "theorems": [
    "C02_optimal_dense",
    "C02_optimal_sparse"
   ],
   "note": "With polish=false, or with a failing polish (C15_failed_partial); with a successful polish see C15."
  },
  {
   "property": "C03",
   "status": "proved",
   "theorems": [
    "C03_near_optimal",
    "C03_kkt_optimal"
   ],
   "note": "For convex problems without polishing."
  },
  {
   "property": "C04",
   "status": "proved",
   "theorems": [
    "C04_solution_fixed",
    "C04_fixed_solution",
    "C04_solve_returns"
   ],
   "note": "Every positive scaling; warm start at a KKT pair is returned unchanged."
  },
  {
   "property": "C05",
   "status": "proved",
   "theorems": [
    "C05_nonsingular",
    "C05_sparse_dense"
   ],
   "note": "Sparse H equals dense H for every object reachable by any sequence of solves."
  },
  {
   "property": "C06",
   "status": "proved",
   "theorems": [
    "C06_distance",
    "C06_rate",
    "C06_residuals_vanish",
    "C06_terminates"
   ],
   "note": "Exact arithmetic, 0<alpha<2, convex problem with a KKT pair; termination for stop_check_iter>1."
  },
  {
   "property": "C07",
   "status": "partial",
   "theorems": [
    "C07_refuted",
    "C07_certificate_partial",
    "C07_zero_tolerance_partial"
   ],
   "note": "REFUTED: min x s.t. 1e-5 x = 0 is reported PrimalInfeasible (scaling off). Proved: contradictory row or approximate Farkas certificate; sound for eps_primal_inf <= 0."
  },
  {
   "property": "C08",
   "status": "partial",
   "theorems": [
    "C08_refuted",
    "C08_certificate_partial",
    "C08_direction_partial"
   ],
   "note": "REFUTED: min 0 s.t. x >= 1000 is reported DualInfeasible with default parameters. Proved: approximate recession direction."
  },
  {
   "property": "C09",
   "status": "proved",
   "theorems": [
    "C09_contradictory",
    "C09_otherwise"
   ],
   "note": "Contradictory bounds give PrimalInfeasible with zero iterations if the factorization succeeds (Unknown otherwise)."
  },
  {
   "property": "C10",
   "status": "proved",
   "theorems": [
    "C10_iterations",
    "C10_no_limit",
    "C10_time",
    "C10_deadline",
    "C10_deadline_returns"
   ],
   "note": "max_iter < 2^32 (the counter is a 32-bit unsigned)."
  },
  {
   "property": "C100",
   "status": "partial",
   "theorems": [
    "C100_refuted",
    "C100_unscaled",
    "C100_optimal"
   ],
   "note": "REFUTED: with scaling, the initial z is computed from the overwritten primal part of the guess (qp_solver.hpp:438-440); witness min 0 s.t. 16 x = 16. True without scaling (C100_unscaled); an Optimal answer still satisfies the tolerances of C02 (C100_optimal)."
  },
  {
   "property": "C101",
   "status": "partial",
   "theorems": [
    "C101_entries",
    "C101_columns",
    "C101_cost_refuted"
   ],
   "note": "Proved for the columns of [P A^T; A 0] (C101_entries, C101_columns). REFUTED for the cost: the scaled q can be 1000 times the scaled P (C101_cost_refuted)."
  },
  {
   "property": "C102",
   "status": "proved",
   "theorems": [
    "C102_answer",
    "C102_primal",
    "C102_dual",
    "C102_bounds",
    "C102_overflow_refuted"
   ],
   "note": "binary64; the iterates before the last clamping are arbitrary; polishing off. C102_overflow_refuted shows that the size condition is needed: with overflow both sides of the test are infinite and it passes."
  },
  {
   "property": "C103",
   "status": "partial",
   "theorems": [
    "C103_primal",
    "C103_dual",
    "C103_stalled",
    "C103_zero_refuted",
    "C103_overflow_refuted"
   ],
   "note": "REFUTED: with dx = 0 the dual test passes for every problem with one-sided rows (min x^2/2 + x), and a sum that is NaN by overflow is ignored by std::max. Proved: without overflow both verdicts come with approximate certificates, with explicit rounding errors; the primal one is not zero."
  },
  {
   "property": "C104",
   "status": "proved",
   "theorems": [
    "C104_range",
    "C104_answer",
    "C104_overflow_refuted"
   ],
   "note": "For finite data of magnitude up to 2^b, b <= 400, all factors are finite and positive within stated bounds (C104_range); for data up to 2^137 an Optimal answer satisfies the tolerances of C102 without an assumption on the factors (C104_answer). A size condition is needed: near the overflow threshold the mean of the column norms is infinite, c_ is zero and no returned multiplier is finite (C104_overflow_refuted). Dense problems, IEEE binary64."
  },
  {
   "property": "C105",
   "status": "partial",
   "theorems": [
    "C105_history",
    "C105_coord",
    "C105_monotone",
    "C105_dscale",
    "C105_node",
    "C105_weights",
    "C105_refuted"
   ],
   "note": "REFUTED: after 35 divisions of the last interval the mesh of C97_refuted has an interval [1, 1]; the coordinate of t = 1 is NaN and the derivative factor is infinite (C105_refuted). Proved for all histories that C97 allows (C105_history) and for every interval tau0 < tauf (C105_coord, C105_monotone, C105_node; C105_dscale and C105_weights for lengths of at least 2^-1000 and 2^-900)."
  },
  {
   "property": "C106",
   "status": "partial",
   "theorems": [
    "C106_error",
    "C106_range",
    "C106_run",
    "C106_direct",
    "C106_negative_refuted"
   ],
   "note": "REFUTED: h = p = 0.7, r = 2^-80 give a negative variance, and a following measurement with positive variance a gain below -10^15 (C106_negative_refuted). Proved: the new variance is p r/(h^2 p + r) up to 2^-50 p, never above p, and nonnegative if r >= 2^-51 h^2 p (C106_error, C106_range) or if h = 1 (C106_direct); sequences of measurements with r >= h^2 p give the inverse of the total information up to 2^-48 per measurement (C106_run)."
  },
  {
   "property": "C107",
   "status": "partial",
   "theorems": [
    "C107_towards",
    "C107_between",
    "C107_error",
    "C107_run",
    "C107_overshoot_refuted"
   ],
   "note": "REFUTED: from -1 the measurement y = 3*2^-54 leads to 4/3 y (C107_overshoot_refuted). Proved: the estimate moves towards y and passes it by at most 2^-52 |y - x| (C107_towards), not at all if y/2 <= x <= 2y (C107_between); any number of measurements in [A, B] keeps it in [A, B] up to 2^-51 (B - A) (C107_run); error of one step (C107_error)."
  },
  {
   "property": "C108",
   "status": "partial",
   "theorems": [
    "C108_nonneg",
    "C108_error",
    "C108_walk",
    "C108_negative_refuted"
   ],
   "note": "REFUTED at the stability limit: a = -7/27, dt = 1/(2|a|), p = 253/4, q = 0 give a negative variance (C108_negative_refuted). Proved: nonnegative if -2 a dt <= 1 - 2^-50 (C108_nonneg), each step exact up to 2^-50 (C108_error), and a whole call with a = 0 gives p + q tau up to 2^-51 per step (C108_walk)."
  },
  {
   "property": "C109",
   "status": "proved",
   "theorems": [
    "C109_filter"
   ],
   "note": "Any sequence of calls of predict (f = 0) and update (h(x) = x) of a scalar filter in binary64: the estimate stays in the range of the measurements up to 2^-51 of its length, the variance stays nonnegative and at most 81/80 (p + sum q tau) + 1/200. Induction over the calls."
  },
  {
   "property": "C11",
   "status": "partial",
   "theorems": [
    "C11_refuted",
    "C11_checks_partial"
   ],
   "note": "REFUTED: for stop_check_iter = 1 no check is ever made and the loop never ends without max_iter. Proved for stop_check_iter > 1 until the 32-bit counter wraps."
  },
  {
   "property": "C110",
   "status": "partial",
   "theorems": [
    "C110_sample",
    "C110_sample_error",
    "C110_sample_monotone",
    "C110_back",
    "C110_round_trip",
    "C110_outside_refuted"
   ],
   "note": "REFUTED: for t0 = 0.3, tf = 0.9 the last sample time is after tf (C110_outside_refuted). Proved: at most 2^-52 (tf - t0) after tf, never before t0, never after tf if t0 = 0 or tf <= 2 t0; monotone and exact up to rounding; the back map stays in [0, 1] with exact ends, monotone, exact up to 2^-51; for t0 = 0 a node is mapped back to itself up to 2^-49."
  },
  {
   "property": "C12",
   "status": "partial",
   "theorems": [
    "C12_refuted",
    "C12_iterates_partial"
   ],
   "note": "REFUTED: residual checks multiply with the full P. Proved: iterates only depend on the upper triangle."
  },
  {
   "property": "C13",
   "status": "partial",
   "theorems": [
    "C13_refuted",
    "C13_history_dense",
    "C13_history_sparse_partial",
    "C13_history_sparse_same_structure"
   ],
   "note": "REFUTED for sparse problems with changing structure (stale symbolic analysis, not reset by analyze()). Proved for dense problems and for sparse problems of equal structure."
  },
  {
   "property": "C14",
   "status": "partial",
   "theorems": [
    "C14_refuted",
    "C14_code_partial"
   ],
   "note": "REFUTED: a failed polish is reported as Optimal (code overwritten). Proved: code and iteration count do not depend on polishing."
  },
  {
   "property": "C15",
   "status": "partial",
   "theorems": [
    "C15_refuted",
    "C15_failed_partial"
   ],
   "note": "REFUTED: min 1e-4 x on [-1,1] with default parameters returns Optimal with x=-500. Proved: tolerances hold if polishing fails."
  },
  {
   "property": "C16",
   "status": "proved",
   "theorems": [
    "C16_rows_once",
    "C16_bound_finite",
    "C16_write_back",
    "C16_fixed_point"
   ],
   "note": "0 <= machine epsilon; lower bounds not +inf, upper bounds not -inf."
  },
  {
   "property": "C17",
   "status": "proved",
   "theorems": [
    "C17_mesh_is_partition"
   ],
   "note": "Kmin >= 1; exact arithmetic."
  },
  {
   "property": "C18",
   "status": "proved",
   "theorems": [
    "C18_mesh_degrees"
   ],
   "note": "Kmin >= 1."
  },
  {
   "property": "C19",
   "status": "partial",
   "theorems": [
    "C19_refine_ph_partial",
    "C19_ceil",
    "C19_count",
    "C19_refine_ph_refuted"
   ],
   "note": "REFUTED: the first sub-interval keeps the old degree instead of Kmin (mesh.hpp:150-160). C19_refine_ph_partial characterises the result completely otherwise; C19_count states the number and the lengths of the new intervals without the formula of the code."
  },
  {
   "property": "C20",
   "status": "proved",
   "theorems": [
    "C20_refine_errors"
   ],
   "note": "kinc is the value of the lround expression, arbitrary."
  },
  {
   "property": "C21",
   "status": "proved",
   "theorems": [
    "C21_nodes_weights"
   ],
   "note": "Assumes the contract of smooth::lgr_nodes (Gauss-Radau quadrature), satisfied by the Example instance."
  },
  {
   "property": "C22",
   "status": "proved",
   "theorems": [
    "C22_diffmat_intmat"
   ],
   "note": "Assumes the contract of smooth::lgr_nodes (Gauss-Radau quadrature), satisfied by the Example instance."
  },
  {
   "property": "C23",
   "status": "proved",
   "theorems": [
    "C23_eval_nodes",
    "C23_eval_polynomial"
   ],
   "note": "Assumes the contract of smooth::lgr_nodes (Gauss-Radau quadrature), satisfied by the Example instance. Also the contract of binary_interval_search."
  },
  {
   "property": "C24",
   "status": "partial",
   "theorems": [
    "C24_eval_derivative_partial",
    "C24_eval_derivative_refuted"
   ],
   "note": "REFUTED: derivatives are taken with respect to the interval coordinate u in [-1,1]; the factor (2/(tauf-tau0))^p is missing (mesh.hpp:452-453). The partial theorem gives the exact value returned."
  },
  {
   "property": "C25",
   "status": "proved",
   "theorems": [
    "C25_interval_find"
   ],
   "note": "Assumes the contract of binary_interval_search."
  },
  {
   "property": "C26",
   "status": "partial",
   "theorems": [
    "C26_N_colloc_partial",
    "C26_N_colloc_refuted"
   ],
   "note": "REFUTED for 2^32 or more points: the accumulator is the 32-bit 0u (mesh.hpp:117). Holds below."
  },
  {
   "property": "C27",
   "status": "proved",
   "theorems": [
    "C27_value",
    "C27_jacobian",
    "C27_hessian"
   ],
   "note": "mesh_eval on R^nx x R^nu: value, Jacobian and upper-triangular Lagrangian Hessian are the exact derivatives for every mesh, function and multiplier"
  },
  {
   "property": "C28",
   "status": "proved",
   "theorems": [
    "C28_value",
    "C28_jacobian",
    "C28_hessian",
    "C28_exact"
   ],
   "note": "mesh_integrate: value, derivatives, exactness for polynomials of degree <= 2 Kmin - 2 along the trajectory"
  },
  {
   "property": "C29",
   "status": "proved",
   "theorems": [
    "C29_value",
    "C29_jacobian",
    "C29_hessian"
   ],
   "note": "mesh_dyn: residual w (T f - x D), Jacobian and Lagrangian Hessian; assumes the 32-bit node count does not overflow (see C26)"
  },
  {
   "property": "C30",
   "status": "proved",
   "theorems": [
    "C30_eval",
    "C30_integrate",
    "C30_dyn"
   ],
   "note": "values after any earlier contents of the output object equal those of a fresh one"
  },
  {
   "property": "C31",
   "status": "proved",
   "theorems": [
    "C31_residual_polynomial",
    "C31_residual",
    "C31_dyn_error",
    "C31_dyn_error_exact"
   ],
   "note": "zero residual iff the values lie on a polynomial that solves the dynamics at the nodes; same characterisation for a zero error estimate"
  },
  {
   "property": "C32",
   "status": "proved",
   "theorems": [
    "C32_block_add",
    "C32_block_add_identity",
    "C32_set_zero"
   ],
   "note": "Sparse matrices are functions to option: value, stored pattern and untouched entries for every matrix, offset, scale and upper_only."
  },
  {
   "property": "C33",
   "status": "partial",
   "theorems": [
    "C33_refuted",
    "C33_block_write_partial",
    "C33_dense",
    "C33_write_identity"
   ],
   "note": "REFUTED: entries the sparse source does not store keep the old value of the destination. Proved for stored (in particular dense) sources or zero destination, and that nothing outside the block changes."
  },
  {
   "property": "C34",
   "status": "proved",
   "theorems": [
    "C34_hessian"
   ],
   "note": "For differentiable f and g with the stated layout of derivatives, d2r_fog adds the Hessian of every component of f(g(x)). Derivatives are epsilon-delta derivatives over any real field (Calc.v)."
  },
  {
   "property": "C35",
   "status": "proved",
   "theorems": [
    "C35_variables",
    "C35_constraints"
   ],
   "note": "Layout of variables and constraints: sizes, ranges, injective and onto."
  },
  {
   "property": "C36",
   "status": "proved",
   "theorems": [
    "C36_feasible"
   ],
   "note": "Feasible points of the nonlinear program are exactly the feasible points of the collocated problem; exact arithmetic, scaling by 1/max weight included."
  },
  {
   "property": "C37",
   "status": "proved",
   "theorems": [
    "C37_gradient",
    "C37_jacobian"
   ],
   "note": "For every object state (values left by earlier calls do not matter)."
  },
  {
   "property": "C38",
   "status": "partial",
   "theorems": [
    "C38_objective_partial",
    "C38_lagrangian_partial",
    "C38_objective_cross",
    "C38_lagrangian_cross",
    "C38_no_cross_terms",
    "C38_objective_refuted"
   ],
   "note": "REFUTED: the blocks of second derivatives in (q, x0) and (q, xf) are written below the diagonal only, so the upper triangle has zeros there; all other entries are correct, and the full claim holds when the mixed derivatives vanish."
  },
  {
   "property": "C39",
   "status": "partial",
   "theorems": [
    "C39_to_nlp",
    "C39_roundtrip_partial",
    "C39_no_result",
    "C39_roundtrip_refuted"
   ],
   "note": "REFUTED: nlpsol_to_ocpsol divides an integer by zero for Ncr = 0 or Nu = 0; otherwise the round trip preserves variables and multipliers of constraints (multipliers of variable bounds are returned as zero)."
  },
  {
   "property": "C40",
   "status": "proved",
   "theorems": [
    "C40_rows",
    "C40_update",
    "C40_affine"
   ],
   "note": "Dynamics rows of the QP = collocation equations of the linearized dynamics, for any X,U (with ad term) and for the full update; for affine dynamics and polynomial references = nonlinear collocation."
  },
  {
   "property": "C41",
   "status": "partial",
   "theorems": [
    "C41_gradient",
    "C41_gradient_general",
    "C41_hessian_general",
    "C41_hessian_partial",
    "C41_hessian_refuted",
    "C41_gradient_refuted"
   ],
   "note": "REFUTED: the endpoint Hessian is multiplied by 1/2 (theta = xf^2 gives P = 1 instead of 2) and the derivatives of theta are taken at q = 1 (theta = q^2 gives a wrong gradient). Proved: exact characterisation of P and q for all problems; gradient exact if theta is linear in the integral; Hessian exact if also the endpoint Hessian vanishes."
  },
  {
   "property": "C42",
   "status": "partial",
   "theorems": [
    "C42_running",
    "C42_end_partial",
    "C42_end_fresh_partial",
    "C42_end_refuted"
   ],
   "note": "REFUTED for end constraints that depend on the integral (evaluated at q = 1). Proved: running rows for every history; end rows for constraints independent of q."
  },
  {
   "property": "C43",
   "status": "partial",
   "theorems": [
    "C43_update_partial",
    "C43_update_refuted"
   ],
   "note": "REFUTED for end-constraint Jacobians whose stored entries vary (block_write keeps stale entries). Proved for every history with a constant pattern."
  },
  {
   "property": "C44",
   "status": "proved",
   "theorems": [
    "C44_nodes"
   ],
   "note": "Trajectories at every node, any X,U and rplus."
  },
  {
   "property": "C45",
   "status": "partial",
   "theorems": [
    "C45_ignored",
    "C45_weights_refuted"
   ],
   "note": "REFUTED: set_weights never reaches the quadratic program: its cost is built once in the constructor (C45_weights_refuted). Proved: set_weights has no influence on any output, for every history (C45_ignored)."
  },
  {
   "property": "C46",
   "status": "partial",
   "theorems": [
    "C46_cost_partial",
    "C46_blocks_partial",
    "C46_running_weights_refuted",
    "C46_more_inputs",
    "C46_no_object"
   ],
   "note": "REFUTED: MPCIntegrand::hessian tests Q(i,j) where it should test R(i,j), so entries of R are dropped (C46_running_weights_refuted), and with more inputs than states it reads outside of Q (C46_more_inputs, C46_no_object). Proved: the exact blocks of the Hessian, and that for the identity weights the cost of every call is the running cost plus a term in the initial deviation."
  },
  {
   "property": "C47",
   "status": "partial",
   "theorems": [
    "C47_final_free",
    "C47_no_effect",
    "C47_final_weight_refuted"
   ],
   "note": "REFUTED: the final weight is written to the block of the initial state, so the final deviation does not enter the cost (C47_final_free, C47_final_weight_refuted); on the feasible set its term is a constant (C47_no_effect)."
  },
  {
   "property": "C48",
   "status": "partial",
   "theorems": [
    "C48_rows_time",
    "C48_rows_constant",
    "C48_affine_partial",
    "C48_input_partial",
    "C48_input_constant",
    "C48_input_bounds_refuted"
   ],
   "note": "REFUTED for constraints without set_time: they are linearised once around zero and constrain the deviation, not the input (C48_rows_constant, C48_input_constant, C48_input_bounds_refuted). Proved for constraints with set_time: every feasible point satisfies the constraint linearised at the current references; affine constraints, in particular input bounds, hold for the returned trajectories and input."
  },
  {
   "property": "C49",
   "status": "partial",
   "theorems": [
    "C49_no_set_partial",
    "C49_unshared",
    "C49_copies_refuted"
   ],
   "note": "REFUTED: copies share the desired trajectories through shared_ptr (C49_copies_refuted). Proved: independence for all histories in which no other object sets a desired trajectory, and for objects that are not copied."
  },
  {
   "property": "C50",
   "status": "proved",
   "theorems": [
    "C50_mesh",
    "C50_trajectories"
   ],
   "note": "For X = R^Nx, U = R^Nu; N below 2^32."
  },
  {
   "property": "C51",
   "status": "proved",
   "theorems": [
    "C51_guess",
    "C51_filter"
   ],
   "note": "MPC: every history of calls and resets. ASIFilter: guess is the most recent Optimal solution, for every history."
  },
  {
   "property": "C52",
   "status": "proved",
   "theorems": [
    "C52_rows",
    "C52_derivative",
    "C52_relaxation"
   ],
   "note": "C52_rows: for every problem whose dynamics are affine in the input, in terms of the propagated state and sensitivity. C52_derivative: the row is a derivative along the flow, for closed loops affine in the state; see C75 for the sensitivity of other closed loops."
  },
  {
   "property": "C53",
   "status": "proved",
   "theorems": [
    "C53_feasible"
   ],
   "note": "Feasible points with correction mu exist iff u + mu is within the input bounds, for every program with any history of updates."
  },
  {
   "property": "C54",
   "status": "partial",
   "theorems": [
    "C54_times_partial",
    "C54_divides",
    "C54_large",
    "C54_refuted"
   ],
   "note": "REFUTED: if dt does not divide tau a sample is taken late (C54_refuted: at 2/3 instead of 1/2). Proved: the sample is taken within dt after k tau, and exactly at k tau if dt divides tau or dt >= tau."
  },
  {
   "property": "C55",
   "status": "proved",
   "theorems": [
    "C55_update",
    "C55_filter"
   ],
   "note": "Every history of updates of the same size; for ASIFilter every history of calls."
  },
  {
   "property": "C56",
   "status": "proved",
   "theorems": [
    "C56_rows",
    "C56_filter"
   ],
   "note": "Rows of the input bounds for every history; the returned input of the filter if the solver returns a feasible point."
  },
  {
   "property": "C57",
   "status": "partial",
   "theorems": [
    "C57_bound",
    "C57_diverges",
    "C57_terminates",
    "C57_refuted"
   ],
   "note": "REFUTED for dt <= 0 (C57_diverges, C57_refuted). Proved: terminates iff K = 0 or T <= 0 or dt > 0 (C57_terminates); every while loop ends within max(1, ceil(tau/dt)) steps (C57_bound), in total at most K times that (C54_times_partial)."
  },
  {
   "property": "C58",
   "status": "partial",
   "theorems": [
    "C58_ekf_predict_steps_partial",
    "C58_ekf_predict_default_partial",
    "C58_ekf_predict_terminates_iff",
    "C58_ekf_predict_refuted"
   ],
   "note": "REFUTED as stated for tau<0 with default dt (loop never ends). Proved for tau>=0 and dt>0/default; exact termination condition proved."
  },
  {
   "property": "C59",
   "status": "proved",
   "theorems": [
    "C59_ekf_symmetric",
    "C59_ekf_predict_upper",
    "C59_ekf_update_upper"
   ],
   "note": "Every history, every explicit Runge-Kutta stepper."
  },
  {
   "property": "C60",
   "status": "proved",
   "theorems": [
    "C60_ekf_update_shrinks"
   ],
   "note": "Joseph form."
  },
  {
   "property": "C61",
   "status": "proved",
   "theorems": [
    "C61_ekf_information",
    "C61_ekf_least_squares",
    "C61_ekf_order"
   ],
   "note": "Linear measurements on R^d."
  },
  {
   "property": "C62",
   "status": "partial",
   "theorems": [
    "C62_ekf_predict_psd_refuted",
    "C62_ekf_predict_psd_partial",
    "C62_ekf_predict_pd_small_partial"
   ],
   "note": "REFUTED: default Euler step over tau=1 of dx/dt=-x maps covariance 1 to -1. Sufficient conditions proved."
  },
  {
   "property": "C63",
   "status": "proved",
   "theorems": [
    "C63_pid_windup"
   ],
   "note": "Invariant over all operation histories; hypothesis 0 <= limit."
  },
  {
   "property": "C64",
   "status": "proved",
   "theorems": [
    "C64_pid_integral",
    "C64_pid_integral_limit"
   ],
   "note": "Without and with windup limit; elapsed time is counted from the previous call, so a clock that jumps back makes a span count twice (as the property says)."
  },
  {
   "property": "C65",
   "status": "proved",
   "theorems": [
    "C65_pid_output",
    "C65_pid_output_limit"
   ],
   "note": "Output law for every history; last configured gains and trajectory."
  },
  {
   "property": "C66",
   "status": "partial",
   "theorems": [
    "C66_plus_exact",
    "C66_minus_exact",
    "C66_near",
    "C66_float_bound",
    "C66_ticks",
    "C66_ticks_before",
    "C66_duration",
    "C66_tick_refuted",
    "C66_long_refuted",
    "C66_float_refuted"
   ],
   "note": "REFUTED as an equality, and beyond 2^53 ticks also up to one tick (C66_tick_refuted: 15 ns become 14 ns; C66_long_refuted: 100 ticks lost; C66_float_refuted: 2^53 + 0.5). Proved for the IEEE semantics of double: exact for floating point times whenever the exact intermediate result is representable, within half ulps in general; within one tick for integral clocks of period 1/N up to 2^53 ticks."
  },
  {
   "property": "C67",
   "status": "proved",
   "theorems": [
    "C67_dynamics",
    "C67_problem",
    "C67_optimal"
   ],
   "note": "Exact arithmetic over any real field; the functions of the library smooth (exp, Ad, dr_exp, ...) are trusted to satisfy lie_ok, which holds for vectors, products and step-two nilpotent groups (FlatGroup.Nil2_ok)."
  },
  {
   "property": "C68",
   "status": "proved",
   "theorems": [
    "C68_inner_jacobian",
    "C68_end_jacobian",
    "C68_inner_hessian",
    "C68_end_hessian",
    "C68_accel_refuted"
   ],
   "note": "Values and Jacobians for every reference; Hessians for references of constant velocity. C68_accel_refuted: the Hessian leaves out the acceleration of the reference."
  },
  {
   "property": "C69",
   "status": "proved",
   "theorems": [
    "C69_table",
    "C69_inverse"
   ],
   "note": "All 23 entries; also that the series with these coefficients inverts dr_exp for nilpotent ad."
  },
  {
   "property": "C70",
   "status": "partial",
   "theorems": [
    "C70_jacobian",
    "C70_hessian",
    "C70_ocp_jacobian",
    "C70_ocp_hessian_partial",
    "C70_jacobian_refuted",
    "C70_hessian_refuted"
   ],
   "note": "REFUTED for programs whose stored pattern depends on the point (C70_jacobian_refuted, C70_hessian_refuted: IPOPT is told that there are no entries and gets one). Proved for all histories of calls if the stored positions of the Jacobian are constant and those of the Hessian are among the ones at zero (C70_jacobian, C70_hessian), and that the programs of ocp_to_nlp are of this kind if the patterns of the derivatives of the optimal control problem are constant, so that IPOPT gets the exact partial derivatives (C70_ocp_*; the Hessian without the q-x0 and q-xf terms that C38 shows to be dropped)"
  },
  {
   "property": "C71",
   "status": "partial",
   "theorems": [
    "C71_ipopt_partial",
    "C71_ipopt_refuted",
    "C71_osqp_partial",
    "C71_osqp_refuted"
   ],
   "note": "REFUTED: solve_nlp_ipopt ignores the return values of Initialize and OptimizeTNLP, so an IPOPT error before finalize_solution returns the warm start with its status (or an uninitialised status); solve_qp_osqp uses an uninitialised workspace pointer if osqp_setup fails, for instance for l > u. Proved: whenever the solvers run, statuses and solutions are passed on faithfully, Optimal exactly for their successes"
  },
  {
   "property": "C72",
   "status": "partial",
   "theorems": [
    "C72_time_partial",
    "C72_time_refuted",
    "C72_iter_partial",
    "C72_iter_refuted"
   ],
   "note": "REFUTED: max_time = 0 means no limit for OSQP, and max_iter = 0, for which the built-in solver returns MaxIterations, makes osqp_setup fail (undefined behaviour). Proved: other limits are passed on, in seconds, and no limit as the largest number of iterations"
  },
  {
   "property": "C73",
   "status": "proved",
   "theorems": [
    "C73_mark",
    "C73_count"
   ],
   "note": "All sparse matrices."
  },
  {
   "property": "C74",
   "status": "proved",
   "theorems": [
    "C74_initial",
    "C74_dynamics"
   ],
   "note": "For X = R^Nx, U = R^Nu; N below 2^32."
  },
  {
   "property": "C75",
   "status": "partial",
   "theorems": [
    "C75_affine_partial",
    "C75_sensitivity_refuted"
   ],
   "note": "REFUTED: the sensitivity step uses the state after the step (x' = x^2 + u: 5 instead of 3). Proved for closed loops affine in the state."
  },
  {
   "property": "C76",
   "status": "proved",
   "theorems": [
    "C76_minimal",
    "C76_filter"
   ],
   "note": "For an exact solver."
  },
  {
   "property": "C77",
   "status": "partial",
   "theorems": [
    "C77_accel_refuted",
    "C77_jacobian",
    "C77_hessian_partial",
    "C77_hessian"
   ],
   "note": "REFUTED: for an accelerating reference the time derivative misses the acceleration (C77_accel_refuted). True for references of constant velocity: Jacobian exact for every group, Hessian exact for nilpotent groups; for other groups it is the Hessian of the series cut off after 23 terms (C77_hessian_partial)."
  },
  {
   "property": "C78",
   "status": "partial",
   "theorems": [
    "C78_refuted",
    "C78_multiplier"
   ],
   "note": "REFUTED: unflatten_ocpsol copies lambda_dyn, which is wrong in groups that do not commute (C78_refuted). The multiplier of the original dynamics is dr_expinv(e)^T lambda (C78_multiplier)."
  },
  {
   "property": "C79",
   "status": "partial",
   "theorems": [
    "C79_bounds_partial",
    "C79_bounds_refuted"
   ],
   "note": "REFUTED for finite bounds beyond 1e19, which IPOPT drops. Proved for bounds that are infinite or smaller"
  },
  {
   "property": "C80",
   "status": "partial",
   "theorems": [
    "C80_hessian_partial",
    "C80_hessian_iff",
    "C80_hessian_refuted",
    "C80_twice_refuted"
   ],
   "note": "REFUTED: without the option IPOPT asks for exact Hessians, but the wrapper has announced none and writes entries; with the option given twice the wrapper reads the first value and IPOPT the last. Proved if it is given once; exact characterisation in C80_hessian_iff"
  },
  {
   "property": "C81",
   "status": "partial",
   "theorems": [
    "C81_sparse",
    "C81_dense_partial",
    "C81_close",
    "C81_dense_refuted",
    "C81_symmetric_refuted"
   ],
   "note": "REFUTED for dense programs with entries of at most 1e-18, which prune() removes (C81_dense_refuted: feasible program becomes infeasible). Proved for sparse programs, for dense programs without such entries, and that the removed part is at most 1e-18 per entry. C81_symmetric_refuted shows that symmetry of P is needed"
  },
  {
   "property": "C82",
   "status": "proved",
   "theorems": [
    "C82_rows",
    "C82_rows_sparse"
   ],
   "note": "Polishing off (C15 is refuted for polished answers)."
  },
  {
   "property": "C83",
   "status": "proved",
   "theorems": [
    "C83_distance",
    "C83_distance_sparse"
   ],
   "note": "Polishing off; the solution is given with its multipliers."
  },
  {
   "property": "C84",
   "status": "proved",
   "theorems": [
    "C84_bounds",
    "C84_barrier",
    "C84_cost",
    "C84_safe"
   ],
   "note": "The filter model is instantiated with the QP solver model; polishing off; u (+) mu (-) c = u (-) c + mu for the bounds and control-affine dynamics for the barrier rows."
  },
  {
   "property": "C85",
   "status": "proved",
   "theorems": [
    "C85_returns",
    "C85_filter"
   ],
   "note": "Polishing off, factorizations succeed, at least two iterations allowed."
  },
  {
   "property": "C86",
   "status": "proved",
   "theorems": [
    "C86_initial",
    "C86_dynamics",
    "C86_running",
    "C86_input"
   ],
   "note": "Solver without polishing (polished answers: C15)."
  },
  {
   "property": "C87",
   "status": "proved",
   "theorems": [
    "C87_pattern",
    "C87_fresh"
   ],
   "note": ""
  },
  {
   "property": "C88",
   "status": "proved",
   "theorems": [
    "C88_cold",
    "C88_reference"
   ],
   "note": "Solver without polishing, at least two iterations allowed."
  },
  {
   "property": "C89",
   "status": "partial",
   "theorems": [
    "C89_refuted",
    "C89_not_optimal",
    "C89_runs_on",
    "C89_diagonal",
    "C89_separable_partial"
   ],
   "note": "REFUTED: P is stored as upper part only but the stopping test multiplies with the stored matrix; the solver started at the solution never returns. Proved when the cost has no mixed second derivatives."
  },
  {
   "property": "C90",
   "status": "partial",
   "theorems": [
    "C90_test",
    "C90_correct",
    "C90_eps_refuted"
   ],
   "note": "REFUTED: eps is not the tolerance, since isApprox is called with the literal 1e-4. Proved: the exact acceptance condition, and that correct derivatives are accepted."
  },
  {
   "property": "C91",
   "status": "partial",
   "theorems": [
    "C91_warm",
    "C91_cold",
    "C91_defined",
    "C91_resume",
    "C91_resume_failed",
    "C91_moved",
    "C91_x_only_refuted",
    "C91_cold_refuted"
   ],
   "note": "REFUTED: a guess with only x, and the user option warm_start_init_point=yes without guess, copy from empty vectors. Proved: the claim for complete guesses and without this option; the exact condition otherwise."
  },
  {
   "property": "C92",
   "status": "partial",
   "theorems": [
    "C92_moved",
    "C92_nodes",
    "C92_increase",
    "C92_errors",
    "C92_refined_partial",
    "C92_increased",
    "C92_refined_refuted"
   ],
   "note": "REFUTED when an interval with more than Kmin points is split. Proved otherwise, and always at the nodes of the new mesh."
  },
  {
   "property": "C93",
   "status": "proved",
   "theorems": [
    "C93_objective_dense",
    "C93_objective_sparse",
    "C93_value",
    "C93_upper"
   ],
   "note": "For all statuses and paths; bound on the value for convex programs without polishing."
  },
  {
   "property": "C94",
   "status": "proved",
   "theorems": [
    "C94_nonsingular",
    "C94_dense",
    "C94_sparse",
    "C94_unscaled"
   ],
   "note": "Polishing: distance and residual bounds when the rows taken as active are those of a solution; dense and sparse, any number of refinement steps."
  },
  {
   "property": "C95",
   "status": "partial",
   "theorems": [
    "C95_ekf_ends",
    "C95_ekf_steps",
    "C95_ekf_forever",
    "C95_ekf_refuted"
   ],
   "note": "REFUTED without tau <= 2^53 dt: predict(f, Q, 1, 2^-54) never returns (C95_ekf_refuted; for all powers of two dt and tau > 2^53 dt C95_ekf_forever). Proved for tau <= 2^53 dt: it returns (C95_ekf_ends), and the times and lengths of the steps (C95_ekf_steps). Flocq binary64; standard library axioms of the reals."
  },
  {
   "property": "C96",
   "status": "partial",
   "theorems": [
    "C96_window",
    "C96_ends",
    "C96_asif",
    "C96_exact",
    "C96_default_refuted",
    "C96_forever_refuted"
   ],
   "note": "REFUTED with the default parameters T = 1, K = 10, dt = 0.1: constraint 6 is evaluated at 0.7 instead of 0.6 (C96_default_refuted); T = 1, K = 1, dt = 2^-54 never returns (C96_forever_refuted). Proved: all loops end if T <= 2^52 dt and constraint k is evaluated between k T/K and k T/K + dt up to rounding (C96_asif, C96_window, C96_ends); exactly at k T/K for dyadic dt dividing T/K (C96_exact). Flocq binary64; standard library axioms of the reals."
  },
  {
   "property": "C97",
   "status": "partial",
   "theorems": [
    "C97_partition",
    "C97_nodes",
    "C97_refuted"
   ],
   "note": "REFUTED: with the default degrees, 35 refinements of the last interval make an interval of length zero at 1 (C97_refuted). Proved in binary64 for every history in which n initial intervals are divided r times into at most 2^b parts with n 2^(b r) <= 1e11: partition of [0,1] with lengths at least 1/(n 2^(b r)) - 2^-48, nodes finite, strictly increasing, from exactly 0 to exactly 1."
  },
  {
   "property": "C98",
   "status": "partial",
   "theorems": [
    "C98_dense",
    "C98_sparse",
    "C98_sparse_dense",
    "C98_free_refuted"
   ],
   "note": "REFUTED: changing the sign of a row without bounds changes the answer: min x with the row -inf <= -x <= inf is reported DualInfeasible, with -inf <= x <= inf the solver never returns under default parameters (C98_free_refuted), because the test for dual infeasibility treats such a row as if it had a lower bound. Proved if no row without bounds changes its sign, including scaling, warm starts and polishing, for dense and sparse problems (C98_dense, C98_sparse)."
  },
  {
   "property": "C99",
   "status": "partial",
   "theorems": [
    "C99_bounded",
    "C99_accuracy",
    "C99_nan",
    "C99_refuted",
    "C99_overflow_refuted",
    "C99_output"
   ],
   "note": "REFUTED: a call with finite data can return NaN, because one NaN error (or, with the default infinite limit, an overflow) stays in the integral and is added even when ki = 0. Proved: with a finite limit the integral stays finite and within the limit for all histories, including infinite errors and NaN times, and is accurate up to 2^-53 w + 2^-1074 per call plus 2^-51 times the integral of the absolute error."
  }
 ]
}
