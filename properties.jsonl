{"id": "C01", "title": "Problem scaling does not change the problem being solved", "statement": "The scaling factors chosen by the QP solver are strictly positive for every problem, and the internally scaled problem is equivalent to the user's problem: a point is feasible for one iff its rescaled image is feasible for the other, objective values differ only by the positive factor c, and (x,y) is a primal/dual solution of the user's problem iff the rescaled pair is one of the scaled problem. A warm start is scaled by exactly the inverse of the map applied to the returned solution.", "quantifier": "every QP (all n, m, P, q, A, finite or infinite l,u) and every pair of points", "why_tests_cant": "Equivalence is a statement about all points of all problems; a test compares a handful of solved problems and would not see a wrong exponent on a factor that happens to be 1.", "anchors": ["include/smooth/feedback/qp_solver.hpp: QPSolver::scale", "include/smooth/feedback/qp_solver.hpp: QPSolver::solve"]}
{"id": "C02", "title": "An Optimal answer satisfies the documented residual tolerances and exact sign conditions", "statement": "If solve() (polish off) returns Optimal then, for the returned (primal x, dual y), there is a z with l<=z<=u such that |Ax-z| <= eps_abs+eps_rel*max(|Ax|,|z|) and |Px+q+A'y| <= eps_abs+eps_rel*max(|Px|,|q|,|A'y|) in the infinity norm, and y is an exact multiplier for z: y_i>0 only where z_i=u_i and y_i<0 only where z_i=l_i.", "quantifier": "every QP with l<=u, every parameter setting, every warm start and every number of iterations", "why_tests_cant": "Requires the loop invariant (z in [l,u], y in the normal cone) for every iteration count, in combination with scaling/unscaling.", "anchors": ["include/smooth/feedback/qp_solver.hpp: QPSolver::solve", "include/smooth/feedback/qp_solver.hpp: QPSolver::check_stopping"]}
{"id": "C03", "title": "Optimal means near-optimal objective", "statement": "For convex P, if solve() (polish off) returns Optimal with residual bounds rp and rd then the objective at x is at most the objective at ANY feasible point v plus rd*|v-x|_1 + rp*|y|_1; with zero residuals x is a global minimiser.", "quantifier": "every convex QP and every feasible comparison point", "why_tests_cant": "Tests compare with a few known optima; the claim quantifies over every feasible point.", "anchors": ["include/smooth/feedback/qp_solver.hpp: QPSolver::solve", "include/smooth/feedback/qp_solver.hpp: QPSolver::check_stopping", "include/smooth/feedback/qp.hpp: QuadraticProgram"]}
{"id": "C04", "title": "Solver fixed points are exactly the optimal primal/dual pairs", "statement": "Warm-starting the solver from an optimal primal/dual pair leaves the iterate exactly where it is for every further iteration, and conversely any iterate the iteration leaves unchanged is an optimal primal/dual pair of the user's problem.", "quantifier": "every convex QP, every sigma,rho>0, alpha != 0", "why_tests_cant": "A tests sees convergence on an instance, not that no spurious fixed points exist.", "anchors": ["include/smooth/feedback/qp_solver.hpp: QPSolver::solve"]}
{"id": "C05", "title": "The linear system in every iteration has exactly one solution", "statement": "For convex P, positive sigma and rho the system matrix built by the solver is nonsingular for every A (also rank deficient, zero or with more rows than columns), and dense and sparse problem types build the same matrix.", "quantifier": "every convex QP, every positive step-size choice, dense and sparse containers, every previous content of the work matrix", "why_tests_cant": "Quantifies over all matrices.", "anchors": ["include/smooth/feedback/qp_solver.hpp: QPSolver::solve (filling of H_)"]}
{"id": "C06", "title": "The iteration converges for every solvable problem", "statement": "For a convex QP that has an optimal primal/dual pair, the distance of the iterate to every optimal pair (in the sigma/rho weighted norm) never increases from one iteration to the next, the primal and dual residuals tend to zero, and hence with eps_abs>0, no limits and a stop_check_iter for which checks happen the loop ends after finitely many iterations.", "quantifier": "every convex QP with a solution, 0<alpha<2, all starting points", "why_tests_cant": "Convergence and termination concern unbounded executions on all inputs.", "anchors": ["include/smooth/feedback/qp_solver.hpp: QPSolver::solve"]}
{"id": "C07", "title": "PrimalInfeasible is only reported for infeasible problems", "statement": "If solve() reports PrimalInfeasible then the constraints l<=Ax<=u have no solution.", "quantifier": "every QP, every parameter setting", "why_tests_cant": "Soundness of a verdict for all inputs; a single wrong verdict refutes it.", "anchors": ["include/smooth/feedback/qp_solver.hpp: QPSolver::check_stopping", "include/smooth/feedback/qp_solver.hpp: QPSolver::solve (lines 361-364)"]}
{"id": "C08", "title": "DualInfeasible is only reported for unbounded (dual infeasible) problems", "statement": "If solve() reports DualInfeasible then the problem has no optimal solution (the objective is unbounded below along a feasible ray or the dual is infeasible).", "quantifier": "every QP, every parameter setting", "why_tests_cant": "Soundness of a verdict for all inputs.", "anchors": ["include/smooth/feedback/qp_solver.hpp: QPSolver::check_stopping (lines 623-641)"]}
{"id": "C09", "title": "Contradictory bounds are always detected without iterating", "statement": "If some row has l_i=+inf or u_i=-inf or u_i<l_i, solve() returns PrimalInfeasible with zero iterations (unless the factorization itself fails, in which case Unknown); if no row is contradictory and the factorization succeeds the solver enters the iteration.", "quantifier": "every QP, every position of the offending row, every warm start", "why_tests_cant": "The offending row may be anywhere and later rows must not reset the verdict.", "anchors": ["include/smooth/feedback/qp_solver.hpp: QPSolver::solve (lines 361-374, 433, 449)"]}
{"id": "C10", "title": "Iteration limit and reported iteration count", "statement": "solve() never performs more than max_iter iterations, the reported iteration count is the number performed, and the code is MaxIterations exactly when the limit was reached without any other verdict; MaxTime is reported only if a time limit is set and has passed at a check, and the first check after the limit is the last.", "quantifier": "every QP, every max_iter/stop_check_iter/max_time setting, every clock behaviour", "why_tests_cant": "Depends on the interaction of the counter, periodic checks and the clock over all runs.", "anchors": ["include/smooth/feedback/qp_solver.hpp: QPSolver::solve (lines 447-510, 544-548)"]}
{"id": "C11", "title": "The stopping criterion is evaluated periodically for every configured period", "statement": "For every positive stop_check_iter the stopping criterion (and the time limit) is evaluated at least once in every stop_check_iter consecutive iterations (after the first), so a converged or timed-out solve ends.", "quantifier": "every stop_check_iter >= 1 and all iteration indices", "why_tests_cant": "A test uses one or two periods; the failing boundary value is 1.", "anchors": ["include/smooth/feedback/qp_solver.hpp: QPSolver::solve (lines 465, 479)", "include/smooth/feedback/qp_solver.hpp: QPSolverParams::stop_check_iter"]}
{"id": "C12", "title": "Only the upper triangle of P matters", "statement": "As documented on QuadraticProgram, two problems whose P agree on the upper triangle get the same answer (status, primal, dual, objective).", "quantifier": "every pair of QPs that differ only strictly below the diagonal of P", "why_tests_cant": "Relational property over pairs of inputs.", "anchors": ["include/smooth/feedback/qp.hpp: QuadraticProgram", "include/smooth/feedback/qp_solver.hpp: QPSolver::solve", "include/smooth/feedback/qp_solver.hpp: QPSolver::check_stopping", "include/smooth/feedback/ocp_to_qp.hpp: ocp_to_qp_update_cost"]}
{"id": "C13", "title": "Results do not depend on what a solver object solved before", "statement": "Calling solve() on a solver object that was analyzed for, and has already solved any sequence of other problems of the same dimensions gives the same result as a fresh solver on that problem.", "quantifier": "every sequence of earlier problems and results", "why_tests_cant": "Quantifies over histories of the object (left-over work memory, scaling, H_).", "anchors": ["include/smooth/feedback/qp_solver.hpp: QPSolver::analyze", "include/smooth/feedback/qp_solver.hpp: QPSolver::solve", "include/smooth/feedback/qp_solver.hpp: LDLTWrapper"]}
{"id": "C14", "title": "A failed polish is reported", "statement": "If polishing was requested and its factorization fails, the returned code is PolishFailed; in all other cases polishing does not change the code.", "quantifier": "every QP and every outcome of the polish factorization", "why_tests_cant": "Needs a failing factorization, which tests do not provoke.", "anchors": ["include/smooth/feedback/qp_solver.hpp: QPSolver::solve (lines 515-544)", "include/smooth/feedback/qp.hpp: QPSolutionStatus::PolishFailed"]}
{"id": "C15", "title": "Polishing preserves optimality", "statement": "A solution returned with code Optimal after polishing still satisfies the primal and dual tolerances that led to Optimal.", "quantifier": "every QP, every polish_iter, every active set guess", "why_tests_cant": "The polished point replaces the checked one without a re-check; only a for-all argument or a counterexample settles it.", "anchors": ["include/smooth/feedback/qp_solver.hpp: polish_qp", "include/smooth/feedback/qp_solver.hpp: QPSolver::solve (lines 515-547)"]}
{"id": "C16", "title": "Polishing solves the equality-constrained subproblem of the detected active set", "statement": "The active set used by polish contains each row at most once and only rows with a finite corresponding bound, multipliers are written back to the rows they were computed for, and any fixed point of the refinement satisfies Px+q+A_act'y_act=0 and A_act x = active bound.", "quantifier": "every dual vector, all bounds, all sizes", "why_tests_cant": "Index bookkeeping over every sign pattern.", "anchors": ["include/smooth/feedback/qp_solver.hpp: polish_qp"]}
{"id": "C17", "title": "A mesh is always a partition of [0,1]", "statement": "After any sequence of constructor, refine_ph, refine_errors, set_N_colloc_ival, increase_degrees and decrease_degrees calls, the mesh intervals start at 0, have strictly increasing left end points, all below 1, and every interval has positive length.", "quantifier": "every sequence of mesh operations with every argument", "why_tests_cant": "Invariant over unbounded operation sequences.", "anchors": ["include/smooth/feedback/collocation/mesh.hpp: Mesh"]}
{"id": "C18", "title": "Interval degrees stay within the configured range", "statement": "After any sequence of mesh operations (with arguments within the asserted ranges) every interval has between Kmin and Kmax+1 collocation points, i.e. precomputed nodes, weights and differentiation matrices exist for every interval.", "quantifier": "every sequence of mesh operations", "why_tests_cant": "Invariant over unbounded operation sequences.", "anchors": ["include/smooth/feedback/collocation/mesh.hpp: Mesh::refine_ph", "include/smooth/feedback/collocation/mesh.hpp: Mesh::refine_errors", "include/smooth/feedback/collocation/mesh.hpp: Mesh::increase_degrees", "include/smooth/feedback/collocation/mesh.hpp: Mesh::decrease_degrees"]}
{"id": "C19", "title": "refine_ph(i,D) does what is documented", "statement": "If D or the current degree exceeds Kmax, interval i is replaced by n=max(2,ceil(D/Kmin)) intervals of equal length, each with Kmin points, and every other interval is unchanged; otherwise interval i gets the maximum of D and its current degree, and nothing else changes.", "quantifier": "every mesh, every i and D", "why_tests_cant": "Quantifies over all meshes and positions.", "anchors": ["include/smooth/feedback/collocation/mesh.hpp: Mesh::refine_ph"]}
{"id": "C20", "title": "refine_errors refines exactly the intervals whose error exceeds the target", "statement": "refine_errors(errs,target) leaves every interval with error at most the target unchanged and refines every interval with a larger error according to its own error value, irrespective of the splits of other intervals.", "quantifier": "every mesh, every error vector", "why_tests_cant": "Index shifting caused by earlier splits is only visible for particular combinations.", "anchors": ["include/smooth/feedback/collocation/mesh.hpp: Mesh::refine_errors"]}
{"id": "C21", "title": "Nodes and weights of a mesh", "statement": "all_nodes() has N_colloc()+1 strictly increasing entries from 0 to exactly 1, all_weights() has N_colloc()+1 entries, the first N_colloc positive and the last 0, summing to 1, and the weights integrate every polynomial of degree <= 2*Kmin-2 over [0,1] exactly.", "quantifier": "every mesh reachable by any operation sequence", "why_tests_cant": "Holds for all meshes and all polynomials.", "anchors": ["include/smooth/feedback/collocation/mesh.hpp: Mesh::all_nodes", "include/smooth/feedback/collocation/mesh.hpp: Mesh::all_weights", "include/smooth/feedback/collocation/mesh.hpp: Mesh::interval_nodes", "include/smooth/feedback/collocation/mesh.hpp: Mesh::interval_weights", "include/smooth/feedback/collocation/mesh.hpp: lgr_plus_one"]}
{"id": "C22", "title": "Differentiation and integration matrices are exact on polynomials", "statement": "For every interval with K points, [x(t0)..x(tK)]*interval_diffmat equals the derivative at the K nodes for every polynomial x of degree <= K; the integration matrix exists (the sub-matrix is invertible) and recovers x(t1..tK) from x(t0) and the derivatives.", "quantifier": "every K, every interval, every polynomial of degree <= K", "why_tests_cant": "For all polynomials and all K.", "anchors": ["include/smooth/feedback/collocation/mesh.hpp: Mesh::interval_diffmat", "include/smooth/feedback/collocation/mesh.hpp: Mesh::interval_diffmat_unscaled", "include/smooth/feedback/collocation/mesh.hpp: Mesh::interval_intmat"]}
{"id": "C23", "title": "Mesh::eval interpolates", "statement": "eval at a mesh node returns the stored value of that node, and if the stored values are samples of a function that is a polynomial of degree <= K on each interval then eval returns that function everywhere in [0,1].", "quantifier": "every mesh, every data, every evaluation time", "why_tests_cant": "For all times and all data; boundary nodes between intervals are the delicate case.", "anchors": ["include/smooth/feedback/collocation/mesh.hpp: Mesh::eval", "include/smooth/feedback/collocation/mesh.hpp: Mesh::interval_find"]}
{"id": "C24", "title": "Mesh::eval derivatives", "statement": "eval with p>=1 returns the p-th derivative with respect to time of the interpolant.", "quantifier": "every mesh, interval length, data, and p", "why_tests_cant": "Existing tests only use p=0; the scale depends on the interval length.", "anchors": ["include/smooth/feedback/collocation/mesh.hpp: Mesh::eval"]}
{"id": "C25", "title": "interval_find returns the containing interval", "statement": "For t in [0,1), interval_find(t) returns the unique i with tau_i <= t < tau_{i+1}; for t>=1 it returns the last interval.", "quantifier": "every reachable mesh and every t", "why_tests_cant": "For all t and meshes.", "anchors": ["include/smooth/feedback/collocation/mesh.hpp: Mesh::interval_find"]}
{"id": "C26", "title": "N_colloc is the total number of collocation points", "statement": "N_colloc() equals the sum of N_colloc_ival(i) over all intervals and is the offset used consistently by node, weight and evaluation routines.", "quantifier": "every mesh size", "why_tests_cant": "A counter width problem only shows for huge meshes.", "anchors": ["include/smooth/feedback/collocation/mesh.hpp: Mesh::N_colloc"]}
{"id": "C27", "title": "mesh_eval value, Jacobian and Hessian are consistent", "statement": "F returned by mesh_eval stacks f(t_i,x_i,u_i); every entry of dF is the partial derivative of F with respect to the corresponding variable of [t0,tf,x,u]; the upper triangle of d2F is the Hessian of lambda'F.", "quantifier": "every mesh, twice differentiable f, every t0,tf,x,u,lambda", "why_tests_cant": "A test compares with finite differences at a point.", "anchors": ["include/smooth/feedback/collocation/mesh_function.hpp: mesh_eval"]}
{"id": "C28", "title": "mesh_integrate value, Jacobian and Hessian are consistent", "statement": "F returned by mesh_integrate is (tf-t0)*sum_i w_i g(t_i,x_i,u_i), which is the exact integral for polynomial integrands within the quadrature degree; dF and d2F are its derivatives.", "quantifier": "every mesh, twice differentiable g, every t0,tf,x,u,lambda", "why_tests_cant": "A test compares with finite differences at a point.", "anchors": ["include/smooth/feedback/collocation/mesh_function.hpp: mesh_integrate"]}
{"id": "C29", "title": "mesh_dyn value, Jacobian and Hessian are consistent", "statement": "The residual of mesh_dyn at node i is w_i*((tf-t0) f(t_i,x_i,u_i) - (X D)_i); every entry of dF is its partial derivative, and the upper triangle of d2F is the Hessian of lambda'F.", "quantifier": "every mesh, twice differentiable f, every t0,tf,x,u,lambda", "why_tests_cant": "A test compares with finite differences at a point.", "anchors": ["include/smooth/feedback/collocation/mesh_function.hpp: mesh_dyn"]}
{"id": "C30", "title": "Re-using a MeshValue gives the same result as a fresh one", "statement": "Calling mesh_eval/mesh_integrate/mesh_dyn with an already allocated output object yields the same F, dF and d2F values as with a fresh object, whatever was computed into it before.", "quantifier": "every history of earlier calls with the same dimensions", "why_tests_cant": "Quantifies over left-over contents.", "anchors": ["include/smooth/feedback/collocation/mesh_function.hpp: MeshValue", "include/smooth/feedback/collocation/mesh_function.hpp: set_zero", "include/smooth/feedback/utils/sparse.hpp: set_zero"]}
{"id": "C31", "title": "Exact trajectories have zero collocation residual and zero estimated error", "statement": "If x is a polynomial of degree <= K on every interval and satisfies x'=f(t,x,u(t)) at the nodes then all mesh_dyn residuals are zero, and conversely; if x'(t)=f(t,x,u) holds everywhere then mesh_dyn_error is zero on each interval.", "quantifier": "every mesh, every polynomial trajectory and f", "why_tests_cant": "For all trajectories.", "anchors": ["include/smooth/feedback/collocation/mesh_function.hpp: mesh_dyn", "include/smooth/feedback/collocation/dyn_error.hpp: mesh_dyn_error"]}
{"id": "C32", "title": "Sparse block accumulation touches exactly its block", "statement": "block_add adds scale*source into the addressed block of dest (only entries on or above the diagonal when upper_only) and leaves every other value unchanged; block_add_identity likewise; set_zero zeroes all values and keeps the sparsity pattern.", "quantifier": "every destination, source (dense or sparse), offset and scale", "why_tests_cant": "For all matrices.", "anchors": ["include/smooth/feedback/utils/sparse.hpp: block_add", "include/smooth/feedback/utils/sparse.hpp: block_add_identity", "include/smooth/feedback/utils/sparse.hpp: set_zero"]}
{"id": "C33", "title": "block_write makes the block equal to the source", "statement": "After block_write(dest,row0,col0,source,scale) the addressed block of dest equals scale*source, as documented.", "quantifier": "every previous content of dest and every dense or sparse source", "why_tests_cant": "Depends on stale content of dest.", "anchors": ["include/smooth/feedback/utils/sparse.hpp: block_write"]}
{"id": "C34", "title": "d2r_fog computes the Hessian of a composition", "statement": "The matrix accumulated by d2r_fog is, for each output, the Hessian of f(g(x)) when Jf,Hf,Jg,Hg are the derivatives of f at g(x) and g at x.", "quantifier": "all dimensions, all derivative values", "why_tests_cant": "For all sizes and values.", "anchors": ["include/smooth/feedback/utils/sparse.hpp: d2r_fog"]}
{"id": "C35", "title": "NLP variable and constraint layout is a partition", "statement": "The blocks [tf,q,x,u] and [dynamics,integrals,running,end] are pairwise disjoint and cover exactly the n variables and m constraints, so no two quantities share an index.", "quantifier": "all dimensions and mesh sizes", "why_tests_cant": "For all sizes.", "anchors": ["include/smooth/feedback/ocp_to_nlp.hpp: ocp_nlp_structure", "include/smooth/feedback/ocp_to_nlp.hpp: OCPNLP"]}
{"id": "C36", "title": "NLP feasibility is feasibility of the collocated optimal control problem", "statement": "A vector is feasible for the NLP (xl<=x<=xu, gl<=g(x)<=gu) iff tf>=0, the collocation equations hold at every node, q equals the quadrature of the integrands, crl<=cr<=cru at every node and cel<=ce<=ceu; scaling rows by quadrature weights does not change this.", "quantifier": "every OCP, every mesh, every candidate vector, infinite bounds included", "why_tests_cant": "For all candidate vectors.", "anchors": ["include/smooth/feedback/ocp_to_nlp.hpp: OCPNLP::g", "include/smooth/feedback/ocp_to_nlp.hpp: OCPNLP constructor"]}
{"id": "C37", "title": "NLP gradient and constraint Jacobian are the derivatives of f and g", "statement": "df_dx(x) and dg_dx(x) are the derivatives of f and g at x.", "quantifier": "every twice differentiable OCP and every x, any call history", "why_tests_cant": "A test compares with finite differences at a point.", "anchors": ["include/smooth/feedback/ocp_to_nlp.hpp: OCPNLP::df_dx", "include/smooth/feedback/ocp_to_nlp.hpp: OCPNLP::dg_dx"]}
{"id": "C38", "title": "NLP Hessians are the second derivatives of f and lambda'g", "statement": "The upper triangles of d2f_dx2(x) and d2g_dx2(x,lambda) are the upper triangles of the Hessians of f and lambda'g.", "quantifier": "every twice differentiable OCP (objective and end constraint depending on all of tf,x0,xf,q) and every x,lambda", "why_tests_cant": "The existing test has no mixed x-q terms, so a dropped cross block is invisible to it.", "anchors": ["include/smooth/feedback/ocp_to_nlp.hpp: OCPNLP::d2f_dx2", "include/smooth/feedback/ocp_to_nlp.hpp: OCPNLP::d2g_dx2"]}
{"id": "C39", "title": "Solution conversion round trip", "statement": "ocpsol_to_nlpsol(nlpsol_to_ocpsol(s)) returns the same variables and multipliers as s.", "quantifier": "every mesh, every NLP solution with tf>0", "why_tests_cant": "For all vectors; relies on interpolation through interval boundaries.", "anchors": ["include/smooth/feedback/ocp_to_nlp.hpp: nlpsol_to_ocpsol", "include/smooth/feedback/ocp_to_nlp.hpp: ocpsol_to_nlpsol"]}
{"id": "C40", "title": "QP dynamics rows encode the linearized collocation equations", "statement": "The first Nx*N rows of the QP hold for a deviation (dx,du) iff the dynamics linearized about the reference satisfy the collocation equations at each node; for dynamics and references that are affine/polynomial the deviation added to the reference satisfies the nonlinear collocation equations.", "quantifier": "every OCP, mesh, reference, deviation", "why_tests_cant": "For all deviations.", "anchors": ["include/smooth/feedback/ocp_to_qp.hpp: ocp_to_qp_update_dyn"]}
{"id": "C41", "title": "QP cost is the second-order expansion of the OCP cost", "statement": "0.5 z'Pz+q'z (P read as symmetric from its upper triangle) equals the second-order Taylor expansion of the transcribed objective about the reference, up to the constant.", "quantifier": "every objective, integrand, mesh and reference", "why_tests_cant": "A factor error is invisible to a test that only checks constraint satisfaction.", "anchors": ["include/smooth/feedback/ocp_to_qp.hpp: ocp_to_qp_update_cost"]}
{"id": "C42", "title": "QP running and end constraint rows encode the linearized constraints", "statement": "The running rows hold for a deviation iff crl <= cr + dcr*(dx,du) <= cru at every node and the end rows iff cel <= ce + dce*(dx0,dxf) <= ceu.", "quantifier": "every OCP, mesh, reference, deviation; infinite bounds included", "why_tests_cant": "For all deviations.", "anchors": ["include/smooth/feedback/ocp_to_qp.hpp: ocp_to_qp_update_cr", "include/smooth/feedback/ocp_to_qp.hpp: ocp_to_qp_update_ce"]}
{"id": "C43", "title": "Updating an existing QP equals building a new one", "statement": "After ocp_to_qp_update on an allocated QP the problem equals the one ocp_to_qp would build from scratch, whatever the QP contained from earlier updates.", "quantifier": "every history of updates with any references", "why_tests_cant": "Stale entries appear only for particular sparsity histories.", "anchors": ["include/smooth/feedback/ocp_to_qp.hpp: ocp_to_qp_update", "include/smooth/feedback/ocp_to_qp.hpp: ocp_to_qp_allocate", "include/smooth/feedback/utils/sparse.hpp: block_write"]}
{"id": "C44", "title": "QP solution is mapped back to the trajectory it describes", "statement": "qpsol_to_ocpsol returns trajectories that at every mesh node equal reference (+) the corresponding block of the QP primal.", "quantifier": "every mesh, primal vector and reference", "why_tests_cant": "For all vectors and nodes.", "anchors": ["include/smooth/feedback/ocp_to_qp.hpp: qpsol_to_ocpsol"]}
{"id": "C45", "title": "MPC weights set by the user are the weights that are optimized", "statement": "After set_weights(w), the next control computation minimises the cost with weights w.", "quantifier": "every sequence of set_weights and control calls", "why_tests_cant": "History property; existing test sets the weights to their defaults.", "anchors": ["include/smooth/feedback/mpc.hpp: MPC::set_weights", "include/smooth/feedback/mpc.hpp: MPC::operator()"]}
{"id": "C46", "title": "MPC running weights enter the QP as documented", "statement": "The running cost Hessian block for the input is R (and for the state Q) for every choice of weights.", "quantifier": "all Q, R and all dimensions (Nu may exceed Nx)", "why_tests_cant": "Only visible for Q with zeros where R is nonzero, or Nu>Nx.", "anchors": ["include/smooth/feedback/mpc.hpp: MPCIntegrand::hessian"]}
{"id": "C47", "title": "MPC final weight penalizes the final state", "statement": "The final weight Qtf penalizes the deviation of the final state x(tf) and no other variable.", "quantifier": "all weights, dimensions", "why_tests_cant": "Wrong block placement is not visible in the returned status.", "anchors": ["include/smooth/feedback/mpc.hpp: MPCObj::hessian", "include/smooth/feedback/ocp_to_qp.hpp: ocp_to_qp_update_cost"]}
{"id": "C48", "title": "MPC inputs satisfy the running constraints when the QP is solved exactly", "statement": "For a running constraint cr(x,u)=u with bounds crl,cru, any feasible point of the QP solved at time t yields a returned input within [crl,cru], for every desired trajectory set through the API.", "quantifier": "every history of set_udes/set_xdes calls and control calls", "why_tests_cant": "History property; depends on which parts of the QP are refreshed.", "anchors": ["include/smooth/feedback/mpc.hpp: MPC::operator()", "include/smooth/feedback/mpc.hpp: MPC::set_udes", "include/smooth/feedback/ocp_to_qp.hpp: ocp_to_qp_update_cr"]}
{"id": "C49", "title": "Copies of an MPC object are independent", "statement": "Using or reconfiguring a copy of an MPC object never changes the behaviour of the original.", "quantifier": "every interleaving of operations on original and copy", "why_tests_cant": "Aliasing shows only for interleavings.", "anchors": ["include/smooth/feedback/mpc.hpp: MPC (copy constructor/assignment)", "include/smooth/feedback/mpc.hpp: MPC::set_xdes"]}
{"id": "C50", "title": "MPC horizon discretisation and output trajectories", "statement": "The MPC mesh has at least max(1,K) collocation points, in intervals of Kmesh points; returned trajectories have N inputs and N+1 states, the first input equals the returned control and node i is reference(t+tf*tau_i) (+) block i of the QP solution.", "quantifier": "every K, Kmesh >= 1, every QP solution", "why_tests_cant": "For all parameters.", "anchors": ["include/smooth/feedback/mpc.hpp: MPC::MPC", "include/smooth/feedback/mpc.hpp: MPC::operator()"]}
{"id": "C51", "title": "Warm starts never come from unusable solutions", "statement": "The initial guess passed to the QP solver is always either absent or the most recent solution with code Optimal, MaxTime or MaxIterations produced since the last reset_warmstart (and absent when warmstarting is disabled).", "quantifier": "every sequence of calls and QP outcomes", "why_tests_cant": "History property.", "anchors": ["include/smooth/feedback/mpc.hpp: MPC::operator()", "include/smooth/feedback/mpc.hpp: MPC::reset_warmstart", "include/smooth/feedback/asif.hpp: ASIFilter::operator()"]}
{"id": "C52", "title": "ASIF constraint rows encode the safety condition", "statement": "An input correction mu with relaxation d satisfies row (k,j) iff d/dt h_j along the sensitivity-propagated trajectory at sample k plus alpha*h_j plus d is nonnegative when the input is u_des+mu (dynamics linear in the input).", "quantifier": "every problem, all samples k, all mu, d", "why_tests_cant": "For all corrections and samples.", "anchors": ["include/smooth/feedback/asif_func.hpp: asif_to_qp_update"]}
{"id": "C53", "title": "The ASIF QP is feasible whenever the input bounds are", "statement": "If some input satisfies the input bounds then the ASIF QP has a feasible point (the relaxation variable absorbs every barrier row), whatever the state, and it is never reported infeasible by an exact solver.", "quantifier": "every state, dynamics, barrier and backup controller", "why_tests_cant": "For all problem data.", "anchors": ["include/smooth/feedback/asif_func.hpp: asif_to_qp_update"]}
{"id": "C54", "title": "ASIF constraints are imposed at the documented sample times", "statement": "The barrier rows of sample k are evaluated at time t_k = k*tau with tau = T/K.", "quantifier": "every T, K, dt > 0", "why_tests_cant": "Depends on whether dt divides tau.", "anchors": ["include/smooth/feedback/asif_func.hpp: asif_to_qp_update (time stepping loop)"]}
{"id": "C55", "title": "Updating an ASIF QP in place equals building a new one", "statement": "asif_to_qp_update on a previously used QP of the right size gives exactly the QP asif_to_qp builds.", "quantifier": "every earlier content produced by updates with the same dimensions and parameters", "why_tests_cant": "Stale values only show for particular histories.", "anchors": ["include/smooth/feedback/asif_func.hpp: asif_to_qp_update", "include/smooth/feedback/asif_func.hpp: asif_to_qp_allocate", "include/smooth/feedback/asif.hpp: ASIFilter"]}
{"id": "C56", "title": "ASIF outputs respect the input bounds", "statement": "On a vector input space every feasible point of the ASIF QP gives an input u_des+mu with l <= A(u-c) <= u.", "quantifier": "every u_des, bounds and feasible point", "why_tests_cant": "For all inputs.", "anchors": ["include/smooth/feedback/asif_func.hpp: asif_to_qp_update", "include/smooth/feedback/asif.hpp: ASIFilter::operator()"]}
{"id": "C57", "title": "ASIF propagation terminates", "statement": "Building the ASIF QP performs finitely many integration steps for every K, T and dt, at most K*ceil(tau/dt).", "quantifier": "every parameter setting", "why_tests_cant": "Termination for all parameters.", "anchors": ["include/smooth/feedback/asif_func.hpp: asif_to_qp_update"]}
{"id": "C58", "title": "EKF prediction covers exactly the requested time", "statement": "predict(f,Q,tau,dt) integrates with steps of length at most dt whose sum is exactly tau, and terminates, for every tau and dt.", "quantifier": "every tau and dt (also default dt)", "why_tests_cant": "Loop behaviour for all real inputs.", "anchors": ["include/smooth/feedback/ekf.hpp: EKF::predict"]}
{"id": "C59", "title": "EKF covariance stays symmetric", "statement": "After any sequence of reset (symmetric), predict and update calls the covariance is symmetric, and only the upper triangles of Q and R influence the result.", "quantifier": "every call sequence", "why_tests_cant": "Invariant over histories.", "anchors": ["include/smooth/feedback/ekf.hpp: EKF::predict", "include/smooth/feedback/ekf.hpp: EKF::update"]}
{"id": "C60", "title": "A measurement never increases uncertainty", "statement": "For positive semidefinite prior covariance P and positive definite R, the posterior covariance is positive semidefinite and no larger than P in every direction; S is invertible.", "quantifier": "every prior, H, R", "why_tests_cant": "For all matrices.", "anchors": ["include/smooth/feedback/ekf.hpp: EKF::update"]}
{"id": "C61", "title": "EKF update is the Bayesian/least-squares update for linear measurements", "statement": "For a linear measurement and positive definite P,R the posterior covariance is the inverse of P^-1+H'R^-1H and the posterior mean is the unique minimiser of |x-x0|^2_{P^-1}+|y-Hx|^2_{R^-1}; two independent measurements can be processed in either order or jointly with the same result.", "quantifier": "every linear-Gaussian problem", "why_tests_cant": "For all matrices.", "anchors": ["include/smooth/feedback/ekf.hpp: EKF::update"]}
{"id": "C62", "title": "EKF prediction keeps the covariance positive semidefinite", "statement": "If the covariance is positive semidefinite before predict and Q is positive semidefinite it is positive semidefinite afterwards.", "quantifier": "every dynamics, covariance, tau and dt", "why_tests_cant": "Fails only for steps large relative to the dynamics.", "anchors": ["include/smooth/feedback/ekf.hpp: EKF::predict"]}
{"id": "C63", "title": "PID integral state is always within the windup limit", "statement": "After any sequence of control calls, gain changes and resets each component of the integral is within [-windup_limit, windup_limit] (limit >= 0).", "quantifier": "every call history", "why_tests_cant": "Invariant over histories.", "anchors": ["include/smooth/feedback/pid.hpp: PID::operator()", "include/smooth/feedback/pid.hpp: PIDParams::windup_limit"]}
{"id": "C64", "title": "PID integral is the time integral of the error", "statement": "Without saturation the integral equals the sum over calls of error times elapsed time since the previous call; the first call and calls with non-increasing time contribute nothing.", "quantifier": "every call history (also with time going backwards)", "why_tests_cant": "History property.", "anchors": ["include/smooth/feedback/pid.hpp: PID::operator()", "include/smooth/feedback/pid.hpp: PID::reset_integral"]}
{"id": "C65", "title": "PID output law", "statement": "The output is a_des + kp.*(x_des-x) + kd.*(v_des-v) + ki.*integral evaluated with the desired trajectory at the call time, for all trajectories set with set_xdes.", "quantifier": "all states, gains, desired trajectories", "why_tests_cant": "For all values.", "anchors": ["include/smooth/feedback/pid.hpp: PID::operator()", "include/smooth/feedback/pid.hpp: PID::set_xdes"]}
{"id": "C66", "title": "Time arithmetic round trips", "statement": "For a time type T, minus(plus(t,s),t) equals s and plus(t1,minus(t2,t1)) equals t2, up to one tick for integral clocks.", "quantifier": "all time points and durations representable in the clock", "why_tests_cant": "Rounding problems appear for isolated values.", "anchors": ["include/smooth/feedback/time.hpp: time_trait"]}
{"id": "C67", "title": "Flattened dynamics describe the same trajectories", "statement": "A trajectory x(t) satisfies the dynamics iff its deviation e from the reference satisfies the flattened dynamics, and unflatten_ocpsol recovers x = reference (+) e and u likewise.", "quantifier": "every dynamics, reference and trajectory", "why_tests_cant": "For all trajectories.", "anchors": ["include/smooth/feedback/ocp_flatten.hpp: FlatDyn::operator()", "include/smooth/feedback/ocp_flatten.hpp: flatten_ocp", "include/smooth/feedback/ocp_flatten.hpp: unflatten_ocpsol"]}
{"id": "C68", "title": "Flattened objective and constraints are evaluated at the un-flattened point", "statement": "Flattened cost, integrand, running and end constraints at deviations equal the original ones at reference (+) deviation, and their Jacobians are the derivatives with respect to the deviation.", "quantifier": "every function, reference, deviation", "why_tests_cant": "For all points.", "anchors": ["include/smooth/feedback/ocp_flatten.hpp: FlatInnerFun", "include/smooth/feedback/ocp_flatten.hpp: FlatEndptFun"]}
{"id": "C69", "title": "The Bernoulli table used for derivatives of exp is correct", "statement": "Every entry of the table is the Bernoulli number of its index.", "quantifier": "all indices of the table", "why_tests_cant": "A typo in a high-order coefficient changes results below test tolerance.", "anchors": ["include/smooth/feedback/ocp_flatten.hpp: kBn"]}
{"id": "C70", "title": "IPOPT receives consistent sparse derivatives", "statement": "The Jacobian and Hessian triplets handed to IPOPT in the structure call and in value calls refer to the same positions in the same order, and the Hessian values are obj_factor*d2f + d2g in the lower triangle.", "quantifier": "every NLP, every sequence of evaluation calls", "why_tests_cant": "History/position consistency for all patterns.", "anchors": ["include/smooth/feedback/compat/ipopt.hpp: IpoptNLP::eval_h", "include/smooth/feedback/compat/ipopt.hpp: IpoptNLP::eval_jac_g", "include/smooth/feedback/compat/ipopt.hpp: IpoptNLP::get_nlp_info"]}
{"id": "C71", "title": "Solver status codes are mapped faithfully", "statement": "Each IPOPT/OSQP outcome is mapped to the corresponding status, success statuses only for successful outcomes, and failures of set-up or solve are reported as failures.", "quantifier": "all return codes", "why_tests_cant": "Failure paths are not exercised by tests.", "anchors": ["include/smooth/feedback/compat/ipopt.hpp: IpoptNLP::finalize_solution", "include/smooth/feedback/compat/osqp.hpp: solve_qp_osqp"]}
{"id": "C72", "title": "A zero time limit means the same for both QP solvers", "statement": "max_time and max_iter given to the OSQP wrapper limit the solve as they do for the built-in solver.", "quantifier": "all limits, including zero", "why_tests_cant": "Boundary value.", "anchors": ["include/smooth/feedback/compat/osqp.hpp: solve_qp_osqp", "include/smooth/feedback/qp_solver.hpp: QPSolverParams"]}
{"id": "C73", "title": "Explicit zeros are counted and marked consistently", "statement": "mark_explicit_zeros returns 0 for entries that are not stored, 1 for stored non-zeros and 9 for stored zeros, and count_explicit_zeros is the number of 9s.", "quantifier": "all sparse matrices", "why_tests_cant": "Any stored pattern; tests use a few fixed matrices.", "anchors": ["include/smooth/feedback/utils/sparse.hpp: count_explicit_zeros", "include/smooth/feedback/utils/sparse.hpp: mark_explicit_zeros"]}
{"id": "C74", "title": "An MPC program always describes the current references and the measured state", "statement": "In every call of an MPC object, after every history of calls and changes of the desired trajectories, the feasible points of the quadratic program that is solved are exactly those deviations whose first state is the measured state and which satisfy the collocation equations of the dynamics linearised around the desired trajectories that are set at that time.", "quantifier": "every dynamics, history of member function calls, time and state", "why_tests_cant": "Stale entries only show up after particular histories; tests make one or two calls.", "anchors": ["include/smooth/feedback/mpc.hpp: MPC::operator()", "include/smooth/feedback/mpc.hpp: MPCDyn", "include/smooth/feedback/mpc.hpp: MPCCE"]}
{"id": "C75", "title": "ASIF sensitivities are derivatives of the propagated state", "statement": "The matrix dx_dx0 that multiplies the barrier gradient at a sample is the derivative of the propagated closed-loop state at that sample with respect to the initial state.", "quantifier": "every closed loop, step size and sample", "why_tests_cant": "The error is of the order of the step size and disappears for linear closed loops, which is what a test would use.", "anchors": ["include/smooth/feedback/asif_func.hpp: asif_to_qp_update (dx_dx0_ode)"]}
{"id": "C76", "title": "The ASIF is minimally invasive", "statement": "If the desired input satisfies the input bounds and all barrier rows without relaxation, then it is the unique solution of the ASIF program, so that the filter returns the desired input unchanged, after every history of calls.", "quantifier": "every problem with positive weights, every history of calls", "why_tests_cant": "Quantifies over all safe inputs and all earlier calls.", "anchors": ["include/smooth/feedback/asif_func.hpp: asif_to_qp_update", "include/smooth/feedback/asif.hpp: ASIFilter::operator()"]}
{"id": "C77", "title": "Derivatives of the flattened dynamics are exact", "statement": "The Jacobian and Hessian that the flattened dynamics return are the first and second derivatives of the flattened dynamics with respect to time, state deviation and input deviation.", "quantifier": "every group, dynamics, reference trajectory, time and deviations", "why_tests_cant": "Finite differences have tolerances, and only a few groups and references are tested.", "anchors": ["include/smooth/feedback/ocp_flatten.hpp: FlatDyn::jacobian", "include/smooth/feedback/ocp_flatten.hpp: FlatDyn::hessian"]}
{"id": "C78", "title": "Unflattened dynamics multipliers are multipliers of the original dynamics", "statement": "The multiplier of the dynamics that unflatten_ocpsol returns gives the same Lagrangian term for the original dynamics as the flattened multiplier gives for the flattened dynamics.", "quantifier": "every problem, reference and solution", "why_tests_cant": "Multipliers are not compared in the tests.", "anchors": ["include/smooth/feedback/ocp_flatten.hpp: unflatten_ocpsol"]}
{"id": "C79", "title": "Bounds keep their meaning for IPOPT", "statement": "The bounds on variables and constraints that the wrapper gives to IPOPT, read with IPOPT's rule that values beyond 1e19 mean no bound, admit exactly the points that the bounds of the program admit.", "quantifier": "every program, bound and point", "why_tests_cant": "Infinite and very large bounds are not compared in the tests.", "anchors": ["include/smooth/feedback/compat/ipopt.hpp: IpoptNLP::get_bounds_info"]}
{"id": "C80", "title": "The wrapper and IPOPT agree on whether Hessians are used", "statement": "The wrapper prepares the Hessian structure exactly if IPOPT, with the same options, will ask for exact Hessians.", "quantifier": "every list of options", "why_tests_cant": "The tests always give the option, once.", "anchors": ["include/smooth/feedback/compat/ipopt.hpp: solve_nlp_ipopt", "include/smooth/feedback/compat/ipopt.hpp: IpoptNLP::get_nlp_info"]}
{"id": "C81", "title": "OSQP receives the same quadratic program", "statement": "The program that the wrapper passes to OSQP has the same feasible points and the same cost as the given program.", "quantifier": "every quadratic program with symmetric P, sparse or dense", "why_tests_cant": "Tests compare solutions of well scaled programs with a tolerance.", "anchors": ["include/smooth/feedback/compat/osqp.hpp: solve_qp_osqp"]}
{"id": "C82", "title": "Every row of an Optimal answer holds up to a stated tolerance", "statement": "If solve() returns Optimal without polishing, every row satisfies l_i - t <= (Ax)_i <= u_i + t with t = (eps_abs + eps_rel |Ax|_inf) / (1 - eps_rel), whatever scaling and previous calls.", "quantifier": "every quadratic program, dense or sparse, every history of the solver object, every eps_rel in [0, 1)", "why_tests_cant": "The stopping test compares Ax with the clipped iterate z, not with the bounds; tests look at a few problems with one tolerance.", "anchors": ["include/smooth/feedback/qp_solver.hpp: QPSolver::solve", "include/smooth/feedback/qp_solver.hpp: QPSolver::check_stopping"]}
{"id": "C83", "title": "An Optimal answer is close to the solution of a strongly convex program", "statement": "If P >= mu I and (v, w) is a primal-dual solution, an Optimal answer (x, y) without polishing satisfies mu |x - v|^2 <= tol_dual |x - v|_1 + tol_primal |w - y|_1.", "quantifier": "every quadratic program, dense or sparse, every history of the solver object", "why_tests_cant": "The residuals that are tested do not bound the distance by themselves; tests compare with known solutions of a few problems.", "anchors": ["include/smooth/feedback/qp_solver.hpp: QPSolver::solve", "include/smooth/feedback/qp_solver.hpp: QPSolver::check_stopping"]}
{"id": "C84", "title": "The filter with its solver respects bounds and barriers up to the tolerance", "statement": "If a call of the ASIFilter with the built-in solver (no polishing) returns Optimal, the returned input satisfies the input bounds and all barrier inequalities, with the returned relaxation, up to the row tolerance, the relaxation is at least minus the tolerance, and the weighted cost is minimal up to the solver tolerances.", "quantifier": "every history of calls, state, input, barrier, backup controller and solver parameters", "why_tests_cant": "Tests run the filter on a few states and do not relate the returned input to the constraints of the documented problem.", "anchors": ["include/smooth/feedback/asif.hpp: ASIFilter::operator()", "include/smooth/feedback/asif_func.hpp: asif_to_qp_update", "include/smooth/feedback/qp_solver.hpp: QPSolver::solve"]}
{"id": "C85", "title": "A solution given as a guess is returned; safe inputs pass the filter unchanged", "statement": "A solve that is started at a primal-dual solution (or without guess if zero is one) returns Optimal with exactly this solution after two iterations. Hence an ASIFilter whose inputs have all been safe without relaxation returns the desired input exactly, with code Optimal.", "quantifier": "every convex program with a solution, every history of the solver object; every history of filter calls with safe inputs", "why_tests_cant": "Tests only check that warm starts reduce the number of iterations, and the filter at few states.", "anchors": ["include/smooth/feedback/qp_solver.hpp: QPSolver::solve", "include/smooth/feedback/asif.hpp: ASIFilter::operator()"]}
{"id": "C86", "title": "MPC answers respect the dynamics, the initial state and the constraints", "statement": "If the code of an MPC call is Optimal, then the returned state trajectory starts at the passed state, the returned trajectories satisfy the collocation equations of the dynamics linearized around the references, and running constraints that are affine and re-linearized in every call hold along them, in particular input bounds hold for the returned input; all up to the tolerance that follows from eps_abs and eps_rel.", "quantifier": "every controller, every history of calls and setter calls, every state and time, for the QP solver of the library without polishing", "why_tests_cant": "Tests run the controller on few systems and check only that it returns Optimal or that inputs have a sign.", "anchors": ["include/smooth/feedback/mpc.hpp: MPC::operator()", "include/smooth/feedback/ocp_to_qp.hpp: detail::ocp_to_qp_update", "include/smooth/feedback/qp_solver.hpp: QPSolver::solve"]}
{"id": "C87", "title": "The reuse of the factorization analysis by MPC is sound", "statement": "MPC analyzes the sparsity pattern of the quadratic program once and reuses the solver object. The stored entries of the constraint matrix and of the cost are the same in every call, so the hazard of C13 does not occur, and every call returns what a new solver object would return for the same program and guess.", "quantifier": "every controller, every history of calls, setter calls and references", "why_tests_cant": "The reused analysis is only wrong when a pattern changes, which depends on the history and on the values of user functions.", "anchors": ["include/smooth/feedback/mpc.hpp: MPC::operator(), MPC::MPC", "include/smooth/feedback/qp_solver.hpp: QPSolver::analyze, QPSolver::solve", "include/smooth/feedback/ocp_to_qp.hpp: detail::ocp_to_qp_update"]}
{"id": "C88", "title": "On the reference, MPC returns the reference", "statement": "If the state passed is the desired state, the desired trajectories satisfy the dynamics at the nodes and the constraints hold on them, then a call without a guess (the first one, or the first after reset_warmstart) returns Optimal, the desired input and the desired trajectories exactly; and if this is so in all calls made, every call does, with warm starts.", "quantifier": "every controller with the default weights, every horizon and mesh, every history", "why_tests_cant": "Tests check closeness to a reference for single systems with a tolerance, and not over histories of warm started calls.", "anchors": ["include/smooth/feedback/mpc.hpp: MPC::operator()", "include/smooth/feedback/ocp_to_qp.hpp: detail::ocp_to_qp_update", "include/smooth/feedback/qp_solver.hpp: QPSolver::solve"]}
{"id": "C89", "title": "Programs made from an optimal control problem are solved as they are meant", "statement": "ocp_to_qp stores only the upper part of P, as the documentation of the program types allows; the solver started at the solution of the convex program that this stands for returns Optimal and that solution.", "quantifier": "every optimal control problem with its derivatives, every mesh, reference and history, every solver parameter", "why_tests_cant": "The two headers agree for diagonal Hessians, which is what tests use; the disagreement shows only with mixed second derivatives.", "anchors": ["include/smooth/feedback/ocp_to_qp.hpp: detail::ocp_to_qp_update_cost", "include/smooth/feedback/qp.hpp: QuadraticProgram, QuadraticProgramSparse", "include/smooth/feedback/qp_solver.hpp: QPSolver::check_stopping"]}
{"id": "C90", "title": "test_ocp_derivatives reports wrong derivatives with the given tolerance", "statement": "test_ocp_derivatives returns true iff at every tested point every user-defined first and second derivative agrees with the numerical one up to the tolerance eps; correct derivatives are never reported as wrong.", "quantifier": "every problem, every set of test points and every eps", "why_tests_cant": "The function is itself a test helper; tests run it on problems with correct derivatives only.", "anchors": ["include/smooth/feedback/ocp.hpp: test_ocp_derivatives"]}
{"id": "C91", "title": "The warm start given by the user is the point where IPOPT starts", "statement": "solve_nlp_ipopt hands a given solution (variables, bound multipliers, constraint multipliers) to IPOPT unchanged, starts at zero without multipliers if none is given, and a solution returned by one call, or an optimal control solution moved to the mesh of the program, can be used as the guess of the next call.", "quantifier": "every problem size, warm start, list of user options and outcome of the earlier call", "why_tests_cant": "Tests warm start from complete solutions of the same program and look only at the result; sizes that do not fit read out of bounds.", "anchors": ["include/smooth/feedback/compat/ipopt.hpp: IpoptNLP::get_starting_point, solve_nlp_ipopt", "include/smooth/feedback/ocp_to_nlp.hpp: ocpsol_to_nlpsol"]}
{"id": "C92", "title": "Moving a solution to a refined mesh does not change it", "statement": "In the loop of solving, refining the mesh and moving the solution with ocpsol_to_nlpsol, the solution read back on the refined mesh with nlpsol_to_ocpsol has the same end time, integrals and multipliers and the same state, input and multiplier functions on the whole horizon.", "quantifier": "every reachable mesh, every refinement, every solution", "why_tests_cant": "Tests check that the loop reduces an error on one problem; between the nodes the functions are not compared.", "anchors": ["include/smooth/feedback/ocp_to_nlp.hpp: ocpsol_to_nlpsol, nlpsol_to_ocpsol", "include/smooth/feedback/collocation/mesh.hpp: Mesh::refine_errors, Mesh::refine_ph, Mesh::increase_degrees, Mesh::eval"]}
{"id": "C93", "title": "The reported objective is the cost of the reported point, near the optimum", "statement": "Whatever the status, the objective of a QPSolution is 1/2 x'Px + q'x of the unscaled program at the reported primal point; if the status is Optimal and the program is convex it differs from the optimal value by at most a bound given by the tolerances and the norms of the multipliers.", "quantifier": "every program, dense or sparse, every parameter, history and guess", "why_tests_cant": "Tests compare objectives of single programs; scaling, polishing and early exits are different paths to the same field.", "anchors": ["include/smooth/feedback/qp_solver.hpp: QPSolver::solve"]}
{"id": "C94", "title": "Polishing sharpens the answer when it takes the right rows as active", "statement": "If the rows whose multiplier in the unpolished Optimal answer exceeds 100 machine epsilons are those active at a solution (xs, ys), then polishing returns a point at distance at most |(xs, ys)| from it whose stationarity and active row residuals are at most delta |(xs, ys)| / sqrt(polish_iter) in scaled units, whatever the stopping tolerances are; the matrix it factorizes is nonsingular; other multipliers are kept.", "quantifier": "every convex program, dense or sparse, every parameter with delta > 0, every number of refinement steps, history and guess", "why_tests_cant": "Tests look at the answer for a few programs with the default delta and five steps; the bound for all programs, also with dependent active rows, needs the refinement to be a nonexpansive iteration.", "anchors": ["include/smooth/feedback/qp_solver.hpp: detail::polish_qp, QPSolver::solve"]}
{"id": "C95", "title": "EKF::predict ends in double arithmetic and covers tau", "statement": "In IEEE double arithmetic predict(f, Q, tau, dt) with dt > 0 returns; the steps start at 0, all have length dt except the last, the k-th starts at k dt (1 +- 2^-53)^k < tau, and the last one has the length tau - t rounded, which is positive and at most dt up to rounding.", "quantifier": "every finite tau > 0 and dt > 0 with tau <= 2^53 dt, including subnormal numbers and sums that overflow", "why_tests_cant": "Rounding makes t + dt == t possible and adds or removes a step for particular pairs (tau, dt); tests run a few pairs.", "anchors": ["include/smooth/feedback/ekf.hpp: EKF::predict"]}
{"id": "C96", "title": "ASIF constraints are sampled at k T / K in double arithmetic", "statement": "In IEEE double arithmetic asif_to_qp_update evaluates constraint k at k T / K up to rounding when dt divides T / K, and returns.", "quantifier": "every T, K and dt > 0", "why_tests_cant": "Whether the rounded sum of steps reaches the rounded product tau (k + 1) depends on every bit of tau and dt; the existing tests look at the QP only for a few parameters.", "anchors": ["include/smooth/feedback/asif_func.hpp: asif_to_qp_update"]}
{"id": "C97", "title": "A mesh stays a partition of [0, 1] in double arithmetic", "statement": "In IEEE double arithmetic, after any history of public operations the intervals of a mesh start at exactly 0, end at exactly 1 and have positive length, and all_nodes returns finite, strictly increasing numbers from exactly 0 to exactly 1.", "quantifier": "every number of initial intervals, every degree, every history of refine_ph, refine_errors, set_N_colloc_ival, increase_degrees and decrease_degrees", "why_tests_cant": "Starts are rounded sums of rounded products of rounded quotients; a test looks at a few meshes, and a collision needs a certain history.", "anchors": ["include/smooth/feedback/collocation/mesh.hpp: Mesh, refine_ph, refine_errors, interval_nodes, all_nodes"]}
{"id": "C98", "title": "The order and the signs of rows and variables do not matter", "statement": "If the rows and variables of a QP are given in another order, and some of them with the opposite sign, solve_qp returns the same status, number of iterations, objective, point and multipliers, in the other order and with the other signs. A sparse problem gets the same answer as the dense problem with the same entries.", "quantifier": "every QP with symmetric P, all permutations and signs, every warm start and parameter set, with scaling and polishing", "why_tests_cant": "A relation between two runs for all problems; a test compares a few pairs, and the pairs that differ need rows without bounds.", "anchors": ["include/smooth/feedback/qp_solver.hpp: solve, scale, check_stopping, polish_qp"]}
{"id": "C99", "title": "The PID controller works in double arithmetic", "statement": "In IEEE double arithmetic, with a finite windup limit, every component of the integral state is a finite number within the limit after any history of calls, and it is the limited time integral of the error up to a stated rounding error; a call made with finite data returns a number.", "quantifier": "every history of calls, gain changes and resets, with times in any order and errors of any size, including infinities and NaN", "why_tests_cant": "Overflow, underflow of time differences, 0 * infinity and NaN need particular histories; a test runs short histories of ordinary numbers.", "anchors": ["include/smooth/feedback/pid.hpp: PID::operator()"]}
{"id": "C100", "title": "A solver can be warm-started from its own solution", "statement": "solver.solve(pbm, solver.sol()) does the same as solver.solve(pbm, ws) with a copy ws of solver.sol(): a solver that has found a solution and is given it again returns it at the first test.", "quantifier": "every solver object after any history of calls, every problem", "why_tests_cant": "sol() returns a reference to a member that solve overwrites while it still reads the guess; existing tests pass copies, and whether the values differ depends on the scale factors.", "anchors": ["include/smooth/feedback/qp_solver.hpp: QPSolver::sol, QPSolver::solve"]}
{"id": "C101", "title": "Scaling gives the columns similar norms", "statement": "After scaling, no entry of [P A^T; A 0] is larger than one in absolute value, and every column that is not zero has a norm between 0.9 and 1; the linear cost is scaled to a similar norm.", "quantifier": "every QP with symmetric P whose nonzero columns have norms that are at least 1e-8 and differ by a factor of at most 1e16", "why_tests_cant": "The rounds are repeated at most eleven times; whether this is enough for all matrices is a statement about all of them.", "anchors": ["include/smooth/feedback/qp_solver.hpp: QPSolver::scale"]}
{"id": "C102", "title": "An Optimal answer is right in double arithmetic", "statement": "If the solver returns Optimal in IEEE double arithmetic, the exact values of the constraints at the returned point lie within the bounds, and the exact gradient of the Lagrangian at the returned point and multipliers is zero, up to eps_abs + eps_rel times the norms and a stated rounding error that is proportional to the number of terms.", "quantifier": "every QP with sums of absolute values of terms up to 2^900, scale factors in [2^-300, 2^300], every order of summation with and without fused multiply-add, whatever the iterations have computed", "why_tests_cant": "Tests accept residuals up to their own tolerances for a few programs; the relation between the rounded test and the exact residuals for all data is a statement about all rounding errors, and overflow needs particular data.", "anchors": ["include/smooth/feedback/qp_solver.hpp: QPSolver::check_stopping, QPSolver::solve"]}
{"id": "C103", "title": "Infeasibility verdicts in double arithmetic come with certificates", "statement": "If check_stopping returns PrimalInfeasible in IEEE double arithmetic, then dy is not zero, the exact A^T dy is zero and the exact value of dy w is at most zero for all w within the bounds, up to eps_primal_inf |dy| and a stated rounding error; if it returns DualInfeasible, then dx is not zero, the exact P dx is zero, q dx is at most zero and A dx points into the bounds, up to eps_dual_inf |dx| and rounding.", "quantifier": "every QP with finite data and any infinite bounds, every dx and dy, every order of summation, with and without fused multiply-add", "why_tests_cant": "The sums are rounded, products overflow and comparisons with NaN are false only for particular data; tests use a few small infeasible programs.", "anchors": ["include/smooth/feedback/qp_solver.hpp: QPSolver::check_stopping"]}
{"id": "C104", "title": "Scale factors are finite and positive in double arithmetic", "statement": "In IEEE double arithmetic the scale factors that QPSolver::scale computes are positive numbers, neither zero nor infinite nor NaN, and of bounded size, so that scaling and unscaling are meaningful.", "quantifier": "every dense QP with at most 2^50 variables and finite P, A, q of magnitude up to 2^b, b <= 400, with zero rows and columns, P symmetric or not, every order of summation in mean()", "why_tests_cant": "Eleven rounds of products, reciprocals and square roots may overflow or underflow for particular data only; tests look at the solution of a few ordinary problems.", "anchors": ["include/smooth/feedback/qp_solver.hpp: QPSolver::scale"]}
{"id": "C105", "title": "Mesh evaluation points, weights and derivative scales in double arithmetic", "statement": "In IEEE double arithmetic the coordinate at which Mesh::eval evaluates the polynomials of an interval is a number in [-1, 1], exactly -1 and 1 at the ends, increasing in t and within 2^-50 of the exact coordinate; the factor of the differentiation matrix is a number; the weights are nonnegative numbers whose sum is 1 up to rounding and the error of the tables.", "quantifier": "every mesh made by any history of operations, every interval, every double t in it", "why_tests_cant": "Quotients of rounded differences can leave [-1, 1] or be NaN only for particular interval ends; tests use uniform meshes of a few intervals.", "anchors": ["include/smooth/feedback/collocation/mesh.hpp: Mesh::eval, Mesh::interval_weights, Mesh::all_weights, Mesh::interval_diffmat"]}
{"id": "C106", "title": "A measurement reduces the variance and leaves it nonnegative in double arithmetic", "statement": "In IEEE double arithmetic EKF::update with a scalar state and a scalar measurement never increases the variance, leaves a nonnegative variance, and the result is p r / (h^2 p + r) up to 2^-50 p.", "quantifier": "all doubles h, p > 0, r >= 0 away from overflow and underflow, with or without fused multiply-adds", "why_tests_cant": "The sign of 1 - K H is decided by the last bits of K and H; tests use a few round numbers with comparable variances.", "anchors": ["include/smooth/feedback/ekf.hpp: EKF::update"]}
{"id": "C107", "title": "The estimate moves towards the measurement and not past it in double arithmetic", "statement": "In IEEE double arithmetic EKF::update with a directly measured scalar state moves the estimate towards the measurement and not past it; an estimate that starts in an interval stays there as long as the measurements are in the interval, for any number of measurements; the estimate is x + p/(p + r) (y - x) up to rounding.", "quantifier": "all doubles x, y, p >= 0, r >= 0 away from overflow, any sequence of measurements, with or without fused multiply-adds", "why_tests_cant": "Whether the rounded sum passes the measurement depends on the last bits of all operands; drift over many measurements shows only after runs longer than any test.", "anchors": ["include/smooth/feedback/ekf.hpp: EKF::update"]}
{"id": "C108", "title": "Prediction keeps the variance nonnegative and adds Q tau in double arithmetic", "statement": "In IEEE double arithmetic EKF::predict with a scalar linear system dx = a x + b(t) and the default Euler stepper keeps the variance nonnegative as long as the exact Euler step does; each step is the exact Euler step up to 2^-50; for a random walk (a = 0) a whole call adds q tau to the variance up to rounding, for any dt.", "quantifier": "all doubles a, q >= 0, p >= 0, tau >= 0, dt > 0 away from overflow and underflow, any number of steps up to 2^43, with or without fused multiply-adds", "why_tests_cant": "The sign of p + dt (2 a p + q) near the stability limit is decided by the last bits; the error of thousands of accumulated time steps grows with the number of steps, tests use a few.", "anchors": ["include/smooth/feedback/ekf.hpp: EKF::predict"]}
{"id": "C109", "title": "A filter of a constant state stays in the range of its measurements in double arithmetic", "statement": "In IEEE double arithmetic an EKF for a constant scalar state (f = 0) that is measured directly keeps its estimate in every interval that contains the first estimate and all measurements, up to 2^-51 of the length of the interval, and its variance finite, nonnegative and at most the first variance plus the sum of q tau up to 1.25 percent, for any sequence of calls of predict and update.", "quantifier": "all sequences of calls with fewer than 2^43 solver steps in total, all doubles away from overflow, with or without fused multiply-adds", "why_tests_cant": "Errors of single calls are invisible; only very long runs of mixed calls could show a drift of the estimate or a negative variance.", "anchors": ["include/smooth/feedback/ekf.hpp: EKF::predict", "include/smooth/feedback/ekf.hpp: EKF::update"]}
{"id": "C110", "title": "Sample times stay in the horizon in double arithmetic", "statement": "In IEEE double arithmetic every time t0 + (tf - t0) tau at which a mesh function evaluates the user's dynamics or integrand lies in [t0, tf], is t0 at tau = 0, does not decrease with tau and is exact up to rounding; and the argument (t - t0)/(tf - t0) with which a solution function is evaluated lies in [0, 1] for t in [t0, tf], is 0 and 1 at the ends, does not decrease and is exact up to 2^-51.", "quantifier": "all doubles t0 < tf of magnitude at most 2^1021, all nodes tau in [0, 1], all query times in [t0, tf], with or without fused multiply-adds", "why_tests_cant": "Whether the last sample time is after tf depends on single bits of t0 and tf; a function defined on [t0, tf] only is then evaluated outside of its domain.", "anchors": ["include/smooth/feedback/collocation/mesh_function.hpp:183", "include/smooth/feedback/collocation/mesh_function.hpp:339", "include/smooth/feedback/collocation/mesh_function.hpp:535", "include/smooth/feedback/collocation/dyn_error.hpp:48", "include/smooth/feedback/ocp_to_nlp.hpp:471"]}
