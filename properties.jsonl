{"id": "C01", "title": "Layout blocks tile the storage vector", "statement": "StorageLayout.make on pairwise distinct variables gives each variable a block [index, index+dim) of the flat vector; the blocks are pairwise disjoint, lie inside [0, layout.dim) and cover it, and layout.dim is the sum of the per-variable dimensions (parameter dims for a global layout, local dims for a local one). Only the listed variables get a block.", "quantifier": "every finite list of distinct variables of any mix of types, any (possibly zero) dimensions, both values of the local flag", "why_tests_cant": "overlap or a gap may appear only for particular interleavings of types and sizes; tests use two or three variables", "anchors": ["jaxfg/core/_storage_layout.py:StorageLayout.make"]}
{"id": "C02", "title": "Layout iteration order and type runs", "statement": "get_variables() and get_variable_types() enumerate in ascending storage order; variables of one type are contiguous, their relative order is the input order, index_from_variable_type is the start of the run, count_from_variable_type its length, so the k-th variable of a type sits at type_index + k*dim. Types appear in order of first occurrence.", "quantifier": "every list of distinct variables, both local flags", "why_tests_cant": "order depends on the whole input sequence", "anchors": ["jaxfg/core/_storage_layout.py:StorageLayout.make", "jaxfg/core/_storage_layout.py:StorageLayout.get_variables", "jaxfg/core/_storage_layout.py:StorageLayout.get_variable_types"]}
{"id": "C03", "title": "Local and global layouts enumerate variables identically", "statement": "The local and the global StorageLayout built from the same variable list enumerate variables, types and per-type counts in exactly the same order, so row k of a type in the global storage is the same variable as row k in the local storage.", "quantifier": "every variable list (duplicates included)", "why_tests_cant": "a divergence would show only for particular orders and dimensions", "anchors": ["jaxfg/core/_storage_layout.py:StorageLayout.make", "jaxfg/core/_variable_assignments.py:VariableAssignments.manifold_retract"]}
{"id": "C04", "title": "Flatten / unflatten are mutually inverse", "statement": "For a variable type, unflatten(flatten(x)) = x for every value x with the structure and leaf shapes of the default value, flatten(unflatten(v)) = v for every flat vector of length get_parameter_dim(), flatten has length get_parameter_dim(), and unflatten raises on any other length.", "quantifier": "every pytree-shaped default value (any nesting, any leaf shapes), every value of that structure, every flat vector", "why_tests_cant": "ranges over all pytree shapes", "anchors": ["jaxfg/core/_variables.py:VariableBase.flatten", "jaxfg/core/_variables.py:VariableBase.unflatten", "jaxfg/core/_variables.py:VariableBase.__init_subclass__"]}
{"id": "C05", "title": "make_from_dict / get_value round trip", "statement": "make_from_dict(d) followed by get_value(v) (or as_dict()) returns d[v] for every key; make_from_partial_dict(vars, d) returns d[v] when v is in d and the type's default otherwise. No other variable is readable: get_value of a foreign variable raises KeyError.", "quantifier": "every dict / variable list without repetition, values of the right structure, any mix of types", "why_tests_cant": "a mis-sliced block may only show for particular type interleavings", "anchors": ["jaxfg/core/_variable_assignments.py:VariableAssignments.make_from_dict", "jaxfg/core/_variable_assignments.py:VariableAssignments.make_from_partial_dict", "jaxfg/core/_variable_assignments.py:VariableAssignments.get_value", "jaxfg/core/_variable_assignments.py:VariableAssignments.as_dict"]}
{"id": "C06", "title": "make_from_defaults gives every variable its default", "statement": "make_from_defaults(vars) and make_from_partial_dict(vars, {}) yield the same storage and layout; get_value of every listed variable is its type's default value.", "quantifier": "every non-empty list of distinct variables", "why_tests_cant": "the two constructors build the vector in different ways (tile per type vs concatenate per variable); agreement must hold for every mix", "anchors": ["jaxfg/core/_variable_assignments.py:VariableAssignments.make_from_defaults"]}
{"id": "C07", "title": "Dict round trip reproduces the assignment exactly", "statement": "make_from_dict(a.as_dict()) has the same layout and the same storage vector, entry for entry, as a, for every a produced by make_from_dict.", "quantifier": "every dict of variables", "why_tests_cant": "layout order is derived twice from different insertion orders", "anchors": ["jaxfg/core/_variable_assignments.py:VariableAssignments.as_dict", "jaxfg/core/_variable_assignments.py:VariableAssignments.make_from_dict"]}
{"id": "C08", "title": "set_value / get_value lens laws", "statement": "set_value(v, x).get_value(v) = x; set_value(v, x).get_value(w) = get_value(w) for every other variable w; a second set_value on v overrides the first; writing back the value read changes nothing; the layout is unchanged and the original object is not modified; setting an unknown variable raises KeyError.", "quantifier": "every assignment, variable and value, hence every sequence of updates", "why_tests_cant": "quantifies over all pairs of variables and all update histories", "anchors": ["jaxfg/core/_variable_assignments.py:VariableAssignments.set_value", "jaxfg/core/_variable_assignments.py:VariableAssignments.get_value"]}
{"id": "C09", "title": "update_storage_layout preserves the mapping and is reversible", "statement": "update_storage_layout(L) returns an assignment with layout L under which every variable has the same value as before; going to L and back restores the storage vector entry for entry; it raises AssertionError when the variable sets, the local flags or the total dims differ. Holds for local (tangent) assignments too.", "quantifier": "every pair of orderings of the same variable set, every storage content", "why_tests_cant": "all permutations of all variable sets", "anchors": ["jaxfg/core/_variable_assignments.py:VariableAssignments.update_storage_layout"]}
{"id": "C10", "title": "get_stacked_value agrees with get_value", "statement": "Row k of get_stacked_value(type) equals get_value of the k-th variable of that type in get_variables() order, and the number of rows is the number of variables of that type.", "quantifier": "every assignment over distinct variables, every type present", "why_tests_cant": "depends on the whole layout", "anchors": ["jaxfg/core/_variable_assignments.py:VariableAssignments.get_stacked_value"]}
{"id": "C11", "title": "manifold_retract acts variable by variable", "statement": "When the delta layout enumerates the variables of each type in the same order as the value layout (as the layouts of one graph do), manifold_retract(delta) gives each variable v the value retract(value(v), delta block of v), independently of all other variables, and keeps the layout. For a variable class that overrides nothing the delta has one entry per scalar of the value and is added entry by entry.", "quantifier": "every variable list, storage vector, delta vector and per-type retraction", "why_tests_cant": "batched slicing/reshaping must line up for every type mix", "anchors": ["jaxfg/core/_variable_assignments.py:VariableAssignments.manifold_retract"]}
{"id": "C12", "title": "manifold_retract pairs by position, not by variable", "statement": "The order guard of the previous property is necessary: manifold_retract does not check or reconcile the two layouts, and with two same-type variables listed in opposite orders it applies each variable's delta to the other one, without raising.", "quantifier": "existence of layouts over the same variables for which the result differs from the variable-wise retraction", "why_tests_cant": "no test mixes layouts; the failure is silent", "anchors": ["jaxfg/core/_variable_assignments.py:VariableAssignments.manifold_retract"]}
{"id": "C13", "title": "Graph construction partitions the factors", "statement": "StackedFactorGraph.make puts every factor of the input in exactly one stack; two factors share a stack iff they have the same factor class and static data, the same variable types, the same noise/parameter tree structure and the same leaf shapes; order inside a stack is input order, stacks are ordered by first occurrence; residual_dim is the sum of all factors' residual dims.", "quantifier": "every finite list of factors", "why_tests_cant": "grouping depends on the whole list", "anchors": ["jaxfg/core/_stacked_factor_graph.py:StackedFactorGraph.make"]}
{"id": "C14", "title": "Graph construction succeeds exactly on usable input", "statement": "StackedFactorGraph.make does not raise (no assertion, key or stacking error) on any non-empty list of shape-consistent factors, at least one of which touches a variable; on the empty list it raises. The graph's variables are exactly those mentioned by some factor, in first-mention order within a type.", "quantifier": "every finite list of factors", "why_tests_cant": "error freedom must hold for every grouping", "anchors": ["jaxfg/core/_stacked_factor_graph.py:StackedFactorGraph.make", "jaxfg/core/_factor_stack.py:FactorStack.make", "jaxfg/core/_factor_stack.py:FactorStack.compute_jacobian_coords"]}
{"id": "C15", "title": "Vectorised residuals equal per-factor residuals", "statement": "compute_whitened_residual_vector(assignments) is the concatenation, stack by stack and in input order inside a stack, of the whitened residual of each single factor evaluated on get_value of its own variables (parameters stacked with axis 0, gathered values and vmapped noise included).", "quantifier": "every factor list, every assignment over the graph's variables in any storage order, every residual function and noise model", "why_tests_cant": "stacking/gather index errors may show only for certain group shapes", "anchors": ["jaxfg/core/_stacked_factor_graph.py:StackedFactorGraph.compute_whitened_residual_vector", "jaxfg/core/_factor_stack.py:FactorStack.make", "jaxfg/core/_factor_stack.py:FactorStack.compute_residual_vector"]}
{"id": "C16", "title": "Cost is the sum of per-factor squared residuals, in any order", "statement": "compute_cost returns (sum of squares of the residual vector, the residual vector); the cost equals the sum over input factors of the squared norm of their own whitened residual, hence is invariant under permuting the factor list and under the storage order of the assignments (exact arithmetic).", "quantifier": "every factor list and permutation of it, every assignment ordering", "why_tests_cant": "all permutations", "anchors": ["jaxfg/core/_stacked_factor_graph.py:StackedFactorGraph.compute_cost"]}
{"id": "C17", "title": "Graph evaluation does not depend on the assignment layout", "statement": "compute_whitened_residual_vector, compute_cost, compute_joint_nll and compute_whitened_residual_jacobian return identical results for any two assignment objects that hold the same variable->value mapping in different storage orders, and raise AssertionError if the variable sets differ.", "quantifier": "every graph and pair of layouts of its variable set", "why_tests_cant": "all layout permutations", "anchors": ["jaxfg/core/_stacked_factor_graph.py:StackedFactorGraph.compute_whitened_residual_vector", "jaxfg/core/_stacked_factor_graph.py:StackedFactorGraph.compute_whitened_residual_jacobian", "jaxfg/core/_variable_assignments.py:VariableAssignments.update_storage_layout"]}
{"id": "C18", "title": "Jacobian coordinates are in range and collision free", "statement": "Every (row, col) of the graph's Jacobian coordinates satisfies row < residual_dim and col < local layout dim, the numbers of coordinates and values agree, and the pairs are pairwise distinct whenever no single factor lists the same variable twice. The guard is necessary: a factor listing one variable twice yields repeated coordinates.", "quantifier": "every factor list", "why_tests_cant": "JAX scatter silently drops out-of-range indices, so an error is invisible to tests unless the affected entry matters", "anchors": ["jaxfg/core/_factor_stack.py:FactorStack.compute_jacobian_coords", "jaxfg/core/_stacked_factor_graph.py:StackedFactorGraph.make"]}
{"id": "C19", "title": "The sparse Jacobian applies each factor's Jacobian to its own variables", "statement": "For every local delta vector x, the rows of A @ x that belong to factor f are the sum over f's variable slots i of (whitened Jacobian of slot i) times the block of x belonging to that variable in the local layout (repeated variables add up); rows are in the same order as the residual vector.", "quantifier": "every factor list, assignment and delta vector", "why_tests_cant": "coordinates and values are produced by independent code paths that must agree for every graph", "anchors": ["jaxfg/core/_stacked_factor_graph.py:StackedFactorGraph.compute_whitened_residual_jacobian", "jaxfg/core/_factor_stack.py:FactorStack.compute_jacobian_coords", "jaxfg/sparse/_sparse_matrix.py:SparseCooMatrix.__matmul__"]}
{"id": "C20", "title": "The sparse Jacobian is the derivative of the residual along retractions", "statement": "If each factor's Jacobians are the derivatives of its residual along the retraction of its variables, then for every direction x the derivative at t=0 of compute_whitened_residual_vector(retract(a, t x)) is A @ x, for Gaussian and diagonal noise.", "quantifier": "every graph, assignment and direction (real arithmetic)", "why_tests_cant": "a statement about a limit for all directions", "anchors": ["jaxfg/core/_stacked_factor_graph.py:StackedFactorGraph.compute_whitened_residual_jacobian", "jaxfg/core/_variable_assignments.py:VariableAssignments.manifold_retract"]}
{"id": "C21", "title": "Transpose is an involution and the adjoint", "statement": "A.T.T = A and <A @ x, y> = <x, A.T @ y> for all x, y (exact arithmetic); A @ is linear; A.T @ (A @ x) is a symmetric positive semidefinite operator.", "quantifier": "every COO matrix with in-range coordinates (duplicates allowed), every x, y", "why_tests_cant": "universally quantified algebraic identity", "anchors": ["jaxfg/sparse/_sparse_matrix.py:SparseCooMatrix.T", "jaxfg/sparse/_sparse_matrix.py:SparseCooMatrix.__matmul__"]}
{"id": "C22", "title": "as_dense represents the same matrix when coordinates are distinct", "statement": "With pairwise distinct coordinates as_dense() times x equals A @ x for every x, and entry (i,j) is the stored value or 0. The guard is necessary: with repeated coordinates as_dense keeps only the last value while A @ x adds them, so the two disagree.", "quantifier": "every COO matrix; existence of a disagreeing one with repeats", "why_tests_cant": "tests never build repeated coordinates", "anchors": ["jaxfg/sparse/_sparse_matrix.py:SparseCooMatrix.as_dense", "jaxfg/sparse/_sparse_matrix.py:SparseCooMatrix.__matmul__"]}
{"id": "C23", "title": "scipy conversion round trip", "statement": "from_scipy_coo_matrix(A.as_scipy_coo_matrix()) = A: values, coordinates and shape, order included.", "quantifier": "every COO matrix", "why_tests_cant": "all matrices", "anchors": ["jaxfg/sparse/_sparse_matrix.py:SparseCooMatrix.from_scipy_coo_matrix", "jaxfg/sparse/_sparse_matrix.py:SparseCooMatrix.as_scipy_coo_matrix"]}
{"id": "C24", "title": "CG damping is lambda*diag(A^T A) and is scale invariant", "statement": "The operator handed to conjugate gradient is x -> A^T A x + lambda*diag(A^T A) x when coordinates are distinct; it is symmetric and, for lambda >= 0, positive semidefinite; rescaling the columns of A by nonzero factors rescales its solutions inversely (the documented scale invariance). With repeated coordinates the damping is not diag(A^T A).", "quantifier": "every matrix with distinct coordinates, every lambda, every column scaling; existence of a bad matrix with repeats", "why_tests_cant": "algebraic identities for all matrices", "anchors": ["jaxfg/sparse/_linear_solve.py:_ConjugateGradientSolver.solve_subproblem"]}
{"id": "C25", "title": "The CHOLMOD subproblem has exactly one solution and it is a descent direction", "statement": "For lambda >= 0 the system (A^T A + (lambda + 1e-5) I) x = A^T b solved by CholmodSolver has exactly one solution for every A, rank deficient ones included; that solution is zero iff A^T b is zero, satisfies <x, A^T b> > 0 otherwise, and ||A x - b||^2 <= ||b||^2.", "quantifier": "every matrix and right-hand side, every lambda >= 0 (exact arithmetic)", "why_tests_cant": "all matrices, including singular A^T A", "anchors": ["jaxfg/sparse/_linear_solve.py:CholmodSolver._solve"]}
{"id": "C26", "title": "CHOLMOD symbolic analysis is reused by solver identity", "statement": "Over any history of solves, a solve uses the symbolic analysis of its own sparsity pattern provided every earlier solve made under the same identity hash had that pattern. The guard is necessary: the cache is never invalidated, so a history in which one solver (or a later object that received the same id) meets a second pattern factorises with the first pattern's analysis.", "quantifier": "every history of solves and object lifetimes", "why_tests_cant": "depends on histories and on object identity reuse", "anchors": ["jaxfg/sparse/_linear_solve.py:_cholmod_analyze_cache", "jaxfg/sparse/_linear_solve.py:CholmodSolver._solve"]}
{"id": "C27", "title": "Nonlinear solvers terminate within max_iterations", "statement": "GaussNewtonSolver, LevenbergMarquardtSolver and DoglegSolver solve() stop after at least 1 and at most max(1, max_iterations) steps, whatever the factors, noise models and linear solver do (NaNs included).", "quantifier": "every graph, initial assignment, solver configuration, linear solver behaviour", "why_tests_cant": "termination for all inputs", "anchors": ["jaxfg/solvers/_nonlinear_solver_base.py:NonlinearSolverBase.solve", "jaxfg/solvers/_mixins.py:_TerminationCriteriaMixin.check_exceeded_max_iterations"]}
{"id": "C28", "title": "Fixed-iteration solver performs exactly `iterations` steps", "statement": "FixedIterationGaussNewtonSolver performs exactly `iterations` Gauss-Newton steps and gives the same result with unroll=True and unroll=False, for iterations >= 1. The guard is necessary: with iterations = 0 the rolled loop still performs one step and the unrolled one none.", "quantifier": "every iteration count, graph and initial assignment", "why_tests_cant": "all iteration counts", "anchors": ["jaxfg/solvers/_fixed_iteration_gauss_newton_solver.py:FixedIterationGaussNewtonSolver.solve", "jaxfg/solvers/_fixed_iteration_gauss_newton_solver.py:FixedIterationGaussNewtonSolver._step"]}
{"id": "C29", "title": "solve returns the caller's layout and variables", "statement": "solve() of Gauss-Newton, Levenberg-Marquardt and Dogleg returns an assignment with exactly the storage layout of the initial assignments object; it raises AssertionError if that object's variables are not exactly the graph's.", "quantifier": "every graph, initial assignment layout and solver", "why_tests_cant": "all layouts", "anchors": ["jaxfg/solvers/_nonlinear_solver_base.py:NonlinearSolverBase.solve"]}
{"id": "C30", "title": "MAP inference is invariant to factor and variable order", "statement": "In exact arithmetic with CholmodSolver, solve() by Gauss-Newton, Levenberg-Marquardt or Dogleg returns the same value for every variable when the factor list given to StackedFactorGraph.make is permuted and the initial assignments list variables in another order.", "quantifier": "every graph, every permutation of factors and variables, every solver setting", "why_tests_cant": "the existing test enumerates 48 orders of one 4-factor graph", "anchors": ["jaxfg/solvers/_nonlinear_solver_base.py:NonlinearSolverBase.solve", "jaxfg/solvers/_gauss_newton_solver.py:GaussNewtonSolver._step", "jaxfg/solvers/_levenberg_marquardt_solver.py:LevenbergMarquardtSolver._step", "jaxfg/solvers/_dogleg_solver.py:DoglegSolver._step", "tests/test_variable_and_factor_ordering.py"]}
{"id": "C31", "title": "Fixed-iteration solver needs the graph's variable order", "statement": "FixedIterationGaussNewtonSolver agrees with the other solvers' Gauss-Newton steps when the initial assignments are in the graph's storage order; the guard is necessary: it never reconciles layouts, so for initial assignments listing two same-type variables in the other order it moves each variable by the other's step, without raising.", "quantifier": "every graph and initial assignment; existence of a wrong run", "why_tests_cant": "the ordering test only exercises GaussNewtonSolver", "anchors": ["jaxfg/solvers/_fixed_iteration_gauss_newton_solver.py:FixedIterationGaussNewtonSolver.solve", "jaxfg/core/_variable_assignments.py:VariableAssignments.manifold_retract"]}
{"id": "C32", "title": "Tracked cost is the true cost of the tracked assignment", "statement": "At every iteration of Gauss-Newton, Levenberg-Marquardt and Dogleg, the cost carried by the solver (printed, used by acceptance and convergence tests) equals compute_cost of the assignment carried, rejected steps included.", "quantifier": "every reachable solver state", "why_tests_cant": "invariant over unbounded histories of accepts and rejects", "anchors": ["jaxfg/solvers/_levenberg_marquardt_solver.py:LevenbergMarquardtSolver._step", "jaxfg/solvers/_dogleg_solver.py:DoglegSolver._step", "jaxfg/solvers/_gauss_newton_solver.py:GaussNewtonSolver._step"]}
{"id": "C33", "title": "Residual used for linearisation belongs to the current assignment until a rejection", "statement": "While no step has been rejected since the last accepted one, the residual vector used by Levenberg-Marquardt and Dogleg to form the next step is the residual at the current assignment. The guard is necessary: after a rejected step both solvers keep the rejected point's residual with the old assignment, so the next right-hand side and step-quality model use a residual that is not that of the current assignment.", "quantifier": "every reachable state; existence of a reachable inconsistent state", "why_tests_cant": "needs a history with a rejection followed by a further step", "anchors": ["jaxfg/solvers/_levenberg_marquardt_solver.py:LevenbergMarquardtSolver._step", "jaxfg/solvers/_dogleg_solver.py:DoglegSolver._step"]}
{"id": "C34", "title": "Accepted trust-region steps decrease the cost when the linear model predicts a decrease", "statement": "In Levenberg-Marquardt and Dogleg an accepted step whose linear model predicts a decrease strictly lowers the cost, and a rejected step leaves cost and assignments unchanged; starting from a state whose residual is current, the prediction of an LM step with CholmodSolver is never an increase. The guard is necessary: there is a run of the solver in which an accepted step raises the cost (model difference positive after a rejection).", "quantifier": "every state; existence of a cost-raising run", "why_tests_cant": "requires specific histories", "anchors": ["jaxfg/solvers/_mixins.py:_TrustRegionMixin.compute_step_quality", "jaxfg/solvers/_levenberg_marquardt_solver.py:LevenbergMarquardtSolver._step", "jaxfg/solvers/_dogleg_solver.py:DoglegSolver._step"]}
{"id": "C35", "title": "Levenberg-Marquardt damping stays positive and bounded", "statement": "With 0 < lambda_min <= lambda_max, lambda_factor > 1 and 0 < lambda_initial <= lambda_max, lambda is positive and at most lambda_max in every reachable state, is divided by the factor on accept, and on reject is multiplied by it and clipped to [lambda_min, lambda_max]. lambda_min is not a lower bound in general: accepted steps take lambda below it.", "quantifier": "every run", "why_tests_cant": "unbounded accept/reject sequences", "anchors": ["jaxfg/solvers/_levenberg_marquardt_solver.py:LevenbergMarquardtSolver._step"]}
{"id": "C36", "title": "Dogleg steps stay inside the trust region", "statement": "The step taken in an iteration of Dogleg has norm at most the trust radius, and exactly the radius when the Gauss-Newton step is longer than the radius; the blending coefficient lies in [0,1] and both branches of its formula give the same point. The steepest-descent scale is well defined whenever the gradient is nonzero.", "quantifier": "every matrix, residual, radius > 0 and Gauss-Newton step (exact arithmetic)", "why_tests_cant": "algebraic identity for all vectors and both numerical branches", "anchors": ["jaxfg/solvers/_dogleg_solver.py:DoglegSolver._step.compute_dogleg_step"]}
{"id": "C37", "title": "Dogleg radius stays positive", "statement": "From radius_initial > 0 the trust radius is positive in every reachable state; it halves when step quality < 0.25, never shrinks otherwise, and grows only to three times the step norm when quality > 0.75.", "quantifier": "every run", "why_tests_cant": "unbounded histories", "anchors": ["jaxfg/solvers/_dogleg_solver.py:DoglegSolver._step"]}
{"id": "C38", "title": "What each termination criterion guarantees", "statement": "check_convergence reports true iff one of: relative cost change < cost_tolerance; iteration >= gradient_tolerance_start_step and every component of x - rplus(x, -gradient) is < gradient_tolerance; ||delta|| < (||x|| + parameter_tolerance)*parameter_tolerance. The documented infinity-norm reading of the gradient criterion fails: with all components very negative the criterion is met although the infinity norm is arbitrarily large. An iteration of Gauss-Newton ends the loop iff the iteration limit is reached or one of these tests holds; one of Levenberg-Marquardt or Dogleg, iff the limit is reached or the step is accepted and one of them holds.", "quantifier": "every solver state and configuration; existence of a false positive", "why_tests_cant": "sign error visible only for one-signed gradients after the start step", "anchors": ["jaxfg/solvers/_mixins.py:_TerminationCriteriaMixin.check_convergence"]}
{"id": "C39", "title": "Trust-region solvers at a stationary point", "statement": "Started where the gradient is zero, LM and Dogleg with CholmodSolver leave every variable unchanged, but reject the zero step (0/0 step quality) every time and therefore run exactly max(1, max_iterations) iterations; Gauss-Newton stops after one step.", "quantifier": "every graph and stationary assignment", "why_tests_cant": "NaN-dependent control flow for all graphs", "anchors": ["jaxfg/solvers/_levenberg_marquardt_solver.py:LevenbergMarquardtSolver._step", "jaxfg/solvers/_dogleg_solver.py:DoglegSolver._step", "jaxfg/solvers/_mixins.py:_TrustRegionMixin.compute_step_quality"]}
{"id": "C40", "title": "Gaussian whitening is the Mahalanobis norm", "statement": "||whiten(r)||^2 = r^T Sigma^-1 r for DiagonalGaussian.make_from_covariance (positive diagonal) and for Gaussian.make_from_covariance, and = r^T W^T W r for Gaussian(W); whiten_jacobian applies the same matrix to every Jacobian column.", "quantifier": "every covariance, residual and Jacobian of every size", "why_tests_cant": "identity for all sizes and values", "anchors": ["jaxfg/noises/_gaussians.py:Gaussian", "jaxfg/noises/_gaussians.py:DiagonalGaussian"]}
{"id": "C41", "title": "Huber weighting of residuals", "statement": "With delta > 0 and n the wrapped whitened norm, HuberWrapper returns the wrapped residual unchanged if n < delta and a positive multiple of it with squared norm delta*n otherwise; the squared norm is continuous in n at delta, never exceeds n^2, is monotone in n, but is not the Huber loss value 2*delta*n - delta^2 beyond delta.", "quantifier": "every wrapped noise model, residual, delta > 0", "why_tests_cant": "all magnitudes", "anchors": ["jaxfg/noises/_huber.py:HuberWrapper.whiten_residual_vector"]}
{"id": "C42", "title": "Huber weighting of Jacobians", "statement": "Given the (already Huber-whitened) residual vector that the solvers pass, whiten_jacobian switches to the outlier branch exactly when whiten_residual_vector did, but beyond delta it scales the Jacobian by (delta/n)^(1/4) while the residual was scaled by (delta/n)^(1/2): the two weights differ for every n > delta, so the resulting gradient is not the Huber gradient and its magnitude is unbounded in n.", "quantifier": "every residual, delta > 0, n > delta", "why_tests_cant": "test_huber only compares final errors", "anchors": ["jaxfg/noises/_huber.py:HuberWrapper.whiten_jacobian", "jaxfg/core/_stacked_factor_graph.py:StackedFactorGraph.compute_whitened_residual_jacobian"]}
{"id": "C43", "title": "Joint NLL decomposes over factors", "statement": "compute_joint_nll equals the cost plus the sum over factors of -2 log|det W| (diagonal: -2 log|prod d|), is invariant under factor permutation and assignment layout, and differences between two assignments equal cost differences; it raises for Huber noise.", "quantifier": "every factor list with Gaussian noises, every assignment", "why_tests_cant": "all graphs", "anchors": ["jaxfg/core/_stacked_factor_graph.py:StackedFactorGraph.compute_joint_nll"]}
{"id": "C44", "title": "Prior and between residuals vanish exactly on consistency and are gauge free", "statement": "PriorFactor's residual is log(T^-1 mu) and BetweenFactor's log((Ta^-1 Tb)^-1 Tab); each is zero iff T = mu, resp. Ta Tab = Tb; the between residual is unchanged when both poses are left-multiplied by a common transform. A full step along the residual takes T to mu, resp. Tb to Ta Tab. For SO(3) and SE(3) these equalities are of poses, that is up to the sign of the quaternion; the residual itself does depend on that sign at exactly half a turn.", "quantifier": "every matrix Lie group with a log that vanishes only at identity, every pose; for SO(3) and SE(3) every normalised pose", "why_tests_cant": "group identities for all elements", "anchors": ["jaxfg/geometry/_factors.py:PriorFactor.compute_residual_vector", "jaxfg/geometry/_factors.py:BetweenFactor.compute_residual_vector"]}
{"id": "C45", "title": "Analytic pose Jacobians are exact at zero residual", "statement": "At zero residual, PriorFactor's and BetweenFactor's analytic Jacobians give the residual after a small retraction exactly (up to the injectivity radius: rotations by less than half a turn for SO(3) and SE(3)), and on whole graphs over SO(2), SE(2), SO(3), SE(3) the sparse Jacobian is the derivative wherever all measurements hold. The guards are necessary: with a rotated residual the prior Jacobian -I is not the derivative for SE(2), nor for SO(3), and a full turn is not seen at all.", "quantifier": "every Lie group satisfying the exp/log laws, and SO(3)/SE(3) up to quaternion sign; every consistent graph over the four groups; existence of SE(2) and SO(3) counterexamples", "why_tests_cant": "differential statement", "anchors": ["jaxfg/geometry/_factors.py:PriorFactor.compute_residual_jacobians", "jaxfg/geometry/_factors.py:BetweenFactor.compute_residual_jacobians", "jaxfg/geometry/_lie_variables.py:LieVariableBase.manifold_retract"]}
{"id": "C46", "title": "Marginal covariance recursion inverts the information matrix", "statement": "For a lower-triangular L with nonzero diagonal, SparseCovariance entry (i,j) obtained by the column recursion equals entry (i,j) of (L L^T)^-1, for any query order and whatever was queried before (cache transparent); it is symmetric, the recursion always terminates, and as_dense(use_inverse=True/False) agree.", "quantifier": "every L of every size and sparsity, every query history", "why_tests_cant": "recursion and cache over all histories", "anchors": ["jaxfg/experimental/_sparse_covariance.py:SparseCovariance.__getitem__", "jaxfg/experimental/_sparse_covariance.py:SparseCovariance._sum_over_col", "jaxfg/experimental/_sparse_covariance.py:SparseCovariance.as_dense"]}
{"id": "C47", "title": "compute_marginal extracts the requested blocks in order", "statement": "compute_marginal(v1,...,vk) is the submatrix of the covariance on the local-layout indices of v1,...,vk in argument order.", "quantifier": "every layout, variable tuple", "why_tests_cant": "all orders", "anchors": ["jaxfg/experimental/_sparse_covariance.py:SparseCovariance.compute_marginal", "jaxfg/experimental/_sparse_covariance.py:SparseCovariance._compute_marginal"]}
{"id": "C48", "title": "Marginals ignore the fill-reducing permutation", "statement": "SparseCovariance.make takes the Cholesky factor of P A^T A P^T without its permutation, so entry (i,j) is the covariance of variables p(i), p(j): right whenever P is the identity, and wrong for some graph and permutation otherwise.", "quantifier": "every factorisation permutation; existence of a wrong marginal", "why_tests_cant": "CHOLMOD picks the identity permutation on the tests' tiny dense systems", "anchors": ["jaxfg/experimental/_sparse_covariance.py:SparseCovariance.make"]}
{"id": "C49", "title": "g2o information matrices are read symmetrically", "statement": "parse_g2o rebuilds from the n(n+1)/2 upper-triangular components the symmetric matrix whose (i,j) and (j,i) entries are the component of (min,max), and with any Cholesky factor the whitened squared residual of the edge is r^T Omega r.", "quantifier": "every size and component list", "why_tests_cant": "all entries and sizes", "anchors": ["scripts/_g2o_utils.py:parse_g2o"]}
{"id": "C50", "title": "g2o edges refer to declared poses", "statement": "parse_g2o, on a file whose vertices are numbered 0,1,2,... in file order, connects each kept edge to the variables of its two vertices, keeps at most pose_count_limit+1 SE(2) poses and skips exactly the SE(2) edges touching a pose beyond that, ends with one prior on pose 0, and raises on a blank or unknown line or on misnumbered vertices.", "quantifier": "every file content", "why_tests_cant": "all files", "anchors": ["scripts/_g2o_utils.py:parse_g2o"]}
{"id": "C51", "title": "Variable-value tuples are validated and passed through in order", "statement": "build_variable_value_tuple returns the same values in the same order (wrapped in the named tuple when hinted so) iff arity and element types match the hint, Tuple[X, ...] matching any arity of X; otherwise it raises.", "quantifier": "every hint and value tuple", "why_tests_cant": "all arities and types", "anchors": ["jaxfg/core/_factor_base.py:FactorBase.build_variable_value_tuple"]}
{"id": "C52", "title": "Canonical instances and templated types are stable", "statement": "Over any history of calls, canonical_instance() of a class always returns the same object, different classes give different objects, and RealVectorVariable[n] returns the same class for the same n and different classes for different n; grouping of factors therefore depends only on variable types.", "quantifier": "every call history", "why_tests_cant": "history property", "anchors": ["jaxfg/core/_variables.py:VariableBase.canonical_instance", "jaxfg/core/_variables.py:_RealVectorVariableTemplate.__getitem__", "jaxfg/core/_factor_base.py:FactorBase.anonymize_variables"]}
{"id": "C53", "title": "Duplicate variables are not supported uniformly", "statement": "If a variable is listed twice (with nonzero dimension), make_from_partial_dict raises AssertionError, while make_from_defaults silently succeeds with a storage that contains an orphan block and an assignment that no graph accepts.", "quantifier": "every variable list with repetitions", "why_tests_cant": "all lists", "anchors": ["jaxfg/core/_storage_layout.py:StorageLayout.make", "jaxfg/core/_variable_assignments.py:VariableAssignments.make_from_partial_dict", "jaxfg/core/_variable_assignments.py:VariableAssignments.make_from_defaults"]}
{"id": "C54", "title": "get_value is meaningful only for global layouts", "statement": "get_value always slices get_parameter_dim() entries; on a local (tangent) assignment of a type whose local dim differs it returns entries of neighbouring variables or raises, so no per-variable reading of a local assignment is possible through it.", "quantifier": "existence of a local assignment with a wrong read; equality when dims coincide", "why_tests_cant": "tests never read local assignments", "anchors": ["jaxfg/core/_variable_assignments.py:VariableAssignments.get_value"]}
{"id": "C55", "title": "Conjugate gradient result quality", "statement": "In exact arithmetic, if the CG subproblem solver returns before its iteration cap, the returned x satisfies ||A^T b - (A^T A + lambda D) x|| <= tol * ||A^T b||; it performs at most n iterations, and the inexact variant's tolerance eta/(iteration+1) is positive and decreasing.", "quantifier": "every system and tolerance", "why_tests_cant": "all systems", "anchors": ["jaxfg/sparse/_linear_solve.py:_ConjugateGradientSolver.solve_subproblem", "jaxfg/sparse/_linear_solve.py:InexactStepConjugateGradientSolver._get_cg_tolerance"]}
{"id": "C56", "title": "Conjugate gradient solves the damped normal equations within n iterations", "statement": "For lambda >= 0 and a Jacobian whose every column holds a nonzero value (rank deficiency and repeated coordinates allowed), the CG subproblem solver on A^T b divides by zero nowhere and returns an x with ||A^T b - (A^T A + lambda D) x|| <= tol * ||A^T b|| in exact arithmetic, whatever the tolerance; with tolerance 0 it returns an exact solution.", "quantifier": "every matrix, right-hand side, damping and tolerance", "why_tests_cant": "all systems; needs conjugacy of all search directions", "anchors": ["jaxfg/sparse/_linear_solve.py:_ConjugateGradientSolver.solve_subproblem"]}
{"id": "C57", "title": "A zero Jacobian column makes conjugate gradient return NaN everywhere", "statement": "If some column of A holds no nonzero value and A^T b is nonzero, the Jacobi preconditioner divides 0 by 0 and the CG subproblem solver returns NaN in every component, for every tolerance below 1 and every damping; CholmodSolver solves the same system (C25).", "quantifier": "every matrix with a zero column", "why_tests_cant": "tests use full-rank problems", "anchors": ["jaxfg/sparse/_linear_solve.py:_ConjugateGradientSolver.solve_subproblem"]}
{"id": "C58", "title": "Acceptance of a non-integer template argument depends on history", "statement": "RealVectorVariable[k] with an int or bool k >= 0 always succeeds and with k < 0 always raises; with a float argument n.0 it raises AssertionError unless RealVectorVariable[n] was already evaluated successfully, in which case it returns that class: the same expression raises or succeeds according to the calls made before.", "quantifier": "every call history", "why_tests_cant": "history property", "anchors": ["jaxfg/core/_variables.py:_RealVectorVariableTemplate.__getitem__"]}
{"id": "C59", "title": "Covariance recursion depth grows linearly with the problem", "statement": "A SparseCovariance query nests at most 2n+1 __getitem__ calls for an n-dimensional factor, but this is not a constant: on a chain (bidiagonal factor, the pose-chain case) the first query of entry (0,0) nests exactly 2n-1 calls, so it fails under any fixed recursion limit (CPython: 1000 frames, two per call) once n is large enough.", "quantifier": "every lower-triangular factor, query and cache; every chain length", "why_tests_cant": "needs an unbounded family of problem sizes", "anchors": ["jaxfg/experimental/_sparse_covariance.py:SparseCovariance.__getitem__", "jaxfg/experimental/_sparse_covariance.py:SparseCovariance._sum_over_col"]}
{"id": "C60", "title": "The g2o reader sees exactly the words of each line", "statement": "parse_g2o, given a text whose lines show words separated by one or more blanks, with any white space (tabs, carriage returns, ...) around them, with or without a final newline, behaves as on those lists of words; a blank line is an empty list, so it raises. Only blanks separate: two words with a tab between them are read as one word.", "quantifier": "every list of lines, every white-space-free non-empty word, every spacing", "why_tests_cant": "all texts", "anchors": ["scripts/_g2o_utils.py:parse_g2o"]}
{"id": "C61", "title": "Solvers keep every invariant that retraction keeps", "statement": "For any per-variable predicate preserved by manifold_retract, if every initial value satisfies it then so do the values of every loop state and of the assignment returned by GaussNewton, LevenbergMarquardt, Dogleg and the fixed-iteration solver. In particular the squared norm of the rotation parameters of every SO2/SE2/SO3/SE3 pose is exactly that of its initial value: rotations stay on the manifold, and an unnormalised initial pose is never repaired.", "quantifier": "every graph, predicate, solver, size-respecting linear solver, configuration and initial assignment; every arithmetic for the general statement, exact reals for the norms", "why_tests_cant": "unbounded executions over all predicates", "anchors": ["jaxfg/solvers/_nonlinear_solver_base.py:NonlinearSolverBase.solve", "jaxfg/core/_variable_assignments.py:VariableAssignments.manifold_retract", "jaxfg/geometry/_lie_variables.py:LieVariableBase.manifold_retract"]}
{"id": "C62", "title": "solve never raises on a well-formed problem", "statement": "If residuals, Jacobians and retractions return arrays of the documented shapes, some factor has a residual entry and some variable a parameter, then StackedFactorGraph.make succeeds and solve() with CHOLMOD or conjugate gradient returns an assignment of the same variables for every configuration (a factorisation failure inside CHOLMOD on NaN input is not modelled; conjugate gradient never raises). Pose graphs of PriorFactor/BetweenFactor over SO2, SE2, SO3, SE3 are well-formed. Without any parameter solve() raises ValueError (jnp.max of an empty array) while the fixed-iteration solver succeeds; without any residual entry it raises AssertionError.", "quantifier": "every arithmetic, problem, solver, configuration and initial values", "why_tests_cant": "total correctness over all problems", "anchors": ["jaxfg/core/_stacked_factor_graph.py:StackedFactorGraph.make", "jaxfg/solvers/_nonlinear_solver_base.py:NonlinearSolverBase.solve", "jaxfg/solvers/_mixins.py:_TerminationCriteriaMixin.check_convergence", "jaxfg/sparse/_linear_solve.py:CholmodSolver.solve_subproblem"]}
{"id": "C63", "title": "Solvers commute with symmetries: frame invariance and gauge freedom", "statement": "If moving the factors and the values leaves all residuals and Jacobians unchanged and commutes with retraction, solving the moved problem from the moved start gives the moved outcome, iteration by iteration: always for the fixed-iteration solver, and for GaussNewton, LevenbergMarquardt and Dogleg when no termination test looks at parameter values (parameter_tolerance = 0 and gradient_tolerance_start_step >= max_iterations - 1). In particular a pose graph over SO2, SE2, SO3 or SE3 expressed in another world frame is solved to the same poses in that frame, and BetweenFactor-only graphs have full gauge freedom. With the default tolerances this is false: the parameter test compares the step to the norm of the storage, so a far-away origin stops the solver earlier.", "quantifier": "every arithmetic, graph, symmetry, total linear solver, configuration, fuel and start for the general statement; all four groups, all unit frames and all (even unnormalised) poses over exact reals for pose graphs", "why_tests_cant": "infinitely many frames and executions; the failing case needs a far-away origin", "anchors": ["jaxfg/geometry/_factors.py:BetweenFactor.compute_residual_vector", "jaxfg/geometry/_factors.py:PriorFactor.compute_residual_vector", "jaxfg/geometry/_lie_variables.py:LieVariableBase.manifold_retract", "jaxfg/solvers/_mixins.py:_TerminationCriteriaMixin.check_convergence", "jaxfg/solvers/_fixed_iteration_gauss_newton_solver.py:FixedIterationGaussNewtonSolver.solve"]}
{"id": "C64", "title": "Default Jacobians compose residual and retraction derivatives", "statement": "A factor class that does not override compute_residual_jacobians gets, for each of its variables, a (residual_dim x local_dim) matrix whose entry [r, c] is the sum over all scalars k of the variable's value (across all leaves, in flatten order) of d residual_r / d scalar_k times d scalar_k / d tangent_c, taken from the arrays jacfwd returns. If those arrays are the derivatives of the residual and of the retraction, the assembled sparse Jacobian is the derivative of the whitened residual vector along retractions. For a variable class without overrides the retraction part is the identity and the matrix is the plain partial-derivative matrix. The call only succeeds if every variable has at least one leaf and, for variables with at least one scalar, the residual function returns get_residual_dim() entries.", "quantifier": "every factor, every tuple of values with any pytree structure and leaf shapes, any number of variables (also repeated); every graph of such factors with Gaussian or diagonal noise, every direction", "why_tests_cant": "reshape/concatenate order bugs show only for multi-leaf or multi-axis values; the derivative statement is a limit over all directions", "anchors": ["jaxfg/core/_factor_base.py:FactorBase.compute_residual_jacobians", "jaxfg/core/_variables.py:VariableBase.manifold_retract_jacobian"]}
{"id": "C65", "title": "Linear least-squares problems converge to the global optimum", "statement": "If all variables are plain arrays, all noise models Gaussian and all residuals affine in the values, then for every comparison point z the result of GaussNewtonSolver with CHOLMOD costs at most cost(z) + 1e-5 |x0 - z|^2, LevenbergMarquardtSolver at most cost(z) + (lambda_initial + 1e-5) |x0 - z|^2, and n iterations of the fixed-iteration solver at most cost(z) + 1e-5 |x0 - z|^2 / n; in general k loop iterations divide the gap by k, and the cost never rises above the initial one. A minimum z exists. DoglegSolver never raises the cost, and after k iterations its cost is at most cost(z) + 1e-5 |x0 - z|^2 / (k - K) when 3^K times the initial trust-region radius is at least |x0 - z|. So the cost converges to the global minimum also for rank-deficient problems. The minimum is in general not reached exactly in a fixed number of iterations, because of the 1e-5 added to the diagonal.", "quantifier": "every linear problem over exact reals (any factors, sizes, ranks, contradictory measurements), every start, every comparison point, every iteration count and termination settings; Levenberg-Marquardt settings with lambda_initial >= 0, lambda_factor >= 1, lambda_min >= 0, step_quality_min <= 1; Dogleg settings with radius_initial > 0 and step_quality_min <= 1", "why_tests_cant": "global optimality compares with infinitely many points; rates need unbounded iteration counts", "anchors": ["jaxfg/solvers/_gauss_newton_solver.py:GaussNewtonSolver._step", "jaxfg/solvers/_levenberg_marquardt_solver.py:LevenbergMarquardtSolver._step", "jaxfg/solvers/_fixed_iteration_gauss_newton_solver.py:FixedIterationGaussNewtonSolver.solve", "jaxfg/sparse/_linear_solve.py:CholmodSolver._solve", "jaxfg/solvers/_dogleg_solver.py:DoglegSolver._step"]}
{"id": "C66", "title": "Trust-region solvers never accept NaN, but do not recover from it", "statement": "In Levenberg-Marquardt and Dogleg, an iteration is rejected (assignment and cost unchanged, no convergence) whenever the residual vector it linearises with, the residual vector of its proposal, or the current cost contains a NaN; so a run that starts from a cost that is not NaN never has a NaN cost. On such an iteration Dogleg leaves its radius unchanged and Levenberg-Marquardt raises lambda. Because the residual vector of a rejected proposal is kept, one NaN proposal also rejects the next iteration: recovery by raising the damping or shrinking the radius is refuted. Gauss-Newton accepts NaN.", "quantifier": "every number type in which + - * / propagate NaN and comparisons with NaN are false (shown for extended reals and binary32), every graph, user code, linear solver, setting, state and run length", "why_tests_cant": "Tests start close to the solution, where no proposal leaves the domain of the residual functions.", "anchors": ["jaxfg/solvers/_levenberg_marquardt_solver.py:94-152", "jaxfg/solvers/_dogleg_solver.py:132-188", "jaxfg/solvers/_mixins.py:16-28"]}
{"id": "C67", "title": "The g2o script: from the text of the file to the solution", "statement": "Whenever the reader accepts a file, building the factor graph (with or without Huber wrapping) and the initial assignment succeeds, and the assignment gives every vertex its pose from the file. The cost the solvers then evaluate is the sum over the kept edges and the anchoring prior of |sqrt(information) log((Ta^-1 Tb)^-1 Tab)|^2, Huber-weighted with the given threshold when there is one. If every kept vertex is vertex 0 or an end of a kept edge, the script with Gauss-Newton, Levenberg-Marquardt or Dogleg raises nothing and ends with a value for every vertex, SE2 rotations exactly unit and SE3 quaternion norms unchanged; otherwise it raises AssertionError in its first solve. The fixed-iteration solver behaves likewise when the factors first name the vertices in file order. That every accepted file satisfies the two conditions is refuted: one backward edge breaks the order, and the pose limit can disconnect a vertex of a connected file.", "quantifier": "every text, pose limit, integer and float parser, Cholesky routine, Huber threshold, solver setting and linear solver that returns a vector of the right size; exact reals", "why_tests_cant": "The scripts have no tests, and the sample data sets are chains listed in order.", "anchors": ["scripts/pose_graph_g2o.py:51-107", "scripts/_g2o_utils.py:19-136", "jaxfg/core/_stacked_factor_graph.py:277-284"]}
{"id": "C68", "title": "In single precision too, accepted trust-region steps lower the cost and the damping stays in range", "statement": "With all arithmetic in binary32 (round to nearest even): if an iteration of Levenberg-Marquardt or Dogleg with a positive quality threshold accepts its step and the computed prediction is below the current cost, the new computed cost is strictly below the old one; a rejected iteration keeps assignment and cost. Levenberg-Marquardt's lambda stays a number between 0 and lambda_max, and with the default settings stays above 0 for 138 iterations; that it always stays above 0 is refuted by a run of 142 accepted iterations that ends with lambda = 0. Dogleg's radius is never negative.", "quantifier": "every user code, graph, state, linear solver and setting, and every number of iterations; binary32 including subnormals, infinities, signed zeros and NaN", "why_tests_cant": "Rounding effects depend on the exact bits of every intermediate value; overflow and underflow need runs no test has.", "anchors": ["jaxfg/solvers/_mixins.py:16-45", "jaxfg/solvers/_levenberg_marquardt_solver.py:53-152", "jaxfg/solvers/_dogleg_solver.py:50-188"]}
{"id": "C69", "title": "A start whose cost overflows cannot be left by a trust-region solver", "statement": "In Levenberg-Marquardt and Dogleg, once the current cost is +infinity every iteration is rejected: the assignment and the cost never change, whatever the proposals are. The rules used (x - inf is -inf or NaN, -inf / -inf is NaN) hold for extended reals and binary32. That finite residuals are enough for progress is refuted: from x = 10^20 on the residual x, both return the start after 100 iterations while Gauss-Newton reaches a cost below 10^-6.", "quantifier": "every number type with these rules, user code, graph, linear solver, setting and number of iterations", "why_tests_cant": "Needs a start whose squared residual overflows; the outcome looks like ordinary non-convergence.", "anchors": ["jaxfg/solvers/_mixins.py:16-45", "jaxfg/solvers/_levenberg_marquardt_solver.py:53-152", "jaxfg/solvers/_dogleg_solver.py:50-188"]}
{"id": "C70", "title": "A pose graph has zero cost exactly when every measurement holds", "statement": "For a graph of prior and between factors on SO2, SE2, SO3 and SE3 variables with normalised rotations and non-degenerate noise models, compute_cost is never negative, and is zero exactly when every prior's mean is the pose it constrains and every relative measurement leads from its first pose to its second; for SO3 and SE3, poses are compared up to the sign of the quaternion. The same holds at the result of every solver started from normalised poses. BetweenFactor.make raises AssertionError exactly when the two variable types or the measurement's type differ.", "quantifier": "All lists of pose factors built by the make functions over any mix of the four group types, all non-degenerate noise models including Huber, all assignments with normalised rotations; all solvers, configurations and starts for the second part.", "why_tests_cant": "A test checks a few graphs near one solution; it does not exclude an inconsistent configuration with zero cost, such as one hidden by a swapped operand or a quaternion branch.", "anchors": ["jaxfg/geometry/_factors.py:45-51", "jaxfg/geometry/_factors.py:79-106", "jaxfg/core/_stacked_factor_graph.py:158-172", "jaxfg/geometry/_lie_variables.py:27-45"]}
{"id": "C71", "title": "The gradient the solvers follow is that of a known loss, which with Huber factors is not the cost", "statement": "At every assignment, A^T r (the negated right-hand side of every solver's linear system) is the gradient along retractions of a sum of per-factor losses: half the squared whitened norm for Gaussian noise; for one Huber wrapper with threshold delta, the same up to delta and 4/5 delta n (n/delta)^(1/4) - 3/10 delta^2 beyond. That loss equals the Huber loss up to delta and lies strictly between it and the quadratic beyond. It is not the loss compute_cost reports: Gauss-Newton and the fixed-iteration solver can stay for ever at a start although another assignment has lower cost.", "quantifier": "All graphs with Gaussian noise or one Huber wrapper with positive threshold per factor, all assignments, all directions, all residual functions whose declared Jacobians are derivatives along the direction; the refutation covers all iteration counts and all configurations with a positive cost tolerance.", "why_tests_cant": "A test sees that robust problems converge somewhere plausible; that the point reached minimises another function than the reported cost is invisible without comparing derivatives symbolically.", "anchors": ["jaxfg/noises/_huber.py:27-51", "jaxfg/core/_stacked_factor_graph.py:174-246", "jaxfg/solvers/_gauss_newton_solver.py:37-61"]}
{"id": "C72", "title": "Information adds up over factors, and marginal covariances shrink accordingly", "statement": "The information matrix A^T A of a graph is the quadratic form that sums, over the factors, the squared norm of the factor's whitened Jacobian applied to the tangent vector. Hence adding factors on variables already present can only lower the marginal covariance of any list of variables, in every direction; the marginal of a variable constrained by PriorFactors alone is the inverse of the sum of the inverse noise covariances, whatever the prior means and the assignment; and m priors with the same covariance give that covariance divided by m (what tests/test_marginalization.py checks for m = 1 and 2).", "quantifier": "All graphs with Gaussian or DiagonalGaussian noise, all assignments, all tangent vectors, all lists of queried variables; for priors all four Lie groups, all positive definite covariances, any number of factors and any mean values. The CHOLMOD factor is assumed to be one of A^T A itself, without a fill-reducing permutation (C48 shows what happens otherwise).", "why_tests_cant": "The tests build two graphs on one SE(2) variable with random covariances; additivity and monotonicity over all graphs and all directions are statements about quadratic forms that no finite sample covers.", "anchors": ["jaxfg/core/_stacked_factor_graph.py:228-275", "jaxfg/experimental/_sparse_covariance.py:1-121", "jaxfg/noises/_gaussians.py:10-76", "jaxfg/geometry/_factors.py:21-60", "tests/test_marginalization.py:10-66"]}
{"id": "C73", "title": "In single precision the cost is accurate, never negative, and zero only for tiny residuals, in any summation order", "statement": "Let r be the whitened residual vector compute_cost returns. Whatever tree of single-precision additions, with or without fused multiply-adds, evaluates jnp.sum(r ** 2): the result is not NaN and not negative when no component is NaN; when it is finite it differs from the exact sum of squares by at most ((1+u)^h - 1) times that sum plus an underflow term, where u = 2^-24 and h is the height of the tree; it is finite when the components are and the exact sum plus that bound fits in single precision; and it is zero exactly when every component is at most 2^-75 in size. Consequently two costs whose exact values are further apart than the bounds are compared correctly. What fails: the value may depend on the order of summation, and a zero cost does not mean a zero residual.", "quantifier": "All environments, graphs, assignments for which compute_cost returns, all evaluation trees over any permutation of the residual components, all heights. Round to nearest even with gradual underflow.", "why_tests_cant": "The order XLA picks depends on backend, vector length and compiler version; a test sees one order on a few residuals. The bound is over all trees and all single-precision inputs, including ones that underflow or overflow.", "anchors": ["jaxfg/core/_stacked_factor_graph.py:157-173"]}
{"id": "C74", "title": "Independent subproblems are solved, and their covariances computed, as if on their own", "statement": "Let the factors of a graph split into two lists that share no variable. FixedIterationGaussNewtonSolver with CHOLMOD gives the variables of one part exactly the values it gives when that part is solved alone. So it does with conjugate gradients run to convergence (tolerance 0), when the Jacobian sends no direction to zero. The sparse marginal covariance of variables of one part equals the one computed from the part alone, and entries between variables of different parts are zero. What fails: conjugate gradients with a positive tolerance let the parts interact, because step length and stopping test are computed from the whole problem; GaussNewtonSolver's stopping tests and LevenbergMarquardtSolver's acceptance test look at the whole problem, so with these solvers the parts influence each other; a step can be accepted that raises the cost of one part.", "quantifier": "All environments with well-formed classes, factor lists and interleavings of two parts without a common variable, starting values, iteration counts and fuels, unrolled or not; for covariances all graphs whose factor is one of A^T A without a permutation, all sets of variables. Exact arithmetic.", "why_tests_cant": "Needs every way of splitting and interleaving a graph; tests solve connected graphs only, and the coupling through stopping and acceptance only shows when one part dominates the cost.", "anchors": ["jaxfg/solvers/_fixed_iteration_gauss_newton_solver.py:42-122", "jaxfg/solvers/_gauss_newton_solver.py:37-93", "jaxfg/solvers/_levenberg_marquardt_solver.py:53-152", "jaxfg/solvers/_mixins.py:16-110", "jaxfg/experimental/_sparse_covariance.py:1-121", "jaxfg/sparse/_linear_solve.py:95-146"]}
{"id": "C75", "title": "Accepted trust-region steps lower the cost by a definite amount; enough damping or a small enough radius gets a step accepted", "statement": "Let s be a state whose cost and residual are those of its assignment, and let only accepted iterations follow, with Jacobians of squared norm at most F. With LevenbergMarquardtSolver the cost falls in total by at least step_quality_min times the sum of |A^T r|^2/(F + lambda + 1e-5), stays nonnegative, and after k accepted iterations some visited point has |A^T r|^2 <= cost(s) (F + lambda(s) + 1e-5)/(step_quality_min k). With DoglegSolver the same holds with min(radius |A^T r|, |A^T r|^2/(F + 1e-5)) per iteration. If the residual differs from its linearisation by at most K |d|^2, an explicit lower bound on lambda (an explicit upper bound on the radius) makes the next step accepted. What fails: after a rejected iteration the state keeps the rejected proposal's residual, and the next accepted step can raise the cost.", "quantifier": "All environments with well-formed classes, graphs, factor residual functions, starting values, settings with positive step_quality_min, lambda_factor at least 1, any number of accepted iterations, bounds F and K. Exact arithmetic, CHOLMOD.", "why_tests_cant": "The decrease bound and the acceptance threshold quantify over all residual functions and all iterations; a test sees a cost that went down, not by how much it must.", "anchors": ["jaxfg/solvers/_levenberg_marquardt_solver.py:53-152", "jaxfg/solvers/_dogleg_solver.py:50-188", "jaxfg/solvers/_mixins.py:16-28"]}
{"id": "C76", "title": "With conjugate gradients the steps descend, and on linear problems the gradient shrinks by the tolerance of every iteration", "statement": "Stopped at any tolerance, the conjugate gradient solver returns a step x with x.A^T b >= |Ax|^2 and |Ax - b|^2 + |Ax|^2 <= |b|^2 (a descent direction, if the tolerance is below 1 and the gradient is not zero), provided no column of the Jacobian is zero. On linear least-squares problems k iterations of Gauss-Newton, with or without convergence checks, multiply the norm of the gradient by at most the product of the k tolerances: t^k for ConjugateGradientSolver and eta^k/k! for InexactStepConjugateGradientSolver; the cost never rises, and if |Ay|^2 >= sigma |y|^2 for all y it exceeds the minimum by at most that product squared times |A^T r0|^2/sigma.", "quantifier": "every Jacobian without a zero column, every right-hand side, every damping >= 0, every tolerance schedule; every linear problem, start, iteration count and comparison point, over exact reals", "why_tests_cant": "the Krylov argument must hold for matrices of every size and rank; rates need unbounded iteration counts", "anchors": ["jaxfg/sparse/_linear_solve.py:_ConjugateGradientSolver.solve_subproblem", "jaxfg/sparse/_linear_solve.py:InexactStepConjugateGradientSolver._get_cg_tolerance", "jaxfg/solvers/_gauss_newton_solver.py:GaussNewtonSolver._step", "jaxfg/solvers/_fixed_iteration_gauss_newton_solver.py:FixedIterationGaussNewtonSolver.solve"]}
{"id": "C77", "title": "Close to a solution the Gauss-Newton solvers and accepted Levenberg-Marquardt steps converge at a known rate", "statement": "Let z be an assignment of plain array variables around which, within distance rho, the whitened Jacobian is bounded below by m, the linearisation is off by at most K times the squared distance, and A^T r(z) is at most S times the distance (zero if z fits the data exactly), with S + K m rho < m^2. From a state at distance d <= rho one Gauss-Newton iteration with CHOLMOD leads to a distance d' with d' (m^2 + 1e-5) <= (1e-5 + S + K m d) d: linear, and quadratic up to the fixed damping 1e-5 if z fits exactly. So k iterations shrink the distance by q^k, q = (1e-5 + S + K m rho)/(m^2 + 1e-5) < 1; the fixed-iteration solver returns such an assignment, and every answer of the Gauss-Newton solver is closer by at least the factor q. With conjugate gradients of relative tolerance t the rate is (S + K m rho + t (f^2 + f K rho + S))/m^2, f an upper bound of the Jacobian. Accepted Levenberg-Marquardt steps converge at the rate with the initial lambda added to the damping. z is the only stationary point within rho. Not so from anywhere: Gauss-Newton on x^2 = 4 stays at x = 0.", "quantifier": "every well-posed problem over plain arrays, every such solution and constants, every start within rho, every iteration count, every tolerance schedule bounded by t, over exact reals", "why_tests_cant": "convergence for every nonlinear problem and start near a solution is an unbounded statement; tests only see single problems", "anchors": ["jaxfg/solvers/_gauss_newton_solver.py:GaussNewtonSolver._step", "jaxfg/solvers/_fixed_iteration_gauss_newton_solver.py:FixedIterationGaussNewtonSolver.solve", "jaxfg/solvers/_levenberg_marquardt_solver.py:LevenbergMarquardtSolver._step", "jaxfg/sparse/_linear_solve.py:CholmodSolver.solve_subproblem", "jaxfg/sparse/_linear_solve.py:_ConjugateGradientSolver.solve_subproblem"]}
{"id": "C78", "title": "The solvers see a problem only through the information it carries", "statement": "Call two lists of factors over the same variables informationally equal if the sums of their linearised squared whitened residuals agree for all values, stale residuals and tangent vectors. From the same values every solver - Gauss-Newton, Levenberg-Marquardt, Dogleg, fixed-iteration, each with CHOLMOD or conjugate gradients at any tolerance schedule - has the same outcome on both: the same final values of every variable, the same exception, or both still running. Informationally equal are: reorderings; noise models of the same precision matrix whatever their class (Gaussian, DiagonalGaussian) and square root, also inside Huber wrappers of equal threshold; a factor and two factors whose precisions add up to its own (so a zero-precision factor changes nothing, and a repeated measurement equals one of twice the precision). Equal cost functions are not enough: (x^2+1)^2 as one factor and as (x^2-1)^2 + (2x)^2 give different Gauss-Newton steps.", "quantifier": "every pair of informationally equal problems in which no factor repeats a variable, every solver configuration with positive damping settings, every start, over exact reals", "why_tests_cant": "equality of whole runs for all re-encodings of all problems; tests compare single runs up to rounding", "anchors": ["jaxfg/solvers/_gauss_newton_solver.py:GaussNewtonSolver._step", "jaxfg/solvers/_levenberg_marquardt_solver.py:LevenbergMarquardtSolver._step", "jaxfg/solvers/_dogleg_solver.py:DoglegSolver._step", "jaxfg/solvers/_fixed_iteration_gauss_newton_solver.py:FixedIterationGaussNewtonSolver.solve", "jaxfg/sparse/_linear_solve.py:_ConjugateGradientSolver.solve_subproblem", "jaxfg/noises/_gaussians.py:Gaussian.whiten_residual_vector", "jaxfg/noises/_huber.py:HuberWrapper.whiten_jacobian"]}
{"id": "C79", "title": "Which solves share one CHOLMOD symbolic analysis", "statement": "solve is compiled by jax.jit once per solver configuration, graph structure (factor kinds and counts, variables, array shapes) and assignment layout, and the compiled code captures the CholmodSolver rebuilt while tracing. So over any history of calls a solve uses the analysis of the sparsity pattern of the earliest call alike in these respects, whichever solver objects the caller used; it is its own pattern if all earlier alike calls had that pattern. Two graphs whose factors have pairwise the same kinds and mention the same variables in the same order are alike; if moreover corresponding factors connect the same variables the patterns are equal, so re-solving with new data is safe. The documented guard (one solver object per sparsity pattern) is not enough: two fresh solver objects on two graphs over the same variables with differently connected factors share one analysis.", "quantifier": "every history of solve calls on graphs made from well-shaped factors, every solver object, for any number type", "why_tests_cant": "needs histories of calls, object identities inside traces and pairs of graphs of equal shape; the tests use one graph per process or per structure", "anchors": ["jaxfg/solvers/_nonlinear_solver_base.py:NonlinearSolverBase.solve", "jaxfg/solvers/_fixed_iteration_gauss_newton_solver.py:FixedIterationGaussNewtonSolver.solve", "jaxfg/sparse/_linear_solve.py:CholmodSolver.solve_subproblem", "jaxfg/sparse/_linear_solve.py:CholmodSolver._solve", "jaxfg/core/_stacked_factor_graph.py:StackedFactorGraph.make"]}
{"id": "C80", "title": "Stopping a solver and resuming from its result", "statement": "With a linear solver that ignores the iteration number (CHOLMOD, constant-tolerance CG) n and then m fixed iterations give the result of n + m. Raising max_iterations above a run that stopped on its own changes nothing. If the gradient is tested from the first iteration and a Gauss-Newton, Levenberg-Marquardt or Dogleg run is still going after n iterations with the last step accepted, calling solve with limit n and then with limit m from its result, with the damping or radius reached so far as the initial one, gives exactly the result (or exception) of one call with limit n + m; for Gauss-Newton every run splits this way. It fails, in single precision with otherwise default settings, for the inexact CG solver (its tolerance starts again), with the default gradient_tolerance_start_step (either call skips ten tests), with the default initial damping or radius, and after a rejected step even with damping or radius carried over (the uninterrupted run linearises with the residual of the rejected proposal).", "quantifier": "every graph of well-shaped factors, every global start over its variables in any order, every number of iterations n, m >= 1, every settings, for any number type", "why_tests_cant": "compares runs of three calls for all splits; the tests only ever call solve once per problem", "anchors": ["jaxfg/solvers/_nonlinear_solver_base.py:NonlinearSolverBase.solve", "jaxfg/solvers/_fixed_iteration_gauss_newton_solver.py:FixedIterationGaussNewtonSolver.solve", "jaxfg/solvers/_gauss_newton_solver.py:GaussNewtonSolver._step", "jaxfg/solvers/_levenberg_marquardt_solver.py:LevenbergMarquardtSolver._step", "jaxfg/solvers/_dogleg_solver.py:DoglegSolver._step", "jaxfg/solvers/_mixins.py:_TerminationCriteriaMixin.check_convergence", "jaxfg/sparse/_linear_solve.py:InexactStepConjugateGradientSolver._get_cg_tolerance"]}
{"id": "C81", "title": "The solvers carry out the textbook iterations on variables and factors", "statement": "Through stacking by factor kind, the storage layout, the COO Jacobian and the direct linear solver, each iteration is what a textbook states in terms of the values of the variables, one tangent vector per variable and sums over the factors. Gauss-Newton (and the fixed-iteration solver): the new values are the old ones moved by the one minimiser of the linearised cost plus 1e-5 |xi|^2. Levenberg-Marquardt: the same with 1e-5 + lambda; the proposal is taken iff the actual over the predicted change of the cost reaches step_quality_min, and lambda is divided by lambda_factor, or multiplied by it and clipped. Dogleg: the proposal is the Gauss-Newton step if it is no longer than the radius, else the point at distance radius on the path from 0 to the minimiser along the negative gradient to the Gauss-Newton step; the radius is halved, kept or raised to three times the step length. Every call of solve returns normally with the values after k such turns from the initial values, 1 <= k <= max(1, max_iterations) (exactly `iterations` for the fixed solver). Gauss-Newton and Levenberg-Marquardt turns determine the new values.", "quantifier": "every well-posed list of factors in any order with any mixture of kinds, noise models and duplicated or shared variables, every assignment, all settings (positive damping, radius), every number of iterations; over the reals with CholmodSolver", "why_tests_cant": "relates the whole pipeline to a specification that has no stacks, layouts or matrices; tests look at final values of a few graphs", "anchors": ["jaxfg/solvers/_gauss_newton_solver.py:GaussNewtonSolver._step", "jaxfg/solvers/_fixed_iteration_gauss_newton_solver.py:FixedIterationGaussNewtonSolver.solve", "jaxfg/solvers/_levenberg_marquardt_solver.py:LevenbergMarquardtSolver._step", "jaxfg/solvers/_dogleg_solver.py:DoglegSolver._step", "jaxfg/solvers/_mixins.py:_TrustRegionMixin.compute_step_quality", "jaxfg/solvers/_nonlinear_solver_base.py:NonlinearSolverBase.solve", "jaxfg/sparse/_linear_solve.py:CholmodSolver._solve", "jaxfg/core/_stacked_factor_graph.py:StackedFactorGraph.compute_whitened_residual_jacobian"]}
{"id": "C82", "title": "One pose with an outlier: the estimate with and without Huber loss", "statement": "An SE(2) pose with m unit-noise priors at the origin and one prior at (x, y), in any order, solved from the default value by Gauss-Newton with CHOLMOD. Without Huber loss k iterations put the pose at (1 - (1e-5/(m+1+1e-5))^k)/(m+1) of the way to the outlier. With HuberWrapper(delta) on the outlier at distance D >= delta + delta/m the pose moves on the segment towards the outlier, and its distance converges from below, at rate (1+1e-5)/(m+1+1e-5) or better, to the one X with (m X)^4 = delta^3 (D - X). Hence for every ratio c with c^4 delta^3 (m+1+1e-5)^4 <= m^4 D^3 the error with Huber loss is less than 1/c of the error without, whatever the termination settings (tests/test_huber.py: m = 2, delta = 1, D = |(2000, 200)|, c = 100). But the influence of the outlier is not bounded, as it is for the Huber estimator (delta/m): for every bound B some outlier moves the estimate further than B.", "quantifier": "every m, every outlier position, every delta > 0, every order of the factors, every number of iterations and every termination settings; over the reals with CholmodSolver", "why_tests_cant": "the test checks one ratio for one set of numbers; the law of growth with the distance of the outlier is not visible in it", "anchors": ["tests/test_huber.py:test_huber", "jaxfg/noises/_huber.py:HuberWrapper.whiten_residual_vector", "jaxfg/noises/_huber.py:HuberWrapper.whiten_jacobian", "jaxfg/geometry/_factors.py:PriorFactor.compute_residual_vector", "jaxfg/solvers/_gauss_newton_solver.py:GaussNewtonSolver._step", "jaxfg/solvers/_fixed_iteration_gauss_newton_solver.py:FixedIterationGaussNewtonSolver.solve"]}
{"id": "C83", "title": "Pose graphs along a straight line reduce to scalar least squares and converge at a stated rate", "statement": "An SE(2) pose graph of priors at (mu, 0, 0) and between factors (d, 0, 0) with any diagonal noises, started from poses (x, 0, 0): Gauss-Newton, fixed-iteration Gauss-Newton and Levenberg-Marquardt with CHOLMOD return poses (x', 0, 0), compute_cost there is the scalar least-squares cost Q(x') of the x coordinates, and after k iterations Q(x') <= Q(z) + beta |z - x|^2 / k for every z, where beta = 1e-5 for Gauss-Newton and lambda_initial + 1e-5 for Levenberg-Marquardt; Q(x') < Q(x) unless x is already optimal. The problem may be under-determined (no prior, zero weights). For the graph of tests/test_pose_graphs.py the joint negative log likelihood goes down, by more than 4.666 with Gauss-Newton, whatever the termination settings.", "quantifier": "every list of such factors over any number of poses, every start on the line, every termination settings and iteration counts, every Levenberg-Marquardt configuration with positive lambdas, factor >= 1 and quality threshold <= 1; over the reals with CholmodSolver", "why_tests_cant": "the tests solve one graph of two poses and assert only that the likelihood improves", "anchors": ["tests/test_pose_graphs.py:test_pose_graph_gauss_newton", "tests/test_pose_graphs.py:test_pose_graph_levenberg_marquardt", "scripts/pose_graph_simple.py", "jaxfg/geometry/_factors.py:BetweenFactor.compute_residual_vector", "jaxfg/geometry/_factors.py:PriorFactor.compute_residual_vector", "jaxfg/solvers/_gauss_newton_solver.py:GaussNewtonSolver._step", "jaxfg/solvers/_levenberg_marquardt_solver.py:LevenbergMarquardtSolver._step"]}
{"id": "C84", "title": "Forward-mode default Jacobians of straight-line programs are the derivative", "statement": "A factor whose compute_residual_vector is a straight-line program (+, -, *, /, negation, sqrt, abs, max, min, sin, cos, exp, literals, over the scalars of the variable values and of the factor's fields) and variable classes whose manifold_retract is such a program (plain classes: addition) use the default compute_residual_jacobians, that is jax.jacfwd run on value/tangent pairs once per basis vector. At values where no division by zero, square root of a non-positive number, or kink of abs, max or min occurs, the sparse whitened Jacobian times x is the derivative of t -> whitened residuals after retracting by t x. Such problems meet the hypotheses of the solver theorems (well_posed). At a kink jacfwd still returns a slope (0 for abs, 1/2 for a tie of max). The smoothness condition is needed: a range measurement |p - q| - z of a point whose default value is q has residual -z but a Jacobian of NaNs; in single precision Gauss-Newton returns NaN and the trust-region solvers never leave the start.", "quantifier": "every such program, all values where it is smooth, every linear noise, every graph of such factors; derivatives over the reals, the NaN run in binary32", "why_tests_cant": "tests differentiate a few residuals at a few points and compare nothing with the true derivative", "anchors": ["jaxfg/core/_factor_base.py:FactorBase.compute_residual_jacobians", "jaxfg/core/_variables.py:VariableBase.manifold_retract_jacobian", "jaxfg/core/_stacked_factor_graph.py:StackedFactorGraph.compute_whitened_residual_jacobian"]}
{"id": "C85", "title": "The solvers leave alone what the measurements do not determine, and converge to the nearest minimiser", "statement": "(a) Every step computed by Gauss-Newton, Levenberg-Marquardt and Dogleg with CholmodSolver is orthogonal to every direction that the Jacobians of all factors send to zero; for variables without a manifold, the component of the values in such a direction is therefore the same after any solve() as before it (for example the mean of all positions, when there are only relative measurements). (b) On a linear least-squares problem, underdetermined or not, there is exactly one minimiser nearest to the starting values, and the error with respect to it shrinks at every iteration by at least the factor beta/(mu + beta), where beta is the damping (1e-5 for Gauss-Newton, plus lambda_initial for Levenberg-Marquardt) and mu > 0 depends only on the problem; Dogleg does the same after as many iterations as its radius needs to triple its way to the solution. The fixed-iteration solver gets within any distance of it. (c) With the conjugate gradient solver this is false: its Jacobi preconditioner leads to another minimiser.", "quantifier": "all variable classes, factor lists, graphs, starting values, iteration counts and solver settings as stated; (a) all well-posed problems, nonlinear ones and all noise models included; (b) all linear problems", "why_tests_cant": "A test compares one result on one full-rank problem. Which of the infinitely many minimisers of an underdetermined problem is returned, and that it is the same one for every solver, is a statement about all directions of the kernel and about the limit of the iterations.", "anchors": ["jaxfg/solvers/_gauss_newton_solver.py:GaussNewtonSolver._step", "jaxfg/solvers/_levenberg_marquardt_solver.py:LevenbergMarquardtSolver._step", "jaxfg/solvers/_dogleg_solver.py:DoglegSolver._step", "jaxfg/solvers/_fixed_iteration_gauss_newton_solver.py:FixedIterationGaussNewtonSolver.solve", "jaxfg/sparse/_linear_solve.py:CholmodSolver._solve", "jaxfg/sparse/_linear_solve.py:_ConjugateGradientSolver.solve_subproblem"]}
{"id": "C86", "title": "Graphs of planar rotations: the cost never rises, and below half a turn the solvers solve a scalar least-squares problem", "statement": "For a graph of SO2 variables with prior and between factors and any weights, compute_cost is the sum of the squared weighted angle differences wrapped to (-pi, pi]. Gauss-Newton, fixed-iteration Gauss-Newton and Levenberg-Marquardt (quality threshold at most 1) with CHOLMOD never raise this cost, lower it unless the start already minimises its own linearised problem, and leave such a start alone. If the cost of the start is below (w pi)^2 for every non-zero weight w, no difference ever wraps: the cost of the answer after k iterations is at most Q(z) + beta |z - x|^2 / k for every z, where Q is the scalar least-squares problem with the measured angles unwound at the start x and beta is 1e-5, plus lambda_initial for Levenberg-Marquardt. This need not be the global optimum: five rotations in a ring, all measured to be equal but wound once around, stay at cost 4 pi^2 / 5.", "quantifier": "every list of such factors over any number of rotations, every start, all termination settings and iteration counts, every Levenberg-Marquardt configuration with positive lambdas, factor >= 1 and quality threshold <= 1; over the reals with CholmodSolver", "why_tests_cant": "needs an argument that the wrapped cost lies below the linearised one everywhere; tests see single graphs", "anchors": ["jaxfg/geometry/_factors.py:PriorFactor.compute_residual_vector", "jaxfg/geometry/_factors.py:BetweenFactor.compute_residual_vector", "jaxfg/geometry/_lie_variables.py:LieVariableBase.manifold_retract", "jaxfg/solvers/_gauss_newton_solver.py:GaussNewtonSolver._step", "jaxfg/solvers/_levenberg_marquardt_solver.py:LevenbergMarquardtSolver._step", "jaxfg/solvers/_fixed_iteration_gauss_newton_solver.py:FixedIterationGaussNewtonSolver.solve"]}
{"id": "C87", "title": "Pose graphs: started near poses that fit every measurement, the nonlinear solvers converge to them", "statement": "Take prior and between factors over SO2, SE2, SO3 and SE3 variables with Gaussian, diagonal or Huber noise models that lose no direction, and poses z at which every measurement holds. Let z be rigid: no non-zero tangent leaves all residuals unchanged to first order; this is so whenever every variable is joined to a prior by relative measurements. Then there are constants m, rho, K such that for a start z (+) e with |e| <= rho, a step damped by beta ends at z (+) e' with |e'| <= (beta/(m^2+beta) + K|e|) |e|. Hence there are q < 1 and rho such that k Gauss-Newton iterations with CHOLMOD end within q^k |e| of z, for both the terminating and the fixed-iteration solver, and enough fixed iterations come within any eps of z. Near z the gain ratio of a damped step is 1 + O(|e|). Levenberg-Marquardt (lambda_factor at least 1) and Dogleg with a quality threshold below 1 therefore accept every step while |e| > 0, never raise lambda or shrink the radius, and converge at a geometric rate as well.", "quantifier": "every list of such factors over any number of variables of all four groups, every consistent rigid z, every start in the ball, all termination settings and iteration counts, every Levenberg-Marquardt configuration with positive lambdas, factor >= 1 and threshold < 1, every Dogleg configuration with positive radius and threshold < 1; over the reals with CholmodSolver, exact square roots and trigonometry", "why_tests_cant": "a statement about all starts in a ball and all graphs, with a contraction rate; tests see single runs with rounding", "anchors": ["jaxfg/geometry/_factors.py:PriorFactor.compute_residual_vector", "jaxfg/geometry/_factors.py:BetweenFactor.compute_residual_vector", "jaxfg/geometry/_lie_variables.py:LieVariableBase.manifold_retract", "jaxfg/solvers/_gauss_newton_solver.py:GaussNewtonSolver._step", "jaxfg/solvers/_fixed_iteration_gauss_newton_solver.py:FixedIterationGaussNewtonSolver.solve", "jaxfg/noises/_huber.py:HuberWrapper.whiten_residual_vector", "jaxfg/solvers/_levenberg_marquardt_solver.py:LevenbergMarquardtSolver._step", "jaxfg/solvers/_dogleg_solver.py:DoglegSolver._step"]}
{"id": "C88", "title": "Pose graphs with contradicting measurements: where the solvers come to rest, and whether the cost is least there", "statement": "Started at values val, the first damped step is zero exactly when val is balanced: the whitened residuals, pulled back through the analytic Jacobians, cancel (A^T r = 0). Started there, all four nonlinear solvers return val. For two priors on one pose of SO2, SE2, SO3 or SE3, whose Gaussian noise models are multiples s1, s2 of one another, the pose at the fraction s2^2/(s1^2+s2^2) of the way from the first mean to the second is balanced. For SO2 and SO3 graphs with isotropic noise, 2 A^T r is the exact gradient of the cost along the retraction at residuals short of a half turn, although the analytic Jacobian is not the derivative of the residual; and the pose between two priors has the least cost of all rotations. For SE2 and SE3 it is not so: whenever the motion between the two means has a rotation and a translation that are not parallel, some other pose costs strictly less than the one where the solvers stay.", "quantifier": "every list of prior and between factors over rotations with isotropic noise and every direction (gradient); every well-posed problem (step, rest); all four groups, all pairs of normalised means, all Gaussian noise models up to a multiple (midpoint); all pairs of rotations and all competing rotations (minimum); all pairs of rigid motions with a non-parallel rotation and translation (cheaper); all four solvers with CholmodSolver, all termination settings; over the reals", "why_tests_cant": "the solvers report convergence with a small gradient, and tests with consistent measurements end at cost 0; a statement about all competing poses is needed to see that the reported cost is not least", "anchors": ["jaxfg/geometry/_factors.py:PriorFactor.compute_residual_vector", "jaxfg/geometry/_factors.py:PriorFactor.compute_residual_jacobians", "jaxfg/geometry/_factors.py:BetweenFactor.compute_residual_jacobians", "jaxfg/geometry/_lie_variables.py:LieVariableBase.manifold_retract", "jaxfg/core/_stacked_factor_graph.py:StackedFactorGraph.compute_cost", "jaxfg/core/_stacked_factor_graph.py:StackedFactorGraph.compute_whitened_residual_jacobian", "jaxfg/solvers/_gauss_newton_solver.py:GaussNewtonSolver._step", "jaxfg/solvers/_fixed_iteration_gauss_newton_solver.py:FixedIterationGaussNewtonSolver.solve", "jaxfg/solvers/_levenberg_marquardt_solver.py:LevenbergMarquardtSolver._step", "jaxfg/solvers/_dogleg_solver.py:DoglegSolver._step"]}
{"id": "C89", "title": "Averaging rotations: the full Gauss-Newton step never raises the cost, and the solvers make progress from every start", "statement": "The exponential of SO2 and SO3 shortens distances: |log(exp(d)^-1 exp(e))| <= |e - d|. Hence on a graph of priors on rotations (SO2, SO3) and between factors on planar rotations, with isotropic noise, the cost after any retraction is at most what the linearised model predicted. It follows, for any graph whose cost stays below its model, that each of the four nonlinear solvers, started at any normalised values, returns normalised values of no higher cost, and of strictly lower cost unless it started where the pulled-back residuals cancel; if the start costs less than (s pi)^2 for the noise scale s of every factor, no residual of the run comes to half a turn. For the fixed-iteration solver the gradient tends to zero: of n iterations one has |A^T r|^2 at most K cost / n. That the run ends at the least cost is false: from half a turn away it can stay at a balanced state that is not the best.", "quantifier": "every list of such factors, every start at normalised values, all tangent steps, all four solvers with CholmodSolver, all termination settings, quality thresholds at most 1, all numbers of iterations; over the reals", "why_tests_cant": "a step that raises the cost is easily missed by tests near the solution; the claim is about every start, also at residuals of half a turn where the logarithm is discontinuous", "anchors": ["jaxfg/geometry/_factors.py:PriorFactor.compute_residual_vector", "jaxfg/geometry/_factors.py:PriorFactor.compute_residual_jacobians", "jaxfg/geometry/_factors.py:BetweenFactor.compute_residual_vector", "jaxfg/geometry/_factors.py:BetweenFactor.compute_residual_jacobians", "jaxfg/geometry/_lie_variables.py:LieVariableBase.manifold_retract", "jaxfg/core/_stacked_factor_graph.py:StackedFactorGraph.compute_cost", "jaxfg/solvers/_gauss_newton_solver.py:GaussNewtonSolver._step", "jaxfg/solvers/_fixed_iteration_gauss_newton_solver.py:FixedIterationGaussNewtonSolver.solve", "jaxfg/solvers/_levenberg_marquardt_solver.py:LevenbergMarquardtSolver._step", "jaxfg/solvers/_dogleg_solver.py:DoglegSolver._step"]}
{"id": "C90", "title": "A verbose solver's output is a faithful account of its run, and does not affect it", "statement": "For each of the four nonlinear solvers: printing does not change the result; a solver with verbose=False, and a call that raises, prints nothing. A verbose call that returns prints one line per iteration, numbered 0, 1, ..., k-1, each showing the state before that iteration: its cost, which is the graph's cost at that state's assignment, and for Levenberg-Marquardt and Dogleg its damping or trust-region radius; then one line with the number k of iterations made. Here k is at least 1 and at most max(1, max_iterations), and for the fixed-iteration solver exactly `iterations`. The cost on the last line is the cost of the returned assignment, although that is stored in the caller's layout. That the printed costs never rise is false: Levenberg-Marquardt can print a cost below 5 and next one above 10^17.", "quantifier": "every arithmetic, every graph, factor class, linear solver, initial assignment and layout of it, all settings of the four solvers, both values of verbose", "why_tests_cant": "tests do not read what is printed; an off-by-one in the iteration number, a cost from before instead of after a rejected proposal or a callback left out of the loop body go unnoticed", "anchors": ["jaxfg/solvers/_nonlinear_solver_base.py:NonlinearSolverBase._hcb_print", "jaxfg/solvers/_nonlinear_solver_base.py:NonlinearSolverBase.solve", "jaxfg/solvers/_gauss_newton_solver.py:GaussNewtonSolver._step", "jaxfg/solvers/_levenberg_marquardt_solver.py:LevenbergMarquardtSolver._step", "jaxfg/solvers/_dogleg_solver.py:DoglegSolver._step", "jaxfg/solvers/_fixed_iteration_gauss_newton_solver.py:FixedIterationGaussNewtonSolver._step", "jaxfg/solvers/_fixed_iteration_gauss_newton_solver.py:FixedIterationGaussNewtonSolver.solve"]}
{"id": "C91", "title": "A factor evaluated by hand agrees with the graph's evaluation", "statement": "get_variable_values_from_assignments(factor, assignments) returns the values of the factor's variables, in the factor's order and wrapped in the NamedTuple the residual function is hinted with, or as a plain tuple for a Tuple hint; it raises KeyError exactly when a variable has no value, whatever the hint, and raises when the values do not match the hint; values of other variables do not matter. Evaluating every factor by hand with it (residual, then whitening) gives the blocks of compute_whitened_residual_vector, in the order of the stacks, bit for bit in any arithmetic; over the reals the sum of the squared norms is the cost.", "quantifier": "every factor list, residual function, noise model, hint and assignment, in any storage order; the residual claim in every arithmetic", "why_tests_cant": "the helper is not called by the library itself and no test calls it; agreement with the vectorised path depends on gather indices, stacking order and wrapping", "anchors": ["jaxfg/core/_factor_base.py:FactorBase.get_variable_values_from_assignments", "jaxfg/core/_factor_base.py:FactorBase.build_variable_value_tuple", "jaxfg/core/_stacked_factor_graph.py:StackedFactorGraph.compute_whitened_residual_vector"]}
{"id": "C92", "title": "The pytree helpers stack and concatenate along the requested axis; the stopwatch is transparent", "statement": "pytree_stack(*trees, axis) and pytree_concatenate(*trees, axis) succeed exactly when the trees have one structure and, leaf by leaf, the shapes agree (for concatenate: outside the axis) and the axis, counted from the end if negative, exists in the result (for concatenate: in the leaves); without trees they raise TypeError. The result has the structure of the trees; in each leaf the element with index j inserted at the axis is the element of the j-th tree's leaf, for concatenate with the index along the axis shifted by the sizes of the trees before it. With the default axis pytree_stack is the stacking that FactorStack.make performs. The stopwatch returns what its block returns and lets its exceptions through, prints the block's output between its header and footer, and with a clock that does not run backwards the printed time is the clock's difference and not negative. That the footer is always printed is false: an exception in the block leaves it out.", "quantifier": "every list of well-formed pytrees, every axis, every block of code and clock", "why_tests_cant": "tests do not call the helpers; an axis error is invisible on square or one-element leaves", "anchors": ["jaxfg/utils.py:pytree_stack", "jaxfg/utils.py:pytree_concatenate", "jaxfg/utils.py:stopwatch"]}
{"id": "C93", "title": "Small measurement errors move Gauss-Newton's result by a proportional amount", "statement": "Take a pose graph whose measurements hold at some poses and that ties every direction down to first order (C87), and move every measurement by a tangent vector of norm at most eps. Near those poses one damped step on the noisy graph changes the error from e to at most (beta / (m^2 + beta) + K e) e + K eps; k Gauss-Newton steps leave at most q^k e + K eps, with q < 1; gn_solve and fixed_iterations, run on the noisy graph from an assignment near the poses, return such an assignment without raising; for enough fixed iterations it lies within K eps + delta of the poses, for every delta. The constants depend on the graph and the poses, not on the noise or the start.", "quantifier": "every pose graph of priors and relative measurements over SO(2), SE(2), SO(3), SE(3), mixed, with informative Gaussian or Huber noise, that holds and is rigid at some poses; every perturbation and every start up to a size rho > 0; every damping, number of iterations and configuration; over the reals with CholmodSolver", "why_tests_cant": "the pose-graph examples have noisy measurements and no known solution; a test can only compare a few of them with recorded costs", "anchors": ["jaxfg/solvers/_gauss_newton_solver.py:GaussNewtonSolver._step", "jaxfg/solvers/_fixed_iteration_gauss_newton_solver.py:FixedIterationGaussNewtonSolver.solve", "jaxfg/geometry/_factors.py:PriorFactor.compute_residual_vector", "jaxfg/geometry/_factors.py:BetweenFactor.compute_residual_vector"]}
{"id": "C94", "title": "With conjugate gradients only the ratios of the weights matter", "statement": "If one problem carries k > 0 times the information of another (its linearised squared residuals sum to k times the other's at all values), then Gauss-Newton, Levenberg-Marquardt and Dogleg with conjugate gradients, and the fixed-iteration solver, return the same values, or raise the same error, on both. Multiplying every sqrt-precision and Huber threshold by a constant, or listing every factor m times, gives such a problem. It needs conjugate gradients (CholmodSolver adds an absolute 1e-5 to the diagonal) and the gradient test switched off (its tolerance is absolute); both counterexamples are proved.", "quantifier": "every k > 0, pair of factor lists, start and fuel; every configuration whose gradient test is never reached (gradient_tolerance_start_step >= max_iterations - 1), every tolerance schedule, initial damping and radius; Gaussian, diagonal and Huber noise; factors that mention no variable twice (C53); over the reals", "why_tests_cant": "a test compares two runs on one graph up to float tolerance; the invariance and its two exceptions only show for all weights and settings", "anchors": ["jaxfg/sparse/_linear_solve.py:_ConjugateGradientSolver.solve_subproblem", "jaxfg/solvers/_mixins.py:_TerminationCriteriaMixin.check_convergence", "jaxfg/solvers/_mixins.py:_TrustRegionMixin.compute_step_quality", "jaxfg/solvers/_levenberg_marquardt_solver.py:LevenbergMarquardtSolver._step", "jaxfg/solvers/_dogleg_solver.py:DoglegSolver._step", "jaxfg/noises/_gaussians.py:DiagonalGaussian"]}
{"id": "C95", "title": "With conjugate gradients every solver converges geometrically on linear problems", "statement": "On every linear least-squares problem in which every coordinate influences some residual there are 0 < sigma <= F such that, with conjugate gradient tolerances whose absolute values are at most t < 1, k iterations reduce the excess over the minimal cost at least by the factor (1 - q)^k. For Gauss-Newton, with or without convergence checks, q = (1-t)^2 sigma/F. For Levenberg-Marquardt q = (1-t)^2 sigma/((1 + lambda_initial) F), and lambda is divided by lambda_factor in every iteration before the minimum is reached. For Dogleg q is any theta with 0 <= theta <= (1-t)^2 sigma/F and theta^2 (c0 - cz) <= sigma radius_initial^2 (a positive one exists), and the radius never falls below its initial value before the minimum is reached. Whole solves return, without raising, an assignment obeying the bound. The problem may be rank-deficient. With tolerance 1 nothing moves.", "quantifier": "every linear least-squares problem (plain variables, Gaussian noise, affine residuals) without a zero Jacobian column, every start, tolerance schedule below some t < 1, number of iterations and setting with lambda_initial, lambda_min >= 0, lambda_factor >= 1, radius_initial > 0, acceptance thresholds <= 1; sigma and F do not depend on the start, the tolerances or the settings; over the reals", "why_tests_cant": "a test sees one problem converge; that inexact steps are never rejected forever, whatever the tolerance schedule and the damping, needs all of them", "anchors": ["jaxfg/sparse/_linear_solve.py:_ConjugateGradientSolver.solve_subproblem", "jaxfg/solvers/_levenberg_marquardt_solver.py:LevenbergMarquardtSolver._step", "jaxfg/solvers/_dogleg_solver.py:DoglegSolver._step", "jaxfg/solvers/_gauss_newton_solver.py:GaussNewtonSolver._step", "jaxfg/solvers/_fixed_iteration_gauss_newton_solver.py:FixedIterationGaussNewtonSolver.solve"]}
{"id": "C96", "title": "The forcing sequence of InexactStepConjugateGradientSolver makes Gauss-Newton superlinear", "statement": "Near a solution as in C77 (Jacobian bounded below by m, linearisation off by at most K times the squared distance, A^T r(z) at most S times the distance) and with conjugate gradient tolerances that tend to zero, the factor by which one Gauss-Newton iteration shrinks the distance to the solution tends to at most S/m^2. At an exact fit (S = 0) convergence is therefore superlinear: for every eps there is an N, the same for all starts within rho and all settings, such that every iteration from the N-th on shrinks the distance at least by eps, and solves of k iterations end within eps^(k-N) times the initial distance. The tolerances eta/(iteration + 1) of InexactStepConjugateGradientSolver are bounded by |eta| and tend to zero. With CholmodSolver this fails: on x = 1 from x = 0 every iteration multiplies the distance by exactly 1/100001.", "quantifier": "every well-posed problem over plain arrays, every such solution and constants with (S + K m rho + t (f^2 + f K rho + S))/m^2 < 1 for a bound t of the tolerances, every start within rho, every eps > 0, iteration count and setting; Gauss-Newton with and without convergence checks; over exact reals", "why_tests_cant": "superlinear convergence is a limit statement over all iterations; a test sees a few iterations before rounding takes over", "anchors": ["jaxfg/sparse/_linear_solve.py:InexactStepConjugateGradientSolver._get_cg_tolerance", "jaxfg/sparse/_linear_solve.py:_ConjugateGradientSolver.solve_subproblem", "jaxfg/sparse/_linear_solve.py:CholmodSolver.solve_subproblem", "jaxfg/solvers/_gauss_newton_solver.py:GaussNewtonSolver._step", "jaxfg/solvers/_fixed_iteration_gauss_newton_solver.py:FixedIterationGaussNewtonSolver._step"]}
{"id": "C97", "title": "What the stopping tests guarantee on linear problems", "statement": "On linear problems in which every coordinate influences some residual (the rank may be deficient) there are constants 0 < sigma <= F such that every solve that returns tells why it stopped, in terms of the cost c and the minimum cz. Let q be the share of the excess c - cz that an iteration removes (sigma/(F + lambda + 1e-5) with CholmodSolver, a share of the tolerance bound with conjugate gradients). Then the solve used all its iterations, or it passed the gradient start step, or (q - tol)(c - cz) <= (1 - q) tol cz for the cost tolerance tol, or q^2 (c - cz) <= (1 - q) sigma ((|x| + p) p/(1 - p))^2 for the parameter tolerance p. Hence Gauss-Newton and Levenberg-Marquardt can be made as accurate as wanted: for every eps there is a cost tolerance, the same for all starts, with which a solve that does not use up its iterations ends with c <= (1 + eps) cz (parameter tolerance 0 and the gradient test off). The default settings give no such guarantee: on one measurement of weight 1e-6 all three solvers stop after one iteration with more than 99.9% of the cost although the minimum is 0. Nor does the gradient test: with the other two tolerances 0 it stops Levenberg-Marquardt with more than 99% of the cost.", "quantifier": "every well-posed linear problem over plain arrays without a zero Jacobian column, every start, CholmodSolver and conjugate gradients with any tolerances bounded below 1, Gauss-Newton, Levenberg-Marquardt (lambda_initial >= 0, lambda_factor >= 1, step_quality_min <= 1) and Dogleg, any termination settings with 0 <= parameter_tolerance < 1; over exact reals", "why_tests_cant": "what a stopping test implies about the true optimum depends on the unknown minimum; tests compare against a reference within a tolerance on a few well-conditioned graphs", "anchors": ["jaxfg/solvers/_mixins.py:_TerminationCriteriaMixin.check_convergence", "jaxfg/solvers/_mixins.py:_TerminationCriteriaMixin.check_exceeded_max_iterations", "jaxfg/solvers/_gauss_newton_solver.py:GaussNewtonSolver._step", "jaxfg/solvers/_levenberg_marquardt_solver.py:LevenbergMarquardtSolver._step", "jaxfg/solvers/_dogleg_solver.py:DoglegSolver._step", "jaxfg/sparse/_linear_solve.py:CholmodSolver.solve_subproblem", "jaxfg/sparse/_linear_solve.py:_ConjugateGradientSolver.solve_subproblem"]}
{"id": "C98", "title": "On linear residuals under Huber noise Gauss-Newton converges from every start, to the least followed loss and not to the least cost", "statement": "When residuals are affine in the values and factors carry Gaussian noise or one Huber wrapper around it, Gauss-Newton needs no good start. Let the loss be the one whose gradient the solver follows (property C71). The loss never rises from one iteration to the next. For every bound on the loss of the start there is a share c in (0, 1], the same for all such starts, such that after k iterations the excess of the loss over the loss of any other values is at most (1 - c)^k times the initial excess; the loss therefore tends to its infimum geometrically. c depends on the linear solver: CholmodSolver needs no rank assumption, conjugate gradients need tolerances bounded below 1 and every coordinate to influence some residual. The gradient A^T r the solver computes is zero exactly at the values with the least loss, so there are no spurious resting points. The cost the solver reports is a different function and does not have this property: one Gauss-Newton step from values with cost 256 can lead to a cost above 256.", "quantifier": "every well-posed problem over plain arrays with affine residuals, Gaussian noise or one Huber wrapper with positive delta, every start, every number of iterations, GaussNewtonSolver with any termination settings and FixedIterationGaussNewtonSolver, CholmodSolver and conjugate gradients; over exact reals", "why_tests_cant": "global convergence of an iteratively reweighted method is a statement about all starts and all problems; tests with outliers check a few graphs from a good start, and would compare the reported cost, which is not what decreases", "anchors": ["jaxfg/noises/_huber.py:HuberWrapper.whiten_residual_vector", "jaxfg/noises/_huber.py:HuberWrapper.whiten_jacobian", "jaxfg/solvers/_gauss_newton_solver.py:GaussNewtonSolver._step", "jaxfg/solvers/_fixed_iteration_gauss_newton_solver.py:FixedIterationGaussNewtonSolver._step", "jaxfg/sparse/_linear_solve.py:CholmodSolver.solve_subproblem", "jaxfg/sparse/_linear_solve.py:_ConjugateGradientSolver.solve_subproblem", "jaxfg/core/_stacked_factor_graph.py:StackedFactorGraph.compute_whitened_residual_jacobian"]}
{"id": "C99", "title": "The robust estimate on linear residuals exists, and Gauss-Newton's values converge to it", "statement": "When residuals are affine in the values and factors carry Gaussian noise or one Huber wrapper around it, values with the least followed loss (property C71) exist, whatever the rank. All such values give every factor the same whitened residual. From every start the values of Gauss-Newton with CholmodSolver, not only their loss, converge to values of least loss: after k iterations the distance is at most K sqrt(excess of the start's loss) q^k, with K and q < 1 the same for all starts below a given loss. If the Jacobian has full column rank at one point, the estimate is unique, and the squared distance to it is bounded by a multiple of the excess loss, so the bound of C98 for conjugate gradients also bounds the distance. The multiple has to depend on a bound of the loss: none serves all values. And the unique estimate, reached from every start, need not have the least cost: another assignment may have a smaller compute_cost.", "quantifier": "every well-posed problem over plain arrays with affine residuals, Gaussian noise or one Huber wrapper with positive delta; every start, number of iterations and termination setting; GaussNewtonSolver and FixedIterationGaussNewtonSolver; over exact reals", "why_tests_cant": "existence of a minimiser of a non-quadratic loss on a rank-deficient problem is a completeness argument; that the limit is not the minimiser of the reported cost cannot be seen from solver output", "anchors": ["jaxfg/noises/_huber.py:HuberWrapper.whiten_residual_vector", "jaxfg/noises/_huber.py:HuberWrapper.whiten_jacobian", "jaxfg/solvers/_gauss_newton_solver.py:GaussNewtonSolver._step", "jaxfg/solvers/_fixed_iteration_gauss_newton_solver.py:FixedIterationGaussNewtonSolver._step", "jaxfg/sparse/_linear_solve.py:CholmodSolver.solve_subproblem", "jaxfg/core/_stacked_factor_graph.py:StackedFactorGraph.compute_cost"]}
{"id": "C100", "title": "Near an exact fit of user-written residuals with default Jacobians, the solvers converge", "statement": "Let the residuals be written as differentiable programs over plain array variables, with Jacobians from the default forward-mode path, and let the values z fit every residual exactly with a Jacobian of full column rank at z. Then a positive radius and constants exist such that, from every start within the radius, Gauss-Newton and FixedIterationGaussNewton with CHOLMOD reduce the distance to z by a factor q < 1 at every iteration, with conjugate gradients also for tolerances below some positive bound, accepted Levenberg-Marquardt steps do so too, and z is the only stationary point within the radius. Differentiability at z is needed: with max(x, 0) Gauss-Newton stays put arbitrarily close to the fit z = 0.", "quantifier": "for all programs built from arithmetic, sqrt, sin, cos, exp, abs, max and min, all graphs of factors using them, all Gaussian and (nested) Huber noise models with positive thresholds, all exact fits, all starts within the radius and all numbers of iterations", "why_tests_cant": "The radius depends on the programs and is not computed by the library; tests show convergence from sampled starts only.", "anchors": ["jaxfg/solvers/_gauss_newton_solver.py:GaussNewtonSolver._step", "jaxfg/solvers/_fixed_iteration_gauss_newton_solver.py:FixedIterationGaussNewtonSolver.solve", "jaxfg/solvers/_levenberg_marquardt_solver.py:LevenbergMarquardtSolver._step", "jaxfg/sparse/_linear_solve.py:CholmodSolver.solve_subproblem", "jaxfg/sparse/_linear_solve.py:_ConjugateGradientSolver.solve_subproblem", "jaxfg/core/_factor_base.py:FactorBase.compute_residual_jacobians", "jaxfg/core/_variables.py:VariableBase.manifold_retract_jacobian", "jaxfg/noises/_huber.py:HuberWrapper"]}
{"id": "C101", "title": "Near an exact fit Levenberg-Marquardt and Dogleg accept every step and converge", "statement": "Take a graph of factors whose residuals are programs (default Jacobians, plain variables) with an assignment z that makes every residual zero, whose Jacobian at z determines the step. For every acceptance threshold step_quality_min up to some q < 1 there are a radius sigma > 0 and a constant M such that from every assignment within sigma of z, k iterations of Levenberg-Marquardt (starting lambda at most any given value, lambda_factor at least 1) or of Dogleg (starting radius at least any given value) with the CHOLMOD solver succeed, shrink the cost by th^k and the squared distance to z by M th^k, for a th < 1 depending only on that bound on lambda or the radius; and every one of the k iterations is accepted, unless z has already been reached exactly. The same holds for the assignment solve() returns. So the stored residual, which both solvers overwrite on rejected steps too, is never stale there. The exact fit matters: a problem whose cost has a strict global minimum with residual (0, 5) has starting points arbitrarily close to that minimum where both solvers, with default settings, reject their step.", "quantifier": "every expression program problem with an exact, determined fit; more generally every problem with the stated constants; every start within sigma, every number of iterations, every initial lambda or radius and every threshold below 1", "why_tests_cant": "the claim is about all starting points in a neighbourhood, all iteration counts and all settings; a test sees finitely many runs and cannot show that no step is ever rejected", "anchors": ["jaxfg/solvers/_levenberg_marquardt_solver.py:LevenbergMarquardtSolver._step", "jaxfg/solvers/_dogleg_solver.py:DoglegSolver._step", "jaxfg/solvers/_mixins.py:_TrustRegionMixin.compute_step_quality", "jaxfg/solvers/_nonlinear_solver_base.py:NonlinearSolverBase.solve", "jaxfg/sparse/_linear_solve.py:CholmodSolver.solve_subproblem"]}
{"id": "C102", "title": "What the stopping tests guarantee close to an exact fit of a nonlinear problem", "statement": "Close to a point that fits exactly (residual zero, Jacobian injective and bounded, linearisation error quadratic), for every nonlinear problem over plain arrays: Gauss-Newton, Levenberg-Marquardt and Dogleg with CholmodSolver return, the squared distance to the fit after k iterations is at most M th^k times the initial one with th < 1, and, if the cost tolerance is below a constant of the problem, a solve that stops before using up its iterations and before the gradient test becomes active ends within D p (1 + p) of the fit, p being the parameter tolerance. Hence any accuracy can be reached: for every eps there are a tolerance and a number of iterations with which, the gradient test being off, every start in the neighbourhood ends within eps of the fit. This holds in particular at every exact fit of every residual program with default Jacobians that determines the values to first order. Two of the three tests give no guarantee on their own: with the default cost tolerance and parameter tolerance 0, Gauss-Newton stops after one iteration with 99.9% of the distance left, however close it starts (one measurement of weight 1e-6); and so it does with the gradient test alone, which looks at signed components.", "quantifier": "every problem over plain arrays and every exact solution with any constants, every start within sigma, Gauss-Newton, Levenberg-Marquardt (0 < step_quality_min <= q < 1, lambda_factor >= 1, lambda_initial bounded) and Dogleg (initial radius bounded below), any termination settings with cost_tolerance <= delta and parameter_tolerance >= 0; over exact reals", "why_tests_cant": "what a passed stopping test implies about the distance to the unknown fit needs a bound over all points and all steps near it; tests see a few solves of a few problems", "anchors": ["jaxfg/solvers/_mixins.py:_TerminationCriteriaMixin.check_convergence", "jaxfg/solvers/_mixins.py:_TerminationCriteriaMixin.check_exceeded_max_iterations", "jaxfg/solvers/_gauss_newton_solver.py:GaussNewtonSolver._step", "jaxfg/solvers/_levenberg_marquardt_solver.py:LevenbergMarquardtSolver._step", "jaxfg/solvers/_dogleg_solver.py:DoglegSolver._step", "jaxfg/solvers/_nonlinear_solver_base.py:NonlinearSolverBase.solve"]}
{"id": "C103", "title": "What the stopping tests guarantee on pose graphs close to a solution", "statement": "For pose graphs over SO(2), SE(2), SO(3) and SE(3) (priors and relative measurements, Huber losses included) whose measurements all hold at some poses z and which are rigid there, in particular when every pose has a prior or is joined by measurements to one that has: Gauss-Newton, Levenberg-Marquardt and Dogleg with CholmodSolver, started close to z, return poses whose tangent-space distance from z is at most q^k times the initial one after k iterations, with q < 1; and, if the cost tolerance is below a constant of the graph, a solve that stops before using up its iterations and before the gradient test becomes active ends within D p (1 + p) of z, p being the parameter tolerance. Hence any accuracy can be reached: there is a neighbourhood such that for every eps there are a tolerance and a number of iterations with which, the gradient test being off, every start in the neighbourhood ends within eps of z; for Levenberg-Marquardt and Dogleg this covers the default damping and radius of the code.", "quantifier": "every such pose graph of every size, every z, every start within rho, every termination setting with cost_tolerance <= delta and parameter_tolerance >= 0, Levenberg-Marquardt with step_quality_min < 1, lambda_factor >= 1, lambda_min > 0 and lambda_initial bounded, Dogleg with step_quality_min < 1 and initial radius bounded below; over exact reals", "why_tests_cant": "the claim bounds the distance to the unknown poses for all starts near them and all tolerances; tests see single solves of single graphs", "anchors": ["jaxfg/solvers/_mixins.py:_TerminationCriteriaMixin.check_convergence", "jaxfg/solvers/_mixins.py:_TerminationCriteriaMixin.check_exceeded_max_iterations", "jaxfg/solvers/_gauss_newton_solver.py:GaussNewtonSolver._step", "jaxfg/solvers/_levenberg_marquardt_solver.py:LevenbergMarquardtSolver._step", "jaxfg/solvers/_dogleg_solver.py:DoglegSolver._step", "jaxfg/geometry/_lie_variables.py:LieVariableBase", "jaxfg/geometry/_factors.py:BetweenFactor"]}
{"id": "C104", "title": "Pose graphs without a prior: the nonlinear solvers converge up to a common motion of all poses", "statement": "Take a connected graph of between factors only, over SO2, SE2, SO3 or SE3 poses, with Gaussian, diagonal or Huber noise models that lose no direction, and poses z at which every measurement holds. No prior fixes the world frame, so the linearised problem is singular at z (z is never rigid and C87 never applies). Moving all poses by one common unit transform on the left changes neither the cost nor any relative pose. Say that a start is off by e if, after such a motion, it is z (+) e. Then there are q < 1, C and rho such that for every start off by e with |e| <= rho: k iterations of Gauss-Newton (terminating or fixed count), of Levenberg-Marquardt (lambda_factor at least 1, threshold below 1) or of Dogleg (threshold below 1), all with CHOLMOD, end at poses off by some e' with |e'| <= C q^k |e|, and the cost falls to at most q^(2k) of its start. Enough fixed iterations come within any eps of z up to a common motion. In particular the regularisation inside CholmodSolver is enough to make the singular systems harmless.", "quantifier": "every connected list of between factors over any number of poses of one group, every consistent z, every start in the ball whatever common motion it has undergone, all termination settings and iteration counts, every Levenberg-Marquardt configuration with positive lambdas, factor >= 1 and threshold < 1, every Dogleg configuration with positive radius and threshold < 1; over the reals with CholmodSolver, exact square roots and trigonometry", "why_tests_cant": "a statement about all floating graphs and all starts in a tube around an orbit of solutions; tests see single runs, and a floating graph has no single solution to compare with", "anchors": ["jaxfg/geometry/_factors.py:PriorFactor.compute_residual_vector", "jaxfg/geometry/_factors.py:BetweenFactor.compute_residual_vector", "jaxfg/geometry/_lie_variables.py:LieVariableBase.manifold_retract", "jaxfg/solvers/_gauss_newton_solver.py:GaussNewtonSolver._step", "jaxfg/solvers/_fixed_iteration_gauss_newton_solver.py:FixedIterationGaussNewtonSolver.solve", "jaxfg/noises/_huber.py:HuberWrapper.whiten_residual_vector", "jaxfg/solvers/_levenberg_marquardt_solver.py:LevenbergMarquardtSolver._step", "jaxfg/solvers/_dogleg_solver.py:DoglegSolver._step"]}
{"id": "C105", "title": "Every consistent pose graph: started near poses that fit all measurements, the solvers converge to such poses, whatever the graph's connections", "statement": "Take any non-empty list of prior and between factors over SO2, SE2, SO3 and SE3 poses with Gaussian, diagonal or Huber noise models that lose no direction, and poses z at which every measurement holds. Nothing is assumed about connectedness, priors or rank. An unseen motion multiplies each pose on the left by a unit transform that is the same for poses related by a measurement and the identity for poses with a prior; it changes neither the cost, nor poses tied to a prior, nor relative poses within a connected part. Say that a start is apart by e if it is z (+) e up to an unseen motion. Then there are q < 1, C and rho such that for every start apart by e with |e| <= rho: k iterations of Gauss-Newton (terminating or fixed count), Levenberg-Marquardt (lambda_factor at least 1, threshold below 1) or Dogleg (threshold below 1), all with CHOLMOD, end at poses apart by some e' with |e'| <= C q^k |e|, and the cost is at most q^(2k) times the initial cost. Enough fixed iterations come within any eps. This contains C87 (all poses tied to priors: the unseen motion is the identity) and C104 (one floating part).", "quantifier": "every non-empty list of such factors over any number of variables of all four groups with any connections, every consistent z, every start in the tube, all termination settings and iteration counts, every Levenberg-Marquardt configuration with positive lambdas, factor >= 1 and threshold < 1, every Dogleg configuration with positive radius and threshold < 1; over the reals with CholmodSolver, exact square roots and trigonometry", "why_tests_cant": "a statement about all graphs, including under-determined ones whose normal equations are singular at the solution, and all starts around a manifold of solutions; tests see single well-posed runs with rounding", "anchors": ["jaxfg/geometry/_factors.py:PriorFactor.compute_residual_vector", "jaxfg/geometry/_factors.py:BetweenFactor.compute_residual_vector", "jaxfg/geometry/_lie_variables.py:LieVariableBase.manifold_retract", "jaxfg/solvers/_gauss_newton_solver.py:GaussNewtonSolver._step", "jaxfg/solvers/_fixed_iteration_gauss_newton_solver.py:FixedIterationGaussNewtonSolver.solve", "jaxfg/noises/_huber.py:HuberWrapper.whiten_residual_vector", "jaxfg/solvers/_levenberg_marquardt_solver.py:LevenbergMarquardtSolver._step", "jaxfg/solvers/_dogleg_solver.py:DoglegSolver._step"]}
{"id": "C106", "title": "On consistent pose graphs the solvers do not drift", "statement": "On a pose graph whose measurements all hold at some poses, whatever its connections, started close to an exact fit: the Gauss-Newton iterates converge geometrically, in every stored parameter, to one set of poses that is itself an exact fit. The terminating and the fixed-iteration solver, for every iteration count, end within a geometrically shrinking distance of that same limit. All solvers, Levenberg-Marquardt and Dogleg included, end within a constant times the initial error of where they started. So no solver wanders off along a motion that no measurement can see, although nothing in the cost penalises it.", "quantifier": "all four Lie groups, all graphs of prior and between factors with noise under which only the zero residual costs nothing (Huber included), any connections, all exact fits z, all starts within some radius of a moved z, all iteration counts, all termination settings", "why_tests_cant": "A test runs finitely many iterations from finitely many starts and cannot tell slow drift from convergence. That the limit exists, and is the same for every iteration count, is a statement about all iterations at once.", "anchors": ["jaxfg/geometry/_factors.py:PriorFactor.compute_residual_vector", "jaxfg/geometry/_factors.py:BetweenFactor.compute_residual_vector", "jaxfg/geometry/_lie_variables.py:LieVariableBase.manifold_retract", "jaxfg/solvers/_gauss_newton_solver.py:GaussNewtonSolver._step", "jaxfg/solvers/_fixed_iteration_gauss_newton_solver.py:FixedIterationGaussNewtonSolver.solve", "jaxfg/noises/_huber.py:HuberWrapper.whiten_residual_vector", "jaxfg/solvers/_levenberg_marquardt_solver.py:LevenbergMarquardtSolver._step", "jaxfg/solvers/_dogleg_solver.py:DoglegSolver._step"]}
{"id": "C107", "title": "On every consistent pose graph the stopping tests bound the error the measurements can see", "statement": "On a pose graph whose measurements all hold at some poses z, whatever its connections: if Gauss-Newton, Levenberg-Marquardt or Dogleg starts close to z up to a motion no measurement can see, with a small enough cost tolerance, it returns, after k iterations, poses that are z up to such a motion and an error that has shrunk geometrically k times, and one of three holds: the iteration limit was reached, the gradient test was active, or the error is at most a constant times the parameter tolerance. The constant grows linearly with the size of the stored starting parameters, because the parameter test is relative to them. Hence, with small tolerances, enough iterations and the gradient test off, every stored parameter of the result is within any wanted eps of an exact fit.", "quantifier": "all four Lie groups, all graphs of prior and between factors with noise under which only the zero residual costs nothing (Huber included), any connections, all exact fits z, all starts within some radius of a moved z, all termination settings with small cost tolerance, all damping and radius settings up to a given bound", "why_tests_cant": "The early exit depends on three tests with tolerances; a test checks a few settings and starts. On a graph without a prior the step is only determined by the damping, and a short step could be due to a flat direction rather than to a small error; that it never is has to be shown for all graphs.", "anchors": ["jaxfg/geometry/_factors.py:PriorFactor.compute_residual_vector", "jaxfg/geometry/_factors.py:BetweenFactor.compute_residual_vector", "jaxfg/geometry/_lie_variables.py:LieVariableBase.manifold_retract", "jaxfg/solvers/_gauss_newton_solver.py:GaussNewtonSolver._step", "jaxfg/solvers/_fixed_iteration_gauss_newton_solver.py:FixedIterationGaussNewtonSolver.solve", "jaxfg/noises/_huber.py:HuberWrapper.whiten_residual_vector", "jaxfg/solvers/_levenberg_marquardt_solver.py:LevenbergMarquardtSolver._step", "jaxfg/solvers/_dogleg_solver.py:DoglegSolver._step", "jaxfg/solvers/_mixins.py:_TerminationCriteriaMixin.check_convergence", "jaxfg/solvers/_mixins.py:_TerminationCriteriaMixin.check_exceeded_max_iterations", "jaxfg/geometry/_lie_variables.py:LieVariableBase", "jaxfg/geometry/_factors.py:BetweenFactor"]}
{"id": "C108", "title": "Levenberg-Marquardt recovers from rejected proposals when the threshold is small against the damping factor", "statement": "Let a be an assignment that is not stationary, with a Jacobian that depends on the assignment alone (no robust kernel), bounded norm and bounded curvature K. After a rejection the state keeps the rejected proposal's residual, so the next step solves the wrong normal equations and is judged by the wrong model. If step_quality_min * (1 + lambda_factor) < 1 (the defaults satisfy it: 0.003), there is a damping L such that after two rejections at damping at least L, starting from a kept residual of squared norm at most B, the next proposal is accepted, has a smaller cost than a, and the new state's residual and cost are those of its assignment. If moreover lambda_factor > 1, there are L and n such that with lambda_max at least L no n consecutive iterations leave the assignment alone while the kept residual stays bounded by B. What fails: with step_quality_min = 3/4 and lambda_factor = 2 the residual x at x = 1 admits, for every damping, a state from which every iteration is rejected; and the default settings do not protect the result: for every M >= 2000 there is a one-variable problem with starting cost 1 for which solve returns an assignment of cost M^2 for every max_iterations >= 2.", "quantifier": "All environments with well-formed classes, graphs, assignments with nonzero gradient, bounds F, K, B, lambda factors at least 1 (greater than 1), thresholds q with q(1 + f) < 1, settings and states at that assignment with any kept residual of norm at most B; all dampings and run lengths; all M >= 2000 and max_iterations >= 2 in the refutation.", "why_tests_cant": "It takes several consecutive rejections; tests on smooth problems near a solution rarely reject even one step, and a worse result than the start looks like a hard problem.", "anchors": ["jaxfg/solvers/_levenberg_marquardt_solver.py:LevenbergMarquardtSolver._step", "jaxfg/solvers/_mixins.py:_TrustRegionMixin.compute_step_quality"]}
{"id": "C109", "title": "Dogleg recovers from rejected proposals when the threshold is below one third", "statement": "Let a be an assignment that is not stationary, with a Jacobian that depends on the assignment alone (no robust kernel), bounded norm and bounded curvature. As in Levenberg-Marquardt, after a rejection the state keeps the rejected proposal's residual. If 3 * step_quality_min < 1 (the default is 0.001), there is a radius delta > 0 such that after two rejections from any state at a with radius at most delta, whatever residual it keeps, the next proposal is accepted, has a smaller cost than a, and the new state's residual and cost are those of its assignment. If step_quality_min <= 1/4, then for every bound on the starting radius there is an n such that no n consecutive iterations from a state at a leave the assignment alone; no bound on the kept residual is needed. What fails: with step_quality_min = 3/4 the residual x at x = 1 admits, at arbitrarily small radius, a state from which every iteration is rejected with the radius unchanged; and the default settings do not protect the result: for every H >= 2 there is a one-variable problem with starting cost 1 for which solve returns an assignment of cost H^2 for every max_iterations >= 2.", "quantifier": "All environments with well-formed classes, graphs, assignments with nonzero gradient, bounds F, K, thresholds below one third (at most one quarter for the second claim), radii, kept residuals of the right length, all configurations with that threshold; all runs of any length for the second claim. Refutations: all H >= 2 and all iteration limits at least 2; all radii.", "why_tests_cant": "The claim is about what happens after rejections at arbitrarily small radius and with an arbitrary stale residual in the state; tests start from consistent states and rarely see two rejections in a row. The worse result needs a residual with a plateau.", "anchors": ["jaxfg/solvers/_dogleg_solver.py:DoglegSolver._step", "jaxfg/solvers/_mixins.py:_TrustRegionMixin.compute_step_quality"]}
{"id": "C110", "title": "Full Gauss-Newton steps lower the cost while residual times curvature is small against the Jacobian", "statement": "Let m |x|^2 <= |A x|^2 <= F |x|^2 for the whitened Jacobian A, let the residual's curvature be at most K (|r(x + d) - r - A d| <= K |d|^2), and let mu = 1e-5 be the diagonal CHOLMOD adds. If K |r| <= t (m + 2 mu) at the start, with 2 t + t^2 < 1, then every iteration of the Gauss-Newton loop and of the fixed-iteration loop with CHOLMOD lowers the cost by at least (1 - 2 t - t^2) |g|^2 / (F + mu), where g = A^T r is the gradient there. So n consecutive iterations lower the cost by the sum of these amounts, and one of them has |g|^2 <= cost (F + mu) / ((1 - 2 t - t^2) n). At most (cost before - cost after) (F + mu) / ((1 - 2 t - t^2) eps) of them start with |g|^2 > eps. If these bounds hold at every assignment that costs at most the start, both solve methods return an assignment that costs at most the start. If moreover |A^T r|^2 >= sigma |r|^2 there, with 0 < sigma <= F, the cost after k iterations is at most rho^k times the start's, rho = 1 - (1 - 2 t - t^2) sigma / (F + mu) < 1; k is the number of iterations run, between 1 and max_iterations, and exactly `iterations` for the fixed solver. What fails without the condition: these solvers take the full step whatever it does to the cost. For every M >= 2 there is a problem with start cost 1, m = F = 1 and K |r| = M on which one iteration of either solver returns an assignment of cost at least (0.9 M)^2.", "quantifier": "all well-formed factor graphs, states, configurations, iteration counts and constants m, F, K, t", "why_tests_cant": "Tests run a few problems that converge; they show neither how much each full step must gain nor that a step can raise the cost by any factor.", "anchors": ["jaxfg/solvers/_gauss_newton_solver.py:GaussNewtonSolver._step", "jaxfg/solvers/_fixed_iteration_gauss_newton_solver.py:FixedIterationGaussNewtonSolver._step"]}
{"id": "C111", "title": "One more factor changes a Gauss-Newton step in proportion to its pull, which under Huber loss grows with the fourth root of the outlier", "statement": "Take a factor graph and the same graph with one more factor f on variables it already has, both at the same values. Let the linearised cost of the first curve by at least m in every direction, let the Jacobian of f, whitened by its Gaussian, have squared norm at most G, and let n be the length of the whitened residual of f. Then one iteration of the Gauss-Newton or fixed-iteration solver with CHOLMOD moves the values of the first graph by xi and of the second by xi' with (m + 1e-5) |xi' - xi| <= sqrt(G) (p + q sqrt(G) |xi|). Without Huber loss, and for inliers (n < delta), the pull p is n and q = 1; for an outlier under HuberWrapper(delta) the pull is delta (n/delta)^(1/4) and q = (delta/n)^(1/2). What fails: the pull is not bounded, as it is for the Huber estimator (delta). With m = G = delta = 1, for every bound B there is an outlier that moves one iteration by more than B.", "quantifier": "all well-formed factor graphs, values, extra factors, noise models (Gaussian, or one Huber wrapper) and constants m, G", "why_tests_cant": "tests/test_huber.py checks one graph with one outlier at one distance; a bound for every graph, and its growth with the outlier, cannot be sampled.", "anchors": ["jaxfg/noises/_huber.py:HuberWrapper.whiten_jacobian", "jaxfg/noises/_huber.py:HuberWrapper.whiten_residual_vector", "jaxfg/solvers/_gauss_newton_solver.py:GaussNewtonSolver._step"]}
{"id": "C112", "title": "One more factor raises the least cost by between m/(m+G) and 1 times its squared residual, and moves the result in proportion", "statement": "Let z be values of a factor graph's variables at which its cost is cz, with the cost at any other values at least cz + m times their squared distance from z (m > 0). Add a factor f on the same variables whose whitened residual is r at z and changes by at most sqrt(G) times the distance. Then at z the new graph costs exactly cz + |r|^2, and at every assignment at least cz + |r|^2 m/(m+G); for every m, G > 0 and |r| there is a graph where this is attained. An assignment costing at most as much as z in the new graph is within |r|/sqrt(m) of z, and within 2 sqrt(G) |r|/(m+G) if G <= m. On linear problems this holds for what each of the four solvers returns when it is started from z on the new graph (CHOLMOD; usual damping and radius settings). What fails: if the cost does not grow away from z, a factor with a residual as long as one likes need not raise the least cost at all.", "quantifier": "all well-formed factor graphs, residual functions, noise models (Huber included), extra factors, assignments, constants m and G; for the solvers all linear problems, configurations and fuels", "why_tests_cant": "no test adds a factor to a solved graph; a bound over all graphs, factors and assignments cannot be sampled.", "anchors": ["jaxfg/core/_stacked_factor_graph.py:StackedFactorGraph.compute_cost", "jaxfg/core/_stacked_factor_graph.py:StackedFactorGraph.make", "jaxfg/solvers/_gauss_newton_solver.py:GaussNewtonSolver._step"]}
