{
 "claims": [
  {
   "property": "C01",
   "status": "proved",
   "theorems": [
    "C01_layout_blocks_tile",
    "C01_block_sizes"
   ],
   "note": "Every Num/scalar type, every class table, zero dimensions included."
  },
  {
   "property": "C02",
   "status": "proved",
   "theorems": [
    "C02_layout_order_and_runs"
   ],
   "note": "Ascending order is stated as non-strict (zero-dimensional variables share an index)."
  },
  {
   "property": "C03",
   "status": "proved",
   "theorems": [
    "C03_local_global_same_enumeration"
   ],
   "note": "Holds with repeated variables too."
  },
  {
   "property": "C04",
   "status": "proved",
   "theorems": [
    "C04_flatten_unflatten_inverse"
   ],
   "note": "Holds for every pytree-shaped default value; raising on a wrong length is ValueError in the model."
  },
  {
   "property": "C05",
   "status": "proved",
   "theorems": [
    "C05_make_from_dict_round_trip"
   ],
   "note": "Values must have the structure and leaf shapes of the type's default; the list/dict must be non-empty (concatenate raises on empty)."
  },
  {
   "property": "C06",
   "status": "proved",
   "theorems": [
    "C06_make_from_defaults"
   ],
   "note": "Also: same result as make_from_partial_dict with the empty dict."
  },
  {
   "property": "C07",
   "status": "proved",
   "theorems": [
    "C07_dict_round_trip"
   ],
   "note": "For every well-formed assignment, not only those produced by make_from_dict."
  },
  {
   "property": "C08",
   "status": "proved",
   "theorems": [
    "C08_set_value_lens"
   ],
   "note": "Immutability of the original is by construction (values are pure)."
  },
  {
   "property": "C09",
   "status": "proved",
   "theorems": [
    "C09_update_storage_layout"
   ],
   "note": "The returned layout is == L in Python's sense (dict equality); blocks and values are preserved; rejected cases raise AssertionError."
  },
  {
   "property": "C10",
   "status": "proved",
   "theorems": [
    "C10_get_stacked_value"
   ],
   "note": "The stacked pytree is represented by its rows."
  },
  {
   "property": "C11",
   "status": "proved",
   "theorems": [
    "C11_manifold_retract_per_variable",
    "C11_plain_classes_add"
   ],
   "note": "Guard: both layouts list the variables of each type in the same order."
  },
  {
   "property": "C12",
   "status": "proved",
   "theorems": [
    "C12_manifold_retract_positional",
    "C12_per_variable_refuted"
   ],
   "note": "General positional rule proved, plus a concrete float32 witness that the per-variable claim fails without the guard."
  },
  {
   "property": "C13",
   "status": "proved",
   "theorems": [
    "C13_graph_partition"
   ],
   "note": "Grouping key: factor type, noise-model type, variable types and shapes, as in the code."
  },
  {
   "property": "C14",
   "status": "proved",
   "theorems": [
    "C14_graph_construction"
   ],
   "note": "Exact construction result; empty factor list characterised."
  },
  {
   "property": "C15",
   "status": "proved",
   "theorems": [
    "C15_residuals_per_factor"
   ],
   "note": "Residual of the stacked graph is a permutation of blocks given by the factor list; stated per factor."
  },
  {
   "property": "C16",
   "status": "proved",
   "theorems": [
    "C16_cost_per_factor"
   ],
   "note": "Over R."
  },
  {
   "property": "C17",
   "status": "proved",
   "theorems": [
    "C17_layout_independence"
   ],
   "note": "For every Num."
  },
  {
   "property": "C18",
   "status": "proved",
   "theorems": [
    "C18_jacobian_coordinates",
    "C18_repeated_variable_refuted"
   ],
   "note": "Guard: no factor lists a variable twice; without it a float32/R witness has repeated coordinates."
  },
  {
   "property": "C19",
   "status": "proved",
   "theorems": [
    "C19_jacobian_rows"
   ],
   "note": "Row blocks of A@x given per factor."
  },
  {
   "property": "C20",
   "status": "proved",
   "theorems": [
    "C20_jacobian_is_derivative"
   ],
   "note": "Directional derivative at every point; user residuals assumed differentiable with the supplied Jacobians; noise models that whiten linearly (Huber is C42)."
  },
  {
   "property": "C21",
   "status": "proved",
   "theorems": [
    "C21_transpose_adjoint"
   ],
   "note": "Exact arithmetic; product also identified with the dense matrix of summed entries."
  },
  {
   "property": "C22",
   "status": "proved",
   "theorems": [
    "C22_as_dense",
    "C22_repeated_coordinates_refuted"
   ],
   "note": "Guard distinct coordinates; counterexample with a repeated coordinate."
  },
  {
   "property": "C23",
   "status": "proved",
   "theorems": [
    "C23_scipy_round_trip"
   ],
   "note": "Any value type."
  },
  {
   "property": "C24",
   "status": "proved",
   "theorems": [
    "C24_cg_operator",
    "C24_scale_invariance",
    "C24_repeated_coordinates_refuted"
   ],
   "note": "gram is defined from the matrix entries, not from the code's diagonal."
  },
  {
   "property": "C25",
   "status": "proved",
   "theorems": [
    "C25_cholmod_subproblem"
   ],
   "note": "CHOLMOD modelled as exact symmetric elimination."
  },
  {
   "property": "C26",
   "status": "proved",
   "theorems": [
    "C26_analysis_of_first_pattern",
    "C26_second_pattern_refuted"
   ],
   "note": "Exact: a solve uses the pattern of the first solve made at that address. What CHOLMOD computes with a foreign analysis is not modelled."
  },
  {
   "property": "C27",
   "status": "proved",
   "theorems": [
    "C27_termination"
   ],
   "note": "Every Num, every linear solver. solve_outcome relates the returned value to the iterations actually run; fuel only has to reach the cap."
  },
  {
   "property": "C28",
   "status": "proved",
   "theorems": [
    "C28_exactly_iterations",
    "C28_zero_iterations_refuted"
   ],
   "note": "iterations >= 1: unrolled and rolled agree and equal plain Gauss-Newton. iterations <= 0 characterised for both forms."
  },
  {
   "property": "C29",
   "status": "proved",
   "theorems": [
    "C29_returns_callers_layout"
   ],
   "note": "same_layout is Python == of layouts. Values are those of the final loop state."
  },
  {
   "property": "C30",
   "status": "proved",
   "theorems": [
    "C30_order_independent",
    "C30_fixed_order_independent",
    "C30_floats_refuted"
   ],
   "note": "Exact (real) arithmetic; CHOLMOD linear solver, all three iterative nonlinear solvers and the fixed-iteration solver (unrolled or looped). Guards: user residual and Jacobian functions return arrays of the declared shapes, at least one residual component, positive LM damping parameters. The exact-arithmetic guard is necessary: C30_floats_refuted gives a binary32 graph whose solution changes with factor order."
  },
  {
   "property": "C31",
   "status": "proved",
   "theorems": [
    "C31_fixed_in_graph_order",
    "C31_other_order_refuted"
   ],
   "note": "Positive part for every Num and linear solver; float32 witness for the other order."
  },
  {
   "property": "C32",
   "status": "proved",
   "theorems": [
    "C32_tracked_cost"
   ],
   "note": "Every Num (NaN costs included)."
  },
  {
   "property": "C33",
   "status": "proved",
   "theorems": [
    "C33_residual_of_last_proposal",
    "C33_until_rejection",
    "C33_after_rejection_refuted"
   ],
   "note": "Every Num for the positive part; float32 runs of LM and Dogleg for the guard."
  },
  {
   "property": "C34",
   "status": "proved",
   "theorems": [
    "C34_accepted_decreases",
    "C34_lm_predicts_decrease",
    "C34_cost_raised_refuted"
   ],
   "note": "Positive parts over R; float32 run for the guard."
  },
  {
   "property": "C35",
   "status": "proved",
   "theorems": [
    "C35_lambda_bounds",
    "C35_lambda_min_refuted"
   ],
   "note": "Over R; float32 run for lambda below lambda_min."
  },
  {
   "property": "C36",
   "status": "proved",
   "theorems": [
    "C36_dogleg_step",
    "C36_step_taken"
   ],
   "note": "Over R."
  },
  {
   "property": "C37",
   "status": "proved",
   "theorems": [
    "C37_radius"
   ],
   "note": "Over R."
  },
  {
   "property": "C38",
   "status": "proved",
   "theorems": [
    "C38_convergence_meaning",
    "C38_when_solvers_stop",
    "C38_infinity_norm_refuted",
    "C38_premature_stop_refuted"
   ],
   "note": "Exact reading over R; infinity-norm reading refuted over R for every bound and by a full float32 run."
  },
  {
   "property": "C39",
   "status": "proved",
   "theorems": [
    "C39_stationary"
   ],
   "note": "Extended reals (0/0 = NaN). Linear solver CHOLMOD, exact elimination."
  },
  {
   "property": "C40",
   "status": "proved",
   "theorems": [
    "C40_mahalanobis",
    "C40_information_form",
    "C40_jacobian_columns"
   ],
   "note": "Exact reals. Cholesky and inverse are library calls: any outputs satisfying L L^T = cov and W L = L W = I."
  },
  {
   "property": "C41",
   "status": "proved",
   "theorems": [
    "C41_huber_residual"
   ],
   "note": "Exact reals; wrapped noise arbitrary. huber_loss is the textbook loss doubled (the costs here carry no 1/2)."
  },
  {
   "property": "C42",
   "status": "proved",
   "theorems": [
    "C42_huber_jacobian",
    "C42_bounded_influence_refuted"
   ],
   "note": "Exact reals. The Jacobian weight is computed from the already weighted residual, as compute_whitened_residual_jacobian passes it. The refuted theorem shows the gradient is unbounded."
  },
  {
   "property": "C43",
   "status": "proved",
   "theorems": [
    "C43_joint_nll"
   ],
   "note": "Exact reals; log and determinant are arbitrary functions (library calls)."
  },
  {
   "property": "C44",
   "status": "proved",
   "theorems": [
    "C44_zero_iff_consistent",
    "C44_gauge_free",
    "C44_formulas",
    "C44_full_step",
    "C44_spatial_zero",
    "C44_spatial_full_step",
    "C44_quaternion_sign_refuted"
   ],
   "note": "Exact reals. Every group satisfying the laws; SO(2) and SE(2) (jaxlie's formulas without the small-angle Taylor branch) are proved to satisfy them. SO(3) and SE(3) satisfy them only up to quaternion sign, so they have their own theorems, stated with same_pose."
  },
  {
   "property": "C45",
   "status": "proved",
   "theorems": [
    "C45_exact_at_zero_residual",
    "C45_derivative_at_zero_residual",
    "C45_so2_everywhere",
    "C45_se2_exactly_when_unrotated",
    "C45_prior_jacobian_everywhere_refuted",
    "C45_spatial_exact",
    "C45_full_turn_refuted",
    "C45_so3_rotated_refuted",
    "C45_consistent_graphs"
   ],
   "note": "Same groups. The guard is exact for SE(2): along a translation the analytic prior Jacobian is the derivative iff the rotation residual is zero; for SO(2) it always is, off the cut. C45_spatial_exact is the SO(3)/SE(3) case. C45_consistent_graphs lifts this to whole graphs over the four groups: where all measurements hold, the sparse Jacobian is the derivative of the residual vector with all variables moving at once."
  },
  {
   "property": "C46",
   "status": "proved",
   "theorems": [
    "C46_cache_transparent",
    "C46_inverse",
    "C46_as_dense"
   ],
   "note": "cache_transparent holds for every number type; the inverse is over exact reals. Indices in range. inv is the library inverse, assumed correct for as_dense."
  },
  {
   "property": "C47",
   "status": "proved",
   "theorems": [
    "C47_marginal_blocks"
   ],
   "note": "Every number type. The entry of the marginal is the one a direct query returns; C46 and C48 say what that is."
  },
  {
   "property": "C48",
   "status": "proved",
   "theorems": [
    "C48_marginals_permuted",
    "C48_marginals_of_the_variables_refuted"
   ],
   "note": "Exact reals; CHOLMOD is any function returning a lower-triangular factor of P A^T A P^T. Entry (i,j) is the covariance at (p i, p j): right for p the identity, refuted in general."
  },
  {
   "property": "C49",
   "status": "proved",
   "theorems": [
    "C49_symmetric",
    "C49_wrong_count",
    "C49_whitened_quadratic"
   ],
   "note": "symmetric and wrong_count for every number type and size; the quadratic form over exact reals, Cholesky being any function with L L^T = Omega on that matrix."
  },
  {
   "property": "C50",
   "status": "proved",
   "theorems": [
    "C50_parse",
    "C50_pose_limit",
    "C50_rejects_unknown",
    "C50_rejects_misnumbered",
    "C50_rejects_dangling",
    "C50_negative_numbers_rejected_refuted"
   ],
   "note": "An iff against the relation builds. int(), float(), jaxlie constructors and Cholesky are arbitrary functions. Negative vertex numbers count from the end (refuted theorem); SE(3) poses are not limited. pose_limit assumes the kept vertices are SE(2)."
  },
  {
   "property": "C51",
   "status": "proved",
   "theorems": [
    "C51_value_tuple"
   ],
   "note": "isinstance is an arbitrary predicate. Exceptions characterised (AssertionError for well-formed hints, TypeError for a named tuple of wrong arity)."
  },
  {
   "property": "C52",
   "status": "proved",
   "theorems": [
    "C52_stable_identities"
   ],
   "note": "Object and class identity are counters; every history of the four operations. The key comparison follows lru_cache (1 == True == 1.0)."
  },
  {
   "property": "C53",
   "status": "proved",
   "theorems": [
    "C53_duplicates"
   ],
   "note": "Exact characterisation: make_from_partial_dict raises iff a variable with parameters is repeated; make_from_defaults always succeeds there and no layout of distinct variables accepts the result."
  },
  {
   "property": "C54",
   "status": "proved",
   "theorems": [
    "C54_get_value_on_local_assignments"
   ],
   "note": "All four cases of local vs parameter dimension."
  },
  {
   "property": "C55",
   "status": "proved",
   "theorems": [
    "C55_cg_quality",
    "C55_inexact_tolerance",
    "C55_solver_classes"
   ],
   "note": "cg_run also returns the unused iterations, as JAX's loop state does."
  },
  {
   "property": "C56",
   "status": "proved",
   "theorems": [
    "C56_cg_converges"
   ],
   "note": "Stated on extended reals (division by zero gives NaN/Inf), result finite; proof by conjugacy invariants and Bessel's inequality."
  },
  {
   "property": "C57",
   "status": "proved",
   "theorems": [
    "C57_cg_zero_column_nan"
   ],
   "note": "Extended reals; float32 instance computed."
  },
  {
   "property": "C58",
   "status": "proved",
   "theorems": [
    "C58_real_subscript",
    "C58_history_independence_refuted"
   ],
   "note": "Negative sizes: jnp.zeros raises in __init_subclass__, modelled as ValueError."
  },
  {
   "property": "C59",
   "status": "proved",
   "theorems": [
    "C59_depth_bound",
    "C59_constant_depth_refuted"
   ],
   "note": "Every number type. None models RecursionError: fuel counts nested __getitem__ calls."
  },
  {
   "property": "C60",
   "status": "proved",
   "theorems": [
    "C60_text",
    "C60_tabs_do_not_separate"
   ],
   "note": "ASCII white space only; the text has universal newlines."
  },
  {
   "property": "C61",
   "status": "proved",
   "theorems": [
    "C61_values_keep_invariants",
    "C61_fixed_iteration",
    "C61_rotation_norms_never_change"
   ],
   "note": "General statement for every Num (closed under the global context). The fixed-iteration solver needs the graph's storage order (C31). jaxlie's groups are exact-real formulas without Taylor branches."
  },
  {
   "property": "C62",
   "status": "proved",
   "theorems": [
    "C62_solve_never_raises",
    "C62_fixed_iteration",
    "C62_linear_solvers",
    "C62_pose_graphs",
    "C62_without_parameters_refuted",
    "C62_without_residuals_refuted"
   ],
   "note": "Every Num. The model of CHOLMOD is exact elimination and never reports a non-positive-definite matrix."
  },
  {
   "property": "C63",
   "status": "proved",
   "theorems": [
    "C63_solve_commutes_with_symmetries",
    "C63_fixed_iteration",
    "C63_frame_invariance",
    "C63_gauge_freedom",
    "C63_settings",
    "C63_default_settings_refuted"
   ],
   "note": "Equivariance is guarded by the value-free termination settings; C63_default_settings_refuted shows the guard is needed."
  },
  {
   "property": "C64",
   "status": "proved",
   "theorems": [
    "C64_default_jacobians",
    "C64_is_derivative",
    "C64_not_overridden",
    "C64_plain_classes",
    "C64_guards"
   ],
   "note": "jax.jacfwd is not modelled: its output arrays are inputs with the documented axes, their being derivatives is a hypothesis. Entries and guards for every Num; the derivative statement (multivariate chain rule) over the reals. A residual_dim or local_dim of 0 is excluded because reshape with -1 behaves differently across JAX versions. C64_not_overridden states the derivative for a program whose factor classes do not override the method."
  },
  {
   "property": "C65",
   "status": "proved",
   "theorems": [
    "C65_linear_solves",
    "C65_rate",
    "C65_minimum",
    "C65_dogleg",
    "C65_exact_refuted"
   ],
   "note": "Over exact reals, with the exact solution of the damped normal equations that C25 establishes for the CHOLMOD call. For conjugate gradients see C76 and C95. Dogleg's rate compares with a minimum (C65_minimum: one exists); at an exact minimum the quality is 0/0, which is 0 in Coq's reals (reject) and NaN in floats (also reject). C65_exact_refuted: two iterations do not reach the minimum."
  },
  {
   "property": "C66",
   "status": "proved",
   "theorems": [
    "C66_nan_rejected",
    "C66_cost_never_nan",
    "C66_number_types",
    "C66_recovery_refuted",
    "C66_dogleg_recovery_refuted",
    "C66_gauss_newton_refuted"
   ],
   "note": "Rejection holds for every user code and linear solver. How long a poisoned run lasts depends on user code; the refuted theorems are binary32 runs of 30 iterations on the residual sqrt(x)-1 from x=9, with the model's exact-order elimination for CHOLMOD on a finite matrix and NaN right-hand side."
  },
  {
   "property": "C67",
   "status": "proved",
   "theorems": [
    "C67_graph_and_poses",
    "C67_objective",
    "C67_solves",
    "C67_unconnected_pose_raises",
    "C67_fixed_iteration",
    "C67_file_order_refuted",
    "C67_pose_limit_refuted"
   ],
   "note": "Over exact reals with the rotation formulas of C62 (no Taylor branches). Timing, printing and plotting are left out. C67_file_order_refuted shows only that the layouts differ on the file; what the fixed-iteration solver then does to the values is C31_other_order_refuted. The linear solver is assumed not to fail, so CHOLMOD's not-positive-definite error is outside."
  },
  {
   "property": "C68",
   "status": "proved",
   "theorems": [
    "C68_accepted_decreases",
    "C68_lambda_range",
    "C68_lambda_positive",
    "C68_lambda_zero_refuted",
    "C68_radius_not_negative",
    "C68_same_as_specfloat"
   ],
   "note": "Binary32 as Flocq's binary_float 24 128 (Flocq adds no axioms); C68_same_as_specfloat shows it computes what NumF32 computes. XLA may reorder sums or flush subnormals to zero: the acceptance theorem holds whatever values the costs have, but the subtraction and division in the quality are taken to be IEEE operations. The radius can become NaN, which is not negative."
  },
  {
   "property": "C69",
   "status": "proved",
   "theorems": [
    "C69_infinite_cost",
    "C69_number_types",
    "C69_finite_start_refuted"
   ],
   "note": "The refuted theorem is a binary32 run on a one-variable linear problem with the model's elimination for CHOLMOD."
  },
  {
   "property": "C70",
   "status": "proved",
   "theorems": [
    "C70_zero_cost_iff_consistent",
    "C70_solver_results",
    "C70_between_make",
    "C70_parameters_equal_refuted",
    "C70_unnormalised_refuted"
   ],
   "note": "Real arithmetic; jaxlie's groups as functions of parameter vectors, without its Taylor branches near angle 0. Dropping the normalisation of the values, and claiming equality of quaternion parameters instead of poses, are refuted by witnesses."
  },
  {
   "property": "C71",
   "status": "proved",
   "theorems": [
    "C71_followed_gradient",
    "C71_loss_shape",
    "C71_minimises_cost_refuted"
   ],
   "note": "Real arithmetic. Nested Huber wrappers and user-defined noise models are excluded. That retraction by 0 is the identity along the curve and that the declared Jacobians are derivatives are hypotheses. The refuted statement is that Gauss-Newton only stops moving where the cost is minimal; its witness is a convex one-variable problem."
  },
  {
   "property": "C72",
   "status": "proved",
   "theorems": [
    "C72_information_adds",
    "C72_more_factors",
    "C72_priors_fuse",
    "C72_repeated_prior"
   ],
   "note": "Information adds as a quadratic form; Loewner order of marginals; fusion of priors; m equal priors. CHOLMOD's factor assumed unpermuted (C48)."
  },
  {
   "property": "C73",
   "status": "proved",
   "theorems": [
    "C73_cost_in_any_order",
    "C73_relative_bound",
    "C73_comparisons",
    "C73_order_refuted",
    "C73_zero_residual_refuted"
   ],
   "note": "C73_order_refuted and C73_zero_residual_refuted give the two failures: residuals 1, 2^-12, 2^-12 whose cost depends on the order, and a residual of 2^-80 with cost zero. A backend that flushes subnormal numbers to zero is outside the theorem."
  },
  {
   "property": "C74",
   "status": "proved",
   "theorems": [
    "C74_fixed_iterations",
    "C74_conjugate_gradients",
    "C74_marginals",
    "C74_uncorrelated",
    "C74_gauss_newton_refuted",
    "C74_trust_region_refuted",
    "C74_loose_tolerance_refuted"
   ],
   "note": "Fixed-iteration Gauss-Newton and marginals split exactly; with conjugate gradients only at tolerance 0 (refuted for tolerance 1/2); Gauss-Newton's stopping and LM's acceptance couple independent parts (refutations). Marginals assume CHOLMOD did not permute (C48)."
  },
  {
   "property": "C75",
   "status": "proved",
   "theorems": [
    "C75_levenberg_marquardt",
    "C75_dogleg",
    "C75_large_damping",
    "C75_small_radius",
    "C75_after_rejection_refuted"
   ],
   "note": "Exact arithmetic, CHOLMOD. Bounds for runs without a rejection, and conditions under which a step is accepted; refuted after a rejection."
  },
  {
   "property": "C76",
   "status": "proved",
   "theorems": [
    "C76_inexact_descent",
    "C76_linear_gradient",
    "C76_tolerances"
   ],
   "note": "Over exact reals. A zero column makes the preconditioner divide by zero (C57). Levenberg-Marquardt and Dogleg with conjugate gradients: C95."
  },
  {
   "property": "C77",
   "status": "proved",
   "theorems": [
    "C77_gauss_newton",
    "C77_conjugate_gradients",
    "C77_levenberg_marquardt",
    "C77_solves",
    "C77_only_stationary",
    "C77_everywhere_refuted"
   ],
   "note": "Plain array variables only (retraction is addition); manifold variables are not covered. Exact real arithmetic. CHOLMOD is modelled as the exact solution of the damped normal equations."
  },
  {
   "property": "C78",
   "status": "proved",
   "theorems": [
    "C78_solve",
    "C78_fixed",
    "C78_closed",
    "C78_noise",
    "C78_split",
    "C78_cost_only_refuted"
   ],
   "note": "Lockstep simulation of two runs through the polarised quadratic models; conjugate gradients through the invariance of A^T A and of the Jacobi preconditioner under reordering; noise through the precision matrix."
  },
  {
   "property": "C79",
   "status": "proved",
   "theorems": [
    "C79_analysis_of_first_alike",
    "C79_own_analysis",
    "C79_objects_irrelevant",
    "C79_alike_graphs",
    "C79_same_connections",
    "C79_fresh_solver_refuted"
   ],
   "note": "jit keys are modelled without dtypes; compiled functions are never evicted"
  },
  {
   "property": "C80",
   "status": "proved",
   "theorems": [
    "C80_blind_solvers",
    "C80_fixed_iterations_split",
    "C80_limit_not_reached",
    "C80_resumes",
    "C80_gauss_newton_split",
    "C80_inexact_refuted",
    "C80_gradient_start_refuted",
    "C80_damping_refuted",
    "C80_rejected_refuted"
   ],
   "note": "The damping or radius reached is not returned by solve; the theorem takes it from the final state."
  },
  {
   "property": "C81",
   "status": "proved",
   "theorems": [
    "C81_gauss_newton",
    "C81_trust_region",
    "C81_solves",
    "C81_deterministic"
   ],
   "note": "Exact arithmetic and CholmodSolver. After a rejected step the model mixes Jacobians at the current values with residuals (and Huber weights) at the rejected ones (C39), so the specification carries both."
  },
  {
   "property": "C82",
   "status": "proved",
   "theorems": [
    "C82_gaussian",
    "C82_rest_point",
    "C82_huber",
    "C82_huber_beats_gaussian",
    "C82_bounded_influence_refuted"
   ],
   "note": "Translations only: the outlier has the orientation of the inliers, so the iterates keep angle 0. Exact arithmetic."
  },
  {
   "property": "C83",
   "status": "proved",
   "theorems": [
    "C83_gauss_newton",
    "C83_levenberg_marquardt",
    "C83_tests"
   ],
   "note": "Over R, CholmodSolver as an exact solve of the damped normal equations."
  },
  {
   "property": "C84",
   "status": "proved",
   "theorems": [
    "C84_jvp",
    "C84_exact",
    "C84_plain_variables",
    "C84_plain_retraction",
    "C84_well_posed",
    "C84_kinks",
    "C84_not_smooth_refuted"
   ],
   "note": "JAX's tangent rules (jvp of lax primitives) are transcribed from knowledge of JAX, not from /repo; programs are scalar expressions."
  },
  {
   "property": "C85",
   "status": "proved",
   "theorems": [
    "C85_nearest",
    "C85_rate",
    "C85_solves",
    "C85_limit",
    "C85_steps",
    "C85_unseen",
    "C85_cg_refuted"
   ],
   "note": "All parts proved over R; C85_cg_refuted shows part (c). LM settings as in C65 (lambda_factor >= 1, step_quality_min <= 1)."
  },
  {
   "property": "C86",
   "status": "proved",
   "theorems": [
    "C86_gauss_newton",
    "C86_levenberg_marquardt",
    "C86_all_angles",
    "C86_global_optimum_refuted"
   ],
   "note": "Exact reals. Diagonal noise, no Huber. SO2's log without the small-angle Taylor branch. Dogleg is not covered here (C65, C75 cover it on linear problems and in general)."
  },
  {
   "property": "C87",
   "status": "proved",
   "theorems": [
    "C87_turn",
    "C87_run",
    "C87_solve",
    "C87_limit",
    "C87_tied",
    "C87_gain",
    "C87_trust_region"
   ],
   "note": "existence of the radius rho and the rate q for each graph and configuration; their size is not computed. The linear solver is the exact least-squares solution (CholmodSolver)"
  },
  {
   "property": "C88",
   "status": "proved",
   "theorems": [
    "C88_rotation_gradient",
    "C88_step",
    "C88_rest",
    "C88_pose_rest",
    "C88_midpoint",
    "C88_rotation_minimum",
    "C88_cheaper",
    "C88_minimum_refuted"
   ],
   "note": "positive results for rotations, the midpoint and rest points of the solvers for all groups; that the solvers rest only at minima of the cost is false for SE2/SE3: C88_cheaper in general, C88_minimum_refuted a concrete graph"
  },
  {
   "property": "C89",
   "status": "proved",
   "theorems": [
    "C89_shortens",
    "C89_model",
    "C89_general",
    "C89_descent",
    "C89_half_turns",
    "C89_slope",
    "C89_best_refuted"
   ],
   "note": "descent and convergence of the gradient for all starts; convergence to the best rotation is false: C89_best_refuted"
  },
  {
   "property": "C90",
   "status": "proved",
   "theorems": [
    "C90_transparent",
    "C90_silent",
    "C90_report",
    "C90_fixed",
    "C90_last",
    "C90_refuted"
   ],
   "note": "the account is proved for all runs; that printed costs never rise is false: C90_refuted"
  },
  {
   "property": "C91",
   "status": "proved",
   "theorems": [
    "C91_values",
    "C91_graph",
    "C91_cost"
   ],
   "note": "agreement for all graphs and assignments"
  },
  {
   "property": "C92",
   "status": "proved",
   "theorems": [
    "C92_stack",
    "C92_concatenate",
    "C92_default",
    "C92_stopwatch",
    "C92_time",
    "C92_refuted"
   ],
   "note": "proved for all trees and axes; that the footer is always printed is false: C92_refuted"
  },
  {
   "property": "C93",
   "status": "proved",
   "theorems": [
    "C93_turn",
    "C93_run",
    "C93_solve",
    "C93_limit"
   ],
   "note": "local result over the reals; rho and the constants are not computed; Levenberg-Marquardt and Dogleg under noise are not covered"
  },
  {
   "property": "C94",
   "status": "proved",
   "theorems": [
    "C94_solve",
    "C94_fixed",
    "C94_noise",
    "C94_closed",
    "C94_cholmod_refuted",
    "C94_gradient_refuted"
   ],
   "note": "over the reals; the gradient test must be off, by default that means max_iterations <= 11"
  },
  {
   "property": "C95",
   "status": "proved",
   "theorems": [
    "C95_rates",
    "C95_solves",
    "C95_dogleg_rate",
    "C95_tolerance_refuted"
   ],
   "note": "over the reals; without a zero Jacobian column (C57). At an exact minimum the step quality is 0/0: 0 in Coq's reals, NaN in floats, rejected either way; the statement about the cost covers both."
  },
  {
   "property": "C96",
   "status": "proved",
   "theorems": [
    "C96_steps",
    "C96_solves",
    "C96_forcing_sequence",
    "C96_cholmod_refuted"
   ],
   "note": "over exact reals, plain array variables. The iteration number the tolerance depends on is the solver's own counter, as in the source."
  },
  {
   "property": "C97",
   "status": "proved",
   "theorems": [
    "C97_solves",
    "C97_accuracy",
    "C97_default_refuted",
    "C97_gradient_refuted"
   ],
   "note": "over exact reals, plain array variables, linear residuals. The Dogleg clause needs a starting radius that is not too small compared with the initial excess (share theta). The two refutations use the shipped default settings, respectively settings with the cost and parameter tests switched off."
  },
  {
   "property": "C98",
   "status": "proved",
   "theorems": [
    "C98_iterations",
    "C98_solves",
    "C98_rest",
    "C98_cost_falls_refuted"
   ],
   "note": "over exact reals, plain array variables, affine residuals, at most one Huber wrapper per factor. Levenberg-Marquardt and Dogleg accept steps by the reported cost and are not covered. The refutation is a one-step FixedIterationGaussNewtonSolver solve with CholmodSolver."
  },
  {
   "property": "C99",
   "status": "proved",
   "theorems": [
    "C99_exists",
    "C99_one_fit",
    "C99_iterations",
    "C99_solves",
    "C99_full_rank",
    "C99_least_cost_refuted",
    "C99_uniform_refuted"
   ],
   "note": "over exact reals, plain array variables, affine residuals, at most one Huber wrapper per factor. Convergence of the values without full rank is proved for CholmodSolver, whose damping bounds the steps; with conjugate gradients the loss converges (C98), and the values do if the rank is full."
  },
  {
   "property": "C100",
   "status": "proved",
   "theorems": [
    "C100_constants",
    "C100_solves",
    "C100_conjugate_gradients",
    "C100_levenberg_marquardt",
    "C100_isolated",
    "C100_kinks_refuted"
   ],
   "note": "Over the reals (NumR). Hypotheses on programs only: smooth at z, zero at z, full column rank of the model's own Jacobian at z. Kinks violate the claim: C100_kinks_refuted."
  },
  {
   "property": "C101",
   "status": "proved",
   "theorems": [
    "C101_constants",
    "C101_runs",
    "C101_solves",
    "C101_program_runs",
    "C101_program_solves",
    "C101_without_exact_fit_refuted"
   ],
   "note": "real arithmetic; exact solves of the damped normal equations (CHOLMOD); noise models as in C100; the refutation shows the exact fit is needed"
  },
  {
   "property": "C102",
   "status": "proved",
   "theorems": [
    "C102_solves",
    "C102_accuracy",
    "C102_programs",
    "C102_cost_refuted",
    "C102_gradient_refuted"
   ],
   "note": "proved for every exact solution in the sense of C101 and for all three solvers with CholmodSolver; the two unguarded readings (default cost tolerance, gradient test) are refuted"
  },
  {
   "property": "C103",
   "status": "proved",
   "theorems": [
    "C103_solves",
    "C103_accuracy",
    "C103_tied"
   ],
   "note": "constants are uniform over the configurations; the gradient test gives no guarantee (C102)"
  },
  {
   "property": "C104",
   "status": "proved",
   "theorems": [
    "C104_floating_graphs_converge",
    "C104_floating_graphs_converge_trust_region",
    "C104_any_accuracy",
    "C104_common_motion_changes_nothing",
    "C104_never_rigid"
   ],
   "note": "the rate of the trust-region theorems depends on the configuration; nothing is claimed about which common motion the run ends at"
  },
  {
   "property": "C105",
   "status": "proved",
   "theorems": [
    "C105_every_consistent_graph_converges",
    "C105_every_consistent_graph_converges_trust_region",
    "C105_any_accuracy",
    "C105_unseen_motion_changes_nothing"
   ],
   "note": "nothing is claimed about which unseen motion the run ends at"
  },
  {
   "property": "C106",
   "status": "proved",
   "theorems": [
    "C106_iterates_have_a_limit",
    "C106_trust_region_ends_near_start",
    "C106_limits_fit_exactly"
   ],
   "note": "Over the reals, with an exact linear solve. The single limit is proved for Gauss-Newton (terminating and fixed iteration). For Levenberg-Marquardt and Dogleg each run ends near some exact fit that is near the start."
  },
  {
   "property": "C107",
   "status": "proved",
   "theorems": [
    "C107_solves",
    "C107_accuracy"
   ],
   "note": "Rigidity and a prior are not needed. The cost tolerance must be small, as in C103."
  },
  {
   "property": "C108",
   "status": "proved",
   "theorems": [
    "C108_recovers",
    "C108_no_endless_rejection",
    "C108_threshold_needed_refuted",
    "C108_result_worse_refuted"
   ],
   "note": "Positive claims guarded by step_quality_min (1 + lambda_factor) < 1 and a bound on the kept residual; refutations show that the threshold is needed and that the default settings can return a result worse than the start."
  },
  {
   "property": "C109",
   "status": "proved",
   "theorems": [
    "C109_recovers",
    "C109_no_endless_rejection",
    "C109_threshold_needed_refuted",
    "C109_result_worse_refuted"
   ],
   "note": "Over the reals, with the exact (CHOLMOD) linear solver. On the plateau the model's predicted change is 0/0: zero over the reals, nan in the code; both are rejected."
  },
  {
   "property": "C110",
   "status": "proved",
   "theorems": [
    "C110_descends",
    "C110_large_gradients",
    "C110_solves",
    "C110_converges",
    "C110_large_curvature_refuted"
   ],
   "note": "C110_descends: decrease per iteration and best gradient over n iterations. C110_solves: returned cost at most the start's. C110_converges: geometric rate to zero cost when the gradient sees the whole residual. C110_large_curvature_refuted: without the condition one iteration raises the cost by any factor. Real arithmetic, CHOLMOD as the exact damped solve."
  },
  {
   "property": "C111",
   "status": "proved",
   "theorems": [
    "C111_pull",
    "C111_bounded_pull_refuted"
   ],
   "note": "C111_pull: bound on the change of the step for every graph. C111_bounded_pull_refuted: no bound independent of the outlier. Real arithmetic, CHOLMOD as the exact damped solve, one Huber wrapper around a Gaussian; nested wrappers are not stated."
  },
  {
   "property": "C112",
   "status": "proved",
   "theorems": [
    "C112_bounds",
    "C112_restart",
    "C112_sharp",
    "C112_flat_refuted"
   ],
   "note": "Distances are Euclidean distances of the stored scalars. For nonlinear problems the result's distance is bounded whenever its cost does not exceed the starting cost (C110 gives conditions)."
  }
 ]
}