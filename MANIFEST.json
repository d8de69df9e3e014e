{
 "claims": [
  {
   "property": "C01",
   "status": "proved",
   "theorems": [
    "C01_backends_agree",
    "C01_rejected_combination",
    "C01_negative_bound"
   ],
   "note": "all three back-ends compute the stops_at iterate; scan with a negative length is unspecified"
  },
  {
   "property": "C02",
   "status": "proved",
   "theorems": [
    "C02_run",
    "C02_run_tolerance",
    "C02_state_unchanged",
    "C02_run_zero",
    "C02_auto_unroll"
   ],
   "note": "maxiter=0 on the scan back-end asks lax.scan for length -1, which is not modelled"
  },
  {
   "property": "C03",
   "status": "proved",
   "theorems": [
    "C03_run_iterator",
    "C03_run_iterator_errors"
   ],
   "note": "the batch at position 0 is used for init_state only"
  },
  {
   "property": "C04",
   "status": "proved",
   "theorems": [
    "C04_make_funs_with_aux",
    "C04_make_funs_without_aux"
   ],
   "note": "jax.value_and_grad is an oracle pairing value and gradient"
  },
  {
   "property": "C05",
   "status": "proved",
   "theorems": [
    "C05_non_negative",
    "C05_box",
    "C05_hypercube",
    "C05_linf_ball",
    "C05_feasible_unchanged"
   ],
   "note": "flat vectors; scalar bounds are broadcast"
  },
  {
   "property": "C06",
   "status": "proved",
   "theorems": [
    "C06_simplex",
    "C06_shift_invariant",
    "C06_permutation_equivariant"
   ],
   "note": "x non-empty, value > 0"
  },
  {
   "property": "C07",
   "status": "proved",
   "theorems": [
    "C07_l1_ball",
    "C07_l1_sphere",
    "C07_l1_sphere_refuted",
    "C07_l1_sphere_inside_refuted"
   ],
   "note": "ball proved for r>0; sphere proved unless x is inside the ball with a zero coordinate, where it is refuted ([0] is mapped to [0])"
  },
  {
   "property": "C08",
   "status": "proved",
   "theorems": [
    "C08_l2_ball",
    "C08_l2_sphere"
   ],
   "note": "sphere for nonzero input"
  },
  {
   "property": "C09",
   "status": "proved",
   "theorems": [
    "C09_hyperplane",
    "C09_halfspace",
    "C09_affine_set",
    "C09_affine_set_solved",
    "C09_polyhedron",
    "C09_polyhedron_kkt",
    "C09_polyhedron_refuted"
   ],
   "note": "All four projections. The polyhedron bound is conditional on the inner run ending SOLVED, the only success the code can observe. C09_polyhedron_refuted: check_feasible=True rejects every polyhedron containing the origin when x=0."
  },
  {
   "property": "C10",
   "status": "proved",
   "theorems": [
    "C10_box_section",
    "C10_exact_root",
    "C10_infeasible",
    "C10_degenerate_refuted"
   ],
   "note": "Proved with explicit error bound when w.alpha < c <= w.beta; refuted when c = w.alpha (feasible, but bisection runs to the wrong end)."
  },
  {
   "property": "C11",
   "status": "proved",
   "theorems": [
    "C11_sparse_simplex",
    "C11_full_support"
   ],
   "note": "Exact top_k only; approx_max_k not modelled."
  },
  {
   "property": "C12",
   "status": "proved",
   "theorems": [
    "C12_idempotent",
    "C12_nonexpansive"
   ],
   "note": "non-expansiveness of every convex closed-form projection"
  },
  {
   "property": "C13",
   "status": "proved",
   "theorems": [
    "C13_prox_none",
    "C13_prox_lasso",
    "C13_prox_lasso_scalar",
    "C13_prox_non_negative_lasso",
    "C13_prox_elastic_net",
    "C13_prox_elastic_net_scalar",
    "C13_prox_group_lasso",
    "C13_prox_from_projection"
   ],
   "note": "flat vectors"
  },
  {
   "property": "C14",
   "status": "proved",
   "theorems": [
    "C14_prox_ridge_refuted",
    "C14_prox_non_negative_ridge_refuted",
    "C14_prox_ridge_half",
    "C14_prox_non_negative_ridge_half"
   ],
   "note": "the documented objective is refuted; the operators minimise the objective with half the documented penalty"
  },
  {
   "property": "C15",
   "status": "proved",
   "theorems": [
    "C15_isotonic",
    "C15_integer_input_refuted"
   ],
   "note": "Proved with termination for float inputs, both directions, all bounds; refuted for integer dtypes (means truncated). The JVP is C56."
  },
  {
   "property": "C16",
   "status": "proved",
   "theorems": [
    "C16_invariant",
    "C16_root",
    "C16_run",
    "C16_check_bracket",
    "C16_root_at_lower_refuted"
   ],
   "note": "C16_root_at_lower_refuted: f(x) = x on [0, 1] is rejected with ValueError."
  },
  {
   "property": "C17",
   "status": "proved",
   "theorems": [
    "C17_huber",
    "C17_binary_logistic",
    "C17_sparse_plus",
    "C17_binary_margin_losses",
    "C17_multiclass_logistic",
    "C17_multiclass_margin_losses",
    "C18_sparsemax"
   ],
   "note": "All losses of loss.py: sign, zero set, convexity, derivatives. Over the reals."
  },
  {
   "property": "C18",
   "status": "proved",
   "theorems": [
    "C18_fenchel_young",
    "C18_logsumexp_max",
    "C18_sparsemax"
   ],
   "note": "General Fenchel-Young statement for any attained max function, with logsumexp/Shannon and sparsemax/Gini instances."
  },
  {
   "property": "C19",
   "status": "proved",
   "theorems": [
    "C19_backtracking",
    "C19_smooth_success",
    "C19_counters"
   ],
   "note": "All four conditions; function values may be NaN or infinite; gradients finite."
  },
  {
   "property": "C20",
   "status": "proved",
   "theorems": [
    "C20_zoom",
    "C20_bracket",
    "C20_cubicmin",
    "C20_quadmin",
    "C20_done_implies_curvature_refuted"
   ],
   "note": "Proved: done/failed bookkeeping, sufficient decrease, safe-step optimality, bracket geometry and contraction, interpolation. The clause 'done implies curvature' is false of the code at max_stepsize (refuted theorem); C20_zoom states the true alternative."
  },
  {
   "property": "C21",
   "status": "proved",
   "theorems": [
    "C21_hager_zhang",
    "C21_bracket",
    "C21_bracket_has_acceptable_step",
    "C21_terminates",
    "C21_returned_step_refuted",
    "C21_done_and_failed_refuted",
    "C21_failure_lost_refuted",
    "C21_opposite_slope_refuted"
   ],
   "note": "Acceptance, bracket ordering/nesting/contraction, existence of an acceptable step in every bracket and termination are proved. 'failed is not set when done' and 'the returned step is the accepted one' are refuted: an already acceptable initial bracket returns the caller's initial step, NaN after bracketing gives done and failed, a recorded failure is overwritten, and the opposite-slope condition need not hold."
  },
  {
   "property": "C22",
   "status": "proved",
   "theorems": [
    "C22_line_search",
    "C22_line_search_succeeds"
   ],
   "note": "the accepted step meets the quadratic upper bound up to eps/s or maxls reductions were made; for L-smooth f success and the lower bound min(s0, decrease/L)"
  },
  {
   "property": "C23",
   "status": "proved",
   "theorems": [
    "C23_descent",
    "C23_rate",
    "C23_rate_constant",
    "C23_accelerated_rate",
    "C23_line_search_rate",
    "C23_error_zero",
    "C23_run",
    "C23_optimality_fun",
    "C23_gradient_descent",
    "C23_gradient_descent_optimality",
    "C23_projected_gradient",
    "C23_lasso",
    "C23_line_search_error",
    "C23_accelerated_error_refuted",
    "C23_line_search_error_refuted"
   ],
   "note": "descent, both rates and the fixed-point characterisation proved; two clauses are false of the code and refuted: with acceleration (the default) error = 0 does not imply a fixed point, and with a line search the reported error uses the enlarged next step, not the step taken"
  },
  {
   "property": "C24",
   "status": "proved",
   "theorems": [
    "C24_stepsize",
    "C24_update",
    "C24_contraction",
    "C24_rate",
    "C24_nan_at_minimum_refuted"
   ],
   "note": "bounds, documented update, contraction towards interpolating solutions and an O(1/k) rate proved; with the default delta = 0 an update at an exact minimiser computes 0/0 and returns NaN parameters (refuted)"
  },
  {
   "property": "C25",
   "status": "proved",
   "theorems": [
    "C25_line_search",
    "C25_backtracking",
    "C25_stepsize_bounds",
    "C25_conservative",
    "C25_descent",
    "C25_min_stepsize",
    "C25_min_stepsize_refuted",
    "C25_value_refuted"
   ],
   "note": "acceptance, bounds, conservative monotonicity, descent proved; the documented lower bound min(1/L, max_stepsize) needs 2*aggressiveness*decrease_factor >= 1 (refuted otherwise); state.value is not the loss at the returned parameters when momentum is used (refuted)"
  },
  {
   "property": "C26",
   "status": "proved",
   "theorems": [
    "C26_runs_exist",
    "C26_update",
    "C26_secant",
    "C26_positive_definite",
    "C26_convex",
    "C26_wolfe",
    "C26_backtracking_consistent",
    "C26_descent_refuted"
   ],
   "note": "Line search is a parameter with the contract proved of backtracking; C26_descent_refuted shows the positive-curvature hypothesis cannot be dropped (constant step, non-convex objective)."
  },
  {
   "property": "C27",
   "status": "proved",
   "theorems": [
    "C27_runs_exist",
    "C27_inv_hessian_product",
    "C27_direction",
    "C27_matrix",
    "C27_convex",
    "C27_equals_bfgs",
    "C27_no_history",
    "C27_warm_start",
    "C27_stop",
    "C27_zero_curvature_refuted"
   ],
   "note": "C27_zero_curvature_refuted: with stored curvatures only non-negative the claim fails, a zero-curvature pair sets gamma to 0 and the direction vanishes."
  },
  {
   "property": "C28",
   "status": "proved",
   "theorems": [
    "C28_adjoint",
    "C28_consistent",
    "C28_memory",
    "C28_secant",
    "C28_inverse",
    "C28_run",
    "C28_line_search",
    "C28_wrap_refuted",
    "C28_multi_leaf_refuted",
    "C28_default_history"
   ],
   "note": "Secant equation and exact inverse of Broyden's B_k hold while k <= history_size for single-array parameters, hence throughout a run with the default history size (maxiter); refuted after a shorter buffer wraps and for multi-leaf pytrees."
  },
  {
   "property": "C29",
   "status": "proved",
   "theorems": [
    "C29_history",
    "C29_weights",
    "C29_weights_no_ridge",
    "C29_mixing",
    "C29_affine",
    "C29_stationary",
    "C29_run",
    "C29_error_refuted",
    "C29_wrapper",
    "C29_constructor",
    "C29_wrapper_run"
   ],
   "note": "jnp.linalg.solve is assumed to solve nonsingular systems exactly (Gaussian elimination in LinAlg.v shows this can be met); state.error is the residual norm at the last evaluated point, not at the returned parameters (refuted)."
  },
  {
   "property": "C30",
   "status": "proved",
   "theorems": [
    "C30_epoch",
    "C30_no_move",
    "C30_zero_diagonal_refuted",
    "C30_optimality_fun",
    "C30_run",
    "C30_suboptimality",
    "C30_terminates"
   ],
   "note": "Feasibility, descent with rate, l1 error, optimality at error 0 when the diagonal is positive, suboptimality bound, termination, optimality_fun zero iff minimiser. The claim 'error 0 implies coordinate-wise optimal' is false when a diagonal entry is 0: C30_zero_diagonal_refuted gives the counterexample (cd_qp.py:42 skips such coordinates)."
  },
  {
   "property": "C31",
   "status": "proved",
   "theorems": [
    "C31_linear_operator",
    "C31_cache",
    "C31_step",
    "C31_optimality",
    "C31_error_zero",
    "C31_run",
    "C31_terminates",
    "C31_least_squares_lasso",
    "C31_zero_column_refuted",
    "C31_svm_dual_refuted"
   ],
   "note": "Block coordinate descent over an arbitrary composite objective (subfun, gradient, linear operator, optional linear term) and block prox. Caches exact, descent, error 0 = minimiser, optimality_fun, run, termination. Findings: a zero column (constant 0) makes the first update non-finite; with the SVM-dual constants the objective can increase."
  },
  {
   "property": "C32",
   "status": "proved",
   "theorems": [
    "C32_least_squares",
    "C32_binary_logreg",
    "C32_multiclass_logreg",
    "C32_svm_dual",
    "C32_svm_dual_refuted"
   ],
   "note": "Gradients and constants of LeastSquares, BinaryLogreg and MulticlassLogreg proved valid for all data (Hoeffding's lemma for the softmax). MulticlassLinearSvmDual's constants are valid iff l2reg >= 1 (for data with a non-zero example): C32_svm_dual_refuted shows the missing division by l2reg."
  },
  {
   "property": "C33",
   "status": "proved",
   "theorems": [
    "C33_optimality",
    "C33_residual",
    "C33_kkt_iff_minimiser",
    "C33_run",
    "C33_run_regular",
    "C33_quasidefinite",
    "C33_refined",
    "C33_fun",
    "C33_errors",
    "C33_fun_pytree_refuted",
    "C33_nonsymmetric_refuted"
   ],
   "note": "KKT residual zero iff KKT system; KKT points are exactly the minimisers; run returns one given the linear solver solves its system; quasidefinite refinement bound. Refuted: fun with container variables always TypeError; non-symmetric Q gives a non-optimal point."
  },
  {
   "property": "C34",
   "status": "proved",
   "theorems": [
    "C34_zero_iff",
    "C34_kkt",
    "C34_convex",
    "C34_zero_minimises",
    "C34_zero_alone_refuted"
   ],
   "note": "Zero iff stationarity, equalities and complementary slackness; KKT points of convex problems are global minimisers; zero alone implies neither feasibility nor optimality."
  },
  {
   "property": "C35",
   "status": "proved",
   "theorems": [
    "C35_box",
    "C35_duals",
    "C35_update",
    "C35_rho",
    "C35_solved",
    "C35_optimal",
    "C35_monotone",
    "C35_fixed_point",
    "C35_converges",
    "C35_nan",
    "C35_nan_refuted"
   ],
   "note": "Convergence is for an exact inner solver and a step size fixed after the first update; with adaptive step sizes only the per-step and stopping theorems apply. C35_nan_refuted: the step size becomes NaN on a solvable problem."
  },
  {
   "property": "C36",
   "status": "proved",
   "theorems": [
    "C36_verdict",
    "C36_raises",
    "C36_primal_sound",
    "C36_dual_sound",
    "C36_zero_step",
    "C36_feasible_refuted",
    "C36_warm_start_refuted"
   ],
   "note": "Verdict = test of the last step; soundness of exact certificates; the clause that feasible bounded problems are never reported infeasible is refuted."
  },
  {
   "property": "C37",
   "status": "proved",
   "theorems": [
    "C37_same_problem",
    "C37_no_constraints",
    "C37_split",
    "C37_round_trip",
    "C37_blocks",
    "C37_solved",
    "C37_fixed_point",
    "C37_converges",
    "C37_fun",
    "C37_empty_block_refuted"
   ],
   "note": "C37_empty_block_refuted: a present block with zero rows gets the whole dual vector."
  },
  {
   "property": "C38",
   "status": "proved",
   "theorems": [
    "C38_jvp",
    "C38_jvp_arity",
    "C38_adjoint",
    "C38_default_solver",
    "C38_ift",
    "C38_fixed_point",
    "C38_fixed_point_root"
   ],
   "note": "Jacobians of optimality_fun as matrices (jax.jvp / jax.vjp apply them); C38_ift: root_jvp is the derivative of every continuous curve of roots of a Frechet-differentiable optimality function with nonsingular Jacobian; linear solver assumed exact (instantiated by Gaussian elimination / exact CG)."
  },
  {
   "property": "C39",
   "status": "proved",
   "theorems": [
    "C39_forward",
    "C39_match",
    "C39_gradients",
    "C39_resolvable",
    "C39_skipped_default_refuted"
   ],
   "note": "inspect.Signature.bind/BoundArguments modelled without positional-only parameters. C39_skipped_default_refuted: TypeError without any catch-all **kwargs when a defaulted parameter before the keyword argument is omitted."
  },
  {
   "property": "C40",
   "status": "proved",
   "theorems": [
    "C40_arith",
    "C40_mismatch",
    "C40_vdot",
    "C40_reductions",
    "C40_inf_norm",
    "C40_empty_refuted",
    "C40_mean",
    "C40_mean_refuted",
    "C40_average",
    "C40_gram",
    "C40_broadcast",
    "C40_broadcast_leaves",
    "C40_broadcast_mismatch",
    "C40_broadcast_refuted",
    "C40_where",
    "C40_where_scalar",
    "C40_laws"
   ],
   "note": "Real leaves; dtypes, complex leaves, tree_div/reciproqual/conj and NumPy broadcasting beyond equal shapes and 0-d arrays not modelled."
  },
  {
   "property": "C41",
   "status": "proved",
   "theorems": [
    "C41_round_trip",
    "C41_inverse",
    "C41_jacobian",
    "C41_empty"
   ],
   "note": "dtype conversions not modelled."
  },
  {
   "property": "C42",
   "status": "proved",
   "theorems": [
    "C42_materialize",
    "C42_lu",
    "C42_cholesky",
    "C42_cholesky_matrix_refuted",
    "C42_inv",
    "C42_qr",
    "C42_scalar",
    "C42_rank",
    "C42_krylov",
    "C42_unique",
    "C42_ridge_regular",
    "C42_normal_cg",
    "C42_normal_cg_nonsquare"
   ],
   "note": "Every linear_solve.py solver returns a solution of the regularised system, given exactness of the library routine it calls (an assumption met by the verified Gaussian elimination). The materialised matrix is proved to be the operator. Refuted: solve_cholesky always raises ValueError for matrix-shaped b."
  },
  {
   "property": "C43",
   "status": "proved",
   "theorems": [
    "C43_residual",
    "C43_contraction",
    "C43_contraction_zero",
    "C43_run",
    "C43_ridge",
    "C43_exact",
    "C43_warm_start_refuted"
   ],
   "note": "Error is the true residual; geometric decay for every inner solver that reduces residuals; run meets the tolerance; the default ridge-regularised solve is such a solver. Refuted: init_params is not a usable warm start (first residual is b, not b - A init)."
  },
  {
   "property": "C44",
   "status": "proved",
   "theorems": [
    "C44_update",
    "C44_optimality",
    "C44_contraction",
    "C44_run",
    "C44_run_terminates",
    "C44_banach"
   ],
   "note": "Includes existence and uniqueness of the fixed point (Banach) so the hypotheses are always met for a contraction."
  },
  {
   "property": "C45",
   "status": "proved",
   "theorems": [
    "C45_step",
    "C45_damping",
    "C45_accept",
    "C45_init",
    "C45_run",
    "C45_modes_agree",
    "C45_stop",
    "C45_geodesic",
    "C45_stationary_refuted",
    "C45_overflow_refuted",
    "C45_stop_refuted",
    "C45_jac_fun_refuted",
    "C45_geodesic_refuted"
   ],
   "note": "Exact inner solvers and a non-stationary point (hypotheses lm_ok/lm_at, instantiated in C45_example with verified solvers for every dimension); extended-number model shows where NaN enters. Refuted clauses are stated as such in the property."
  },
  {
   "property": "C46",
   "status": "proved",
   "theorems": [
    "C46_step",
    "C46_stationary",
    "C46_state",
    "C46_affine",
    "C46_affine_run"
   ],
   "note": "CG assumed exact on positive definite operators (instantiated); Jacobian of full column rank. state.residual/value/gradient are those of the point before the step (C46_state)."
  },
  {
   "property": "C47",
   "status": "proved",
   "theorems": [
    "C47_beta",
    "C47_update",
    "C47_descent",
    "C47_quadratic",
    "C47_terminates",
    "C47_methods_agree",
    "C47_error_refuted",
    "C47_early_stop_refuted",
    "C47_backtracking_refuted"
   ],
   "note": "Line search is a parameter (consistent with the objective, or exact on quadratics). Findings: error is the gradient norm one step late, so run can stop at a point whose gradient exceeds tol; linesearch='backtracking' searches along minus the gradient whatever the method."
  },
  {
   "property": "C48",
   "status": "proved",
   "theorems": [
    "C48_hessian",
    "C48_secant",
    "C48_cauchy",
    "C48_feasible",
    "C48_direction",
    "C48_error",
    "C48_run",
    "C48_zoom",
    "C48_warm_start",
    "C48_secant_wrap_refuted",
    "C48_tiny_gradient_refuted",
    "C48_long_step_refuted"
   ],
   "note": "Exact arithmetic; jnp.linalg.inv/solve are any exact solver; line search is any function returning steps in [0,1] (C48_zoom: the zoom search qualifies). Three expected statements are refuted on the unchanged code."
  },
  {
   "property": "C49",
   "status": "proved",
   "theorems": [
    "C49_max",
    "C49_max_jvp",
    "C49_noise",
    "C49_argmax_jvp",
    "C49_control_variate",
    "C49_fun_jvp",
    "C49_fun_scalar_cv",
    "C49_control_variate_refuted"
   ],
   "note": "The noise is any fixed sample; expectation over the noise is not modelled. make_perturbed_fun with control_variate=True is refuted for every non-scalar output; without it outputs with an axis of length 1 are refuted (C49_fun_jvp)."
  },
  {
   "property": "C50",
   "status": "proved",
   "theorems": [
    "C50_step",
    "C50_fixed_point",
    "C50_optimality_fun",
    "C50_rate",
    "C50_regret",
    "C50_error",
    "C50_run",
    "C50_euclidean",
    "C50_stopping",
    "C50_stopping_refuted",
    "C50_kl",
    "C50_schedule"
   ],
   "note": "C50_stopping_refuted: with stepsize 100 the run stops although the documented residual is 1."
  },
  {
   "property": "C51",
   "status": "proved",
   "theorems": [
    "C51_semi_dual",
    "C51_semi_dual_shift",
    "C51_dual",
    "C51_dual_shift",
    "C51_transport",
    "C51_shapes",
    "C51_shapes_error",
    "C51_masses",
    "C51_birkhoff",
    "C51_birkhoff_nonsquare_refuted",
    "C51_documented_marginals_refuted",
    "C51_zero_marginal_refuted",
    "C51_positive_marginals"
   ],
   "note": "The inner solver (LBFGS) is a parameter; C51_transport assumes it returns a minimiser, C51_semi_dual and C51_dual bound what an inexact one gives. Dual minimisers exist for positive marginals of equal mass (C81_transport)."
  },
  {
   "property": "C52",
   "status": "proved",
   "theorems": [
    "C52_rho",
    "C52_huber",
    "C52_cost",
    "C52_documented_cost_refuted",
    "C52_stationary",
    "C52_derivative",
    "C52_huber_stationary_refuted",
    "C52_bounded"
   ],
   "note": "Huber is wrong for scaled residuals below -1; the cost uses the mean where the documentation says sum."
  },
  {
   "property": "C53",
   "status": "proved",
   "theorems": [
    "C53_minimize",
    "C53_minimize_default",
    "C53_minimize_reuse_refuted",
    "C53_least_squares",
    "C53_x_scale",
    "C53_least_squares_shared_refuted",
    "C53_has_aux_refuted"
   ],
   "note": "Store model of option dictionaries; has_aux of ScipyMinimize itself is covered by C04 (make_funs_without_aux)."
  },
  {
   "property": "C54",
   "status": "proved",
   "theorems": [
    "C54_init_stepsize",
    "C54_positive",
    "C54_setup",
    "C54_backtracking_bound",
    "C54_initial_guess_exceeds_max_refuted"
   ],
   "note": "The initial guess of 'increase' may exceed max_stepsize (refuted theorem); the searches that receive max_stepsize cap the step."
  },
  {
   "property": "C55",
   "status": "proved",
   "theorems": [
    "C55_has_aux_refuted",
    "C55_no_aux"
   ],
   "note": "has_aux=True raises TypeError in init_state; has_aux=False unaffected."
  },
  {
   "property": "C56",
   "status": "proved",
   "theorems": [
    "C56_simplex",
    "C56_simplex_jacobian",
    "C56_sparse_simplex",
    "C56_isotonic",
    "C56_isotonic_blocks",
    "C56_isotonic_exact_refuted",
    "C56_isotonic_tolerance_refuted"
   ],
   "note": "The exactness of the isotonic rule and its validity for close blocks are refuted; isotonic bounds (y_min, y_max) are clipped outside the rule and not differentiated here."
  },
  {
   "property": "C57",
   "status": "proved",
   "theorems": [
    "C57_dense",
    "C57_dense_domain",
    "C57_dense_normal",
    "C57_functional",
    "C57_functional_dense",
    "C57_diag",
    "C57_system",
    "C57_jacobi",
    "C57_jacobi_options",
    "C57_jacobi_pytree_refuted",
    "C57_lu",
    "C57_inner_exact",
    "C57_atol",
    "C57_options",
    "C57_lu_matvec_refuted",
    "C57_transform_matvec",
    "C57_box_derivatives",
    "C57_box_zero_iff",
    "C57_box_zero_solves",
    "C57_box_solution_zero",
    "C57_fun_refuted"
   ],
   "note": "Jacobi preconditioning on pytrees, refusal of 'lu' with matvec_Q and the optimality function in fun mode are refuted. The optimality function and the indirect solver are modelled with one leaf; CG and LU are assumed exact."
  },
  {
   "property": "C58",
   "status": "proved",
   "theorems": [
    "C58_select",
    "C58_select_initial",
    "C58_select_vnone",
    "C58_select_container",
    "C58_aux",
    "C58_eval_point",
    "C58_aux_zero",
    "C58_vg_init",
    "C58_vg_container",
    "C58_vg_array",
    "C58_vg_scalar",
    "C58_vg_refuted",
    "C58_projected",
    "C58_projected_solve_refuted"
   ],
   "note": "value_and_grad=True with has_aux=True and implicit_diff_solve of ProjectedGradient violate the documented behaviour (refuted theorems)"
  },
  {
   "property": "C59",
   "status": "proved",
   "theorems": [
    "C59_update",
    "C59_pre_update",
    "C59_loop_deterministic",
    "C59_run_iterator",
    "C59_iterator_errors",
    "C59_run",
    "C59_run_zero",
    "C59_dtypes",
    "C59_mixed_dtypes",
    "C59_optimality",
    "C59_sgd",
    "C59_error_refuted"
   ],
   "note": "exact equality with the textbook loop is for exact arithmetic; types are kept for any rounding"
  },
  {
   "property": "C60",
   "status": "proved",
   "theorems": [
    "C60_value",
    "C60_gradient",
    "C60_fixed_point",
    "C60_default_solve",
    "C60_run_value",
    "C60_run",
    "C60_unrolled",
    "C60_run_gradient",
    "C60_reference",
    "C60_keywords",
    "C60_keywords_refuted",
    "C60_insert",
    "C60_insert_refuted",
    "C60_wrapper",
    "C60_wrapper_refuted"
   ],
   "note": "Jacobians at the solution are given by matrices (jax.vjp); an argument is one vector, the concatenation of the leaves of a pytree. C60_keywords_refuted, C60_insert_refuted, C60_wrapper_refuted: the documented behaviour fails there."
  },
  {
   "property": "C61",
   "status": "proved",
   "theorems": [
    "C61_check",
    "C61_solution",
    "C61_status",
    "C61_inaccurate_refuted",
    "C61_flat",
    "C61_regular",
    "C61_regularity_needed",
    "C61_resolves",
    "C61_gradient",
    "C61_eqqp_gradient",
    "C61_eqqp",
    "C61_default_solve",
    "C61_omitted"
   ],
   "note": "CVXPY itself is a parameter: its answers are assumed to satisfy its contract (KKT point when optimal). Gradients are stated along continuous curves of zeros of the optimality conditions through the solution."
  },
  {
   "property": "C62",
   "status": "proved",
   "theorems": [
    "C62_calls",
    "C62_flat",
    "C62_result",
    "C62_value",
    "C62_bounds",
    "C62_gradient",
    "C62_jacobian",
    "C62_root_result",
    "C62_ls_result",
    "C62_ls_duplicate",
    "C62_ls_default_method_refuted",
    "C62_lbfgs_tree",
    "C62_lbfgs_tree_refuted",
    "C62_bounds_dtype_refuted"
   ],
   "note": "SciPy itself is an arbitrary terminating process; dtypes are roundings; extra arguments are fixed and part of the user function."
  },
  {
   "property": "C63",
   "status": "proved",
   "theorems": [
    "C63_operations",
    "C63_gradient",
    "C63_backtracking",
    "C63_zoom",
    "C63_hager_zhang",
    "C63_searches",
    "C63_armijo",
    "C63_lbfgs",
    "C63_ncg",
    "C63_gradient_descent_refuted"
   ],
   "note": "complex runs equal the real runs of the same code; GradientDescent on complex variables refuted"
  },
  {
   "property": "C64",
   "status": "proved",
   "theorems": [
    "C64_eigenvalues",
    "C64_linear",
    "C64_zoom",
    "C64_zoom_consistent",
    "C64_backtracking_wolfe",
    "C64_run",
    "C64_converges",
    "C64_fixed_step"
   ],
   "note": "real arithmetic; zoom steps accepted only by the approximate decrease test are outside C64_linear (C64_zoom states the alternative)"
  },
  {
   "property": "C65",
   "status": "proved",
   "theorems": [
    "C65_linear",
    "C65_wolfe_sufficient",
    "C65_armijo_sufficient",
    "C65_eigenvalues",
    "C65_run",
    "C65_converges"
   ],
   "note": "real arithmetic; C65_run takes linesearch_init=max; steps of the zoom search accepted only by its approximate decrease test are outside C65_linear"
  },
  {
   "property": "C66",
   "status": "proved",
   "theorems": [
    "C66_zoutendijk",
    "C66_backtracking",
    "C66_fr_descent",
    "C66_fr_bound",
    "C66_fr_run",
    "C66_fr_converges",
    "C66_zoom",
    "C66_descent_refuted",
    "C66_curvature_refuted"
   ],
   "note": "Al-Baali descent and convergence of Fletcher-Reeves under strong Wolfe steps (c2 < 1/2) on Lipschitz gradients; Zoutendijk sum for every method; with the defaults (polak-ribiere, c2 = 0.9) an accepted step can be followed by an uphill direction."
  },
  {
   "property": "C67",
   "status": "proved",
   "theorems": [
    "C67_construct",
    "C67_history",
    "C67_reconfigure",
    "C67_bfgs_fresh",
    "C67_runnable",
    "C67_maxls_refuted",
    "C67_max_stepsize_refuted",
    "C67_set_stepsize_refuted",
    "C67_set_tol_refuted"
   ],
   "note": "Histories that change the jit attribute itself are excluded. The four *_refuted theorems show attributes whose reassignment is ignored (maxls, linesearch, update options after a jitted run, tol in a jitted unrolled loop) or half applied (max_stepsize)."
  },
  {
   "property": "C68",
   "status": "proved",
   "theorems": [
    "C68_gradient",
    "C68_gradient_convex",
    "C68_prox",
    "C68_fixed_point",
    "C68_pg_run",
    "C68_pg_distance",
    "C68_pg_line_search",
    "C68_cdqp_run",
    "C68_bcd_run",
    "C68_bcd_lower_bound_refuted"
   ],
   "note": "Distance and suboptimality bounds by l2_optimality_error for gradient, proximal and fixed point solvers; reported error bounds l2_optimality_error at the result for prox gradient (fixed short steps; per update with line search), BoxCDQP (positive diagonal) and block coordinate descent (Lipschitz blocks). The comment of block_cd.py:144 (reported error is a lower bound) is refuted."
  },
  {
   "property": "C69",
   "status": "proved",
   "theorems": [
    "C69_cdqp_rate",
    "C69_cdqp_distance",
    "C69_cdqp_run",
    "C69_cdqp_converges",
    "C69_bcd_rate",
    "C69_bcd_distance",
    "C69_bcd_run",
    "C69_injective",
    "C69_least_squares_lasso"
   ],
   "note": "Geometric decrease of suboptimality, distance and reported error, and iteration bounds for run, for BoxCDQP and block coordinate descent on strongly convex problems; least squares with full column rank is an instance."
  },
  {
   "property": "C70",
   "status": "proved",
   "theorems": [
    "C70_accuracy",
    "C70_near",
    "C70_default_solver",
    "C70_strongly_convex",
    "C70_fixed_point_run"
   ],
   "note": "Bounds are explicit and attained in C70_example."
  },
  {
   "property": "C71",
   "status": "proved",
   "theorems": [
    "C71_primal",
    "C71_chain",
    "C71_run",
    "C71_adjoint",
    "C71_rate",
    "C71_gradient_descent",
    "C71_warm_start_refuted",
    "C71_at_tolerance_refuted"
   ],
   "note": "The two refuted theorems delimit the property: warm starts, and errors equal to the tolerance."
  },
  {
   "property": "C72",
   "status": "proved",
   "theorems": [
    "C72_step",
    "C72_quadratic",
    "C72_linear",
    "C72_unique",
    "C72_run",
    "C72_large_residual_refuted"
   ],
   "note": "Exact CG. C72_large_residual_refuted: a strongly convex sum of squares whose minimiser repels the iterates."
  },
  {
   "property": "C73",
   "status": "proved",
   "theorems": [
    "C73_run",
    "C73_terminates",
    "C73_smooth",
    "C73_cap_refuted"
   ],
   "note": "Exact linear solvers, no geodesic acceleration. C73_cap_refuted: the damping cap 2^32 stops all progress on a badly scaled problem."
  },
  {
   "property": "C74",
   "status": "proved",
   "theorems": [
    "C74_step",
    "C74_closer",
    "C74_total_loss",
    "C74_linear",
    "C74_default_refuted"
   ],
   "note": "Exact real arithmetic; the slack eps of the line search is kept as a parameter. Goldstein resets and momentum are outside these theorems."
  },
  {
   "property": "C75",
   "status": "proved",
   "theorems": [
    "C75_succeeds",
    "C75_enough_iterations",
    "C75_strongly_convex",
    "C75_nonconvex_refuted"
   ],
   "note": "C75_nonconvex_refuted: on a polynomial with acceptable steps the approximate sufficient-decrease test leads the search into a bracket without acceptable points; failed for every maxiter (c1 = 0.3, c2 = 0.35, bisection)."
  },
  {
   "property": "C76",
   "status": "proved",
   "theorems": [
    "C76_lbfgs",
    "C76_bfgs",
    "C76_lbfgs_converges",
    "C76_bfgs_converges",
    "C76_increase_refuted"
   ],
   "note": "Exact arithmetic; zoom search with tol = 0 (the default). The quadratic restriction is necessary: C76_increase_refuted."
  },
  {
   "property": "C77",
   "status": "proved",
   "theorems": [
    "C77_step",
    "C77_rate",
    "C77_run",
    "C77_wrapper",
    "C77_nonaffine_refuted"
   ],
   "note": "Exact arithmetic; linear solves exact on nonsingular systems (as in C29). Affinity is necessary: C77_nonaffine_refuted."
  },
  {
   "property": "C78",
   "status": "proved",
   "theorems": [
    "C78_weak_duality",
    "C78_strong_duality",
    "C78_gap_zero",
    "C78_certificate",
    "C78_residual",
    "C78_block_cd"
   ],
   "note": "A dual solution always exists (C81_svm_dual). Exact real arithmetic."
  },
  {
   "property": "C79",
   "status": "proved",
   "theorems": [
    "C79_local",
    "C79_run",
    "C79_default_history",
    "C79_residual_sum",
    "C79_superlinear"
   ],
   "note": "Valid while the number of updates is at most history_size + 1 (no row overwritten; always so with the default history size) and the steps are 1; real arithmetic, one leaf."
  },
  {
   "property": "C80",
   "status": "proved",
   "theorems": [
    "C80_cdqp_rate",
    "C80_cdqp_converges",
    "C80_bcd_rate",
    "C80_bcd_converges",
    "C80_bcd_run",
    "C80_lasso",
    "C80_svm"
   ],
   "note": "Positive diagonal (resp. column constants) and, for the SVM dual, l2reg >= 1 and no zero sample, as the code needs (C31, C32 refuted theorems); real arithmetic."
  },
  {
   "property": "C81",
   "status": "proved",
   "theorems": [
    "C81_attained",
    "C81_box_qp",
    "C81_cdqp",
    "C81_strongly_convex",
    "C81_composite",
    "C81_svm_dual",
    "C81_svm",
    "C81_lasso",
    "C81_transport",
    "C81_birkhoff",
    "C81_zero_row_refuted"
   ],
   "note": "Exact arithmetic. C81_zero_row_refuted: with a zero entry in the first marginal neither entropic dual has a minimiser, although the polytope is not empty; nothing in the code checks this. The SVM rate needs l2reg >= 1 and no zero sample, as in C80."
  },
  {
   "property": "C82",
   "status": "proved",
   "theorems": [
    "C82_search",
    "C82_initial_step_ignored",
    "C82_lbfgs",
    "C82_bfgs",
    "C82_lbfgs_converges",
    "C82_spurious_failure_refuted",
    "C82_lbfgsb_leaves_box_refuted"
   ],
   "note": "Exact arithmetic; tol = 0 for the search. The unbounded bracketing loop is fuelled: J rounds with expansion^J >= 1/(mu lo) suffice. Two refuted expectations: spurious failure at the exact minimiser, and L-BFGS-B leaving the box."
  },
  {
   "property": "C83",
   "status": "proved",
   "theorems": [
    "C83_eqqp",
    "C83_eqqp_distance",
    "C83_box_solved",
    "C83_osqp_value",
    "C83_osqp_zero",
    "C83_osqp_solved",
    "C83_osqp_infeasible_refuted"
   ],
   "note": "Model QpError.v. C83_osqp_infeasible_refuted: OSQP.l2_optimality_error is 0 at infeasible points with zero multipliers, although documented as the norm of the KKT residuals."
  },
  {
   "property": "C84",
   "status": "proved",
   "theorems": [
    "C84_runs_exist",
    "C84_hessian",
    "C84_direction",
    "C84_linear",
    "C84_backtracking",
    "C84_zoom",
    "C84_converges",
    "C84_unbounded"
   ],
   "note": "Exact reals, exact linear solves. With finite bounds, clear_point asks that no gradient entry or breakpoint lies within eps of zero and that breakpoints differ (C48 refutes the claims without it), at the iterates before the run stops; without bounds nothing is asked of the iterates."
  },
  {
   "property": "C85",
   "status": "proved",
   "theorems": [
    "C85_linesearch",
    "C85_strategy",
    "C85_quasi_newton_accepted",
    "C85_ncg",
    "C85_condition",
    "C85_variant",
    "C85_reset",
    "C85_broyden",
    "C85_linear_solvers",
    "C85_lm_stop",
    "C85_lm_run",
    "C85_lm_stop_refuted",
    "C85_auto",
    "C85_auto_refuted",
    "C85_osqp_default_refuted"
   ],
   "note": "Refuted for the unchanged code: LevenbergMarquardt refuses the documented stop_criterion 'grad-l2' and without jit accepts any name for maxiter=1; any non-empty string other than 'auto' counts as True for unroll and check_primal_dual_infeasability; OSQP's documented default check_primal_dual_infeasability=True is not the default. Names that an option makes unused (Broyden or BFGS with a fixed step) are not compared; strings are byte strings."
  },
  {
   "property": "C86",
   "status": "proved",
   "theorems": [
    "C86_backtracking",
    "C86_complete",
    "C86_zoom",
    "C86_solvers_backtracking",
    "C86_solvers_zoom",
    "C86_same_steps",
    "C86_grad_count_refuted",
    "C86_value_and_grad_refuted",
    "C86_fixed_point",
    "C86_hager_zhang",
    "C86_hager_zhang_cost"
   ],
   "note": "Counters against a log of calls. The zoom search, and value_and_grad=True with value-only conditions, miscount gradients: C86_grad_count_refuted, C86_value_and_grad_refuted. The Hager-Zhang search is treated on its own, not inside the solvers. Its calls are recorded beside its counter by hand from the source, with no theorem that the record is complete, and its two theorems were not tested with mutants. Not covered: the counters of Broyden, block CD, the stochastic solvers, and num_linesearch_iter; jit may remove calls whose result is unused."
  }
 ]
}
