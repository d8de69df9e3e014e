{"id": "C01", "title": "The three loop back-ends compute the same value", "statement": "For a deterministic condition and body, running the bounded while loop through the scan (jit+unroll), Python (no jit) or lax.while_loop (jit, no unroll) back-end gives the same final value, namely the value after k body applications where k is the smaller of maxiter and the number of applications before the condition first fails. unroll=False with jit=False is rejected.", "quantifier": "all value types, condition functions, body functions, initial values, and iteration bounds", "why_tests_cant": "back-end equivalence must hold for every condition/body pair and every bound, and the scan back-end executes no-op steps that a test only samples", "anchors": ["jaxopt/_src/loop.py:_while_loop_scan", "jaxopt/_src/loop.py:_while_loop_python", "jaxopt/_src/loop.py:_while_loop_lax", "jaxopt/_src/loop.py:while_loop"]}
{"id": "C02", "title": "run() performs between 1 and maxiter updates and stops at the first iterate whose stopping condition holds", "statement": "Solver.run with maxiter >= 1 returns update applied k times to (init_params, init_state(init_params)) with 1 <= k <= maxiter, where every returned-to intermediate iterate after the first update still violated the stopping criterion and, if k < maxiter, the returned state satisfies error <= tol. With maxiter = 0 the initial parameters and initial state are returned (leaf-wise, None leaves of the initial state being filled from the first update). The 'auto' unroll option chooses unrolling exactly when implicit differentiation or jit is disabled, hence never produces the rejected unroll=False/jit=False combination.", "quantifier": "all solvers (init_state, update, stopping criterion), all initial points, maxiter, tol, jit/unroll/implicit_diff flags", "why_tests_cant": "quantifies over every solver and every iteration history", "anchors": ["jaxopt/_src/base.py:IterativeSolver._run", "jaxopt/_src/base.py:IterativeSolver._cond_fun", "jaxopt/_src/base.py:IterativeSolver._get_unroll_option", "jaxopt/_src/base.py:_where"]}
{"id": "C03", "title": "run_iterator consumes one batch for initialisation and then at most maxiter batches, one per update, in order", "statement": "run_iterator on a stream of batches calls init_state with the first batch and then applies update to batches 2..min(maxiter, available)+1 in order, never skipping, repeating or re-ordering one, ignoring the tolerance; it leaves the iterator just after the last batch used; it fails only when the iterator is empty.", "quantifier": "all stochastic solvers, all (finite or infinite) batch streams, all maxiter", "why_tests_cant": "every stream length and every history of updates", "anchors": ["jaxopt/_src/base.py:StochasticSolver.run_iterator"]}
{"id": "C04", "title": "fun/grad/value_and_grad normalisation is consistent", "statement": "For every way of supplying an objective (plain value function, value_and_grad=True, separate value_and_grad callable; with or without aux), the three callables that solvers use agree: fun returns (value, aux), grad returns (gradient, aux), value_and_grad returns ((value, aux), gradient), with the same value, gradient and aux, and aux=None when has_aux is False.", "quantifier": "all objectives, arguments, and the 3 x 2 calling conventions", "why_tests_cant": "a statement about all user callables", "anchors": ["jaxopt/_src/base.py:_make_funs_with_aux", "jaxopt/_src/base.py:_make_funs_without_aux"]}
{"id": "C05", "title": "Box-type projections return the unique nearest feasible point", "statement": "projection_non_negative, projection_box (lower <= upper), projection_hypercube and projection_linf_ball return a point of the set that is at most as far (Euclidean) from the input as any other point of the set, and it is the only such point; inputs already in the set are returned unchanged.", "quantifier": "all vectors of all lengths, all bounds/scales (scalar or vector)", "why_tests_cant": "optimality over a continuum of competitors in every dimension", "anchors": ["jaxopt/_src/projection.py:projection_non_negative", "jaxopt/_src/projection.py:projection_box", "jaxopt/_src/projection.py:projection_hypercube", "jaxopt/_src/projection.py:projection_linf_ball"]}
{"id": "C06", "title": "projection_simplex returns the unique nearest point of the scaled simplex", "statement": "For value > 0, projection_simplex(x, value) has non-negative coordinates summing to value and is the unique Euclidean-nearest such point; it is invariant under adding a constant to x and equivariant under permutations of x.", "quantifier": "all non-empty vectors, all positive radii", "why_tests_cant": "sort/threshold algorithm must be optimal for every input ordering, tie pattern and length", "anchors": ["jaxopt/_src/projection.py:_projection_unit_simplex", "jaxopt/_src/projection.py:projection_simplex"]}
{"id": "C07", "title": "projection_l1_ball and projection_l1_sphere return nearest points", "statement": "projection_l1_ball returns the unique Euclidean-nearest point of {||y||_1 <= r}. projection_l1_sphere returns a nearest point of {||y||_1 = r} whenever the input is outside the open ball or has no zero coordinate; in every other case (strictly inside, with a zero coordinate) the result is not on the sphere, contrary to the documentation.", "quantifier": "all vectors, all positive radii", "why_tests_cant": "optimality over a continuum; zero coordinates are a measure-zero corner", "anchors": ["jaxopt/_src/projection.py:projection_l1_sphere", "jaxopt/_src/projection.py:projection_l1_ball"]}
{"id": "C08", "title": "projection_l2_ball and projection_l2_sphere return nearest points", "statement": "projection_l2_ball returns the unique Euclidean-nearest point of {||y||_2 <= r}; projection_l2_sphere returns a nearest point of {||y||_2 = r} for nonzero input.", "quantifier": "all vectors, all non-negative radii", "why_tests_cant": "optimality over a continuum", "anchors": ["jaxopt/_src/projection.py:projection_l2_sphere", "jaxopt/_src/projection.py:projection_l2_ball"]}
{"id": "C09", "title": "Hyperplane, half-space, affine-set and polyhedron projections return the nearest point", "statement": "For nonzero a, projection_hyperplane(x,(a,b)) and projection_halfspace(x,(a,b)) return the unique nearest point of {y: <a,y>=b} and {y: <a,y><=b}; projection_affine_set(x,(A,b)) with an exact linear solve returns the unique nearest point of {y: Ay=b}; when the OSQP run inside projection_polyhedron ends SOLVED, its value violates no constraint by more than the tolerance 1e-3 and its squared distance to the nearest point is at most 1e-3 times the 1-norms of the multipliers and of the difference. Refuted clause: check_feasible=True does not raise only for empty polyhedra: projecting the origin onto any polyhedron containing it raises.", "quantifier": "all vectors, nonzero normals, offsets", "why_tests_cant": "optimality over a continuum", "anchors": ["jaxopt/_src/projection.py:projection_hyperplane", "jaxopt/_src/projection.py:projection_halfspace", "jaxopt/_src/projection.py:projection_affine_set"]}
{"id": "C10", "title": "projection_box_section is the nearest feasible point up to the bisection tolerance", "statement": "For positive weights w and a box section {alpha<=y<=beta, <w,y>=c} with <w,alpha> < c <= <w,beta>, projection_box_section returns exactly one point; it lies in the box and its distance to the unique nearest feasible point is bounded by the bisection tolerance; an exact root gives that point; with check_feasible an infeasible section raises ValueError. On the feasible face <w,alpha> = c the result can be far from feasible, even with check_feasible.", "quantifier": "all dimensions, points, positive weights, boxes, and offsets", "why_tests_cant": "the multiplier search must bracket the root for every input", "anchors": ["jaxopt/_src/projection.py:projection_box_section", "jaxopt/_src/projection.py:_root", "jaxopt/_src/projection.py:_optimality_fun"]}
{"id": "C11", "title": "projection_sparse_simplex returns a nearest point of the simplex with bounded support", "statement": "projection_sparse_simplex(x, k, value) has at most k nonzero coordinates, is on the scaled simplex, and no point of the simplex with at most k nonzeros is closer to x.", "quantifier": "all vectors, all 1 <= k <= n, all positive radii", "why_tests_cant": "combinatorially many supports", "anchors": ["jaxopt/_src/projection.py:_projection_unit_sparse_simplex", "jaxopt/_src/projection.py:projection_sparse_simplex"]}
{"id": "C12", "title": "Projections are idempotent and non-expansive", "statement": "Every convex-set projection above satisfies P(P(x)) = P(x) and ||P(x)-P(y)|| <= ||x-y||.", "quantifier": "all pairs of inputs", "why_tests_cant": "two-input universally quantified inequality", "anchors": ["jaxopt/_src/projection.py"]}
{"id": "C13", "title": "Proximal operators return the unique minimiser of the documented objective", "statement": "prox_none, prox_lasso, prox_non_negative_lasso, prox_elastic_net and prox_group_lasso return the unique minimiser y of 0.5||x-y||^2 + scaling*penalty(y), for every non-negative regularisation and scaling.", "quantifier": "all vectors, hyperparameters, scalings; all competitor points", "why_tests_cant": "optimality over a continuum; non-smooth corner cases", "anchors": ["jaxopt/_src/prox.py:prox_none", "jaxopt/_src/prox.py:prox_lasso", "jaxopt/_src/prox.py:prox_non_negative_lasso", "jaxopt/_src/prox.py:prox_elastic_net", "jaxopt/_src/prox.py:prox_group_lasso"]}
{"id": "C14", "title": "prox_ridge / prox_non_negative_ridge return the minimiser of the documented objective", "statement": "prox_ridge and prox_non_negative_ridge return the unique minimiser of 0.5||x-y||^2 + scaling*(l2reg/2)*||y||^2 (over y >= 0 for the second); the objective in their docstrings, without the factor 1/2, is not what they minimise.", "quantifier": "all vectors, hyperparameters, scalings", "why_tests_cant": "optimality over a continuum", "anchors": ["jaxopt/_src/prox.py:prox_ridge", "jaxopt/_src/prox.py:prox_non_negative_ridge"]}
{"id": "C15", "title": "Isotonic regression returns the optimal monotone fit", "statement": "isotonic_l2_pav on floating-point input (any direction, any bounds y_min <= y_max) terminates and returns the unique minimiser of ||v-y||^2 over monotone sequences within the bounds; on integer input the means are truncated and the result need not be optimal.", "quantifier": "all lengths, values, directions, bounds", "why_tests_cant": "exponentially many pooling patterns", "anchors": ["jaxopt/_src/isotonic.py:_isotonic_l2_pav_numba", "jaxopt/_src/isotonic.py:isotonic_l2_pav"]}
{"id": "C16", "title": "Bisection maintains a root bracket and halves it", "statement": "With a valid bracket (values of strictly opposite sign, or a root at the upper end), after every update the bracket invariant holds, the bracket width is exactly (upper-lower)/2^k after k updates, params is the midpoint and error is |f(params)|; for continuous f the bracket contains a root; with check_bracket an invalid bracket, and only an invalid one, raises ValueError. A bracket whose lower end is exactly a root is rejected although it contains a root.", "quantifier": "all functions, brackets, iteration counts", "why_tests_cant": "holds for every function and every number of steps", "anchors": ["jaxopt/_src/bisection.py:Bisection.init_state", "jaxopt/_src/bisection.py:Bisection.update"]}
{"id": "C17", "title": "Losses are non-negative/convex and have the documented derivatives and conjugate structure", "statement": "huber, binary/multiclass logistic, hinge, perceptron, sparsemax losses: non-negativity, convexity in the logit, value at perfect/zero margin; sparse_plus has derivative sparse_sigmoid; sparse_plus lies between relu and its smooth bound.", "quantifier": "all real logits, labels, vectors", "why_tests_cant": "pointwise inequalities over the reals", "anchors": ["jaxopt/_src/loss.py"]}
{"id": "C18", "title": "Fenchel-Young losses are non-negative and vanish exactly at the prediction", "statement": "make_fenchel_young_loss(max_fun) gives max_fun(s) - <s,y>; for max_fun(s) = sup over a set of <s,y> - Omega(y), the loss plus Omega(y) is >= 0, is convex in scores, and is 0 iff y attains the sup; the multiclass sparsemax loss is such a loss.", "quantifier": "all score vectors, all targets", "why_tests_cant": "continuum", "anchors": ["jaxopt/_src/loss.py:make_fenchel_young_loss", "jaxopt/_src/loss.py:multiclass_sparsemax_loss"]}
{"id": "C19", "title": "Backtracking line search returns only acceptable steps, or says it failed", "statement": "A run never returns done with a step violating the chosen condition by more than tol; done and failed are never both set; the step tried at iteration k is min(max_stepsize, s0)*decrease_factor^k, always in (0, max_stepsize]; after maxiter iterations exactly one of done/failed holds; returned params/value/grad are those of the returned stepsize; for a smooth function and descent direction it succeeds once the step is below the Lipschitz threshold.", "quantifier": "all objectives, directions, parameters, iteration histories", "why_tests_cant": "every history of accept/reject decisions", "anchors": ["jaxopt/_src/backtracking_linesearch.py:BacktrackingLineSearch.init_state", "jaxopt/_src/backtracking_linesearch.py:BacktrackingLineSearch.update"]}
{"id": "C20", "title": "Zoom line search returns a step satisfying the strong Wolfe conditions, or reports failure with a safe step", "statement": "When the zoom line search finishes done, the returned step satisfies sufficient decrease, and strong curvature within tol unless the step is max_stepsize; steps never exceed max_stepsize; on failure the returned step is the best safe step recorded (one satisfying decrease); done/failed bookkeeping is consistent; the zoom bracket is nested and contracts. 'Done implies the curvature condition' is false at max_stepsize.", "quantifier": "all objectives and histories", "why_tests_cant": "every history of zoom/interval decisions", "anchors": ["jaxopt/_src/zoom_linesearch.py:ZoomLineSearch"]}
{"id": "C21", "title": "Hager-Zhang line search: returned done step satisfies the (approximate) Wolfe conditions", "statement": "Hager-Zhang accepts a step only if it satisfies Wolfe or approximate-Wolfe within tol; the bracket [low, high] is kept ordered, nested, contracts, and contains an acceptable step; the search terminates. It is not true in general that the returned step is the accepted one, that failed is unset when done, that a failure stays recorded, or that the ends keep opposite slopes.", "quantifier": "all objectives and histories", "why_tests_cant": "every history", "anchors": ["jaxopt/_src/hager_zhang_linesearch.py:HagerZhangLineSearch"]}
{"id": "C22", "title": "FISTA backtracking accepts only steps with the quadratic upper bound", "statement": "The step returned by the proximal-gradient line search satisfies f(z) <= f(x)+<z-x,g>+||z-x||^2/(2s) + eps-type slack, or maxls halvings were performed; the step is s0*decrease_factor^k.", "quantifier": "all objectives, points, prox operators", "why_tests_cant": "every function", "anchors": ["jaxopt/_src/proximal_gradient.py:fista_line_search"]}
{"id": "C23", "title": "Proximal gradient fixed points are exactly the optimality points; descent and convergence rates", "statement": "For convex L-smooth f and step <= 1/L: each non-accelerated ProximalGradient step does not increase f+g, and after k steps the gap is at most ||x0-x*||^2/(2 s k); with acceleration the gap is at most 2||x0-x*||^2/(s (k+1)^2); with the line search (no acceleration) the best of k iterates is within an O(1/k) bound; without acceleration or line search, error = 0 iff the iterate is a fixed point of prox(x - s grad), iff it is a minimiser. With acceleration (the default) error = 0 does not imply a fixed point, and with a line search the reported error uses the enlarged next step, not the step taken.", "quantifier": "all convex smooth f, all proximable g, all dimensions, all iteration counts", "why_tests_cant": "asymptotic statement over all functions", "anchors": ["jaxopt/_src/proximal_gradient.py:ProximalGradient", "jaxopt/_src/gradient_descent.py:GradientDescent", "jaxopt/_src/projected_gradient.py:ProjectedGradient"]}
{"id": "C24", "title": "Polyak SGD step sizes are within bounds and contract the distance to any interpolating solution", "statement": "Polyak SGD steps are in [0,max_stepsize] when value >= fun_min; for convex f with the lower bound attained at w*, one step without momentum does not increase the distance to w*, with an O(1/k) rate; with the default delta = 0, an update at an exact minimiser computes 0/0 and returns NaN parameters.", "quantifier": "all convex objectives, histories", "why_tests_cant": "all functions", "anchors": ["jaxopt/_src/polyak_sgd.py:PolyakSGD.update"]}
{"id": "C25", "title": "Armijo SGD accepts only steps satisfying the sufficient decrease condition", "statement": "armijo_line_search returns a step satisfying its condition or one obtained after maxls tries; reset options keep the initial guess within (0,max_stepsize] (and the conservative option never increases it); the documented lower bound min(1/L, max_stepsize) on the step holds when 2*aggressiveness*decrease_factor >= 1 and fails otherwise; state.value is not the loss at the returned parameters when momentum is used.", "quantifier": "all objectives and histories", "why_tests_cant": "all functions", "anchors": ["jaxopt/_src/armijo_sgd.py:armijo_line_search", "jaxopt/_src/armijo_sgd.py:ArmijoSGD.reset_stepsize"]}
{"id": "C26", "title": "BFGS keeps a symmetric inverse-Hessian approximation satisfying the secant equation; positive definite under positive curvature", "statement": "After every update with finite rho, H' is symmetric, H' y = s, and H' is positive definite when H is and <s,y> > 0; then the next direction is a descent direction.", "quantifier": "all dimensions, gradients, histories", "why_tests_cant": "invariant over all histories", "anchors": ["jaxopt/_src/bfgs.py:BFGS.update"]}
{"id": "C27", "title": "L-BFGS two-loop recursion equals the explicit BFGS matrix built from exactly the last m pairs", "statement": "inv_hessian_product computes H_k q where H_k is obtained from gamma*I by the BFGS updates of the stored pairs, oldest first; the circular buffer contains exactly the last min(k,m) accepted pairs in order; unused slots contribute nothing; H_k is symmetric and positive definite whenever the stored curvatures are positive.", "quantifier": "all histories, history sizes, dimensions, wrap-around positions", "why_tests_cant": "all histories and wrap-arounds", "anchors": ["jaxopt/_src/lbfgs.py:inv_hessian_product", "jaxopt/_src/lbfgs.py:LBFGS.update", "jaxopt/_src/lbfgs.py:update_history"]}
{"id": "C28", "title": "Broyden's limited-memory inverse Jacobian satisfies the secant equation and holds the last m updates", "statement": "After an update with non-zero denominator, applying the stored inverse-Jacobian to the change in residual gives the change in parameters, while the buffer has not wrapped; product and transposed product are adjoint.", "quantifier": "all histories, sizes", "why_tests_cant": "all histories", "anchors": ["jaxopt/_src/broyden.py:inv_jacobian_product", "jaxopt/_src/broyden.py:Broyden.update"]}
{"id": "C29", "title": "Anderson acceleration keeps the true Gram matrix of its stored residuals and mixes with weights summing to one", "statement": "After any number of updates the stored Gram matrix equals the inner products of the stored residuals; the history contains exactly the last m iterates; the computed mixing weights sum to 1 and satisfy the normal equations of min ||sum a_i r_i||; for history error field equals the latest residual norm.", "quantifier": "all maps, histories, sizes", "why_tests_cant": "all histories and wrap-arounds", "anchors": ["jaxopt/_src/anderson.py:update_history", "jaxopt/_src/anderson.py:minimize_residuals", "jaxopt/_src/anderson.py:anderson_step", "jaxopt/_src/anderson.py:AndersonAcceleration.update"]}
{"id": "C30", "title": "BoxCDQP keeps iterates feasible, never increases the objective, and stops only at minimisers", "statement": "For symmetric Q with non-negative diagonal and l<=u: after an epoch every coordinate is in the box; the objective 0.5 x'Qx+c'x does not increase; if an epoch moves nothing (error 0) the point is coordinate-wise optimal and, for PSD Q, globally optimal.", "quantifier": "all dimensions, matrices, boxes, starting points", "why_tests_cant": "all problems", "anchors": ["jaxopt/_src/cd_qp.py:fori_loop_body_fun", "jaxopt/_src/cd_qp.py:BoxCDQP.update"]}
{"id": "C31", "title": "BlockCoordinateDescent keeps its cached predictions and gradients exact and never increases the objective", "statement": "After any number of epochs state.predictions = A x and state.subfun_g = grad subfun(A x) for the returned x; with the advertised coordinate-wise Lipschitz constants the composite objective never increases; error 0 implies fixed point.", "quantifier": "all composite objectives, proxes, histories", "why_tests_cant": "invariant over all histories", "anchors": ["jaxopt/_src/block_cd.py:BlockCoordinateDescent.update", "jaxopt/_src/base.py:LinearOperator.update_matvec", "jaxopt/_src/objective.py"]}
{"id": "C32", "title": "The advertised column-wise Lipschitz constants are valid", "statement": "columnwise_lipschitz_const of LeastSquares, BinaryLogreg and MulticlassLinearSvmDual bounds the curvature of the objective along each coordinate block.", "quantifier": "all data matrices, points", "why_tests_cant": "all inputs", "anchors": ["jaxopt/_src/objective.py:LeastSquares.columnwise_lipschitz_const", "jaxopt/_src/objective.py:BinaryLogreg.columnwise_lipschitz_const", "jaxopt/_src/objective.py:MulticlassLinearSvmDual.columnwise_lipschitz_const"]}
{"id": "C33", "title": "EqualityConstrainedQP solutions are exactly the KKT points", "statement": "For PSD Q, the residual of the optimality function is zero iff (x, y) solves the KKT system; then x minimises the objective over Ax=b; given an exact linear solver run() returns such a point.", "quantifier": "all problems", "why_tests_cant": "continuum of competitors", "anchors": ["jaxopt/_src/eq_qp.py:EqualityConstrainedQP", "jaxopt/_src/eq_qp.py:_make_eq_qp_optimality_fun"]}
{"id": "C34", "title": "make_kkt_optimality_fun is zero at KKT points", "statement": "The optimality function is zero at every KKT point; conversely a zero with primal and dual feasibility is a KKT point and, for convex problems, a global minimiser. Zero alone does not imply feasibility.", "quantifier": "all problems", "why_tests_cant": "continuum", "anchors": ["jaxopt/_src/implicit_diff.py:make_kkt_optimality_fun"]}
{"id": "C35", "title": "BoxOSQP: iterates, stopping test, optimality and convergence", "statement": "After every update l <= z <= u, the dual splits as mu - phi = y with mu,phi >= 0 and mu*phi=0, y is normal to the box at z, and rho is in [rho_min,rho_max] or NaN; a run that ends SOLVED returns primal and dual residuals at most tol and an objective within tol*(|x-w|_1+|y|_1) of every feasible w; zero residuals mean optimality; from a solution the run returns it after one iteration; with an exact inner solver and a solvable problem the iteration is Fejer-monotone and ends SOLVED once the budget is large enough and rho is left alone. Refuted clause: rho does become NaN (0/0 in the step-size rule), and then every later iterate is NaN.", "quantifier": "all problems, histories, parameters", "why_tests_cant": "all histories", "anchors": ["jaxopt/_src/osqp.py:BoxOSQP._admm_step", "jaxopt/_src/osqp.py:BoxOSQP.update", "jaxopt/_src/osqp.py:BoxOSQP._compute_error"]}
{"id": "C36", "title": "OSQP infeasibility verdicts are justified", "statement": "BoxOSQP/OSQP reports PRIMAL_INFEASIBLE (DUAL_INFEASIBLE) exactly when the last step dy (dx) passes the documented approximate-certificate test; jit=False raises ValueError in exactly those cases; an exact certificate does prove infeasibility (unboundedness). Refuted clause: feasible bounded problems are reported infeasible, because a zero step passes the test: with the checks on every problem warm-started at its solution is, and with jit=False the default options raise on min x^2/2 - x/10, -1<=x<=1.", "quantifier": "all problems and histories", "why_tests_cant": "all histories including warm starts at the solution", "anchors": ["jaxopt/_src/osqp.py:BoxOSQP._check_primal_infeasability", "jaxopt/_src/osqp.py:BoxOSQP._check_dual_infeasability"]}
{"id": "C37", "title": "OSQP <-> BoxOSQP conversion preserves problem and solution", "statement": "The box form built from (A,b), (G,h), either possibly absent, has exactly the feasible points and the KKT points of the original problem; converting back splits the dual variables at the right positions; parameters survive the round trip exactly when dual_ineq >= 0; matvec mode agrees; OSQP.run ending SOLVED returns a tol-KKT point of the original problem, returns a solution it is started from, and ends SOLVED on solvable problems given budget; in fun mode the extracted c and Qx are those of the quadratic. With no constraint at all it raises ValueError. Refuted clause: a present block with zero rows gets the whole dual vector back.", "quantifier": "all sizes incl. missing equality or inequality part", "why_tests_cant": "all shapes", "anchors": ["jaxopt/_src/osqp.py:OSQP_to_BoxOSQP"]}
{"id": "C38", "title": "Implicit differentiation: root_jvp and root_vjp are adjoint and equal the implicit function theorem derivative", "statement": "Given an exact linear solve, root_jvp returns the solution of d1F . Jv = -d2F . v and root_vjp returns the cotangent with <root_vjp(u), v> = <u, root_jvp(v)>.", "quantifier": "all linear maps, tangents, cotangents", "why_tests_cant": "all inputs", "anchors": ["jaxopt/_src/implicit_diff.py:root_vjp", "jaxopt/_src/implicit_diff.py:root_jvp"]}
{"id": "C39", "title": "Argument binding for implicit differentiation puts every gradient on the argument it belongs to", "statement": "_signature_bind_and_match re-orders arguments to the reference signature and map_back is its inverse on positional/keyword placement.", "quantifier": "all signatures and calls", "why_tests_cant": "all permutations of keyword arguments", "anchors": ["jaxopt/_src/implicit_diff.py:_signature_bind_and_match"]}
{"id": "C40", "title": "Pytree arithmetic acts leaf-wise and obeys the vector-space laws", "statement": "For pytrees of the same containers and leaf shapes, tree_add/sub/mul/scalar_mul/add_scalar_mul/negative/zeros_like/ones_like return a pytree of that kind whose concatenated leaves are the corresponding vector operation on the concatenated leaves, tree_vdot/sum/l2_norm/inf_norm are the corresponding reductions (so tree_vdot is a symmetric bilinear form and tree_l2_norm a norm), tree_average and tree_gram of stacked trees are the linear combination and the matrix of inner products, tree_where selects entry by entry and broadcast_pytrees replicates bare arrays over the common structure. Trees with different containers never produce a result. On trees without leaves the reductions raise (vdot_real gives 0), tree_mean averages leaf means (the mean of all entries only for leaves of equal size), and broadcasting against a leafless structure raises.", "quantifier": "all tree shapes", "why_tests_cant": "all trees", "anchors": ["jaxopt/_src/tree_util.py"]}
{"id": "C41", "title": "SciPy bridge round-trips pytrees and Jacobians", "statement": "Flattening a pytree of arrays with at least one leaf gives a vector of the total size, and rebuilding from it gives the pytree back; every vector of the total size is the flattening of exactly such a pytree and vectors of any other length raise ValueError; the assembled Jacobian applied to a flattened tangent is the flattening of the sums of its (output leaf i, input leaf j) blocks applied to the tangent leaves. A pytree without leaves raises ValueError.", "quantifier": "all pytree topologies", "why_tests_cant": "all shapes", "anchors": ["jaxopt/_src/scipy_wrappers.py:jnp_to_onp", "jaxopt/_src/scipy_wrappers.py:make_onp_to_jnp", "jaxopt/_src/scipy_wrappers.py:make_jac_jnp_to_onp"]}
{"id": "C42", "title": "Ridge-regularised linear solves solve the regularised system", "statement": "With ridge r, solve_* return x with A x + r x = b (resp. (A'A + r I)x = A'b for normal equations), given an exact inner solver.", "quantifier": "all matrices, right-hand sides, ridges", "why_tests_cant": "all inputs", "anchors": ["jaxopt/_src/linear_solve.py"]}
{"id": "C43", "title": "Iterative refinement error is the true residual and contracts when the inner solver does", "statement": "After each update target_residuals = b - A params and error is its norm; if the inner solver reduces every residual by a factor q<1 then the error after k updates is <= q^k ||b|| (started at zero).", "quantifier": "all systems, solvers, histories", "why_tests_cant": "all histories", "anchors": ["jaxopt/_src/iterative_refinement.py:IterativeRefinement.update"]}
{"id": "C44", "title": "Fixed-point iteration converges for contractions and its error is the fixed-point residual", "statement": "error = ||T(x_k)-x_k|| for the previous iterate; for a q-contraction run() stops within the log-bounded number of steps and the returned point is within q/(1-q)*error of the fixed point.", "quantifier": "all contractions", "why_tests_cant": "all maps", "anchors": ["jaxopt/_src/fixed_point_iteration.py:FixedPointIteration"]}
{"id": "C45", "title": "Levenberg-Marquardt: accepted steps decrease the objective, damping stays bounded, state belongs to params", "statement": "With exact inner solves and a non-stationary point, one update (without geodesic acceleration) moves along the solution of the damped normal equations and takes the step iff the objective strictly decreases, otherwise the parameters are unchanged; the damping factor stays positive and at most max(2 x previous, cap); state.value/residual/gradient/error belong to the returned params; run therefore returns a point whose cost is at most the initial one; the materialised, matrix-free and QR modes agree. With geodesic acceleration a step is taken iff |a| <= 0.75|v| and actual and predicted reductions have the same sign. Refuted for this code: the documented Madsen-Nielsen stop test is the one used; the state stays finite when started at a stationary point or when the trial cost overflows; geodesic acceleration never increases the cost; jac_fun without materialize_jac has an effect.", "quantifier": "all residual functions, histories", "why_tests_cant": "all histories", "anchors": ["jaxopt/_src/levenberg_marquardt.py:LevenbergMarquardt"]}
{"id": "C46", "title": "Gauss-Newton step solves the normal equations and stops at stationary points", "statement": "Given an exact inner solve the step satisfies J'J d = J'r; error 0 implies stationarity; affine residuals are solved in one step.", "quantifier": "all residual functions", "why_tests_cant": "all inputs", "anchors": ["jaxopt/_src/gauss_newton.py:GaussNewton"]}
{"id": "C47", "title": "Nonlinear CG directions and reported error", "statement": "beta is non-negative and given by the documented formula of the chosen method (unknown methods raise ValueError); the new direction is minus the gradient plus beta times the old one, a descent direction after an exact line search; on strictly convex quadratics with exact line search every method is linear conjugate gradient and terminates within n updates (up to the 1e-6 safeguard). The reported error is the gradient norm at the parameters before the update (not, as a user would expect, at the returned ones), and with linesearch='backtracking' the chosen method has no influence on the iterates.", "quantifier": "all objectives, line searches, histories and methods; for the quadratic clause all positive definite Q, all b and starting points, all dimensions", "why_tests_cant": "all histories", "anchors": ["jaxopt/_src/nonlinear_cg.py:NonlinearCG.update", "jaxopt/_src/nonlinear_cg.py:NonlinearCG.init_state"]}
{"id": "C48", "title": "L-BFGS-B: iterates stay in the box, directions descend, B is positive definite", "statement": "For a feasible x and any history of pairs with positive curvature, the compact matrix is invertible and B is symmetric positive definite; the generalised Cauchy point lies on the projected-gradient path inside the box and the quadratic model decreases strictly up to it (the first local minimiser along the path when breakpoints are distinct and no comparison with machine eps is borderline); the subspace minimiser stays in the box and is at least as good; the direction is zero iff x is stationary over the box and otherwise a descent direction. With a fixed step, or a line search returning steps in [0,1] (zoom with max_stepsize <= 1), every iterate of a run is in the box, the state holds the value, gradient and error of the iterate, and the history holds exactly the positive-curvature pairs. The error is zero iff x is stationary over the box, iff the optimality function is zero. A warm start resumes the run. Not true: secant equation after the history wraps around; feasibility when a gradient entry is nonzero but below eps; feasibility with line-search steps above 1.", "quantifier": "all problems, bounds (possibly infinite), dimensions, histories, history sizes, numbers of steps", "why_tests_cant": "all histories", "anchors": ["jaxopt/_src/lbfgsb.py:_find_cauchy_point", "jaxopt/_src/lbfgsb.py:_minimize_subspace", "jaxopt/_src/lbfgsb.py:LBFGSB.update"]}
{"id": "C49", "title": "Perturbed maximisers: convexity and consistency of value and gradient", "statement": "For fixed noise, the perturbed maximum is the average of the maxima of the perturbed linear forms and convex in its input; the perturbed argmax is a subgradient, monotone, and a convex combination of maximisers; the declared derivative of the perturbed maximum is the true one where no maximiser changes. The declared derivatives of perturbed argmax/functions are the score-function estimators, linear in the tangent; the control variate changes them by the average score times the unperturbed output and gives zero where no perturbation changes the output. Not true: make_perturbed_fun(control_variate=True) supports outputs of any shape (every non-scalar output raises), nor does the rule support outputs with an axis of length 1.", "quantifier": "all inputs, noises, sample counts", "why_tests_cant": "all inputs", "anchors": ["jaxopt/_src/perturbations.py:make_perturbed_argmax", "jaxopt/_src/perturbations.py:make_perturbed_max"]}
{"id": "C50", "title": "Mirror descent: step, fixed points, rate, stopping test; KL and Euclidean geometry", "statement": "For a convex generating function with gradient mapping_fun and projection = argmin_z phi(z) - <y, z>, make_projection_grad(projection, mapping_fun)(x, g, s) is the unique minimiser over the set of s<g, z> + D_phi(z, x). For a convex objective an interior point is left unchanged by an update (any positive step) exactly when it minimises the objective over the set, optimality_fun is zero exactly there; with a step at most 1/L (L-smoothness relative to phi) the objective never increases and after k updates (s_0+...+s_{k-1}) (f(x_k) - f(z)) <= D_phi(z, x_0) for all z, and with arbitrary steps the weighted regret is bounded. softmax with the KL generator and the Euclidean projection with half the squared norm are two such geometries: the first gives the multiplicative-weights update, the second exactly projected gradient. run returns an iterate, with the documented counters, after at most maxiter updates, and stops early only if the reported error is at most tol. The documented stopping residual ||x - projection_grad(x, g, 1.0)|| is bounded by the reported error when 0 < stepsize <= 1 (Euclidean) and is not for larger steps.", "quantifier": "all dimensions, convex sets and objectives, step-size schedules, iteration counts", "why_tests_cant": "quantifies over all convex problems, geometries and numbers of iterations", "anchors": ["jaxopt/_src/mirror_descent.py:MirrorDescent"]}
{"id": "C51", "title": "Optimal-transport projections: dual certificates", "statement": "projection_transport / kl_projection_transport / projection_birkhoff, for every regulariser, cost, marginals and dual variables: the recovered plan is non-negative (and in the semi-dual has column sums b); minus the dual objective bounds the primal from below; the objective's derivative is the marginal violation, which also bounds the suboptimality of the plan; the dual variables are optimal exactly when the plan meets the marginals P 1 = a, P^T 1 = b, and then the plan is the unique Euclidean (KL) projection. Marginals of the wrong shape raise ValueError; marginals of different mass (a non-square Birkhoff input) are accepted although no plan exists and the objective is unbounded below; the docstrings exchange a and b; a zero marginal makes the entropic semi-dual NaN.", "quantifier": "all marginals, cost matrices, dual variables", "why_tests_cant": "continuum", "anchors": ["jaxopt/_src/projection.py:projection_transport", "jaxopt/_src/projection.py:kl_projection_transport", "jaxopt/_src/projection.py:projection_birkhoff"]}
{"id": "C52", "title": "SciPy least-squares wrappers: the cost whose gradient is used for implicit differentiation", "statement": "The implemented losses (linear, soft_l1, cauchy, arctan) applied to a residual equal SciPy's rho of the squared residual for all residuals; the Huber loss agrees exactly for scaled residuals >= -1 (so not for z < -1). Every implemented loss is differentiable everywhere, with the stated derivative. Where the losses agree, the implemented cost is the documented 0.5*sum(...) divided by the number of residuals (hence not equal to it for two or more residuals), and along every path the derivatives of the two costs differ by exactly that factor, so the stationary points are the same; for the Huber loss a stationary point of SciPy's cost can have a non-zero implemented optimality function. The optimality function of the bounded wrappers is zero exactly at the box-constrained first-order points, for any positive rescaling of the gradient.", "quantifier": "all real residual vectors, scales, losses, differentiable parameter paths, boxes", "why_tests_cant": "continuum", "anchors": ["jaxopt/_src/scipy_wrappers.py:LS_RHO_FUNS"]}
{"id": "C53", "title": "Option dictionaries and has_aux of the SciPy wrappers over histories of constructions", "statement": "Constructing ScipyMinimize with a dictionary lacking 'maxiter' succeeds, stores a reference to it and writes exactly that key into the caller's dictionary; consequently, whatever the program does afterwards, every later construction with the same dictionary raises ValueError (reuse is refuted). Without options it always succeeds with a dictionary of its own. ScipyLeastSquares fills missing keys from the module defaults, converts x_scale, keeps all other caller entries and all other dictionaries, and can be constructed again any number of times with the same dictionary without further change. Without options all least-squares solvers share the one module-level dictionary, so an assignment through one is read by all and by every later construction (isolation is refuted). has_aux=False calls the caller's function; has_aux=True on ScipyRootFinding/ScipyLeastSquares never returns: RecursionError for every function, argument and recursion limit.", "quantifier": "all option dictionaries and construction sequences", "why_tests_cant": "sequences of constructions", "anchors": ["jaxopt/_src/scipy_wrappers.py:ScipyMinimize.__post_init__", "jaxopt/_src/scipy_wrappers.py:ScipyRootFinding.__post_init__", "jaxopt/_src/scipy_wrappers.py:ScipyLeastSquares.__post_init__"]}
{"id": "C54", "title": "Line-search initial step strategies respect the bounds", "statement": "'max' gives max_stepsize; 'current' the previous step; 'increase' gives max_stepsize after a tiny step and otherwise the previous step times increase_factor; unknown strategies are rejected.", "quantifier": "all floats and strategies", "why_tests_cant": "all inputs", "anchors": ["jaxopt/_src/linesearch_util.py:_init_stepsize", "jaxopt/_src/linesearch_util.py:_setup_linesearch"]}
{"id": "C55", "title": "Bisection accepts functions with auxiliary output", "statement": "Bisection(has_aux=False) is unaffected by the auxiliary-output machinery; Bisection(has_aux=True) raises TypeError for every function and bracket instead of finding the root.", "quantifier": "all functions and brackets", "why_tests_cant": "all functions", "anchors": ["jaxopt/_src/bisection.py:Bisection.init_state"]}
{"id": "C56", "title": "Declared derivatives of projections", "statement": "The derivative rule attached to projection_simplex and projection_sparse_simplex is the derivative of the returned projection, in x and in value, at every point where no coordinate sits exactly at the threshold (for the sparse one: the selected coordinates are strictly the largest): near such a point the output is exactly the output there plus the rule applied to the displacement. The simplex rule is symmetric, idempotent, nonexpansive, and the outputs' sum moves with value. The rule attached to isotonic_l2_pav is the derivative of the solution up to relative error 1e-8 per coordinate when blocks differ by more than 1e-8; it is never exact, and it is wrong by a constant factor when two fitted values differ by less than 1e-8.", "quantifier": "all vectors, all values > 0, all sparsity levels, both directions of monotonicity, all perturbations in a neighbourhood", "why_tests_cant": "derivatives at every strictly complementary point, not on sampled finite differences", "anchors": ["jaxopt/_src/projection.py:_projection_unit_simplex_jvp", "jaxopt/_src/projection.py:_projection_unit_sparse_simplex_jvp", "jaxopt/_src/isotonic.py:_jvp_isotonic_l2_jax_pav", "jaxopt/_src/isotonic.py:_isotonic_l2_pav_jvp"]}
{"id": "C57", "title": "Linear operators, inner systems and optimality function of OSQP", "statement": "Pytrees of matrices act leaf by leaf: matvec has a result exactly for arguments of matching structure and sizes, rmatvec is its adjoint for the inner product of pytrees, normal_matvec is A^T A; an operator given as a linear function behaves as the dense one. BoxOSQP's inner linear system Q + sigma I + rho A^T A is symmetric positive definite for every convex problem, the 'cg' and 'lu' solvers are given this system for the current rho whatever the history of step-size updates, and with an exact solver they return its solution; Jacobi preconditioning divides by its diagonal. The option eq_qp_solve is read case-insensitively and anything else is refused. The optimality function of BoxOSQP vanishes at every primal-dual solution completed as the solver completes it, and a zero inside the box with non-negative multipliers is a solution. OSQP's constraint matvec gives the blocks A x, G x in every mix of matvecs and matrices. Refuted: 'cg+jacobi' works for pytrees of matrices; 'lu' with a matvec_Q is refused; the optimality function works with fun.", "quantifier": "all pytrees of matrices and vectors, all linear functions, all convex box QPs with infinite bounds, all histories of step sizes, all option strings", "why_tests_cant": "adjointness, positive definiteness and the equivalence with KKT must hold for every problem, structure and history", "anchors": ["jaxopt/_src/linear_operator.py:DenseLinearOperator", "jaxopt/_src/linear_operator.py:FunctionalLinearOperator", "jaxopt/_src/osqp.py:OSQPIndirectSolver", "jaxopt/_src/osqp.py:OSQPLUSolver", "jaxopt/_src/osqp.py:BoxOSQP.__post_init__", "jaxopt/_src/osqp.py:_make_osqp_optimality_fun", "jaxopt/_src/osqp.py:OSQP_to_BoxOSQP.transform_matvec"]}
{"id": "C58", "title": "Auxiliary outputs of the gradient solvers: state.aux, the final selection of run, options of ProjectedGradient", "statement": "With has_aux=True, after run() of ProximalGradient or GradientDescent state.aux is the auxiliary output of the objective at the point where the last update evaluated it (the parameters before that update, or the extrapolated point with acceleration), and with maxiter=0 the one at the initial parameters; the parameters and the rest of the state do not depend on whether the objective has auxiliary output. The selection between initial and final state that ends run() returns the final state for every pytree of containers, shapes and Nones that the solver keeps. ProjectedGradient behaves as ProximalGradient with the projection and the user's options. Refuted for value_and_grad=True with has_aux=True: init_state stores the gradient as aux, so a container makes run raise and a scalar comes back as a vector; and ProjectedGradient ignores implicit_diff_solve.", "quantifier": "all objectives in every calling convention, all auxiliary pytrees, all step-size options, iteration limits and initial points", "why_tests_cant": "the auxiliary pytree, the calling convention and the number of iterations combine freely; tests use one aux structure", "anchors": ["jaxopt/_src/proximal_gradient.py:ProximalGradient.init_state", "jaxopt/_src/proximal_gradient.py:ProximalGradient._update", "jaxopt/_src/proximal_gradient.py:ProximalGradient._update_accel", "jaxopt/_src/base.py:IterativeSolver._run", "jaxopt/_src/base.py:_where", "jaxopt/_src/projected_gradient.py:ProjectedGradient.__post_init__"]}
{"id": "C59", "title": "OptaxSolver runs the Optax training loop", "statement": "For every optimiser with init and update functions, OptaxSolver.run_iterator initialises from the first batch and then returns the parameters and optimiser state of the textbook Optax loop (gradient, opt.update(grad, state, params), params + updates) on the following batches, at most maxiter and all of them if the iterator ends earlier; run does the same on copies of its data and stops at the first gradient of norm at most tol. state.value, aux and error belong to the last batch and the parameters before its update; iter_num counts the updates; pre_update acts first. Parameters keep their containers, shapes and dtypes whatever the rounding and promotion. With plain gradient descent as optimiser the iterates are those of GradientDescent. Parameters of several dtypes are refused. state.error is not the optimality error of the returned parameters (refuted).", "quantifier": "all optimisers, objectives, pytrees of parameters, iterators, iteration limits, tolerances, dtypes and roundings", "why_tests_cant": "optimisers are arbitrary user code with arbitrary state; tests run a few optimisers for a few steps", "anchors": ["jaxopt/_src/optax_wrapper.py:OptaxSolver.init_state", "jaxopt/_src/optax_wrapper.py:OptaxSolver.update", "jaxopt/_src/optax_wrapper.py:OptaxSolver._apply_updates", "jaxopt/_src/optax_wrapper.py:OptaxSolver.optimality_fun", "jaxopt/_src/base.py:StochasticSolver.run_iterator", "jaxopt/_src/base.py:IterativeSolver._run", "jaxopt/_src/tree_util.py:tree_single_dtype"]}
{"id": "C60", "title": "Gradients of a whole differentiable solver call: run(), custom_root, custom_fixed_point", "statement": "Differentiating a call of a solver decorated with custom_root or custom_fixed_point, or of run() of a solver with implicit_diff, returns for every positional and every keyword argument the true derivative of the solution with respect to that argument, whatever the order of the keywords and the defaults left out; the value is that of the undecorated solver; the initial parameters receive no gradient and the cotangent of the state is ignored; implicit_diff=False gives the gradients of the unrolled loop. run() of each solver that sets a reference can be differentiated when its documented parameters are passed by position and then by keyword in any order; a call that cannot be resolved is a TypeError. Refuted for GaussNewton, LevenbergMarquardt, ScipyMinimize and ScipyLeastSquares (any keyword argument is a TypeError), for functions with only *args and **kwargs in the solvers that insert a parameter (ValueError at construction), and for AndersonWrapper around solvers without reference (AttributeError).", "quantifier": "all solver functions, signatures, references, argument lists, keyword orders, defaults, optimality functions differentiable at the solution, linear solvers and cotangents", "why_tests_cant": "argument passing, defaults and keyword order combine freely, and the gradient must equal a derivative, which tests only approximate for a few calls", "anchors": ["jaxopt/_src/implicit_diff.py:_custom_root", "jaxopt/_src/implicit_diff.py:custom_root", "jaxopt/_src/implicit_diff.py:custom_fixed_point", "jaxopt/_src/base.py:IterativeSolver.run", "jaxopt/_src/anderson_wrapper.py:AndersonWrapper.__post_init__", "jaxopt/_src/proximal_gradient.py:ProximalGradient.__post_init__", "jaxopt/_src/mirror_descent.py:MirrorDescent.__post_init__", "jaxopt/_src/lbfgsb.py:LBFGSB.__post_init__", "jaxopt/_src/block_cd.py:BlockCoordinateDescent.__post_init__"]}
{"id": "C61", "title": "Quadratic programs: CvxpyQP and gradients", "statement": "CvxpyQP.run checks the shapes of its data (ValueError), gives CVXPY exactly the quadratic program of the data and returns, when CVXPY reports status optimal, a primal and dual solution with zero optimality error, which is a global minimiser; statuses infeasible and unbounded give a ValueError (and then there is no solution). Calls of CvxpyQP.run and EqualityConstrainedQP.run can be differentiated however the data are passed, and their gradients are the derivatives of the primal and dual solution with respect to Q, c, A, b, G and h wherever the solution satisfies the second-order condition, has independent active gradients and strict complementarity (the last two are necessary). Refuted for the other failure statuses of CVXPY: run returns NaN instead of raising.", "quantifier": "all sizes, matrices and vectors, presence or absence of each constraint, ways of passing the arguments, directions of the data, cotangents and linear solvers exact on regular systems", "why_tests_cant": "gradients have to equal derivatives of an implicitly defined solution for all data, and the failure statuses are hard to provoke", "anchors": ["jaxopt/_src/cvxpy_wrapper.py:CvxpyQP.run", "jaxopt/_src/cvxpy_wrapper.py:_check_params", "jaxopt/_src/cvxpy_wrapper.py:_make_cvxpy_qp_optimality_fun", "jaxopt/_src/cvxpy_wrapper.py:CvxpyQP.l2_optimality_error", "jaxopt/_src/eq_qp.py:EqualityConstrainedQP.run", "jaxopt/_src/implicit_diff.py:make_kkt_optimality_fun"]}
{"id": "C62", "title": "SciPy wrapper runs on pytrees", "statement": "Whatever SciPy does (any adaptive sequence of evaluations and callbacks, any result), a run of ScipyMinimize, ScipyBoundedMinimize, ScipyRootFinding or ScipyLeastSquares calls the user's functions only with pytrees of the structure, shapes and dtypes of the initial parameters; minimising over a pytree makes the same calls in the same order and returns the same numbers and information as minimising over the flattened vector; the returned pytree is SciPy's vector put into the structure of the initial parameters and rounded to their dtypes, the information is SciPy's (absent counters 0), a vector of another length raises ValueError and an unknown kind of hess_inv raises UnboundLocalError; the reported value is the objective at the returned (rounded) parameters and a gradient seen as zero by SciPy is a zero of the optimality function there; in exact arithmetic the gradients and Jacobian matrices handed to SciPy are those of the flat functions; bounds hold for the returned parameters if they are values of the parameters' dtypes (refuted otherwise); an option that the least-squares wrapper passes itself raises TypeError; the default method None makes every least-squares run fail; LbfgsInvHessProductPyTree survives flattening and array maps that keep shapes but not maps to other objects or ranks.", "quantifier": "all pytrees, dtypes (idempotent roundings), user functions, callbacks, bounds, options and all SciPy processes", "why_tests_cant": "SciPy's evaluation points and results depend on the algorithm and the data; tests run a few methods on a few problems and cannot cover every interaction and structure", "anchors": ["jaxopt/_src/scipy_wrappers.py:ScipyMinimize._run", "jaxopt/_src/scipy_wrappers.py:ScipyBoundedMinimize.run", "jaxopt/_src/scipy_wrappers.py:ScipyRootFinding.run", "jaxopt/_src/scipy_wrappers.py:ScipyLeastSquares._run", "jaxopt/_src/scipy_wrappers.py:LbfgsInvHessProductPyTree"]}
{"id": "C63", "title": "Complex variables", "statement": "Running BacktrackingLineSearch, ZoomLineSearch, HagerZhangLineSearch, LBFGS or NonlinearCG on a real-valued function of complex variables z = x + iy does exactly what it does on the same function of the real variables (x, y): same step sizes, values, errors, flags, counters, stopping decisions and exceptions, and points, gradients and directions that correspond (what jax.grad returns is the conjugate of the gradient with respect to (x, y)); this holds for every history size, option, step schedule, direction given or omitted, warm start and number of iterations.  GradientDescent (and the other solvers that do not conjugate what jax.grad returns) do not have the property: on |z|^2 every step increases the objective from z = i (refuted).", "quantifier": "all real-valued functions of complex variables with their jax.grad gradients (values may be non-finite in the searches), starting points, directions, options and numbers of iterations", "why_tests_cant": "tests compare a run on one or two functions with the real run; a conjugate missing in one branch (one condition, one CG formula, one history size) only shows on data with a nonzero imaginary part in that branch", "anchors": ["jaxopt/_src/tree_util.py:tree_vdot_real", "jaxopt/_src/tree_util.py:tree_conj", "jaxopt/_src/lbfgs.py:LBFGS.update", "jaxopt/_src/nonlinear_cg.py:NonlinearCG.update", "jaxopt/_src/backtracking_linesearch.py:BacktrackingLineSearch.update", "jaxopt/_src/zoom_linesearch.py:ZoomLineSearch", "jaxopt/_src/hager_zhang_linesearch.py:HagerZhangLineSearch"]}
{"id": "C64", "title": "Global convergence of L-BFGS", "statement": "On a function that is strongly convex with a Lipschitz gradient, L-BFGS converges linearly from every starting point: the matrix behind each direction keeps its eigenvalues between two positive numbers that depend only on the curvature bounds and on history_size, whatever steps were taken; with steps that pass the Armijo and Wolfe conditions (what a successful zoom or Wolfe backtracking search returns), or with a small enough constant step, the gap to the minimum shrinks by a constant factor in every iteration; and with an Armijo BacktrackingLineSearch instance whose last trial is small enough, run() reaches any positive tol in a finite, explicitly bounded number of iterations, with the gradient of the returned point below tol.", "quantifier": "all strongly convex smooth functions of any dimension, starting points, history sizes, with or without gamma scaling, strategies for the initial step, tolerances and numbers of iterations", "why_tests_cant": "tests run a few problems from one start; that the method converges from every start on every such problem, at a rate, is a statement about infinitely many runs", "anchors": ["jaxopt/_src/lbfgs.py:LBFGS.update", "jaxopt/_src/lbfgs.py:inv_hessian_product", "jaxopt/_src/lbfgs.py:compute_gamma", "jaxopt/_src/base.py:IterativeSolver.run", "jaxopt/_src/backtracking_linesearch.py:BacktrackingLineSearch", "jaxopt/_src/zoom_linesearch.py:ZoomLineSearch"]}
{"id": "C65", "title": "Global convergence of BFGS", "statement": "On a function that is strongly convex with a Lipschitz gradient, BFGS converges linearly from every starting point with any steps that pass Armijo's condition and are not too short (Wolfe's curvature condition, or a lower bound, or the previous backtracking trial was rejected): after k iterations the gap to the minimum is at most r^k times the initial gap, for a factor r < 1 that depends only on the dimension, the curvature bounds and the line-search constants.  With Armijo backtracking from the largest step, for every tolerance there are a number of iterations and a maxls with which run() returns a point whose gradient is below tol.", "quantifier": "all strongly convex smooth functions of any dimension, starting points, step sequences, tolerances and numbers of iterations", "why_tests_cant": "tests run a few problems from one start; the matrix of BFGS is not bounded in advance, so that it cannot stall on any such problem is a statement about its trace and determinant over whole runs", "anchors": ["jaxopt/_src/bfgs.py:BFGS.update", "jaxopt/_src/bfgs.py:BFGS.init_state", "jaxopt/_src/base.py:IterativeSolver.run", "jaxopt/_src/backtracking_linesearch.py:BacktrackingLineSearch", "jaxopt/_src/zoom_linesearch.py:ZoomLineSearch"]}
{"id": "C66", "title": "NonlinearCG: descent directions and convergence", "statement": "With method='fletcher-reeves' and line searches that return strong Wolfe steps with a curvature constant below 1/2, every direction NonlinearCG searches is a descent direction, on every objective with a Lipschitz gradient, convex or not. If the objective is bounded below, run() with a large enough maxiter stops at its tolerance, after a number of iterations bounded by the initial gap and tol. For every method, the squared cosines of the searched directions times the squared gradient norms are summable; with linesearch='backtracking' the squared gradient norms are. The class's defaults give no such guarantee: with them a direction can point uphill after a successful step.", "quantifier": "every dimension, every differentiable objective with Lipschitz gradient, every line search meeting the stated conditions, every linesearch_init, every number of iterations", "why_tests_cant": "a run shows one sequence of gradients; the bound concerns every objective of the class and every number of iterations, and uphill directions depend on the steps the line search happens to accept", "anchors": ["jaxopt/_src/nonlinear_cg.py:NonlinearCG.update", "jaxopt/_src/nonlinear_cg.py:NonlinearCG.init_state", "jaxopt/_src/zoom_linesearch.py:ZoomLineSearch"]}
{"id": "C67", "title": "Which options a run of a reconfigured solver object uses", "statement": "A BFGS, LBFGS, LBFGSB or NonlinearCG object is built with its options, which are plain attributes that can be reassigned. After any history of attribute assignments, updates and runs, the options that the next run uses are determined: the line search is the one built at construction, the iteration limit and the initial state follow the current attributes, and the options of update (and, in an unrolled loop, the tolerance) follow the current attributes without jit and those of the first call with the same argument shapes with jit. Hence without jit, or with new shapes, a reconfigured object behaves as a newly constructed one if the line search attributes were not changed; and not otherwise. Construction fails exactly for unknown line search names; unroll=False with jit=False fails only when run.", "quantifier": "every attribute setting, every history of assignments, update and run calls (not changing jit), every argument signature", "why_tests_cant": "the outcome depends on the whole history of the object; a test sees one history", "anchors": ["jaxopt/_src/base.py:IterativeSolver.__post_init__, _run", "jaxopt/_src/loop.py:while_loop", "jaxopt/_src/bfgs.py:BFGS.__post_init__", "jaxopt/_src/lbfgs.py:LBFGS.__post_init__", "jaxopt/_src/lbfgsb.py:LBFGSB.__post_init__", "jaxopt/_src/nonlinear_cg.py:NonlinearCG.__post_init__", "jaxopt/_src/linesearch_util.py:_setup_linesearch"]}
{"id": "C68", "title": "The optimality error and the reported error bound the distance to the solution", "statement": "solver.l2_optimality_error(params) measures how far params is from the solution. For solvers whose optimality function is the gradient, on a strongly convex smooth function it lies between mu and L times the distance to the minimiser, its square bounds the suboptimality from both sides, and it vanishes only at the minimiser; for convex functions suboptimality is at most error times distance. For proximal and projected solvers and for fixed point solvers it is equivalent to the distance to the solution with explicit constants, whatever the step sizes. The error reported in the final state of ProximalGradient/ProjectedGradient, BoxCDQP and BlockCoordinateDescent bounds l2_optimality_error at the returned parameters, so a run that stopped before maxiter is optimal to within an explicit multiple of tol.", "quantifier": "every problem of the stated class, every point, every initial value, every number of iterations and tolerance", "why_tests_cant": "the bound must hold for every problem and stopping time; a test sees single solutions", "anchors": ["jaxopt/_src/base.py:Solver.l2_optimality_error", "jaxopt/_src/proximal_gradient.py:ProximalGradient.run, optimality_fun", "jaxopt/_src/cd_qp.py:BoxCDQP.run", "jaxopt/_src/block_cd.py:BlockCoordinateDescent.run", "jaxopt/_src/fixed_point_iteration.py:FixedPointIteration.optimality_fun"]}
{"id": "C69", "title": "Linear convergence of the coordinate descent solvers", "statement": "On a strongly convex box-constrained quadratic program, every epoch of BoxCDQP reduces the suboptimality against every feasible point by a constant factor below 1 that depends only on the dimension, the largest entry and the smallest eigenvalue of Q; hence the iterates converge to the minimiser from any starting point, distance and reported error decay geometrically, and run stops at the tolerance within an explicit number of iterations. The same holds for BlockCoordinateDescent when the smooth part is strongly convex with Lipschitz block gradients, for every penalty with its proximal operator; in particular for lasso-penalised least squares with full column rank.", "quantifier": "every problem of the class, every starting point, every number of epochs, every tolerance", "why_tests_cant": "a rate is a statement about all iterations and all problems; a test sees finitely many of both", "anchors": ["jaxopt/_src/cd_qp.py:BoxCDQP.update, run", "jaxopt/_src/block_cd.py:BlockCoordinateDescent.update, run", "jaxopt/_src/objective.py:LeastSquares"]}
{"id": "C70", "title": "Accuracy of implicit derivatives at approximate solutions", "statement": "The derivatives that implicit differentiation computes at the point a solver returned differ from the true derivatives of the exact solution by at most a constant times the distance to the solution plus a constant times the residual left by the linear solver, for forward products and for gradients alike; the constants are explicit in the Lipschitz constants of the Jacobians of the optimality function and in how far its Jacobian is from singular. Hence for strongly convex objectives the gradient error is bounded by the reported optimality error, after FixedPointIteration on a contraction by the tolerance, and the default linear solver (normal conjugate gradient) with a relative tolerance qualifies.", "quantifier": "every smooth optimality function, every number of arguments, every approximate solution, every tangent and cotangent, every linear solver with a relative residual bound", "why_tests_cant": "the claim compares with the derivative of an exact solution, which no run produces, and quantifies over all problems and tolerances", "anchors": ["jaxopt/_src/implicit_diff.py:root_vjp, root_jvp", "jaxopt/_src/linear_solve.py:solve_normal_cg", "jaxopt/_src/fixed_point_iteration.py:FixedPointIteration.run"]}
{"id": "C71", "title": "Differentiation through the iterations", "statement": "With implicit_diff=False, differentiating a run does not change its values, and the tangents carried along are the derivatives of the iterates; the whole run, including the data-dependent stopping test, is differentiable with exactly that derivative (and a locally constant number of iterations) unless a tested error equals the tolerance; reverse mode returns the transposed products for the starting point and every argument. For contractions, and for GradientDescent with a constant step on strongly convex functions, the derivatives of the iterates converge to the derivative of the solution at the explicit rate k q^(k-1).", "quantifier": "every smooth fixed-point map, every argument and tangent, every tolerance and iteration limit, every number of iterations, every starting curve", "why_tests_cant": "differentiability and convergence of derivatives are limits over all perturbations and iterations", "anchors": ["jaxopt/_src/base.py:IterativeSolver._run, _get_unroll_option", "jaxopt/_src/loop.py:while_loop", "jaxopt/_src/fixed_point_iteration.py:FixedPointIteration.update", "jaxopt/_src/gradient_descent.py:GradientDescent"]}
{"id": "C72", "title": "Gauss-Newton converges near a solution", "statement": "If the Jacobian of the residual function is L-Lipschitz with smallest singular value at least s near a stationary point x* of the sum of squares, one update moves the distance d to x* to at most L/(2s) d^2 + L|r(x*)|/s^2 d. Hence with zero residual the iterates converge quadratically from every start with L d < 2 s, with a small residual linearly, and run() stops at its tolerance after an explicit number of updates within q/(1-q) tol of x*; x* is the only stationary point in that region. With a large residual convergence can fail from every start near the minimiser.", "quantifier": "every residual function with Lipschitz Jacobian, every stationary point, every start in the region, every tolerance and iteration count", "why_tests_cant": "rates are limits over all iterations and problems; a test sees one trajectory", "anchors": ["jaxopt/_src/gauss_newton.py:GaussNewton.update, run, optimality_fun", "jaxopt/_src/linear_solve.py:solve_cg"]}
{"id": "C73", "title": "Levenberg-Marquardt reaches every gradient tolerance", "statement": "Without geodesic acceleration and with the grad-l2-norm test, if the objective lies below quadratics of curvature 2C on the initial sublevel set, the Jacobian is bounded there, and 2C is at most the damping cap 2^32, then for every tolerance > 0 the run stops with gradient norm at most tol after an explicitly bounded number of updates, whatever the linear solver option, Jacobian mode and initial damping; the condition holds for every residual function with bounded Lipschitz Jacobian, with explicit C. When the units make 2C exceed the cap, the run can reject every step forever.", "quantifier": "every residual function in the class, every start, damping parameter, solver option, Jacobian mode, tolerance and iteration limit", "why_tests_cant": "an upper bound on the number of accepted and rejected steps over all problems and histories of the damping", "anchors": ["jaxopt/_src/levenberg_marquardt.py:LevenbergMarquardt.update, update_state_using_gain_ratio, run"]}
{"id": "C74", "title": "ArmijoSGD converges when the batches share a minimiser", "statement": "Without momentum and with reset_option 'increase' or 'conservative', on L-smooth convex batch objectives that share a minimiser (the interpolation property the documentation assumes): every step size is at least min(max_stepsize, 2 aggressiveness decrease_factor / L); with aggressiveness at most 1/2 the distance to the minimiser never grows, the losses of the iterates on their own batches sum to at most a constant, and for strongly convex batches the iterates converge linearly, whatever the order of the batches. With the default aggressiveness 0.9 the iterates can diverge under the same assumptions.", "quantifier": "every sequence of batch objectives in the class, every start, dimension, number of updates and admissible option values", "why_tests_cant": "a bound for every infinite sequence of batches; the failure of the default needs an adversarial order", "anchors": ["jaxopt/_src/armijo_sgd.py:ArmijoSGD.update, init_state, armijo_line_search"]}
{"id": "C75", "title": "The zoom line search finds a step on smooth functions", "statement": "Along a descent direction on which the objective is continuously differentiable with L-Lipschitz slope, for 0 < c1 <= 1/2, c1 < c2 < 1 and any positive initial step, the zoom line search succeeds: it ends with done set and failed unset at a step satisfying the strong Wolfe conditions (or at max_stepsize with sufficient decrease), provided c2 >= 1 - 2 c1 or the function is convex along the line, maxiter exceeds an explicit bound (doublings to reach the largest step plus reductions of the bracket to the length min(c2, 2(c2-c1)) |slope| / L), and interval_threshold is below that length. For strongly convex smooth objectives the bound depends only on the constants, the condition number and the ratio of initial step, direction and slope. Without convexity and with c2 < 1 - 2 c1 it can fail for every maxiter on a smooth function that has acceptable steps.", "quantifier": "All objectives, directions, initial steps, options of the search, iteration limits.", "why_tests_cant": "Success must hold for every smooth function and every bracket the interpolation can produce; tests run a few functions, and the function on which the search fails has to be constructed.", "anchors": ["jaxopt/_src/zoom_linesearch.py:ZoomLineSearch.run", "jaxopt/_src/zoom_linesearch.py:ZoomLineSearch._search_interval", "jaxopt/_src/zoom_linesearch.py:ZoomLineSearch._zoom_into_interval", "jaxopt/_src/zoom_linesearch.py:zoom_linesearch"]}
{"id": "C76", "title": "BFGS and L-BFGS with the zoom line search converge on quadratics", "statement": "On every quadratic x'Qx/2 - b'x whose symmetric Q has eigenvalues between mu > 0 and L, LBFGS.run (every memory size, with and without gamma scaling) and BFGS.run with linesearch='zoom', every linesearch_init strategy and every start perform searches that never fail, and return a point whose gradient norm is at most tol once maxiter reaches an explicit bound, maxls is large enough for an explicit bound and interval_threshold is below an explicit length. The returned value is within tol^2/(2 mu) of the minimum and the returned point within tol/mu of the solution of Qx=b. On a strongly convex smooth function that is not quadratic this can go wrong at the first iteration: with all default options L-BFGS can accept a step that increases the objective without reporting a failure.", "quantifier": "All quadratics, dimensions, starting points, memory sizes, step strategies, line search constants with 0 < c1 <= 1/2 and c1 < c2 < 1, tolerances, iteration limits.", "why_tests_cant": "Convergence concerns unboundedly many iterations, each with an unbounded search, on every matrix and start; a test runs a few matrices.", "anchors": ["jaxopt/_src/lbfgs.py:LBFGS", "jaxopt/_src/bfgs.py:BFGS", "jaxopt/_src/zoom_linesearch.py:ZoomLineSearch", "jaxopt/_src/linesearch_util.py:_init_stepsize"]}
{"id": "C77", "title": "Anderson acceleration converges on affine contractions", "statement": "On every affine map with Lipschitz constant q < 1 (Euclidean norm), AndersonAcceleration with any history_size m >= 1, mixing_frequency, ridge > 0 and any beta with theta = |1-beta| + |beta| q <= 1 has residuals bounded by theta^ceil(k/m) times the initial residual: the residual at each evaluated point is at most theta times the largest of the last m, whatever the ridge, and its square at most theta^2 times (the previous square + ridge (1-1/m)). If theta^N |F(x0)-x0| <= tol and maxiter > m N, run stops with error <= tol after at most m N + 1 updates and returns a point within q/(1-q) tol of the fixed point. The same rate holds for AndersonWrapper around any solver whose update applies an affine contraction. For contractions that are not affine this fails: for every ridge there is a 3/4-contraction of the line on which the run cycles forever.", "quantifier": "All affine contractions, dimensions, starting points, history sizes, mixing frequencies, damping and ridge parameters, tolerances, iteration limits; any exact linear solver.", "why_tests_cant": "Convergence quantifies over unboundedly many iterations and all maps; tests run a few maps, on which acceleration works well, and do not reveal the contraction on which it cycles.", "anchors": ["jaxopt/_src/anderson.py:AndersonAcceleration", "jaxopt/_src/anderson.py:anderson_step", "jaxopt/_src/anderson.py:minimize_residuals", "jaxopt/_src/anderson_wrapper.py:AndersonWrapper"]}
{"id": "C78", "title": "Dual solutions of the multiclass linear SVM solve the training problem", "statement": "For every data set X with integer labels y and every l2reg > 0, take the training problem: the sum of multiclass_hinge_loss over the samples plus l2reg/2 times the squared norm of the weights. At dual parameters beta whose rows lie in the unit simplex, minus objective.multiclass_linear_svm_dual is a lower bound for the training problem at any weights, with l2reg/2 times the squared distance to W(beta) = X^T (Y - beta) / l2reg to spare. If beta minimises the dual objective then W(beta) solves the training problem with zero gap, and zero gap characterises dual solutions. The gap bounds the excess of both objectives and the distance to every solution, and is itself bounded by the rows of the optimality function of BlockCoordinateDescent. With l2reg >= 1, a sweep of block coordinate descent that reports error 0 returns a solution.", "quantifier": "every number of samples, features and classes, every data matrix and labelling, every l2reg > 0, every feasible dual point, every weight matrix", "why_tests_cant": "a test compares one fitted weight matrix with another library on one small data set and one regularisation", "anchors": ["jaxopt/_src/objective.py:MulticlassLinearSvmDual", "jaxopt/_src/loss.py:multiclass_hinge_loss", "jaxopt/_src/block_cd.py:BlockCoordinateDescent.optimality_fun", "tests/block_cd_test.py:test_multiclass_linear_svm"]}
{"id": "C79", "title": "Broyden with unit steps converges", "statement": "Near a zero of the root function whose Jacobian is nonsingular and is approximated by the identity over gamma, every run of Broyden whose steps have length 1 shrinks the error by a fixed factor at each update, as long as no history row is overwritten; run with stepsize 1 then returns, with the residual below tol and no NaN, after a number of updates that can be computed in advance. On an affine system convergence from any starting point is superlinear: the squared residual after K updates is at most (S / (K (a - delta)^2))^K times the initial one.", "quantifier": "every root function with a Lipschitz-like Jacobian near its zero, every dimension, starting point in the basin, gamma, history size and number of updates up to the history size plus one", "why_tests_cant": "A convergence rate quantifies over all functions, starting points and iteration counts; a test sees one function and a loose tolerance.", "anchors": ["jaxopt/_src/broyden.py:Broyden.update", "jaxopt/_src/broyden.py:inv_jacobian_product", "jaxopt/_src/base.py:IterativeSolver._run"]}
{"id": "C80", "title": "Coordinate descent converges on convex problems without strong convexity", "statement": "On a convex quadratic program over a box with a positive diagonal, BoxCDQP started anywhere makes the objective converge to its infimum over the box, the excess after t epochs being at most a constant over t. On any convex composite problem whose sublevel set is bounded, BlockCoordinateDescent does the same, and what run returns is suboptimal by at most the larger of a constant over maxiter and a constant times tol. Instances: the lasso of any rank, and the multiclass linear SVM dual, for which the training objective at the recovered weights converges to the optimum at rate 1/sqrt(t).", "quantifier": "all problem sizes and data, starting points, iteration counts, tolerances and feasible competitors", "why_tests_cant": "A test runs finitely many epochs on particular, usually well conditioned, data; the rate is a claim about every data set (rank deficient ones included) and every epoch.", "anchors": ["jaxopt/_src/cd_qp.py:BoxCDQP.update", "jaxopt/_src/block_cd.py:BlockCoordinateDescent.update", "jaxopt/_src/objective.py:MulticlassLinearSvmDual"]}
{"id": "C81", "title": "The solutions that the solvers approximate exist, and the iterates converge to them", "statement": "For every box-constrained quadratic program with a non-negative diagonal there is a minimiser, whether or not the problem is convex; when it is convex with a positive diagonal, BoxCDQP's objective after t+1 epochs is within A/(t+1) of that minimum. A strongly convex function with Lipschitz gradient has exactly one minimiser, and so has its sum with a convex penalty whose prox is exact; ProximalGradient with a constant step s <= 1/L converges to that point at rate sqrt(1 - s mu)^t from every start. The multiclass linear SVM always has a dual solution and exactly one primal solution W; every dual solution maps to W, and the weights recovered from BlockCoordinateDescent's iterates satisfy ||W - W_t||^2 <= A/(t+1). The multi-output lasso with positive penalty always has a solution, even with zero columns, and block coordinate descent's objective converges to its minimum. For positive marginals of equal mass, both dual transport problems have solutions, the projection onto the transport (Birkhoff) polytope exists and is unique, and the code returns it for every inner solver that finds a dual minimiser. With a zero entry in the first marginal, the entropic duals have no minimiser at all.", "quantifier": "all problem sizes and data, all starting points, all iteration counts, all inner solvers", "why_tests_cant": "Existence of a minimiser is a statement about all points of a continuum; a test sees finitely many. Convergence theorems that assume a solution say nothing if there is none.", "anchors": ["jaxopt/_src/cd_qp.py:BoxCDQP", "jaxopt/_src/proximal_gradient.py:ProximalGradient", "jaxopt/_src/block_cd.py:BlockCoordinateDescent", "jaxopt/_src/objective.py:multiclass_linear_svm_dual,least_squares", "jaxopt/_src/projection.py:projection_transport,kl_projection_transport,projection_birkhoff"]}
{"id": "C82", "title": "Quasi-Newton solvers with the Hager-Zhang line search on quadratics", "statement": "On a strongly convex quadratic, the Hager-Zhang search along any descent direction ends after a single update at a step that meets Wolfe's conditions (the exact minimiser of the line, unless an end of the initial bracket is already acceptable), whatever the initial step, which has no effect. So BFGS, and LBFGS with stop_if_linesearch_fails=False, with linesearch=\"hager-zhang\" converge linearly from every starting point and return a point whose gradient norm is at most tol. The search reports a failure exactly when the minimiser is a power of the expansion factor, where it is exact; with stop_if_linesearch_fails=True this ends LBFGS early. LBFGSB with this search can leave the box, because the search ignores max_stepsize.", "quantifier": "all dimensions, all positive definite quadratics, all starting points, memories, initial-step strategies, tolerances and admissible options of the search; all descent directions", "why_tests_cant": "A test runs a few quadratics; convergence for every quadratic and start, and the exact set of spurious failures, need a proof over all of them.", "anchors": ["jaxopt/_src/hager_zhang_linesearch.py:HagerZhangLineSearch", "jaxopt/_src/linesearch_util.py:_setup_linesearch", "jaxopt/_src/lbfgs.py:LBFGS", "jaxopt/_src/bfgs.py:BFGS", "jaxopt/_src/lbfgsb.py:LBFGSB"]}
{"id": "C83", "title": "l2_optimality_error of the quadratic programming solvers", "statement": "EqualityConstrainedQP.l2_optimality_error is the norm of the residual of the KKT system; it is 0 exactly at the KKT points, so x is a solution exactly when some multipliers make it 0, and it bounds the distance to the solution and to its multipliers when Q is strongly convex and the rows of A are well conditioned. BoxOSQP: the parameters returned with status SOLVED have an error of at most sqrt(n + m) tol. OSQP: the error is the norm of the stationarity residual, of the negative parts of the multipliers of the inequalities and of the products multiplier * constraint; a feasible point has error 0 exactly when it is a KKT point; parameters returned with status SOLVED have an error of at most tol sqrt(n + |multipliers|^2). Feasibility itself is not part of OSQP's error: with zero multipliers every unconstrained minimiser has error 0, whatever the constraints.", "quantifier": "every convex quadratic program with any number of variables, equalities and inequalities, every point and multipliers, every run", "why_tests_cant": "tests evaluate the error at the solutions of a few programs; the equivalence with optimality and the bounds hold for all programs and all points", "anchors": ["jaxopt/_src/eq_qp.py:EqualityConstrainedQP.l2_optimality_error", "jaxopt/_src/osqp.py:BoxOSQP.l2_optimality_error", "jaxopt/_src/osqp.py:OSQP.l2_optimality_error", "jaxopt/_src/tree_util.py:tree_l2_norm"]}
{"id": "C84", "title": "L-BFGS-B converges over a box and its run meets the tolerance", "statement": "On a strongly convex smooth objective with bounds, the iterates of LBFGSB stay in the box, the approximate Hessian keeps its eigenvalues in a fixed positive range, every search direction descends in proportion to the projected gradient, and objective value and distance to the bounded minimiser decrease linearly; run stops by itself within a number of iterations fixed in advance, whatever larger maxiter is given, without a failed line search, at a feasible point with projected gradient at most tol.", "quantifier": "every strongly convex smooth objective of every dimension, every box (finite or infinite bounds, or none), every feasible starting point, history size, tolerance and maxiter, with Armijo backtracking, and with zoom on every quadratic; with finite bounds, at points where gradient entries and breakpoints are not decided by rounding against the machine precision", "why_tests_cant": "Convergence for all objectives and boxes ranges over infinitely many functions, active sets and histories; tests check a few boxed problems.", "anchors": ["jaxopt/_src/lbfgsb.py:LBFGSB.update", "jaxopt/_src/lbfgsb.py:_find_cauchy_point", "jaxopt/_src/lbfgsb.py:_minimize_subspace", "jaxopt/_src/base.py:IterativeSolver.run"]}
{"id": "C85", "title": "Option names: a wrong name is an exception, not a different algorithm", "statement": "If a string option of a solver (linesearch, linesearch_init, method, condition, variant, reset_option, eq_qp_solve, solver, stop_criterion) is not one of the accepted names, constructing or running the solver raises before any answer is returned; with the accepted names run returns the answer of the algorithm of that name; options documented as 'auto' or boolean mean what the documentation says.", "quantifier": "every string, every objective, starting point, maxiter, jit and unroll setting, every other option value", "why_tests_cant": "There are infinitely many wrong names and combinations with maxiter, jit and unroll, and some names are only compared in code paths that a given test does not reach; tests try one wrong name.", "anchors": ["jaxopt/_src/linesearch_util.py:_setup_linesearch", "jaxopt/_src/linesearch_util.py:_init_stepsize", "jaxopt/_src/nonlinear_cg.py:NonlinearCG.update", "jaxopt/_src/backtracking_linesearch.py:BacktrackingLineSearch.update", "jaxopt/_src/polyak_sgd.py:PolyakSGD.update", "jaxopt/_src/armijo_sgd.py:ArmijoSGD.__post_init__", "jaxopt/_src/broyden.py:Broyden.update", "jaxopt/_src/osqp.py:BoxOSQP.__post_init__", "jaxopt/_src/levenberg_marquardt.py:LevenbergMarquardt._cond_fun", "jaxopt/_src/base.py:IterativeSolver._get_unroll_option"]}
{"id": "C86", "title": "Evaluation counters count the evaluations", "statement": "The counters num_fun_eval and num_grad_eval of a state equal the number of times the objective and its gradient have been evaluated to produce it, initialisation included: for the backtracking, zoom and Hager-Zhang line searches, for BFGS, L-BFGS and nonlinear CG with the backtracking or zoom search or a given step size, and num_fun_eval for fixed-point iteration and Anderson acceleration. No evaluation is used by the backtracking and zoom searches that is not counted. Exceptions: the zoom search counts one gradient too many when it fetches the auxiliary output again (always inside BFGS, L-BFGS and nonlinear CG), and with value_and_grad=True the value-only conditions of the backtracking search count fewer gradients than are computed.", "quantifier": "every objective (NaN and infinite values included), gradient, starting point, direction, step size, line-search configuration, number of updates, with and without given value and gradient, with and without auxiliary output", "why_tests_cant": "The number of evaluations depends on the path of the search, on failures and on the final gradient call; tests compare the counters with recorded calls for a few objectives.", "anchors": ["jaxopt/_src/backtracking_linesearch.py:BacktrackingLineSearch", "jaxopt/_src/hager_zhang_linesearch.py:HagerZhangLineSearch", "jaxopt/_src/zoom_linesearch.py:ZoomLineSearch.init_state", "jaxopt/_src/zoom_linesearch.py:ZoomLineSearch.update", "jaxopt/_src/bfgs.py:BFGS.update", "jaxopt/_src/lbfgs.py:LBFGS.update", "jaxopt/_src/nonlinear_cg.py:NonlinearCG.update", "jaxopt/_src/anderson.py:AndersonAcceleration", "jaxopt/_src/fixed_point_iteration.py:FixedPointIteration"]}
