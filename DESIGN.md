# Formal model of google/jaxopt in Rocq (Coq 8.16.1)

## Method

Shallow Gallina models mirror the Python functions branch by branch; every definition cites file:lines in
/repo. Errors the code raises are values of an option/result type. External calls (user objectives, `jax.grad`, linear solvers)
are Section variables, so after the section closes they are explicit universally quantified premises.

## Number model

Python/JAX floats are idealised as Coq's real numbers (`Coq.Reals`). Vectors are `list R`, matrices lists of rows.
Rounding is not modelled. Where the code branches on infinities or NaN an explicit extended type is used.
Theorems are therefore about the algorithm in exact arithmetic.

## Trusted base

* Coq 8.16.1 kernel (and coqchk).
* Axioms (all from the standard library, via Coq.Reals): `ClassicalDedekindReals.sig_forall_dec`,
  `ClassicalDedekindReals.sig_not_dec`, `FunctionalExtensionality.functional_extensionality_dep`
  and, where classical case analysis is used, `Classical_Prop.classic`.
* The reading of the Python source into Gallina (citations beside every definition).

## Plan per property

* **C01** The three loop back-ends compute the same value. Model: Loop.v: the three back-ends over an arbitrary state type, iteration bounds in Z (a negative scan length is an error value). Proof: induction on the bound; refinement to 'iterate k times, k = first failure index capped by maxiter'.
* **C02** run() performs between 1 and maxiter updates and stops at the first iterate whose stopping condition holds. Model: Base.v: _run over an abstract solver record; None leaves as option. Proof: corollary of C01 plus case analysis on maxiter and flags.
* **C03** run_iterator consumes one batch for initialisation and then at most maxiter batches, one per update, in order. Model: Base.v: iterator = list prefix + optional end, islice as take. Proof: induction on the batch list.
* **C04** fun/grad/value_and_grad normalisation is consistent. Model: Base.v: six calling conventions as a sum type, jax.value_and_grad an oracle taking a function to its gradient. Proof: case analysis.
* **C05** Box-type projections return the unique nearest feasible point. Model: Proj.v over list R. Proof: coordinate-wise argument summed by induction; uniqueness from strict convexity.
* **C06** projection_simplex returns the unique nearest point of the scaled simplex. Model: Simplex.v: sort/cumsum/threshold exactly as in the code. Proof: variational inequality with the threshold; induction over the sorted list.
* **C07** projection_l1_ball and projection_l1_sphere return nearest points. Model: Proj.v/Simplex.v Proof: reduction to C06; refutation for zero coordinates on the sphere.
* **C08** projection_l2_ball and projection_l2_sphere return nearest points. Model: Proj.v Proof: Cauchy-Schwarz.
* **C09** Hyperplane, half-space and affine-set projections return the unique nearest point. Model: Proj.v Proof: variational inequality; affine set via KKT of C33.
* **C10** projection_box_section is the nearest feasible point up to the bisection tolerance. Model: BoxSection.v on top of Bisection.v Proof: KKT conditions in the multiplier; bracket lemma; refutation at the degenerate face.
* **C11** projection_sparse_simplex returns a nearest point of the simplex with bounded support. Model: SparseSimplex.v Proof: rearrangement argument on top-k.
* **C12** Projections are idempotent and non-expansive. Model: Proj.v Proof: from the variational inequality of each projection.
* **C13** Proximal operators return the unique minimiser of the documented objective. Model: Prox.v Proof: strong convexity/subgradient inequality, coordinate-wise; group lasso by Cauchy-Schwarz.
* **C14** prox_ridge / prox_non_negative_ridge return the minimiser of the documented objective. Model: Prox.v Proof: refutation of the docstring objective with a witness; proof for the objective actually minimised.
* **C15** Isotonic regression returns the optimal monotone fit. Model: Isotonic.v: the numba loop as a state machine with arrays. Proof: loop invariant (blocks) + variational inequality; termination by measure.
* **C16** Bisection maintains a root bracket and halves it. Model: Bisection.v Proof: invariant by induction over updates; IVT from the standard library.
* **C17** Losses are non-negative/convex and have the documented derivatives and conjugate structure. Model: Loss.v Proof: real analysis from Coq.Reals.
* **C18** Fenchel-Young losses are non-negative and vanish exactly at the prediction. Model: Loss.v Proof: definition of sup; sparsemax through C06.
* **C19** Backtracking line search returns only acceptable steps, or says it failed. Model: Backtracking.v Proof: invariant by induction over updates.
* **C20** Zoom line search returns a step satisfying the strong Wolfe conditions, or reports failure with a safe step. Model: Zoom.v Proof: invariant by induction over updates.
* **C21** Hager-Zhang line search: returned done step satisfies the (approximate) Wolfe conditions. Model: HagerZhang.v Proof: invariant by induction over updates.
* **C22** FISTA backtracking accepts only steps with the quadratic upper bound. Model: ProxGrad.v Proof: induction on the fuel.
* **C23** Proximal gradient fixed points are exactly the optimality points; descent and convergence rates. Model: ProxGrad.v Proof: standard ISTA/FISTA Lyapunov arguments, formalised for list R vectors.
* **C24** Polyak SGD step sizes are within bounds and contract the distance to any interpolating solution. Model: PolyakSGD.v Proof: algebra.
* **C25** Armijo SGD accepts only steps satisfying the sufficient decrease condition. Model: ArmijoSGD.v Proof: induction.
* **C26** BFGS keeps a symmetric inverse-Hessian approximation satisfying the secant equation; positive definite under positive curvature. Model: BFGS.v with matrices as functions/lists of rows. Proof: linear algebra over list R.
* **C27** L-BFGS two-loop recursion equals the explicit BFGS matrix built from exactly the last m pairs. Model: LBFGS.v Proof: induction over the history; modular arithmetic for the buffer.
* **C28** Broyden's limited-memory inverse Jacobian satisfies the secant equation and holds the last m updates. Model: Broyden.v Proof: induction; algebra.
* **C29** Anderson acceleration keeps the true Gram matrix of its stored residuals and mixes with weights summing to one. Model: Anderson.v Proof: invariant by induction; linear algebra.
* **C30** BoxCDQP keeps iterates feasible, never increases the objective, and stops only at minimisers. Model: CDQP.v Proof: per-coordinate quadratic argument, induction over coordinates.
* **C31** BlockCoordinateDescent keeps its cached predictions and gradients exact and never increases the objective. Model: BlockCD.v Proof: invariant by induction.
* **C32** The advertised column-wise Lipschitz constants are valid. Model: Objective.v Proof: quadratic expansions; refutation for the SVM dual with l2reg<1.
* **C33** EqualityConstrainedQP solutions are exactly the KKT points. Model: EqQP.v Proof: quadratic expansion.
* **C34** make_kkt_optimality_fun is zero at KKT points. Model: KKT.v Proof: convexity argument; witness for non-feasibility.
* **C35** BoxOSQP iterates keep z in the box, and exact residual-zero states are optimal. Model: OSQP.v with extended-real bounds Proof: invariant by induction over updates.
* **C36** OSQP infeasibility verdicts are justified. Model: OSQP.v Proof: refutation at a fixed point, and with infinite bounds.
* **C37** OSQP <-> BoxOSQP conversion preserves problem and solution. Model: OSQP.v Proof: list append/split lemmas.
* **C38** Implicit differentiation: root_jvp and root_vjp are adjoint and equal the implicit function theorem derivative. Model: ImplicitDiff.v with abstract linear maps Proof: algebra.
* **C39** Argument binding for implicit differentiation puts every gradient on the argument it belongs to. Model: ImplicitDiff.v: association-list model of inspect.Signature binding Proof: induction.
* **C40** Pytree arithmetic acts leaf-wise and obeys the vector-space laws. Model: Pytree.v: inductive trees Proof: structural induction.
* **C41** SciPy bridge round-trips pytrees and Jacobians. Model: Pytree.v Proof: structural induction.
* **C42** Ridge-regularised linear solves solve the regularised system. Model: LinearSolve.v Proof: algebra.
* **C43** Iterative refinement error is the true residual and contracts when the inner solver does. Model: LinearSolve.v Proof: induction.
* **C44** Fixed-point iteration converges for contractions and its error is the fixed-point residual. Model: FixedPoint.v Proof: Banach argument, induction.
* **C45** Levenberg-Marquardt never increases the objective and keeps damping within bounds. Model: LM.v Proof: case analysis + invariant; refutation of the documented stop test and NaN leakage.
* **C46** Gauss-Newton step solves the normal equations and stops at stationary points. Model: GaussNewton.v Proof: algebra.
* **C47** Nonlinear CG directions and reported error. Model: NonlinearCG.v Proof: case analysis; refutation for stale error and ignored method.
* **C48** L-BFGS-B: box, descent, positive definiteness. Model: Lbfgsb.v (Cauchy point loop, subspace minimisation, compact matrix, update, warm start). Proof: LbfgsbHess.v (quadratic form of the block matrix), LbfgsbCauchy.v (invariant of the breakpoint loop), LbfgsbSub.v (Newton step on the free coordinates), LbfgsbProofs.v; refutations: secant equation after wrap-around, tiny gradients, steps above 1.
* **C49** Perturbed maximisers: convexity and consistency of value and gradient. Model: Perturb.v (forward and JVP rules over a fixed noise sample; numpy broadcasting of shapes for make_perturbed_fun). Proof: finite sums; derivative of the log-density; induction over shapes for the refutation. Expectation over the noise (unbiasedness) is not modelled.
* **C50** Mirror descent with the KL / Euclidean geometry. Model: MirrorDescent.v Proof: algebra.
* **C51** Optimal-transport projections: dual certificates. Model: Transport.v Proof: weak duality via finite sums.
* **C52** SciPy robust losses match SciPy's definition. Model: Scipy.v Proof: case analysis; refutation for huber on negative residuals.
* **C53** Constructing solvers does not change caller-owned options. Model: Scipy.v: heap model of the options dictionary; open recursion of has_aux wrapper Proof: refutation.
* **C54** Line-search initial step strategies respect the bounds. Model: LineSearchUtil.v Proof: case analysis.
* **C55** Bisection accepts functions with auxiliary output. Model: Bisection.v: outputs as a sum type, comparisons of a tuple raise TypeError Proof: case analysis; refutation.
* **C56** Declared derivatives of projections. Model: ProjDeriv.v: the rules line by line, with the quotient and product rule of the scaling by value; isotonic rule as rows of block indicators. Proof: the active set (support, blocks) is locally constant under strict complementarity; the projection of the perturbed point is then identified by uniqueness.
* **C57** Linear operators, inner systems and optimality function of OSQP. Model: LinOp.v: trees of matrices (Pytree.v), vjp as a function with the derivative as specification, LU as an abstract exact factorisation, the optimality function as an instance of Kkt.v. Proof: adjoint identities leaf by leaf; quadratic form bounded below by sigma |x|^2; induction on the history of step sizes; stationarity in blocks through test vectors.
* **C58** Auxiliary outputs of the gradient solvers: state.aux, the final selection of run, options of ProjectedGradient. Model: AuxOut.v: Python tuples and None as pytrees, the raw return value of fun in each calling convention, init_state/_update/_update_accel with aux, tree_map(_where, is_leaf=None) on pytrees, the option record of ProjectedGradient and of its inner solver Proof: induction on the relation between the initial and the final pytree for the selection; projection of the loop with aux on the loop without
* **C59** OptaxSolver runs the Optax training loop. Model: Optax.v: pytrees of typed arrays with abstract promotion and rounding, tree_single_dtype, init_state, update, _apply_updates, run and run_iterator with exceptions; an inductive textbook loop as specification Proof: invariant over histories of batches; determinism of the textbook loop; explicit heavy-ball run for the refutation
* **C60** Gradients of a whole differentiable solver call: run(), custom_root, custom_fixed_point. Model: ImplicitRun.v: the flat custom_vjp call, its backward pass, how autodiff follows the arguments through the binding, run(), the references of the solver classes, inspect.Signature's checks. Proof: naturality of inspect's binding in the values (so that one binding serves all points of a curve), the sum of gradient times direction is preserved by the re-ordering, then the implicit function theorem C38_ift.
* **C61** Quadratic programs: CvxpyQP and gradients. Model: Cvxpy.v: check_params and run branch by branch with CVXPY's solve as a parameter (statuses, optional values, dual values), optimality_fun through the KKT model of C34, its derivative by the product rule on flattened data, the decorated calls through the model of custom_root (C60). Proof: C34 for the optimality of the answer; the product rule gives a Frechet derivative; second-order condition, independence and strict complementarity make it invertible; then C60_gradient. For EqualityConstrainedQP the conditions follow from C33's.
* **C62** SciPy wrapper runs on pytrees. Model: Bridge.v: SciPy as an arbitrary inductive interactive process; conversions with dtypes as roundings; the runs with the trace of user calls Proof: simulation between the pytree run and the flat run by induction on the process; C41 for the conversions; path derivatives for gradients and Jacobians
* **C63** Complex variables. Model: Complex.v and ComplexLS.v: complex arrays as lists of pairs, jnp.vdot, the three searches, L-BFGS and nonlinear CG with every tree_conj and tree_vdot_real where the code has it. Proof: simulation: a complex state and its image in the real models of C19-C21, C27 and C47 correspond after every step; the correspondence of gradients is proved from partial derivatives.
* **C64** Global convergence of L-BFGS. Model: Convergence.v: the run of L-BFGS over the update of QuasiNewton.v, as a result. Proof: eigenvalue bounds of the BFGS update with a pair whose curvature lies in [mu, L] (s.y >= mu |s|^2, |y|^2 <= L s.y by cocoercivity), by induction over the memory; Armijo plus a floor on the step gives the Polyak-Lojasiewicz contraction; a failed run of backtracking would contradict the descent lemma.
* **C65** Global convergence of BFGS. Model: the BFGS update of QuasiNewton.v and bfgs_solve of Convergence.v; Pivots.v and HessianApprox.v define trace and determinant (product of the pivots). Proof: Powell / Byrd-Nocedal: the inverse of the matrix is updated by two rank-one terms; its trace grows by at most L minus |Bs|^2/s.Bs, its determinant is multiplied by y.s/s.Bs, so the product of the relative decreases is bounded below; sums of logarithms give the rate.
* **C66** NonlinearCG: descent directions and convergence. Model: NonlinearCG.v (update, run), Zoom.v; NcgConvergence.v states Lipschitz gradients, strong Wolfe steps and the constant Proof: Al-Baali's induction on the slopes, growth of the directions, Zoutendijk's sum and the harmonic series; counterexamples computed through the zoom model
* **C67** Which options a run of a reconfigured solver object uses. Model: SolverObjects.v: attributes, construction, the two jit caches of an object, and the options a run reads. Proof: induction over histories, for both caches; concrete histories for the refutations.
* **C68** The optimality error and the reported error bound the distance to the solution. Model: OptError.v: l2_optimality_error over the optimality functions of ProxGrad.v, FixedPoint.v, CDQP.v and BlockCD.v. Proof: strong monotonicity and cocoercivity of the gradient; firm nonexpansiveness of the prox; for coordinate descent, a subgradient certificate at the end of each epoch.
* **C69** Linear convergence of the coordinate descent solvers. Model: CDQP.v and BlockCD.v; CDConvergence.v holds the problem classes and constants. Proof: sufficient decrease of an epoch plus an error bound: at the end of an epoch the distance travelled bounds a subgradient, which by strong convexity bounds the suboptimality.
* **C70** Accuracy of implicit derivatives at approximate solutions. Model: ImplicitDiff.v, LinSolve.v and FixedPoint.v; ImplicitError.v holds the specification. Proof: perturbation bound for the linear system at the approximate solution, the implicit function theorem C38 at the exact one, expansion of the Jacobian derived from strong convexity or contraction, and the distance bounds of C44 and C68.
* **C71** Differentiation through the iterations. Model: Unrolled.v: the run loop of FixedPoint.v on pairs of values and tangents, and the backward sweep; GradientDescent of ProxGrad.v. Proof: chain rule by induction over the iterations; continuity makes the stopping decisions locally constant; perturbed linear recursion for the tangents of a contraction. Refuted: a run started at the solution stops at once with a wrong derivative; a run whose error equals the tolerance is discontinuous.
* **C72** Gauss-Newton converges near a solution. Model: GaussNewton.v (the program); GNConvergence.v (Jacobian along lines, region, rate). Proof: mean-value theorem for the linearisation error, normal equations, induction over the iterations, run_loop specification; the divergence example is solved in closed form.
* **C73** Levenberg-Marquardt reaches every gradient tolerance. Model: LM.v (the program); LMConvergence.v (smoothness class, guaranteed decrease). Proof: each update either decreases the objective by a fixed amount or multiplies a small damping by 9/8; double budget argument by induction over the loop; mean-value theorem for the smoothness class; the stuck run by an invariant of the damping.
* **C74** ArmijoSGD converges when the batches share a minimiser. Model: ArmijoInterp.v states the setting and the constants; the program is StochGrad.v (armijo_update, armijo_iterate). Proof: each accepted step satisfies the Armijo inequality because a step of 2 aggressiveness/L is reachable; combined with convexity this bounds the squared distance; induction over the updates. Divergence: the exact iterates (-3)^k are computed for two half-steep parabolas.
* **C75** The zoom line search finds a step on smooth functions. Model: ZoomSuccess.v (specification); the program is Zoom.v. Proof: Invariants of the live states: the low end satisfies sufficient decrease without curvature, the slope at low points to high, and high violates the decrease or rises above low; the mean value theorem then bounds the bracket from below while every zoom iteration shrinks it by a fixed factor; the counterexample follows the bisection through three trials and shows that the slope on the remaining bracket is too large everywhere.
* **C76** BFGS and L-BFGS with the zoom line search converge on quadratics. Model: composition of the LBFGS / BFGS run loops (QuasiNewton.v, Convergence.v) with the zoom search (Zoom.v) on quadratics (ZoomRuns.v) Proof: eigenvalue bounds of the inverse Hessian approximations (C64, C65) give a bound on direction against slope, so that C75 applies with the same maxls at every iteration; on a quadratic the approximate decrease test implies the exact one, hence the Wolfe conditions and a linear rate; counterexample with a piecewise quadratic of large minimum
* **C77** Anderson acceleration converges on affine contractions. Model: Anderson.v (run, history, mixing weights) on maps that are affine contractions (AndersonConvergence.v) Proof: the weights minimise a ridge-regularised objective, compared with uniform weights (whose norm is minimal) and with unit weights; residual of the mixed point by affinity; strong induction over the window of m residuals; explicit 4-cycle of a piecewise linear map
* **C78** Dual solutions of the multiclass linear SVM solve the training problem. Model: SvmDual.v: the primal problem, the dual objective through comp_call of Objective.v, the recovered weights Proof: exact identity for the duality gap (SvmDualProofs.v); optimality along the segment to the row-wise argmax gives a zero gap; variational inequality of the simplex projection bounds the gap by the residual
* **C79** Broyden with unit steps converges. Model: The Broyden model of C28, run by run_loop, with the Jacobian approximation its history inverts Proof: Bounded deterioration of the Jacobian error by induction along the run; for affine systems the squared Frobenius error drops by |F(x_{k+1})|^2/|dx|^2 at every update, and the inequality of arithmetic and geometric means turns the sum into the rate
* **C80** Coordinate descent converges on convex problems without strong convexity. Model: CDQP.v and BlockCD.v (existing), SvmDual.v Proof: Per-epoch inequality d'^2 <= K (d - d') from the certificate of an epoch and Young's inequality, then induction on t; the SVM duality gap from the dual suboptimality by moving towards the maximising vertices.
* **C81** The solutions that the solvers approximate exist, and the iterates converge to them. Model: Existence.v (closed, bounded, lower semi-continuous), on the models of CDQP.v, ProxGrad.v, BlockCD.v, SvmDual.v, Transport.v Proof: extreme value theorem for lists of reals (Compact.v, by induction on the dimension), coercivity of level sets for the lasso and the transport duals, Banach fixed point for composite problems; with C51, C78, C80
* **C82** Quasi-Newton solvers with the Hager-Zhang line search on quadratics. Model: HagerZhang.v as the run_ls of QuasiNewton.v and Lbfgsb.v (HzRuns.v) Proof: the bracket is (e^(j-1), e^j) around the minimiser and the secant of a parabola is exact; the reported step is replaced by the true one by a simulation, then the rates of C64 and C65 apply
* **C83** l2_optimality_error of the quadratic programming solvers. Model: the three methods over the modelled optimality functions and the OSQP to BoxOSQP conversion Proof: explicit sums of squares for the error; KKT equivalences of C33, C37, C57; strong convexity and Cauchy-Schwarz for the distances
* **C84** L-BFGS-B converges over a box and its run meets the tolerance. Model: LbfgsbConvergence.v (run of LBFGSB over the updates of Lbfgsb.v) Proof: eigenvalue bounds of the compact matrix over the stored pairs; decrease of the Cauchy point; steps bounded below by the line searches; linear decrease of the gap by the variational inequality of the projection
* **C85** Option names: a wrong name is an exception, not a different algorithm. Model: Options.v (string options in front of the solver models; a run whose update and stopping test may raise, traced under jit) Proof: Case analysis on names, induction over the loop; accepted names are shown to give the runs of the other models.
* **C86** Evaluation counters count the evaluations. Model: Calls.v runs the models of the searches and solvers and writes down each call of the function made by _make_funs_with_aux. Proof: an invariant between counters and log over all updates; another objective that answers the logged calls alike gives the same run.

<!-- generated -->

## What is modelled, per file of jaxopt/_src

| file | model | modelled | not modelled |
|---|---|---|---|
| anderson.py | Anderson.v, Calls.v | init_state, update, minimize_residuals, buffers, optimality_fun, run, evaluation counter | verbosity, jit flags |
| anderson_wrapper.py | Anderson.v | init_state, update over an abstract base solver | constructor checks |
| armijo_sgd.py | StochGrad.v, ArmijoInterp.v, Options.v | coef/interpolation, reset_stepsize and its option name, armijo_line_search, init_state, update, momentum, constructor checks | pre_update, aux, counters |
| backtracking_linesearch.py | Backtracking.v, Complex.v, Options.v, Calls.v | init_state, update and all four conditions with non-finite values, run, counters, complex parameters, the condition option | verbosity |
| base.py | Base.v, Run.v, Objective.v, AuxOut.v, ImplicitRun.v, OptError.v, SolverObjects.v | _run, run_iterator, loop options, make_funs_with/without_aux, LinearOperator, line-search run, implicit differentiation of run, l2_optimality_error | log_info text, jit caching |
| bfgs.py | QuasiNewton.v, Options.v, Calls.v | init_state, update (all line-search choices, fixed steps), inverse-Hessian update, line-search option, counters with the backtracking and zoom searches | complex parameters, counters with the Hager-Zhang search, num_linesearch_iter |
| bisection.py | Bisection.v | constructor range checks, init_state, update, run, has_aux | vmap of the solver |
| block_cd.py | BlockCD.v | init_state, update (caches, block loop), optimality_fun, error | dtype of the block index |
| broyden.py | Broyden.v, Options.v | inv_jacobian_product per leaf, init_state, update, gamma, buffers, line-search option | verbosity, counters |
| cd_qp.py | CDQP.v | init_state, body, update, optimality_fun, default step | - |
| cond.py | - | - | a wrapper of lax.cond / Python if |
| cvxpy_wrapper.py | Cvxpy.v | the variables and constraints handed to CVXPY, the returned KKT solution, status errors, implicit differentiation | the algorithm inside CVXPY (any solver that returns what it promises) |
| eq_qp.py | EqQP.v | matvec construction, KKT system, run with and without refinement, ridge, optimality_fun | choice among named linear solvers (they are in LinSolve.v) |
| fixed_point_iteration.py | FixedPoint.v, Unrolled.v, Calls.v | all, derivatives through the unrolled loop, evaluation counter | verbosity |
| gauss_newton.py | GaussNewton.v | all; CG is a parameter | verbosity |
| gradient_descent.py | ProxGrad.v | init_state, update, optimality_fun by delegation with prox_none | - |
| hager_zhang_linesearch.py | HagerZhang.v, HzRuns.v, ComplexLS.v, CallsHz.v | all steps: bracket, secant2, update, satisfy conditions, run, counters, complex parameters | max_stepsize is unused by the code |
| implicit_diff.py | ImplicitDiff.v, ImplicitRun.v, ImplicitError.v, Kkt.v | root_jvp, root_vjp, signature binding and argument splitting of custom_root, custom_fixed_point, whole calls with has_aux, KKT optimality function | jax.custom_vjp/custom_jvp registration |
| isotonic.py | Isotonic.v, ProjDeriv.v | the PAV loop on arrays, direction, bounds, dtypes, the declared derivative | pure_callback, numba compilation |
| iterative_refinement.py | IterRefine.v | init_state, update, run, default solver | operator-form A and A_bar are matrices |
| lbfgs.py | QuasiNewton.v, Complex.v, Options.v, Calls.v | two-loop recursion, gamma, buffers, init_state, update, complex parameters, counters with the backtracking and zoom searches | counters with the Hager-Zhang search, num_linesearch_iter |
| lbfgsb.py | Lbfgsb.v | all numerical parts | aux, counters, verbosity |
| levenberg_marquardt.py | LM.v, Options.v | init_state, update (cholesky, inv, qr, cg paths), geodesic step, damping, stop test and its option names, NaN behaviour | verbosity |
| linear_operator.py | LinOp.v, Objective.v | dense and functional operators: products, column norms, row and column access | - |
| linear_solve.py | LinSolve.v | all solvers, materialisation, ridge, normal equations, gmres/bicgstab/cg calls | the Krylov iterations of jax.scipy (assumed exact) |
| linesearch_util.py | QuasiNewton.v | _reset_stepsize, _init_stepsize, _setup_linesearch | - |
| loop.py | Loop.v | all three back-ends | tracing and compilation |
| loss.py | Loss.v | all losses, make_fenchel_young_loss, conjugates | vmap over batches |
| mirror_descent.py | Mirror.v | make_kl_projection/Euclidean mirror maps, update, optimality_fun, error, schedule | verbosity |
| nonlinear_cg.py | NonlinearCG.v, Complex.v, Options.v, Calls.v | directions (three formulas), init_state, update, error, line searches as parameter, method option, counters with the backtracking and zoom searches | counters with the Hager-Zhang search, num_linesearch_iter |
| objective.py | Objective.v, BlockCD.v | subfun, gradients, column-wise Lipschitz constants, SVM dual | - |
| optax_wrapper.py | Optax.v | init_state, update, pre_update, dtype casts, run, run_iterator, exceptions; the optimiser is arbitrary | the optimisers of Optax, verbosity |
| osqp.py | Osqp.v, OsqpConverge.v, OsqpConvert.v, LinOp.v, Options.v | BoxOSQP init/update/run, step sizes, residuals, infeasibility tests, OSQP conversion both ways, fun mode, choice of the inner solver and its option names, optimality functions | tracing of check_primal_dual_infeasability=False, internals of preconditioned CG and LU (exact solver) |
| perturbations.py | Perturb.v | make_perturbed_argmax / max / fun: forward values and JVP rules | random sampling (any fixed sample), expectation |
| polyak_sgd.py | StochGrad.v, Options.v | init_state, update, max_stepsize, momentum, variant option | pre_update, counters, __hash__ |
| projected_gradient.py | ProxGrad.v, AuxOut.v | delegation to ProximalGradient with prox = projection, options handed on, aux | - |
| projection.py | Proj.v, BoxSection.v, SparseSimplex.v, Transport.v, EqQP.v, OsqpConvert.v, ProjDeriv.v | every public projection, declared derivatives of the simplex projections | approx_max_k |
| prox.py | Prox.v | every operator | - |
| proximal_gradient.py | ProxGrad.v, AuxOut.v | fista_line_search, iterations, stepsize logic, optimality_fun, error, aux | verbosity |
| scipy_wrappers.py | Scipy.v, Pytree.v, Bridge.v | pytree bridge, Jacobian assembly, option dictionaries, has_aux wrapping, least-squares costs, the call protocol and the returned info | the scipy.optimize algorithms |
| test_util.py | - | - | helpers of the test-suite, not part of the API |
| tree_util.py | Pytree.v, Complex.v | all arithmetic on real leaves; inner product, norm and conjugate on complex leaves | other complex arithmetic |
| zoom_linesearch.py | Zoom.v, ZoomRuns.v, ComplexLS.v, Calls.v | init_state, update (bracket and zoom), interpolation, safe step, run, counters with and without aux, complex parameters | failure_diagnostic text, verbosity |

Not modelled anywhere: floating-point rounding and overflow, jit/vmap tracing, device placement, wall-clock behaviour, random number generation.

## Findings

Clauses a user would expect (documentation or name) that are false of the unchanged code; each has a theorem with a concrete witness.

* `C07_l1_sphere_inside_refuted` (C07): an input inside the ball with a zero coordinate is mapped strictly inside the ball.
* `C07_l1_sphere_refuted` (C07): the zero vector is mapped to the zero vector, which is not on the sphere.
* `C09_polyhedron_refuted` (C09): The default check_feasible=True rejects non-empty polyhedra: projecting the origin onto any polyhedron that contains it raises "The polyhedron is empty.", while check_feasible=False returns it.
* `C10_degenerate_refuted` (C10): Finding: on the feasible section {0 <= y <= 1, y = 0} the result is 1 - 2^-30, accepted by check_feasible and far from the only feasible point.
* `C14_prox_non_negative_ridge_refuted` (C14): the same for the non-negative version.
* `C14_prox_ridge_refuted` (C14): the documented objective has penalty scaling * l2reg * ||y||^2; the operator minimises half of that penalty.
* `C15_integer_input_refuted` (C15): Finding: with an integer input the block means are truncated to integers ([sol.astype(y.dtype)]), and the result is not optimal: [0; 1], decreasing.
* `C16_root_at_lower_refuted` (C16): Finding: the documented requirement is that a root be contained in [lower, upper]; a root at the lower end is nevertheless rejected.
* `C20_done_implies_curvature_refuted` (C20): "done" alone does not imply the strong Wolfe curvature condition that the class documents: on a linear objective the search stops at max_stepsize with done set, failed unset and the curvature condition violated.
* `C21_done_and_failed_refuted` (C21): Finding 2: a NaN met after the bracket was formed sets [failed] although an acceptable step is known: done and failed are reported together. phi(c) = -c + 0.4 c^2 below 5, NaN from 5 on.
* `C21_failure_lost_refuted` (C21): Finding 3: when the objective is NaN at step 1 the recorded failure is overwritten: the search stops after one update, reports neither done nor failed, and returns parameters at which the objective is NaN. phi(c) = -c below 1, NaN from 1 on.
* `C21_opposite_slope_refuted` (C21): Finding 4: the bracket need not satisfy the opposite-slope condition announced in the comments: step U3 halves the old interval instead of the new one. phi(c) = 2c - 3 sin(4 pi c)/(4 pi): the initial bracket is [0, 1/2] with slope -1 at 1/2.
* `C21_returned_step_refuted` (C21): Finding 1: if the initial bracket already contains an acceptable step, the step returned is the caller's initial step, which the documentation says is ignored; it is not the step at which the returned parameters were computed. f(x) = (x - 3/5)^2 from 0 in direction 1: the returned parameters are [1], the returned step is the caller's, and with initial step 100 that step increases f.
* `C23_accelerated_error_refuted` (C23): With acceleration (the default) a zero error does not mean a fixed point: on x^2/2 from x0 = 1, for a suitable constant step below 1/L, [run] with tol = 0 stops after 4 of 100 iterations reporting error 0 at a point that is not the minimiser.
* `C23_line_search_error_refuted` (C23): With the line search the reported error does not use the step that was taken: on x^2/2 from 1 the step taken is 1 and moves by 1, and the error reported is 1/2.
* `C24_nan_at_minimum_refuted` (C24): But with the default options (SPS_max, delta = 0) an update at an exact minimiser divides 0 by 0: the step and the parameters become NaN.
* `C25_min_stepsize_refuted` (C25): the documented lower bound min(1/L, max_stepsize) on accepted Armijo steps fails for aggressiveness 0.6, decrease_factor 0.5.
* `C25_value_refuted` (C25): With momentum the field documented as "current value of the loss" is not the loss at the returned parameters: second update of f(x) = x^2/2 with momentum 1/2.
* `C26_descent_refuted` (C26): without positive curvature (backtracking does not enforce it) the BFGS direction can be an ascent direction.
* `C27_zero_curvature_refuted` (C27): A pair with zero curvature and y <> 0 is skipped, but still sets gamma to 0: with f(a,b) = a + ab, memory 1 and step 1 from (0,0), the second direction is zero although the gradient is not.
* `C28_multi_leaf_refuted` (C28): With parameters spread over two leaves the secant equation fails at the first update: the products are taken leaf by leaf, so the inner product d.v lacks the other leaves' parts. The same problem in one array satisfies it (C28_secant).
* `C28_wrap_refuted` (C28): After the buffer wraps (k >= history_size) the secant equation is lost: with one stored pair, the second update no longer maps dF to dx.
* `C29_error_refuted` (C29): Anderson's state.error is the residual of the iterate before the returned one.
* `C30_zero_diagonal_refuted` (C30): A coordinate with a zero diagonal entry is never moved inside the box: on min x over [-1, 1], written with Q = 0 (a symmetric PSD matrix), the solver started at 0 stays there and reports error 0, although -1 is better.
* `C31_svm_dual_refuted` (C31): With the constants of the SVM dual (C32) the objective can increase: one update of the documented set-up, projection onto the simplex, takes it from 0 to 2.
* `C31_zero_column_refuted` (C31): A zero constant (a zero column in the data) makes the step size infinite: the first update loses the parameters, from every starting point, state and prox, although the problem is perfectly well posed.
* `C32_svm_dual_refuted` (C32): With l2reg < 1 the advertised constants are too small, for every data set with a non-zero example: objective.py:327-330 forgets the division by l2reg.
* `C33_fun_pytree_refuted` (C33): C33, where the code falls short (1): "supports pytrees and quadratic functions" -- but not both: with [fun], variables held in a container always fail.
* `C33_nonsymmetric_refuted` (C33): a non-symmetric Q is used as it is in the KKT system; the result is not the minimiser.
* `C34_zero_alone_refuted` (C34): the optimality function can be zero at an infeasible point or with a negative multiplier.
* `C35_nan_refuted` (C35): The documented guarantee fails for the default options: on this strictly convex, feasible problem the very first step-size update is 0/0, and however many iterations follow the run returns NaN with status UNSOLVED.
* `C36_feasible_refuted` (C36): "feasible bounded problems are never reported infeasible" is false: this strictly convex problem, whose solution 1/10 is interior, raises ValueError("Primal infeasible.") with jit=False and otherwise default options, from the default start.
* `C36_warm_start_refuted` (C36): Worse: with the tests enabled, EVERY problem warm-started at its own solution is reported primal infeasible (jit=True) or raises ValueError (jit=False).
* `C37_empty_block_refuted` (C37): ...whereas without matvec an equality (inequality) block with no row gets the whole dual vector back: the duals no longer fit the constraints.
* `C39_skipped_default_refuted` (C39): a call that skips a default argument and passes a later one by keyword runs, but its backward pass raises TypeError.
* `C40_broadcast_refuted` (C40): broadcasting in tree arithmetic fails for trees without leaves or empty containers.
* `C40_empty_refuted` (C40): A tree without leaves: the reductions raise instead of returning the neutral element, except for vdot_real.
* `C40_mean_refuted` (C40): tree_mean is the mean of the leaf means, not of the entries.
* `C42_cholesky_matrix_refuted` (C42): C42, where the code falls short: solve_cholesky accepts matrices b according to its text, but always raises ValueError on them (the tensor A is not reshaped), while solve_lu succeeds.
* `C43_warm_start_refuted` (C43): C43, where the code falls short: init_params is documented as a warm start, but the first residual handed to the solver is b, not b - A init_params. With an exact solver the first update returns init_params + A^-1 b, whose error is |A init_params|: a perfect warm start ends up as wrong as the zero vector.
* `C45_geodesic_refuted` (C45): with geodesic acceleration an accepted step may increase the objective.
* `C45_jac_fun_refuted` (C45): Constructor: materialize_jac=True with a user-supplied jac_fun fails with AttributeError.
* `C45_overflow_refuted` (C45): Overflow at the trial point: the step is rejected and the parameters stay, but 0 * inf leaks into the state, whose damping factor and value become NaN. Here y, g, M are the residual, gradient and Jacobian held at params.
* `C45_stationary_refuted` (C45): A stationary point (gradient exactly 0): the parameters are kept, but the gain ratio is 0/0 and the damping factor becomes NaN.
* `C45_stop_refuted` (C45): the documented xtol convergence does not stop the loop.
* `C47_backtracking_refuted` (C47): with linesearch='backtracking' the method option has no effect: the iterates are those of gradient descent.
* `C47_early_stop_refuted` (C47): So run() can stop, its error below tol, at parameters whose gradient norm is above tol, although the line search decreased the objective: f(x) = -x^2/2 from 1 with tol 1.
* `C47_error_refuted` (C47): NonlinearCG's state.error is the gradient norm at the previous parameters.
* `C48_long_step_refuted` (C48): Steps longer than 1 are not projected back: with a line search that may return the step 2 the iterate leaves the box.
* `C48_secant_wrap_refuted` (C48): Once the buffer has wrapped around, the newest pair may sit in a slot before older ones; the strictly lower triangle of S Y^T is taken in buffer order all the same, and B no longer satisfies the secant equation of the newest pair.
* `C48_tiny_gradient_refuted` (C48): The gradient condition of C48_feasible is needed: an entry smaller than eps is not zero to the algorithm, but its breakpoint is taken to be infinite, so that a coordinate at its bound moves out of the box.
* `C49_control_variate_refuted` (C49): With control_variate=True the rule fails for every output that is not a scalar, although the documentation allows outputs of any shape: output_pert has a trailing axis of length 1 that output has not.
* `C50_stopping_refuted` (C50): With larger steps the solver can stop although the documented criterion is far from met: minimising -x over [0, 1] from 0 with step 100 and tol 1/100, the first update already reports an error of 1/100, while |x - projection_grad(x, g, 1.0)| = 1.
* `C51_birkhoff_nonsquare_refuted` (C51): ... and accepts a matrix that is not square, for which no doubly stochastic matrix exists and no solver can converge.
* `C51_documented_marginals_refuted` (C51): The docstrings state P^T 1 = a and P 1 = b; the columns of what the semi-dual path returns always sum to b.
* `C51_zero_marginal_refuted` (C51): A zero marginal makes the entropic semi-dual objective NaN everywhere; with positive marginals it is the real value.
* `C52_documented_cost_refuted` (C52): So with two or more residuals the cost is not the documented 0.5 * sum(...), except when that is zero.
* `C52_huber_stationary_refuted` (C52): With the Huber loss the stationary points differ: for the residuals (x - 10, 2 x) SciPy's cost is stationary at 1/4, where the derivative of the implemented cost - the optimality function used for implicit differentiation - is -35/8.
* `C53_has_aux_refuted` (C53): has_aux = False: the caller's function is called. has_aux = True (ScipyRootFinding, ScipyLeastSquares): no call ever returns, whatever the function, the argument and the recursion limit.
* `C53_least_squares_shared_refuted` (C53): Without options every least-squares solver holds the one module-level dictionary: an assignment through any of them is read by all of them, and by every solver constructed later.
* `C53_minimize_reuse_refuted` (C53): A dictionary passed to ScipyMinimize can never be passed again: whatever the program does in between, every later construction with it raises ValueError.
* `C54_initial_guess_exceeds_max_refuted` (C54): max_stepsize is documented as an upper bound on the step. The initial guess of the default strategy can exceed it; backtracking and zoom receive max_stepsize and cap their steps (C19, C20), Hager-Zhang does not receive it.
* `C55_has_aux_refuted` (C55): C55: has_aux=True is documented, but the initial bracket test compares the raw return value, so every function that returns (value, aux) raises TypeError.
* `C56_isotonic_exact_refuted` (C56): The tangent of isotonic regression is divided by (block size + 1e-8): it is never the exact derivative unless that is zero (relative error below 1e-8).
* `C56_isotonic_tolerance_refuted` (C56): Fitted values that differ by less than 1e-8 are treated as one block by the derivative of isotonic regression: at (0, 5e-9) the solution is the identity but the tangent of (1, 0) is about (1/2, 1/2).
* `C57_fun_refuted` (C57): BoxOSQP(fun=...): the optimality function, used by l2_optimality_error and implicit differentiation, calls fun on the pair (x, z) instead of x; a function written for x as documented raises (or silently computes something else).
* `C57_jacobi_pytree_refuted` (C57): eq_qp_solve='cg+jacobi' is documented for pytrees of matrices, but the preconditioner adds the number sigma to the pytree of diagonals with tree_add: with matrices in a container it raises ValueError.
* `C57_lu_matvec_refuted` (C57): eq_qp_solve='lu' together with matvec_Q is accepted silently: the system is built from params_Q taken as the matrix, not from matvec_Q ('cg+jacobi' raises ValueError in the same situation).
* `C58_projected_solve_refuted` (C58): ProjectedGradient does not hand implicit_diff_solve to its inner ProximalGradient (projected_gradient.py:148-161): the linear solver chosen by the user is silently ignored when run() is differentiated.
* `C58_vg_refuted` (C58): ProximalGradient.init_state (proximal_gradient.py:181-182) unpacks `_, aux = self.fun(...)` although with value_and_grad=True fun returns ((value, aux), grad): the initial state.aux is the gradient. run() then raises TypeError for a container aux and returns a scalar aux broadcast to the shape of the parameters (also GradientDescent and ProjectedGradient).
* `C59_error_refuted` (C59): OptaxSolver.state.error is the gradient norm before the last update (optax_wrapper.py:142-143): with a stateful optimiser run() can stop with error 0 and return parameters far from stationary.
* `C60_insert_refuted` (C60): ProximalGradient, MirrorDescent, LBFGSB and BlockCoordinateDescent insert a parameter at position 1 of the objective's signature: an objective whose parameters are only *args and **kwargs (or whose first parameter has a default) makes the constructor raise ValueError, although it can be called as documented and GradientDescent accepts it.
* `C60_keywords_refuted` (C60): GaussNewton, LevenbergMarquardt, ScipyMinimize and ScipyLeastSquares set no reference_signature and have a catch-all optimality_fun: run(init, ..., k=v) works, but differentiating it is a TypeError for every keyword argument.
* `C60_wrapper_refuted` (C60): AndersonWrapper reads solver.reference_signature (anderson_wrapper.py:181): wrapping GaussNewton, LevenbergMarquardt, Bisection or ProjectedGradient is an AttributeError at construction, although the documentation asks for init() and update() only.
* `C61_inaccurate_refuted` (C61): CvxpyQP.run raises for the statuses "infeasible" and "unbounded" only (cvxpy_wrapper.py:142): for CVXPY's infeasible_inaccurate, unbounded_inaccurate or infeasible_or_unbounded the values are None and run returns jnp.array(None), NaN, as solution.
* `C62_bounds_dtype_refuted` (C62): Rounding SciPy's vector to the dtype of the initial parameters can leave the bounds when these are not values of that dtype: integer parameters with lower bound 1/2 come back as 0.
* `C62_lbfgs_tree_refuted` (C62): LbfgsInvHessProductPyTree.tree_unflatten validates its children (scipy_wrappers.py:63-64, 83-85), so tree_map with a function that returns anything but matrices, for instance a per-leaf sum of the information of a run, raises AttributeError or ValueError.
* `C62_ls_default_method_refuted` (C62): ScipyLeastSquares and ScipyBoundedLeastSquares inherit method=None (scipy_wrappers.py:261), which scipy.optimize.least_squares rejects: constructed without a method, every run fails.
* `C63_gradient_descent_refuted` (C63): On complex variables jax.grad returns the conjugate of the gradient. GradientDescent (like every solver other than LBFGS and NonlinearCG) uses it as is and raises no error: from z = i every step of GradientDescent on |z|^2 increases the objective. The documentation claims complex support only for LBFGS, NonlinearCG and the line searches.
* `C66_curvature_refuted` (C66): Fletcher-Reeves with the default curvature constant 0.9 can also search uphill, on x^2/2 after two strong Wolfe steps.
* `C66_descent_refuted` (C66): NonlinearCG with its defaults (polak-ribiere, zoom line search with curvature constant 0.9, max_stepsize 1) can search uphill: on f(x) = 0.9 x^2 from 1 the first step passes the line search and the next direction is an ascent direction. The class does not let the user set the curvature constant unless a line search instance is passed.
* `C67_max_stepsize_refuted` (C67): Assigning max_stepsize on a constructed solver changes the initial guess of the line search but not its cap: the search starts at 10 with a cap of 1.
* `C67_maxls_refuted` (C67): Assigning maxls or linesearch on a constructed solver changes the attribute and nothing else: runs keep the line search built at construction.
* `C67_set_stepsize_refuted` (C67): With jit (the default), assigning stepsize after a run has no effect for arguments of the same shapes: the object's attributes equal those of a new solver, and the two return different results.
* `C67_set_tol_refuted` (C67): With jit and implicit_diff=False, assigning tol after a run has no effect until maxiter or the shapes change; with implicit_diff=True it has.
* `C68_bcd_lower_bound_refuted` (C68): block_cd.py:144 calls the reported error "a cheap-to-compute lower-bound of self.l2_optimality_error"; for a 1x1 least squares problem it is 1 while l2_optimality_error is 1/4 before and 0 after the update. (C68_bcd_run: it is an upper bound up to a constant.)
* `C71_at_tolerance_refuted` (C71): With implicit_diff=False, the point returned by run is a discontinuous function of the arguments where a tested error equals tol; autodiff still returns a finite derivative there.
* `C71_warm_start_refuted` (C71): With implicit_diff=False, a run warm-started at the solution stops after one iteration with error 0 and returns the derivative of one step of the map instead of the derivative of the solution (1 instead of 2 in the example), for every tolerance: the stopping test only looks at the values, not at the tangents.
* `C72_large_residual_refuted` (C72): GaussNewton is repelled by the minimiser of the residuals (x + 1, -2x^2 + x - 1), whose sum of squares is strongly convex and whose Jacobian has full rank everywhere: from every 0 < |x| <= 1/20 each update moves at least 3/2 times as far away. There is no step-size control or safeguard.
* `C73_cap_refuted` (C73): LevenbergMarquardt caps the damping at 2^32 whatever the units of the parameters. For r(x) = u/sqrt(1+u^2), u = 10^6 x, from x = 2e-6, every step is rejected for ever: run() returns the initial point after maxiter iterations with gradient norm 8e4, although r(0) = 0.
* `C74_default_refuted` (C74): ArmijoSGD with its default options (aggressiveness 0.9) diverges on convex, 4-smooth batch objectives that share the minimiser 0, the interpolation setting its documentation assumes: on two parabolas with one steep side each, taken in turn, every default step is 1 and the iterates are (-3)^k. Convergence holds for aggressiveness at most 1/2 (C74_total_loss).
* `C75_nonconvex_refuted` (C75): The zoom line search accepts a low end on the approximate sufficient-decrease test (value not above the initial one and slope at most (2 c1 - 1) times the initial slope). When c2 < 1 - 2 c1 and the function is not convex along the line, the bracket that follows need not contain an acceptable step: on a polynomial of degree 11 that has acceptable steps the search fails for every maxiter.
* `C76_increase_refuted` (C76): The zoom search's approximate decrease test accepts any step whose value is at most f + c3 |f| when the slope has become small enough. On an objective with a large minimum the accepted step may increase the objective: L-BFGS with all default options goes from 1 to -2 on a strongly convex function (1e6 plus a piecewise quadratic), where the value is larger, and failed stays False. Adding a constant to the objective changes the accepted steps.
* `C77_nonaffine_refuted` (C77): AndersonAcceleration has no safeguard: for every ridge > 0 there is a 3/4-contraction of the line (piecewise linear with two bends) on which a run with history_size=2 and mixing_frequency=2 cycles through four points forever, although plain fixed-point iteration converges on it from every start.
* `C81_zero_row_refuted` (C81): Entropic transport with a zero entry in the first marginal: the polytope is not empty, but neither dual problem handed to the inner solver has a minimiser; nothing checks this, and the solver diverges along an unbounded direction.
* `C82_lbfgsb_leaves_box_refuted` (C82): L-BFGS-B with linesearch="hager-zhang": the search ignores max_stepsize, and its steps above 1 take the iterate out of the box, without any projection and without reporting a failure (f = x + (x - 1/2)^2/20 on x >= 0 from 1/2).
* `C82_spurious_failure_refuted` (C82): Hager-Zhang search: when the end of the bracket is exactly the minimiser of the line, the update that runs anyway takes the secant of that point with itself (0/0), and the search reports failed = True together with done = True at the exact minimiser; with stop_if_linesearch_fails=True L-BFGS then stops after one iteration at a point that is not within tol (f = (3 x1^2 + x2^2)/4 from (2/3, 2)).
* `C83_osqp_infeasible_refuted` (C83): OSQP.l2_optimality_error does not see infeasibility: at any unconstrained minimiser with zero multipliers it is 0, however far A x is from b and however much G x exceeds h (z is set to A x, and the bounds only enter multiplied by the multipliers); EqualityConstrainedQP reports |A x - b| at the same point
* `C85_auto_refuted` (C85): unroll and check_primal_dual_infeasability: any non-empty string other than 'auto', such as 'False' or 'Auto', counts as True and nothing is raised.
* `C85_lm_stop_refuted` (C85): LevenbergMarquardt refuses the stop_criterion 'grad-l2' of its documentation; without jit a run with maxiter=1 accepts every name.
* `C85_osqp_default_refuted` (C85): OSQP documents check_primal_dual_infeasability=True as default; the default object (jit=True) never reports infeasibility on any problem.
* `C86_grad_count_refuted` (C86): ZoomLineSearch adds one to num_grad_eval for a call of the function alone (zoom_linesearch.py:684-687), so with the default line search BFGS, L-BFGS and nonlinear CG report one gradient too many per iteration.
* `C86_value_and_grad_refuted` (C86): with value_and_grad=True every call of fun computes a gradient; the Armijo and Goldstein searches count only the final one.

Seen while reading, not formalised:

* run_iterator uses the first batch for init_state only; it is not used for an update (C03 states this).
* hess_inv returned by scipy.optimize in a type other than ndarray / LbfgsInvHessProduct leaves the variable unbound (UnboundLocalError).
* the documentation of OSQP gives 1e-4 as default of primal_infeasible_tol and dual_infeasible_tol; the code has 1e-3.
* LevenbergMarquardt.contribution_ratio_threshold has no annotation, so it is not a constructor option.

## Print Assumptions, theorem by theorem

Every theorem of MANIFEST.json, grouped by exactly what `Print Assumptions` lists.

**Closed under the global context (no axioms)** (61): C01_backends_agree, C01_negative_bound, C01_rejected_combination, C02_auto_unroll, C02_run, C02_run_zero, C02_state_unchanged, C03_run_iterator, C03_run_iterator_errors, C04_make_funs_without_aux, C29_constructor, C37_no_constraints, C39_forward, C39_gradients, C39_match, C39_resolvable, C39_skipped_default_refuted, C40_broadcast, C40_broadcast_leaves, C40_broadcast_mismatch, C40_broadcast_refuted, C40_where, C40_where_scalar, C41_empty, C41_inverse, C41_round_trip, C45_jac_fun_refuted, C53_has_aux_refuted, C53_minimize, C53_minimize_default, C54_setup, C55_has_aux_refuted, C55_no_aux, C57_options, C58_projected_solve_refuted, C58_select, C58_select_container, C58_select_initial, C58_select_vnone, C58_vg_init, C60_insert, C60_insert_refuted, C60_reference, C60_wrapper, C60_wrapper_refuted, C61_check, C61_omitted, C61_resolves, C62_ls_default_method_refuted, C62_ls_duplicate, C62_ls_result, C62_root_result, C67_construct, C67_history, C67_maxls_refuted, C67_reconfigure, C67_runnable, C67_set_tol_refuted, C85_auto, C85_auto_refuted, C85_linear_solvers.

**functional_extensionality_dep** (2): C04_make_funs_with_aux, C59_optimality.

**sig_forall_dec** (16): C27_no_history, C38_jvp_arity, C40_arith, C40_average, C40_mismatch, C42_normal_cg_nonsquare, C53_least_squares, C53_least_squares_shared_refuted, C53_minimize_reuse_refuted, C53_x_scale, C57_dense_domain, C57_transform_matvec, C59_loop_deterministic, C60_run_value, C60_unrolled, C60_value.

**sig_forall_dec, functional_extensionality_dep** (216): C02_run_tolerance, C05_box, C05_feasible_unchanged, C05_hypercube, C05_linf_ball, C05_non_negative, C06_permutation_equivariant, C06_shift_invariant, C06_simplex, C07_l1_ball, C07_l1_sphere, C07_l1_sphere_inside_refuted, C07_l1_sphere_refuted, C09_halfspace, C09_hyperplane, C09_polyhedron_kkt, C10_exact_root, C11_full_support, C11_sparse_simplex, C12_idempotent, C13_prox_elastic_net, C13_prox_elastic_net_scalar, C13_prox_from_projection, C13_prox_lasso, C13_prox_lasso_scalar, C13_prox_non_negative_lasso, C13_prox_none, C14_prox_non_negative_ridge_half, C14_prox_non_negative_ridge_refuted, C14_prox_ridge_half, C14_prox_ridge_refuted, C15_integer_input_refuted, C15_isotonic, C17_binary_margin_losses, C17_huber, C17_multiclass_margin_losses, C17_sparse_plus, C18_fenchel_young, C18_sparsemax, C18_sparsemax, C19_backtracking, C19_counters, C19_smooth_success, C20_quadmin, C21_bracket, C21_done_and_failed_refuted, C21_failure_lost_refuted, C21_hager_zhang, C21_returned_step_refuted, C21_terminates, C22_line_search, C22_line_search_succeeds, C23_gradient_descent, C23_gradient_descent_optimality, C23_lasso, C23_optimality_fun, C23_projected_gradient, C24_stepsize, C25_backtracking, C25_line_search, C26_backtracking_consistent, C26_update, C27_inv_hessian_product, C28_adjoint, C28_line_search, C29_weights, C29_weights_no_ridge, C30_epoch, C30_no_move, C30_optimality_fun, C30_run, C30_suboptimality, C30_terminates, C30_zero_diagonal_refuted, C31_least_squares_lasso, C31_linear_operator, C31_optimality, C32_least_squares, C32_svm_dual, C32_svm_dual_refuted, C33_kkt_iff_minimiser, C33_optimality, C33_quasidefinite, C33_residual, C34_convex, C34_kkt, C34_zero_alone_refuted, C34_zero_iff, C34_zero_minimises, C35_optimal, C36_dual_sound, C36_primal_sound, C36_zero_step, C37_blocks, C37_empty_block_refuted, C37_fun, C37_round_trip, C37_same_problem, C37_split, C38_adjoint, C38_default_solver, C38_fixed_point, C38_jvp, C40_gram, C40_inf_norm, C40_mean, C40_mean_refuted, C40_vdot, C41_jacobian, C42_cholesky, C42_cholesky_matrix_refuted, C42_inv, C42_krylov, C42_lu, C42_materialize, C42_normal_cg, C42_qr, C42_rank, C42_ridge_regular, C42_scalar, C42_unique, C44_optimality, C44_run_terminates, C47_beta, C48_cauchy, C48_direction, C48_error, C48_feasible, C48_hessian, C48_long_step_refuted, C48_run, C48_secant, C48_secant_wrap_refuted, C48_tiny_gradient_refuted, C48_warm_start, C49_argmax_jvp, C49_control_variate, C49_control_variate_refuted, C49_fun_jvp, C49_fun_scalar_cv, C49_max, C49_max_jvp, C50_euclidean, C50_fixed_point, C50_optimality_fun, C50_step, C52_bounded, C54_backtracking_bound, C54_init_stepsize, C54_initial_guess_exceeds_max_refuted, C54_positive, C56_isotonic, C56_isotonic_blocks, C56_isotonic_exact_refuted, C56_isotonic_tolerance_refuted, C56_simplex, C56_simplex_jacobian, C56_sparse_simplex, C57_box_derivatives, C57_box_solution_zero, C57_box_zero_iff, C57_box_zero_solves, C57_dense, C57_dense_normal, C57_fun_refuted, C57_functional, C57_functional_dense, C57_inner_exact, C57_lu, C57_system, C60_default_solve, C60_keywords, C60_keywords_refuted, C60_run, C61_default_solve, C61_flat, C61_inaccurate_refuted, C61_status, C62_bounds, C62_bounds_dtype_refuted, C62_calls, C62_flat, C62_gradient, C62_jacobian, C62_lbfgs_tree, C62_lbfgs_tree_refuted, C62_result, C62_value, C63_armijo, C63_backtracking, C63_gradient, C63_gradient_descent_refuted, C63_hager_zhang, C64_backtracking_wolfe, C65_armijo_sufficient, C65_wolfe_sufficient, C67_max_stepsize_refuted, C69_injective, C69_least_squares_lasso, C78_certificate, C78_gap_zero, C78_strong_duality, C78_weak_duality, C80_cdqp_converges, C80_cdqp_rate, C82_initial_step_ignored, C82_lbfgsb_leaves_box_refuted, C82_search, C84_hessian, C84_runs_exist, C85_condition, C85_reset, C86_backtracking, C86_hager_zhang, C86_hager_zhang_cost, C86_value_and_grad_refuted.

**sig_forall_dec, sig_not_dec, functional_extensionality_dep** (293): C08_l2_ball, C08_l2_sphere, C09_affine_set, C09_affine_set_solved, C09_polyhedron, C09_polyhedron_refuted, C10_box_section, C10_degenerate_refuted, C10_infeasible, C12_nonexpansive, C13_prox_group_lasso, C16_check_bracket, C16_invariant, C16_root, C16_root_at_lower_refuted, C16_run, C20_bracket, C20_cubicmin, C20_done_implies_curvature_refuted, C20_zoom, C21_opposite_slope_refuted, C23_accelerated_error_refuted, C23_accelerated_rate, C23_descent, C23_error_zero, C23_line_search_error, C23_line_search_error_refuted, C23_line_search_rate, C23_rate, C23_rate_constant, C23_run, C24_contraction, C24_nan_at_minimum_refuted, C24_rate, C24_update, C25_conservative, C25_descent, C25_min_stepsize, C25_min_stepsize_refuted, C25_stepsize_bounds, C25_value_refuted, C26_convex, C26_descent_refuted, C26_positive_definite, C26_runs_exist, C26_secant, C26_wolfe, C27_convex, C27_direction, C27_equals_bfgs, C27_matrix, C27_runs_exist, C27_stop, C27_warm_start, C27_zero_curvature_refuted, C28_consistent, C28_default_history, C28_inverse, C28_memory, C28_multi_leaf_refuted, C28_run, C28_secant, C28_wrap_refuted, C29_affine, C29_error_refuted, C29_history, C29_mixing, C29_run, C29_stationary, C29_wrapper, C29_wrapper_run, C31_cache, C31_error_zero, C31_run, C31_step, C31_svm_dual_refuted, C31_terminates, C31_zero_column_refuted, C33_errors, C33_fun, C33_fun_pytree_refuted, C33_nonsymmetric_refuted, C33_refined, C33_run, C33_run_regular, C35_box, C35_converges, C35_duals, C35_fixed_point, C35_monotone, C35_nan, C35_nan_refuted, C35_rho, C35_solved, C35_update, C36_feasible_refuted, C36_raises, C36_verdict, C36_warm_start_refuted, C37_converges, C37_fixed_point, C37_solved, C38_fixed_point_root, C38_ift, C40_empty_refuted, C40_laws, C40_reductions, C43_contraction, C43_contraction_zero, C43_exact, C43_residual, C43_ridge, C43_run, C43_warm_start_refuted, C44_banach, C44_contraction, C44_run, C44_update, C45_accept, C45_damping, C45_geodesic, C45_geodesic_refuted, C45_init, C45_modes_agree, C45_overflow_refuted, C45_run, C45_stationary_refuted, C45_step, C45_stop, C45_stop_refuted, C46_affine, C46_affine_run, C46_state, C46_stationary, C46_step, C47_backtracking_refuted, C47_descent, C47_early_stop_refuted, C47_error_refuted, C47_methods_agree, C47_quadratic, C47_terminates, C47_update, C48_zoom, C49_noise, C50_error, C50_rate, C50_regret, C50_run, C50_schedule, C50_stopping, C50_stopping_refuted, C51_dual_shift, C57_atol, C57_diag, C57_jacobi, C57_jacobi_options, C57_jacobi_pytree_refuted, C57_lu_matvec_refuted, C58_aux, C58_aux_zero, C58_eval_point, C58_projected, C58_vg_array, C58_vg_container, C58_vg_refuted, C58_vg_scalar, C59_dtypes, C59_error_refuted, C59_iterator_errors, C59_mixed_dtypes, C59_pre_update, C59_run, C59_run_iterator, C59_run_zero, C59_sgd, C59_update, C60_fixed_point, C60_gradient, C60_run_gradient, C61_eqqp, C61_eqqp_gradient, C61_gradient, C61_regular, C61_regularity_needed, C61_solution, C63_lbfgs, C63_ncg, C63_operations, C63_searches, C63_zoom, C64_converges, C64_eigenvalues, C64_fixed_step, C64_linear, C64_run, C64_zoom, C64_zoom_consistent, C65_eigenvalues, C66_backtracking, C66_curvature_refuted, C66_descent_refuted, C66_fr_descent, C66_zoom, C66_zoutendijk, C67_bfgs_fresh, C67_set_stepsize_refuted, C68_bcd_lower_bound_refuted, C68_bcd_run, C68_cdqp_run, C68_fixed_point, C68_gradient, C68_gradient_convex, C68_pg_distance, C68_pg_line_search, C68_pg_run, C68_prox, C69_bcd_distance, C69_bcd_rate, C69_bcd_run, C69_cdqp_converges, C69_cdqp_distance, C69_cdqp_rate, C69_cdqp_run, C70_accuracy, C70_default_solver, C70_fixed_point_run, C70_near, C70_strongly_convex, C71_adjoint, C71_at_tolerance_refuted, C71_chain, C71_gradient_descent, C71_primal, C71_rate, C71_run, C71_warm_start_refuted, C72_large_residual_refuted, C73_cap_refuted, C73_run, C73_terminates, C74_closer, C74_default_refuted, C74_linear, C74_step, C74_total_loss, C75_nonconvex_refuted, C76_increase_refuted, C77_nonaffine_refuted, C77_rate, C77_run, C77_step, C77_wrapper, C78_block_cd, C78_residual, C79_default_history, C79_local, C79_residual_sum, C79_run, C80_bcd_converges, C80_bcd_rate, C80_bcd_run, C80_lasso, C80_svm, C81_composite, C81_strongly_convex, C82_lbfgs, C82_lbfgs_converges, C82_spurious_failure_refuted, C83_box_solved, C83_eqqp, C83_eqqp_distance, C83_osqp_infeasible_refuted, C83_osqp_solved, C83_osqp_value, C83_osqp_zero, C85_broyden, C85_linesearch, C85_lm_run, C85_lm_stop, C85_lm_stop_refuted, C85_ncg, C85_osqp_default_refuted, C85_quasi_newton_accepted, C85_strategy, C85_variant, C86_complete, C86_fixed_point, C86_grad_count_refuted, C86_same_steps, C86_solvers_backtracking, C86_solvers_zoom, C86_zoom.

**sig_forall_dec, classic, functional_extensionality_dep** (1): C84_direction.

**sig_forall_dec, sig_not_dec, classic, functional_extensionality_dep** (61): C17_binary_logistic, C17_multiclass_logistic, C18_logsumexp_max, C21_bracket_has_acceptable_step, C32_binary_logreg, C32_multiclass_logreg, C50_kl, C51_birkhoff, C51_birkhoff_nonsquare_refuted, C51_documented_marginals_refuted, C51_dual, C51_masses, C51_positive_marginals, C51_semi_dual, C51_semi_dual_shift, C51_shapes, C51_shapes_error, C51_transport, C51_zero_marginal_refuted, C52_cost, C52_derivative, C52_documented_cost_refuted, C52_huber, C52_huber_stationary_refuted, C52_rho, C52_stationary, C65_converges, C65_linear, C65_run, C66_fr_bound, C66_fr_converges, C66_fr_run, C72_linear, C72_quadratic, C72_run, C72_step, C72_unique, C73_smooth, C75_enough_iterations, C75_strongly_convex, C75_succeeds, C76_bfgs, C76_bfgs_converges, C76_lbfgs, C76_lbfgs_converges, C79_superlinear, C81_attained, C81_birkhoff, C81_box_qp, C81_cdqp, C81_lasso, C81_svm, C81_svm_dual, C81_transport, C81_zero_row_refuted, C82_bfgs, C84_backtracking, C84_converges, C84_linear, C84_unbounded, C84_zoom.
