(** l2_optimality_error of the solvers. *)
From Coq Require Import Reals List Lra Lia Bool Arith.
From Verif Require Import Prelude Vec Mat Loss Run ProxGrad FixedPoint CDQP Objective BlockCD.
Import ListNotations.
Open Scope R_scope.

(** base.py:220-223 [Solver.l2_optimality_error] *)
Definition l2_optimality_error (optimality_fun : vec -> vec) (params : vec) : R := norm2 (optimality_fun params).
(** The optimality functions of BFGS (bfgs.py:277-283), LBFGS (lbfgs.py:419-430), NonlinearCG
    (nonlinear_cg.py:285-294), ArmijoSGD (armijo_sgd.py:330-339), PolyakSGD (polyak_sgd.py:262-264),
    OptaxSolver (optax_wrapper.py:162-164), GradientDescent (gradient_descent.py:95-97) and
    ScipyMinimize (scipy_wrappers.py:314-316) are all the gradient; ProjectedGradient
    (projected_gradient.py:139-141), LBFGSB (lbfgsb.py:566-590) and the bounded SciPy solvers
    (scipy_wrappers.py:430-439) are [pg_optimality_fun] with a projection; AndersonAcceleration
    (anderson.py:251-254) is [fp_optimality]. *)
Definition gradient_optimality (gradf : vec -> vec) (params : vec) : vec := gradf params.
(** base.py:220-223 on matrices, for block_cd.py:178-211: Frobenius norm *)
Definition bcd_l2_optimality_error (k : nat) (f : composite) (block_prox : vec -> R -> vec) (X : mat) : R :=
  let V := bcd_optimality_fun k f block_prox X in sqrt (mdot V V).

(** ** Specification *)
(** Every block of the gradient is Lipschitz in the Frobenius norm. *)
Definition bcd_lipschitz (n k : nat) (Lf : R) (f : composite) : Prop :=
  0 <= Lf /\ forall X Z i, mat_shape n k X -> mat_shape n k Z -> (i < n)%nat ->
    sqnorm (vsub (full_grad_block k f X i) (full_grad_block k f Z i)) <= Lf * Lf * fdist2 X Z.
(** The constant relating the distance travelled in an epoch to optimality. *)
Definition bcd_constant (n : nat) (Lmax Lf : R) : R := sqrt (2 * (Lmax * Lmax + INR n * (Lf * Lf))).
