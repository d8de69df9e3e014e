(** Accuracy of implicit differentiation (implicit_diff.py, as modelled in ImplicitDiff.v) at an approximate solution,
    with an approximate linear solver. *)
From Coq Require Import Reals List Lra Lia Bool Arith.
From Verif Require Import Prelude Vec Mat LinAlg LinSolve ImplicitDiff FixedPoint.
Import ListNotations.
Open Scope R_scope.

(** ** Specification *)
(** The linear solver leaves a residual of at most delta relative to the right-hand side. *)
Definition approx_solves (solve : (vec -> vec) -> vec -> vec) (n : nat) (f : vec -> vec) (delta : R) : Prop :=
  forall b, length b = n -> length (solve f b) = n /\ norm2 (vsub (f (solve f b)) b) <= delta * norm2 b.
(** jax.scipy.sparse.linalg.cg with tol = delta (and atol = 0), when it converges: the same on positive definite
    operators *)
Definition tolerance_on_positive (k : (vec -> vec) -> vec -> option vec -> vec) (delta : R) : Prop :=
  forall n f b, is_linear n f -> positive_op n f None -> length b = n ->
    length (k f b None) = n /\ norm2 (vsub (f (k f b None)) b) <= delta * norm2 b.
(** a |w| <= |f w| and |f w| <= B |w| *)
Definition expands (n : nat) (a : R) (f : vec -> vec) : Prop := forall w, length w = n -> a * norm2 w <= norm2 (f w).
Definition bounded (n : nat) (B : R) (f : vec -> vec) : Prop := forall w, length w = n -> norm2 (f w) <= B * norm2 w.
(** How the Jacobians of optimality_fun vary with the solution at which they are evaluated *)
Definition lipschitz_D1 (n : nat) (beta : R) (D1 : vec -> mat) : Prop :=
  forall x y w, length x = n -> length y = n -> length w = n -> norm2 (vsub (mvec (D1 x) w) (mvec (D1 y) w)) <= beta * vdist x y * norm2 w.
Definition lipschitz_D2 (n : nat) (ps : list nat) (gamma : R) (D2 : vec -> list mat) : Prop :=
  forall x y v, length x = n -> length y = n -> args_ok ps v ->
    norm2 (vsub (jvp_args n (D2 x) v) (jvp_args n (D2 y) v)) <= gamma * vdist x y * norm2 (concat v).
(** Js is the derivative of the root in the direction v, given the Jacobians at the root *)
Definition root_derivative (n : nat) (D1 : mat) (D2 : list mat) (v : list vec) (Js : vec) : Prop :=
  length Js = n /\ vadd (mvec D1 Js) (jvp_args n D2 v) = vzero n.
(** F has Jacobians D1 z, D2 z at every (z, args), which are Lipschitz in z *)
Definition smooth_optimality (n : nat) (ps : list nat) (F : vec -> list vec -> vec) (args : list vec) (D1 : vec -> mat) (D2 : vec -> list mat) (beta gamma : R) : Prop :=
  0 <= beta /\ 0 <= gamma /\ args_ok ps args /\
  (forall z a, length z = n -> args_ok ps a -> length (F z a) = n) /\
  (forall z, length z = n -> mat_shape n n (D1 z) /\ jac_ok n ps (D2 z) /\ frechet n ps F z args (D1 z) (D2 z)) /\
  lipschitz_D1 n beta D1 /\ lipschitz_D2 n ps gamma D2.
(** X t is a root of F(., args + t v), for t near 0, and continuous at 0 *)
Definition solution_curve (n : nat) (ps : list nat) (F : vec -> list vec -> vec) (args v : list vec) (X : R -> vec) : Prop :=
  args_ok ps v /\ (forall t, length (X t) = n) /\ continuous_at_0 X /\
  exists r, 0 < r /\ forall t, Rabs t < r -> F (X t) (args_move args t v) = vzero n.
(** The products computed by root_jvp and root_vjp from the Jacobians D1, D2 are those of Js up to an error [bound]. *)
Definition accurate_derivatives (n : nat) (ps : list nat) (solve : (vec -> vec) -> vec -> vec) (D1 : mat) (D2 : list mat) (v : list vec) (Js : vec) (bound : R) : Prop :=
  (exists J, root_jvp solve n D1 D2 v = Ok J /\ length J = n /\ norm2 (vsub J Js) <= bound) /\
  (forall w, length w = n -> args_ok ps (root_vjp solve n D1 D2 ps w) /\ Rabs (total_dot (root_vjp solve n D1 D2 ps w) v - dot w Js) <= bound * norm2 w).
