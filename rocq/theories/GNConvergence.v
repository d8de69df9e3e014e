(** Specification for C72: convergence of gauss_newton.py near a solution.  The program is
    GaussNewton.v ([gn_update], [gn_run]); this file only states the problem. *)
From Coq Require Import Reals List Lra Lia Bool Arith.
From Verif Require Import Prelude Vec Mat LinSolve Run GaussNewton.
Import ListNotations.
Open Scope R_scope.

(** [jac] is the derivative of [res] along every line *)
Definition is_jacobian (m n : nat) (res : vec -> vec) (jac : vec -> mat) : Prop :=
  forall (x v w : vec) t, length x = n -> length v = n -> length w = m ->
    derivable_pt_lim (fun t => dot w (res (vadd x (smul t v)))) t (dot w (mvec (jac (vadd x (smul t v))) v)).
(** y is within rho of xs *)
Definition near (n : nat) (xs : vec) (rho : R) (y : vec) : Prop := length y = n /\ norm2 (vsub y xs) <= rho.
(** xs is a stationary point of 1/2 |res|^2; within rho of it the Jacobian is L-Lipschitz and its
    smallest singular value is at least s > 0. *)
Record gn_problem (m n : nat) (res : vec -> vec) (jac : vec -> mat) (xs : vec) (rho s L : R) : Prop := {
  gp_shapes : residual_shapes m n res jac;
  gp_len : length xs = n;
  gp_jac : is_jacobian m n res jac;
  gp_rho : 0 < rho; gp_s : 0 < s; gp_L : 0 <= L;
  gp_rank : forall x v, near n xs rho x -> length v = n -> s * norm2 v <= norm2 (mvec (jac x) v);
  gp_lip : forall x y v, near n xs rho x -> near n xs rho y -> length v = n ->
    norm2 (vsub (mvec (jac x) v) (mvec (jac y) v)) <= L * norm2 (vsub x y) * norm2 v;
  gp_stationary : gn_optimality n res jac xs = vzero n
}.
(** the k-th iterate of update from x0 *)
Definition gn_iterate (cg : (vec -> vec) -> vec -> option vec -> vec) (n : nat) (res : vec -> vec) (jac : vec -> mat) (x0 : vec) (k : nat) : vec :=
  fst (Nat.iter k (gn_update cg n res jac) (x0, gn_init_state n res jac x0)).
(** contraction factor at distance d from a solution with residual norm e *)
Definition gn_rate (s L e d : R) : R := L / (2 * s) * d + L * e / (s * s).

(** A least-squares problem with two residuals: x + 1 and -2 x^2 + x - 1. *)
Definition hard_res (x : vec) : vec := let a := nth 0 x 0 in [a + 1; -2 * a * a + a - 1].
Definition hard_jac (x : vec) : mat := let a := nth 0 x 0 in [[1]; [-4 * a + 1]].
