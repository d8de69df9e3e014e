(** Model of gauss_newton.py. *)
From Coq Require Import Reals List Lra Lia Bool Arith.
From Verif Require Import Prelude Vec Mat LinSolve Run.
Import ListNotations.
Open Scope R_scope.

(** gauss_newton.py:33-41 [GaussNewtonState] (aux omitted) *)
Record gn_state := { gn_iter : nat; gn_error : xnum; gn_residual : vec; gn_value : R; gn_delta : vec; gn_gradient : vec }.
Section GN.
Variable sp_cg : (vec -> vec) -> vec -> option vec -> vec.   (* jax.scipy.sparse.linalg.cg *)
Variable n : nat.
(** residual_fun and its Jacobian (rows = residuals), which jax.jvp / jax.vjp apply *)
Variables (res : vec -> vec) (jac : vec -> mat).
(** gauss_newton.py:152-163 [_jtj_op], [_jt_op] *)
Definition jtj_op (params v : vec) : vec := tvec n (jac params) (mvec (jac params) v).
Definition jt_op (params residual : vec) : vec := tvec n (jac params) residual.
(** gauss_newton.py:75-99 [init_state]; delta starts as init_params *)
Definition gn_init_state (init_params : vec) : gn_state :=
  let residual := res init_params in
  let gradient := jt_op init_params residual in
  {| gn_iter := 0; gn_error := PInf; gn_residual := residual; gn_value := 1 / 2 * vsum (hmul residual residual); gn_delta := init_params; gn_gradient := gradient |}.
(** gauss_newton.py:101-136 [update] *)
Definition gn_update (s : vec * gn_state) : vec * gn_state :=
  let '(params, state) := s in
  let residual := res params in
  let matvec := jtj_op params in
  let gradient := jt_op params residual in
  let delta_params := solve_cg sp_cg matvec gradient None None in
  let params := vsub params delta_params in
  let value := 1 / 2 * vsum (hmul residual residual) in
  (params, {| gn_iter := S (gn_iter state); gn_error := Fin (norm2 delta_params); gn_residual := residual; gn_value := value;
              gn_delta := delta_params; gn_gradient := gradient |}).
(** base.py:264-266, 296-332 *)
Definition gn_run (tol : R) (maxiter : nat) (init : vec) : vec * gn_state :=
  run_loop maxiter (fun s => xgtb (gn_error (snd s)) tol) gn_update (init, gn_init_state init).
(** gauss_newton.py:146-150 [optimality_fun] *)
Definition gn_optimality (params : vec) : vec := jt_op params (res params).
End GN.

(** ** Specification *)
(** the least-squares objective *)
Definition cost (res : vec -> vec) (x : vec) : R := 1 / 2 * sqnorm (res x).
Definition full_column_rank (m n : nat) (M : mat) : Prop :=
  mat_shape m n M /\ forall v, length v = n -> mvec M v = vzero m -> v = vzero n.
(** all x: n entries, m residuals *)
Definition residual_shapes (m n : nat) (res : vec -> vec) (jac : vec -> mat) : Prop :=
  forall x, length x = n -> length (res x) = m /\ mat_shape m n (jac x).
(** the linearisation of the residual at x, at a step s *)
Definition linearised (res : vec -> vec) (jac : vec -> mat) (x s : vec) : vec := vadd (res x) (mvec (jac x) s).
