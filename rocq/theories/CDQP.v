(** Model of cd_qp.py: coordinate descent for box-constrained QPs. *)
From Coq Require Import Reals List Lra Lia Bool Arith.
From Verif Require Import Prelude Vec Mat Proj Loss Run.
Import ListNotations.
Open Scope R_scope.

Section BoxCDQP.
Variable Q : mat.
Variable c l u : vec.

(** cd_qp.py:37-51 [fori_loop_body_fun]; the bounds are finite. *)
Definition cd_body (i : nat) (tup : vec * R) : vec * R :=
  let '(x, error) := tup in
  let g_i := dot (nth i Q []) x + nth i c 0 in
  let h_i := entry Q i i in
  let update := if Req_EM_T h_i 0 then 0 else g_i / h_i in
  let x_i_new := clip (nth i x 0 - update) (nth i l 0) (nth i u 0) in
  let delta_i := x_i_new - nth i x 0 in
  (set_nth x i x_i_new, error + Rabs delta_i).

(** cd_qp.py:32-35 [BoxCDQPState] *)
Record cd_state := { cd_iter : nat; cd_error : xnum }.
(** cd_qp.py:82-97 [init_state] *)
Definition cd_init : cd_state := {| cd_iter := 0; cd_error := PInf |}.

(** jax.lax.fori_loop(0, k, body, init) *)
Fixpoint fori {A} (k : nat) (body : nat -> A -> A) (init : A) : A :=
  match k with O => init | S k' => body k' (fori k' body init) end.

(** cd_qp.py:99-131 [update]: one epoch *)
Definition cd_epoch (x : vec) : vec * R := fori (length x) cd_body (x, 0).
Definition cd_update (step : vec * cd_state) : vec * cd_state :=
  let '(x, st) := step in
  let '(x', error) := cd_epoch x in
  (x', {| cd_iter := S (cd_iter st); cd_error := Fin error |}).

(** base.py [run] with the default stopping rule *)
Definition cd_run (maxiter : nat) (tol : R) (x0 : vec) : vec * cd_state :=
  run_loop maxiter (fun s => xgtb (cd_error (snd s)) tol) cd_update (x0, cd_init).

(** cd_qp.py:131-144 *)
Definition cd_fixed_point_fun (sol : vec) : vec :=
  projection_box (vsub sol (vadd (mvec Q sol) c)) l u.
Definition cd_optimality_fun (sol : vec) : vec := vsub (cd_fixed_point_fun sol) sol.

(** ** Specification *)
(** 0.5 <x, Q x> + <c, x> *)
Definition qp_objective (x : vec) : R := dot x (mvec Q x) / 2 + dot c x.
Definition in_box (x : vec) : Prop :=
  length x = length l /\ forall i, (i < length x)%nat -> nth i l 0 <= nth i x 0 <= nth i u 0.
Definition box_minimiser (x : vec) : Prop :=
  in_box x /\ forall z, in_box z -> qp_objective x <= qp_objective z.
(** x cannot be improved by moving one coordinate. *)
Definition coordinatewise_optimal (x : vec) : Prop :=
  in_box x /\ forall i v, (i < length x)%nat -> nth i l 0 <= v <= nth i u 0 ->
    qp_objective x <= qp_objective (set_nth x i v).
(** Dimensions agree, Q is symmetric with a non-negative diagonal and the box is not empty. *)
Definition qp_problem (n : nat) : Prop :=
  mat_shape n n Q /\ symmetric n Q /\ length c = n /\ length l = n /\ length u = n /\
  (forall i, (i < n)%nat -> 0 <= entry Q i i) /\
  (forall i, (i < n)%nat -> nth i l 0 <= nth i u 0).
End BoxCDQP.
