(** Model of fixed_point_iteration.py. *)
From Coq Require Import Reals List Lra Lia Bool Arith.
From Verif Require Import Prelude Vec Run.
Import ListNotations.
Open Scope R_scope.

(** fixed_point_iteration.py:31-43 [FixedPointState] *)
Record fp_state (X : Type) := { fp_iter : nat; fp_error : xnum; fp_aux : option X; fp_num_fun_eval : nat }.
Arguments fp_iter {X}. Arguments fp_error {X}. Arguments fp_aux {X}. Arguments fp_num_fun_eval {X}.
(** fixed_point_fun as given by the user, without or with auxiliary output (has_aux) *)
Inductive fp_user (X : Type) := NoAux (T : vec -> vec) | WithAux (T : vec -> vec * X).
Arguments NoAux {X}. Arguments WithAux {X}.
Section FixedPoint.
Context {X : Type}.
Variable u : fp_user X.
(** fixed_point_iteration.py:131-138 [__post_init__] *)
Definition fp_fun (x : vec) : vec * option X :=
  match u with NoAux T => (T x, None) | WithAux T => let '(y, a) := T x in (y, Some a) end.
(** fixed_point_iteration.py:78-95 *)
Definition fp_init_state : fp_state X := {| fp_iter := 0; fp_error := PInf; fp_aux := None; fp_num_fun_eval := 0 |}.
(** fixed_point_iteration.py:97-124 [update] *)
Definition fp_update (s : vec * fp_state X) : vec * fp_state X :=
  let '(params, state) := s in
  let '(next_params, aux) := fp_fun params in
  let error := norm2 (vsub next_params params) in
  (next_params, {| fp_iter := S (fp_iter state); fp_error := Fin error; fp_aux := aux; fp_num_fun_eval := S (fp_num_fun_eval state) |}).
(** base.py:264-266 [_cond_fun], 296-332 [_run] *)
Definition fp_run (tol : R) (maxiter : nat) (init : vec) : vec * fp_state X :=
  run_loop maxiter (fun s => xgtb (fp_error (snd s)) tol) fp_update (init, fp_init_state).
(** fixed_point_iteration.py:126-129 [optimality_fun] *)
Definition fp_optimality (params : vec) : vec := vsub (fst (fp_fun params)) params.
End FixedPoint.

(** ** Specification *)
(** Euclidean distance *)
Definition vdist (x y : vec) : R := norm2 (vsub x y).
(** the map of which a fixed point is sought, and its auxiliary output *)
Definition the_map {X} (u : fp_user X) (x : vec) : vec := match u with NoAux T => T x | WithAux T => fst (T x) end.
Definition the_aux {X} (u : fp_user X) (x : vec) : option X := match u with NoAux T => None | WithAux T => Some (snd (T x)) end.
Definition contraction (n : nat) (q : R) (T : vec -> vec) : Prop :=
  (forall x, length x = n -> length (T x) = n) /\
  (forall x y, length x = n -> length y = n -> vdist (T x) (T y) <= q * vdist x y).
