(** Model of the closed-form projections of jaxopt/_src/projection.py.
    Parameters are flat vectors: a pytree is identified with the concatenation of
    its leaves (Pytree.v relates the two). *)
From Coq Require Import Reals List Lra Bool Sorting.Permutation.
From Verif Require Import Vec.
Import ListNotations.
Open Scope R_scope.

(** jax.nn.relu *)
Definition relu (a : R) : R := Rmax a 0.
(** jnp.clip(a, lo, hi) = minimum(maximum(a, lo), hi) *)
Definition clip (a lo hi : R) : R := Rmin (Rmax a lo) hi.

(** tree_map over three trees of the same structure. *)
Fixpoint map3 {A B C D} (f : A -> B -> C -> D) (x : list A) (y : list B) (z : list C) : list D :=
  match x, y, z with
  | a :: x', b :: y', c :: z' => f a b c :: map3 f x' y' z'
  | _, _, _ => []
  end.

(** projection.py:33-48 [projection_non_negative] *)
Definition projection_non_negative (x : vec) : vec := map relu x.

(** projection.py:55-72 [projection_box], bounds of the shape of [x] *)
Definition projection_box (x lower upper : vec) : vec := map3 clip x lower upper.

(** projection.py:55-72 [projection_box], scalar bounds (broadcast) *)
Definition projection_box_scalar (x : vec) (lower upper : R) : vec :=
  projection_box x (repeat lower (length x)) (repeat upper (length x)).

(** projection.py:75-92 [projection_hypercube] *)
Definition projection_hypercube (x : vec) (unit : R) : vec := projection_box_scalar x 0 unit.

(** projection.py:292-307 [projection_linf_ball] *)
Definition projection_linf_ball (x : vec) (max_value : R) : vec :=
  projection_box_scalar x (- max_value) max_value.

(** projection.py:250-266 [projection_l2_sphere] *)
Definition projection_l2_sphere (x : vec) (value : R) : vec :=
  smul (value / norm2 x) x.

(** projection.py:269-289 [projection_l2_ball] *)
Definition projection_l2_ball (x : vec) (max_value : R) : vec :=
  if Rle_dec (norm2 x) max_value then x else smul (max_value / norm2 x) x.

(** projection.py:310-328 [projection_hyperplane] *)
Definition projection_hyperplane (x a : vec) (b : R) : vec :=
  let scale := (dot a x - b) / dot a a in vadd x (smul (- scale) a).

(** projection.py:331-349 [projection_halfspace] *)
Definition projection_halfspace (x a : vec) (b : R) : vec :=
  let scale := relu (dot a x - b) / dot a a in vadd x (smul (- scale) a).

(** ** Simplex *)

(** jnp.sort(x)[::-1]: the (unique) decreasing rearrangement, by insertion. *)
Fixpoint insert_desc (a : R) (l : vec) : vec :=
  match l with
  | [] => [a]
  | b :: l' => if Rle_dec b a then a :: l else b :: insert_desc a l'
  end.
Definition sort_desc (x : vec) : vec := fold_right insert_desc [] x.

(** jnp.cumsum *)
Fixpoint cumsum_from (acc : R) (l : vec) : vec :=
  match l with [] => [] | a :: l' => (acc + a) :: cumsum_from (acc + a) l' end.
Definition cumsum (l : vec) : vec := cumsum_from 0 l.

(** jnp.count_nonzero of a boolean array *)
Definition count_true (l : list bool) : nat := length (filter (fun b => b) l).

(** projection.py:98-104: the number of positive coordinates of the result. *)
Definition simplex_cond (s : R) (u : vec) : list bool :=
  map3 (fun ind ui ci => if Rlt_dec 0 (s / ind + (ui - ci / ind)) then true else false)
       (map INR (seq 1 (length u))) u (cumsum u).

(** projection.py:95-105 [_projection_unit_simplex] with s = 1.0 *)
Definition projection_unit_simplex (x : vec) : vec :=
  let s := 1 in
  let u := sort_desc x in
  let cumsum_u := cumsum u in
  let idx := count_true (simplex_cond s u) in
  map (fun xi => relu (s / INR idx + (xi - nth (idx - 1) cumsum_u 0 / INR idx))) x.

(** projection.py:119-137 [projection_simplex] *)
Definition projection_simplex (x : vec) (value : R) : vec :=
  smul value (projection_unit_simplex (map (fun a => a / value) x)).

(** jnp.sign *)
Definition sign (a : R) : R :=
  if Rlt_dec 0 a then 1 else if Rlt_dec a 0 then -1 else 0.

(** projection.py:210-225 [projection_l1_sphere] *)
Definition projection_l1_sphere (x : vec) (value : R) : vec :=
  hmul (map sign x) (projection_simplex (map Rabs x) value).

(** projection.py:228-247 [projection_l1_ball] *)
Definition projection_l1_ball (x : vec) (max_value : R) : vec :=
  if Rle_dec (norm1 x) max_value then x else projection_l1_sphere x max_value.

(** ** Specification: the sets.  [n] is the dimension. *)
Definition nonneg_orthant (n : nat) (q : vec) : Prop :=
  length q = n /\ forall i, (i < n)%nat -> 0 <= nth i q 0.
Definition box (lower upper : vec) (q : vec) : Prop :=
  length q = length lower /\
  forall i, (i < length lower)%nat -> nth i lower 0 <= nth i q 0 <= nth i upper 0.
Definition hypercube (n : nat) (unit : R) (q : vec) : Prop :=
  length q = n /\ forall i, (i < n)%nat -> 0 <= nth i q 0 <= unit.
Definition linf_ball (n : nat) (r : R) (q : vec) : Prop :=
  length q = n /\ forall i, (i < n)%nat -> Rabs (nth i q 0) <= r.
Definition l2_sphere (n : nat) (r : R) (q : vec) : Prop := length q = n /\ norm2 q = r.
Definition l2_ball (n : nat) (r : R) (q : vec) : Prop := length q = n /\ norm2 q <= r.
Definition hyperplane (a : vec) (b : R) (q : vec) : Prop := length q = length a /\ dot a q = b.
Definition halfspace (a : vec) (b : R) (q : vec) : Prop := length q = length a /\ dot a q <= b.
Definition simplex (n : nat) (value : R) (q : vec) : Prop :=
  length q = n /\ (forall i, (i < n)%nat -> 0 <= nth i q 0) /\ vsum q = value.
Definition l1_sphere (n : nat) (r : R) (q : vec) : Prop := length q = n /\ norm1 q = r.
Definition l1_ball (n : nat) (r : R) (q : vec) : Prop := length q = n /\ norm1 q <= r.
