(** Declared derivatives (jax.custom_jvp) of the simplex projections of jaxopt/_src/projection.py and of
    jaxopt/_src/isotonic.py. *)
From Coq Require Import Reals List Bool Arith Lra.
From Verif Require Import Prelude Vec Proj Prox SparseSimplex Isotonic.
Import ListNotations.
Open Scope R_scope.

(** projection.py:113, 174: supp = primal_out > 0 (as the numbers 0 and 1); 114, 175: jnp.count_nonzero(supp) *)
Definition supp (p : vec) : vec := map (fun a => if Rlt_dec 0 a then 1 else 0) p.
Definition card (p : vec) : nat := length (filter (fun a => if Rlt_dec 0 a then true else false) p).
(** projection.py:115, 176: tangent_out *)
Definition support_jvp (primal_out x_dot : vec) : vec :=
  vsub (hmul (supp primal_out) x_dot) (smul (dot (supp primal_out) x_dot / INR (card primal_out)) (supp primal_out)).
(** projection.py:108-116 [_projection_unit_simplex_jvp] *)
Definition unit_simplex_jvp (x x_dot : vec) : vec := support_jvp (projection_unit_simplex x) x_dot.
(** projection.py:168-178 [_projection_unit_sparse_simplex_jvp] *)
Definition unit_sparse_simplex_jvp (x : vec) (max_nz : nat) (x_dot : vec) : vec :=
  support_jvp (projection_unit_sparse_simplex x max_nz) x_dot.
(** The chain rule applied by jax.jvp to value * f(x / value) (projection.py:137, 206-207), tangents (x_dot, value_dot):
    the quotient rule, the declared rule of f, the product rule. *)
Definition quotient_dot (x x_dot : vec) (value value_dot : R) : vec :=
  vsub (map (fun a => a / value) x_dot) (map (fun a => a * value_dot / (value * value)) x).
Definition projection_simplex_jvp (x : vec) (value : R) (x_dot : vec) (value_dot : R) : vec :=
  let z := map (fun a => a / value) x in
  vadd (smul value_dot (projection_unit_simplex z)) (smul value (unit_simplex_jvp z (quotient_dot x x_dot value value_dot))).
Definition projection_sparse_simplex_jvp (x : vec) (max_nz : nat) (value : R) (x_dot : vec) (value_dot : R) : vec :=
  let z := map (fun a => a / value) x in
  vadd (smul value_dot (projection_unit_sparse_simplex z max_nz))
       (smul value (unit_sparse_simplex_jvp z max_nz (quotient_dot x x_dot value value_dot))).

(** ** isotonic.py:128-137 [_jvp_isotonic_l2_jax_pav], eps = 1e-8 *)
Definition iso_eps : R := / 100000000.
(** 130: mask = pad(|diff(x)| <= eps, (1, 0)), False at index 0 *)
Definition iso_mask (x : vec) (j : nat) : bool :=
  match j with O => false | S i => if Rle_dec (Rabs (nth j x 0 - nth i x 0)) iso_eps then true else false end.
(** 132: the positions where mask == 0, in increasing order; the entries +inf that follow are left out and added below *)
Definition inds_start (x : vec) : list nat := filter (fun j => negb (iso_mask x j)) (seq 0 (length x)).
(** 133-134: cumsum of the one-hot rows: 1 from the start on; the one-hot row of +inf is zero *)
Definition cum_rows (x : vec) : list vec :=
  map (fun s => map (fun j => if Nat.leb s j then 1 else 0) (seq 0 (length x))) (inds_start x) ++
  repeat (vzero (length x)) (length x - length (inds_start x)).
(** 135: differences of consecutive rows, and the last row *)
Fixpoint diff_rows (rows : list vec) : list vec :=
  match rows with
  | [] => []
  | r :: rows' => match rows' with [] => [r] | r' :: _ => vsub r r' :: diff_rows rows' end
  end.
(** 137 *)
Definition iso_jvp (solution vector : vec) : vec :=
  fold_right vadd (vzero (length solution))
    (map (fun b => map (fun e => e * dot b vector / (vsum b + iso_eps)) b) (diff_rows (cum_rows solution))).
(** isotonic.py:106-125, 140-153 with y_min = -inf, y_max = +inf: jax.jvp of [isotonic_l2_pav] *)
Definition isotonic_jvp (fuel : nat) (y : vec) (increasing : bool) (vector : vec) : option vec :=
  let sign := if increasing then -1 else 1 in
  match pav fuel astype_float (smul sign y) with
  | None => None
  | Some s => Some (smul sign (iso_jvp s (smul sign vector)))
  end.

(** ** Specification *)
(** Every coordinate of x' is within delta of that of x. *)
Definition close (delta : R) (x x' : vec) : Prop :=
  length x' = length x /\ forall i, (i < length x)%nat -> Rabs (nth i x' 0 - nth i x 0) < delta.
(** Strict complementarity: a coordinate set to zero is strictly below the threshold x_i - p_i of the positive ones. *)
Definition strict_support (x p : vec) : Prop :=
  forall i j, (i < length x)%nat -> (j < length x)%nat -> 0 < nth i p 0 -> nth j p 0 = 0 -> nth j x 0 < nth i x 0 - nth i p 0.
(** For the sparse projection: the same if fewer than k coordinates are positive; if k are, they are the k largest, strictly. *)
Definition strict_sparse (k : nat) (x p : vec) : Prop :=
  ((card p < k)%nat -> strict_support x p) /\
  (card p = k -> forall i j, (i < length x)%nat -> (j < length x)%nat -> 0 < nth i p 0 -> nth j p 0 = 0 -> nth j x 0 < nth i x 0).
(** Partial sums of y - v. *)
Definition residual_sum (y v : vec) (k : nat) : R := vsum (firstn (S k) (vsub y v)).
(** Strict complementarity of isotonic regression: inside a block the multiplier of the constraint is not zero; and blocks
    are told apart by the tolerance of the code. *)
Definition strict_isotonic (increasing : bool) (y v : vec) : Prop :=
  forall k, (S k < length v)%nat ->
    (nth k v 0 = nth (S k) v 0 /\ if increasing then 0 < residual_sum y v k else residual_sum y v k < 0) \/
    iso_eps < Rabs (nth (S k) v 0 - nth k v 0).
