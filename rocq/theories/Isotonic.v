(** Model of jaxopt/_src/isotonic.py: pool adjacent violators on index arrays. *)
From Coq Require Import Reals List Arith Bool Lra ZArith.
From Verif Require Import Prelude Vec Proj.
Import ListNotations.
Open Scope R_scope.

(** The four numpy arrays of isotonic.py:38-42 as total functions of the index
    (every index the loops read or write is below n). *)
Record arrays := {
  target : nat -> nat;
  c : nat -> R;
  sums : nat -> R;
  sol : nat -> R
}.
Definition upd {A} (f : nat -> A) (i : nat) (v : A) : nat -> A :=
  fun j => if Nat.eqb j i then v else f j.

(** isotonic.py:38-49 *)
Definition init_arrays (y : vec) : arrays :=
  {| target := fun i => i; c := fun _ => 1; sums := fun i => nth i y 0; sol := fun i => nth i y 0 |}.

(** isotonic.py:59-80: the inner [while True]; returns the arrays and the new [i].
    [None] is fuel exhaustion, excluded by the theorems. *)
Fixpoint inner (fuel n : nat) (a : arrays) (i k : nat) (sum_y sum_c : R) : option (arrays * nat) :=
  match fuel with
  | O => None
  | S fuel' =>
      let prev_y := sol a k in
      let sum_y := sum_y + sums a k in
      let sum_c := sum_c + c a k in
      let k := (target a k + 1)%nat in
      if (Nat.eqb k n || (if Rlt_dec (sol a k) prev_y then true else false))%bool then
        let a' := {| target := upd (upd (target a) i (k - 1)%nat) (k - 1)%nat i;
                     c := upd (c a) i sum_c;
                     sums := upd (sums a) i sum_y;
                     sol := upd (sol a) i (sum_y / sum_c) |} in
        Some (a', if Nat.ltb 0 i then target a' (i - 1)%nat else i)
      else inner fuel' n a i k sum_y sum_c
  end.

(** isotonic.py:51-80: the outer loop. *)
Fixpoint outer (fuel n : nat) (a : arrays) (i : nat) : option arrays :=
  match fuel with
  | O => None
  | S fuel' =>
      if Nat.ltb i n then
        let k := (target a i + 1)%nat in
        if Nat.eqb k n then Some a
        else if Rlt_dec (sol a k) (sol a i) then outer fuel' n a k
        else match inner n n a i k (sums a i) (c a i) with
             | None => None
             | Some (a', i') => outer fuel' n a' i'
             end
      else Some a
  end.

(** isotonic.py:82-87: reconstruction, [sol[i+1:k] = sol[i]]. *)
Fixpoint reconstruct (fuel n : nat) (tgt : nat -> nat) (s : nat -> R) (i : nat) : option (nat -> R) :=
  match fuel with
  | O => None
  | S fuel' =>
      if Nat.ltb i n then
        let k := (tgt i + 1)%nat in
        reconstruct fuel' n tgt
          (fun j => if (Nat.leb (i + 1) j && Nat.ltb j k)%bool then s i else s j) k
      else Some s
  end.

(** isotonic.py:37-88 [_isotonic_l2_pav_numba]; [astype] is [sol.astype(y.dtype)]. *)
Definition pav (fuel : nat) (astype : R -> R) (y : vec) : option vec :=
  let n := length y in
  match outer fuel n (init_arrays y) 0 with
  | None => None
  | Some a =>
      match reconstruct fuel n (target a) (sol a) 0 with
      | None => None
      | Some s => Some (map (fun i => astype (s i)) (seq 0 n))
      end
  end.

(** jnp.clip with possibly infinite bounds (isotonic.py:106, 124). *)
Definition xmax (a : R) (lo : xnum) : R := match lo with Fin l => Rmax a l | _ => a end.
Definition xmin (a : R) (hi : xnum) : R := match hi with Fin h => Rmin a h | _ => a end.
Definition xclip (lo hi : xnum) (a : R) : R := xmin (xmax a lo) hi.

(** isotonic.py:106-125 [isotonic_l2_pav] *)
Definition isotonic_l2_pav (fuel : nat) (astype : R -> R) (y : vec) (y_min y_max : xnum)
    (increasing : bool) : option vec :=
  let sign := if increasing then -1 else 1 in
  match pav fuel astype (smul sign y) with
  | None => None
  | Some s => Some (map (xclip y_min y_max) (smul sign s))
  end.

(** dtype conversions: floats are kept, integers truncated toward zero. *)
Definition astype_float (a : R) : R := a.
Definition astype_int (a : R) : R :=
  if Rlt_dec a 0 then - IZR (Int_part (- a)) else IZR (Int_part a).

(** ** Specification *)
Definition monotone (increasing : bool) (v : vec) : Prop :=
  forall i, (S i < length v)%nat ->
    if increasing then nth i v 0 <= nth (S i) v 0 else nth (S i) v 0 <= nth i v 0.
(** y_min is -inf or finite, y_max is +inf or finite, and y_min <= y_max. *)
Definition valid_bounds (lo hi : xnum) : Prop :=
  match lo, hi with
  | NInf, PInf | NInf, Fin _ | Fin _, PInf => True
  | Fin l, Fin h => l <= h
  | _, _ => False
  end.
Definition in_bounds (lo hi : xnum) (a : R) : Prop :=
  match lo with Fin l => l <= a | _ => True end /\ match hi with Fin h => a <= h | _ => True end.
Definition isotonic_set (n : nat) (lo hi : xnum) (increasing : bool) (v : vec) : Prop :=
  length v = n /\ monotone increasing v /\ Forall (in_bounds lo hi) v.
