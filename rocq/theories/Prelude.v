(** Shared vocabulary: error values and the extended numbers on which the
    Python code branches (infinities and NaN). *)
From Coq Require Import Reals List ZArith Bool Lra.

(** Python exceptions that the modelled functions raise, as values. *)
Inductive exn : Type :=
| ValueError        (* raise ValueError(...) *)
| TypeError         (* raise TypeError(...) *)
| AttributeError    (* missing attribute *)
| NotImplementedErr (* raise NotImplementedError *)
| RecursionError    (* unbounded Python recursion *)
| StopIteration     (* next() on an exhausted iterator *)
| IndexError        (* list index out of range *)
| UnboundLocalError (* a local variable read before assignment *)
| Unspecified.      (* behaviour of an external library that is not modelled *)

Inductive result (A : Type) : Type :=
| Ok (a : A)
| Err (e : exn).
Arguments Ok {A} a.
Arguments Err {A} e.

(** A floating-point value, idealised: a real number, an infinity or NaN.
    Rounding is not modelled. *)
Inductive xnum : Type :=
| Fin (r : R)
| PInf
| NInf
| NaN.

(** IEEE comparison [x > y] for a finite right-hand side: false on NaN. *)
Definition xgtb (x : xnum) (y : R) : bool :=
  match x with
  | Fin r => if Rlt_dec y r then true else false
  | PInf => true
  | NInf => false
  | NaN => false
  end.

(** IEEE comparison [x <= y] for a finite right-hand side: false on NaN. *)
Definition xleb (x : xnum) (y : R) : bool :=
  match x with
  | Fin r => if Rle_dec r y then true else false
  | PInf => false
  | NInf => true
  | NaN => false
  end.

Lemma xgtb_false_inv (x : xnum) (y : R) :
  xgtb x y = false -> x = NaN \/ xleb x y = true.
Proof.
  destruct x as [r| | |]; simpl; intros H; auto; try discriminate.
  destruct (Rlt_dec y r) as [Hlt|Hge]; [discriminate|].
  right. destruct (Rle_dec r y) as [|Hn]; [reflexivity|lra].
Qed.
