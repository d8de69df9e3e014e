(** Specification for C81: closed and bounded sets of vectors, lower semi-continuous functions. *)
From Coq Require Import Reals List.
From Verif Require Import Prelude Vec.
Import ListNotations.
Open Scope R_scope.

(** Every coordinate of x is within eps of that of c. *)
Definition near (n : nat) (eps : R) (c x : vec) : Prop := forall i, (i < n)%nat -> Rabs (nth i x 0 - nth i c 0) < eps.
Definition bounded_set (n : nat) (K : vec -> Prop) : Prop :=
  exists B, forall x, K x -> length x = n /\ forall i, (i < n)%nat -> Rabs (nth i x 0) <= B.
Definition closed_set (n : nat) (K : vec -> Prop) : Prop :=
  forall c, length c = n -> (forall eps, 0 < eps -> exists x, K x /\ near n eps c x) -> K c.
Definition lsc_on (n : nat) (K : vec -> Prop) (f : vec -> R) : Prop :=
  forall c, K c -> forall eps, 0 < eps -> exists delta, 0 < delta /\ forall x, K x -> near n delta c x -> f c - eps < f x.
