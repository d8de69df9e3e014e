(** Model of jaxopt/_src/prox.py.  Inputs are flat vectors; hyperparameters given
    as a scalar are broadcast (prox.py:72-73, 128-131). *)
From Coq Require Import Reals List Lra.
From Verif Require Import Vec Proj.
Import ListNotations.
Open Scope R_scope.

Fixpoint map2 {A B C} (f : A -> B -> C) (x : list A) (y : list B) : list C :=
  match x, y with
  | a :: x', b :: y' => f a b :: map2 f x' y'
  | _, _ => []
  end.

(** prox.py:27-46 [prox_none] *)
Definition prox_none (x : vec) (scaling : R) : vec := x.

(** prox.py:49-77 [prox_lasso], l1reg of the shape of [x] *)
Definition prox_lasso (x l1reg : vec) (scaling : R) : vec :=
  map2 (fun u v => sign u * relu (Rabs u - v * scaling)) x l1reg.
(** prox.py:72-76: scalar l1reg *)
Definition prox_lasso_scalar (x : vec) (l1reg scaling : R) : vec :=
  prox_lasso x (repeat l1reg (length x)) scaling.

(** prox.py:79-101 [prox_non_negative_lasso] *)
Definition prox_non_negative_lasso (x : vec) (l1reg scaling : R) : vec :=
  map relu (map (fun y => y - l1reg * scaling) x).

(** prox.py:104-137 [prox_elastic_net] *)
Definition prox_elastic_net (x lam gam : vec) (scaling : R) : vec :=
  map3 (fun u l g => sign u * relu (Rabs u - scaling * l) / (1 + scaling * l * g)) x lam gam.
Definition prox_elastic_net_scalar (x : vec) (lam gam scaling : R) : vec :=
  prox_elastic_net x (repeat lam (length x)) (repeat gam (length x)) scaling.

(** prox.py:140-166 [prox_group_lasso].  At x = 0 the factor is -inf or NaN in
    Python, hence replaced by 0, and multiplied by a zero vector either way. *)
Definition prox_group_lasso (x : vec) (l2reg scaling : R) : vec :=
  let l2_norm := norm2 x in
  let factor := 1 - l2reg * scaling / l2_norm in
  let factor := if Rle_dec 0 factor then factor else 0 in
  smul factor x.

(** prox.py:169-191 [prox_ridge] *)
Definition prox_ridge (x : vec) (l2reg scaling : R) : vec :=
  smul (1 / (1 + scaling * l2reg)) x.

(** prox.py:194-216 [prox_non_negative_ridge] *)
Definition prox_non_negative_ridge (x : vec) (l2reg scaling : R) : vec :=
  map relu (smul (1 / (1 + l2reg * scaling)) x).

(** prox.py:219-224 [make_prox_from_projection] *)
Definition make_prox_from_projection {H} (projection : vec -> H -> vec) (x : vec) (h : H) (scaling : R) : vec :=
  projection x h.

(** ** Specification *)

(** [p] is the unique minimiser of [F] over [D]. *)
Definition is_argmin (D : vec -> Prop) (F : vec -> R) (p : vec) : Prop :=
  D p /\ (forall q, D q -> F p <= F q) /\ (forall q, D q -> F q <= F p -> q = p).

Definition same_shape (x q : vec) : Prop := length q = length x.
Definition same_shape_nonneg (x q : vec) : Prop :=
  length q = length x /\ forall i, (i < length x)%nat -> 0 <= nth i q 0.

(** 0.5 ||x - y||^2 + penalty(y) *)
Definition prox_objective (penalty : vec -> R) (x y : vec) : R := / 2 * dist2 x y + penalty y.

(** sum_i w_i |y_i| *)
Definition weighted_l1 (w y : vec) : R := dot w (map Rabs y).
(** sum_i lam_i (|y_i| + gam_i * 0.5 * y_i^2) *)
Definition elastic_penalty (lam gam y : vec) : R :=
  vsum (map3 (fun l g v => l * (Rabs v + g * / 2 * (v * v))) lam gam y).
