(** Model of jaxopt/_src/loss.py. *)
From Coq Require Import Reals List ZArith Bool Lra.
From Verif Require Import Vec Proj BoxSection SparseSimplex.
Import ListNotations.
Open Scope R_scope.

(** loss.py:29-45 [huber_loss] *)
Definition huber_loss (target pred delta : R) : R :=
  let abs_diff := Rabs (target - pred) in
  if Rlt_dec delta abs_diff then delta * (abs_diff - 0.5 * delta) else 0.5 * abs_diff ^ 2.

(** jax.nn.softplus(x) = logaddexp(x, 0) *)
Definition softplus (x : R) : R := ln (1 + exp x).

(** jnp.where(label, a, b) on an integer label *)
Definition where_label (label : Z) (a b : R) : R := if Z.eqb label 0 then b else a.

(** loss.py:50-65 [binary_logistic_loss] *)
Definition binary_logistic_loss (label : Z) (logit : R) : R :=
  softplus (where_label label (- logit) logit).

(** loss.py:83-106 [sparse_plus] *)
Definition sparse_plus (x : R) : R :=
  if Rle_dec x (-1) then 0 else if Rle_dec 1 x then x else (x + 1) ^ 2 / 4.

(** loss.py:68-81 [binary_sparsemax_loss] *)
Definition binary_sparsemax_loss (label : Z) (logit : R) : R :=
  sparse_plus (where_label label (- logit) logit).

(** loss.py:109-132 [sparse_sigmoid]: projection_hypercube of a scalar is clip(., 0, 2). *)
Definition sparse_sigmoid (x : R) : R := 0.5 * clip (x + 1) 0 2.

(** loss.py:135-148 [binary_hinge_loss] *)
Definition binary_hinge_loss (label : Z) (score : R) : R :=
  let signed_label := 2 * IZR label - 1 in Rmax 0 (1 - score * signed_label).

(** loss.py:151-164 [binary_perceptron_loss] *)
Definition binary_perceptron_loss (label : Z) (score : R) : R :=
  let signed_label := 2 * IZR label - 1 in Rmax 0 (- score * signed_label).

(** x.at[i].set(v) *)
Fixpoint set_nth {A} (l : list A) (i : nat) (v : A) : list A :=
  match l, i with
  | [], _ => []
  | _ :: l', O => v :: l'
  | a :: l', S i' => a :: set_nth l' i' v
  end.

(** jax.scipy.special.logsumexp *)
Definition logsumexp (l : vec) : R := ln (vsum (map exp l)).

(** loss.py:169-184 [multiclass_logistic_loss]; 0 <= label < n. *)
Definition multiclass_logistic_loss (label : nat) (logits : vec) : R :=
  logsumexp (set_nth (map (fun a => a - nth label logits 0) logits) label 0).

(** loss.py:187-207 [multiclass_sparsemax_loss] *)
Definition multiclass_sparsemax_loss (label : nat) (scores : vec) : R :=
  let proba := projection_simplex scores 1 in
  let scores := set_nth (map (fun a => a - nth label scores 0) scores) label 0 in
  dot proba (map3 (fun p s _ => if Req_EM_T p 0 then 0 else s) proba scores scores)
  + 0.5 * (1 - dot proba proba).

(** loss.py:210-224 [multiclass_hinge_loss] *)
Definition multiclass_hinge_loss (label : nat) (scores : vec) : R :=
  let one_hot_label := one_hot label (length scores) in
  vmax (vsub (map (fun a => a + 1) scores) one_hot_label) - dot scores one_hot_label.

(** loss.py:227-242 [multiclass_perceptron_loss] *)
Definition multiclass_perceptron_loss (label : nat) (scores : vec) : R :=
  let one_hot_label := one_hot label (length scores) in
  vmax scores - dot scores one_hot_label.

(** loss.py:247-276 [make_fenchel_young_loss] *)
Definition make_fenchel_young_loss (max_fun : vec -> R) (y_true scores : vec) : R :=
  max_fun scores - dot y_true scores.

(** ** Specification *)
Definition convex (f : R -> R) : Prop :=
  forall x y t, 0 <= t <= 1 -> f (t * x + (1 - t) * y) <= t * f x + (1 - t) * f y.
Definition vconvex (n : nat) (f : vec -> R) : Prop :=
  forall x y t, length x = n -> length y = n -> 0 <= t <= 1 ->
    f (vadd (smul t x) (smul (1 - t) y)) <= t * f x + (1 - t) * f y.
Definition sigmoid (x : R) : R := 1 / (1 + exp (- x)).

(** [F] is the maximum over [C] of <s, y> - Omega(y), attained at [argmax s]. *)
Definition is_max_fun (n : nat) (C : vec -> Prop) (Omega : vec -> R) (F : vec -> R) (argmax : vec -> vec) : Prop :=
  (forall y, C y -> length y = n) /\
  forall s, length s = n -> C (argmax s) /\ F s = dot s (argmax s) - Omega (argmax s) /\
    forall y, C y -> dot s y - Omega y <= F s.

(** Gini negentropy, Shannon negentropy (0 ln 0 = 0) and softmax. *)
Definition gini (y : vec) : R := - (0.5 * (vsum y - dot y y)).
Definition xlogx (a : R) : R := if Req_EM_T a 0 then 0 else a * ln a.
Definition shannon (y : vec) : R := vsum (map xlogx y).
Definition softmax (s : vec) : vec := map (fun a => exp a / vsum (map exp s)) s.
Definition sparsemax_cumulant (s : vec) : R :=
  let p := projection_simplex s 1 in dot p s + 0.5 * (1 - dot p p).
(** Signed margin of a binary score for labels 0 and 1. *)
Definition margin (label : Z) (score : R) : R := if Z.eqb label 1 then score else - score.
