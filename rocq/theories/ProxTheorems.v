(** C13, C14: proximal operators return the unique minimiser. *)
From Coq Require Import Reals List Lra Lia.
From Verif Require Import Vec Proj ProjProofs Prox ProxProofs SimplexProofs.
Import ListNotations.
Open Scope R_scope.

Theorem C13_prox_none : forall x s,
  is_argmin (same_shape x) (prox_objective (fun _ => 0) x) (prox_none x s).
Proof.
  intros x s. apply strong_argmin with (n := length x); [intros q H; exact H|reflexivity|].
  intros q _. apply prox_growth_subgrad. unfold prox_none. rewrite vsub_self, dot_vzero_l. lra.
Qed.
Print Assumptions C13_prox_none.

(** weights given coordinate-wise *)
Theorem C13_prox_lasso : forall x l1reg s,
  length l1reg = length x -> 0 <= s -> Forall (Rle 0) l1reg ->
  is_argmin (same_shape x) (prox_objective (fun y => s * weighted_l1 l1reg y) x) (prox_lasso x l1reg s).
Proof.
  intros x w s Hl Hs Hw. apply strong_argmin with (n := length x); [intros q H; exact H| |].
  - unfold same_shape, prox_lasso. rewrite map2_length. lia.
  - intros q Hq. apply lasso_growth; assumption.
Qed.
Print Assumptions C13_prox_lasso.

Theorem C13_prox_lasso_scalar : forall x l s, 0 <= s -> 0 <= l ->
  is_argmin (same_shape x) (prox_objective (fun y => s * (l * norm1 y)) x) (prox_lasso_scalar x l s).
Proof.
  intros x l s Hs Hl.
  destruct (C13_prox_lasso x (repeat l (length x)) s) as (H1 & H2 & H3);
    [apply repeat_length|exact Hs|apply Forall_forall; intros a Ha; apply repeat_spec in Ha; lra|].
  unfold prox_lasso_scalar. unfold prox_objective, weighted_l1 in *.
  assert (Hn : length (prox_lasso x (repeat l (length x)) s) = length x) by exact H1.
  split; [exact H1|]. rewrite (dot_repeat_abs l _ (length x) Hn) in *.
  split; intros q Hq; [specialize (H2 q Hq)|specialize (H3 q Hq)];
    rewrite (dot_repeat_abs l q (length x) Hq) in *; assumption.
Qed.
Print Assumptions C13_prox_lasso_scalar.

Theorem C13_prox_non_negative_lasso : forall x l s,
  is_argmin (same_shape_nonneg x) (prox_objective (fun y => s * l * norm1 y) x) (prox_non_negative_lasso x l s).
Proof.
  intros x l s. apply strong_argmin with (n := length x); [intros q [H _]; exact H| |].
  - unfold prox_non_negative_lasso. split; [rewrite !map_length; reflexivity|].
    intros i Hi. rewrite (nth_map_lt relu _ i 0 0) by (rewrite map_length; exact Hi). apply relu_nonneg.
  - intros q [H1 H2]. apply non_negative_lasso_growth; assumption.
Qed.
Print Assumptions C13_prox_non_negative_lasso.

Theorem C13_prox_elastic_net : forall x lam gam s,
  length lam = length x -> length gam = length x -> 0 <= s ->
  Forall (Rle 0) lam -> Forall (Rle 0) gam ->
  is_argmin (same_shape x) (prox_objective (fun y => s * elastic_penalty lam gam y) x)
    (prox_elastic_net x lam gam s).
Proof.
  intros x lam gam s Hl Hg Hs Fl Fg. apply strong_argmin with (n := length x); [intros q H; exact H| |].
  - unfold same_shape, prox_elastic_net. apply map3_length; congruence.
  - intros q Hq. apply elastic_net_growth; assumption.
Qed.
Print Assumptions C13_prox_elastic_net.

Theorem C13_prox_elastic_net_scalar : forall x lam gam s, 0 <= s -> 0 <= lam -> 0 <= gam ->
  is_argmin (same_shape x)
    (prox_objective (fun y => s * (lam * (norm1 y + gam * / 2 * sqnorm y))) x)
    (prox_elastic_net_scalar x lam gam s).
Proof.
  intros x l g s Hs Hl Hg.
  destruct (C13_prox_elastic_net x (repeat l (length x)) (repeat g (length x)) s) as (H1 & H2 & H3);
    [apply repeat_length|apply repeat_length|exact Hs
    |apply Forall_forall; intros a Ha; apply repeat_spec in Ha; lra
    |apply Forall_forall; intros a Ha; apply repeat_spec in Ha; lra|].
  unfold prox_elastic_net_scalar. unfold prox_objective in *.
  assert (Hn : length (prox_elastic_net x (repeat l (length x)) (repeat g (length x)) s) = length x) by exact H1.
  split; [exact H1|]. rewrite (elastic_penalty_repeat l g _ (length x) Hn) in *.
  split; intros q Hq; [specialize (H2 q Hq)|specialize (H3 q Hq)];
    rewrite (elastic_penalty_repeat l g q (length x) Hq) in *; assumption.
Qed.
Print Assumptions C13_prox_elastic_net_scalar.

Theorem C13_prox_group_lasso : forall x l s, 0 <= l -> 0 <= s ->
  is_argmin (same_shape x) (prox_objective (fun y => s * l * norm2 y) x) (prox_group_lasso x l s).
Proof.
  intros x l s Hl Hs. apply strong_argmin with (n := length x); [intros q H; exact H| |].
  - unfold same_shape, prox_group_lasso. apply smul_length.
  - intros q Hq. apply group_lasso_growth; [exact Hq|nra].
Qed.
Print Assumptions C13_prox_group_lasso.

(** A projection turned into a prox: minimiser of the distance over the set, for
    every scaling. *)
Theorem C13_prox_from_projection : forall (H : Type) (projection : vec -> H -> vec) (C : H -> vec -> Prop) x h s,
  is_projection (C h) x (projection x h) ->
  is_argmin (C h) (prox_objective (fun _ => 0) x) (make_prox_from_projection projection x h s).
Proof.
  intros H pr C x h s (H1 & H2 & H3). unfold make_prox_from_projection, prox_objective.
  split; [exact H1|]. split; intros q Hq; [specialize (H2 q Hq); lra|].
  intros Hle. apply H3; [exact Hq|]. lra.
Qed.
Print Assumptions C13_prox_from_projection.

Example C13_example :
  Forall (Rle 0) [1; 2] /\ prox_lasso [3; -1] [1; 2] (1/2) = [5/2; 0].
Proof.
  split; [repeat constructor; lra|].
  unfold prox_lasso; simpl. f_equal; [|f_equal].
  - unfold sign. destruct (Rlt_dec 0 3); [|lra]. rewrite Rabs_right, relu_pos; lra.
  - rewrite (Rabs_left (-1)), relu_neg by lra. ring.
Qed.

(** C14.  The documented objective has penalty scaling * l2reg * ||y||^2. *)
Theorem C14_prox_ridge_refuted :
  exists x l s, 0 <= l /\ 0 <= s /\
    ~ is_argmin (same_shape x) (prox_objective (fun y => s * l * sqnorm y) x) (prox_ridge x l s).
Proof.
  exists [1], 1, 1. split; [lra|]. split; [lra|]. intros (_ & H & _).
  specialize (H [/ 3] eq_refl). unfold prox_objective, prox_ridge, dist2, sqnorm, smul in H; simpl in H.
  lra.
Qed.
Print Assumptions C14_prox_ridge_refuted.

Theorem C14_prox_non_negative_ridge_refuted :
  exists x l s, 0 <= l /\ 0 <= s /\
    ~ is_argmin (same_shape_nonneg x) (prox_objective (fun y => s * l * sqnorm y) x)
        (prox_non_negative_ridge x l s).
Proof.
  exists [1], 1, 1. split; [lra|]. split; [lra|]. intros (_ & H & _).
  specialize (H [/ 3]). unfold prox_objective, prox_non_negative_ridge, dist2, sqnorm, smul in H; simpl in H.
  rewrite relu_pos in H by lra.
  assert (Hd : same_shape_nonneg [1] [/ 3]).
  { split; [reflexivity|]. intros [|i] Hi; simpl in *; [lra|lia]. }
  specialize (H Hd). lra.
Qed.
Print Assumptions C14_prox_non_negative_ridge_refuted.

(** What the operators do minimise: the objective with the factor 1/2 that the
    documentation does not have. *)
Theorem C14_prox_ridge_half : forall x l s, 0 <= l -> 0 <= s ->
  is_argmin (same_shape x) (prox_objective (fun y => s * l * / 2 * sqnorm y) x) (prox_ridge x l s).
Proof.
  intros x l s Hl Hs. apply strong_argmin with (n := length x); [intros q H; exact H|apply smul_length|].
  intros q Hq. apply ridge_growth; [exact Hq|nra].
Qed.
Print Assumptions C14_prox_ridge_half.

Theorem C14_prox_non_negative_ridge_half : forall x l s, 0 <= l -> 0 <= s ->
  is_argmin (same_shape_nonneg x) (prox_objective (fun y => s * l * / 2 * sqnorm y) x)
    (prox_non_negative_ridge x l s).
Proof.
  intros x l s Hl Hs. apply strong_argmin with (n := length x); [intros q [H _]; exact H| |].
  - unfold prox_non_negative_ridge. split; [rewrite map_length, smul_length; reflexivity|].
    intros i Hi. rewrite (nth_map_lt relu _ i 0 0) by (rewrite smul_length; exact Hi). apply relu_nonneg.
  - intros q [H1 H2]. apply non_negative_ridge_growth; [exact H1|exact H2|nra].
Qed.
Print Assumptions C14_prox_non_negative_ridge_half.

Example C14_example : prox_ridge [3] 1 2 = [1].
Proof. unfold prox_ridge, smul; simpl. f_equal. field. Qed.
