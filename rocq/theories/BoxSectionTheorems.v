(** C10: projection_box_section. *)
From Coq Require Import Reals List ZArith Bool Lra Lia.
From Verif Require Import Prelude Base Vec Proj ProjProofs Prox Bisection BoxSection BoxSectionProofs.
Import ListNotations.
Open Scope R_scope.

(** C10.  Exactly one result p; it lies in the box, and its weighted l1 distance
    to the exact projection p' is at most the larger of the bisection tolerance
    and |w|^2 (upper-lower)/2^30.  On the face <w,alpha> = c this is false
    (C10_degenerate_refuted). *)
Theorem C10_box_section : forall x alpha beta w c check_feasible,
  length alpha = length x -> length beta = length x -> length w = length x -> x <> [] ->
  (forall i, (i < length x)%nat -> 0 < nth i w 0) ->
  (forall i, (i < length x)%nat -> nth i alpha 0 <= nth i beta 0) ->
  dot w alpha < c -> c <= dot w beta ->
  exists p, (forall r, projection_box_section x alpha beta w c check_feasible r <-> r = Ok p) /\
    box alpha beta p /\
    exists p', is_projection (box_section alpha beta w c) x p' /\
      dot w (map Rabs (vsub p p')) <=
        Rmax (/ 100000)
             (dot w w * ((section_upper x beta w - section_lower x alpha w) / 2 ^ 30)).
Proof. intros. apply section_result; assumption. Qed.
Print Assumptions C10_box_section.

(** An exact root of the optimality function gives the exact projection. *)
Theorem C10_exact_root : forall x alpha beta w c tau,
  length alpha = length x -> length beta = length x -> length w = length x ->
  (forall i, (i < length x)%nat -> nth i alpha 0 <= nth i beta 0) ->
  section_fun x alpha beta w c tau = 0 ->
  is_projection (box_section alpha beta w c) x (section_point x alpha beta w tau).
Proof. intros. apply root_projection; assumption. Qed.
Print Assumptions C10_exact_root.

(** With check_feasible, an infeasible section raises ValueError. *)
Theorem C10_infeasible : forall x alpha beta w c,
  c < dot w alpha \/ dot w beta < c ->
  forall r, projection_box_section x alpha beta w c true r <-> r = Err ValueError.
Proof.
  intros x alpha beta w c H r. unfold projection_box_section. simpl.
  destruct (Rlt_dec c (dot w alpha)); [reflexivity|].
  destruct (Rlt_dec (dot w beta) c); [reflexivity|]. lra.
Qed.
Print Assumptions C10_infeasible.

(** Finding: on the feasible section {0 <= y <= 1, y = 0} the result is
    1 - 2^-30, accepted by check_feasible and far from the only feasible point. *)
Theorem C10_degenerate_refuted :
  exists x alpha beta w c p p',
    x <> [] /\ (forall i, (i < length x)%nat -> 0 < nth i w 0) /\ box alpha beta alpha /\
    (forall r, projection_box_section x alpha beta w c true r <-> r = Ok p) /\
    is_projection (box_section alpha beta w c) x p' /\
    1 / 2 <= dot w (map Rabs (vsub p p')).
Proof.
  exists [0], [0], [1], [1], 0, [1 - / 2 ^ 30], [0].
  split; [discriminate|]. split; [intros [|i] Hi; simpl in *; [lra|lia]|].
  split; [split; [reflexivity|]; intros [|i] Hi; simpl in *; [lra|lia]|].
  split; [exact degenerate_result|]. split.
  - pose proof (C10_exact_root [0] [0] [1] [1] 0 0 eq_refl eq_refl eq_refl) as H.
    assert (E : section_point [0] [0] [1] [1] 0 = [0]).
    { unfold section_point, projection_box, smul; simpl. unfold clip. rewrite Rmax_left, Rmin_left by lra. f_equal; ring. }
    rewrite E in H. apply H.
    + intros [|i] Hi; simpl in *; [lra|lia].
    + apply degenerate_fun. lra.
  - assert (0 < / 2 ^ 30 <= / 2).
    { split; [apply Rinv_0_lt_compat, pow_lt; lra|]. apply Rinv_le_contravar; [lra|].
      pose proof (pow_R1_Rle 2 29 ltac:(lra)). change (2 ^ 30) with (2 * 2 ^ 29). lra. }
    set (e := / 2 ^ 30) in *. clearbody e. simpl. rewrite Rabs_right by lra. lra.
Qed.
Print Assumptions C10_degenerate_refuted.

Example C10_example : dot [1; 2] [0; 0] < 2 /\ 2 <= dot [1; 2] [1; 1] /\
  section_fun [0; 0] [0; 0] [1; 1] [1; 2] 2 (2/5) = 0.
Proof.
  simpl. split; [lra|]. split; [lra|].
  unfold section_fun, section_point, projection_box, smul; simpl.
  unfold clip. rewrite !Rmax_left, !Rmin_left by lra. lra.
Qed.
