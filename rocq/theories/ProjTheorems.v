(** C05, C08, C09 and the corresponding parts of C12. *)
From Coq Require Import Reals List Lra Lia.
From Verif Require Import Vec Proj ProjProofs.
Import ListNotations.
Open Scope R_scope.

(** C05 *)
Theorem C05_non_negative : forall x,
  is_projection (nonneg_orthant (length x)) x (projection_non_negative x).
Proof. intros x. eapply var_ineq_projection; [|apply non_negative_vi]. intros q [H _]; exact H. Qed.
Print Assumptions C05_non_negative.

Theorem C05_box : forall x lower upper,
  length lower = length x -> length upper = length x ->
  (forall i, (i < length x)%nat -> nth i lower 0 <= nth i upper 0) ->
  is_projection (box lower upper) x (projection_box x lower upper).
Proof. intros x lo up H1 H2 H3. eapply var_ineq_projection; [|apply box_vi; assumption]. intros q [H _]; exact H. Qed.
Print Assumptions C05_box.

Theorem C05_hypercube : forall x unit, 0 <= unit ->
  is_projection (hypercube (length x) unit) x (projection_hypercube x unit).
Proof. intros x u H. eapply var_ineq_projection; [|apply hypercube_vi; assumption]. intros q [Hq _]; exact Hq. Qed.
Print Assumptions C05_hypercube.

Theorem C05_linf_ball : forall x r, 0 <= r ->
  is_projection (linf_ball (length x) r) x (projection_linf_ball x r).
Proof. intros x u H. eapply var_ineq_projection; [|apply linf_ball_vi; assumption]. intros q [Hq _]; exact Hq. Qed.
Print Assumptions C05_linf_ball.

(** C05, last clause: a nearest point of a feasible input is the input. *)
Theorem C05_feasible_unchanged : forall (C : vec -> Prop) x p, is_projection C x p -> C x -> p = x.
Proof. exact is_projection_fixed. Qed.
Print Assumptions C05_feasible_unchanged.

(** C08 *)
Theorem C08_l2_ball : forall x r, 0 <= r ->
  is_projection (l2_ball (length x) r) x (projection_l2_ball x r).
Proof. intros x r H. eapply var_ineq_projection; [|apply l2_ball_vi; assumption]. intros q [Hq _]; exact Hq. Qed.
Print Assumptions C08_l2_ball.

Theorem C08_l2_sphere : forall x r, 0 <= r -> norm2 x <> 0 ->
  is_projection (l2_sphere (length x) r) x (projection_l2_sphere x r).
Proof. exact l2_sphere_nearest. Qed.
Print Assumptions C08_l2_sphere.

(** C09 *)
Theorem C09_hyperplane : forall x a b, length x = length a -> a <> vzero (length a) ->
  is_projection (hyperplane a b) x (projection_hyperplane x a b).
Proof. intros x a b H1 H2. eapply var_ineq_projection; [|apply hyperplane_vi; assumption]. intros q [Hq _]; exact Hq. Qed.
Print Assumptions C09_hyperplane.

Theorem C09_halfspace : forall x a b, length x = length a -> a <> vzero (length a) ->
  is_projection (halfspace a b) x (projection_halfspace x a b).
Proof. intros x a b H1 H2. eapply var_ineq_projection; [|apply halfspace_vi; assumption]. intros q [Hq _]; exact Hq. Qed.
Print Assumptions C09_halfspace.

(** Non-vacuity *)
Example C05_example :
  box [0; -1] [2; 1] [1; 1] /\ projection_box [5; -3] [0; -1] [2; 1] = [2; -1].
Proof.
  split.
  - split; [reflexivity|]. intros [|[|i]]; simpl; intros; try lra; lia.
  - unfold projection_box, clip; simpl.
    rewrite (Rmax_left 5 0), (Rmin_right 5 2), (Rmax_right (-3) (-1)), (Rmin_left (-1) 1) by lra.
    reflexivity.
Qed.
Example C08_example : 0 <= 1 /\ norm2 [3; 4] <> 0 /\ projection_l2_ball [3; 4] 1 = [3 / 5; 4 / 5].
Proof.
  assert (E : norm2 [3; 4] = 5).
  { unfold norm2; simpl. replace (3 * 3 + (4 * 4 + 0)) with (5 * 5) by ring. apply sqrt_square; lra. }
  split; [lra|]. split; [rewrite E; lra|].
  unfold projection_l2_ball. rewrite E. destruct (Rle_dec 5 1); [lra|].
  unfold smul; simpl. f_equal; [lra|f_equal; lra].
Qed.
Example C09_example : projection_halfspace [3; 1] [1; 0] 2 = [2; 1] /\ [1; 0] <> vzero 2.
Proof.
  split.
  - unfold projection_halfspace; simpl. unfold smul; simpl.
    rewrite relu_pos by lra. f_equal; [field|f_equal; field].
  - unfold vzero; simpl. intros H; inversion H. lra.
Qed.
