(** C06, C07 (simplex, l1 ball and sphere) and C12 (all closed-form projections). *)
From Coq Require Import Reals List Lra Lia Sorting.Permutation.
From Verif Require Import Vec Proj ProjProofs SimplexProofs.
Import ListNotations.
Open Scope R_scope.

(** C06 *)
Theorem C06_simplex : forall x value, x <> [] -> 0 < value ->
  is_projection (simplex (length x) value) x (projection_simplex x value).
Proof.
  intros x v H1 H2. eapply var_ineq_projection; [|apply simplex_vi; assumption]. intros q [Hq _]; exact Hq.
Qed.
Print Assumptions C06_simplex.

Theorem C06_shift_invariant : forall x value c, x <> [] -> 0 < value ->
  projection_simplex (map (fun a => a + c) x) value = projection_simplex x value.
Proof. exact simplex_shift. Qed.
Print Assumptions C06_shift_invariant.

(** [permute sigma x] is the vector whose i-th entry is [x] at [sigma i]. *)
Theorem C06_permutation_equivariant : forall x value sigma, x <> [] -> 0 < value ->
  Permutation sigma (seq 0 (length x)) ->
  projection_simplex (permute sigma x) value = permute sigma (projection_simplex x value).
Proof. exact simplex_permute. Qed.
Print Assumptions C06_permutation_equivariant.

Lemma simplex_example_value : projection_simplex [3; 1; 2] 2 = [3 / 2; 0; 1 / 2].
Proof.
  apply is_projection_unique with (C := simplex 3 2) (x := [3; 1; 2]).
  - apply (C06_simplex [3; 1; 2] 2); [discriminate|lra].
  - assert (E : [3 / 2; 0; 1 / 2] = map (fun a => relu (a - 3 / 2)) [3; 1; 2]).
    { simpl. rewrite (relu_pos (3 - 3 / 2)), (relu_neg (1 - 3 / 2)), (relu_pos (2 - 3 / 2)) by lra.
      f_equal; [lra|f_equal; f_equal; lra]. }
    rewrite E. eapply var_ineq_projection; [intros q [Hq _]; exact Hq|].
    apply (threshold_vi [3; 1; 2]). rewrite <- E. simpl. lra.
Qed.
Example C06_example :
  [3; 1; 2] <> [] /\ 0 < 2 /\ projection_simplex [3; 1; 2] 2 = [3 / 2; 0; 1 / 2] /\
  Permutation [2; 0; 1]%nat (seq 0 (length [3; 1; 2])).
Proof.
  split; [discriminate|]. split; [lra|]. split; [exact simplex_example_value|].
  simpl. apply Permutation_sym. change [2; 0; 1]%nat with ([2%nat] ++ [0%nat; 1%nat]).
  apply (Permutation_app_comm [0%nat; 1%nat] [2%nat]).
Qed.

(** C07, ball *)
Theorem C07_l1_ball : forall x r, 0 < r ->
  is_projection (l1_ball (length x) r) x (projection_l1_ball x r).
Proof. intros x r H. eapply var_ineq_projection; [|apply l1_ball_vi; assumption]. intros q [Hq _]; exact Hq. Qed.
Print Assumptions C07_l1_ball.

(** C07, sphere: a nearest point of the sphere, unless [x] is strictly inside the ball and has a zero coordinate. *)
Theorem C07_l1_sphere : forall x r, 0 < r -> x <> [] ->
  (forall a, In a x -> a <> 0) \/ r <= norm1 x ->
  l1_sphere (length x) r (projection_l1_sphere x r) /\
  forall q, l1_sphere (length x) r q -> dist2 x (projection_l1_sphere x r) <= dist2 x q.
Proof. intros x r H1 H2 H3. exact (l1_sphere_nearest x r H1 H3 H2). Qed.
Print Assumptions C07_l1_sphere.

(** In exactly those remaining cases the result is strictly inside the ball. *)
Theorem C07_l1_sphere_inside_refuted : forall x r, 0 < r -> In 0 x -> norm1 x < r -> norm1 (projection_l1_sphere x r) < r.
Proof.
  intros x r Hr Hin Hn. assert (Hne : x <> []) by (intros ->; destruct Hin). destruct (l1_sphere_form x r Hne Hr) as [E Hs]. rewrite E. set (t := simplex_tau (map Rabs x) r) in *. clearbody t.
  assert (Ht : t < 0).
  { apply Rnot_le_lt. intros Ht. apply (Rlt_irrefl r). rewrite <- Hs at 1. eapply Rle_lt_trans; [|exact Hn]. unfold norm1. clear -Ht. induction x as [|a x IH]; simpl; [lra|]. assert (P := Rabs_pos a). destruct (relu_cases (Rabs a - t)) as [[_ ->]|[_ ->]]; lra. }
  assert (G : forall y, norm1 (map (l1_shrink t) y) <= vsum (map (fun a => relu (Rabs a - t)) y) /\ (In 0 y -> norm1 (map (l1_shrink t) y) < vsum (map (fun a => relu (Rabs a - t)) y))).
  { assert (Z : Rabs (l1_shrink t 0) = 0) by (unfold l1_shrink, sign; destruct (Rlt_dec 0 0); [lra|]; rewrite Rmult_0_l; apply Rabs_R0).
    assert (Zp : 0 < relu (Rabs 0 - t)) by (rewrite Rabs_R0; destruct (relu_cases (0 - t)) as [[H ->]|[H ->]]; lra).
    assert (A : forall a, Rabs (l1_shrink t a) <= relu (Rabs a - t)) by (intros a; destruct (Req_dec a 0) as [-> | Ha]; [lra|rewrite l1_shrink_abs by (left; exact Ha); lra]).
    unfold norm1. induction y as [|a y [IH1 IH2]]; cbn [map vsum]; [split; [lra|intros []]|]. assert (Aa := A a). split; [lra|]. intros [-> | H]; [lra|]. specialize (IH2 H). lra. }
  rewrite <- Hs. apply G. exact Hin.
Qed.
Print Assumptions C07_l1_sphere_inside_refuted.

Theorem C07_l1_sphere_refuted :
  exists x r, 0 < r /\ x <> [] /\ ~ l1_sphere (length x) r (projection_l1_sphere x r).
Proof.
  exists [0], 1. split; [lra|]. split; [discriminate|].
  intros [_ H]. destruct (l1_sphere_form [0] 1 ltac:(discriminate) ltac:(lra)) as [E _].
  rewrite E in H. unfold norm1, l1_shrink, sign in H; simpl in H.
  destruct (Rlt_dec 0 0); [lra|]. rewrite Rmult_0_l, Rabs_R0 in H. lra.
Qed.
Print Assumptions C07_l1_sphere_refuted.

Example C07_example :
  (forall a, In a [1; -2] -> a <> 0) /\ 2 <= norm1 [1; -2] /\ ~ norm1 [1; -2] <= 1.
Proof.
  assert (E : norm1 [1; -2] = 3) by (unfold norm1; simpl; rewrite Rabs_R1, Rabs_left; lra).
  split; [intros a [<-|[<-|[]]]; lra|]. rewrite E. split; lra.
Qed.

(** C12, idempotence: for every projection onto a set (all of C05-C09). *)
Theorem C12_idempotent : forall (C : vec -> Prop) (P : vec -> vec) n,
  (forall x, length x = n -> is_projection C x (P x)) -> (forall q, C q -> length q = n) ->
  forall x, length x = n -> P (P x) = P x.
Proof.
  intros C P n HP HC x Hx. destruct (HP x Hx) as (H1 & H2).
  apply (is_projection_fixed C); [|exact H1]. apply HP, HC, H1.
Qed.
Print Assumptions C12_idempotent.

(** C12, non-expansiveness of each convex projection. *)
Theorem C12_nonexpansive :
  (forall x y, length x = length y ->
     dist2 (projection_non_negative x) (projection_non_negative y) <= dist2 x y) /\
  (forall x y lower upper, length x = length y -> length lower = length x -> length upper = length x ->
     (forall i, (i < length x)%nat -> nth i lower 0 <= nth i upper 0) ->
     dist2 (projection_box x lower upper) (projection_box y lower upper) <= dist2 x y) /\
  (forall x y unit, length x = length y -> 0 <= unit ->
     dist2 (projection_hypercube x unit) (projection_hypercube y unit) <= dist2 x y) /\
  (forall x y r, length x = length y -> 0 <= r ->
     dist2 (projection_linf_ball x r) (projection_linf_ball y r) <= dist2 x y) /\
  (forall x y r, length x = length y -> 0 <= r ->
     dist2 (projection_l2_ball x r) (projection_l2_ball y r) <= dist2 x y) /\
  (forall x y r, length x = length y -> 0 < r ->
     dist2 (projection_l1_ball x r) (projection_l1_ball y r) <= dist2 x y) /\
  (forall x y v, length x = length y -> x <> [] -> 0 < v ->
     dist2 (projection_simplex x v) (projection_simplex y v) <= dist2 x y) /\
  (forall x y a b, length x = length a -> length y = length a -> a <> vzero (length a) ->
     dist2 (projection_hyperplane x a b) (projection_hyperplane y a b) <= dist2 x y /\
     dist2 (projection_halfspace x a b) (projection_halfspace y a b) <= dist2 x y).
Proof.
  repeat match goal with |- _ /\ _ => split end.
  - intros x y Hl. eapply var_ineq_nonexpansive; [apply non_negative_vi|rewrite Hl; apply non_negative_vi].
  - intros x y lo up Hl H1 H2 H3.
    eapply var_ineq_nonexpansive; [apply box_vi; assumption|apply box_vi; try lia].
    intros; apply H3; lia.
  - intros x y u Hl Hu. eapply var_ineq_nonexpansive; [apply hypercube_vi; assumption|rewrite Hl; apply hypercube_vi; assumption].
  - intros x y u Hl Hu. eapply var_ineq_nonexpansive; [apply linf_ball_vi; assumption|rewrite Hl; apply linf_ball_vi; assumption].
  - intros x y u Hl Hu. eapply var_ineq_nonexpansive; [apply l2_ball_vi; assumption|rewrite Hl; apply l2_ball_vi; assumption].
  - intros x y u Hl Hu. eapply var_ineq_nonexpansive; [apply l1_ball_vi; assumption|rewrite Hl; apply l1_ball_vi; assumption].
  - intros x y u Hl Hx Hu. eapply var_ineq_nonexpansive; [apply simplex_vi; assumption|rewrite Hl; apply simplex_vi; [|assumption]].
    intros ->. apply Hx. apply length_zero_iff_nil. exact Hl.
  - intros x y a b H1 H2 H3. split.
    + eapply var_ineq_nonexpansive; apply hyperplane_vi; assumption.
    + eapply var_ineq_nonexpansive; apply halfspace_vi; assumption.
Qed.
Print Assumptions C12_nonexpansive.

(** Instance of idempotence: the simplex. *)
Example C12_example : forall x, length x = 3%nat ->
  projection_simplex (projection_simplex x 1) 1 = projection_simplex x 1.
Proof.
  apply (C12_idempotent (simplex 3 1) (fun x => projection_simplex x 1) 3).
  - intros x Hx. rewrite <- Hx. apply C06_simplex; [|lra]. intros ->. discriminate.
  - intros q [H _]; exact H.
Qed.
