From Coq Require Import Reals List Lra Lia Bool Sorting.Permutation.
From Verif Require Import Vec Proj.
Import ListNotations.
Open Scope R_scope.

(** ** Scalars *)
Lemma Rdiv_nonneg a b : 0 <= a -> 0 < b -> 0 <= a / b.
Proof. intros. unfold Rdiv. apply Rmult_le_pos; [assumption|]. apply Rlt_le, Rinv_0_lt_compat; assumption. Qed.
Lemma relu_nonneg a : 0 <= relu a.
Proof. apply Rmax_r. Qed.
Lemma relu_pos a : 0 <= a -> relu a = a.
Proof. intros. unfold relu. apply Rmax_left. lra. Qed.
Lemma relu_neg a : a <= 0 -> relu a = 0.
Proof. intros. unfold relu. apply Rmax_right. lra. Qed.
Lemma relu_cases a : (0 < a /\ relu a = a) \/ (a <= 0 /\ relu a = 0).
Proof. destruct (Rlt_dec 0 a); [left|right]; split; try lra; [apply relu_pos|apply relu_neg]; lra. Qed.
Lemma relu_ge a : a <= relu a.
Proof. apply Rmax_l. Qed.
Lemma relu_scale c a : 0 < c -> c * relu a = relu (c * a).
Proof.
  intros Hc. destruct (relu_cases a) as [[H ->]|[H ->]].
  - rewrite relu_pos; nra.
  - rewrite relu_neg; nra.
Qed.
Lemma clip_cases a lo hi : lo <= hi ->
  (a < lo /\ clip a lo hi = lo) \/ (lo <= a <= hi /\ clip a lo hi = a) \/ (hi < a /\ clip a lo hi = hi).
Proof.
  intros H. unfold clip. destruct (Rlt_dec a lo).
  - left. split; [lra|]. rewrite (Rmax_right a lo), Rmin_left; lra.
  - rewrite (Rmax_left a lo) by lra. destruct (Rle_dec a hi).
    + right; left. split; [lra|]. apply Rmin_left; lra.
    + right; right. split; [lra|]. apply Rmin_right; lra.
Qed.
Lemma clip_range a lo hi : lo <= hi -> lo <= clip a lo hi <= hi.
Proof. intros H. destruct (clip_cases a lo hi H) as [[? ->]|[[? ->]|[? ->]]]; lra. Qed.
Lemma clip_vi a lo hi q : lo <= q <= hi -> (a - clip a lo hi) * (q - clip a lo hi) <= 0.
Proof.
  intros H. assert (Hl : lo <= hi) by lra.
  destruct (clip_cases a lo hi Hl) as [[? ->]|[[? ->]|[? ->]]]; nra.
Qed.
Lemma clip_mono a b lo hi : a <= b -> clip a lo hi <= clip b lo hi.
Proof.
  intros. unfold clip. apply Rle_min_compat_r, Rle_max_compat_r. assumption.
Qed.

(** ** Coordinates of mapped vectors *)
Lemma map3_length {A B C D} (f : A -> B -> C -> D) x y z n :
  length x = n -> length y = n -> length z = n -> length (map3 f x y z) = n.
Proof.
  revert y z n; induction x as [|a x IH]; intros [|b y] [|c z] n; simpl; intros; try lia.
  destruct n; [lia|]. f_equal. apply IH; lia.
Qed.
Lemma nth_map3 {A B C D} (f : A -> B -> C -> D) x y z i da db dc dd :
  (i < length x)%nat -> (i < length y)%nat -> (i < length z)%nat ->
  nth i (map3 f x y z) dd = f (nth i x da) (nth i y db) (nth i z dc).
Proof.
  revert y z i; induction x as [|a x IH]; intros [|b y] [|c z] i; simpl; try lia.
  destruct i; simpl; [reflexivity|]. intros. apply IH; lia.
Qed.
Lemma nth_map_lt {A B} (f : A -> B) x i da db :
  (i < length x)%nat -> nth i (map f x) db = f (nth i x da).
Proof.
  revert i; induction x as [|a x IH]; intros [|i]; simpl; try lia; intros; [reflexivity|apply IH; lia].
Qed.

Lemma vi_coords (C : vec -> Prop) x p n :
  length x = n ->
  (forall q, C q -> length q = n) -> C p ->
  (forall q i, C q -> (i < n)%nat -> (nth i x 0 - nth i p 0) * (nth i q 0 - nth i p 0) <= 0) ->
  var_ineq C x p.
Proof.
  intros Hx Hn Hp H. split; [exact Hp|]. intros q Hq. apply dot_nonpos_coords.
  intros i Hi _. rewrite !nth_vsub. apply H; [exact Hq|].
  rewrite vsub_length, Hx, (Hn p Hp) in Hi. lia.
Qed.

(** ** Box-type projections *)
Lemma non_negative_vi x : var_ineq (nonneg_orthant (length x)) x (projection_non_negative x).
Proof.
  unfold projection_non_negative. apply vi_coords with (n := length x); [reflexivity|intros q [H _]; exact H| |].
  - split; [apply map_length|]. intros i Hi. rewrite (nth_map_lt relu x i 0 0 Hi). apply relu_nonneg.
  - intros q i [_ Hq] Hi. rewrite (nth_map_lt relu x i 0 0 Hi). specialize (Hq i Hi).
    destruct (relu_cases (nth i x 0)) as [[H ->]|[H ->]]; nra.
Qed.

Lemma box_vi x lower upper :
  length lower = length x -> length upper = length x ->
  (forall i, (i < length x)%nat -> nth i lower 0 <= nth i upper 0) ->
  var_ineq (box lower upper) x (projection_box x lower upper).
Proof.
  intros Hlo Hup Hle. unfold projection_box.
  assert (Hnth : forall i, (i < length x)%nat ->
    nth i (map3 clip x lower upper) 0 = clip (nth i x 0) (nth i lower 0) (nth i upper 0)).
  { intros i Hi. rewrite (nth_map3 clip x lower upper i 0 0 0 0); [reflexivity|lia..]. }
  apply vi_coords with (n := length x); [reflexivity|intros q [H _]; lia| |].
  - split; [rewrite Hlo; apply map3_length; lia|]. rewrite Hlo. intros i Hi. rewrite Hnth by exact Hi.
    apply clip_range. apply Hle; exact Hi.
  - intros q i [_ Hq] Hi. rewrite Hnth by exact Hi. apply clip_vi. apply Hq. lia.
Qed.

Lemma nth_repeat_lt {A} (a d : A) n i : (i < n)%nat -> nth i (repeat a n) d = a.
Proof. revert i; induction n as [|n IH]; intros [|i] H; simpl; try lia; [reflexivity|apply IH; lia]. Qed.

Lemma box_scalar_vi x lo hi :
  lo <= hi ->
  var_ineq (fun q => length q = length x /\ forall i, (i < length x)%nat -> lo <= nth i q 0 <= hi)
    x (projection_box_scalar x lo hi).
Proof.
  intros Hle. unfold projection_box_scalar.
  destruct (box_vi x (repeat lo (length x)) (repeat hi (length x))) as [[Hl Hb] Hvi].
  - apply repeat_length.
  - apply repeat_length.
  - intros i Hi. rewrite !nth_repeat_lt by exact Hi. exact Hle.
  - rewrite repeat_length in Hl, Hb. split.
    + split; [exact Hl|]. intros i Hi. specialize (Hb i Hi). rewrite !nth_repeat_lt in Hb by exact Hi. exact Hb.
    + intros q [Hq1 Hq2]. apply Hvi. split; [rewrite repeat_length; exact Hq1|].
      rewrite repeat_length. intros i Hi. rewrite !nth_repeat_lt by exact Hi. apply Hq2; exact Hi.
Qed.

Lemma var_ineq_ext (C D : vec -> Prop) x p : (forall q, C q <-> D q) -> var_ineq C x p -> var_ineq D x p.
Proof. intros H [Hp Hv]. split; [apply H; exact Hp|]. intros q Hq. apply Hv, H, Hq. Qed.

Lemma hypercube_vi x unit : 0 <= unit -> var_ineq (hypercube (length x) unit) x (projection_hypercube x unit).
Proof. intros H. exact (box_scalar_vi x 0 unit H). Qed.

Lemma linf_ball_vi x r : 0 <= r -> var_ineq (linf_ball (length x) r) x (projection_linf_ball x r).
Proof.
  intros H. apply var_ineq_ext with (2 := box_scalar_vi x (- r) r ltac:(lra)).
  intros q. unfold linf_ball. split; intros [Hl Hq]; split; try exact Hl; intros i Hi; specialize (Hq i Hi).
  - apply Rabs_le. lra.
  - unfold Rabs in Hq. destruct (Rcase_abs (nth i q 0)); lra.
Qed.

(** ** l2 *)
Lemma norm2_pos x : norm2 x <> 0 -> 0 < norm2 x.
Proof. pose proof (norm2_nonneg x). lra. Qed.

Lemma l2_ball_vi x r : 0 <= r -> var_ineq (l2_ball (length x) r) x (projection_l2_ball x r).
Proof.
  intros Hr. unfold projection_l2_ball. destruct (Rle_dec (norm2 x) r) as [H|H].
  - split; [split; [reflexivity|exact H]|]. intros q _. rewrite vsub_self, dot_vzero_l. lra.
  - assert (Hn : 0 < norm2 x) by lra. set (c := r / norm2 x).
    assert (Hc : c * norm2 x = r) by (unfold c; field; lra).
    assert (Hc0 : 0 <= c) by (unfold c; apply Rdiv_nonneg; lra).
    assert (Hc1 : c < 1).
    { destruct (Rlt_dec c 1); [assumption|]. nra. }
    split.
    + split; [apply smul_length|]. rewrite norm2_smul, Rabs_right by lra. lra.
    + intros q [_ Hq].
      assert (E : dot (vsub x (smul c x)) (vsub q (smul c x)) = (1 - c) * (dot x q - c * dot x x)) by vring.
      rewrite E. pose proof (dot_le_norm x q). rewrite <- (norm2_sq x).
      assert (dot x q <= norm2 x * r) by nra.
      assert (c * (norm2 x * norm2 x) = r * norm2 x) by (rewrite <- Hc; ring). nra.
Qed.

Lemma l2_sphere_nearest x r :
  0 <= r -> norm2 x <> 0 -> is_projection (l2_sphere (length x) r) x (projection_l2_sphere x r).
Proof.
  intros Hr Hx. apply norm2_pos in Hx. unfold projection_l2_sphere. set (c := r / norm2 x).
  assert (Hc : c * norm2 x = r) by (unfold c; field; lra).
  assert (Hc0 : 0 <= c) by (unfold c; apply Rdiv_nonneg; lra).
  assert (Hxx : c * dot x x = r * norm2 x) by (rewrite <- norm2_sq, <- Hc; ring).
  assert (Hccxx : c * (c * dot x x) = r * r) by (rewrite Hxx, <- Hc; ring).
  split; [|split].
  - split; [apply smul_length|]. rewrite norm2_smul, Rabs_right by lra. lra.
  - intros q [_ Hq]. pose proof (dot_le_norm x q) as Hcs. rewrite Hq in Hcs.
    pose proof (norm2_sq q) as Hqq. rewrite Hq in Hqq.
    unfold dist2, sqnorm. autorewrite with vec. rewrite (dot_comm q x). rewrite ?Hccxx, ?Hxx, <- Hqq. lra.
  - intros q [Hlq Hq] Hle. pose proof (norm2_sq q) as Hqq. rewrite Hq in Hqq.
    unfold dist2, sqnorm in Hle. autorewrite with vec in Hle.
    rewrite (dot_comm q x), ?Hccxx, ?Hxx, <- Hqq in Hle.
    apply dist2_le_0; [rewrite smul_length; exact Hlq|].
    unfold dist2, sqnorm. autorewrite with vec. rewrite (dot_comm q x), Hccxx, <- Hqq.
    assert (r * norm2 x <= dot x q) by lra.
    assert (c * (norm2 x * r) <= c * dot x q) by (apply Rmult_le_compat_l; lra).
    assert (c * (norm2 x * r) = r * r) by (rewrite <- Hc at 2; ring). lra.
Qed.

(** ** Hyperplane and half-space *)
Lemma nonzero_dot a : a <> vzero (length a) -> 0 < dot a a.
Proof.
  intros H. pose proof (dot_self_nonneg a). destruct (Req_dec (dot a a) 0) as [E|E]; [|lra].
  exfalso. apply H, dot_self_zero, E.
Qed.

Lemma hyperplane_vi x a b :
  length x = length a -> a <> vzero (length a) ->
  var_ineq (hyperplane a b) x (projection_hyperplane x a b).
Proof.
  intros Hl Ha. apply nonzero_dot in Ha. unfold projection_hyperplane.
  set (s := (dot a x - b) / dot a a).
  assert (Hs : s * dot a a = dot a x - b) by (unfold s; field; lra).
  assert (Hp : dot a (vadd x (smul (- s) a)) = b) by (autorewrite with vec; lra).
  split.
  - split; [rewrite vadd_length, smul_length; lia|exact Hp].
  - intros q [_ Hq]. rewrite dot_vsub_l, !dot_vsub_r.
    replace (dot (vadd x (smul (- s) a)) q) with (dot x q - s * b)
      by (autorewrite with vec; rewrite Hq; ring).
    replace (dot (vadd x (smul (- s) a)) (vadd x (smul (- s) a)))
      with (dot x (vadd x (smul (- s) a)) - s * b)
      by (rewrite dot_vadd_l, dot_smul_l, Hp; ring).
    lra.
Qed.

Lemma halfspace_vi x a b :
  length x = length a -> a <> vzero (length a) ->
  var_ineq (halfspace a b) x (projection_halfspace x a b).
Proof.
  intros Hl Ha. apply nonzero_dot in Ha. unfold projection_halfspace.
  set (s := relu (dot a x - b) / dot a a).
  assert (Hs : s * dot a a = relu (dot a x - b)) by (unfold s; field; lra).
  assert (Hs0 : 0 <= s) by (apply Rdiv_nonneg; [apply relu_nonneg|exact Ha]).
  assert (Hp : dot a (vadd x (smul (- s) a)) = dot a x - relu (dot a x - b)) by (autorewrite with vec; lra).
  pose proof (relu_ge (dot a x - b)) as Hge.
  split.
  - split; [rewrite vadd_length, smul_length; lia|]. rewrite Hp. lra.
  - intros q [_ Hq]. rewrite dot_vsub_l, !dot_vsub_r.
    replace (dot (vadd x (smul (- s) a)) q) with (dot x q - s * dot a q)
      by (autorewrite with vec; ring).
    replace (dot (vadd x (smul (- s) a)) (vadd x (smul (- s) a)))
      with (dot x (vadd x (smul (- s) a)) - s * (dot a x - relu (dot a x - b)))
      by (rewrite dot_vadd_l, dot_smul_l, Hp; ring).
    destruct (relu_cases (dot a x - b)) as [[H E]|[H E]]; rewrite E in *.
    + nra.
    + assert (s = 0) by (unfold s; rewrite E; unfold Rdiv; ring). subst s. rewrite H0. lra.
Qed.
