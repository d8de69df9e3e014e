From Coq Require Import Reals List ZArith Bool Lra Lia.
From Verif Require Import Prelude Loop Base Vec Proj ProjProofs Prox ProxProofs Bisection BisectionProofs
  BisectionTheorems BoxSection.
Import ListNotations.
Open Scope R_scope.

Lemma vmin_le l i : (i < length l)%nat -> vmin l <= nth i l 0.
Proof.
  destruct l as [|a l]; simpl; [lia|]. intros Hi.
  assert (Ha : forall l, fold_right Rmin a l <= a).
  { induction l0 as [|b l0 IH]; simpl; [lra|]. eapply Rle_trans; [apply Rmin_r|exact IH]. }
  destruct i as [|i]; [apply Ha|]. assert (Hi' : (i < length l)%nat) by lia. clear Hi.
  revert i Hi'. induction l as [|b l IH]; intros [|i] Hi; simpl in *; try lia.
  - apply Rmin_l.
  - eapply Rle_trans; [apply Rmin_r|]. apply IH. lia.
Qed.
Lemma vmax_ge l i : (i < length l)%nat -> nth i l 0 <= vmax l.
Proof.
  destruct l as [|a l]; simpl; [lia|]. intros Hi.
  assert (Ha : forall l, a <= fold_right Rmax a l).
  { induction l0 as [|b l0 IH]; simpl; [lra|]. eapply Rle_trans; [exact IH|apply Rmax_r]. }
  destruct i as [|i]; [apply Ha|]. assert (Hi' : (i < length l)%nat) by lia. clear Hi.
  revert i Hi'. induction l as [|b l IH]; intros [|i] Hi; simpl in *; try lia.
  - apply Rmax_l.
  - eapply Rle_trans; [|apply Rmax_r]. apply IH. lia.
Qed.
Lemma nth_map2 {A B C} (f : A -> B -> C) x y i da db dc :
  (i < length x)%nat -> (i < length y)%nat -> nth i (map2 f x y) dc = f (nth i x da) (nth i y db).
Proof.
  revert y i; induction x as [|a x IH]; intros [|b y] i; simpl; try lia.
  destruct i; simpl; [reflexivity|]. intros. apply IH; lia.
Qed.

(** Lipschitz functions are continuous. *)
Lemma lipschitz_continuous f K : 0 <= K -> (forall a b, Rabs (f a - f b) <= K * Rabs (a - b)) ->
  forall x, continuity_pt f x.
Proof.
  intros HK HL x eps Heps. exists (eps / (K + 1)). split.
  - apply Rdiv_lt_0_compat; lra.
  - intros y [_ Hy]. simpl in *. unfold R_dist in *.
    eapply Rle_lt_trans; [apply HL|].
    assert (E : eps / (K + 1) * (K + 1) = eps) by (field; lra).
    pose proof (Rabs_pos (y - x)). nra.
Qed.

Lemma dot_le_coords a b b' : length b = length a -> length b' = length a ->
  (forall i, (i < length a)%nat -> nth i a 0 * nth i b 0 <= nth i a 0 * nth i b' 0) ->
  dot a b <= dot a b'.
Proof.
  revert b b'; induction a as [|u a IH]; intros [|v b] [|v' b'] H1 H2 H; try discriminate; simpl; try lra.
  pose proof (H 0%nat ltac:(simpl; lia)) as H0. simpl in H0.
  assert (dot a b <= dot a b') by (apply IH; simpl in *; try lia; intros i Hi; apply (H (S i)); lia). lra.
Qed.
Section S.
Variables x alpha beta w : vec.
Variable c : R.
Hypothesis Ha : length alpha = length x.
Hypothesis Hb : length beta = length x.
Hypothesis Hw : length w = length x.
Hypothesis Hne : x <> [].
Hypothesis Hwpos : forall i, (i < length x)%nat -> 0 < nth i w 0.
Hypothesis Hab : forall i, (i < length x)%nat -> nth i alpha 0 <= nth i beta 0.

Let P := section_point x alpha beta w.
Let F := section_fun x alpha beta w c.

Lemma P_length t : length (P t) = length x.
Proof.
  unfold P, section_point, projection_box. apply map3_length; try assumption.
  rewrite vadd_length, smul_length; lia.
Qed.
Lemma P_nth t i : (i < length x)%nat ->
  nth i (P t) 0 = clip (t * nth i w 0 + nth i x 0) (nth i alpha 0) (nth i beta 0).
Proof.
  intros Hi. unfold P, section_point, projection_box.
  rewrite (nth_map3 clip _ _ _ i 0 0 0 0); [|rewrite vadd_length, smul_length; lia|lia|lia].
  rewrite nth_vadd, nth_smul. reflexivity.
Qed.
Lemma P_box t : box alpha beta (P t).
Proof.
  split; [rewrite P_length; lia|]. rewrite Ha. intros i Hi. rewrite P_nth by exact Hi.
  apply clip_range, Hab, Hi.
Qed.
Lemma P_mono s t i : s <= t -> (i < length x)%nat -> nth i (P s) 0 <= nth i (P t) 0.
Proof.
  intros Hst Hi. rewrite !P_nth by exact Hi. apply clip_mono. specialize (Hwpos i Hi). nra.
Qed.
Lemma clip_lip a b lo hi : lo <= hi -> a <= b -> clip b lo hi - clip a lo hi <= b - a.
Proof.
  intros H Hlt.
  destruct (clip_cases a lo hi H) as [[? ->]|[[? ->]|[? ->]]];
  destruct (clip_cases b lo hi H) as [[? ->]|[[? ->]|[? ->]]]; lra.
Qed.
Lemma P_lip s t i : s <= t -> (i < length x)%nat ->
  nth i (P t) 0 - nth i (P s) 0 <= nth i w 0 * (t - s).
Proof.
  intros Hst Hi. rewrite !P_nth by exact Hi. pose proof (Hwpos i Hi).
  eapply Rle_trans; [apply clip_lip; [apply Hab, Hi|nra]|]. nra.
Qed.


(** Weighted l1 distance along the path equals the change of F. *)
Lemma dot_abs_mono s t : s <= t -> dot w (map Rabs (vsub (P t) (P s))) = F t - F s.
Proof.
  intros Hst. unfold F, section_fun. fold P.
  assert (E : map Rabs (vsub (P t) (P s)) = vsub (P t) (P s)).
  { rewrite <- (map_id (vsub (P t) (P s))) at 2. apply map_ext_in. intros a Ha'.
    destruct (In_nth _ _ 0 Ha') as (i & Hi & <-). rewrite vsub_length, !P_length in Hi.
    apply Rabs_right. rewrite nth_vsub. pose proof (P_mono s t i Hst ltac:(lia)). lra. }
  rewrite E, dot_vsub_r. lra.
Qed.
Lemma vsub_abs_sym a b : map Rabs (vsub a b) = map Rabs (vsub b a).
Proof.
  revert b; induction a as [|u a IH]; intros [|v b]; simpl; try reflexivity.
  - f_equal; [rewrite Rabs_Ropp; reflexivity|]. rewrite map_map. apply map_ext. intros; apply Rabs_Ropp.
  - f_equal; [rewrite Rabs_Ropp; reflexivity|]. rewrite map_map. symmetry. apply map_ext. intros; apply Rabs_Ropp.
  - rewrite IH. f_equal. apply Rabs_minus_sym.
Qed.
Lemma dot_abs_diff s t : dot w (map Rabs (vsub (P t) (P s))) = Rabs (F t - F s).
Proof.
  destruct (Rle_dec s t) as [H|H].
  - rewrite dot_abs_mono by exact H. symmetry. apply Rabs_right.
    rewrite <- dot_abs_mono by exact H. apply Rle_ge. apply dot_nonneg_coords. intros i Hi Hj.
    apply Rmult_le_pos; [apply Rlt_le, Hwpos; lia|].
    rewrite (nth_map_lt Rabs _ i 0 0) by (rewrite map_length in Hj; exact Hj). apply Rabs_pos.
  - rewrite vsub_abs_sym, Rabs_minus_sym. rewrite dot_abs_mono by lra. symmetry. apply Rabs_right.
    rewrite <- dot_abs_mono by lra. apply Rle_ge. apply dot_nonneg_coords. intros i Hi Hj.
    apply Rmult_le_pos; [apply Rlt_le, Hwpos; lia|].
    rewrite (nth_map_lt Rabs _ i 0 0) by (rewrite map_length in Hj; exact Hj). apply Rabs_pos.
Qed.
Lemma F_lip_le s t : s <= t -> 0 <= F t - F s <= dot w w * (t - s).
Proof.
  intros Hst. rewrite <- dot_abs_mono by exact Hst. split.
  - rewrite dot_abs_diff. apply Rabs_pos.
  - rewrite dot_abs_diff. unfold F, section_fun. fold P.
    replace (dot w (P t) - c - (dot w (P s) - c)) with (dot w (vsub (P t) (P s))) by (rewrite dot_vsub_r; ring).
    replace (dot w w * (t - s)) with (dot w (smul (t - s) w)) by (rewrite dot_smul_r; ring).
    assert (H0 : 0 <= dot w (vsub (P t) (P s))).
    { apply dot_nonneg_coords. intros i Hi Hj. rewrite vsub_length, !P_length in Hj.
      rewrite nth_vsub. pose proof (P_mono s t i Hst ltac:(lia)). pose proof (Hwpos i ltac:(lia)). nra. }
    rewrite Rabs_right by lra.
    apply dot_le_coords; [rewrite vsub_length, !P_length; lia|rewrite smul_length; lia|].
    intros i Hi. rewrite Hw in Hi. rewrite nth_vsub, nth_smul.
    pose proof (P_lip s t i Hst Hi). pose proof (Hwpos i Hi). nra.
Qed.
Lemma F_lip s t : Rabs (F s - F t) <= dot w w * Rabs (s - t).
Proof.
  destruct (Rle_dec s t) as [H|H].
  - destruct (F_lip_le s t H). rewrite Rabs_minus_sym, (Rabs_minus_sym s t), !Rabs_right by lra. lra.
  - destruct (F_lip_le t s ltac:(lra)). rewrite !Rabs_right by lra. lra.
Qed.
Lemma F_continuous t : continuity_pt F t.
Proof. apply lipschitz_continuous with (K := dot w w); [apply dot_self_nonneg|exact F_lip]. Qed.

(** A root of F gives the projection. *)
Lemma root_projection t : F t = 0 -> is_projection (box_section alpha beta w c) x (P t).
Proof.
  intros H. unfold F, section_fun in H. fold P in H.
  apply var_ineq_projection with (n := length x); [intros q [[Hq _] _]; lia|].
  split; [split; [apply P_box|lra]|].
  intros q [[Hlq Hq] Hwq].
  assert (H1 : dot (vsub (vadd (smul t w) x) (P t)) (vsub q (P t)) <= 0).
  { apply dot_nonpos_coords. intros i Hi _.
    rewrite vsub_length, vadd_length, smul_length, P_length in Hi.
    assert (Hi' : (i < length x)%nat) by lia.
    rewrite !nth_vsub, nth_vadd, nth_smul, P_nth by exact Hi'. apply clip_vi. apply Hq. lia. }
  rewrite dot_vsub_l, dot_vadd_l, dot_smul_l in H1. rewrite (dot_vsub_r q (P t) w) in H1.
  rewrite dot_vsub_l. replace (dot w q) with c in H1 by lra. replace (dot w (P t)) with c in H1 by lra. lra.
Qed.

(** The ends of the bracket. *)
Lemma P_lower : P (section_lower x alpha w) = alpha.
Proof.
  apply vec_ext; [rewrite P_length; lia|]. rewrite P_length. intros i Hi. rewrite P_nth by exact Hi.
  pose proof (Hwpos i Hi) as Hwi. unfold section_lower.
  assert (Hl : vmin (map2 Rdiv (vsub alpha x) w) <= (nth i alpha 0 - nth i x 0) / nth i w 0).
  { rewrite <- nth_vsub. rewrite <- (nth_map2 Rdiv _ _ i 0 0 0); [|rewrite vsub_length; lia|lia].
    apply vmin_le. rewrite map2_length, vsub_length; lia. }
  set (m := vmin _) in *.
  assert (Hm : m * nth i w 0 <= nth i alpha 0 - nth i x 0).
  { assert (E : (nth i alpha 0 - nth i x 0) / nth i w 0 * nth i w 0 = nth i alpha 0 - nth i x 0) by (field; lra).
    rewrite <- E. apply Rmult_le_compat_r; lra. }
  destruct (clip_cases (m * nth i w 0 + nth i x 0) _ _ (Hab i Hi)) as [[? ->]|[[? ->]|[? ->]]]; try lra.
  pose proof (Hab i Hi). lra.
Qed.
Lemma P_upper : P (section_upper x beta w) = beta.
Proof.
  apply vec_ext; [rewrite P_length; lia|]. rewrite P_length. intros i Hi. rewrite P_nth by exact Hi.
  pose proof (Hwpos i Hi) as Hwi. unfold section_upper.
  assert (Hl : (nth i beta 0 - nth i x 0) / nth i w 0 <= vmax (map2 Rdiv (vsub beta x) w)).
  { rewrite <- nth_vsub. rewrite <- (nth_map2 Rdiv _ _ i 0 0 0); [|rewrite vsub_length; lia|lia].
    apply vmax_ge. rewrite map2_length, vsub_length; lia. }
  set (m := vmax _) in *.
  assert (Hm : nth i beta 0 - nth i x 0 <= m * nth i w 0).
  { assert (E : (nth i beta 0 - nth i x 0) / nth i w 0 * nth i w 0 = nth i beta 0 - nth i x 0) by (field; lra).
    rewrite <- E. apply Rmult_le_compat_r; lra. }
  destruct (clip_cases (m * nth i w 0 + nth i x 0) _ _ (Hab i Hi)) as [[? ->]|[[? ->]|[? ->]]]; try lra.
  pose proof (Hab i Hi). lra.
Qed.
Lemma lower_le_upper : section_lower x alpha w <= section_upper x beta w.
Proof.
  assert (H0 : (0 < length x)%nat) by (destruct x; [congruence|simpl; lia]).
  unfold section_lower, section_upper.
  apply Rle_trans with ((nth 0 alpha 0 - nth 0 x 0) / nth 0 w 0).
  - rewrite <- nth_vsub, <- (nth_map2 Rdiv _ _ 0 0 0 0); [|rewrite vsub_length; lia|lia].
    apply vmin_le. rewrite map2_length, vsub_length; lia.
  - apply Rle_trans with ((nth 0 beta 0 - nth 0 x 0) / nth 0 w 0).
    + unfold Rdiv. apply Rmult_le_compat_r; [apply Rlt_le, Rinv_0_lt_compat, Hwpos, H0|].
      pose proof (Hab 0 H0). lra.
    + rewrite <- nth_vsub, <- (nth_map2 Rdiv _ _ 0 0 0 0); [|rewrite vsub_length; lia|lia].
      apply vmax_ge. rewrite map2_length, vsub_length; lia.
Qed.

Hypothesis Hc1 : dot w alpha < c.
Hypothesis Hc2 : c <= dot w beta.

Lemma section_bracket : valid_bracket F (section_lower x alpha w) (section_upper x beta w).
Proof.
  left. unfold F, section_fun. fold P. rewrite P_lower, P_upper. lra.
Qed.

Lemma section_result check :
  exists p, (forall r, projection_box_section x alpha beta w c check r <-> r = Ok p) /\
    box alpha beta p /\
    exists p', is_projection (box_section alpha beta w c) x p' /\
      dot w (map Rabs (vsub p p')) <=
        Rmax bisection_tol
             (dot w w * ((section_upper x beta w - section_lower x alpha w) / 2 ^ Z.to_nat bisection_maxiter)).
Proof.
  destruct (C16_run F (section_lower x alpha w) (section_upper x beta w) bisection_tol bisection_maxiter
              false UnrollAuto true F_continuous lower_le_upper section_bracket) as (tau & st & Hr & _ & _ & Hor);
    [unfold bisection_maxiter; lia|reflexivity|].
  exists (P tau). split; [|split; [apply P_box|]].
  - intros r. unfold projection_box_section.
    destruct (Rlt_dec c (dot w alpha)); [lra|]. destruct (Rlt_dec (dot w beta) c); [lra|].
    rewrite andb_false_r. split.
    + intros (res & Hres & ->). apply Hr in Hres. subst res. reflexivity.
    + intros ->. exists (Ok (tau, [Some st])). split; [apply Hr; reflexivity|reflexivity].
  - destruct Hor as [Hsmall|(z & Hz & Hfz & Hd)].
    + destruct (ivt_weak F (section_lower x alpha w) (section_upper x beta w) F_continuous lower_le_upper)
        as (z & _ & Hfz).
      { destruct section_bracket as [[A B]|[A B]]; nra. }
      exists (P z). split; [apply root_projection; exact Hfz|].
      rewrite dot_abs_diff, Hfz, Rminus_0_r. eapply Rle_trans; [exact Hsmall|apply Rmax_l].
    + exists (P z). split; [apply root_projection; exact Hfz|].
      rewrite dot_abs_diff. eapply Rle_trans; [|apply Rmax_r].
      eapply Rle_trans; [apply F_lip|]. apply Rmult_le_compat_l; [apply dot_self_nonneg|exact Hd].
Qed.
End S.

(** The degenerate face. *)
Lemma degenerate_fun t : 0 <= t <= 1 -> section_fun [0] [0] [1] [1] 0 t = t.
Proof.
  intros Ht. unfold section_fun, section_point, projection_box, smul; simpl.
  unfold clip. rewrite Rmax_left, Rmin_left by lra. ring.
Qed.
Lemma degenerate_bounds : section_lower [0] [0] [1] = 0 /\ section_upper [0] [1] [1] = 1.
Proof. unfold section_lower, section_upper; simpl. split; field. Qed.

Lemma degenerate_iter k :
  let st := snd (bis_iter (section_fun [0] [0] [1] [1] 0) k (initial_state (section_fun [0] [0] [1] [1] 0) 0 1)) in
  sgn st = 0 /\ low st = 1 - / 2 ^ k /\ high st = 1.
Proof.
  cbv zeta. set (f := section_fun [0] [0] [1] [1] 0). induction k as [|k (I1 & I2 & I3)].
  - simpl. unfold f. rewrite !degenerate_fun by lra. unfold bracket_sign.
    destruct (Rlt_dec 0 0); [lra|]. repeat split; lra.
  - simpl bis_iter. set (t := snd (bis_iter f k (initial_state f 0 1))) in *.
    unfold bis_update. rewrite I1.
    destruct (Rlt_dec 0 (0 * f (0.5 * (high t + low t)))) as [H|H]; [lra|]. simpl.
    split; [reflexivity|]. split; [|exact I3]. rewrite I2, I3.
    assert (0 < 2 ^ k) by (apply pow_lt; lra). replace 0.5 with (/ 2) by lra. simpl. field. lra.
Qed.

Lemma degenerate_result :
  forall r, projection_box_section [0] [0] [1] [1] 0 true r <-> r = Ok [1 - / 2 ^ 30].
Proof.
  intros r. unfold projection_box_section. simpl (dot [1] [0]). simpl (dot [1] [1]).
  destruct (Rlt_dec 0 (1 * 0 + 0)); [lra|]. destruct (Rlt_dec (1 * 1 + 0) 0); [lra|].
  simpl andb. cbv iota. destruct degenerate_bounds as [-> ->].
  set (f := section_fun [0] [0] [1] [1] 0).
  destruct (bis_run_spec f 0 1 bisection_tol bisection_maxiter UnrollAuto true) as (k & Hk & _ & Hend & Hr);
    [unfold bisection_maxiter; lia|reflexivity|].
  assert (Hmid : forall j, fst (bis_iter f (S j) (initial_state f 0 1)) = 1 - / 2 ^ (S j)).
  { intros j. destruct (bis_iter_mid f j (initial_state f 0 1)) as (-> & _).
    destruct (degenerate_iter j) as (_ & E1 & E2). fold f in E1, E2. rewrite E1, E2.
    assert (0 < 2 ^ j) by (apply pow_lt; lra). replace 0.5 with (/ 2) by lra. simpl. field. lra. }
  assert (Hpow : forall j, 0 < / 2 ^ S j <= / 2).
  { intros j. split; [apply Rinv_0_lt_compat, pow_lt; lra|].
    apply Rinv_le_contravar; [lra|]. simpl. pose proof (pow_R1_Rle 2 j ltac:(lra)). lra. }
  assert (Hk30 : k = 30%nat).
  { destruct (Nat.eq_dec k 30) as [E|E]; [exact E|exfalso].
    assert (Hlt : (k < Z.to_nat bisection_maxiter)%nat).
    { change (Z.to_nat bisection_maxiter) with 30%nat in *. lia. }
    specialize (Hend Hlt). destruct k as [|k]; [lia|]. rewrite Hmid in Hend.
    specialize (Hpow k). unfold f in Hend. rewrite degenerate_fun in Hend by lra.
    rewrite Rabs_right in Hend by lra. unfold bisection_tol in Hend. lra. }
  subst k.
  assert (Hpt : section_point [0] [0] [1] [1] (1 - / 2 ^ 30) = [1 - / 2 ^ 30]).
  { specialize (Hpow 29%nat). set (e := / 2 ^ 30) in *. clearbody e.
    unfold section_point, projection_box, smul; simpl. f_equal.
    unfold clip. rewrite Rmax_left, Rmin_left by lra. ring. }
  unfold bis_run, bis_init. split.
  - intros (res & Hres & ->). apply Hr in Hres. subst res. rewrite Hmid. f_equal. exact Hpt.
  - intros ->. eexists. split; [apply Hr; reflexivity|]. cbv beta iota. rewrite Hmid. f_equal.
    symmetry. exact Hpt.
Qed.
