From Coq Require Import Reals List Lra Lia Bool Sorting.Permutation Sorting.Sorted.
From Verif Require Import Vec Proj ProjProofs.
Import ListNotations.
Open Scope R_scope.

(** ** Sorting *)
Definition desc (a b : R) : Prop := b <= a.

Lemma insert_desc_perm a l : Permutation (a :: l) (insert_desc a l).
Proof.
  induction l as [|b l IH]; simpl; [reflexivity|].
  destruct (Rle_dec b a); [reflexivity|].
  rewrite perm_swap. constructor. exact IH.
Qed.
Lemma sort_desc_perm x : Permutation x (sort_desc x).
Proof.
  induction x as [|a x IH]; simpl; [constructor|].
  rewrite <- insert_desc_perm. constructor. exact IH.
Qed.
Lemma insert_desc_sorted a l : StronglySorted desc l -> StronglySorted desc (insert_desc a l).
Proof.
  induction 1 as [|b l Hs IH Hf]; simpl.
  - repeat constructor.
  - destruct (Rle_dec b a) as [H|H].
    + constructor; [constructor; assumption|]. constructor; [exact H|].
      eapply Forall_impl; [|exact Hf]. unfold desc; simpl; intros; lra.
    + constructor; [exact IH|].
      apply (Permutation_Forall (insert_desc_perm a l)). constructor; [unfold desc; lra|exact Hf].
Qed.
Lemma sort_desc_sorted x : StronglySorted desc (sort_desc x).
Proof. induction x as [|a x IH]; simpl; [constructor|]. apply insert_desc_sorted. exact IH. Qed.
Lemma sort_desc_length x : length (sort_desc x) = length x.
Proof. symmetry. apply Permutation_length, sort_desc_perm. Qed.

Lemma sorted_nth u : StronglySorted desc u ->
  forall i j, (i <= j)%nat -> (j < length u)%nat -> nth j u 0 <= nth i u 0.
Proof.
  induction 1 as [|a u Hs IH Hf]; intros i j Hij Hj; simpl in *; [lia|].
  destruct i as [|i], j as [|j]; try lia; simpl; try lra.
  - rewrite Forall_forall in Hf. apply Hf. apply nth_In. lia.
  - apply IH; lia.
Qed.

(** A sorted rearrangement is unique. *)
Lemma sorted_perm_eq u v : StronglySorted desc u -> StronglySorted desc v -> Permutation u v -> u = v.
Proof.
  revert v; induction u as [|a u IH]; intros v Hu Hv Hp.
  - apply Permutation_nil in Hp. auto.
  - destruct v as [|b v]; [symmetry in Hp; apply Permutation_nil in Hp; discriminate|].
    inversion Hu as [|? ? Hsu Hfu]; inversion Hv as [|? ? Hsv Hfv]; subst.
    assert (a = b).
    { assert (Ha : In a (b :: v)) by (apply (Permutation_in _ Hp); left; reflexivity).
      assert (Hb : In b (a :: u)) by (apply (Permutation_in _ (Permutation_sym Hp)); left; reflexivity).
      rewrite Forall_forall in Hfu, Hfv. unfold desc in *.
      destruct Ha as [->|Ha]; [reflexivity|]. destruct Hb as [->|Hb]; [reflexivity|].
      specialize (Hfv a Ha). specialize (Hfu b Hb). lra. }
    subst b. f_equal. apply IH; try assumption. eapply Permutation_cons_inv; exact Hp.
Qed.
Lemma sort_desc_perm_eq x y : Permutation x y -> sort_desc x = sort_desc y.
Proof.
  intros H. apply sorted_perm_eq; try apply sort_desc_sorted.
  rewrite <- !sort_desc_perm. exact H.
Qed.

(** ** Cumulative sums and counting *)
Lemma vsum_perm x y : Permutation x y -> vsum x = vsum y.
Proof. induction 1; simpl; lra. Qed.
Lemma cumsum_from_length acc l : length (cumsum_from acc l) = length l.
Proof. revert acc; induction l as [|a l IH]; intros; simpl; auto. Qed.
Lemma cumsum_from_nth acc l k :
  (k < length l)%nat -> nth k (cumsum_from acc l) 0 = acc + vsum (firstn (S k) l).
Proof.
  revert acc k; induction l as [|a l IH]; intros acc [|k] H; simpl in H; try lia.
  - simpl. destruct l; simpl; lra.
  - simpl nth. rewrite IH by lia. simpl firstn. simpl vsum. lra.
Qed.
Lemma cumsum_nth l k : (k < length l)%nat -> nth k (cumsum l) 0 = vsum (firstn (S k) l).
Proof. intros H. unfold cumsum. rewrite cumsum_from_nth by exact H. lra. Qed.

Lemma count_all_false l : (forall k, (k < length l)%nat -> nth k l false = false) -> count_true l = 0%nat.
Proof.
  induction l as [|b l IH]; intros H; [reflexivity|]. unfold count_true in *; simpl.
  pose proof (H 0%nat ltac:(simpl; lia)) as H0. simpl in H0. subst b. apply IH.
  intros k Hk. apply (H (S k)). simpl; lia.
Qed.
Lemma count_le l : (count_true l <= length l)%nat.
Proof. unfold count_true. induction l as [|[|] l IH]; simpl; lia. Qed.
Lemma count_prefix l :
  (forall k, (S k < length l)%nat -> nth (S k) l false = true -> nth k l false = true) ->
  forall k, (k < length l)%nat -> (nth k l false = true <-> (k < count_true l)%nat).
Proof.
  induction l as [|b l IH]; intros Hm k Hk; [simpl in Hk; lia|].
  assert (Hm' : forall k, (S k < length l)%nat -> nth (S k) l false = true -> nth k l false = true)
    by (intros j Hj; apply (Hm (S j)); simpl; lia).
  destruct b.
  - change (count_true (true :: l)) with (S (count_true l)).
    destruct k as [|k]; simpl; [split; [lia|reflexivity]|].
    rewrite (IH Hm') by (simpl in Hk; lia). lia.
  - change (count_true (false :: l)) with (count_true l).
    assert (Hall : forall j, (j < length (false :: l))%nat -> nth j (false :: l) false = false).
    { induction j as [|j IHj]; intros Hj; [reflexivity|].
      destruct (nth (S j) (false :: l) false) eqn:E; [|reflexivity].
      apply Hm in E; [|exact Hj]. rewrite IHj in E by lia. discriminate. }
    assert (count_true l = 0%nat).
    { apply count_all_false. intros j Hj. apply (Hall (S j)). simpl; lia. }
    rewrite Hall by exact Hk. split; [discriminate|lia].
Qed.

Lemma firstn_succ_sum u k :
  (k < length u)%nat -> vsum (firstn (S k) u) = vsum (firstn k u) + nth k u 0.
Proof.
  revert k; induction u as [|a u IH]; intros [|k] H; simpl in H; try lia.
  - simpl. destruct u; simpl; lra.
  - change (firstn (S (S k)) (a :: u)) with (a :: firstn (S k) u).
    change (firstn (S k) (a :: u)) with (a :: firstn k u).
    change (vsum (a :: firstn (S k) u)) with (a + vsum (firstn (S k) u)).
    rewrite (IH k) by lia. simpl. lra.
Qed.

(** ** The threshold *)
Lemma simplex_cond_length s u : length (simplex_cond s u) = length u.
Proof.
  unfold simplex_cond. apply map3_length; [rewrite map_length, seq_length| |unfold cumsum; rewrite cumsum_from_length]; reflexivity.
Qed.
Lemma simplex_cond_nth s u k : (k < length u)%nat ->
  (nth k (simplex_cond s u) false = true <->
   0 < s + INR (S k) * nth k u 0 - vsum (firstn (S k) u)).
Proof.
  intros Hk. unfold simplex_cond.
  rewrite (nth_map3 _ _ _ _ k 0 0 0 false);
    [|rewrite map_length, seq_length; exact Hk|exact Hk|unfold cumsum; rewrite cumsum_from_length; exact Hk].
  rewrite (nth_map_lt INR _ k 0%nat 0) by (rewrite seq_length; exact Hk).
  rewrite seq_nth by exact Hk. rewrite cumsum_nth by exact Hk.
  change (1 + k)%nat with (S k).
  assert (Hp : 0 < INR (S k)) by (apply lt_0_INR; lia).
  set (m := INR (S k)) in *. set (a := nth k u 0). set (c := vsum (firstn (S k) u)).
  assert (E : m * (s / m + (a - c / m)) = s + m * a - c) by (field; lra).
  destruct (Rlt_dec 0 (s / m + (a - c / m))) as [H|H].
  - split; [intros _; rewrite <- E; apply Rmult_lt_0_compat; assumption|reflexivity].
  - split; [discriminate|]. intros H'. exfalso. apply H.
    rewrite <- E in H'. apply Rmult_lt_reg_l with m; [exact Hp|]. lra.
Qed.

Lemma vsum_map_relu_pos l t :
  (forall a, In a l -> t <= a) -> vsum (map (fun a => relu (a - t)) l) = vsum l - INR (length l) * t.
Proof.
  induction l as [|a l IH]; intros H; simpl map; simpl vsum; [simpl; lra|].
  rewrite IH by (intros; apply H; right; assumption).
  rewrite relu_pos by (pose proof (H a (or_introl eq_refl)); lra).
  simpl length. rewrite S_INR. lra.
Qed.
Lemma vsum_map_relu_neg l t :
  (forall a, In a l -> a <= t) -> vsum (map (fun a => relu (a - t)) l) = 0.
Proof.
  induction l as [|a l IH]; intros H; simpl map; simpl vsum; [reflexivity|].
  rewrite IH by (intros; apply H; right; assumption).
  rewrite relu_neg by (pose proof (H a (or_introl eq_refl)); lra). lra.
Qed.

Lemma in_firstn_nth {A} (l : list A) k a d : In a (firstn k l) -> exists i, (i < k)%nat /\ (i < length l)%nat /\ nth i l d = a.
Proof.
  revert k; induction l as [|b l IH]; intros [|k] H; simpl in H; try contradiction.
  destruct H as [->|H].
  - exists 0%nat. simpl. repeat split; lia.
  - destruct (IH k H) as (i & H1 & H2 & H3). exists (S i). simpl. repeat split; try lia; exact H3.
Qed.
Lemma in_skipn_nth {A} (l : list A) k a d : In a (skipn k l) -> exists i, (k <= i)%nat /\ (i < length l)%nat /\ nth i l d = a.
Proof.
  revert k; induction l as [|b l IH]; intros k H.
  - rewrite skipn_nil in H. contradiction.
  - destruct k as [|k].
    + change (In a (b :: l)) in H. destruct (In_nth _ _ d H) as (i & Hi & E). exists i. split; [lia|]. split; [exact Hi|exact E].
    + simpl in H. destruct (IH k H) as (i & H1 & H2 & H3). exists (S i). simpl. repeat split; try lia; exact H3.
Qed.

Section Threshold.
Variable s : R.
Hypothesis Hs : 0 < s.
Variable u : vec.
Hypothesis Hu : StronglySorted desc u.
Hypothesis Hne : u <> [].
Let idx := count_true (simplex_cond s u).
Let tau := (vsum (firstn idx u) - s) / INR idx.

Lemma cond_mono k : (S k < length (simplex_cond s u))%nat ->
  nth (S k) (simplex_cond s u) false = true -> nth k (simplex_cond s u) false = true.
Proof.
  rewrite simplex_cond_length. intros Hk H.
  rewrite simplex_cond_nth in H by exact Hk. rewrite simplex_cond_nth by lia.
  rewrite (firstn_succ_sum u (S k)) in H by exact Hk.
  pose proof (sorted_nth u Hu k (S k) ltac:(lia) Hk) as Hle.
  rewrite (S_INR (S k)) in H.
  assert (0 <= INR (S k)) by apply pos_INR.
  assert (INR (S k) * nth (S k) u 0 <= INR (S k) * nth k u 0) by (apply Rmult_le_compat_l; assumption).
  lra.
Qed.
Lemma idx_spec k : (k < length u)%nat ->
  ((k < idx)%nat <-> 0 < s + INR (S k) * nth k u 0 - vsum (firstn (S k) u)).
Proof.
  intros Hk. rewrite <- simplex_cond_nth by exact Hk. symmetry.
  apply count_prefix; [exact cond_mono|]. rewrite simplex_cond_length. exact Hk.
Qed.
Lemma idx_pos : (0 < idx)%nat.
Proof.
  assert (H : (0 < length u)%nat) by (pose proof Hne as Hn; destruct u; [congruence|simpl; lia]).
  apply (idx_spec 0 H). rewrite firstn_succ_sum by exact H. simpl. lra.
Qed.
Lemma idx_le : (idx <= length u)%nat.
Proof. unfold idx. rewrite <- (simplex_cond_length s u). apply count_le. Qed.
Lemma tau_eq : INR idx * tau = vsum (firstn idx u) - s.
Proof. unfold tau. field. apply not_0_INR. pose proof idx_pos. lia. Qed.
Lemma tau_below k : (k < idx)%nat -> tau < nth k u 0.
Proof.
  intros Hk. pose proof idx_pos. pose proof idx_le.
  assert (H1 : tau < nth (idx - 1) u 0).
  { assert (Hi : (idx - 1 < length u)%nat) by lia.
    assert (Hi' : (idx - 1 < idx)%nat) by lia. apply (idx_spec _ Hi) in Hi'.
    replace (S (idx - 1)) with idx in Hi' by lia.
    assert (0 < INR idx) by (apply lt_0_INR; lia).
    apply Rmult_lt_reg_l with (INR idx); [assumption|]. rewrite tau_eq. lra. }
  pose proof (sorted_nth u Hu k (idx - 1) ltac:(lia) ltac:(lia)). lra.
Qed.
Lemma tau_above k : (idx <= k < length u)%nat -> nth k u 0 <= tau.
Proof.
  intros [Hk Hkl].
  assert (H1 : nth idx u 0 <= tau).
  { assert (Hn : ~ (idx < idx)%nat) by lia.
    rewrite (idx_spec idx ltac:(lia)) in Hn.
    rewrite firstn_succ_sum in Hn by lia. rewrite S_INR in Hn.
    assert (0 < INR idx) by (apply lt_0_INR; apply idx_pos).
    apply Rmult_le_reg_l with (INR idx); [assumption|]. rewrite tau_eq. lra. }
  pose proof (sorted_nth u Hu idx k Hk Hkl). lra.
Qed.
Lemma tau_sum : vsum (map (fun a => relu (a - tau)) u) = s.
Proof.
  rewrite <- (firstn_skipn idx u) at 1. rewrite map_app, vsum_app.
  rewrite vsum_map_relu_pos.
  - rewrite vsum_map_relu_neg.
    + rewrite firstn_length, Nat.min_l by apply idx_le. rewrite tau_eq. lra.
    + intros a Ha. destruct (in_skipn_nth u idx a 0 Ha) as (i & H1 & H2 & <-). apply tau_above. lia.
  - intros a Ha. destruct (in_firstn_nth u idx a 0 Ha) as (i & H1 & H2 & <-).
    apply Rlt_le, tau_below. exact H1.
Qed.
End Threshold.

(** The threshold used by the code, as a function of the sorted input. *)
Definition unit_tau (u : vec) : R :=
  let idx := count_true (simplex_cond 1 u) in (vsum (firstn idx u) - 1) / INR idx.

Lemma unit_simplex_threshold x : x <> [] ->
  projection_unit_simplex x = map (fun a => relu (a - unit_tau (sort_desc x))) x.
Proof.
  intros Hne. unfold projection_unit_simplex, unit_tau. apply map_ext. intros a.
  set (u := sort_desc x). set (idx := count_true (simplex_cond 1 u)).
  assert (Hu : u <> []).
  { intros E. apply Hne. apply length_zero_iff_nil. rewrite <- (sort_desc_length x).
    fold u. rewrite E. reflexivity. }
  pose proof (idx_pos 1 ltac:(lra) u (sort_desc_sorted x) Hu) as Hp. fold idx in Hp.
  pose proof (idx_le 1 u) as Hl. fold idx in Hl.
  rewrite cumsum_nth by lia. replace (S (idx - 1)) with idx by lia.
  f_equal. field. apply not_0_INR. lia.
Qed.
Lemma unit_simplex_sum x : x <> [] ->
  vsum (map (fun a => relu (a - unit_tau (sort_desc x))) x) = 1.
Proof.
  intros Hne.
  rewrite (vsum_perm _ (map (fun a => relu (a - unit_tau (sort_desc x))) (sort_desc x)))
    by (apply Permutation_map, sort_desc_perm).
  apply (tau_sum 1 ltac:(lra) (sort_desc x) (sort_desc_sorted x)).
  intros E. apply Hne. apply length_zero_iff_nil. rewrite <- (sort_desc_length x), E. reflexivity.
Qed.

(** projection_simplex in threshold form. *)
Definition simplex_tau (x : vec) (value : R) : R :=
  value * unit_tau (sort_desc (map (fun a => a / value) x)).

Lemma simplex_threshold x value : x <> [] -> 0 < value ->
  projection_simplex x value = map (fun a => relu (a - simplex_tau x value)) x /\
  vsum (projection_simplex x value) = value.
Proof.
  intros Hne Hv. unfold projection_simplex.
  assert (Hne' : map (fun a => a / value) x <> []) by (destruct x; [congruence|discriminate]).
  rewrite (unit_simplex_threshold _ Hne'). split.
  - unfold smul. rewrite !map_map. apply map_ext. intros a.
    rewrite relu_scale by exact Hv. unfold simplex_tau. f_equal. field. lra.
  - rewrite vsum_smul, unit_simplex_sum by exact Hne'. ring.
Qed.

(** Any thresholded point with the right sum is the projection. *)
Lemma threshold_vi x t value :
  vsum (map (fun a => relu (a - t)) x) = value ->
  var_ineq (simplex (length x) value) x (map (fun a => relu (a - t)) x).
Proof.
  intros Hsum. set (p := map (fun a => relu (a - t)) x) in *.
  assert (Hnth : forall i, (i < length x)%nat -> nth i p 0 = relu (nth i x 0 - t))
    by (intros i Hi; exact (nth_map_lt (fun a => relu (a - t)) x i 0 0 Hi)).
  assert (Hlp : length p = length x) by apply map_length.
  split.
  - split; [exact Hlp|]. split; [|exact Hsum]. intros i Hi. rewrite Hnth by exact Hi. apply relu_nonneg.
  - intros q (Hlq & Hq & Hqs).
    assert (H : dot (vsub (vsub x p) (repeat t (length x))) (vsub q p) <= 0).
    { apply dot_nonpos_coords. intros i Hi _.
      rewrite !vsub_length, repeat_length, Hlp in Hi.
      assert (Hi' : (i < length x)%nat) by lia. rewrite !nth_vsub, (Hnth i Hi'), nth_repeat_lt by exact Hi'.
      specialize (Hq i Hi'). destruct (relu_cases (nth i x 0 - t)) as [[H ->]|[H ->]]; nra. }
    rewrite dot_vsub_l in H.
    assert (E : dot (repeat t (length x)) (vsub q p) = t * (vsum q - vsum p)).
    { replace (repeat t (length x)) with (smul t (vones (length (vsub q p)))).
      - rewrite dot_smul_l, <- vsum_dot, vsum_vsub. reflexivity.
      - rewrite vsub_length, Hlp, Hlq, Nat.max_id. unfold smul, vones.
        clear. induction (length x) as [|n IH]; [reflexivity|]. simpl. rewrite IH. f_equal. ring. }
    rewrite E, Hqs, Hsum in H. lra.
Qed.

Lemma simplex_vi x value : x <> [] -> 0 < value ->
  var_ineq (simplex (length x) value) x (projection_simplex x value).
Proof.
  intros Hne Hv. destruct (simplex_threshold x value Hne Hv) as [E Hs].
  rewrite E in *. apply threshold_vi. exact Hs.
Qed.

(** Permutation equivariance and shift invariance. *)
Lemma simplex_tau_perm x y value : Permutation x y -> simplex_tau x value = simplex_tau y value.
Proof.
  intros H. unfold simplex_tau. rewrite (sort_desc_perm_eq _ (map (fun a => a / value) y)); [reflexivity|].
  apply Permutation_map. exact H.
Qed.

Definition permute (sigma : list nat) (x : vec) : vec := map (fun i => nth i x 0) sigma.

Lemma permute_seq x : permute (seq 0 (length x)) x = x.
Proof.
  unfold permute. apply vec_ext; [rewrite map_length, seq_length; reflexivity|].
  intros i Hi. rewrite map_length, seq_length in Hi.
  rewrite (nth_map_lt _ _ i 0%nat 0) by (rewrite seq_length; exact Hi).
  rewrite seq_nth by exact Hi. reflexivity.
Qed.

Lemma simplex_permute x value sigma : x <> [] -> 0 < value ->
  Permutation sigma (seq 0 (length x)) ->
  projection_simplex (permute sigma x) value = permute sigma (projection_simplex x value).
Proof.
  intros Hne Hv Hs.
  assert (Hp : Permutation (permute sigma x) x).
  { rewrite <- (permute_seq x) at 2. apply Permutation_map. exact Hs. }
  assert (Hne' : permute sigma x <> []).
  { intros E. apply Hne. rewrite E in Hp. apply Permutation_nil in Hp. exact Hp. }
  destruct (simplex_threshold x value Hne Hv) as [-> _].
  destruct (simplex_threshold _ value Hne' Hv) as [-> _].
  rewrite (simplex_tau_perm _ _ _ Hp). unfold permute. rewrite map_map. apply map_ext_in.
  intros i Hi. rewrite (nth_map_lt (fun a => relu (a - simplex_tau x value)) x i 0 0); [reflexivity|].
  apply (Permutation_in _ Hs) in Hi. apply in_seq in Hi. lia.
Qed.

Lemma simplex_shift x value c : x <> [] -> 0 < value ->
  projection_simplex (map (fun a => a + c) x) value = projection_simplex x value.
Proof.
  intros Hne Hv.
  assert (Hne' : map (fun a => a + c) x <> []) by (destruct x; [congruence|discriminate]).
  apply is_projection_unique with (C := simplex (length x) value) (x := x).
  - eapply var_ineq_projection; [intros q [H _]; exact H|].
    destruct (simplex_threshold _ value Hne' Hv) as [E Hs]. rewrite E in *. rewrite map_map in *.
    set (t := simplex_tau (map (fun a => a + c) x) value) in *.
    assert (Em : map (fun a => relu (a + c - t)) x = map (fun a => relu (a - (t - c))) x)
      by (apply map_ext; intros; f_equal; ring).
    rewrite Em in *. apply threshold_vi. exact Hs.
  - eapply var_ineq_projection; [intros q [H _]; exact H|]. apply simplex_vi; assumption.
Qed.

(** ** l1 ball and sphere *)
Lemma map_Rabs_neq x : x <> [] -> map Rabs x <> [].
Proof. destruct x; [congruence|discriminate]. Qed.

Lemma sign_abs a : sign a * Rabs a = a.
Proof.
  unfold sign. destruct (Rlt_dec 0 a); [rewrite Rabs_right; lra|].
  destruct (Rlt_dec a 0); [rewrite Rabs_left; lra|]. assert (a = 0) by lra. subst; lra.
Qed.

Definition l1_shrink (t a : R) : R := sign a * relu (Rabs a - t).

Lemma l1_sphere_form x value : x <> [] -> 0 < value ->
  projection_l1_sphere x value = map (l1_shrink (simplex_tau (map Rabs x) value)) x /\
  vsum (map (fun a => relu (Rabs a - simplex_tau (map Rabs x) value)) x) = value.
Proof.
  intros Hne Hv. unfold projection_l1_sphere.
  destruct (simplex_threshold (map Rabs x) value (map_Rabs_neq x Hne) Hv) as [E Hs].
  rewrite E in *. rewrite map_map in *. split; [|exact Hs].
  generalize (simplex_tau (map Rabs x) value). clear. intros t.
  induction x as [|a x IH]; [reflexivity|]. simpl. rewrite IH. reflexivity.
Qed.

Lemma l1_shrink_abs t a : a <> 0 \/ 0 <= t -> Rabs (l1_shrink t a) = relu (Rabs a - t).
Proof.
  intros H. unfold l1_shrink. rewrite Rabs_mult, (Rabs_right (relu _)) by (apply Rle_ge, relu_nonneg).
  unfold sign. destruct (Rlt_dec 0 a); [rewrite Rabs_R1; ring|].
  destruct (Rlt_dec a 0); [rewrite Rabs_left by lra; ring|].
  assert (a = 0) by lra. subst. destruct H as [H|H]; [lra|].
  rewrite Rabs_R0. rewrite relu_neg by lra. ring.
Qed.

Lemma norm1_shrink t x :
  (forall a, In a x -> a <> 0) \/ 0 <= t ->
  norm1 (map (l1_shrink t) x) = vsum (map (fun a => relu (Rabs a - t)) x).
Proof.
  intros H. unfold norm1. rewrite map_map. f_equal. apply map_ext_in. intros a Ha.
  apply l1_shrink_abs. destruct H as [H|H]; [left; apply H; exact Ha|right; exact H].
Qed.

Lemma threshold_positive x t r :
  vsum (map (fun a => relu (Rabs a - t)) x) = r -> r < norm1 x -> 0 < t.
Proof.
  intros H Hlt. destruct (Rlt_dec 0 t) as [|Ht]; [assumption|]. exfalso.
  assert (norm1 x <= vsum (map (fun a => relu (Rabs a - t)) x)); [|lra].
  unfold norm1. clear H Hlt. induction x as [|a x IH]; simpl; [lra|].
  pose proof (relu_ge (Rabs a - t)). lra.
Qed.

Lemma l1_ball_vi x r : 0 < r -> var_ineq (l1_ball (length x) r) x (projection_l1_ball x r).
Proof.
  intros Hr. unfold projection_l1_ball. destruct (Rle_dec (norm1 x) r) as [H|H].
  - split; [split; [reflexivity|exact H]|]. intros q _. rewrite vsub_self, dot_vzero_l. lra.
  - assert (Hne : x <> []) by (intros ->; apply H; unfold norm1; simpl; lra).
    destruct (l1_sphere_form x r Hne Hr) as [-> Hs].
    set (t := simplex_tau (map Rabs x) r) in *.
    pose proof (threshold_positive x t r Hs ltac:(lra)) as Ht. clearbody t.
    split.
    + split; [apply map_length|]. rewrite norm1_shrink by (right; lra). lra.
    + intros q [Hl Hq].
      (* <x-p, q> <= t * norm1 q  and  <x-p, p> = t * r *)
      assert (H1 : forall q, dot (vsub x (map (l1_shrink t) x)) q <= t * norm1 q).
      { clear - Ht. induction x as [|a x IH]; intros [|b q]; simpl.
        - unfold norm1; simpl; lra.
        - unfold norm1; simpl. change (vsum (map Rabs q)) with (norm1 q).
          assert (0 <= norm1 q) by (apply vsum_nonneg, Forall_forall; intros z Hz; apply in_map_iff in Hz; destruct Hz as (w & <- & _); apply Rabs_pos).
          pose proof (Rabs_pos b). nra.
        - unfold norm1; simpl. lra.
        - unfold norm1 in *; simpl. specialize (IH q).
          assert (Hb : (a - l1_shrink t a) * b <= t * Rabs b); [|lra].
          assert (Ha : Rabs (a - l1_shrink t a) <= t).
          { unfold l1_shrink. rewrite <- (sign_abs a) at 1. rewrite <- Rmult_minus_distr_l, Rabs_mult.
            assert (Rabs (sign a) <= 1).
            { unfold sign. destruct (Rlt_dec 0 a); [rewrite Rabs_R1; lra|].
              destruct (Rlt_dec a 0); [rewrite Rabs_left; lra|rewrite Rabs_R0; lra]. }
            pose proof (Rabs_pos a).
            destruct (relu_cases (Rabs a - t)) as [[H1 ->]|[H1 ->]].
            - replace (Rabs a - (Rabs a - t)) with t by ring. rewrite (Rabs_right t) by lra.
              pose proof (Rabs_pos (sign a)). nra.
            - rewrite Rminus_0_r, (Rabs_right (Rabs a)) by lra.
              pose proof (Rabs_pos (sign a)). nra. }
          apply Rle_trans with (Rabs ((a - l1_shrink t a) * b)); [apply Rle_abs|].
          rewrite Rabs_mult. apply Rmult_le_compat_r; [apply Rabs_pos|exact Ha]. }
      assert (H2 : dot (vsub x (map (l1_shrink t) x)) (map (l1_shrink t) x)
                   = t * vsum (map (fun a => relu (Rabs a - t)) x)).
      { clear - Ht. induction x as [|a x IH]; simpl; [lra|]. rewrite IH.
        assert ((a - l1_shrink t a) * l1_shrink t a = t * relu (Rabs a - t)); [|lra].
        unfold l1_shrink. rewrite <- (sign_abs a) at 1.
        destruct (relu_cases (Rabs a - t)) as [[H1 ->]|[H1 ->]]; [|ring].
        assert (Hs : sign a * sign a = 1).
        { unfold sign. destruct (Rlt_dec 0 a); [lra|]. destruct (Rlt_dec a 0); [lra|].
          assert (a = 0) by lra. subst. rewrite Rabs_R0 in H1. lra. }
        replace ((sign a * Rabs a - sign a * (Rabs a - t)) * (sign a * (Rabs a - t)))
          with ((sign a * sign a) * (t * (Rabs a - t))) by ring. rewrite Hs. ring. }
      rewrite dot_vsub_r, H2, Hs. specialize (H1 q). nra.
Qed.

Lemma abs_dist_le x : forall q, length q = length x -> dist2 (map Rabs x) (map Rabs q) <= dist2 x q.
Proof.
  unfold dist2, sqnorm. induction x as [|a x IH]; intros [|b q] H; simpl in *; try lia; [lra|].
  specialize (IH q ltac:(lia)).
  assert ((Rabs a - Rabs b) * (Rabs a - Rabs b) <= (a - b) * (a - b)); [|lra].
  assert (Ea : Rabs a * Rabs a = a * a) by (rewrite <- Rabs_mult; apply Rabs_right; nra).
  assert (Eb : Rabs b * Rabs b = b * b) by (rewrite <- Rabs_mult; apply Rabs_right; nra).
  pose proof (Rle_abs (a * b)) as Hab. rewrite Rabs_mult in Hab. nra.
Qed.

Lemma l1_sphere_nearest x r : 0 < r ->
  (forall a, In a x -> a <> 0) \/ r <= norm1 x -> x <> [] ->
  l1_sphere (length x) r (projection_l1_sphere x r) /\
  forall q, l1_sphere (length x) r q -> dist2 x (projection_l1_sphere x r) <= dist2 x q.
Proof.
  intros Hr Hor Hne. destruct (l1_sphere_form x r Hne Hr) as [E Hs]. rewrite E.
  set (t := simplex_tau (map Rabs x) r) in *.
  assert (Hor' : (forall a, In a x -> a <> 0) \/ 0 <= t).
  { destruct Hor as [H|H]; [left; exact H|]. right.
    destruct (Rle_lt_or_eq_dec r (norm1 x) H) as [H1|H1].
    - apply Rlt_le. exact (threshold_positive x t r Hs H1).
    - destruct (Rle_dec 0 t); [assumption|]. exfalso.
      assert (Hlt : norm1 x < vsum (map (fun a => relu (Rabs a - t)) x)); [|lra].
      clear - Hne n. clearbody t. unfold norm1. destruct x as [|a x]; [congruence|]. clear Hne.
      simpl. pose proof (relu_ge (Rabs a - t)).
      assert (vsum (map Rabs x) <= vsum (map (fun a => relu (Rabs a - t)) x)); [|lra].
      induction x as [|b x IH]; simpl; [lra|]. pose proof (relu_ge (Rabs b - t)). lra. }
  split.
  - split; [apply map_length|]. rewrite norm1_shrink by exact Hor'. exact Hs.
  - intros q [Hl Hq].
    assert (E1 : dist2 x (map (l1_shrink t) x) = dist2 (map Rabs x) (map (fun a => relu (Rabs a - t)) x)).
    { clear - Hor'. clearbody t. unfold dist2, sqnorm. induction x as [|a x IH]; [reflexivity|].
      simpl. rewrite IH by (destruct Hor' as [H|H]; [left; intros; apply H; right; assumption|right; exact H]).
      f_equal. unfold l1_shrink.
      assert (Hc : sign a * sign a = 1 \/ (a = 0 /\ relu (Rabs a - t) = 0)).
      { unfold sign. destruct (Rlt_dec 0 a); [left; lra|]. destruct (Rlt_dec a 0); [left; lra|].
        assert (a = 0) by lra. right. split; [assumption|]. subst.
        destruct Hor' as [H|H]; [exfalso; apply (H 0); [left; reflexivity|reflexivity]|].
        rewrite Rabs_R0. apply relu_neg. lra. }
      destruct Hc as [Hc|[-> ->]].
      - pose proof (sign_abs a) as Ea.
        set (sa := sign a) in *. set (m := Rabs a) in *. set (k := relu (m - t)).
        clearbody sa m k. rewrite <- Ea.
        transitivity ((sa * sa) * ((m - k) * (m - k))); [ring|]. rewrite Hc. ring.
      - rewrite Rabs_R0. ring. }
    rewrite E1.
    pose proof (simplex_vi (map Rabs x) r (map_Rabs_neq x Hne) Hr) as Hvi.
    eapply Rle_trans; [|apply abs_dist_le; exact Hl].
    apply var_ineq_projection with (n := length x) in Hvi; [|rewrite map_length; intros z [Hz _]; exact Hz].
    destruct Hvi as (_ & Hnear & _).
    destruct (simplex_threshold (map Rabs x) r (map_Rabs_neq x Hne) Hr) as [Eq _].
    rewrite Eq, map_map in Hnear. apply Hnear.
    rewrite map_length. split; [rewrite map_length; exact Hl|]. split; [|exact Hq].
    intros i Hi. rewrite (nth_map_lt Rabs q i 0 0) by lia. apply Rabs_pos.
Qed.
