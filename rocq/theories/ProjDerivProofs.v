(** Proofs about the declared derivatives of the simplex projections (ProjDeriv.v). *)
From Coq Require Import Reals List Bool Arith Lra Lia Permutation Sorted.
From Verif Require Import Prelude Vec Proj ProjProofs SimplexProofs SimplexTheorems Prox SparseSimplex SparseSimplexProofs SparseSimplexTheorems
  Isotonic IsotonicProofs ProjDeriv.
Import ListNotations.
Open Scope R_scope.

Lemma nth_supp p i : nth i (supp p) 0 = if Rlt_dec 0 (nth i p 0) then 1 else 0.
Proof.
  unfold supp. revert i. induction p as [|a p IH]; intros [|i]; simpl; try reflexivity; try apply IH; destruct (Rlt_dec 0 0); lra || reflexivity.
Qed.
Lemma supp_length p : length (supp p) = length p. Proof. apply map_length. Qed.
Lemma supp_sum p : vsum (supp p) = INR (card p).
Proof.
  unfold supp, card. induction p as [|a p IH]; [reflexivity|]. simpl map. simpl filter. cbn [vsum]. rewrite IH.
  destruct (Rlt_dec 0 a); [change (length (a :: ?l)) with (S (length l)); cbn [length]; rewrite S_INR|]; lra.
Qed.
Lemma supp_idem p : hmul (supp p) (supp p) = supp p.
Proof. unfold supp. induction p as [|a p IH]; [reflexivity|]. simpl. f_equal; [destruct (Rlt_dec 0 a); ring|exact IH]. Qed.
Lemma dot_hmul_move s u v : dot u (hmul s v) = dot (hmul s u) v.
Proof. revert u v; induction s as [|a s IH]; intros [|b u] [|c v]; simpl; rewrite ?IH; try ring. Qed.
Lemma hmul_hmul_idem s v : hmul s s = s -> hmul s (hmul s v) = hmul s v.
Proof.
  revert v; induction s as [|a s IH]; intros [|b v] H; simpl in *; try reflexivity. injection H as H1 H2.
  rewrite IH by exact H2. f_equal. rewrite <- Rmult_assoc, H1. reflexivity.
Qed.
Lemma dot_supp_hmul p v : dot (supp p) (hmul (supp p) v) = dot (supp p) v.
Proof. rewrite dot_hmul_move, supp_idem. reflexivity. Qed.
Lemma dot_supp_supp p : dot (supp p) (supp p) = INR (card p).
Proof. rewrite dot_hmul, supp_idem. apply supp_sum. Qed.

(** Algebra of the declared Jacobian: symmetric, idempotent, zero sum, and a contraction. *)
Lemma support_jvp_sym p u v : dot u (support_jvp p v) = dot (support_jvp p u) v.
Proof.
  unfold support_jvp. rewrite dot_vsub_r, dot_vsub_l, dot_smul_r, dot_smul_l, dot_hmul_move.
  rewrite (dot_comm u (supp p)). lra.
Qed.
Lemma support_jvp_dot_supp p v : (0 < card p)%nat -> dot (supp p) (support_jvp p v) = 0.
Proof.
  intros H. unfold support_jvp. rewrite dot_vsub_r, dot_smul_r, dot_supp_hmul, dot_supp_supp.
  assert (INR (card p) <> 0) by (apply not_0_INR; lia). field. assumption.
Qed.
Lemma support_jvp_length p v : length v = length p -> length (support_jvp p v) = length p.
Proof. intros H. unfold support_jvp. rewrite vsub_length, hmul_length, smul_length, supp_length. lia. Qed.
Lemma support_jvp_nth p v i : nth i (support_jvp p v) 0 =
  if Rlt_dec 0 (nth i p 0) then nth i v 0 - dot (supp p) v / INR (card p) else 0.
Proof. unfold support_jvp. rewrite nth_vsub, nth_hmul, nth_smul, nth_supp. destruct (Rlt_dec 0 (nth i p 0)); ring. Qed.
Lemma support_jvp_idem p v : (0 < card p)%nat -> length v = length p -> support_jvp p (support_jvp p v) = support_jvp p v.
Proof.
  intros H Hl. apply vec_ext; [rewrite !support_jvp_length by (rewrite ?support_jvp_length; auto); reflexivity|].
  intros i _. rewrite support_jvp_nth, support_jvp_dot_supp, support_jvp_nth by exact H.
  destruct (Rlt_dec 0 (nth i p 0)); [|reflexivity]. unfold Rdiv. ring.
Qed.
Lemma support_jvp_contract p v : (0 < card p)%nat -> length v = length p -> sqnorm (support_jvp p v) <= sqnorm v.
Proof.
  intros H Hl. unfold sqnorm.
  assert (E : dot (support_jvp p v) (support_jvp p v) = dot v (support_jvp p v)).
  { rewrite (support_jvp_sym p v v). rewrite support_jvp_sym, support_jvp_idem by assumption. apply dot_comm || reflexivity. }
  pose proof (dot_self_nonneg (vsub v (support_jvp p v))) as H0.
  rewrite dot_vsub_l, !dot_vsub_r in H0. rewrite (dot_comm (support_jvp p v) v) in H0. lra.
Qed.

(** ** Small gaps *)
Lemma min_gap n (f : nat -> R) : (forall i, (i < n)%nat -> 0 < f i) -> exists g, 0 < g /\ forall i, (i < n)%nat -> g <= f i.
Proof.
  induction n as [|n IH]; intros H; [exists 1; split; [lra|lia]|].
  destruct IH as (g & Hg & Hi); [intros i Hi; apply H; lia|]. exists (Rmin g (f n)). split.
  - apply Rmin_glb_lt; [exact Hg|apply H; lia].
  - intros i Hi'. destruct (Nat.eq_dec i n) as [->|Hne]; [apply Rmin_r|]. eapply Rle_trans; [apply Rmin_l|apply Hi; lia].
Qed.
Lemma min_gap2 n (f : nat -> nat -> R) : (forall i j, (i < n)%nat -> (j < n)%nat -> 0 < f i j) ->
  exists g, 0 < g /\ forall i j, (i < n)%nat -> (j < n)%nat -> g <= f i j.
Proof.
  intros H.
  destruct (min_gap (n * n) (fun k => f (k / n) (k mod n))%nat) as (g & Hg & Hk).
  { intros k Hk. assert (n <> 0)%nat by nia. apply H; [apply Nat.div_lt_upper_bound; lia|apply Nat.mod_upper_bound; lia]. }
  exists g. split; [exact Hg|]. intros i j Hi Hj. assert (Hb : (i * n + j < n * n)%nat) by nia.
  specialize (Hk (i * n + j)%nat Hb). rewrite Nat.div_add_l, Nat.div_small, Nat.add_0_r in Hk by lia.
  rewrite Nat.add_comm, Nat.mod_add, Nat.mod_small in Hk by lia. exact Hk.
Qed.

(** ** The face of the support moves affinely *)
Lemma dot_supp_bound p d delta : 0 <= delta -> (forall i, (i < length p)%nat -> Rabs (nth i d 0) <= delta) -> Rabs (dot (supp p) d) <= INR (card p) * delta.
Proof.
  intros H0. unfold card. revert d. induction p as [|a p IH]; intros d H; [simpl; rewrite Rabs_R0; lra|].
  destruct d as [|b d].
  - rewrite dot_nil_r, Rabs_R0. apply Rmult_le_pos; [apply pos_INR|exact H0].
  - assert (Hb := H 0%nat ltac:(simpl; lia)). simpl in Hb.
    assert (IH' := IH d (fun i Hi => H (S i) ltac:(simpl; lia))). simpl filter. cbn [supp map dot]. fold (supp p).
    destruct (Rlt_dec 0 a).
    + cbn [length]. rewrite S_INR. eapply Rle_trans; [apply Rabs_triang|]. rewrite Rabs_mult, Rabs_R1. lra.
    + rewrite Rmult_0_l, Rplus_0_l. exact IH'.
Qed.
Definition moved (p d : vec) (dv : R) : vec := vadd p (vadd (support_jvp p d) (smul (dv / INR (card p)) (supp p))).
Lemma moved_nth p d dv i : nth i (moved p d dv) 0 =
  nth i p 0 + if Rlt_dec 0 (nth i p 0) then nth i d 0 - (dot (supp p) d - dv) / INR (card p) else 0.
Proof.
  unfold moved. rewrite !nth_vadd, nth_smul, support_jvp_nth, nth_supp. destruct (Rlt_dec 0 (nth i p 0)); [|ring]. unfold Rdiv. ring.
Qed.
Lemma moved_length p d dv : length d = length p -> length (moved p d dv) = length p.
Proof. intros H. unfold moved. rewrite !vadd_length, smul_length, supp_length, support_jvp_length by exact H. lia. Qed.
Lemma vsum_supp_zero p v : length v = length p -> (forall i, (i < length p)%nat -> nth i p 0 <= 0 -> nth i v 0 = 0) -> vsum v = dot (supp p) v.
Proof.
  intros Hl H. rewrite dot_hmul. f_equal. apply vec_ext; [rewrite hmul_length, supp_length; lia|].
  intros i Hi. rewrite nth_hmul, nth_supp. destruct (Rlt_dec 0 (nth i p 0)); [ring|]. rewrite H by (lia || lra). ring.
Qed.
Lemma moved_sum p d dv : (0 < card p)%nat -> length d = length p -> vsum (moved p d dv) = vsum p + dv.
Proof.
  intros H Hl. unfold moved. rewrite !vsum_vadd, vsum_smul, supp_sum.
  rewrite (vsum_supp_zero p (support_jvp p d)).
  - rewrite support_jvp_dot_supp by exact H. assert (INR (card p) <> 0) by (apply not_0_INR; lia). field. assumption.
  - apply support_jvp_length, Hl.
  - intros i _ Hi. rewrite support_jvp_nth. destruct (Rlt_dec 0 (nth i p 0)); [lra|reflexivity].
Qed.

(** ** The structure of the sparse projection *)
Record sparse_form (x : vec) (k : nat) (value : R) (P : vec) (T : list nat) (tau : R) : Prop := {
  sf_len : length P = length x;
  sf_nodup : NoDup T;
  sf_k : length T = k;
  sf_range : forall i, In i T -> (i < length x)%nat;
  sf_top : forall i j, In i T -> ~ In j T -> (j < length x)%nat -> nth j x 0 <= nth i x 0;
  sf_in : forall i, In i T -> nth i P 0 = relu (nth i x 0 - tau);
  sf_out : forall i, ~ In i T -> (i < length x)%nat -> nth i P 0 = 0;
  sf_sum : vsum (map (fun i => relu (nth i x 0 - tau)) T) = value
}.
Lemma top_k_top x k i j : (k <= length x)%nat -> In i (snd (top_k x k)) -> ~ In j (snd (top_k x k)) -> (j < length x)%nat -> nth j x 0 <= nth i x 0.
Proof.
  intros Hk Hi Hj Hjn. unfold top_k in *. simpl in *.
  set (sp := sort_pairs (combine x (seq 0 (length x)))) in *.
  assert (Hp : forall a m, In (a, m) sp -> a = nth m x 0).
  { intros a m H. assert (H' : In (a, m) (combine x (seq 0 (length x)))) by (eapply Permutation_in; [symmetry; apply sort_pairs_perm|exact H]).
    apply combine_seq_nth in H'. rewrite Nat.sub_0_r in H'. tauto. }
  assert (Hs : StronglySorted desc (map fst sp)).
  { unfold sp. rewrite sort_pairs_fst. apply sort_desc_sorted. }
  apply in_map_iff in Hi. destruct Hi as ([a m] & E & Hi). simpl in E. subst m.
  assert (Hin : In (nth j x 0, j) sp).
  { eapply Permutation_in; [apply sort_pairs_perm|].
    assert (G : forall s (y : vec) j, (j < length y)%nat -> In (nth j y 0, (s + j)%nat) (combine y (seq s (length y)))).
    { intros s y; revert s; induction y as [|b y IH]; intros s [|q] Hq; simpl in *; try lia; [left; f_equal; lia|].
      right. replace (s + S q)%nat with (S s + q)%nat by lia. apply IH. lia. }
    apply (G 0%nat x j Hjn). }
  assert (Hsk : In (nth j x 0, j) (skipn k sp)).
  { rewrite <- (firstn_skipn k sp) in Hin. apply in_app_or in Hin. destruct Hin as [H|H]; [|exact H].
    exfalso. apply Hj. apply in_map_iff. exists (nth j x 0, j). auto. }
  rewrite <- (Hp a i) by (apply (in_firstn k); exact Hi).
  clear - Hs Hi Hsk. rewrite <- (firstn_skipn k sp), map_app in Hs.
  revert Hs Hi. induction (firstn k sp) as [|b l IH]; intros Hs Hi; [contradiction|]. simpl in Hs. inversion Hs as [|? ? Hs' Hf]; subst.
  destruct Hi as [-> |Hi]; [|apply IH; assumption].
  rewrite Forall_forall in Hf. specialize (Hf (nth j x 0)). unfold desc in Hf. simpl in Hf. apply Hf.
  apply in_or_app. right. apply in_map_iff. exists (nth j x 0, j). auto.
Qed.
Lemma relu_scale c a : 0 < c -> c * relu a = relu (c * a).
Proof. intros H. unfold relu. destruct (Rle_dec 0 a). - rewrite !Rmax_left; nra. - rewrite !Rmax_right; nra. Qed.
Lemma sparse_structure x k value : (1 <= k <= length x)%nat -> 0 < value ->
  exists T tau, sparse_form x k value (projection_sparse_simplex x k value) T tau.
Proof.
  intros Hk Hv. unfold projection_sparse_simplex. rewrite unit_sparse_form.
  set (z := map (fun a => a / value) x). assert (Hz : length z = length x) by apply map_length.
  assert (Hzn : forall i, nth i z 0 = nth i x 0 / value).
  { intros i. unfold z. destruct (Nat.lt_ge_cases i (length x)) as [H|H]; [apply (nth_map_lt (fun a => a / value)); exact H|].
    rewrite !nth_overflow by (rewrite ?map_length; exact H). unfold Rdiv. ring. }
  set (u := firstn k (sort_desc z)). set (T := snd (top_k z k)). set (t := unit_tau (sort_desc u)).
  assert (Hlu : length u = k) by (unfold u; rewrite firstn_length, sort_desc_length; lia).
  assert (Hu : u <> []) by (intros E; rewrite E in Hlu; simpl in Hlu; lia).
  assert (HT : length T = k).
  { unfold T, top_k; simpl. rewrite map_length, firstn_length.
    rewrite <- (Permutation_length (sort_pairs_perm _)), combine_length, seq_length. lia. }
  assert (Hnd : NoDup T) by apply top_k_idx_nodup.
  assert (Hr : forall j, In j T -> (j < length z)%nat) by (intros j; apply top_k_idx_range).
  assert (Hxu : map (fun j => nth j z 0) T = u) by (unfold T, u; rewrite top_k_nth, top_k_vals; reflexivity).
  exists T, (value * t). rewrite (unit_simplex_threshold u Hu). fold t.
  set (p := map (fun a => relu (a - t)) u).
  assert (Hp : length p = length T) by (unfold p; rewrite map_length; lia).
  assert (Erel : forall i, value * relu (nth i z 0 - t) = relu (nth i x 0 - value * t)).
  { intros i. rewrite relu_scale by exact Hv. f_equal. rewrite Hzn. field. lra. }
  assert (Hin : forall i, In i T -> nth i (smul value (scatter p T (length z))) 0 = relu (nth i x 0 - value * t)).
  { intros i Hi. rewrite nth_smul, <- Erel. f_equal. destruct (In_nth _ _ 0%nat Hi) as (q & Hq & E).
    pose proof (scatter_nth p T (length z) Hp Hnd Hr) as Hs. apply (f_equal (fun l => nth q l 0)) in Hs.
    rewrite (nth_map_lt _ T q 0%nat 0 Hq), E in Hs. rewrite Hs. unfold p.
    rewrite (nth_map_lt _ u q 0 0) by lia. rewrite <- Hxu, (nth_map_lt _ T q 0%nat 0 Hq), E. reflexivity. }
  constructor; try assumption.
  - rewrite smul_length, scatter_length. exact Hz.
  - intros i Hi. rewrite <- Hz. apply Hr, Hi.
  - intros i j Hi Hj Hjn. rewrite <- Hz in Hjn. pose proof (top_k_top z k i j ltac:(lia) Hi Hj Hjn) as H. rewrite !Hzn in H.
    apply (Rmult_le_reg_r (/ value)); [apply Rinv_0_lt_compat, Hv|exact H].
  - intros i Hi Hin'. rewrite nth_smul, nth_scatter_notin by (assumption || lia). ring.
  - pose proof (unit_simplex_sum u Hu) as Hs. fold t in Hs. rewrite <- Hxu, map_map in Hs.
    transitivity (value * vsum (map (fun j => relu (nth j z 0 - t)) T)); [|rewrite Hs; ring].
    rewrite <- vsum_smul. unfold smul. rewrite map_map. f_equal. apply map_ext. intros j. symmetry. apply Erel.
Qed.

(** ** Uniqueness of the form *)
Lemma vsum_map_incl (f : nat -> R) Sl : forall T, NoDup Sl -> NoDup T -> (forall i, In i Sl -> In i T) -> (forall i, In i T -> ~ In i Sl -> f i = 0) ->
  vsum (map f T) = vsum (map f Sl).
Proof.
  induction Sl as [|a Sl IH]; intros T HS HT Hi Hz.
  - simpl. induction T as [|b T IHT]; [reflexivity|]. simpl. inversion HT; subst. rewrite Hz by (simpl; auto). rewrite IHT; [ring|assumption|intros i []|].
    intros i H' _. apply Hz; simpl; auto.
  - inversion HS as [|? ? Ha HS']; subst. destruct (in_split a T (Hi a (or_introl eq_refl))) as (l1 & l2 & ->).
    assert (HT' := NoDup_remove_1 _ _ _ HT). assert (Hn := NoDup_remove_2 _ _ _ HT).
    simpl. rewrite <- (IH (l1 ++ l2) HS' HT').
    + rewrite !map_app, !vsum_app. simpl. lra.
    + intros i H'. specialize (Hi i (or_intror H')). apply in_app_or in Hi. apply in_or_app. destruct Hi as [Hi|[->|Hi]]; auto. contradiction.
    + intros i H' Hn'. apply Hz.
      * apply in_app_or in H'. apply in_or_app. destruct H'; [left; assumption|right; right; assumption].
      * intros [->|H'']; [contradiction|contradiction].
Qed.
Lemma vsum_map_lt (f g : nat -> R) l a : In a l -> f a < g a -> (forall i, In i l -> f i <= g i) -> vsum (map f l) < vsum (map g l).
Proof.
  induction l as [|b l IH]; intros Ha Hlt Hle; [contradiction|]. simpl.
  assert (Hall : vsum (map f l) <= vsum (map g l)).
  { clear - Hle. induction l as [|c l IH]; simpl; [lra|]. assert (f c <= g c) by (apply Hle; simpl; auto).
    assert (vsum (map f l) <= vsum (map g l)); [|lra]. apply IH. intros i H'. apply Hle. simpl in *. tauto. }
  destruct Ha as [->|Ha]; [lra|]. assert (f b <= g b) by (apply Hle; simpl; auto).
  assert (vsum (map f l) < vsum (map g l)); [|lra]. apply IH; [exact Ha|exact Hlt|]. intros i H'. apply Hle. simpl; auto.
Qed.
Lemma relu_pos a : 0 <= a -> relu a = a. Proof. intros. unfold relu. apply Rmax_left || apply Rmax_right; lra. Qed.
Lemma relu_neg a : a <= 0 -> relu a = 0. Proof. intros. unfold relu. apply Rmax_right || apply Rmax_left; lra. Qed.
Lemma relu_mono a b : a <= b -> relu a <= relu b.
Proof. intros. destruct (Rle_dec 0 a); [rewrite !relu_pos by lra; lra|]. rewrite (relu_neg a) by lra. destruct (Rle_dec 0 b); [rewrite relu_pos by lra; lra|rewrite relu_neg by lra; lra]. Qed.
Lemma sum_indices (q : vec) : vsum q = vsum (map (fun i => nth i q 0) (seq 0 (length q))).
Proof.
  f_equal. apply vec_ext; [rewrite map_length, seq_length; reflexivity|]. intros i Hi.
  rewrite (nth_map_lt _ _ i 0%nat 0) by (rewrite seq_length; exact Hi). rewrite seq_nth by exact Hi. reflexivity.
Qed.
Definition positions (q : vec) : list nat := filter (fun i => if Rlt_dec 0 (nth i q 0) then true else false) (seq 0 (length q)).
Lemma positions_in q i : In i (positions q) <-> (i < length q)%nat /\ 0 < nth i q 0.
Proof.
  unfold positions. rewrite filter_In, in_seq. destruct (Rlt_dec 0 (nth i q 0)); split; intros [H1 H2]; split; try lia; try lra; try discriminate; try assumption.
Qed.
Lemma positions_nodup q : NoDup (positions q). Proof. apply NoDup_filter, seq_NoDup. Qed.
Lemma positions_card q : length (positions q) = card q.
Proof.
  unfold positions, card.
  assert (G : forall s r, length (filter (fun i => if Rlt_dec 0 (nth (i - s) r 0) then true else false) (seq s (length r))) =
    length (filter (fun a => if Rlt_dec 0 a then true else false) r)).
  { intros s r; revert s; induction r as [|a r IH]; intros s; [reflexivity|].
    change (length (a :: r)) with (S (length r)). cbn [seq filter]. rewrite Nat.sub_diag. change (nth 0 (a :: r) 0) with a.
    rewrite (filter_ext_in _ (fun i => if Rlt_dec 0 (nth (i - S s) r 0) then true else false)).
    - destruct (Rlt_dec 0 a); cbn [length]; rewrite IH; reflexivity.
    - intros i Hi. apply in_seq in Hi. replace (i - s)%nat with (S (i - S s)) by lia. reflexivity. }
  rewrite <- (G 0%nat q). f_equal. apply filter_ext. intros i. rewrite Nat.sub_0_r. reflexivity.
Qed.
Lemma sparse_form_unique x k value P T tau q t : sparse_form x k value P T tau -> 0 < value ->
  length q = length x -> (forall i, (i < length x)%nat -> 0 <= nth i q 0) -> vsum q = value -> (card q <= k)%nat ->
  (forall i, (i < length x)%nat -> 0 < nth i q 0 -> nth i q 0 = nth i x 0 - t) ->
  (forall i j, (i < length x)%nat -> (j < length x)%nat -> 0 < nth i q 0 -> nth j q 0 = 0 -> nth j x 0 < nth i x 0) ->
  ((card q < k)%nat -> forall j, (j < length x)%nat -> nth j q 0 = 0 -> nth j x 0 <= t) ->
  P = q.
Proof.
  intros F Hv Hlq Hq0 Hqs Hqk Hqt Hsep Hlow. destruct F as [Hl Hnd Hk Hr Htop Hin Hout Hsum].
  set (Sl := positions q).
  assert (HSin : forall i, In i Sl <-> (i < length x)%nat /\ 0 < nth i q 0) by (intros i; unfold Sl; rewrite positions_in, Hlq; tauto).
  assert (HScard : length Sl = card q) by apply positions_card. assert (HSnd : NoDup Sl) by apply positions_nodup.
  assert (Hsub : forall i, In i Sl -> In i T).
  { intros i Hi. destruct (in_dec Nat.eq_dec i T) as [H|H]; [exact H|exfalso]. apply HSin in Hi. destruct Hi as [Hix Hiq].
    assert (Hinc : incl (i :: T) Sl).
    { intros j [<-|Hj]; [apply HSin; auto|]. apply HSin. split; [apply Hr, Hj|].
      destruct (Rle_lt_or_eq_dec 0 (nth j q 0) (Hq0 j (Hr j Hj))) as [H'|H']; [exact H'|exfalso].
      specialize (Hsep i j Hix (Hr j Hj) Hiq (eq_sym H')). specialize (Htop j i Hj H Hix). lra. }
    assert (Hle := NoDup_incl_length (l := i :: T) ltac:(constructor; assumption) Hinc). simpl in Hle. lia. }
  assert (Hzero : forall i, In i T -> ~ In i Sl -> nth i q 0 = 0 /\ nth i x 0 <= t).
  { intros i Hi Hn. assert (Hix := Hr i Hi). assert (E : nth i q 0 = 0).
    { destruct (Rle_lt_or_eq_dec 0 _ (Hq0 i Hix)); [exfalso; apply Hn, HSin; auto|auto]. }
    split; [exact E|]. apply Hlow; [|exact Hix|exact E].
    destruct (Nat.eq_dec (card q) k) as [E'|]; [exfalso|lia]. apply Hn.
    apply (NoDup_length_incl (l := Sl) (l' := T)); [exact HSnd|lia|intros j; apply Hsub|exact Hi]. }
  assert (Eq : vsum (map (fun i => relu (nth i x 0 - t)) T) = value).
  { rewrite (vsum_map_incl _ Sl T HSnd Hnd Hsub).
    - rewrite <- Hqs, (sum_indices q), Hlq. rewrite (vsum_map_incl _ Sl (seq 0 (length x)) HSnd (seq_NoDup _ _)).
      + f_equal. apply map_ext_in. intros i Hi. apply HSin in Hi. destruct Hi as [H1 H2]. assert (E := Hqt i H1 H2). rewrite relu_pos by lra. lra.
      + intros i Hi. apply in_seq. apply HSin in Hi. lia.
      + intros i Hi Hn. apply in_seq in Hi. destruct (Rle_lt_or_eq_dec 0 _ (Hq0 i ltac:(lia))) as [H'|H']; [exfalso; apply Hn, HSin; split; [lia|exact H']|auto].
    - intros i Hi Hn. apply relu_neg. destruct (Hzero i Hi Hn). lra. }
  assert (Hne : exists a, In a Sl).
  { destruct Sl as [|a l] eqn:E; [exfalso|exists a; left; reflexivity]. assert (Z : forall i, (i < length x)%nat -> nth i q 0 = 0).
    { intros i Hi. destruct (Rle_lt_or_eq_dec 0 _ (Hq0 i Hi)) as [H'|H']; [exfalso; apply (in_nil (a := i)); apply HSin; auto|auto]. }
    assert (E0 : q = vzero (length x)) by (apply vec_ext; [rewrite vzero_length; exact Hlq|intros i Hi; rewrite nth_vzero; apply Z; lia]).
    rewrite E0 in Hqs. unfold vzero in Hqs. rewrite vsum_repeat in Hqs. lra. }
  destruct Hne as [a Ha]. assert (HaT := Hsub a Ha). apply HSin in Ha. destruct Ha as [Hax Haq]. assert (Eqa := Hqt a Hax Haq).
  assert (Et : tau = t).
  { destruct (Rtotal_order tau t) as [H|[H|H]]; [exfalso|exact H|exfalso].
    - assert (vsum (map (fun i => relu (nth i x 0 - t)) T) < vsum (map (fun i => relu (nth i x 0 - tau)) T)); [|lra].
      apply vsum_map_lt with (a := a); [exact HaT|rewrite !relu_pos by lra; lra|intros i _; apply relu_mono; lra].
    - assert (vsum (map (fun i => relu (nth i x 0 - tau)) T) < vsum (map (fun i => relu (nth i x 0 - t)) T)); [|lra].
      apply vsum_map_lt with (a := a); [exact HaT| |intros i _; apply relu_mono; lra].
      rewrite (relu_pos (nth a x 0 - t)) by lra. destruct (Rle_dec 0 (nth a x 0 - tau)); [rewrite relu_pos by lra; lra|rewrite relu_neg by lra; lra]. }
  subst tau. apply vec_ext; [lia|]. intros i Hi. rewrite Hl in Hi. destruct (in_dec Nat.eq_dec i T) as [H|H].
  - rewrite Hin by exact H. destruct (in_dec Nat.eq_dec i Sl) as [H'|H'].
    + apply HSin in H'. destruct H' as [_ H']. assert (E := Hqt i Hi H'). rewrite relu_pos by lra. lra.
    + destruct (Hzero i H H') as [-> Hx]. apply relu_neg. lra.
  - rewrite Hout by assumption. destruct (Rle_lt_or_eq_dec 0 _ (Hq0 i Hi)) as [H'|H']; [exfalso; apply H, Hsub, HSin; auto|exact H'].
Qed.

(** ** The declared derivative in terms of the scaled projection *)
Lemma supp_smul c p : 0 < c -> supp (smul c p) = supp p.
Proof.
  intros H. apply vec_ext; [rewrite !supp_length, smul_length; reflexivity|]. intros i _. rewrite !nth_supp, nth_smul.
  destruct (Rlt_dec 0 (nth i p 0)), (Rlt_dec 0 (c * nth i p 0)); try reflexivity; exfalso; nra.
Qed.
Lemma card_smul c p : 0 < c -> card (smul c p) = card p.
Proof. intros H. apply INR_eq. rewrite <- !supp_sum, supp_smul by exact H. reflexivity. Qed.
Lemma nth_mapx (f : R -> R) (x : vec) i : f 0 = 0 -> nth i (map f x) 0 = f (nth i x 0).
Proof. intros H. rewrite <- H at 1. apply map_nth. Qed.
Lemma sparse_positive_card x k value : (1 <= k <= length x)%nat -> 0 < value ->
  let p := projection_sparse_simplex x k value in (0 < card p <= k)%nat.
Proof.
  intros Hk Hv p. destruct (C11_sparse_simplex x k value Hk Hv) as [((Hl & H0 & Hs) & Hn) _]. fold p in Hl, H0, Hs, Hn. split.
  - destruct (card p) eqn:E; [exfalso|lia]. rewrite (vsum_supp_zero p p) in Hs; [|reflexivity|intros i Hi Hle; assert (0 <= nth i p 0) by (apply H0; lia); lra].
    assert (E' := supp_sum p). rewrite E in E'. simpl in E'.
    assert (Hz : forall i, nth i (supp p) 0 = 0).
    { intros i. destruct (Rlt_dec 0 (nth i p 0)) as [H|H]; [exfalso|rewrite nth_supp; destruct (Rlt_dec 0 (nth i p 0)); [contradiction|reflexivity]].
      assert (Hi : (i < length p)%nat) by (destruct (Nat.lt_ge_cases i (length p)); [assumption|rewrite nth_overflow in H by assumption; lra]).
      assert (In i (positions p)) by (apply positions_in; auto). assert (Hc := positions_card p). rewrite E in Hc. destruct (positions p); [contradiction|discriminate]. }
    assert (Es : supp p = vzero (length p)) by (apply vec_ext; [rewrite supp_length, vzero_length; reflexivity|intros i _; rewrite nth_vzero; apply Hz]).
    rewrite Es, dot_vzero_l in Hs. lra.
  - eapply Nat.le_trans; [|exact Hn]. rewrite nnz_indices, <- positions_card. apply NoDup_incl_length; [apply positions_nodup|].
    intros i Hi. apply positions_in in Hi. apply filter_In. split; [apply in_seq; lia|]. destruct (Req_EM_T (nth i p 0) 0); [lra|reflexivity].
Qed.
Lemma sparse_jvp_eq x k value d dv : (1 <= k <= length x)%nat -> 0 < value -> length d = length x ->
  let p := projection_sparse_simplex x k value in
  projection_sparse_simplex_jvp x k value d dv = vadd (support_jvp p d) (smul (dv / INR (card p)) (supp p)).
Proof.
  intros Hk Hv Hd p. unfold projection_sparse_simplex_jvp, unit_sparse_simplex_jvp.
  set (z := map (fun a => a / value) x). set (u := projection_unit_sparse_simplex z k).
  assert (Ep : p = smul value u) by reflexivity.
  destruct (sparse_positive_card x k value Hk Hv) as [Hc _]. fold p in Hc.
  destruct (C11_sparse_simplex x k value Hk Hv) as [((Hl & H0 & Hs) & _) _]. fold p in Hl, H0, Hs.
  assert (Hlu : length u = length x) by (rewrite Ep, smul_length in Hl; exact Hl).
  assert (Ec : card p = card u) by (rewrite Ep; apply card_smul, Hv). assert (Es : supp p = supp u) by (rewrite Ep; apply supp_smul, Hv).
  destruct (sparse_structure x k value Hk Hv) as (T & tau & F). fold p in F.
  assert (Hpt : forall i, 0 < nth i p 0 -> nth i p 0 = nth i x 0 - tau).
  { intros i Hi. assert (Hi' : (i < length x)%nat) by (destruct (Nat.lt_ge_cases i (length x)); [assumption|rewrite nth_overflow in Hi by lia; lra]).
    destruct (in_dec Nat.eq_dec i T) as [H|H]; [|rewrite (sf_out _ _ _ _ _ _ F i H Hi') in Hi; lra].
    rewrite (sf_in _ _ _ _ _ _ F i H) in *. destruct (Rle_dec 0 (nth i x 0 - tau)); [apply relu_pos; assumption|rewrite relu_neg in Hi by lra; lra]. }
  assert (Hnc : INR (card u) <> 0) by (rewrite <- Ec; apply not_0_INR; lia).
  assert (Hsx : dot (supp u) x = value + INR (card u) * tau).
  { rewrite <- Es, <- Ec. rewrite (vsum_supp_zero p p) in Hs; [|reflexivity|intros i Hi Hle; assert (0 <= nth i p 0) by (apply H0; lia); lra].
    assert (E : dot (supp p) p = dot (supp p) (vsub x (smul tau (vones (length x))))).
    { rewrite !dot_hmul. f_equal. apply vec_ext; [rewrite !hmul_length, vsub_length, smul_length, vones_length; lia|].
      intros i Hi. rewrite hmul_length, supp_length in Hi. rewrite !nth_hmul, nth_supp, nth_vsub, nth_smul. destruct (Rlt_dec 0 (nth i p 0)) as [H|H]; [|ring].
      unfold vones. rewrite nth_repeat_lt by lia. rewrite (Hpt i H). ring. }
    rewrite Hs, dot_vsub_r, dot_smul_r in E. rewrite (dot_comm (supp p) (vones _)) in E.
    replace (length x) with (length (supp p)) in E by (rewrite supp_length; exact Hl). rewrite <- vsum_dot, supp_sum in E. lra. }
  set (w := quotient_dot x d value dv).
  assert (Hw : forall i, nth i w 0 = nth i d 0 / value - nth i x 0 * dv / (value * value)).
  { intros i. unfold w, quotient_dot. rewrite nth_vsub, !nth_mapx by (unfold Rdiv; ring). reflexivity. }
  assert (Hdw : dot (supp u) w = dot (supp u) d / value - dot (supp u) x * dv / (value * value)).
  { assert (Ew : w = vsub (smul (/ value) d) (smul (dv / (value * value)) x)).
    { apply vec_ext; [unfold w, quotient_dot; rewrite !vsub_length, !smul_length, !map_length; reflexivity|]. intros i _. rewrite Hw, nth_vsub, !nth_smul. field. lra. }
    rewrite Ew, dot_vsub_r, !dot_smul_r. field. lra. }
  apply vec_ext.
  - rewrite !vadd_length, !smul_length, !support_jvp_length, supp_length by (unfold w, quotient_dot; rewrite ?vsub_length, ?map_length; lia). lia.
  - intros i _. rewrite !nth_vadd, !nth_smul, !support_jvp_nth, !nth_supp, Es, Ec, Hdw, Hw.
    assert (Epi : nth i p 0 = value * nth i u 0) by (rewrite Ep; apply nth_smul).
    destruct (Rlt_dec 0 (nth i u 0)) as [Hu|Hu], (Rlt_dec 0 (nth i p 0)) as [Hp|Hp]; try (exfalso; rewrite Epi in Hp; nra).
    + assert (Hpi := Hpt i Hp). rewrite Hsx. assert (Eu : nth i u 0 = (nth i x 0 - tau) / value) by (rewrite <- Hpi, Epi; field; lra).
      rewrite Eu. field. split; [exact Hnc|lra].
    + assert (Hzu : nth i u 0 = 0).
      { destruct (Nat.lt_ge_cases i (length x)) as [Hi|Hi]; [assert (0 <= nth i p 0) by (apply H0; exact Hi); nra|apply nth_overflow; lia]. }
      rewrite Hzu. ring.
Qed.

Lemma sparse_local x k value : (1 <= k <= length x)%nat -> 0 < value ->
  let p := projection_sparse_simplex x k value in strict_sparse k x p ->
  exists delta, 0 < delta /\ forall x' value', close delta x x' -> Rabs (value' - value) < delta ->
    projection_sparse_simplex x' k value' = vadd p (projection_sparse_simplex_jvp x k value (vsub x' x) (value' - value)).
Proof.
  intros Hk Hv p [Hst1 Hst2].
  destruct (sparse_positive_card x k value Hk Hv) as [Hc Hck]. fold p in Hc, Hck.
  destruct (C11_sparse_simplex x k value Hk Hv) as [((Hl & H0 & Hs) & _) _]. fold p in Hl, H0, Hs.
  destruct (sparse_structure x k value Hk Hv) as (T & tau & F). fold p in F.
  assert (Hpt : forall i, (i < length x)%nat -> 0 < nth i p 0 -> nth i p 0 = nth i x 0 - tau).
  { intros i Hi' Hi. destruct (in_dec Nat.eq_dec i T) as [H|H]; [|rewrite (sf_out _ _ _ _ _ _ F i H Hi') in Hi; lra].
    rewrite (sf_in _ _ _ _ _ _ F i H) in *. destruct (Rle_dec 0 (nth i x 0 - tau)); [apply relu_pos; assumption|rewrite relu_neg in Hi by lra; lra]. }
  set (n := length x) in *.
  (* gaps *)
  destruct (min_gap n (fun i => if Rlt_dec 0 (nth i p 0) then nth i p 0 else 1)) as (g1 & Hg1 & Hgap1).
  { intros i _. destruct (Rlt_dec 0 (nth i p 0)); lra. }
  destruct (min_gap2 n (fun i j => if Rlt_dec 0 (nth i p 0) then if Rlt_dec 0 (nth j p 0) then 1 else nth i x 0 - nth j x 0 else 1)) as (g2 & Hg2 & Hgap2).
  { intros i j Hi Hj. destruct (Rlt_dec 0 (nth i p 0)) as [Hpi|]; [|lra]. destruct (Rlt_dec 0 (nth j p 0)) as [|Hpj]; [lra|].
    assert (Ej : nth j p 0 = 0) by (specialize (H0 j Hj); lra).
    destruct (Nat.eq_dec (card p) k) as [E|E]; [specialize (Hst2 E i j Hi Hj Hpi Ej); lra|].
    specialize (Hst1 ltac:(lia) i j Hi Hj Hpi Ej). lra. }
  destruct (min_gap n (fun j => if Rlt_dec 0 (nth j p 0) then 1 else if Nat.eq_dec (card p) k then 1 else tau - nth j x 0)) as (g3 & Hg3 & Hgap3).
  { intros j Hj. destruct (Rlt_dec 0 (nth j p 0)) as [|Hpj]; [lra|]. destruct (Nat.eq_dec (card p) k) as [E|E]; [lra|].
    assert (Ej : nth j p 0 = 0) by (specialize (H0 j Hj); lra).
    assert (Hne : exists i, In i (positions p)) by (assert (Hc' := positions_card p); destruct (positions p) as [|i l]; [simpl in Hc'; lia|exists i; left; reflexivity]).
    destruct Hne as [i Hi]. apply positions_in in Hi. destruct Hi as [Hi Hpi]. rewrite Hl in Hi.
    specialize (Hst1 ltac:(lia) i j Hi Hj Hpi Ej). rewrite (Hpt i Hi Hpi) in Hst1. lra. }
  set (delta := Rmin (Rmin (g1 / 4) (g2 / 4)) (Rmin (g3 / 4) value)).
  assert (D1 : delta <= g1 / 4) by (unfold delta; eapply Rle_trans; [apply Rmin_l|apply Rmin_l]).
  assert (D2 : delta <= g2 / 4) by (unfold delta; eapply Rle_trans; [apply Rmin_l|apply Rmin_r]).
  assert (D3 : delta <= g3 / 4) by (unfold delta; eapply Rle_trans; [apply Rmin_r|apply Rmin_l]).
  assert (D4 : delta <= value) by (unfold delta; eapply Rle_trans; [apply Rmin_r|apply Rmin_r]).
  assert (D0 : 0 < delta) by (unfold delta; repeat apply Rmin_glb_lt; lra).
  exists delta. split; [exact D0|]. intros x' value' [Hlx' Hx'] Hv'. fold n in Hlx', Hx'.
  assert (Hld : length (vsub x' x) = n) by (rewrite vsub_length; fold n; lia).
  rewrite (sparse_jvp_eq x k value (vsub x' x) (value' - value) Hk Hv Hld). fold p. fold (moved p (vsub x' x) (value' - value)).
  set (d := vsub x' x) in *. set (q := moved p d (value' - value)). set (m := INR (card p)).
  assert (Hm : 1 <= m) by (unfold m; change 1 with (INR 1); apply le_INR; lia).
  assert (Hdn : forall i, (i < n)%nat -> Rabs (nth i d 0) < delta) by (intros i Hi; unfold d; rewrite nth_vsub; apply Hx', Hi).
  assert (Hv0 : 0 < value') by (apply Rabs_def2 in Hv'; lra).
  set (sh := (dot (supp p) d - (value' - value)) / m).
  assert (Hsh : Rabs sh < 2 * delta).
  { unfold sh, Rdiv. rewrite Rabs_mult, (Rabs_right (/ m)) by (apply Rle_ge, Rlt_le, Rinv_0_lt_compat; lra).
    assert (B : Rabs (dot (supp p) d) <= m * delta) by (apply dot_supp_bound; [lra|intros i Hi; rewrite Hl in Hi; apply Rlt_le, Hdn, Hi]).
    apply (Rmult_lt_reg_r m); [lra|]. rewrite Rmult_assoc, Rinv_l, Rmult_1_r by lra.
    unfold Rminus at 1. eapply Rle_lt_trans; [apply Rabs_triang|]. rewrite Rabs_Ropp. nra. }
  apply Rabs_def2 in Hsh.
  assert (Hq : forall i, nth i q 0 = nth i p 0 + if Rlt_dec 0 (nth i p 0) then nth i d 0 - sh else 0) by (intros i; unfold q; apply moved_nth).
  assert (Hqpos : forall i, (i < n)%nat -> 0 < nth i p 0 -> 0 < nth i q 0).
  { intros i Hi Hp. rewrite Hq. specialize (Hgap1 i Hi). simpl in Hgap1. destruct (Rlt_dec 0 (nth i p 0)); [|contradiction]. specialize (Hdn i Hi). apply Rabs_def2 in Hdn. lra. }
  assert (Hqz : forall i, (i < n)%nat -> ~ 0 < nth i p 0 -> nth i q 0 = 0).
  { intros i Hi Hp. rewrite Hq. specialize (H0 i Hi). destruct (Rlt_dec 0 (nth i p 0)); [contradiction|]. lra. }
  assert (Hlq : length q = n) by (unfold q; rewrite moved_length by lia; exact Hl).
  assert (Ecq : card q = card p).
  { rewrite <- !positions_card. unfold positions. rewrite Hlq, Hl. f_equal. apply filter_ext_in. intros i Hi. apply in_seq in Hi.
    destruct (Rlt_dec 0 (nth i p 0)) as [Hp|Hp].
    - specialize (Hqpos i ltac:(lia) Hp). destruct (Rlt_dec 0 (nth i q 0)); [reflexivity|contradiction].
    - rewrite (Hqz i ltac:(lia) Hp). destruct (Rlt_dec 0 0); [lra|reflexivity]. }
  assert (Hk' : (1 <= k <= length x')%nat) by lia.
  destruct (sparse_structure x' k value' Hk' Hv0) as (T' & tau' & F').
  apply (sparse_form_unique x' k value' _ T' tau' q (tau + sh) F' Hv0); rewrite ?Hlx'.
  - exact Hlq.
  - intros i Hi. destruct (Rlt_dec 0 (nth i p 0)) as [Hp|Hp]; [apply Rlt_le, Hqpos; assumption|rewrite Hqz by assumption; lra].
  - unfold q. rewrite moved_sum by lia. lra.
  - lia.
  - intros i Hi Hqi. destruct (Rlt_dec 0 (nth i p 0)) as [Hp|Hp]; [|rewrite Hqz in Hqi by assumption; lra].
    rewrite Hq. destruct (Rlt_dec 0 (nth i p 0)); [|contradiction]. rewrite (Hpt i Hi Hp). unfold d. rewrite nth_vsub. lra.
  - intros i j Hi Hj Hqi Hqj. destruct (Rlt_dec 0 (nth i p 0)) as [Hp|Hp]; [|rewrite Hqz in Hqi by assumption; lra].
    destruct (Rlt_dec 0 (nth j p 0)) as [Hpj|Hpj]; [specialize (Hqpos j Hj Hpj); lra|].
    specialize (Hgap2 i j Hi Hj). simpl in Hgap2. destruct (Rlt_dec 0 (nth i p 0)); [|contradiction]. destruct (Rlt_dec 0 (nth j p 0)); [contradiction|].
    assert (A := Hx' i Hi). assert (B := Hx' j Hj). apply Rabs_def2 in A. apply Rabs_def2 in B. lra.
  - intros Hlt j Hj Hqj. destruct (Rlt_dec 0 (nth j p 0)) as [Hpj|Hpj]; [specialize (Hqpos j Hj Hpj); lra|].
    specialize (Hgap3 j Hj). simpl in Hgap3. destruct (Rlt_dec 0 (nth j p 0)); [contradiction|]. destruct (Nat.eq_dec (card p) k); [lia|].
    assert (B := Hx' j Hj). apply Rabs_def2 in B. lra.
Qed.
