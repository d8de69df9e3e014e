From Coq Require Import Reals List Arith Bool Lra Lia Sorting.Permutation Sorting.Sorted.
From Verif Require Import Vec Proj ProjProofs SimplexProofs SimplexTheorems Prox SparseSimplex.
Import ListNotations.
Open Scope R_scope.

Lemma insert_pair_perm a l : Permutation (a :: l) (insert_pair a l).
Proof.
  induction l as [|b l IH]; simpl; [reflexivity|].
  destruct (Rle_dec (fst b) (fst a)); [reflexivity|]. rewrite perm_swap. constructor. exact IH.
Qed.
Lemma sort_pairs_perm l : Permutation l (sort_pairs l).
Proof.
  induction l as [|a l IH]; simpl; [constructor|]. rewrite <- insert_pair_perm. constructor. exact IH.
Qed.
Lemma insert_pair_fst a l : map fst (insert_pair a l) = insert_desc (fst a) (map fst l).
Proof.
  induction l as [|b l IH]; simpl; [reflexivity|].
  destruct (Rle_dec (fst b) (fst a)); simpl; [reflexivity|]. rewrite IH. reflexivity.
Qed.
Lemma sort_pairs_fst l : map fst (sort_pairs l) = sort_desc (map fst l).
Proof. induction l as [|a l IH]; simpl; [reflexivity|]. rewrite insert_pair_fst, IH. reflexivity. Qed.
Lemma map_fst_combine {A B} (x : list A) (y : list B) : length x = length y -> map fst (combine x y) = x.
Proof. revert y; induction x as [|a x IH]; intros [|b y] H; simpl in *; try discriminate; [reflexivity|]. f_equal. apply IH. lia. Qed.
Lemma map_snd_combine {A B} (x : list A) (y : list B) : length x = length y -> map snd (combine x y) = y.
Proof. revert y; induction x as [|a x IH]; intros [|b y] H; simpl in *; try discriminate; [reflexivity|]. f_equal. apply IH. lia. Qed.

Lemma top_k_vals x k : fst (top_k x k) = firstn k (sort_desc x).
Proof.
  unfold top_k; simpl. rewrite <- firstn_map, sort_pairs_fst, map_fst_combine by (rewrite seq_length; reflexivity).
  reflexivity.
Qed.
Lemma top_k_idx_perm x k : exists r, Permutation (snd (top_k x k) ++ r) (seq 0 (length x)).
Proof.
  exists (map snd (skipn k (sort_pairs (combine x (seq 0 (length x)))))).
  unfold top_k; simpl. rewrite <- map_app, firstn_skipn.
  rewrite <- (sort_pairs_perm (combine x (seq 0 (length x)))), map_snd_combine by (rewrite seq_length; reflexivity).
  reflexivity.
Qed.
Lemma top_k_idx_nodup x k : NoDup (snd (top_k x k)).
Proof.
  destruct (top_k_idx_perm x k) as [r Hr].
  assert (H : NoDup (snd (top_k x k) ++ r)) by (eapply Permutation_NoDup; [symmetry; exact Hr|apply seq_NoDup]).
  clear Hr. revert H. induction (snd (top_k x k)) as [|a l IH]; simpl; intros H; [constructor|].
  inversion H; subst. constructor; [rewrite in_app_iff in *; tauto|apply IH; assumption].
Qed.
Lemma top_k_idx_range x k j : In j (snd (top_k x k)) -> (j < length x)%nat.
Proof.
  intros H. destruct (top_k_idx_perm x k) as [r Hr].
  assert (Hin : In j (seq 0 (length x))) by (eapply Permutation_in; [exact Hr|apply in_or_app; left; exact H]).
  apply in_seq in Hin. lia.
Qed.
Lemma combine_seq_nth (x : vec) s a j : In (a, j) (combine x (seq s (length x))) -> a = nth (j - s) x 0 /\ (s <= j)%nat.
Proof.
  revert s; induction x as [|b x IH]; intros s H; simpl in H; [tauto|].
  destruct H as [H|H].
  - inversion H; subst. rewrite Nat.sub_diag. auto.
  - destruct (IH (S s) H) as [-> Hj]. split; [|lia].
    replace (j - s)%nat with (S (j - S s)) by lia. reflexivity.
Qed.
Lemma top_k_nth x k : map (fun j => nth j x 0) (snd (top_k x k)) = fst (top_k x k).
Proof.
  unfold top_k; simpl. rewrite map_map. apply map_ext_in. intros [a j] H. simpl.
  assert (Hin : In (a, j) (combine x (seq 0 (length x)))).
  { eapply Permutation_in; [symmetry; apply sort_pairs_perm|].
    rewrite <- (firstn_skipn k (sort_pairs _)). apply in_or_app. left. exact H. }
  destruct (combine_seq_nth x 0 a j Hin) as [-> _]. rewrite Nat.sub_0_r. reflexivity.
Qed.

(** Scatter. *)
Lemma one_hot_length j n : length (one_hot j n) = n.
Proof. unfold one_hot. rewrite map_length, seq_length. reflexivity. Qed.
Lemma scatter_length p idx n : length (scatter p idx n) = n.
Proof.
  revert idx; induction p as [|a p IH]; intros [|j idx]; simpl; try apply vzero_length.
  rewrite vadd_length, smul_length, one_hot_length, IH. lia.
Qed.
Lemma nth_one_hot j n i : (i < n)%nat -> nth i (one_hot j n) 0 = if Nat.eqb j i then 1 else 0.
Proof.
  intros Hi. unfold one_hot. rewrite (nth_map_lt _ _ i 0%nat 0) by (rewrite seq_length; exact Hi).
  rewrite seq_nth by exact Hi. reflexivity.
Qed.
Lemma one_hot_shift j s n x : length x = n ->
  dot x (map (fun i => if Nat.eqb j i then 1 else 0) (seq s n)) =
  if (Nat.leb s j && Nat.ltb j (s + n))%bool then nth (j - s) x 0 else 0.
Proof.
  revert s n; induction x as [|a x IH]; intros s n Hn; subst n.
  - simpl. destruct (Nat.leb_spec s j), (Nat.ltb_spec j (s + 0)); simpl; try reflexivity; try lia.
  - simpl length. cbn [seq map dot]. rewrite (IH (S s) (length x) eq_refl).
    destruct (Nat.eqb_spec j s).
    + subst. rewrite Nat.sub_diag, Nat.leb_refl. destruct (Nat.leb_spec (S s) s); [lia|].
      destruct (Nat.ltb_spec s (s + S (length x))); [|lia]. simpl. lra.
    + destruct (Nat.leb_spec (S s) j), (Nat.ltb_spec j (S s + length x)); simpl;
      destruct (Nat.leb_spec s j), (Nat.ltb_spec j (s + S (length x))); simpl; try lia; try lra.
      replace (j - s)%nat with (S (j - S s)) by lia. simpl. lra.
Qed.
Lemma dot_one_hot x j : (j < length x)%nat -> dot x (one_hot j (length x)) = nth j x 0.
Proof.
  intros H. unfold one_hot. rewrite one_hot_shift by reflexivity. simpl.
  destruct (Nat.ltb_spec j (length x)); [|lia]. rewrite Nat.sub_0_r. reflexivity.
Qed.
Lemma dot_scatter x p idx : (forall j, In j idx -> (j < length x)%nat) ->
  dot x (scatter p idx (length x)) = dot (map (fun j => nth j x 0) idx) p.
Proof.
  revert idx; induction p as [|a p IH]; intros [|j idx] H; simpl; try (rewrite dot_vzero_r; reflexivity).
  rewrite dot_vadd_r, dot_smul_r, dot_one_hot by (apply H; left; reflexivity).
  rewrite IH by (intros; apply H; right; assumption). ring.
Qed.
Lemma nth_scatter_notin p idx n i : (i < n)%nat -> ~ In i idx -> nth i (scatter p idx n) 0 = 0.
Proof.
  revert idx; induction p as [|a p IH]; intros [|j idx] Hi H; simpl; try apply nth_vzero.
  rewrite nth_vadd, nth_smul, nth_one_hot by exact Hi. rewrite IH; [|exact Hi|firstorder].
  destruct (Nat.eqb_spec j i); [subst; exfalso; apply H; left; reflexivity|ring].
Qed.
Lemma scatter_nth p idx n : length p = length idx -> NoDup idx -> (forall j, In j idx -> (j < n)%nat) ->
  map (fun j => nth j (scatter p idx n) 0) idx = p.
Proof.
  revert idx; induction p as [|a p IH]; intros [|j idx] Hl Hnd Hr; simpl in *; try discriminate; [reflexivity|].
  inversion Hnd; subst. f_equal.
  - rewrite nth_vadd, nth_smul, nth_one_hot, Nat.eqb_refl by (apply Hr; left; reflexivity).
    rewrite nth_scatter_notin by (auto; apply Hr; left; reflexivity). ring.
  - transitivity (map (fun j => nth j (scatter p idx n) 0) idx);
      [|apply IH; [lia|assumption|intros; apply Hr; right; assumption]].
    apply map_ext_in. intros i Hi. rewrite nth_vadd, nth_smul, nth_one_hot by (apply Hr; right; exact Hi).
    destruct (Nat.eqb_spec j i); [subst; contradiction|ring].
Qed.
Lemma scatter_sqnorm p idx n : length p = length idx -> NoDup idx -> (forall j, In j idx -> (j < n)%nat) ->
  dot (scatter p idx n) (scatter p idx n) = dot p p.
Proof.
  intros Hl Hnd Hr.
  pose proof (dot_scatter (scatter p idx n) p idx) as H. rewrite scatter_length in H.
  rewrite H by exact Hr. rewrite scatter_nth by assumption. reflexivity.
Qed.
Lemma scatter_sum p idx n : length p = length idx -> (forall j, In j idx -> (j < n)%nat) ->
  vsum (scatter p idx n) = vsum p.
Proof.
  intros Hl Hr. rewrite vsum_dot, scatter_length.
  assert (H := dot_scatter (vones n) p idx). rewrite vones_length in H. rewrite H by exact Hr.
  rewrite vsum_dot. f_equal. rewrite Hl. unfold vones at 2.
  clear H Hl. induction idx as [|j idx IH]; [reflexivity|]. simpl. f_equal.
  - unfold vones. rewrite nth_repeat_lt; [reflexivity|apply Hr; left; reflexivity].
  - apply IH. intros; apply Hr; right; assumption.
Qed.
Lemma scatter_nonneg p idx n : Forall (Rle 0) p -> forall i, (i < n)%nat -> 0 <= nth i (scatter p idx n) 0.
Proof.
  intros Hp. revert idx; induction Hp as [|a p Ha Hp IH]; intros [|j idx] i Hi; simpl; try (rewrite nth_vzero; lra).
  rewrite nth_vadd, nth_smul, nth_one_hot by exact Hi. specialize (IH idx i Hi).
  destruct (Nat.eqb j i); lra.
Qed.
Lemma nnz_smul a q : a <> 0 -> nnz (smul a q) = nnz q.
Proof.
  intros Ha. unfold nnz, smul. induction q as [|b q IH]; simpl; [reflexivity|].
  destruct (Req_EM_T (a * b) 0) as [E|E], (Req_EM_T b 0) as [E'|E']; simpl; rewrite ?IH; try reflexivity; exfalso.
  - apply Rmult_integral in E. tauto.
  - apply E. subst. ring.
Qed.
Lemma nnz_indices q : nnz q = length (filter (fun i => if Req_EM_T (nth i q 0) 0 then false else true) (seq 0 (length q))).
Proof.
  assert (G : forall s r, length (filter (fun i => if Req_EM_T (nth (i - s) r 0) 0 then false else true) (seq s (length r))) = nnz r).
  { intros s r; revert s; induction r as [|a r IH]; intros s; [reflexivity|].
    unfold nnz in *. change (length (a :: r)) with (S (length r)). cbn [seq filter]. rewrite Nat.sub_diag. change (nth 0 (a :: r) 0) with a.
    assert (E : filter (fun i => if Req_EM_T (nth (i - s) (a :: r) 0) 0 then false else true) (seq (S s) (length r)) =
                filter (fun i => if Req_EM_T (nth (i - S s) r 0) 0 then false else true) (seq (S s) (length r))).
    { apply filter_ext_in. intros i Hi. apply in_seq in Hi. replace (i - s)%nat with (S (i - S s)) by lia. reflexivity. }
    rewrite E. destruct (Req_EM_T a 0); cbn [length]; rewrite IH; reflexivity. }
  rewrite <- (G 0%nat q). f_equal. apply filter_ext. intros i. rewrite Nat.sub_0_r. reflexivity.
Qed.
Lemma scatter_nnz p idx n : (nnz (scatter p idx n) <= length idx)%nat.
Proof.
  rewrite nnz_indices, scatter_length. apply NoDup_incl_length.
  - apply NoDup_filter, seq_NoDup.
  - intros i Hi. apply filter_In in Hi. destruct Hi as [Hi H]. apply in_seq in Hi.
    destruct (in_dec Nat.eq_dec i idx) as [Hin|Hin]; [exact Hin|].
    rewrite nth_scatter_notin in H by (auto; lia). destruct (Req_EM_T 0 0); [discriminate|congruence].
Qed.
Lemma nnz_perm p q : Permutation p q -> nnz p = nnz q.
Proof.
  unfold nnz. induction 1; simpl; try reflexivity.
  - destruct (Req_EM_T x 0); simpl; congruence.
  - destruct (Req_EM_T x 0), (Req_EM_T y 0); reflexivity.
  - congruence.
Qed.

(** Rearrangement inequality. *)
Lemma dot_insert u b l : StronglySorted desc u -> length u = S (length l) ->
  dot u (b :: l) <= dot u (insert_desc b l).
Proof.
  revert u; induction l as [|c l IH]; intros u Hu Hl; [simpl insert_desc; lra|]. simpl insert_desc.
  destruct (Rle_dec c b) as [H|H]; [lra|].
  destruct u as [|u1 [|u2 u]]; try discriminate. simpl in Hl.
  inversion Hu as [|? ? Hs Hf]; subst. inversion Hf as [|? ? H12 _]; subst. unfold desc in H12.
  specialize (IH (u2 :: u) Hs ltac:(simpl; lia)). simpl in *. nra.
Qed.
Lemma dot_sort u q : StronglySorted desc u -> length u = length q -> dot u q <= dot u (sort_desc q).
Proof.
  revert u; induction q as [|b q IH]; intros u Hu Hl; [simpl; lra|]. simpl sort_desc.
  destruct u as [|a u]; [discriminate|].
  eapply Rle_trans; [|apply dot_insert; [exact Hu|simpl in *; rewrite sort_desc_length; lia]].
  inversion Hu; subst. simpl. specialize (IH u ltac:(assumption) ltac:(simpl in *; lia)). lra.
Qed.
Lemma dot_perm_pairs l l' : Permutation l l' ->
  dot (map fst l) (map snd l) = dot (map fst l') (map (@snd R R) l').
Proof. induction 1; simpl; lra. Qed.
Lemma exists_paired x u q : Permutation x u -> length q = length x ->
  exists q', Permutation q q' /\ dot x q = dot u q'.
Proof.
  intros Hp. revert q. induction Hp as [|a x u Hp IH|a b x|x y u H1 IH1 H2 IH2]; intros q Hl.
  - exists q. split; [reflexivity|]. reflexivity.
  - destruct q as [|c q]; [discriminate|]. destruct (IH q) as (q' & Hq & E); [simpl in Hl; lia|].
    exists (c :: q'). split; [constructor; exact Hq|]. simpl. lra.
  - destruct q as [|c [|d q]]; try discriminate. exists (d :: c :: q). split; [apply perm_swap|]. simpl. lra.
  - destruct (IH1 q Hl) as (q1 & Hq1 & E1).
    destruct (IH2 q1) as (q2 & Hq2 & E2).
    { rewrite <- (Permutation_length Hq1), Hl. apply Permutation_length. exact H1. }
    exists q2. split; [etransitivity; eassumption|lra].
Qed.
Lemma rearrangement x q : length q = length x -> dot x q <= dot (sort_desc x) (sort_desc q).
Proof.
  intros Hl. destruct (exists_paired x (sort_desc x) q (sort_desc_perm x) Hl) as (q' & Hq & ->).
  rewrite (sort_desc_perm_eq q q' Hq). apply dot_sort; [apply sort_desc_sorted|].
  rewrite sort_desc_length, <- Hl. apply Permutation_length. exact Hq.
Qed.
Lemma sqnorm_perm q q' : Permutation q q' -> dot q q = dot q' q'.
Proof. induction 1; simpl; lra. Qed.

Lemma sorted_tail_zero u k : StronglySorted desc u -> Forall (Rle 0) u -> (nnz u <= k)%nat ->
  skipn k u = vzero (length u - k).
Proof.
  intros Hs Hp. revert k. induction Hs as [|a u Hs IH Hf]; intros k Hk.
  - rewrite skipn_nil. reflexivity.
  - inversion Hp as [|? ? Ha Hp']; subst. unfold nnz in Hk. simpl in Hk.
    assert (Hz : a = 0 -> u = vzero (length u)).
    { intros ->. apply vec_ext; [rewrite vzero_length; reflexivity|]. intros i Hi. rewrite nth_vzero.
      rewrite Forall_forall in Hf, Hp'. pose proof (nth_In u 0 Hi) as Hin.
      specialize (Hf _ Hin). specialize (Hp' _ Hin). unfold desc in Hf. lra. }
    destruct (Req_EM_T a 0) as [E|E].
    + specialize (Hz E). subst a. rewrite Hz. clear.
      change (0 :: vzero (length u)) with (vzero (S (length u))). unfold vzero. simpl length.
      rewrite repeat_length. generalize (S (length u)). intros m. revert k.
      induction m as [|m IH]; intros [|k]; simpl; try reflexivity. apply IH.
    + simpl in Hk. destruct k as [|k]; [lia|]. simpl. apply IH; [assumption|]. unfold nnz. lia.
Qed.
Lemma dot_firstn u v k : skipn k v = vzero (length v - k) -> dot u v = dot (firstn k u) (firstn k v).
Proof.
  revert u v; induction k as [|k IH]; intros u v H; simpl in *.
  - rewrite H. rewrite dot_vzero_r. reflexivity.
  - destruct v as [|b v]; [rewrite dot_nil_r, dot_nil_r; reflexivity|]. destruct u as [|a u]; [reflexivity|].
    simpl in *. rewrite (IH u v) by exact H. reflexivity.
Qed.
Lemma vsum_firstn v k : skipn k v = vzero (length v - k) -> vsum v = vsum (firstn k v).
Proof.
  intros H. rewrite <- (firstn_skipn k v) at 1. rewrite vsum_app, H. unfold vzero. rewrite vsum_repeat. ring.
Qed.
Lemma Forall_sort q : Forall (Rle 0) q -> Forall (Rle 0) (sort_desc q).
Proof. apply Permutation_Forall, sort_desc_perm. Qed.

Lemma sort_sorted u : StronglySorted desc u -> sort_desc u = u.
Proof.
  intros H. apply sorted_perm_eq; [apply sort_desc_sorted|exact H|]. symmetry. apply sort_desc_perm.
Qed.
Lemma sorted_firstn u k : StronglySorted desc u -> StronglySorted desc (firstn k u).
Proof.
  intros H; revert k; induction H as [|a u Hs IH Hf]; intros [|k]; simpl; try constructor; [apply IH|].
  rewrite Forall_forall in *. intros b Hb. apply Hf.
  rewrite <- (firstn_skipn k u). apply in_or_app. left. exact Hb.
Qed.

Lemma in_firstn {A} k (l : list A) a : In a (firstn k l) -> In a l.
Proof. intros H. rewrite <- (firstn_skipn k l). apply in_or_app. left. exact H. Qed.

Lemma unit_sparse_form x k :
  projection_unit_sparse_simplex x k =
  scatter (projection_unit_simplex (firstn k (sort_desc x))) (snd (top_k x k)) (length x).
Proof.
  unfold projection_unit_sparse_simplex. pose proof (top_k_vals x k) as Hv.
  destruct (top_k x k) as [vals idxs]; simpl in *. subst vals.
  unfold projection_unit_simplex.
  rewrite (sort_sorted (firstn k (sort_desc x))) by (apply sorted_firstn, sort_desc_sorted). reflexivity.
Qed.

Lemma Forall_nth_nonneg q n : length q = n -> (forall i, (i < n)%nat -> 0 <= nth i q 0) -> Forall (Rle 0) q.
Proof.
  intros Hl H. apply Forall_forall. intros a Ha. destruct (In_nth _ _ 0 Ha) as (i & Hi & <-). apply H. lia.
Qed.

Lemma unit_sparse_optimal x k : (1 <= k <= length x)%nat ->
  sparse_simplex (length x) k 1 (projection_unit_sparse_simplex x k) /\
  forall q, sparse_simplex (length x) k 1 q -> dist2 x (projection_unit_sparse_simplex x k) <= dist2 x q.
Proof.
  intros Hk. rewrite unit_sparse_form.
  set (u := firstn k (sort_desc x)). set (idx := snd (top_k x k)). set (p := projection_unit_simplex u).
  assert (Hlu : length u = k) by (unfold u; rewrite firstn_length, sort_desc_length; lia).
  assert (Hu : u <> []) by (intros E; rewrite E in Hlu; simpl in Hlu; lia).
  assert (Hlidx : length idx = k).
  { unfold idx, top_k; simpl. rewrite map_length, firstn_length.
    rewrite <- (Permutation_length (sort_pairs_perm _)), combine_length, seq_length. lia. }
  assert (Hproj : is_projection (simplex k 1) u p).
  { pose proof (C06_simplex u 1 Hu ltac:(lra)) as H. rewrite Hlu in H.
    assert (E : projection_simplex u 1 = p).
    { unfold projection_simplex. rewrite smul_1.
      assert (E' : map (fun a => a / 1) u = u) by (rewrite <- (map_id u) at 2; apply map_ext; intros; field).
      rewrite E'. reflexivity. }
    rewrite E in H. exact H. }
  destruct Hproj as ((Hlp & Hp0 & Hps) & Hmin & _).
  assert (Hr : forall j, In j idx -> (j < length x)%nat) by (intros j; apply top_k_idx_range).
  assert (Hnd : NoDup idx) by apply top_k_idx_nodup.
  assert (Hxu : map (fun j => nth j x 0) idx = u) by (unfold idx, u; rewrite top_k_nth, top_k_vals; reflexivity).
  split.
  - split.
    + split; [apply scatter_length|]. split.
      * apply scatter_nonneg. apply (Forall_nth_nonneg p k Hlp Hp0).
      * rewrite scatter_sum by (auto; lia). exact Hps.
    + rewrite <- Hlidx. apply scatter_nnz.
  - intros q ((Hlq & Hq0 & Hqs) & Hqk).
    assert (Ed : forall y z, dist2 y z = dot y y - 2 * dot y z + dot z z) by (intros; vring).
    rewrite !Ed. rewrite dot_scatter by exact Hr. rewrite Hxu, scatter_sqnorm by (auto; lia).
    set (v := sort_desc q).
    assert (Hv0 : Forall (Rle 0) v) by (apply Forall_sort, (Forall_nth_nonneg q (length x) Hlq Hq0)).
    assert (Hvk : (nnz v <= k)%nat) by (unfold v; rewrite <- (nnz_perm _ _ (sort_desc_perm q)); exact Hqk).
    pose proof (sorted_tail_zero v k (sort_desc_sorted q) Hv0 Hvk) as Htail.
    pose proof (rearrangement x q ltac:(lia)) as Hre. fold v in Hre.
    rewrite (dot_firstn (sort_desc x) v k Htail) in Hre. fold u in Hre.
    rewrite (sqnorm_perm q v (sort_desc_perm q)), (dot_firstn v v k Htail).
    assert (Hsx : simplex k 1 (firstn k v)).
    { split; [|split].
      - rewrite firstn_length. unfold v. rewrite sort_desc_length. lia.
      - intros i Hi. rewrite Forall_forall in Hv0. apply Hv0.
        apply (in_firstn k). apply nth_In.
        rewrite firstn_length. unfold v. rewrite sort_desc_length. lia.
      - rewrite <- vsum_firstn by exact Htail. unfold v. rewrite <- (vsum_perm _ _ (sort_desc_perm q)). exact Hqs. }
    specialize (Hmin _ Hsx). rewrite !Ed in Hmin. lra.
Qed.

Lemma sparse_optimal x k value : (1 <= k <= length x)%nat -> 0 < value ->
  sparse_simplex (length x) k value (projection_sparse_simplex x k value) /\
  forall q, sparse_simplex (length x) k value q -> dist2 x (projection_sparse_simplex x k value) <= dist2 x q.
Proof.
  intros Hk Hv. unfold projection_sparse_simplex. set (y := map (fun a => a / value) x).
  assert (Hly : length y = length x) by apply map_length.
  assert (Ex : x = smul value y).
  { unfold y, smul. rewrite map_map. rewrite <- (map_id x) at 1. apply map_ext. intros; field; lra. }
  destruct (unit_sparse_optimal y k ltac:(lia)) as [((Hl & H0 & Hs) & Hn) Hmin].
  set (p := projection_unit_sparse_simplex y k) in *.
  assert (Hd : forall a b, dist2 (smul value a) (smul value b) = value * value * dist2 a b) by (intros; vring).
  split.
  - split; [split; [rewrite smul_length; lia|split]|].
    + intros i Hi. rewrite nth_smul. apply Rmult_le_pos; [lra|apply H0; lia].
    + rewrite vsum_smul, Hs. ring.
    + rewrite nnz_smul by lra. exact Hn.
  - intros q ((Hlq & Hq0 & Hqs) & Hqk).
    assert (Eq : q = smul value (smul (/ value) q)) by (rewrite smul_smul, Rinv_r, smul_1 by lra; reflexivity).
    rewrite Ex, Eq, !Hd. apply Rmult_le_compat_l; [nra|]. apply Hmin. split; [split; [|split]|].
    + rewrite smul_length; lia.
    + intros i Hi. rewrite nth_smul. apply Rmult_le_pos; [apply Rlt_le, Rinv_0_lt_compat, Hv|apply Hq0; lia].
    + rewrite vsum_smul, Hqs. field. lra.
    + rewrite nnz_smul; [exact Hqk|]. apply Rinv_neq_0_compat. lra.
Qed.
