(** Proofs about the duality of multiclass linear support vector machines. *)
From Coq Require Import Reals List Lra Lia Bool Arith.
From Verif Require Import Prelude Vec Mat Proj BoxSection Loss Objective SparseSimplex.
From Verif Require Import SimplexProofs SparseSimplexProofs ObjectiveProofs LossProofs BoxSectionProofs ObjectiveTheorems BlockCD BlockCDProofs CDConvergenceProofs SvmDual.
Import ListNotations.
Open Scope R_scope.

Lemma mdot_map_seq (g : nat -> vec) n W : length W = n ->
  mdot (map g (seq 0 n)) W = vsum (map (fun i => dot (g i) (nth i W [])) (seq 0 n)).
Proof.
  revert g W. induction n as [|n IH]; intros g [|w W] H; try discriminate; [reflexivity|].
  simpl. rewrite <- !seq_shift, !map_map. simpl in H. rewrite (IH (fun i => g (S i)) W) by lia. reflexivity.
Qed.
Lemma mmul_adjoint N p k X B W : mat_shape N p X -> mat_shape N k B -> mat_shape p k W ->
  mdot (mmul k (mtrans p X) B) W = mdot B (mmul k X W).
Proof.
  intros HX HB HW. rewrite (mdot_mmul N p k X B W HX (shape_length _ _ _ HB) HW).
  unfold mmul, mtrans. rewrite map_map. apply (mdot_map_seq (fun j => tvec k B (map (fun r => nth j r 0) X))). apply HW.
Qed.
Lemma msub_shape' m k A B : mat_shape m k A -> mat_shape m k B -> mat_shape m k (msub A B).
Proof.
  revert A B. induction m as [|m IH]; intros [|a A] [|b B] HA HB; try (destruct HA; discriminate); try (destruct HB; discriminate); [exact HA|].
  apply shape_cons in HA, HB. destruct HA as [Ha HA], HB as [Hb HB].
  change (mat_shape (S m) k (vadd a (smul (-1) b) :: msub A B)). apply shape_cons. split; [|apply IH; assumption].
  rewrite vadd_length, smul_length, Ha, Hb. apply Nat.max_id.
Qed.
Lemma msmul_shape' m k c A : mat_shape m k A -> mat_shape m k (msmul c A).
Proof.
  intros [H1 H2]. split; [unfold msmul; rewrite map_length; exact H1|]. unfold msmul. apply Forall_forall.
  intros r Hr. apply in_map_iff in Hr. destruct Hr as (q & <- & Hq). rewrite smul_length. apply (proj1 (Forall_forall _ _) H2). exact Hq.
Qed.
Lemma binarized_shape N k y : length y = N -> mat_shape N k (binarized k y).
Proof.
  intros H. unfold binarized. split; [rewrite map_length; exact H|]. apply Forall_forall. intros r Hr.
  apply in_map_iff in Hr. destruct Hr as (l & <- & _). apply one_hot_length.
Qed.
Lemma feasible_shape N k beta : svm_feasible N k beta -> mat_shape N k beta.
Proof. intros [H1 H2]. split; [exact H1|]. eapply Forall_impl; [|exact H2]. intros r Hr. apply Hr. Qed.

(** the vector whose maximum the hinge loss takes *)
Definition hscores (label : nat) (s : vec) : vec := vsub (map (fun a => a + 1) s) (one_hot label (length s)).
Lemma simplex_dot_le k b s c : simplex k 1 b -> length s = k -> (forall i, (i < k)%nat -> nth i s 0 <= c) -> dot b s <= c.
Proof.
  intros (H1 & H2 & H3) Hs Hc. replace c with (c * vsum b) by (rewrite H3; ring). clear H3.
  revert s k H1 H2 Hs Hc. induction b as [|a b IH]; intros s k H1 H2 Hs Hc.
  - simpl. lra.
  - destruct s as [|x s]; [simpl in *; subst; discriminate|]. simpl in H1, Hs. subst k.
    simpl. assert (dot b s <= c * vsum b).
    { apply (IH s (length b)); auto.
      - intros i Hi. apply (H2 (S i)). lia.
      - intros i Hi. apply (Hc (S i)). lia. }
    pose proof (H2 0%nat ltac:(lia)) as Ha. pose proof (Hc 0%nat ltac:(lia)) as Hx. simpl in Ha, Hx. nra.
Qed.
Lemma simplex_dot_hscores k b label s : simplex k 1 b -> length s = k -> dot b (hscores label s) <= vmax (hscores label s).
Proof.
  intros Hb Hs. assert (Hl : length (hscores label s) = k) by (unfold hscores; rewrite hinge_len; exact Hs).
  apply (simplex_dot_le k b _ _ Hb Hl). intros i Hi. apply vmax_ge. rewrite Hl. exact Hi.
Qed.
Lemma dot_hscores k b label s : simplex k 1 b -> length s = k ->
  dot b (hscores label s) = dot b s + 1 - dot b (one_hot label k).
Proof.
  intros (H1 & _ & H3) Hs. unfold hscores. rewrite Hs.
  rewrite (dot_comm b), dot_vsub_l, (dot_comm _ b), (dot_comm (one_hot label k)). rewrite <- H3 at 1.
  f_equal. clear H3. revert s k H1 Hs. induction b as [|a b IH]; intros [|x s] k H1 Hs; simpl in *; try lia; try lra.
  rewrite (IH s (length b)) by lia. lra.
Qed.

Section Gap.
Variables (N p k : nat) (l2reg : R) (X : mat) (y : list nat).
Hypothesis HX : mat_shape N p X.
Hypothesis Hy : length y = N.
Hypothesis Hr : 0 < l2reg.

(** the sum over the samples of max_j s_ij - <beta_i, s_i> *)
Definition slack (k : nat) (y : list nat) (S beta : mat) : R :=
  vsum (map (fun lsb => vmax (hscores (fst (fst lsb)) (snd (fst lsb))) - dot (snd lsb) (hscores (fst (fst lsb)) (snd (fst lsb))))
    (combine (combine y S) beta)).

Lemma slack_nonneg n lab Sc beta : length lab = n -> mat_shape n k Sc -> svm_feasible n k beta -> 0 <= slack k lab Sc beta.
Proof.
  revert lab Sc beta. induction n as [|n IH]; intros lab Sc beta H1 H2 H3.
  - destruct lab; [|discriminate]. unfold slack. simpl. lra.
  - destruct lab as [|l lab]; [discriminate|]. destruct Sc as [|s Sc]; [destruct H2; discriminate|]. destruct beta as [|b beta]; [destruct H3; discriminate|].
    apply shape_cons in H2. destruct H2 as [Hs H2], H3 as [H3 H4]. inversion H4; subst. unfold slack. simpl. fold (slack (length s) lab Sc beta).
    pose proof (simplex_dot_hscores _ b l s H5 eq_refl).
    assert (0 <= slack (length s) lab Sc beta) by (apply IH; [simpl in H1; lia|exact H2|split; [simpl in H3; lia|assumption]]). lra.
Qed.
Lemma slack_eq n lab Sc beta : length lab = n -> mat_shape n k Sc -> svm_feasible n k beta ->
  vsum (map (fun ls => multiclass_hinge_loss (fst ls) (snd ls)) (combine lab Sc))
  + mdot beta (map (map (fun a => a - 1)) (binarized k lab))
  = slack k lab Sc beta - mdot (msub (binarized k lab) beta) Sc.
Proof.
  revert lab Sc beta. induction n as [|n IH]; intros lab Sc beta H1 H2 H3.
  - destruct lab; [|discriminate]. destruct Sc; [|destruct H2; discriminate]. destruct beta; [|destruct H3; discriminate]. unfold slack. simpl. lra.
  - destruct lab as [|l lab]; [discriminate|]. destruct Sc as [|s Sc]; [destruct H2; discriminate|]. destruct beta as [|b beta]; [destruct H3; discriminate|].
    apply shape_cons in H2. destruct H2 as [Hs H2], H3 as [H3 H4]. inversion H4 as [|? ? Hb H4']. subst.
    assert (HI := IH lab Sc beta ltac:(simpl in H1; lia) H2 ltac:(split; [simpl in H3; lia|assumption])).
    unfold slack in *. cbn [combine map fst snd vsum binarized mdot].
    change (msub (one_hot l (length s) :: map (fun label => one_hot label (length s)) lab) (b :: beta))
      with (vadd (one_hot l (length s)) (smul (-1) b) :: msub (binarized (length s) lab) beta).
    rewrite <- vsub_as_vadd. cbn [mdot]. fold (binarized (length s) lab) in *.
    rewrite (dot_hscores (length s) b l s Hb eq_refl). unfold multiclass_hinge_loss at 1. fold (hscores l s).
    rewrite dot_vsub_l, (dot_comm s (one_hot l (length s))).
    assert (E : dot b (map (fun a => a - 1) (one_hot l (length s))) = dot b (one_hot l (length s)) - 1).
    { destruct Hb as (B1 & _ & B3). transitivity (dot b (one_hot l (length s)) - vsum b); [|rewrite B3; reflexivity]. assert (B4 : length (one_hot l (length s)) = length b) by (rewrite one_hot_length; lia).
      clear -B4. revert B4. generalize (one_hot l (length s)). induction b as [|a b IHb]; intros [|x o] B4; simpl in *; try lia; try lra.
      rewrite IHb by lia. lra. }
    rewrite E. lra.
Qed.

Lemma gap_identity W beta : mat_shape p k W -> svm_feasible N k beta ->
  svm_primal k l2reg X y W + svm_dual p k l2reg X y beta
  = slack k y (mmul k X W) beta + l2reg / 2 * mdot (msub W (svm_weights p k l2reg X y beta)) (msub W (svm_weights p k l2reg X y beta)).
Proof.
  intros HW Hb. pose proof (feasible_shape N k beta Hb) as HB. pose proof (binarized_shape N k y Hy) as HY.
  set (D := msub (binarized k y) beta).
  assert (HD : mat_shape N k D) by (apply msub_shape'; assumption).
  set (V := mmul k (mtrans p X) D).
  assert (HV : mat_shape p k V) by (apply (mmul_shape p k N); [apply mtrans_shape; apply HX|exact HD]).
  assert (EV : msub (mmul k (mtrans p X) (binarized k y)) (lo_matvec k (mtrans p X) beta) = V).
  { unfold V, D, lo_matvec. apply (mmul_msub p N k); auto. unfold mtrans. rewrite map_length, seq_length. reflexivity. }
  unfold svm_primal, svm_dual, comp_call. cbn [subfun linop linear_term multiclass_linear_svm_dual]. rewrite EV.
  pose proof (slack_eq N y (mmul k X W) beta Hy (mmul_shape N k p X W HX HW) Hb) as E.
  assert (EA : mdot D (mmul k X W) = mdot V W) by (unfold V; symmetry; apply (mmul_adjoint N p k); assumption).
  fold D in E. rewrite EA in E.
  unfold svm_weights. fold D. fold V.
  assert (HL : length W = length V) by (destruct HW, HV; congruence).
  rewrite mdot_msub_l, !mdot_msub_r, !mdot_msmul_l, !mdot_msmul_r by (unfold msmul; rewrite ?map_length; exact HL).
  rewrite (mdot_comm W V). set (h := vsum _) in *. set (q := mdot beta _) in *. set (sl := slack _ _ _ _) in *.
  replace (h + l2reg / 2 * mdot W W + (0.5 / l2reg * mdot V V + q)) with ((h + q) + l2reg / 2 * mdot W W + 0.5 / l2reg * mdot V V) by ring.
  rewrite E. replace 0.5 with (/ 2) by lra. field. lra.
Qed.
Lemma weights_shape beta : mat_shape N k beta -> mat_shape p k (svm_weights p k l2reg X y beta).
Proof.
  intros H. unfold svm_weights. apply msmul_shape'. apply (mmul_shape p k N); [apply mtrans_shape; apply HX|].
  apply msub_shape'; [apply binarized_shape; exact Hy|exact H].
Qed.
Lemma gap_at_weights beta : svm_feasible N k beta ->
  svm_primal k l2reg X y (svm_weights p k l2reg X y beta) + svm_dual p k l2reg X y beta
  = slack k y (mmul k X (svm_weights p k l2reg X y beta)) beta.
Proof.
  intros Hb. rewrite (gap_identity _ beta (weights_shape _ (feasible_shape N k beta Hb)) Hb).
  set (W := svm_weights _ _ _ _ _ _). rewrite mdot_msub_l, !mdot_msub_r by reflexivity. ring.
Qed.

(** rows that put all the mass on a maximal score *)
Lemma argmax_rows n lab Sc : (0 < k)%nat -> length lab = n -> mat_shape n k Sc ->
  exists gamma, svm_feasible n k gamma /\ slack k lab Sc gamma = 0.
Proof.
  intros Hk. revert lab Sc. induction n as [|n IH]; intros lab Sc H1 H2.
  - exists []. split; [split; [reflexivity|constructor]|]. destruct lab; [|discriminate]. reflexivity.
  - destruct lab as [|l lab]; [discriminate|]. destruct Sc as [|s Sc]; [destruct H2; discriminate|].
    apply shape_cons in H2. destruct H2 as [Hs H2]. destruct (IH lab Sc ltac:(simpl in H1; lia) H2) as (g & [G1 G2] & G3).
    assert (Hl : length (hscores l s) = k) by (unfold hscores; rewrite hinge_len; exact Hs).
    destruct (In_nth _ _ 0 (vmax_in (hscores l s) ltac:(intros C; rewrite C in Hl; simpl in Hl; lia))) as (j & Hj & Ej).
    exists (one_hot j k :: g). split.
    + split; [simpl; lia|]. constructor; [|exact G2]. apply one_hot_simplex. lia.
    + unfold slack in *. cbn [combine map fst snd vsum]. rewrite G3. rewrite <- Hl.
      rewrite dot_comm, dot_one_hot by exact Hj. rewrite Ej. ring.
Qed.

(** the segment between two feasible points *)
Definition mseg (t : R) (B G : mat) : mat := madd B (msmul t (msub G B)).
Lemma mseg_feasible n B G t : 0 <= t <= 1 -> svm_feasible n k B -> svm_feasible n k G -> svm_feasible n k (mseg t B G).
Proof.
  intros Ht. revert B G. induction n as [|n IH]; intros B G [B1 B2] [G1 G2].
  - destruct B; [|discriminate]. destruct G; [|discriminate]. split; [reflexivity|constructor].
  - destruct B as [|b B]; [discriminate|]. destruct G as [|g G]; [discriminate|]. inversion B2 as [|? ? Hb B2']. inversion G2 as [|? ? Hg G2']. subst.
    change (svm_feasible (S n) k (vadd b (smul t (vadd g (smul (-1) b))) :: mseg t B G)). rewrite <- vsub_as_vadd.
    destruct (IH B G ltac:(split; [simpl in B1; lia|assumption]) ltac:(split; [simpl in G1; lia|assumption])) as [H1 H2].
    split; [simpl; lia|]. constructor; [|exact H2].
    destruct Hb as (b1 & b2 & b3), Hg as (g1 & g2 & g3). split; [|split].
    + rewrite vadd_length, smul_length, vsub_length by congruence. rewrite b1, ?g1. rewrite !Nat.max_id; reflexivity.
    + intros i Hi. rewrite nth_vadd, nth_smul, nth_vsub. specialize (b2 i Hi). specialize (g2 i Hi).
      replace (nth i b 0 + t * (nth i g 0 - nth i b 0)) with ((1 - t) * nth i b 0 + t * nth i g 0) by ring.
      apply Rplus_le_le_0_compat; apply Rmult_le_pos; lra.
    + transitivity ((1 - t) * vsum b + t * vsum g); [|rewrite b3, g3; ring]. assert (E : length b = length g) by congruence. clear -E.
      revert g E. induction b as [|x b IHb]; intros [|z g] E; simpl in *; try lia; [ring|].
      change (x + t * (z - x) + vsum (vadd b (smul t (vsub g b))) = (1 - t) * (x + vsum b) + t * (z + vsum g)).
      rewrite IHb by lia. ring.
Qed.
Lemma mdot_mseg n t B G M : mat_shape n k B -> mat_shape n k G -> mdot (mseg t B G) M = (1 - t) * mdot B M + t * mdot G M.
Proof.
  intros [B1 _] [G1 _]. unfold mseg. rewrite mdot_madd_l by (rewrite msmul_length, msub_length, B1, G1, Nat.min_id; reflexivity).
  rewrite mdot_msmul_l, mdot_msub_l by congruence. ring.
Qed.
Lemma slack_mseg Sc B G t : mat_shape N k Sc -> 0 <= t <= 1 -> svm_feasible N k B -> svm_feasible N k G ->
  slack k y Sc (mseg t B G) = (1 - t) * slack k y Sc B + t * slack k y Sc G.
Proof.
  intros HS Ht HB HG. pose proof (mseg_feasible N B G t Ht HB HG) as HT.
  pose proof (slack_eq N y Sc B Hy HS HB) as E1. pose proof (slack_eq N y Sc G Hy HS HG) as E2. pose proof (slack_eq N y Sc _ Hy HS HT) as E3.
  pose proof (binarized_shape N k y Hy) as HY.
  pose proof (feasible_shape _ _ _ HB) as SB. pose proof (feasible_shape _ _ _ HG) as SG. pose proof (feasible_shape _ _ _ HT) as ST.
  rewrite mdot_msub_l in E1, E2, E3 by (destruct HY, SB, SG, ST; congruence).
  rewrite !(mdot_mseg N t B G _ SB SG) in E3. set (h := vsum _) in *. 
  assert (slack k y Sc (mseg t B G) = (1 - t) * (slack k y Sc B) + t * (slack k y Sc G)); [|assumption].
  replace (slack k y Sc B) with (h + mdot B (map (map (fun a => a - 1)) (binarized k y)) + (mdot (binarized k y) Sc - mdot B Sc)) by lra.
  replace (slack k y Sc G) with (h + mdot G (map (map (fun a => a - 1)) (binarized k y)) + (mdot (binarized k y) Sc - mdot G Sc)) by lra.
  lra.
Qed.
(** <W(beta) - W(gamma), M> = <gamma - beta, X M> / l2reg *)
Lemma weights_diff B G M : mat_shape N k B -> mat_shape N k G -> mat_shape p k M ->
  mdot (msub (svm_weights p k l2reg X y B) (svm_weights p k l2reg X y G)) M
  = / l2reg * (mdot G (mmul k X M) - mdot B (mmul k X M)).
Proof.
  intros HB HG HM. pose proof (weights_shape B HB) as [W1 _]. pose proof (weights_shape G HG) as [W2 _].
  pose proof (binarized_shape N k y Hy) as HY.
  rewrite mdot_msub_l by congruence. unfold svm_weights. rewrite !mdot_msmul_l.
  rewrite !(mmul_adjoint N p k) by (auto; apply msub_shape'; assumption).
  rewrite !mdot_msub_l by (destruct HY, HB, HG; congruence). ring.
Qed.
Lemma weights_mseg_sq B G t : 0 <= t <= 1 -> svm_feasible N k B -> svm_feasible N k G ->
  let W := svm_weights p k l2reg X y B in
  mdot (msub W (svm_weights p k l2reg X y (mseg t B G))) (msub W (svm_weights p k l2reg X y (mseg t B G)))
  = t * t * mdot (msub W (svm_weights p k l2reg X y G)) (msub W (svm_weights p k l2reg X y G)).
Proof.
  intros Ht HB HG W. pose proof (feasible_shape _ _ _ HB) as SB. pose proof (feasible_shape _ _ _ HG) as SG.
  pose proof (feasible_shape _ _ _ (mseg_feasible N B G t Ht HB HG)) as ST.
  set (Wt := svm_weights p k l2reg X y (mseg t B G)). set (Wg := svm_weights p k l2reg X y G).
  assert (K : forall M, mat_shape p k M -> mdot (msub W Wt) M = t * mdot (msub W Wg) M).
  { intros M HM. unfold W, Wt, Wg. rewrite !weights_diff by assumption. rewrite (mdot_mseg N t B G _ SB SG). ring. }
  assert (Ht' : mat_shape p k (msub W Wt)) by (apply msub_shape'; apply weights_shape; assumption).
  assert (Hg' : mat_shape p k (msub W Wg)) by (apply msub_shape'; apply weights_shape; assumption).
  rewrite (K _ Ht'), mdot_comm, (K _ Hg'). ring.
Qed.
Lemma optimal_gap beta : (0 < k)%nat -> svm_dual_optimal N p k l2reg X y beta ->
  slack k y (mmul k X (svm_weights p k l2reg X y beta)) beta = 0.
Proof.
  intros Hk [Hb Ho]. pose proof (feasible_shape _ _ _ Hb) as SB. set (W := svm_weights p k l2reg X y beta).
  assert (HW : mat_shape p k W) by (apply weights_shape; exact SB).
  assert (HS : mat_shape N k (mmul k X W)) by (apply (mmul_shape N k p); assumption).
  pose proof (slack_nonneg N y (mmul k X W) beta Hy HS Hb) as H0.
  destruct (argmax_rows N y (mmul k X W) Hk Hy HS) as (G & HG & EG).
  set (C := l2reg / 2 * mdot (msub W (svm_weights p k l2reg X y G)) (msub W (svm_weights p k l2reg X y G))).
  assert (HC : 0 <= C) by (apply Rmult_le_pos; [lra|apply mdot_self_nonneg]).
  assert (Hle : forall t, 0 < t <= 1 -> slack k y (mmul k X W) beta <= t * C).
  { intros t Ht. assert (Ht' : 0 <= t <= 1) by lra.
    pose proof (mseg_feasible N beta G t Ht' Hb HG) as HT. specialize (Ho _ HT).
    pose proof (gap_identity W _ HW HT) as E1. pose proof (gap_at_weights beta Hb) as E2. fold W in E2.
    rewrite (slack_mseg _ beta G t HS Ht' Hb HG), EG in E1.
    pose proof (weights_mseg_sq beta G t Ht' Hb HG) as E3. cbv zeta in E3. fold W in E3. rewrite E3 in E1.
    apply (Rmult_le_reg_l t); [lra|]. unfold C.
    replace (t * (t * (l2reg / 2 * mdot (msub W (svm_weights p k l2reg X y G)) (msub W (svm_weights p k l2reg X y G)))))
      with (l2reg / 2 * (t * t * mdot (msub W (svm_weights p k l2reg X y G)) (msub W (svm_weights p k l2reg X y G)))) by ring.
    lra. }
  destruct (Rle_lt_or_eq_dec _ _ H0) as [Hp|E]; [exfalso|lra].
  set (s := slack k y (mmul k X W) beta) in *.
  pose proof (Hle (Rmin 1 (s / (2 * (C + 1))))) as H. 
  assert (Hq : 0 < s / (2 * (C + 1))) by (apply Rdiv_lt_0_compat; lra).
  assert (Hm : 0 < Rmin 1 (s / (2 * (C + 1))) <= 1) by (split; [apply Rmin_glb_lt; lra|apply Rmin_l]).
  specialize (H Hm). assert (Rmin 1 (s / (2 * (C + 1))) * C <= s / (2 * (C + 1)) * C) by (apply Rmult_le_compat_r; [exact HC|apply Rmin_r]).
  assert (s / (2 * (C + 1)) * C <= s / 2).
  { replace (s / 2) with (s / (2 * (C + 1)) * (C + 1)) by (field; lra). apply Rmult_le_compat_l; lra. }
  lra.
Qed.
End Gap.

(** ** The residual of the projected gradient step bounds the slack *)
Section Residual.
Variables (N p k : nat) (l2reg : R) (X : mat) (y : list nat).
Hypothesis HX : mat_shape N p X.
Hypothesis Hy : length y = N.
Hypothesis Hr : 0 < l2reg.
Let f := multiclass_linear_svm_dual p k l2reg X (binarized k y).

Lemma grad_is_scores beta i : mat_shape N k beta -> (i < N)%nat ->
  full_grad_block k f beta i
  = smul (-1) (hscores (nth i y 0%nat) (nth i (mmul k X (svm_weights p k l2reg X y beta)) [])).
Proof.
  intros HB Hi. pose proof (binarized_shape N k y Hy) as HY.
  pose proof (weights_shape N p k l2reg X y HX Hy beta HB) as HW.
  set (W := svm_weights p k l2reg X y beta) in *.
  assert (HS : mat_shape N k (mmul k X W)) by (apply (mmul_shape N k p); assumption).
  pose proof (nth_shape N k _ i HS Hi) as Hsi.
  assert (Es : nth i (mmul k X W) [] = tvec k W (nth i X [])).
  { unfold mmul. rewrite (nth_indep _ [] ((fun r => tvec k W r) [])) by (rewrite map_length; destruct HX; lia). apply (map_nth (fun r => tvec k W r)). }
  assert (Eb : nth i (map (map (fun a => a - 1)) (binarized k y)) [] = map (fun a => a - 1) (one_hot (nth i y 0%nat) k)).
  { unfold binarized. rewrite map_map.
    rewrite (nth_indep _ [] ((fun l => map (fun a => a - 1) (one_hot l k)) 0%nat)) by (rewrite map_length; lia).
    apply (map_nth (fun l => map (fun a => a - 1) (one_hot l k))). }
  unfold full_grad_block, lo_rmatvec_element, lo_matvec. cbn [f linop linear_term grad_subfun multiclass_linear_svm_dual].
  unfold f. cbn [linop linear_term grad_subfun multiclass_linear_svm_dual].
  rewrite (col_mtrans N p X i HX Hi).
  match goal with |- vadd _ ?b = _ => replace b with (map (fun a => a - 1) (one_hot (nth i y 0%nat) k)) by (symmetry; exact Eb) end.
  assert (Hlm : forall M, length M = N -> mat_shape N k M -> mat_shape p k (mmul k (mtrans p X) M)).
  { intros M _ HM. apply (mmul_shape p k N); [apply mtrans_shape; apply HX|exact HM]. }
  set (GM := msmul (/ l2reg) (msub (mmul k (mtrans p X) beta) (mmul k (mtrans p X) (binarized k y)))).
  assert (HGM : mat_shape p k GM).
  { apply msmul_shape', msub_shape'; apply Hlm; (apply HB || apply HY || assumption). }
  assert (Ht : length (tvec k GM (nth i X [])) = k) by (apply (tvec_length p); exact HGM).
  assert (Hh : length (hscores (nth i y 0%nat) (nth i (mmul k X W) [])) = k) by (unfold hscores; rewrite hinge_len; exact Hsi).
  apply vec_eq_dot.
  - rewrite vadd_length, smul_length, Ht, map_length, one_hot_length, Hh. apply Nat.max_id.
  - intros w. rewrite dot_vadd_l, dot_smul_l. rewrite <- (mdot_outer k GM).
    unfold GM. rewrite mdot_msmul_l, mdot_msub_l by (unfold mmul; rewrite !map_length; reflexivity).
    unfold hscores. rewrite Hsi, dot_vsub_l, Es.
    assert (Em : forall s, length s = k -> dot (map (fun a => a + 1) s) w - dot s w = dot (map (fun _ => 1) (seq 0 k)) w).
    { intros s E. rewrite <- E. clear. revert w. generalize 0%nat. induction s as [|a s IH]; intros o [|b w]; simpl; try lra. specialize (IH (S o) w). lra. }
    assert (Ez : forall s, length s = k -> dot (map (fun a => a - 1) s) w = dot s w - dot (map (fun _ => 1) (seq 0 k)) w).
    { intros s E. rewrite <- E. clear. revert w. generalize 0%nat. induction s as [|a s IH]; intros o [|b w]; simpl; try lra.
      rewrite (IH (S o) w). lra. }
    rewrite Ez by apply one_hot_length.
    assert (Htw : length (tvec k W (nth i X [])) = k) by (rewrite <- Es; exact Hsi). specialize (Em _ Htw).
    assert (Ed : dot (tvec k W (nth i X [])) w = / l2reg * (mdot (mmul k (mtrans p X) (binarized k y)) (outer (nth i X []) w) - mdot (mmul k (mtrans p X) beta) (outer (nth i X []) w))).
    { rewrite <- (mdot_outer k W). unfold W, svm_weights. rewrite mdot_msmul_l. f_equal.
      rewrite <- (mmul_msub p N k (mtrans p X)) by (auto; unfold mtrans; rewrite map_length, seq_length; reflexivity).
      apply mdot_msub_l. unfold mmul. rewrite !map_length. reflexivity. }
    lra.
Qed.

Lemma slack_seq n lab Sc beta : length lab = n -> length Sc = n -> length beta = n ->
  slack k lab Sc beta = vsum (map (fun i => vmax (hscores (nth i lab 0%nat) (nth i Sc [])) - dot (nth i beta []) (hscores (nth i lab 0%nat) (nth i Sc []))) (seq 0 n)).
Proof.
  clear. revert lab Sc beta. induction n as [|n IH]; intros [|l lab] [|s Sc] [|b beta] H1 H2 H3; try discriminate; [reflexivity|].
  unfold slack. cbn [combine map fst snd vsum]. fold (slack k lab Sc beta). rewrite (IH lab Sc beta) by (simpl in *; lia).
  simpl. rewrite <- seq_shift, map_map. reflexivity.
Qed.
Lemma simplex_diameter j b : (j < k)%nat -> simplex k 1 b -> norm2 (vsub (one_hot j k) b) <= sqrt 2.
Proof.
  clear. intros Hj (H1 & H2 & H3). unfold norm2. apply sqrt_le_1_alt.
  assert (Hs : dot b b <= 1).
  { apply (simplex_dot_le k b b 1); [split; [|split]; assumption|exact H1|]. intros i Hi.
    destruct (Rle_dec (nth i b 0) 1) as [H|H]; [exact H|exfalso].
    assert (Hg : nth i b 0 <= vsum b); [|lra]. clear H H3 Hj. subst k. revert i Hi. induction b as [|a b IH]; intros [|i] Hi; simpl in *; try lia.
    - assert (0 <= vsum b); [|lra]. assert (H0 : forall i, (i < length b)%nat -> 0 <= nth i b 0) by (intros q Hq; apply (H2 (S q)); lia).
      clear -H0. induction b as [|a b IH]; simpl; [lra|]. assert (0 <= vsum b) by (apply IH; intros q Hq; apply (H0 (S q)); simpl; lia).
      pose proof (H0 0%nat ltac:(simpl; lia)) as Ha. simpl in Ha. lra.
    - assert (nth i b 0 <= vsum b) by (apply IH; [intros q Hq; apply (H2 (S q)); lia|lia]).
      pose proof (H2 0%nat ltac:(lia)) as Ha. simpl in Ha. lra. }
  pose proof (one_hot_sq j k Hj) as E1. assert (E2 : dot b (one_hot j k) = nth j b 0) by (rewrite <- H1; apply dot_one_hot; lia).
  specialize (H2 j Hj). autorewrite with vec. rewrite E1, (dot_comm (one_hot j k)), E2. lra.
Qed.
Lemma residual_row b g h : (0 < k)%nat -> simplex k 1 b -> length h = k -> g = smul (-1) h ->
  vmax h - dot b h <= norm2 (vsub (projection_simplex (vsub b g) 1) b) * (norm2 g + sqrt 2).
Proof.
  clear. intros Hk Hb Hh Eg.
  assert (Hl : length (vsub b g) = k) by (rewrite vsub_length, Eg, smul_length, Hh; destruct Hb as (-> & _); apply Nat.max_id).
  assert (Hne : vsub b g <> []) by (intros C; rewrite C in Hl; simpl in Hl; lia).
  destruct (simplex_vi (vsub b g) 1 Hne ltac:(lra)) as [_ Hvi]. rewrite Hl in Hvi. set (z := projection_simplex (vsub b g) 1) in *.
  destruct (In_nth _ _ 0 (vmax_in h ltac:(intros C; rewrite C in Hh; simpl in Hh; lia))) as (j & Hj & Ej).
  rewrite Hh in Hj. specialize (Hvi (one_hot j k) (one_hot_simplex j k Hj)).
  assert (Eh : dot h (one_hot j k) = vmax h) by (rewrite <- Ej, <- Hh; apply dot_one_hot; lia).
  set (r := vsub z b). set (d := vsub (one_hot j k) b).
  assert (E : dot (vsub (vsub b g) z) (vsub (one_hot j k) z) = dot h d - dot h r - dot r d + dot r r).
  { unfold r, d. rewrite Eg. vring. }
  assert (Ed : dot h d = vmax h - dot b h) by (unfold d; rewrite (dot_comm h), dot_vsub_l, (dot_comm _ h), Eh; reflexivity).
  pose proof (dot_le_norm h r) as C1. pose proof (dot_le_norm r d) as C2. pose proof (dot_self_nonneg r) as C3.
  pose proof (simplex_diameter j b Hj Hb) as C4. fold d in C4.
  assert (Eng : norm2 g = norm2 h). { rewrite Eg, norm2_smul. rewrite Rabs_left by lra. ring. }
  rewrite Eng. assert (norm2 r * norm2 d <= norm2 r * sqrt 2) by (apply Rmult_le_compat_l; [apply norm2_nonneg|exact C4]).
  lra.
Qed.
End Residual.
