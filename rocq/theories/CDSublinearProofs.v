From Coq Require Import Reals List Lra Lia Bool Arith.
From Verif Require QuasiNewtonProofs.
From Verif Require Import Prelude Vec Mat Proj ProjProofs Prox ProxProofs Loss LossProofs Run ProxGrad ProxGradProofs ProxGradTheorems QuasiNewton QuasiNewtonProofs CDQP CDQPProofs CDQPTheorems Objective ObjectiveProofs ObjectiveTheorems BlockCD BlockCDProofs BlockCDTheorems OptError OptErrorProofs CDConvergence CDConvergenceProofs CDConvergenceTheorems SimplexTheorems SparseSimplex SparseSimplexProofs SvmDual SvmDualProofs CDSublinear.
Import ListNotations.
Open Scope R_scope.

(** One step of the recursion d'^2 <= K (d - d'). *)
Lemma rate_step K A t d d' : 0 <= K -> 2 * K <= A -> 0 <= A -> (0 < d' -> d' * d' <= K * (d - d')) ->
  d <= A / INR (S t) -> d' <= A / INR (S (S t)).
Proof.
  intros HK HA HA0 Hd Hle. rewrite !S_INR in *. set (s := INR t) in *. assert (Hs : 0 <= s) by apply pos_INR.
  assert (Hb0 : 0 <= A / (s + 1 + 1)) by (apply Rmult_le_pos; [exact HA0|left; apply Rinv_0_lt_compat; lra]).
  destruct (Rle_or_lt d' (A / (s + 1 + 1))) as [Hok|Hbad]; [exact Hok|exfalso].
  assert (Hp : 0 < d') by lra. specialize (Hd Hp). set (b := A / (s + 1 + 1)) in *.
  assert (Eb : A = b * (s + 1 + 1)) by (unfold b; field; lra).
  assert (Hd1 : d * (s + 1) <= A).
  { apply (Rmult_le_compat_r (s + 1)) in Hle; [|lra]. replace (A / (s + 1) * (s + 1)) with A in Hle by (field; lra). exact Hle. }
  assert (K * (d * (s + 1)) <= K * A) by (apply Rmult_le_compat_l; assumption).
  assert (d' * d' * (s + 1) <= K * (d - d') * (s + 1)) by (apply Rmult_le_compat_r; lra).
  (* d'^2 (s+1) <= K A - K d' (s+1) < K b (s+2) - K b (s+1) = K b *)
  assert (K * b * (s + 1) <= K * d' * (s + 1)) by (apply Rmult_le_compat_r; [lra|apply Rmult_le_compat_l; lra]).
  assert (H3 : d' * d' * (s + 1) <= K * b) by (rewrite Eb in H; lra).
  assert (H4 : 2 * K * b <= b * b * (s + 1 + 1)) by (replace (b * b * (s + 1 + 1)) with (A * b) by (rewrite Eb; ring); apply Rmult_le_compat_r; assumption).
  assert (H5 : b * b < d' * d') by (apply Rmult_le_0_lt_compat; assumption).
  assert (H6 : b * b * (s + 1) < d' * d' * (s + 1)) by (apply Rmult_lt_compat_r; lra).
  assert (0 <= b * b * s) by (apply Rmult_le_pos; [apply Rmult_le_pos|]; assumption).
  lra.
Qed.
(** d <= S / (2 mu) + mu / 2 R2 for every mu gives d^2 <= S R2. *)
Lemma optimise_mu d S R2 : 0 < d -> 0 <= S -> 0 <= R2 -> (forall mu, 0 < mu -> d <= S / (2 * mu) + mu / 2 * R2) -> d * d <= S * R2.
Proof.
  intros Hd HS HR H. apply le_epsilon. intros eps He.
  set (e := eps / (S + 1)). assert (He' : 0 < e) by (apply Rdiv_lt_0_compat; lra).
  specialize (H (d / (R2 + e)) ltac:(apply Rdiv_lt_0_compat; lra)).
  assert (E : S / (2 * (d / (R2 + e))) = S * (R2 + e) / (2 * d)) by (field; lra). rewrite E in H.
  assert (E2 : d / (R2 + e) / 2 * R2 <= d / 2).
  { replace (d / (R2 + e) / 2 * R2) with (d / 2 * (R2 / (R2 + e))) by (field; lra). rewrite <- (Rmult_1_r (d / 2)) at 2.
    apply Rmult_le_compat_l; [lra|]. apply (Rmult_le_reg_r (R2 + e)); [lra|]. unfold Rdiv. rewrite Rmult_assoc, Rinv_l by lra. lra. }
  assert (H1 : d / 2 <= S * (R2 + e) / (2 * d)) by lra. apply (Rmult_le_compat_r (2 * d)) in H1; [|lra].
  replace (S * (R2 + e) / (2 * d) * (2 * d)) with (S * R2 + S * e) in H1 by (field; lra).
  assert (S * e <= eps). { unfold e. replace (S * (eps / (S + 1))) with (eps * (S / (S + 1))) by (field; lra). rewrite <- (Rmult_1_r eps) at 2.
    apply Rmult_le_compat_l; [lra|]. apply (Rmult_le_reg_r (S + 1)); [lra|]. unfold Rdiv. rewrite Rmult_assoc, Rinv_l by lra. lra. }
  lra.
Qed.

Section Blocks.
Variables (m n k : nat) (f : composite) (D : vec -> Prop) (r : vec -> R) (prox : vec -> R -> vec) (h Lmax Lf : R).
Hypothesis HP : bcd_problem m n k f D r prox.
Hypothesis Hcv : mconvex m k (subfun f) (grad_subfun f).
Hypothesis HLip : bcd_lipschitz n k Lf f.
Hypothesis Hh : 0 < h.
Hypothesis Hcol : forall i, (i < n)%nat -> h <= nth i (columnwise f) 0 <= Lmax.
Notation F := (bcd_objective k f r).
Let Hs : bcd_shapes m n k f := proj1 HP.
Let HL : forall i, (i < n)%nat -> 0 < nth i (columnwise f) 0 := proj1 (proj2 HP).
Let Hpl := problem_pl m n k f D r prox HP.
Lemma convex_lower X Z C : mat_shape n k X -> mat_shape n k Z -> blocks_in D Z -> 
  (forall i, (i < n)%nat -> forall z, D z -> r (nth i X []) + dot (vsub (C i) (full_grad_block k f X i)) (vsub z (nth i X [])) <= r z) ->
  F X + vsum (map (fun i => dot (C i) (vsub (nth i Z []) (nth i X []))) (seq 0 n)) <= F Z.
Proof.
  intros HX HZ HD HC. pose proof (comp_convex m n k f X Z Hs Hcv HX HZ) as A. unfold bcd_objective.
  rewrite (vsum_map_nth r n X (shape_length n k X HX)), (vsum_map_nth r n Z (shape_length n k Z HZ)).
  assert (B : vsum (map (fun i => r (nth i X []) + (dot (C i) (vsub (nth i Z []) (nth i X [])) + -1 * dot (full_grad_block k f X i) (vsub (nth i Z []) (nth i X [])))) (seq 0 n)) <= vsum (map (fun i => r (nth i Z [])) (seq 0 n))).
  { apply vsum_map_le. intros i Hi. apply in_seq in Hi. specialize (HC i ltac:(lia) (nth i Z []) (blocks_nth D Z i HD ltac:(rewrite (shape_length n k Z HZ); lia))). rewrite dot_vsub_l in HC. lra. }
  rewrite !vsum_map_plus, vsum_map_scal in B. lra.
Qed.
Lemma epoch_sq X Z R2 : mat_shape n k X -> mat_shape n k Z -> blocks_in D Z ->
  let X' := Bk k f prox X n in fdist2 Z X' <= R2 -> 0 < F X' - F Z ->
  (F X' - F Z) * (F X' - F Z) <= 2 * (Lmax * Lmax + INR n * (Lf * Lf)) * fdist2 X' X * R2.
Proof.
  intros HX HZ HDZ X' HR Hd. pose proof (Bk_shape m n k f prox Hs Hpl HL X n HX (le_n n)) as H1. fold X' in H1.
  pose proof HP as (_ & _ & Hv & Hc & Hp).
  pose proof (convex_lower X' Z (cert n k f prox X) H1 HZ HDZ (fun i Hi z Hz => cert_subgrad m n k f D r prox HP X i z HX Hi Hz)) as A.
  pose proof (cert_bound m n k f D r prox Lmax Lf HP HLip (fun i Hi => proj2 (Hcol i Hi)) X HX) as B. fold X' in B.
  assert (Y : forall mu, 0 < mu -> - vsum (map (fun i => dot (cert n k f prox X i) (vsub (nth i Z []) (nth i X' []))) (seq 0 n)) <=
    vsum (map (fun i => sqnorm (cert n k f prox X i)) (seq 0 n)) / (2 * mu) + mu / 2 * fdist2 Z X').
  { intros mu Hmu. rewrite (fdist_sum n k Z X' HZ H1). unfold Rdiv at 1. rewrite Rmult_comm with (r1 := vsum (map (fun i => sqnorm _) _)). rewrite <- (vsum_map_scal (/ (2 * mu))), <- (vsum_map_scal (mu / 2)), <- vsum_map_plus.
    replace (- vsum (map (fun i => dot (cert n k f prox X i) (vsub (nth i Z []) (nth i X' []))) (seq 0 n))) with (-1 * vsum (map (fun i => dot (cert n k f prox X i) (vsub (nth i Z []) (nth i X' []))) (seq 0 n))) by ring.
    rewrite <- vsum_map_scal. apply vsum_map_le. intros i _. pose proof (young mu (smul (-1) (cert n k f prox X i)) (vsub (nth i Z []) (nth i X' [])) Hmu) as Y.
    assert (E1 : forall a b : vec, dot (smul (-1) a) b = -1 * dot a b) by (intros; vring). assert (E2 : forall a : vec, dot (smul (-1) a) (smul (-1) a) = dot a a) by (intros; vring).
    rewrite E1, E2 in Y. unfold sqnorm. lra. }
  set (S := vsum (map (fun i => sqnorm (cert n k f prox X i)) (seq 0 n))) in *.
  assert (S0 : 0 <= S).
  { unfold S. clear. induction (seq 0 n) as [|i l IH]; simpl; [lra|]. apply Rplus_le_le_0_compat; [apply dot_self_nonneg|exact IH]. }
  assert (R0 : 0 <= R2) by (eapply Rle_trans; [apply mdot_self_nonneg|exact HR]).
  assert (G : (F X' - F Z) * (F X' - F Z) <= S * R2).
  { apply optimise_mu; try assumption. intros mu Hmu. specialize (Y mu Hmu). assert (mu / 2 * fdist2 Z X' <= mu / 2 * R2) by (apply Rmult_le_compat_l; lra). lra. }
  eapply Rle_trans; [exact G|]. apply Rmult_le_compat_r; assumption.
Qed.
Lemma C_nonneg : 0 <= 2 * (Lmax * Lmax + INR n * (Lf * Lf)).
Proof. assert (0 <= Lmax * Lmax) by apply Rle_0_sqr. assert (0 <= INR n * (Lf * Lf)) by (apply Rmult_le_pos; [apply pos_INR|apply Rle_0_sqr]). lra. Qed.
Lemma epoch_gap_convex X Z R2 : mat_shape n k X -> blocks_in D X -> mat_shape n k Z -> blocks_in D Z ->
  let X' := Bk k f prox X n in fdist2 Z X' <= R2 -> 0 < F X' - F Z ->
  (F X' - F Z) * (F X' - F Z) <= bcd_rate_const n h Lmax Lf R2 * (F X - F X').
Proof.
  intros HX HDX HZ HDZ X' HR Hd. pose proof HP as (_ & _ & Hv & Hc & Hp).
  eapply Rle_trans; [apply (epoch_sq X Z R2 HX HZ HDZ HR Hd)|]. fold X'.
  pose proof (epoch_descent_b m n k f prox Hs Hpl HL D r Hc Hp Hv X h n HX HDX (le_n n) (fun i Hi => proj1 (Hcol i Hi))) as Dc. fold X' in Dc. fold (fdist2 X' X) in Dc.
  assert (R0 : 0 <= R2) by (eapply Rle_trans; [apply mdot_self_nonneg|exact HR]).
  unfold bcd_rate_const. pose proof C_nonneg as C0. set (C := 2 * (Lmax * Lmax + INR n * (Lf * Lf))) in *.
  replace (4 * (Lmax * Lmax + INR n * (Lf * Lf)) / h * R2 * (F X - F X')) with (C * (2 / h * (F X - F X')) * R2) by (unfold C; field; lra).
  apply Rmult_le_compat_r; [exact R0|]. apply Rmult_le_compat_l; [exact C0|]. apply (Rmult_le_reg_l (h / 2)); [lra|]. replace (h / 2 * (2 / h * (F X - F X'))) with (F X - F X') by (field; lra). lra.
Qed.
(** suboptimality from the error reported by an epoch *)
Lemma epoch_posterior X Z R2 : mat_shape n k X -> mat_shape n k Z -> blocks_in D Z ->
  let X' := Bk k f prox X n in fdist2 Z X' <= R2 ->
  F X' - F Z <= bcd_constant n Lmax Lf * sqrt R2 * sqrt (fdist2 X' X).
Proof.
  intros HX HZ HDZ X' HR. assert (R0 : 0 <= R2) by (eapply Rle_trans; [apply mdot_self_nonneg|exact HR]).
  assert (D0 : 0 <= fdist2 X' X) by apply mdot_self_nonneg.
  destruct (Rle_or_lt (F X' - F Z) 0) as [Hn|Hd].
  - eapply Rle_trans; [exact Hn|]. unfold bcd_constant. repeat apply Rmult_le_pos; apply sqrt_pos.
  - pose proof (epoch_sq X Z R2 HX HZ HDZ HR Hd) as H. fold X' in H. unfold bcd_constant. pose proof C_nonneg as C0. set (C := 2 * (Lmax * Lmax + INR n * (Lf * Lf))) in *.
    rewrite <- sqrt_mult by assumption. rewrite <- sqrt_mult by (try apply Rmult_le_pos; assumption).
    rewrite <- (sqrt_Rsqr (F X' - F Z)) by lra. apply sqrt_le_1_alt. unfold Rsqr. lra.
Qed.
Lemma bcd_rate_const_nonneg R2 : 0 <= R2 -> 0 <= bcd_rate_const n h Lmax Lf R2.
Proof.
  intros HR. unfold bcd_rate_const. apply Rmult_le_pos; [|exact HR]. apply Rmult_le_pos; [|left; apply Rinv_0_lt_compat; exact Hh].
  assert (0 <= Lmax * Lmax) by apply Rle_0_sqr. assert (0 <= INR n * (Lf * Lf)) by (apply Rmult_le_pos; [apply pos_INR|apply Rle_0_sqr]). lra.
Qed.
End Blocks.

Section Box.
Variables (Q : mat) (c l u : vec) (n : nat) (h M : R).
Hypothesis HPq : qp_problem Q c l u n.
Hypothesis Hpsd : pos_semidef n Q.
Hypothesis Hh : 0 < h.
Hypothesis Hdiag : forall i, (i < n)%nat -> h <= entry Q i i.
Hypothesis HM : forall i j, (i < n)%nat -> (j < n)%nat -> Rabs (entry Q i j) <= M.
Lemma epoch_gap_psd x z : in_box l u x -> in_box l u z ->
  let x' := Xk Q c l u x n in 0 < qp_objective Q c x' - qp_objective Q c z ->
  (qp_objective Q c x' - qp_objective Q c z) * (qp_objective Q c x' - qp_objective Q c z) <= cdqp_rate_const n h M l u * (qp_objective Q c x - qp_objective Q c x').
Proof.
  intros Hin Hz x' Hd. pose proof (in_box_length Q c l u n HPq x Hin) as Hx. pose proof (in_box_length Q c l u n HPq z Hz) as Hzl.
  assert (Hx' : length x' = n) by (apply (Xk_length Q c l u n HPq x Hx n); lia).
  pose proof (epoch_suboptimality Q c l u n HPq x M z Hx (fun i Hi => Rlt_le_trans _ _ _ Hh (Hdiag i Hi)) HM Hpsd Hz) as A. fold x' in A.
  pose proof (epoch_box Q c l u n HPq x Hx) as Hb. fold x' in Hb.
  pose proof HPq as (_ & _ & _ & Hll & Hul & _ & Hlu).
  assert (N : norm1 (vsub z x') <= norm1 (vsub u l)).
  { apply norm1_le_coords; [rewrite !vsub_length; lia|]. intros i Hi. rewrite !nth_vsub. rewrite vsub_length, Hzl, Hx', Nat.max_id in Hi.
    destruct Hz as [_ Hz]. destruct Hb as [_ Hb]. specialize (Hz i ltac:(lia)). specialize (Hb i ltac:(lia)). specialize (Hlu i ltac:(lia)).
    rewrite (Rabs_right (nth i u 0 - nth i l 0)) by lra. apply Rabs_le. lra. }
  set (E := Ek Q c l u x n) in *.
  assert (E0 : 0 <= E) by (unfold E; rewrite (Ek_norm1 Q c l u n HPq x Hx n (le_n n)); apply norm1_nonneg).
  assert (M0 : 0 <= M \/ n = 0%nat).
  { destruct n as [|n0]; [right; reflexivity|left]. eapply Rle_trans; [apply Rabs_pos|apply (HM 0%nat 0%nat); lia]. }
  pose proof (norm1_sq (vsub x' x)) as N1. rewrite (vsub_len n) in N1 by assumption. unfold x' in N1 at 1 2. rewrite <- (Ek_norm1 Q c l u n HPq x Hx n (le_n n)) in N1. fold E in N1.
  pose proof (epoch_descent Q c l u n HPq x Hx Hin h n (le_n n) Hdiag) as Dc. fold x' in Dc. unfold dist2, sqnorm in Dc. set (q := dot (vsub x' x) (vsub x' x)) in *.
  set (d := qp_objective Q c x' - qp_objective Q c z) in *. set (g := qp_objective Q c x - qp_objective Q c x') in *.
  pose proof (norm1_nonneg (vsub z x')) as N0. set (w := norm1 (vsub u l)) in *.
  destruct M0 as [M0|En].
  - assert (B : d <= M * E * w). { unfold d. assert (M * E * norm1 (vsub z x') <= M * E * w) by (apply Rmult_le_compat_l; [apply Rmult_le_pos; assumption|exact N]). lra. }
    assert (B2 : d * d <= (M * E * w) * (M * E * w)) by (apply Rmult_le_compat; lra).
    eapply Rle_trans; [exact B2|]. unfold cdqp_rate_const. fold w.
    replace (M * E * w * (M * E * w)) with (M * M * (w * w) * (E * E)) by ring.
    replace (2 * INR n * (M * M) / h * (w * w) * g) with (M * M * (w * w) * (INR n * (2 / h * g))) by (field; lra).
    apply Rmult_le_compat_l; [apply Rmult_le_pos; apply Rle_0_sqr|]. eapply Rle_trans; [exact N1|]. apply Rmult_le_compat_l; [apply pos_INR|].
    apply (Rmult_le_reg_l (h / 2)); [lra|]. replace (h / 2 * (2 / h * g)) with g by (field; lra). unfold g. lra.
  - exfalso. rewrite En in *. destruct x'; [|discriminate]. destruct z; [|discriminate]. unfold d in Hd. lra.
Qed.
Lemma cdqp_rate_const_nonneg : 0 <= cdqp_rate_const n h M l u.
Proof.
  unfold cdqp_rate_const. apply Rmult_le_pos; [|apply Rle_0_sqr]. apply Rmult_le_pos; [|left; apply Rinv_0_lt_compat; exact Hh].
  apply Rmult_le_pos; [|apply Rle_0_sqr]. apply Rmult_le_pos; [lra|apply pos_INR].
Qed.
End Box.

(** ** Auxiliary bounds *)
Lemma entries_bounded (Q : mat) n : length Q = n -> exists M, 0 <= M /\ forall i j, (i < n)%nat -> (j < n)%nat -> Rabs (entry Q i j) <= M.
Proof.
  intros HQ. exists (vsum (map norm1 Q)). split.
  - apply vsum_nonneg, Forall_forall. intros a Ha. apply in_map_iff in Ha. destruct Ha as (b & <- & _). apply norm1_nonneg.
  - intros i j Hi _. rewrite <- HQ in Hi. unfold entry. clear -Hi. revert i Hi. induction Q as [|r Q' IH]; intros [|i] Hi; simpl in *; try lia.
    + pose proof (norm1_coord r j). assert (0 <= vsum (map norm1 Q')); [|lra]. apply vsum_nonneg, Forall_forall. intros a Ha. apply in_map_iff in Ha. destruct Ha as (b & <- & _). apply norm1_nonneg.
    + specialize (IH i ltac:(lia)). pose proof (norm1_nonneg r). lra.
Qed.
Lemma positive_bounds (g : nat -> R) n : (forall i, (i < n)%nat -> 0 < g i) -> exists h H, 0 < h /\ forall i, (i < n)%nat -> h <= g i <= H.
Proof.
  induction n as [|n0 IH]; intros Hpos; [exists 1, 1; split; [lra|intros; lia]|].
  destruct IH as (h & H & Hh & Hle); [intros i Hi; apply Hpos; lia|]. exists (Rmin h (g n0)), (Rmax H (g n0)). split; [apply Rmin_glb_lt; [exact Hh|apply Hpos; lia]|].
  intros i Hi. destruct (Nat.eq_dec i n0) as [->|Hne]; [split; [apply Rmin_r|apply Rmax_r]|]. destruct (Hle i ltac:(lia)). split; [eapply Rle_trans; [apply Rmin_l|]; assumption|eapply Rle_trans; [|apply Rmax_l]; assumption].
Qed.
Lemma iterate_state Q c l u x1 t a b : fst (Nat.iter t (cd_update Q c l u) (x1, a)) = fst (Nat.iter t (cd_update Q c l u) (x1, b)).
Proof.
  induction t as [|t IH]; [reflexivity|]. rewrite !iter_S. destruct (Nat.iter t (cd_update Q c l u) (x1, a)) as [y sa]. destruct (Nat.iter t (cd_update Q c l u) (x1, b)) as [y' sb].
  cbn [fst] in IH. subst y'. unfold cd_update. destruct (cd_epoch Q c l u y). reflexivity.
Qed.
Lemma iterate_first Q c l u n x0 t : qp_problem Q c l u n -> length x0 = n ->
  cdqp_iterate Q c l u x0 (S t) = cdqp_iterate Q c l u (Xk Q c l u x0 n) t.
Proof.
  intros HP Hx. unfold cdqp_iterate. rewrite iter_S_r. unfold cd_update at 2. rewrite (cd_epoch_Xk Q c l u n x0 Hx). apply iterate_state.
Qed.
Lemma dot_le_norm1_sq v : dot v v <= norm1 v * norm1 v.
Proof.
  unfold norm1. induction v as [|a v IH]; [simpl; lra|]. cbn [map vsum dot].
  pose proof (norm1_nonneg v) as Hn. unfold norm1 in Hn. set (t := vsum (map Rabs v)) in *.
  assert (Ha : Rabs a * Rabs a = a * a) by (rewrite <- Rabs_mult, Rabs_right; [reflexivity|apply Rle_ge, Rle_0_sqr]). pose proof (Rabs_pos a).
  assert (0 <= Rabs a * t) by (apply Rmult_le_pos; assumption). replace ((Rabs a + t) * (Rabs a + t)) with (Rabs a * Rabs a + 2 * (Rabs a * t) + t * t) by ring. rewrite Ha. lra.
Qed.
Lemma mdot_le_norm1_sq (X : mat) : 0 <= vsum (map norm1 X) /\ mdot X X <= vsum (map norm1 X) * vsum (map norm1 X).
Proof.
  induction X as [|x X [H0 IH]]; [unfold mdot; simpl; lra|]. unfold mdot in *. simpl. pose proof (dot_le_norm1_sq x). pose proof (norm1_nonneg x) as Hx.
  set (s := vsum (map norm1 X)) in *. set (a := norm1 x) in *. split; [lra|]. assert (0 <= a * s) by (apply Rmult_le_pos; assumption).
  replace ((a + s) * (a + s)) with (a * a + 2 * (a * s) + s * s) by ring. lra.
Qed.
Lemma fdist_parallelogram n k X Z : mat_shape n k X -> mat_shape n k Z -> fdist2 Z X <= 2 * mdot Z Z + 2 * mdot X X.
Proof.
  intros HX HZ. rewrite (fdist_sum n k Z X HZ HX), (mdot_seq n Z Z), (mdot_seq n X X) by (apply (shape_length n k); assumption).
  rewrite <- !vsum_map_scal, <- vsum_map_plus. apply vsum_map_le. intros i _. pose proof (dot_self_nonneg (vadd (nth i Z []) (nth i X []))) as H.
  unfold sqnorm. rewrite !dot_vadd_l, !dot_vadd_r in H. rewrite !dot_vsub_l, !dot_vsub_r. lra.
Qed.

Lemma svm_bcd_problem N p k l2reg X y : mat_shape N p X -> length y = N -> 1 <= l2reg -> (0 < k)%nat ->
  (forall i, (i < N)%nat -> nth i X [] <> vzero p) ->
  let f := multiclass_linear_svm_dual p k l2reg X (binarized k y) in
  bcd_problem p N k f (simplex k 1) (fun _ => 0) (fun v s => make_prox_from_projection projection_simplex v 1 s).
Proof.
  intros HX Hy Hr Hk HX0 f. set (prox := fun v s => make_prox_from_projection projection_simplex v 1 s).
  pose proof (binarized_shape N k y Hy) as HY.
  destruct (C32_svm_dual N p k l2reg X (binarized k y) HX HY ltac:(lra)) as (Hconv & _ & Hval). fold f in Hconv, Hval. specialize (Hval Hr).
  destruct (svm_shapes N p k l2reg X (binarized k y) HX HY) as [S1 S2]. fold f in S1, S2.
   split; [|split; [|split; [exact Hval|split]]].
    - split; [exact S1|]. split; [|split; [exact S2|]].
      + intros P HPs. unfold f. simpl. apply msmul_shape', msub_shape'; [exact HPs|]. apply (mmul_shape p k N); [apply mtrans_shape; apply HX|exact HY].
      + unfold f. simpl. unfold lo_column_sq_norms. rewrite map_length, seq_length. apply HX.
    - intros i Hi. unfold f. rewrite (svm_col N p k l2reg X _ HX i Hi).
      apply (QuasiNewtonProofs.sqnorm_pos p); [apply (nth_shape N p X i HX Hi)|apply HX0, Hi].
    - split; [intros x Hx; apply Hx|]. intros x z a (x1 & x2 & x3) (z1 & z2 & z3) Ha. split; [|lra]. split; [|split].
      + rewrite vadd_length, !smul_length, x1, z1. apply Nat.max_id.
      + intros i Hi. rewrite nth_vadd, !nth_smul. specialize (x2 i Hi). specialize (z2 i Hi).
        apply Rplus_le_le_0_compat; apply Rmult_le_pos; lra.
      + transitivity ((1 - a) * vsum x + a * vsum z); [|rewrite x3, z3; ring].
        assert (E : length x = length z) by congruence. clear -E. revert z E.
        induction x as [|u x IH]; intros [|w z] E; simpl in *; try lia; [ring|]. rewrite IH by lia. ring.
    - intros v s Hv Hs. unfold in_dim in Hv. assert (Hne : v <> []) by (intros C; rewrite C in Hv; simpl in Hv; lia).
      pose proof (C06_simplex v 1 Hne ltac:(lra)) as (P1 & P2 & P3). rewrite Hv in *.
      unfold prox, make_prox_from_projection. split; [exact P1|]. intros z Hz. apply Rplus_le_compat_l. unfold Rdiv.
      apply Rmult_le_compat_r; [left; apply Rinv_0_lt_compat; lra|]. rewrite (dist2_comm _ v), (dist2_comm z v). apply P2. exact Hz.
Qed.
Lemma feasible_sq N k B : svm_feasible N k B -> mdot B B <= INR N.
Proof.
  intros [H1 H2]. subst N. induction B as [|b B IH]; [unfold mdot; simpl; lra|]. inversion H2 as [|? ? Hb HB]; subst. specialize (IH HB).
  unfold mdot in *. cbn [length]. rewrite S_INR. simpl. assert (dot b b <= 1); [|lra].
  destruct Hb as (Hl & Hn & Hsum). eapply Rle_trans; [apply dot_le_norm1_sq|].
  assert (E : norm1 b = 1).
  { rewrite <- Hsum. rewrite <- Hl in Hn. clear -Hn. unfold norm1. induction b as [|a b IH]; [reflexivity|]. simpl. rewrite IH by (intros i Hi; apply (Hn (S i)); simpl; lia).
    rewrite Rabs_right; [reflexivity|]. apply Rle_ge, (Hn 0%nat). simpl. lia. }
  rewrite E. lra.
Qed.
Lemma mdot_young mu A B : 0 < mu -> mdot A B <= mdot A A / (2 * mu) + mu / 2 * mdot B B.
Proof.
  intros Hm. revert B. induction A as [|a A IH]; intros B.
  - unfold mdot at 1 2. simpl. pose proof (mdot_self_nonneg B). assert (0 <= mu / 2 * mdot B B) by (apply Rmult_le_pos; lra). unfold Rdiv at 1. lra.
  - destruct B as [|b B].
    + change (mdot (a :: A) []) with 0. change (mdot [] []) with 0. pose proof (mdot_self_nonneg (a :: A)). assert (0 <= mdot (a :: A) (a :: A) / (2 * mu)) by (apply Rmult_le_pos; [assumption|left; apply Rinv_0_lt_compat; lra]). lra.
    + specialize (IH B). pose proof (young mu a b Hm). unfold mdot in *. simpl. unfold Rdiv in *. lra.
Qed.
(** A dual point whose objective is within delta of every other has a duality gap of at most
    delta / s + s * C for every s in (0, 1]. *)
Lemma near_optimal_gap N p k l2reg X y beta delta s : mat_shape N p X -> length y = N -> 0 < l2reg -> (0 < k)%nat ->
  svm_feasible N k beta -> (forall gamma, svm_feasible N k gamma -> svm_dual p k l2reg X y beta - svm_dual p k l2reg X y gamma <= delta) ->
  0 < s <= 1 ->
  svm_primal k l2reg X y (svm_weights p k l2reg X y beta) + svm_dual p k l2reg X y beta <= delta / s + s * (2 * INR N * (mdot X X + 1) / l2reg).
Proof.
  intros HX Hy Hr Hk Hb Ho Ht. pose proof (feasible_shape _ _ _ Hb) as SB. set (W := svm_weights p k l2reg X y beta).
  assert (HW : mat_shape p k W) by (apply (weights_shape N p k l2reg X y HX Hy); exact SB).
  assert (HS : mat_shape N k (mmul k X W)) by (apply (mmul_shape N k p); assumption).
  destruct (argmax_rows N k y Hy N y (mmul k X W) Hk Hy HS) as (G & HG & EG).
  pose proof (weights_shape N p k l2reg X y HX Hy G (feasible_shape _ _ _ HG)) as HWG.
  set (M := msub W (svm_weights p k l2reg X y G)).
  assert (HM : mat_shape p k M) by (apply msub_shape'; assumption).
  assert (HC : l2reg / 2 * mdot M M <= 2 * INR N * (mdot X X + 1) / l2reg).
  { pose proof (weights_diff N p k l2reg X y HX Hy beta G M SB (feasible_shape _ _ _ HG) HM) as E. fold W M in E.
    pose proof (mmul_frob k X M) as F1. pose proof (mdot_self_nonneg M) as M0. pose proof (mdot_self_nonneg X) as X0.
    assert (E2 : mdot G (mmul k X M) - mdot beta (mmul k X M) = mdot (msub G beta) (mmul k X M)).
    { rewrite mdot_msub_l by (rewrite (proj1 HG), (proj1 Hb); reflexivity). reflexivity. }
    rewrite E2 in E.
    assert (F2 : fdist2 G beta <= 4 * INR N).
    { pose proof (fdist_parallelogram N k beta G SB (feasible_shape _ _ _ HG)). pose proof (feasible_sq N k beta Hb). pose proof (feasible_sq N k G HG). lra. }
    unfold fdist2 in F2. set (xx := mdot X X) in *.
    pose proof (mdot_young (l2reg / (xx + 1)) (msub G beta) (mmul k X M) ltac:(apply Rdiv_lt_0_compat; lra)) as Y.
    set (q := mdot M M) in *. set (g := mdot (msub G beta) (msub G beta)) in *. set (w := mdot (mmul k X M) (mmul k X M)) in *.
    set (v := mdot (msub G beta) (mmul k X M)) in *.
    assert (Ev : v = l2reg * q) by (rewrite E; field; lra).
    assert (Y1 : l2reg / (xx + 1) / 2 * w <= l2reg / 2 * q).
    { apply Rle_trans with (l2reg / (xx + 1) / 2 * ((xx + 1) * q)).
      - apply Rmult_le_compat_l; [left; apply Rdiv_lt_0_compat; [apply Rdiv_lt_0_compat; lra|lra]|]. lra.
      - right. field. lra. }
    assert (Y2 : g / (2 * (l2reg / (xx + 1))) <= 2 * INR N * (xx + 1) / l2reg).
    { replace (g / (2 * (l2reg / (xx + 1)))) with (g * ((xx + 1) / (2 * l2reg))) by (field; lra).
      replace (2 * INR N * (xx + 1) / l2reg) with (4 * INR N * ((xx + 1) / (2 * l2reg))) by (field; lra).
      apply Rmult_le_compat_r; [left; apply Rdiv_lt_0_compat; lra|exact F2]. }
    lra. }
  assert (Ht' : 0 <= s <= 1) by lra.
  pose proof (mseg_feasible N p k X y HX Hy N beta G s Ht' Hb HG) as HT. specialize (Ho _ HT).
  pose proof (gap_identity N p k l2reg X y HX Hy Hr W _ HW HT) as E1. pose proof (gap_at_weights N p k l2reg X y HX Hy Hr beta Hb) as E2. fold W in E2.
  rewrite (slack_mseg N p k X y HX Hy _ beta G s HS Ht' Hb HG), EG in E1.
  pose proof (weights_mseg_sq N p k l2reg X y HX Hy beta G s Ht' Hb HG) as E3. cbv zeta in E3. fold W in E3. fold M in E3. rewrite E3 in E1.
  rewrite E2. set (sl := slack k y (mmul k X W) beta) in *. set (q := mdot M M) in *.
  apply (Rmult_le_reg_l s); [lra|]. replace (s * (delta / s + s * (2 * INR N * (mdot X X + 1) / l2reg))) with (delta + s * s * (2 * INR N * (mdot X X + 1) / l2reg)) by (field; lra).
  assert (s * s * (l2reg / 2 * q) <= s * s * (2 * INR N * (mdot X X + 1) / l2reg)) by (apply Rmult_le_compat_l; [apply Rle_0_sqr|exact HC]).
  lra.
Qed.
