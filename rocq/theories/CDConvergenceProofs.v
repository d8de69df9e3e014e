From Coq Require Import Reals List Lra Lia Bool Arith.
From Verif Require Import Prelude Vec Mat Proj ProjProofs Prox ProxProofs Loss LossProofs Run ProxGrad ProxGradProofs ProxGradTheorems QuasiNewton QuasiNewtonProofs CDQP CDQPProofs CDQPTheorems Objective ObjectiveProofs ObjectiveTheorems BlockCD BlockCDProofs BlockCDTheorems OptError OptErrorProofs CDConvergence.
Import ListNotations.
Open Scope R_scope.

Lemma factor_step kappa d d' : 0 <= kappa -> d' <= kappa * (d - d') -> d' <= cd_factor kappa * d.
Proof.
  intros Hk H. unfold cd_factor. apply (Rmult_le_reg_l (1 + kappa)); [lra|].
  replace ((1 + kappa) * (kappa / (1 + kappa) * d)) with (kappa * d) by (field; lra). lra.
Qed.
Lemma factor_range kappa : 0 <= kappa -> 0 <= cd_factor kappa < 1.
Proof.
  intros Hk. unfold cd_factor. split.
  - apply Rmult_le_pos; [exact Hk|]. left. apply Rinv_0_lt_compat. lra.
  - apply (Rmult_lt_reg_r (1 + kappa)); [lra|]. unfold Rdiv. rewrite Rmult_assoc, Rinv_l by lra. lra.
Qed.
Lemma young mu (a b : vec) : 0 < mu -> dot a b <= dot a a / (2 * mu) + mu / 2 * dot b b.
Proof.
  intros Hm. pose proof (dot_self_nonneg (vsub a (smul mu b))) as H.
  assert (E : dot (vsub a (smul mu b)) (vsub a (smul mu b)) = dot a a - 2 * mu * dot a b + mu * mu * dot b b) by vring.
  rewrite E in H. apply (Rmult_le_reg_l (2 * mu)); [lra|].
  replace (2 * mu * (dot a a / (2 * mu) + mu / 2 * dot b b)) with (dot a a + mu * mu * dot b b) by (field; lra). lra.
Qed.

(** ** BoxCDQP *)
Section Box.
Variables (Q : mat) (c l u : vec) (n : nat) (mu M : R).
Hypothesis HPq : qp_problem Q c l u n.
Hypothesis HS : qp_strongly_convex n mu Q.
Hypothesis HM : forall i j, (i < n)%nat -> (j < n)%nat -> Rabs (entry Q i j) <= M.
Lemma diag_ge i : (i < n)%nat -> mu <= entry Q i i.
Proof.
  intros Hi. pose proof HPq as (HQ & _). pose proof (proj2 HS (unit_vec n i) (unit_vec_length n i)) as A. rewrite dot_unit_self in A by exact Hi.
  rewrite dot_unit_vec, nth_mvec, dot_unit_r in A; try exact Hi; [|apply (row_length n n Q i HQ Hi)|rewrite mvec_length; apply HQ].
  unfold entry. lra.
Qed.
Lemma qp_gap x z : length x = n -> length z = n ->
  qp_objective Q c x + dot (grad Q c x) (vsub z x) + mu / 2 * dot (vsub z x) (vsub z x) <= qp_objective Q c z.
Proof.
  intros Hx Hz. assert (Ez : z = vadd x (vsub z x)).
  { apply vec_ext; [rewrite vadd_length, vsub_length; lia|]. intros i Hi. rewrite nth_vadd, nth_vsub. ring. }
  assert (Hd : length (vsub z x) = n) by (apply vsub_len; assumption).
  replace (qp_objective Q c z) with (qp_objective Q c (vadd x (vsub z x))) by (rewrite <- Ez; reflexivity). rewrite (objective_shift Q c l u n HPq x (vsub z x) Hx Hd). pose proof (proj2 HS _ Hd). lra.
Qed.
Lemma epoch_gap x z : in_box l u x -> in_box l u z ->
  let x' := Xk Q c l u x n in
  qp_objective Q c x' - qp_objective Q c z <= cdqp_kappa n mu M * (qp_objective Q c x - qp_objective Q c x').
Proof.
  intros Hin Hz x'. pose proof (in_box_length Q c l u n HPq x Hin) as Hx. pose proof (in_box_length Q c l u n HPq z Hz) as Hzl. pose proof (proj1 HS) as Hmu.
  assert (Hx' : length x' = n) by (apply (Xk_length Q c l u n HPq x Hx n); lia).
  destruct (cd_certificate Q c l u n HPq x M Hx) as (gp & Hgp & G1 & G2); [intros i Hi; pose proof (diag_ge i Hi); lra|exact HM|].
  cbv zeta in G1, G2. fold x' in G1, G2. set (E := Ek Q c l u x n) in *.
  pose proof (qp_gap x' z Hx' Hzl) as A.
  assert (P0 : 0 <= dot gp (vsub z x')).
  { apply dot_nonneg_coords. intros i Hi _. rewrite nth_vsub. rewrite Hgp in Hi. apply G1; [exact Hi|]. apply Hz. lia. }
  set (w := vsub (grad Q c x') gp). assert (Hgl : length (grad Q c x') = n) by apply (grad_length Q c l u n HPq).
  pose proof (young mu (smul (-1) w) (vsub z x') Hmu) as Y.
  assert (E1 : dot (smul (-1) w) (vsub z x') = dot gp (vsub z x') - dot (grad Q c x') (vsub z x')) by (unfold w; vring).
  assert (E2 : dot (smul (-1) w) (smul (-1) w) = dot w w) by vring. rewrite E1, E2 in Y.
  assert (E0 : 0 <= E) by (unfold E; rewrite (Ek_norm1 Q c l u n HPq x Hx n (le_n n)); apply norm1_nonneg).
  assert (W : dot w w <= INR n * ((M * E) * (M * E))).
  { assert (Hwl : length w = n) by (unfold w; apply vsub_len; assumption). destruct n as [|n0] eqn:En; [destruct w; [simpl; lra|discriminate]|]. rewrite <- En in *.
    assert (ME : 0 <= M * E) by (eapply Rle_trans; [apply Rabs_pos|apply (G2 0%nat); lia]).
    assert (N : norm2 w <= sqrt (INR (length w)) * (M * E)).
    { apply norm_le_sqrt; [exact ME|]. intros i Hi. unfold w. rewrite nth_vsub. apply G2. lia. }
    rewrite Hwl in N. rewrite <- norm_mul_sq. replace (INR n * (M * E * (M * E))) with ((sqrt (INR n) * (M * E)) * (sqrt (INR n) * (M * E))).
    - apply Rmult_le_compat; try apply norm_nonneg; exact N.
    - replace (sqrt (INR n) * (M * E) * (sqrt (INR n) * (M * E))) with (sqrt (INR n) * sqrt (INR n) * (M * E * (M * E))) by ring. rewrite sqrt_sqrt by apply pos_INR. reflexivity. }
  pose proof (norm1_sq (vsub x' x)) as N1. rewrite (vsub_len n) in N1 by assumption. unfold x' in N1 at 1 2. rewrite <- (Ek_norm1 Q c l u n HPq x Hx n (le_n n)) in N1. fold E in N1.
  pose proof (epoch_descent Q c l u n HPq x Hx Hin mu n (le_n n) diag_ge) as Dc. fold x' in Dc. unfold dist2, sqnorm in Dc. set (q := dot (vsub x' x) (vsub x' x)) in *.
  assert (W2 : dot w w <= (INR n * M) * (INR n * M) * q).
  { eapply Rle_trans; [exact W|]. replace (INR n * (M * E * (M * E))) with (INR n * (M * M) * (E * E)) by ring. replace (INR n * M * (INR n * M) * q) with (INR n * (M * M) * (INR n * q)) by ring.
    apply Rmult_le_compat_l; [|exact N1]. apply Rmult_le_pos; [apply pos_INR|apply Rle_0_sqr]. }
  assert (F1 : qp_objective Q c x' - qp_objective Q c z <= dot w w / (2 * mu)) by lra.
  eapply Rle_trans; [exact F1|]. unfold cdqp_kappa. set (t := INR n * M) in *.
  assert (T : t * t * q <= t * t * (2 / mu * (qp_objective Q c x - qp_objective Q c x'))).
  { apply Rmult_le_compat_l; [apply Rle_0_sqr|]. apply (Rmult_le_reg_l (mu / 2)); [lra|].
    replace (mu / 2 * (2 / mu * (qp_objective Q c x - qp_objective Q c x'))) with (qp_objective Q c x - qp_objective Q c x') by (field; lra). lra. }
  apply (Rmult_le_reg_l (2 * mu)); [lra|]. replace (2 * mu * (dot w w / (2 * mu))) with (dot w w) by (field; lra).
  replace (2 * mu * (t / mu * (t / mu) * (qp_objective Q c x - qp_objective Q c x'))) with (t * t * (2 / mu * (qp_objective Q c x - qp_objective Q c x'))) by (field; lra). lra.
Qed.
Lemma kappa_nonneg : 0 <= cdqp_kappa n mu M.
Proof. apply Rle_0_sqr. Qed.
End Box.

(** ** BlockCoordinateDescent *)
Section Blocks.
Variables (m n k : nat) (f : composite) (D : vec -> Prop) (r : vec -> R) (prox : vec -> R -> vec) (mu h Lmax Lf : R).
Hypothesis HP : bcd_problem m n k f D r prox.
Hypothesis HS : bcd_strongly_convex n k mu f.
Hypothesis HLip : bcd_lipschitz n k Lf f.
Hypothesis Hh : 0 < h.
Hypothesis Hcol : forall i, (i < n)%nat -> h <= nth i (columnwise f) 0 <= Lmax.
Notation F := (bcd_objective k f r).
Let Hs : bcd_shapes m n k f := proj1 HP.
Let HL : forall i, (i < n)%nat -> 0 < nth i (columnwise f) 0 := proj1 (proj2 HP).
Let Hpl := problem_pl m n k f D r prox HP.
Lemma bcd_kappa_nonneg : 0 <= bcd_kappa n mu h Lmax Lf.
Proof.
  unfold bcd_kappa. pose proof (proj1 HS). apply Rmult_le_pos.
  - assert (0 <= Lmax * Lmax) by apply Rle_0_sqr. assert (0 <= INR n * (Lf * Lf)) by (apply Rmult_le_pos; [apply pos_INR|apply Rle_0_sqr]). lra.
  - left. apply Rinv_0_lt_compat. apply Rmult_lt_0_compat; lra.
Qed.
Lemma bcd_strong_lower X Z C : mat_shape n k X -> mat_shape n k Z -> blocks_in D Z -> 
  (forall i, (i < n)%nat -> forall z, D z -> r (nth i X []) + dot (vsub (C i) (full_grad_block k f X i)) (vsub z (nth i X [])) <= r z) ->
  F X + vsum (map (fun i => dot (C i) (vsub (nth i Z []) (nth i X []))) (seq 0 n)) + mu / 2 * fdist2 Z X <= F Z.
Proof.
  intros HX HZ HD HC. pose proof (proj2 HS X Z HX HZ) as A. unfold bcd_objective.
  rewrite (vsum_map_nth r n X (shape_length n k X HX)), (vsum_map_nth r n Z (shape_length n k Z HZ)).
  assert (B : vsum (map (fun i => r (nth i X []) + (dot (C i) (vsub (nth i Z []) (nth i X [])) + -1 * dot (full_grad_block k f X i) (vsub (nth i Z []) (nth i X [])))) (seq 0 n)) <= vsum (map (fun i => r (nth i Z [])) (seq 0 n))).
  { apply vsum_map_le. intros i Hi. apply in_seq in Hi. specialize (HC i ltac:(lia) (nth i Z []) (blocks_nth D Z i HD ltac:(rewrite (shape_length n k Z HZ); lia))). rewrite dot_vsub_l in HC. lra. }
  rewrite !vsum_map_plus, vsum_map_scal in B. lra.
Qed.
Lemma bcd_epoch_gap X Z : mat_shape n k X -> blocks_in D X -> mat_shape n k Z -> blocks_in D Z ->
  let X' := Bk k f prox X n in F X' - F Z <= bcd_kappa n mu h Lmax Lf * (F X - F X').
Proof.
  intros HX HDX HZ HDZ X'. pose proof (Bk_shape m n k f prox Hs Hpl HL X n HX (le_n n)) as H1. fold X' in H1. pose proof (proj1 HS) as Hmu.
  pose proof HP as (_ & _ & Hv & Hc & Hp).
  pose proof (bcd_strong_lower X' Z (cert n k f prox X) H1 HZ HDZ (fun i Hi z Hz => cert_subgrad m n k f D r prox HP X i z HX Hi Hz)) as A.
  pose proof (cert_bound m n k f D r prox Lmax Lf HP HLip (fun i Hi => proj2 (Hcol i Hi)) X HX) as B. fold X' in B.
  pose proof (epoch_descent_b m n k f prox Hs Hpl HL D r Hc Hp Hv X h n HX HDX (le_n n) (fun i Hi => proj1 (Hcol i Hi))) as Dc. fold X' in Dc. fold (fdist2 X' X) in Dc.
  assert (Y : - vsum (map (fun i => dot (cert n k f prox X i) (vsub (nth i Z []) (nth i X' []))) (seq 0 n)) <=
    vsum (map (fun i => sqnorm (cert n k f prox X i)) (seq 0 n)) / (2 * mu) + mu / 2 * fdist2 Z X').
  { rewrite (fdist_sum n k Z X' HZ H1). unfold Rdiv at 1. rewrite Rmult_comm with (r1 := vsum (map (fun i => sqnorm _) _)). rewrite <- (vsum_map_scal (/ (2 * mu))), <- (vsum_map_scal (mu / 2)), <- vsum_map_plus.
    replace (- vsum (map (fun i => dot (cert n k f prox X i) (vsub (nth i Z []) (nth i X' []))) (seq 0 n))) with (-1 * vsum (map (fun i => dot (cert n k f prox X i) (vsub (nth i Z []) (nth i X' []))) (seq 0 n))) by ring.
    rewrite <- vsum_map_scal. apply vsum_map_le. intros i _. pose proof (young mu (smul (-1) (cert n k f prox X i)) (vsub (nth i Z []) (nth i X' [])) Hmu) as Y.
    assert (E1 : forall a b : vec, dot (smul (-1) a) b = -1 * dot a b) by (intros; vring). assert (E2 : forall a : vec, dot (smul (-1) a) (smul (-1) a) = dot a a) by (intros; vring).
    rewrite E1, E2 in Y. unfold sqnorm. lra. }
  set (S := vsum (map (fun i => sqnorm (cert n k f prox X i)) (seq 0 n))) in *. unfold bcd_kappa. set (C := 2 * (Lmax * Lmax + INR n * (Lf * Lf))) in *.
  assert (C0 : 0 <= C).
  { unfold C. assert (0 <= Lmax * Lmax) by apply Rle_0_sqr. assert (0 <= INR n * (Lf * Lf)) by (apply Rmult_le_pos; [apply pos_INR|apply Rle_0_sqr]). lra. }
  assert (T : C * fdist2 X' X <= C * (2 / h * (F X - F X'))).
  { apply Rmult_le_compat_l; [exact C0|]. apply (Rmult_le_reg_l (h / 2)); [lra|]. replace (h / 2 * (2 / h * (F X - F X'))) with (F X - F X') by (field; lra). lra. }
  assert (F1 : F X' - F Z <= S / (2 * mu)) by lra. eapply Rle_trans; [exact F1|]. apply (Rmult_le_reg_l (2 * mu)); [lra|].
  replace (2 * mu * (S / (2 * mu))) with S by (field; lra). replace (2 * mu * (C / (mu * h) * (F X - F X'))) with (C * (2 / h * (F X - F X'))) by (field; lra). lra.
Qed.
End Blocks.

(** ** Instances: strongly convex functions of an injective linear map *)
Lemma tvec_msub n k W V a : mat_shape n k W -> mat_shape n k V -> tvec k (msub W V) a = vsub (tvec k W a) (tvec k V a).
Proof.
  revert W V a. induction n as [|n IH]; intros [|w W] [|v V] a HW HV; try (destruct HW; discriminate); try (destruct HV; discriminate).
  - destruct a; simpl; rewrite vsub_self; unfold vzero; rewrite repeat_length; reflexivity.
  - apply shape_cons in HW. destruct HW as [Hw HW]. apply shape_cons in HV. destruct HV as [Hv HV].
    destruct a as [|x a]; [simpl; rewrite vsub_self; unfold vzero; rewrite repeat_length; reflexivity|].
    change (tvec k (msub (w :: W) (v :: V)) (x :: a)) with (vadd (smul x (vadd w (smul (-1) v))) (tvec k (msub W V) a)).
    rewrite (IH W V a HW HV). rewrite !tvec_cons. pose proof (tvec_length n k W a HW). pose proof (tvec_length n k V a HV).
    apply vec_ext; [rewrite ?vadd_length, ?vsub_length, ?smul_length, ?vadd_length, ?vsub_length, ?smul_length; lia|].
    intros i Hi. repeat (rewrite nth_vadd || rewrite nth_vsub || rewrite nth_smul). ring.
Qed.
Lemma mmul_msub m n k A W V : mat_shape n k W -> mat_shape n k V -> length A = m -> msub (mmul k A W) (mmul k A V) = mmul k A (msub W V).
Proof.
  intros HW HV _. unfold mmul. induction A as [|a A IH]; [reflexivity|]. simpl. rewrite (tvec_msub n k W V a HW HV), <- IH. unfold msub, madd, msmul. simpl. rewrite vsub_as_vadd. reflexivity.
Qed.
Lemma mvec_frob G v : dot (mvec G v) (mvec G v) <= mdot G G * dot v v.
Proof.
  induction G as [|g G IH]; [simpl; lra|]. assert (E : mdot (g :: G) (g :: G) = dot g g + mdot G G) by reflexivity. rewrite E. cbn [mvec map dot]. fold (mvec G v).
  pose proof (cauchy_schwarz_sq g v). lra.
Qed.
Lemma tvec_frob k G a : dot (tvec k G a) (tvec k G a) <= dot a a * mdot G G.
Proof.
  set (t := tvec k G a). assert (E : dot t t = dot a (mvec G t)) by (unfold t at 1; apply dot_tvec).
  pose proof (cauchy_schwarz_sq a (mvec G t)) as C. rewrite <- E in C. pose proof (mvec_frob G t) as B. pose proof (dot_self_nonneg t) as T. pose proof (dot_self_nonneg a) as A0.
  destruct (Req_dec (dot t t) 0) as [Z|Z]; [rewrite Z; apply Rmult_le_pos; [exact A0|apply mdot_self_nonneg]|].
  apply (Rmult_le_reg_r (dot t t)); [lra|]. eapply Rle_trans; [exact C|]. rewrite Rmult_assoc. apply Rmult_le_compat_l; assumption.
Qed.
Lemma mmul_frob k A W : mdot (mmul k A W) (mmul k A W) <= mdot A A * mdot W W.
Proof.
  induction A as [|a A IH]; [unfold mdot; simpl; lra|].
  change (mdot (mmul k (a :: A) W) (mmul k (a :: A) W)) with (dot (tvec k W a) (tvec k W a) + mdot (mmul k A W) (mmul k A W)). change (mdot (a :: A) (a :: A)) with (dot a a + mdot A A).
  pose proof (tvec_frob k W a). lra.
Qed.
Lemma col_frob i A : dot (col i A) (col i A) <= mdot A A.
Proof.
  induction A as [|a A IH]; [unfold mdot; simpl; lra|]. change (mdot (a :: A) (a :: A)) with (dot a a + mdot A A). cbn [col map dot]. fold (col i A).
  assert (nth i a 0 * nth i a 0 <= dot a a); [|lra]. clear. revert i. induction a as [|x a IH]; intros [|i]; simpl; try lra; pose proof (Rle_0_sqr x); unfold Rsqr in *; [pose proof (dot_self_nonneg a); lra|specialize (IH i); lra].
Qed.
Lemma comp_lipschitz m n k f c : bcd_shapes m n k f -> subfun_lipschitz m k c f -> bcd_lipschitz n k (c * mdot (linop f) (linop f)) f.
Proof.
  intros (H1 & H2 & H3 & H4) (Hc & Hlip). split; [apply Rmult_le_pos; [exact Hc|apply mdot_self_nonneg]|]. intros X Z i HX HZ Hi.
  assert (PX : mat_shape m k (mmul k (linop f) X)) by (apply (mmul_shape m k n); assumption).
  assert (PZ : mat_shape m k (mmul k (linop f) Z)) by (apply (mmul_shape m k n); assumption).
  set (GX := grad_subfun f (mmul k (linop f) X)). set (GZ := grad_subfun f (mmul k (linop f) Z)).
  assert (E : sqnorm (vsub (full_grad_block k f X i) (full_grad_block k f Z i)) = sqnorm (tvec k (msub GX GZ) (col i (linop f)))).
  { rewrite (tvec_msub m k GX GZ _ (H2 _ PX) (H2 _ PZ)). unfold full_grad_block, lo_rmatvec_element, lo_matvec. fold GX GZ. destruct (linear_term f); [|reflexivity]. unfold sqnorm. vring. }
  rewrite E. unfold sqnorm. eapply Rle_trans; [apply tvec_frob|]. set (A := linop f) in *. pose proof (col_frob i A) as C. pose proof (Hlip _ _ PX PZ) as B. fold GX GZ in B. unfold fdist2 in B at 1.
  pose proof (mmul_frob k A (msub X Z)) as Fr. rewrite <- (mmul_msub m n k A X Z HX HZ ltac:(apply H1)) in Fr. fold (fdist2 (mmul k A X) (mmul k A Z)) in Fr. fold (fdist2 X Z) in Fr.
  assert (A0 : 0 <= mdot A A) by apply mdot_self_nonneg. assert (C0 : 0 <= dot (col i A) (col i A)) by apply dot_self_nonneg.
  apply Rle_trans with (mdot A A * (c * c * (mdot A A * fdist2 X Z))); [|right; ring].
  apply Rmult_le_compat; [exact C0|apply mdot_self_nonneg|exact C|]. eapply Rle_trans; [exact B|]. apply Rmult_le_compat_l; [apply Rle_0_sqr|exact Fr].
Qed.
Lemma comp_strongly_convex m n k f c s : bcd_shapes m n k f -> subfun_strongly_convex m k c f -> bounded_below n k s (linop f) -> 0 < c -> 0 < s ->
  bcd_strongly_convex n k (c * s) f.
Proof.
  intros HS Hc Hb Hc0 Hs0. pose proof HS as (H1 & H2 & H3 & H4). split; [apply Rmult_lt_0_compat; assumption|]. intros X Z HX HZ.
  assert (PX : mat_shape m k (mmul k (linop f) X)) by (apply (mmul_shape m k n); assumption).
  assert (PZ : mat_shape m k (mmul k (linop f) Z)) by (apply (mmul_shape m k n); assumption).
  set (A := linop f) in *. set (G := grad_subfun f (mmul k A X)).
  set (f2 := {| linop := A; subfun := fun P => subfun f (mmul k A X) + mdot G (msub P (mmul k A X)); grad_subfun := fun _ => G; linear_term := linear_term f; columnwise := columnwise f |}).
  assert (HS2 : bcd_shapes m n k f2) by (split; [exact H1|]; split; [intros; apply (H2 _ PX)|]; split; [exact H3|exact H4]).
  assert (HC2 : mconvex m k (subfun f2) (grad_subfun f2)).
  { intros P Q HPm HQm. simpl. pose proof (shape_length m k _ HPm). pose proof (shape_length m k _ HQm). pose proof (shape_length m k _ PX). rewrite !mdot_msub_r by congruence. lra. }
  pose proof (comp_convex m n k f2 X Z HS2 HC2 HX HZ) as B.
  assert (EG : forall i, full_grad_block k f2 X i = full_grad_block k f X i) by reflexivity.
  unfold comp_call in *. simpl in B. fold A. unfold lo_matvec in *.
  rewrite (vsum_map_eq _ _ (seq 0 n) (fun i _ => f_equal (fun g => dot g (vsub (nth i Z []) (nth i X []))) (EG i))) in B.
  pose proof (Hc _ _ PX PZ) as Cv. fold G in Cv. pose proof (shape_length m k _ PX) as LX.
  assert (Z0 : mdot G (msub (mmul k A X) (mmul k A X)) = 0) by (rewrite mdot_msub_r by reflexivity; ring). rewrite Z0 in B.
  assert (Fd : s * fdist2 Z X <= fdist2 (mmul k A Z) (mmul k A X)).
  { unfold fdist2. rewrite (mmul_msub m n k A Z X HZ HX ltac:(apply H1)). apply Hb. apply msub_shape; assumption. }
  assert (c / 2 * (s * fdist2 Z X) <= c / 2 * fdist2 (mmul k A Z) (mmul k A X)) by (apply Rmult_le_compat_l; lra). lra.
Qed.

(** ** Minimisers *)
Lemma qp_min_lower Q c l u n mu M x xs : qp_problem Q c l u n -> qp_strongly_convex n mu Q ->
  (forall i j, (i < n)%nat -> (j < n)%nat -> Rabs (entry Q i j) <= M) -> box_minimiser Q c l u xs -> in_box l u x ->
  mu / 2 * dist2 x xs <= qp_objective Q c x - qp_objective Q c xs.
Proof.
  intros HP HS HM [Hb Hm] Hx. pose proof (in_box_length Q c l u n HP xs Hb) as Hl. pose proof (in_box_length Q c l u n HP x Hx) as Hxl. pose proof (proj1 HS) as Hmu.
  pose proof (epoch_descent Q c l u n HP xs Hl Hb mu n (le_n n) (diag_ge Q c l u n mu HP HS)) as Dc.
  pose proof (Hm _ (epoch_box Q c l u n HP xs Hl)) as Hm'. assert (D0 : dist2 (Xk Q c l u xs n) xs = 0).
  { pose proof (dot_self_nonneg (vsub (Xk Q c l u xs n) xs)) as P. fold (sqnorm (vsub (Xk Q c l u xs n) xs)) in P. fold (dist2 (Xk Q c l u xs n) xs) in P.
    apply Rle_antisym; [|exact P]. apply (Rmult_le_reg_l (mu / 2)); lra. }
  assert (Hl' : length (Xk Q c l u xs n) = n) by (apply (Xk_length Q c l u n HP xs Hl); lia).
  apply dist2_zero in D0; [|congruence].
  destruct (cd_certificate Q c l u n HP xs M Hl) as (gp & Hgp & G1 & G2); [intros i Hi; pose proof (diag_ge Q c l u n mu HP HS i Hi); lra|exact HM|].
  cbv zeta in G1, G2. rewrite (Ek_norm1 Q c l u n HP xs Hl n (le_n n)) in G2. rewrite !D0 in G1, G2.
  assert (Z : norm1 (vsub xs xs) = 0).
  { rewrite vsub_self. unfold norm1, vzero. clear. induction (length xs) as [|a IH]; simpl; [reflexivity|]. rewrite IH, Rabs_R0. ring. }
  rewrite Z, Rmult_0_r in G2. pose proof (qp_gap Q c l u n mu HP HS xs x Hl Hxl) as A.
  assert (P0 : 0 <= dot (grad Q c xs) (vsub x xs)).
  { apply dot_nonneg_coords. intros i Hi _. rewrite (grad_length Q c l u n HP) in Hi. specialize (G2 i Hi).
    assert (E : nth i (grad Q c xs) 0 = nth i gp 0).
    { pose proof (Rabs_pos (nth i (grad Q c xs) 0 - nth i gp 0)). destruct (Req_dec (nth i (grad Q c xs) 0 - nth i gp 0) 0) as [|N]; [lra|]. apply Rabs_pos_lt in N. lra. }
    rewrite E, nth_vsub. apply G1; [exact Hi|]. apply Hx. lia. }
  unfold dist2, sqnorm. lra.
Qed.
Lemma vsum_nonneg_zero {T} (g : T -> R) l : (forall i, In i l -> 0 <= g i) -> vsum (map g l) <= 0 -> forall i, In i l -> g i = 0.
Proof.
  induction l as [|a l IH]; intros H H0 i Hi; [destruct Hi|]. cbn [map vsum] in H0.
  assert (P : 0 <= vsum (map g l)) by (apply vsum_nonneg; apply Forall_forall; intros y Hy; apply in_map_iff in Hy; destruct Hy as (j & <- & Hj); apply H; right; exact Hj).
  pose proof (H a (or_introl eq_refl)). destruct Hi as [<-|Hi]; [lra|]. apply IH; [intros j Hj; apply H; right; exact Hj|lra|exact Hi].
Qed.
Lemma bcd_min_lower m n k f D r prox mu h Lmax Lf X Xs : bcd_problem m n k f D r prox -> bcd_strongly_convex n k mu f -> bcd_lipschitz n k Lf f ->
  0 < h -> (forall i, (i < n)%nat -> h <= nth i (columnwise f) 0 <= Lmax) -> bcd_minimiser n k f D r Xs -> mat_shape n k X -> blocks_in D X ->
  mu / 2 * fdist2 X Xs <= bcd_objective k f r X - bcd_objective k f r Xs.
Proof.
  intros HP HS HLip Hh Hcol (Hsh & HD & Hm) HX HDX. pose proof (problem_pl m n k f D r prox HP) as Hpl. pose proof HP as (Hs & HL & Hv & Hc & Hp).
  pose proof (Bk_shape m n k f prox Hs Hpl HL Xs n Hsh (le_n n)) as H1.
  pose proof (epoch_descent_b m n k f prox Hs Hpl HL D r Hc Hp Hv Xs h n Hsh HD (le_n n) (fun i Hi => proj1 (Hcol i Hi))) as Dc.
  pose proof (Hm _ H1 (epoch_dom m n k f prox Hs Hpl HL D r Hp Xs Hsh)) as Hm'.
  assert (D0 : mdot (msub (Bk k f prox Xs n) Xs) (msub (Bk k f prox Xs n) Xs) = 0).
  { pose proof (mdot_self_nonneg (msub (Bk k f prox Xs n) Xs)). apply Rle_antisym; [|assumption]. apply (Rmult_le_reg_l (h / 2)); lra. }
  pose proof (cert_bound m n k f D r prox Lmax Lf HP HLip (fun i Hi => proj2 (Hcol i Hi)) Xs Hsh) as B. unfold fdist2 in B. rewrite D0, Rmult_0_r in B.
  apply (fdist_zero n k _ _ H1 Hsh) in D0.
  assert (HCs : forall i, (i < n)%nat -> forall z, D z -> r (nth i Xs []) + dot (vsub (cert n k f prox Xs i) (full_grad_block k f Xs i)) (vsub z (nth i Xs [])) <= r z).
  { intros i Hi z Hz. pose proof (cert_subgrad m n k f D r prox HP Xs i z Hsh Hi Hz) as A. cbv zeta in A. rewrite D0 in A. exact A. }
  pose proof (bcd_strong_lower n k f D r mu HS Xs X (cert n k f prox Xs) Hsh HX HDX HCs) as A.
  assert (Z : vsum (map (fun i => dot (cert n k f prox Xs i) (vsub (nth i X []) (nth i Xs []))) (seq 0 n)) = 0).
  { rewrite (vsum_map_eq _ (fun _ => 0)); [rewrite vsum_const; ring|]. intros i Hi.
    pose proof (vsum_nonneg_zero (fun i => sqnorm (cert n k f prox Xs i)) (seq 0 n) (fun j _ => dot_self_nonneg _) B i Hi) as E. cbv beta in E. unfold sqnorm in E.
    pose proof (cauchy_schwarz_sq (cert n k f prox Xs i) (vsub (nth i X []) (nth i Xs []))) as C. rewrite E, Rmult_0_l in C. apply Rsqr_0_uniq. pose proof (Rle_0_sqr (dot (cert n k f prox Xs i) (vsub (nth i X []) (nth i Xs [])))). unfold Rsqr in *. lra. }
  rewrite Z in A. lra.
Qed.
