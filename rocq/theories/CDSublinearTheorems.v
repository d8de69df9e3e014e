(** C80: convergence of BoxCDQP and BlockCoordinateDescent on convex problems, without strong convexity. *)
From Coq Require Import Reals List Lra Lia Bool Arith.
From Verif Require Import Prelude Vec Mat Proj ProjProofs Prox ProxProofs Loss LossProofs Run ProxGrad ProxGradProofs ProxGradTheorems QuasiNewton QuasiNewtonProofs CDQP CDQPProofs CDQPTheorems Objective ObjectiveProofs ObjectiveTheorems BlockCD BlockCDProofs BlockCDTheorems OptError OptErrorProofs OptErrorTheorems CDConvergence CDConvergenceProofs CDConvergenceTheorems SparseSimplex SparseSimplexProofs SvmDual SvmDualProofs SvmDualTheorems CDSublinear CDSublinearProofs.
Import ListNotations.
Open Scope R_scope.

(** ** BoxCDQP: Q positive semi-definite with diagonal at least h > 0. *)
(** After t epochs the suboptimality against any feasible point is at most a constant over t + 1. *)
Theorem C80_cdqp_rate : forall Q c l u n h M x0 z t, qp_problem Q c l u n -> pos_semidef n Q ->
  0 < h -> (forall i, (i < n)%nat -> h <= entry Q i i) ->
  (forall i j, (i < n)%nat -> (j < n)%nat -> Rabs (entry Q i j) <= M) -> in_box l u x0 -> in_box l u z ->
  qp_objective Q c (cdqp_iterate Q c l u x0 t) - qp_objective Q c z
    <= Rmax (2 * cdqp_rate_const n h M l u) (qp_objective Q c x0 - qp_objective Q c z) / INR (S t).
Proof.
  intros Q c l u n h M x0 z t HP Hpsd Hh Hd HM Hin Hz. pose proof (cdqp_rate_const_nonneg l u n h M Hh) as K0.
  unfold cdqp_iterate. induction t as [|t IH].
  - simpl. unfold Rdiv. rewrite Rinv_1, Rmult_1_r. apply Rmax_r.
  - destruct (cd_iter_inv Q c l u n x0 t HP Hin) as [I1 _]. cbv zeta in I1. rewrite iter_S. destruct (Nat.iter t (cd_update Q c l u) (x0, cd_init)) as [x st]. cbn [fst] in *.
    unfold cd_update. rewrite (cd_epoch_Xk Q c l u n x (in_box_length Q c l u n HP x I1)). cbn [fst].
    pose proof (epoch_gap_psd Q c l u n h M HP Hpsd Hh Hd HM x z I1 Hz) as G. cbv zeta in G.
    apply (rate_step (cdqp_rate_const n h M l u) _ t (qp_objective Q c x - qp_objective Q c z)).
    + exact K0.
    + apply Rmax_l.
    + eapply Rle_trans; [|apply Rmax_l]. lra.
    + intros H0. eapply Rle_trans; [apply G; exact H0|]. right. ring.
    + exact IH.
Qed.
Print Assumptions C80_cdqp_rate.

(** From any starting point, in the box or not, the objective converges to its infimum over the box. *)
Theorem C80_cdqp_converges : forall Q c l u n x0, qp_problem Q c l u n -> pos_semidef n Q ->
  (forall i, (i < n)%nat -> 0 < entry Q i i) -> length x0 = n ->
  exists A, forall t z, in_box l u z ->
    qp_objective Q c (cdqp_iterate Q c l u x0 (S t)) - qp_objective Q c z <= A / INR (S t).
Proof.
  intros Q c l u n x0 HP Hpsd Hpos Hx0. destruct (positive_bounds (fun i => entry Q i i) n Hpos) as (h & H & Hh & Hd0).
  assert (Hd : forall i, (i < n)%nat -> h <= entry Q i i) by (intros i Hi; apply Hd0, Hi).
  destruct (entries_bounded Q n) as (M & M0 & HM); [apply HP|].
  set (x1 := Xk Q c l u x0 n). set (E := Ek Q c l u x0 n). pose proof (epoch_box Q c l u n HP x0 Hx0) as Hb. fold x1 in Hb.
  exists (Rmax (2 * cdqp_rate_const n h M l u) (M * E * norm1 (vsub u l))). intros t z Hz. rewrite (iterate_first Q c l u n x0 t HP Hx0). fold x1.
  eapply Rle_trans; [apply (C80_cdqp_rate Q c l u n h M x1 z t HP Hpsd Hh Hd HM Hb Hz)|].
  apply Rmult_le_compat_r; [left; apply Rinv_0_lt_compat, lt_0_INR; lia|]. apply Rle_max_compat_l.
  pose proof (epoch_suboptimality Q c l u n HP x0 M z Hx0 Hpos HM Hpsd Hz) as A. fold x1 E in A.
  assert (N : norm1 (vsub z x1) <= norm1 (vsub u l)).
  { pose proof HP as (_ & _ & _ & Hll & Hul & _ & Hlu). pose proof (in_box_length Q c l u n HP z Hz). pose proof (in_box_length Q c l u n HP x1 Hb).
    apply norm1_le_coords; [rewrite !vsub_length; lia|]. intros i Hi. rewrite !nth_vsub. rewrite vsub_length in Hi.
    destruct Hz as [_ Hz]. destruct Hb as [_ Hb]. specialize (Hz i ltac:(lia)). specialize (Hb i ltac:(lia)). specialize (Hlu i ltac:(lia)).
    rewrite (Rabs_right (nth i u 0 - nth i l 0)) by lra. apply Rabs_le. lra. }
  assert (E0 : 0 <= E) by (unfold E; rewrite (Ek_norm1 Q c l u n HP x0 Hx0 n (le_n n)); apply norm1_nonneg).
  assert (M * E * norm1 (vsub z x1) <= M * E * norm1 (vsub u l)) by (apply Rmult_le_compat_l; [apply Rmult_le_pos; assumption|exact N]). lra.
Qed.
Print Assumptions C80_cdqp_converges.

(** ** BlockCoordinateDescent: convex smooth part with Lf-Lipschitz block gradients, column constants in
    [h, Lmax], any penalty with its prox, bounded sublevel sets. *)
Theorem C80_bcd_rate : forall m n k f D r prox h Lmax Lf R2 x0 Z t x st, bcd_problem m n k f D r prox ->
  mconvex m k (subfun f) (grad_subfun f) -> bcd_lipschitz n k Lf f ->
  0 < h -> (forall i, (i < n)%nat -> h <= nth i (columnwise f) 0 <= Lmax) ->
  mat_shape n k x0 -> blocks_in D x0 -> mat_shape n k Z -> blocks_in D Z -> bcd_level_radius n k f D r x0 Z R2 ->
  Nat.iter t (bcd_update k f prox) (Some (x0, bcd_init k f x0)) = Some (x, st) ->
  bcd_objective k f r x - bcd_objective k f r Z
    <= Rmax (2 * bcd_rate_const n h Lmax Lf R2) (bcd_objective k f r x0 - bcd_objective k f r Z) / INR (S t).
Proof.
  intros m n k f D r prox h Lmax Lf R2 x0 Z t x st HP Hcv HLip Hh Hcol Hx HD HZ HDZ HR E.
  assert (R0 : 0 <= R2) by (eapply Rle_trans; [apply mdot_self_nonneg|apply (HR x0 Hx HD (Rle_refl _))]).
  pose proof (bcd_rate_const_nonneg n h Lmax Lf Hh R2 R0) as K0.
  pose proof (problem_pl m n k f D r prox HP) as Hpl. pose proof HP as (Hs & HL & _). revert x st E. induction t as [|t IH]; intros x st E.
  { simpl in E. injection E as <- <-. simpl. unfold Rdiv. rewrite Rinv_1, Rmult_1_r. apply Rmax_r. }
  destruct (C31_cache m n k f prox x0 t Hs HL Hpl Hx) as (y & sy & Ey & Y1 & _ & Y3 & Y4). destruct (iter_inv m n k f D r prox x0 t HP Hx) as (y' & sy' & Ey' & _ & _ & Y5).
  rewrite Ey in Ey'. injection Ey' as <- <-. destruct (Y5 HD) as [Y6 _]. specialize (IH y sy Ey).
  destruct (iter_inv m n k f D r prox x0 (S t) HP Hx) as (w & sw & Ew & W1 & _ & W5). rewrite E in Ew. injection Ew as <- <-. destruct (W5 HD) as [W6 W7].
  rewrite iter_S, Ey in E.
  rewrite (update_consistent m n k f prox Hs Hpl HL y sy Y1 (conj Y3 Y4)) in E. injection E as E _.
  pose proof (epoch_gap_convex m n k f D r prox h Lmax Lf HP Hcv HLip Hh Hcol y Z R2 Y1 Y6 HZ HDZ) as G. cbv zeta in G. rewrite E in G.
  apply (rate_step (bcd_rate_const n h Lmax Lf R2) _ t (bcd_objective k f r y - bcd_objective k f r Z)).
  - exact K0.
  - apply Rmax_l.
  - eapply Rle_trans; [|apply Rmax_l]. lra.
  - intros H0. eapply Rle_trans; [apply G; [apply HR; assumption|exact H0]|]. right. ring.
  - exact IH.
Qed.
Print Assumptions C80_bcd_rate.

(** The suboptimality after t updates is at most a constant over t + 1, against every feasible Z at once. *)
Theorem C80_bcd_converges : forall m n k f D r prox Lf R2 x0, bcd_problem m n k f D r prox ->
  mconvex m k (subfun f) (grad_subfun f) -> bcd_lipschitz n k Lf f ->
  mat_shape n k x0 -> blocks_in D x0 -> bcd_level_diameter n k f D r x0 R2 ->
  exists A, 0 <= A /\ forall t, exists x st, Nat.iter t (bcd_update k f prox) (Some (x0, bcd_init k f x0)) = Some (x, st) /\
    mat_shape n k x /\ blocks_in D x /\
    forall Z, mat_shape n k Z -> blocks_in D Z -> bcd_objective k f r x - bcd_objective k f r Z <= A / INR (S t).
Proof.
  intros m n k f D r prox Lf R2 x0 HP Hcv HLip Hx HD HR. pose proof HP as (Hs & HL & _). pose proof (problem_pl m n k f D r prox HP) as Hpl.
  destruct (positive_bounds (fun i => nth i (columnwise f) 0) n HL) as (h & Lmax & Hh & Hcol).
  assert (R0 : 0 <= R2) by (eapply Rle_trans; [apply mdot_self_nonneg|apply (HR x0 Hx HD (Rle_refl _) x0 Hx HD (Rle_refl _))]).
  pose proof (bcd_rate_const_nonneg n h Lmax Lf Hh R2 R0) as K0.
  set (x1 := Bk k f prox x0 n). set (B := bcd_objective k f r x0 - bcd_objective k f r x1 + bcd_constant n Lmax Lf * sqrt R2 * sqrt (fdist2 x1 x0)).
  assert (HB : forall Z, mat_shape n k Z -> blocks_in D Z -> bcd_objective k f r Z <= bcd_objective k f r x0 -> bcd_objective k f r x0 - bcd_objective k f r Z <= B).
  { intros Z HZ HDZ Hle. pose proof (epoch_posterior m n k f D r prox h Lmax Lf HP Hcv HLip Hcol x0 Z R2 Hx HZ HDZ) as G. cbv zeta in G. fold x1 in G.
    assert (G' : fdist2 Z x1 <= R2).
    { apply (HR Z HZ HDZ Hle); [apply (Bk_shape m n k f prox Hs Hpl HL x0 n Hx (le_n n))| |].
      - pose proof HP as (_ & _ & Hv & Hc & Hp). apply (epoch_dom m n k f prox Hs Hpl HL D r Hp x0 Hx).
      - pose proof HP as (_ & _ & Hv & Hc & Hp). pose proof (epoch_descent_b m n k f prox Hs Hpl HL D r Hc Hp Hv x0 h n Hx HD (le_n n) (fun i Hi => proj1 (Hcol i Hi))) as Dc. fold x1 in Dc |- *.
        assert (0 <= h / 2 * mdot (msub x1 x0) (msub x1 x0)) by (apply Rmult_le_pos; [lra|apply mdot_self_nonneg]). lra. }
    specialize (G G'). unfold B. lra. }
  exists (Rmax (2 * bcd_rate_const n h Lmax Lf R2) B). split; [eapply Rle_trans; [|apply Rmax_l]; lra|]. intros t.
  assert (It : 0 < / INR (S t)) by (apply Rinv_0_lt_compat, lt_0_INR; lia).
  destruct (iter_inv m n k f D r prox x0 t HP Hx) as (x & st & E & X1 & _ & X3). destruct (X3 HD) as [X4 X5]. exists x, st. split; [exact E|]. split; [exact X1|]. split; [exact X4|]. intros Z HZ HDZ.
  destruct (Rle_or_lt (bcd_objective k f r Z) (bcd_objective k f r x0)) as [Hle|Hgt].
  - eapply Rle_trans; [apply (C80_bcd_rate m n k f D r prox h Lmax Lf R2 x0 Z t x st HP Hcv HLip Hh Hcol Hx HD HZ HDZ (HR Z HZ HDZ Hle) E)|].
    apply Rmult_le_compat_r; [lra|]. apply Rle_max_compat_l. apply HB; assumption.
  - apply Rle_trans with 0; [lra|]. apply Rmult_le_pos; [|lra]. eapply Rle_trans; [|apply Rmax_l]. lra.
Qed.
Print Assumptions C80_bcd_converges.

(** What [run] returns is suboptimal by at most the larger of a constant over maxiter + 1 and a constant
    times [tol]. *)
Theorem C80_bcd_run : forall m n k f D r prox Lmax Lf R2 x0, bcd_problem m n k f D r prox ->
  mconvex m k (subfun f) (grad_subfun f) -> bcd_lipschitz n k Lf f -> (forall i, (i < n)%nat -> nth i (columnwise f) 0 <= Lmax) ->
  mat_shape n k x0 -> blocks_in D x0 -> bcd_level_diameter n k f D r x0 R2 ->
  exists A, forall maxiter tol, (0 < maxiter)%nat -> 0 <= tol ->
    exists x st, bcd_run k f prox maxiter tol x0 = Some (x, st) /\
      forall Z, mat_shape n k Z -> blocks_in D Z ->
        bcd_objective k f r x - bcd_objective k f r Z <= Rmax (A / INR (S maxiter)) (bcd_constant n Lmax Lf * sqrt R2 * tol).
Proof.
  intros m n k f D r prox Lmax Lf R2 x0 HP Hcv HLip HLm Hx HD HR.
  destruct (C80_bcd_converges m n k f D r prox Lf R2 x0 HP Hcv HLip Hx HD HR) as (A & A0 & HA). exists A. intros maxiter tol Hm Ht.
  pose proof HP as (Hs & HL & _). pose proof (problem_pl m n k f D r prox HP) as Hpl.
  assert (R0 : 0 <= R2) by (eapply Rle_trans; [apply mdot_self_nonneg|apply (HR x0 Hx HD (Rle_refl _) x0 Hx HD (Rle_refl _))]).
  destruct (bcd_run_spec k f prox maxiter tol x0 Hm) as (j & Hj & E & _ & Hstop). cbv zeta in E, Hstop. rewrite E. clear E. destruct (HA j) as (x & st & E & X1 & X2 & X3). exists x, st. split; [exact E|]. intros Z HZ HDZ.
  destruct Hstop as [->|Hstop]; [eapply Rle_trans; [apply X3; assumption|apply Rmax_l]|].
  eapply Rle_trans; [|apply Rmax_r]. rewrite E in Hstop.
  destruct (positive_bounds (fun i => nth i (columnwise f) 0) n HL) as (h & L' & Hh & Hcol').
  assert (Hcol : forall i, (i < n)%nat -> h <= nth i (columnwise f) 0 <= Lmax) by (intros i Hi; split; [apply Hcol', Hi|apply HLm, Hi]).
  destruct (Rle_or_lt (bcd_objective k f r Z) (bcd_objective k f r x0)) as [Hle|Hgt].
  - destruct j as [|j]; [lia|]. destruct (C31_cache m n k f prox x0 j Hs HL Hpl Hx) as (y & sy & Ey & Y1 & _ & Y3 & Y4).
    destruct (iter_inv m n k f D r prox x0 (S j) HP Hx) as (w & sw & Ew & W1 & _ & W5). rewrite E in Ew. injection Ew as <- <-. destruct (W5 HD) as [W6 W7].
    rewrite iter_S, Ey in E. rewrite (update_consistent m n k f prox Hs Hpl HL y sy Y1 (conj Y3 Y4)) in E. injection E as E Es. rewrite <- Es in Hstop. cbn [bcd_error xgtb] in Hstop. fold (fdist2 (Bk k f prox y n) y) in Hstop.
    pose proof (epoch_posterior m n k f D r prox h Lmax Lf HP Hcv HLip Hcol y Z R2 Y1 HZ HDZ) as G. cbv zeta in G. rewrite E in G, Hstop.
    eapply Rle_trans; [apply G; apply (HR Z HZ HDZ Hle); assumption|]. apply Rmult_le_compat_l; [unfold bcd_constant; apply Rmult_le_pos; apply sqrt_pos|].
    destruct (Rlt_dec tol (sqrt (fdist2 x y))) as [Hlt|Hge]; [discriminate Hstop|lra].
  - destruct (iter_inv m n k f D r prox x0 j HP Hx) as (w & sw & Ew & W1 & _ & W5). rewrite E in Ew. injection Ew as <- <-. destruct (W5 HD) as [W6 W7].
    apply Rle_trans with 0; [lra|]. unfold bcd_constant. apply Rmult_le_pos; [|exact Ht]. apply Rmult_le_pos; apply sqrt_pos.
Qed.
Print Assumptions C80_bcd_run.

(** ** Instances *)
(** Least squares with an l1 penalty, lam > 0, of any rank: no strong convexity. *)
Theorem C80_lasso : forall m n k X Y lam x0, mat_shape m n X -> mat_shape m k Y -> (0 < m)%nat -> (0 < k)%nat ->
  (forall i, (i < n)%nat -> col i X <> vzero m) -> 0 < lam -> mat_shape n k x0 ->
  let f := least_squares n k X Y in let prox := fun v t => prox_lasso_scalar v lam t in
  let obj := bcd_objective k f (fun w => lam * norm1 w) in
  exists A, forall t, exists x st, Nat.iter t (bcd_update k f prox) (Some (x0, bcd_init k f x0)) = Some (x, st) /\
    mat_shape n k x /\ forall Z, mat_shape n k Z -> obj x - obj Z <= A / INR (S t).
Proof.
  intros m n k X Y lam x0 HX HY Hm Hk Hcol Hlam Hx f prox obj.
  destruct (C31_least_squares_lasso m n k X Y lam HX HY Hm Hk Hcol ltac:(lra)) as (HP & Hcv). cbv zeta in HP, Hcv. fold f prox in HP, Hcv.
  assert (HN : 1 <= INR (m * k)) by (change 1 with (INR 1); apply le_INR; nia).
  assert (Hi : 0 < / INR (m * k)) by (apply Rinv_0_lt_compat; lra).
  assert (HLip : bcd_lipschitz n k (/ INR (m * k) * mdot (linop f) (linop f)) f).
  { apply (comp_lipschitz m); [apply HP|]. split; [lra|]. intros P Q [HPl _] [HQl _]. pose proof (shape_length m k Y HY) as HYl. unfold f, fdist2. simpl. rewrite HYl. set (i := / INR (m * k)). right.
    repeat (rewrite mdot_msub_l || rewrite mdot_msub_r || rewrite mdot_msmul_l || rewrite mdot_msmul_r || unfold msmul at 1; rewrite ?map_length, ?msub_length, ?HPl, ?HQl, ?HYl; try reflexivity).
    all: fold (msmul i (msub P Y)); ring. }
  assert (HDall : forall Z, mat_shape n k Z -> blocks_in (in_dim k) Z) by (intros Z HZ; apply HZ).
  assert (Hlow : forall Z, lam * vsum (map norm1 Z) <= obj Z).
  { intros Z. unfold obj, bcd_objective, comp_call, f. cbn [linear_term subfun linop least_squares]. rewrite (shape_length m k Y HY).
    assert (E : vsum (map (fun w => lam * norm1 w) Z) = lam * vsum (map norm1 Z)) by apply vsum_map_scal. rewrite E.
    pose proof (mdot_self_nonneg (msub (lo_matvec k X Z) Y)) as H. set (q := mdot (msub (lo_matvec k X Z) Y) (msub (lo_matvec k X Z) Y)) in *.
    assert (0 <= q / INR (m * k)) by (apply Rmult_le_pos; lra). lra. }
  set (B := obj x0 / lam).
  assert (HB : forall Z, mat_shape n k Z -> obj Z <= obj x0 -> mdot Z Z <= B * B).
  { intros Z HZ Hle. destruct (mdot_le_norm1_sq Z) as [H0 H1]. eapply Rle_trans; [exact H1|]. assert (vsum (map norm1 Z) <= B).
    { unfold B. apply (Rmult_le_reg_l lam); [exact Hlam|]. replace (lam * (obj x0 / lam)) with (obj x0) by (field; lra). specialize (Hlow Z). lra. }
    apply Rmult_le_compat; assumption. }
  destruct (C80_bcd_converges m n k f (in_dim k) (fun w => lam * norm1 w) prox _ (4 * (B * B)) x0 HP Hcv HLip Hx (HDall x0 Hx)) as (A & _ & HA).
  { intros Z HZ _ HZo W HW _ HWo. pose proof (fdist_parallelogram n k W Z HW HZ). pose proof (HB Z HZ HZo). pose proof (HB W HW HWo). lra. }
  exists A. intros t. destruct (HA t) as (x & st & E & X1 & _ & X3). exists x, st. split; [exact E|]. split; [exact X1|]. intros Z HZ. apply X3; [exact HZ|apply HDall, HZ].
Qed.
Print Assumptions C80_lasso.

(** The dual of the multiclass linear SVM, solved as in the test and the example, from a feasible point.
    Training: the objective at the weights recovered after t sweeps exceeds the training objective at
    every W by at most A / sqrt (t + 1); and the duality gap is at most that. *)
Theorem C80_svm : forall N p k l2reg X y beta0,
  mat_shape N p X -> length y = N -> 1 <= l2reg -> (0 < k)%nat ->
  (forall i, (i < N)%nat -> nth i X [] <> vzero p) -> svm_feasible N k beta0 ->
  let f := multiclass_linear_svm_dual p k l2reg X (binarized k y) in
  let prox := fun v s => make_prox_from_projection projection_simplex v 1 s in
  exists A, forall t, exists beta st, Nat.iter t (bcd_update k f prox) (Some (beta0, bcd_init k f beta0)) = Some (beta, st) /\
    svm_feasible N k beta /\
    (forall gamma, svm_feasible N k gamma -> svm_dual p k l2reg X y beta - svm_dual p k l2reg X y gamma <= A / INR (S t)) /\
    svm_primal k l2reg X y (svm_weights p k l2reg X y beta) + svm_dual p k l2reg X y beta <= A / sqrt (INR (S t)) /\
    (forall W, mat_shape p k W ->
       svm_primal k l2reg X y (svm_weights p k l2reg X y beta) <= svm_primal k l2reg X y W + A / sqrt (INR (S t))).
Proof.
  intros N p k l2reg X y beta0 HX Hy Hr Hk HX0 Hb0 f prox.
  pose proof (binarized_shape N k y Hy) as HY.
  destruct (C32_svm_dual N p k l2reg X (binarized k y) HX HY ltac:(lra)) as (Hcv & _). fold f in Hcv.
  pose proof (svm_bcd_problem N p k l2reg X y HX Hy Hr Hk HX0) as HP. cbv zeta in HP. fold f prox in HP.
  assert (HLip : bcd_lipschitz N k (/ l2reg * mdot (linop f) (linop f)) f).
  { apply (comp_lipschitz p); [apply HP|]. split; [left; apply Rinv_0_lt_compat; lra|]. intros P Q HPs HQs. unfold f, fdist2. simpl.
    set (XY := mmul k (mtrans p X) (binarized k y)). assert (HXY : length XY = p) by (unfold XY; apply (shape_length p k), (mmul_shape p k N); [apply mtrans_shape; apply HX|exact HY]).
    set (i := / l2reg). destruct HPs as [HPl _]. destruct HQs as [HQl _]. right.
    repeat (rewrite mdot_msub_l || rewrite mdot_msub_r || rewrite mdot_msmul_l || rewrite mdot_msmul_r || unfold msmul at 1; rewrite ?map_length, ?msub_length, ?HPl, ?HQl, ?HXY; try reflexivity).
    all: ring. }
  assert (Hobj : forall Z, bcd_objective k f (fun _ => 0) Z = svm_dual p k l2reg X y Z).
  { intros Z. unfold bcd_objective, svm_dual. fold f. assert (vsum (map (fun _ : vec => 0) Z) = 0) as -> by (clear; induction Z as [|z Z IH]; simpl; [reflexivity|rewrite IH; ring]). ring. }
  destruct (C80_bcd_converges p N k f (simplex k 1) (fun _ => 0) prox _ (4 * INR N) beta0 HP Hcv HLip (feasible_shape _ _ _ Hb0) (proj2 Hb0)) as (A & A0 & HA).
  { intros Z HZ HZd _ W HW HWd _. pose proof (fdist_parallelogram N k W Z HW HZ).
    pose proof (feasible_sq N k W (conj (shape_length _ _ _ HW) HWd)). pose proof (feasible_sq N k Z (conj (shape_length _ _ _ HZ) HZd)). lra. }
  set (C := 2 * INR N * (mdot X X + 1) / l2reg).
  assert (C0 : 0 <= C).
  { unfold C. apply Rmult_le_pos; [|left; apply Rinv_0_lt_compat; lra]. pose proof (pos_INR N). pose proof (mdot_self_nonneg X). apply Rmult_le_pos; lra. }
  exists (A + C). intros t. destruct (HA t) as (beta & st & E & B1 & B2 & B3). exists beta, st. split; [exact E|].
  assert (Hb : svm_feasible N k beta) by (split; [apply (shape_length _ _ _ B1)|exact B2]). split; [exact Hb|].
  assert (T1 : 1 <= INR (S t)) by (rewrite S_INR; pose proof (pos_INR t); lra).
  assert (Hd : forall gamma, svm_feasible N k gamma -> svm_dual p k l2reg X y beta - svm_dual p k l2reg X y gamma <= A / INR (S t)).
  { intros gamma Hg. rewrite <- !Hobj. apply B3; [apply feasible_shape; exact Hg|apply Hg]. }
  assert (Q1 : 1 <= sqrt (INR (S t))) by (rewrite <- sqrt_1; apply sqrt_le_1_alt; exact T1).
  assert (Hgap : svm_primal k l2reg X y (svm_weights p k l2reg X y beta) + svm_dual p k l2reg X y beta <= (A + C) / sqrt (INR (S t))).
  { pose proof (near_optimal_gap N p k l2reg X y beta _ (/ sqrt (INR (S t))) HX Hy ltac:(lra) Hk Hb Hd) as G. fold C in G.
    eapply Rle_trans; [apply G|].
    - split; [apply Rinv_0_lt_compat; lra|]. rewrite <- Rinv_1. apply Rinv_le_contravar; lra.
    - right. rewrite <- (sqrt_sqrt (INR (S t))) at 1 by lra. field. lra. }
  split; [|split; [exact Hgap|]].
  - intros gamma Hg. eapply Rle_trans; [apply Hd; exact Hg|]. apply Rmult_le_compat_r; [left; apply Rinv_0_lt_compat; lra|lra].
  - intros W HW. pose proof (C78_weak_duality N p k l2reg X y W beta HX Hy ltac:(lra) HW Hb) as H1.
    assert (0 <= l2reg / 2 * fdist2 W (svm_weights p k l2reg X y beta)) by (apply Rmult_le_pos; [lra|apply mdot_self_nonneg]). lra.
Qed.
Print Assumptions C80_svm.

(** Non-vacuity: a rank one quadratic program (not strongly convex) on the unit square, a rank one lasso
    problem, and the SVM of C78. *)
Example C80_example :
  qp_problem [[1; 1]; [1; 1]] [-1; -1] [0; 0] [1; 1] 2 /\ pos_semidef 2 [[1; 1]; [1; 1]] /\ (forall mu, ~ qp_strongly_convex 2 mu [[1; 1]; [1; 1]]) /\
  (forall i, (i < 2)%nat -> 0 < entry [[1; 1]; [1; 1]] i i) /\ in_box [0; 0] [1; 1] [0; 0] /\
  cdqp_rate_const 2 1 1 [0; 0] [1; 1] = 16 /\
  mat_shape 1 2 [[1; 1]] /\ (forall i, (i < 2)%nat -> col i [[1; 1]] <> vzero 1) /\
  (forall s, 0 < s -> ~ bounded_below 2 1 s [[1; 1]]) /\
  svm_feasible 2 2 [[0; 1]; [1; 0]].
Proof.
  split; [|split; [|split; [|split; [|split; [|split; [|split; [|split; [|split]]]]]]]].
  - split; [split; [reflexivity|repeat constructor]|]. split; [intros [|[|i]] [|[|j]] Hi Hj; try lia; reflexivity|]. repeat (split; [reflexivity|]).
    split; intros [|[|i]] Hi; try lia; unfold entry; simpl; lra.
  - intros [|a [|b [|? v]]] H; try discriminate. simpl. pose proof (Rle_0_sqr (a + b)). unfold Rsqr in *. lra.
  - intros mu [H0 H]. specialize (H [1; -1] eq_refl). simpl in H. lra.
  - intros [|[|i]] Hi; try lia; unfold entry; simpl; lra.
  - split; [reflexivity|]. intros [|[|i]] Hi; simpl in *; try lia; lra.
  - unfold cdqp_rate_const, norm1. simpl. replace (1 - 0) with 1 by ring. rewrite Rabs_R1. field.
  - split; [reflexivity|repeat constructor].
  - intros [|[|i]] Hi; try lia; unfold col, vzero; simpl; intros E; injection E; lra.
  - intros s Hs H. specialize (H [[1]; [-1]]). unfold mdot, mmul in H. simpl in H.
    assert (Hsh : mat_shape 2 1 [[1]; [-1]]) by (split; [reflexivity|repeat constructor]). specialize (H Hsh). lra.
  - apply C78_example.
Qed.
