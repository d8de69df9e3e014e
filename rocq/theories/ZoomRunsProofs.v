From Coq Require Import String.
From Coq Require Import Reals List Lra Lia Bool Arith Psatz.
From Verif Require Import Prelude Vec Mat Loss Backtracking BacktrackingTheorems Zoom ZoomProofs ZoomTheorems Run QuasiNewton QuasiNewtonProofs QuasiNewtonTheorems Convergence ConvergenceProofs ConvergenceRuns ConvergenceTheorems BfgsConvergence BfgsConvergenceProofs BfgsConvergenceTheorems.
From Verif Require Lbfgsb NcgConvergence NcgConvergenceTheorems.
From Verif Require Import ZoomSuccess ZoomSuccessProofs ZoomSuccessTheorems ZoomRuns.
Import ListNotations.
Open Scope R_scope.
Notation zoom_ls := Lbfgsb.zoom_ls.

(** the approximate test of the slopes implies Armijo's test *)
Definition slopes_exact (c1 : R) (n : nat) (f : vec -> R) (gradf : vec -> vec) : Prop :=
  forall x d t, length x = n -> length d = n -> 0 < t ->
  dot (gradf (vadd x (smul t d))) d <= (2 * c1 - 1) * dot (gradf x) d -> f (vadd x (smul t d)) <= f x + c1 * t * dot (gradf x) d.

Section Step.
Variables (n : nat) (mu L : R) (f : vec -> R) (gradf : vec -> vec).
Hypothesis HF : strongly_convex_smooth n mu L f gradf.
Variable zcfg : zoom_config.
Hypothesis Hex : slopes_exact (zc1 zcfg) n f gradf.
Hypothesis Hok : zoom_ok zcfg.
Hypothesis Hinc : 1 < increase_factor zcfg.
Hypothesis Hw : wolfe_constants zcfg.
Hypothesis Ht : ztol zcfg = 0.

Lemma zoom_step lo hi H x s0 J Z : 0 < lo -> 0 < hi -> mat_shape n n H -> symmetric n H -> eig_bounds n lo hi H -> length x = n ->
  0 < s0 -> zmax zcfg <= s0 * increase_factor zcfg ^ J -> zmax zcfg * zoom_factor zcfg ^ Z <= accept_length zcfg L hi ->
  interval_threshold zcfg <= accept_length zcfg L hi -> (J + Z + 2 <= zmaxiter zcfg)%nat ->
  let d := smul (-1) (mvec H (gradf x)) in
  let o := zoom_ls zcfg f gradf s0 x (f x) (gradf x) d in
  ls_failed o = false /\ efficient_step (zc1 zcfg) (zc2 zcfg) (zmax zcfg) f gradf x d (ls_step o) /\
  Rmin (wolfe_floor (zc2 zcfg) L hi) (Rmin (zmax zcfg) s0) <= ls_step o.
Proof.
  intros Hlo Hhi HH Hsym HB Hx Hs0 HJ HZ Hth Hbud d o.
  assert (HmL : 0 < mu <= L) by (destruct HF as (A & _); exact A).
  pose proof (step_slope gradf H x) as Sl. pose proof (step_q0 n mu L f gradf HF lo hi H x Hlo HB Hx) as Q0.
  pose proof (step_dd n mu L f gradf HF lo hi H x Hlo Hhi HH Hsym HB Hx) as Dd. fold d in Sl, Dd.
  set (q := dot (gradf x) (mvec H (gradf x))) in *.
  assert (Hdl : length d = n) by (unfold d; rewrite smul_length, mvec_length; apply HH).
  assert (Hzm : 0 < zmax zcfg) by apply Hok.
  destruct (Req_dec q 0) as [E|E].
  - assert (Zd : d = vzero n).
    { rewrite <- Hdl. apply dot_self_zero. rewrite E in Dd. pose proof (dot_self_nonneg d). lra. }
    assert (Ez : forall t, vadd x (smul t d) = x).
    { intros t. rewrite Zd. apply vec_eq_dot; [rewrite vadd_length, smul_length, vzero_length; lia|]. intros w. autorewrite with vec. ring. }
    assert (S0 : dot (gradf x) d = 0) by lra.
    pose proof (NcgConvergenceTheorems.zoom_first_trial zcfg f gradf s0 x d Ht ltac:(lia) ltac:(lra)) as Q. cbv zeta in Q.
    assert (SW : NcgConvergence.strong_wolfe (zc1 zcfg) (zc2 zcfg) f gradf x d (Rmin s0 (zmax zcfg))).
    { split; [apply Rmin_glb_lt; assumption|]. rewrite Ez, S0, Rabs_R0. split; lra. }
    specialize (Q SW). unfold o. rewrite Q. cbn [ls_failed ls_step]. split; [reflexivity|]. split.
    + split; [apply Rmin_glb_lt; assumption|]. rewrite Ez, S0. split; [lra|]. left. lra.
    + rewrite (Rmin_comm s0). apply Rmin_r.
  - assert (Qp : 0 < q) by lra. assert (Hsl : dot (gradf x) d < 0) by lra.
    assert (Dp : 0 < dot d d).
    { destruct (Rle_lt_or_eq_dec 0 _ (dot_self_nonneg d)) as [P|Zz]; [exact P|exfalso].
      pose proof (cauchy_schwarz_sq (gradf x) d) as CS. rewrite <- Zz, Sl in CS. nra. }
    destruct (line_strong n mu L f gradf x d HF Hx Hdl Dp (zmax zcfg)) as (Hsm & Hcv & _).
    set (phi := fun t => f (vadd x (smul t d))) in *. set (dphi := fun t => dot (gradf (vadd x (smul t d))) d) in *.
    assert (E0 : vadd x (smul 0 d) = x).
    { apply vec_eq_dot; [rewrite vadd_length, smul_length, Hx, Hdl; apply Nat.max_id|]. intros w. autorewrite with vec. ring. }
    assert (Ep : phi 0 = f x) by (unfold phi; rewrite E0; reflexivity).
    assert (Ed : dphi 0 = dot (gradf x) d) by (unfold dphi; rewrite E0; reflexivity).
    assert (Hfl : accept_length zcfg L hi <= bracket_floor zcfg (L * dot d d) (dphi 0)).
    { unfold accept_length, bracket_floor. rewrite Ed, Sl, Rabs_Ropp, (Rabs_right q) by lra.
      destruct Hw as (W1 & W2 & W3). assert (Hm : 0 < Rmin (zc2 zcfg) (2 * (zc2 zcfg - zc1 zcfg))) by (apply Rmin_glb_lt; lra).
      set (m := Rmin _ _) in *. apply (Rmult_le_reg_r (L * dot d d)); [apply Rmult_lt_0_compat; lra|].
      replace (m * q / (L * dot d d) * (L * dot d d)) with (m * q) by (field; split; lra).
      replace (m / (L * hi) * (L * dot d d)) with (m * (dot d d / hi)) by (field; split; lra).
      apply Rmult_le_compat_l; [lra|]. apply (Rmult_le_reg_r hi); [lra|]. unfold Rdiv. rewrite Rmult_assoc, Rinv_l by lra. lra. }
    pose proof (C75_succeeds vec zcfg (real_fun f) gradf real_dot x d phi dphi (L * dot d d) (zmax zcfg) s0 (gradf x) true J Z
      Hok Hinc Hw Hs0 ltac:(apply Rmult_lt_0_compat; lra) ltac:(intros t _; split; reflexivity) Hsm ltac:(lra) (or_intror Hcv)
      (or_introl (Rle_refl _)) HJ ltac:(lra) ltac:(lra) Hbud) as R_.
    rewrite Ep, Ed in R_. unfold o, Lbfgsb.zoom_ls.
    change (fun z : vec => Fin (f z)) with (real_fun f). change (fun a b : vec => Fin (dot a b)) with real_dot.
    destruct (zoom_run zcfg (real_fun f) gradf real_dot true s0 x (f x) (gradf x) (dot (gradf x) d) d) as [s st]. cbn [ls_failed ls_step].
    destruct R_ as (_ & R2 & R3 & _ & R5 & _). split; [exact R2|].
    assert (Eff : efficient_step (zc1 zcfg) (zc2 zcfg) (zmax zcfg) f gradf x d s).
    { split; [lra|]. rewrite Ht in R5.
      assert (Arm : phi s <= phi 0 + zc1 zcfg * s * dphi 0 + 0 \/
         (phi s <= phi 0 + zc3 zcfg * Rabs (phi 0) + 0 /\ dphi s <= (2 * zc1 zcfg - 1) * dphi 0 + 0)).
      { destruct R5 as [[R5 _]|[_ R5]]; [exact R5|]. destruct R5 as [_ R5]. rewrite Ep, Ed. exact R5. }
      rewrite Ep, Ed in Arm. unfold phi, dphi in Arm. split.
      - destruct Arm as [Arm|[_ Arm]]; [lra|]. apply Hex; [exact Hx|exact Hdl|lra|lra].
      - destruct R5 as [[_ R5]|[R5 _]]; [left|right; rewrite R5; apply Rle_refl].
        rewrite Ed, (Rabs_left (dot (gradf x) d)) in R5 by exact Hsl. unfold dphi in R5.
        pose proof (Rle_abs (- dot (gradf (vadd x (smul s d))) d)) as A. rewrite Rabs_Ropp in A. lra. }
    split; [exact Eff|].
    apply Rle_trans with (Rmin (wolfe_floor (zc2 zcfg) L hi) (zmax zcfg)); [apply Rmin_glb; [apply Rmin_l|eapply Rle_trans; [apply Rmin_r|apply Rmin_l]]|].
    apply (efficient_floor n mu L f gradf HF lo hi H x Hlo Hhi HH Hsym HB Hx (zc1 zcfg) (zc2 zcfg) (zmax zcfg) s); [destruct Hw as (_ & A & _); lra|exact Eff|exact E].
Qed.
End Step.

(** a run that meets the stopping test after N updates ends by then *)
Lemma run_result_stops {A} maxiter cond (update : A -> result A) (steps : nat -> A) N : (0 < N <= maxiter)%nat ->
  (forall k, update (steps k) = Ok (steps (S k))) -> cond (steps N) = false ->
  exists k, (1 <= k <= N)%nat /\ run_result maxiter cond update (steps 0%nat) = Ok (steps k) /\ cond (steps k) = false.
Proof.
  intros HN Hu Hc. destruct (run_result_spec maxiter cond update steps ltac:(lia) Hu) as (k & Hk & Er & Hl & He).
  assert (k <= N)%nat. { destruct (Nat.le_gt_cases k N) as [A0|A0]; [exact A0|exfalso]. rewrite (Hl N ltac:(lia)) in Hc. discriminate. }
  exists k. split; [lia|]. split; [exact Er|]. destruct He as [He|He]; [|exact He]. replace k with N by lia. exact Hc.
Qed.
Lemma init_step_floor strategy mx mn inc prev s0 floor : init_stepsize strategy mx mn inc prev = Ok s0 -> 0 < floor -> floor <= mx -> floor <= prev -> 1 <= inc ->
  floor <= s0.
Proof.
  intros E Hf Hm Hp Hi. revert E. unfold init_stepsize. destruct (string_dec _ _); [injection 1 as <-; lra|]. destruct (string_dec _ _); [injection 1 as <-; lra|].
  destruct (string_dec _ _); [|discriminate]. unfold Rleb. destruct (Rle_dec _ _); injection 1 as <-; [lra|].
  assert (prev * 1 <= prev * inc) by (apply Rmult_le_compat_l; lra). lra.
Qed.

Section Runs.
Variables (n : nat) (mu L : R) (f : vec -> R) (gradf : vec -> vec).
Hypothesis HF : strongly_convex_smooth n mu L f gradf.
Variables (zcfg : zoom_config) (cfg : qn_config).
Hypothesis Hex : slopes_exact (zc1 zcfg) n f gradf.
Hypothesis Hok : zoom_ok zcfg.
Hypothesis Hinc : 1 < increase_factor zcfg.
Hypothesis Hw : wolfe_constants zcfg.
Hypothesis Ht : ztol zcfg = 0.
Hypothesis Hul : use_linesearch cfg = true.
Hypothesis Hks : known_strategy (qn_linesearch_init cfg).
Hypothesis Hqi : 1 <= qn_increase_factor cfg.
Hypothesis Hqm : 0 < qn_max_stepsize cfg.
Hypothesis Htol : 0 < qn_tol cfg.
Let HmL : 0 < mu <= L. Proof. destruct HF as (A & _); exact A. Qed.
Let Hdim : grad_dim n gradf. Proof. destruct HF as (_ & A & _); exact A. Qed.
Let Hzm : 0 < zmax zcfg. Proof. apply Hok. Qed.
Notation ls := (zoom_ls zcfg f gradf).
Notation gls := (guard_ls f gradf ls).
Let Hgls : ls_consistent f gradf gls. Proof. apply guard_consistent, C64_zoom_consistent, Hok. Qed.

Lemma floor_pos hi : 0 < hi -> 0 < step_floor zcfg cfg L hi.
Proof.
  intros Hhi. unfold step_floor, wolfe_floor. destruct Hw as (_ & A & _). repeat apply Rmin_glb_lt; try assumption.
  apply Rdiv_lt_0_compat; [lra|apply Rmult_lt_0_compat; lra].
Qed.
(** the search from any initial step that the strategies produce *)
Lemma fits_step lo hi H x s0 J Z : 0 < lo -> 0 < hi -> mat_shape n n H -> symmetric n H -> eig_bounds n lo hi H -> length x = n ->
  step_floor zcfg cfg L hi <= s0 -> zoom_fits zcfg cfg L hi J Z ->
  let d := smul (-1) (mvec H (gradf x)) in
  let o := ls s0 x (f x) (gradf x) d in
  ls_failed o = false /\ step_floor zcfg cfg L hi <= ls_step o /\
  efficient_step (zc1 zcfg) (zc2 zcfg) (zmax zcfg) f gradf x d (ls_step o).
Proof.
  intros Hlo Hhi HH Hsym HB Hx Hs0 (F1 & F2 & F3 & F4) d o. pose proof (floor_pos hi Hhi) as Fp.
  assert (HJ : zmax zcfg <= s0 * increase_factor zcfg ^ J).
  { eapply Rle_trans; [exact F1|]. apply Rmult_le_compat_r; [apply pow_le; lra|exact Hs0]. }
  destruct (zoom_step n mu L f gradf HF zcfg Hex Hok Hinc Hw Ht lo hi H x s0 J Z Hlo Hhi HH Hsym HB Hx ltac:(lra) HJ F2 F3 F4) as (A & B & C).
  fold d in A, B, C. fold o in A, B, C. split; [exact A|]. split; [|exact B].
  eapply Rle_trans; [|exact C]. unfold step_floor in *. apply Rmin_glb; [apply Rmin_l|]. apply Rmin_glb; [|exact Hs0].
  eapply Rle_trans; [apply Rmin_r|apply Rmin_l].
Qed.

Section L.
Variables (xs : nat -> vec) (sts : nat -> lbfgs_state).
Hypothesis Hx0 : length (xs 0%nat) = n.
Hypothesis Hrun : forall K, lbfgs_run f gradf ls cfg xs sts K.
Let hi := eig_upper mu L (qn_history_size cfg).
Let lo := eig_lower L (qn_history_size cfg).
Let floor := step_floor zcfg cfg L hi.
Variables J Z : nat.
Hypothesis Hfit : zoom_fits zcfg cfg L hi J Z.
Let Hlo : 0 < lo. Proof. apply eig_lower_pos; lra. Qed.
Let Hhi : 0 < hi. Proof. apply eig_upper_pos; exact HmL. Qed.
Let Fp : 0 < floor. Proof. apply floor_pos, Hhi. Qed.

Lemma l_step k : (forall j, (j <= k)%nat -> floor <= l_stepsize (sts j)) ->
  l_failed (sts (S k)) = false /\ floor <= l_stepsize (sts (S k)) /\
  efficient_step (zc1 zcfg) (zc2 zcfg) (zmax zcfg) f gradf (xs k) (lbfgs_direction cfg (sts k)) (l_stepsize (sts (S k))).
Proof.
  intros Hj.
  assert (HG : lbfgs_run f gradf gls cfg xs sts k).
  { apply guard_lbfgs_run; [exact Hqm|lra| |apply Hrun]. intros j Hjk. specialize (Hj (S j) ltac:(lia)). lra. }
  destruct (Hrun (S k)) as [R0 R1]. pose proof (R1 k ltac:(lia)) as U. destruct HG as [G0 G1].
  destruct (run_matrix n mu L f gradf gls cfg HF Hgls xs sts k Hx0 (conj G0 G1) k ltac:(lia)) as (H & H1 & H2 & H3 & H4).
  pose proof (lbfgs_inv f gradf gls cfg n Hdim Hgls xs sts k Hx0 G0 G1 k ltac:(lia)) as (Hl & I2 & I3 & _).
  unfold lbfgs_update in U. unfold take_step in U. rewrite Hul in U.
  destruct (init_stepsize _ _ _ _ _) as [s0|e] eqn:Es; [|discriminate].
  assert (Fq : floor <= qn_max_stepsize cfg) by (unfold floor, step_floor; eapply Rle_trans; [apply Rmin_r|apply Rmin_r]).
  pose proof (init_step_floor _ _ _ _ _ _ floor Es Fp Fq (Hj k (Nat.le_refl k)) Hqi) as Hs0.
  destruct (fits_step lo hi H (xs k) s0 J Z Hlo Hhi H1 H2 H3 Hl Hs0 Hfit) as (A & B & C). rewrite <- H4 in A, B, C.
  rewrite I2, I3 in U. set (o := zoom_ls zcfg f gradf s0 (xs k) (f (xs k)) (gradf (xs k)) (lbfgs_direction cfg (sts k))) in *.
  cbv zeta in U. injection U as Ux Us. rewrite <- Us. cbn [l_failed l_stepsize]. split; [exact A|]. split; [exact B|exact C].
Qed.
Lemma l_steps k : floor <= l_stepsize (sts k).
Proof.
  induction k as [k IH] using lt_wf_ind. destruct k as [|k].
  - destruct (Hrun 0%nat) as [R0 _]. rewrite R0. cbn [lbfgs_init l_stepsize]. unfold floor, step_floor. eapply Rle_trans; [apply Rmin_r|apply Rmin_r].
  - apply l_step. intros j Hj. apply IH. lia.
Qed.
Lemma l_guarded K : lbfgs_run f gradf gls cfg xs sts K.
Proof. apply guard_lbfgs_run; [exact Hqm|lra| |apply Hrun]. intros j _. pose proof (l_steps (S j)). lra. Qed.
End L.

(** BFGS: the bound on the eigenvalues grows with the iterations, so this covers the first N *)
Section B.
Variables (xs : nat -> vec) (sts : nat -> bfgs_state) (N : nat).
Hypothesis Hx0 : length (xs 0%nat) = n.
Hypothesis Hrun : forall K, bfgs_run f gradf ls cfg xs sts K.
Let hi := eig_upper mu L N.
Let floor := step_floor zcfg cfg L hi.
Variables J Z : nat.
Hypothesis Hfit : zoom_fits zcfg cfg L hi J Z.
Let Hhi : 0 < hi. Proof. apply eig_upper_pos; exact HmL. Qed.
Let Fp : 0 < floor. Proof. apply floor_pos, Hhi. Qed.

Lemma b_step k : (k < N)%nat -> (forall j, (j <= k)%nat -> floor <= b_stepsize (sts j)) ->
  floor <= b_stepsize (sts (S k)) /\
  sufficient_step (zc1 zcfg) (zc2 zcfg) (zmax zcfg) 1 f gradf (xs k) (bfgs_direction (sts k)) (b_stepsize (sts (S k))).
Proof.
  intros HkN Hj.
  assert (HG : bfgs_run f gradf gls cfg xs sts k).
  { apply guard_bfgs_run; [exact Hqm|lra| |apply Hrun]. intros j Hjk. specialize (Hj (S j) ltac:(lia)). lra. }
  destruct (Hrun (S k)) as [R0 R1]. pose proof (R1 k ltac:(lia)) as U. destruct HG as [G0 G1].
  destruct (C65_eigenvalues n mu L f gradf gls cfg xs sts k HF Hgls Hx0 (conj G0 G1) k ltac:(lia)) as (H1 & H2 & H3 & H4).
  apply (eig_weaken n _ (eig_lower L N) _ hi) in H3; [|apply eig_lower_mono; [lra|lia]|apply eig_upper_mono; [exact HmL|lia]].
  destruct (bfgs_inv f gradf gls cfg n Hdim Hgls xs sts k Hx0 G0 G1 k ltac:(lia)) as (Hl & I2 & I3 & _).
  unfold bfgs_update, take_step in U. rewrite Hul in U.
  destruct (init_stepsize _ _ _ _ _) as [s0|e] eqn:Es; [|discriminate].
  assert (Fq : floor <= qn_max_stepsize cfg) by (unfold floor, step_floor; eapply Rle_trans; [apply Rmin_r|apply Rmin_r]).
  pose proof (init_step_floor _ _ _ _ _ _ floor Es Fp Fq (Hj k (Nat.le_refl k)) Hqi) as Hs0.
  destruct (fits_step (eig_lower L N) hi (b_H (sts k)) (xs k) s0 J Z (eig_lower_pos L N ltac:(lra)) Hhi H1 H2 H3 Hl Hs0 Hfit) as (A & B & C). rewrite <- H4 in A, B, C.
  rewrite I2, I3 in U. set (o := zoom_ls zcfg f gradf s0 (xs k) (f (xs k)) (gradf (xs k)) (bfgs_direction (sts k))) in *.
  cbv zeta in U. injection U as Ux Us. rewrite <- Us. cbn [b_stepsize]. split; [exact B|apply C65_wolfe_sufficient, C].
Qed.
Lemma b_steps k : (k <= N)%nat -> floor <= b_stepsize (sts k).
Proof.
  induction k as [k IH] using lt_wf_ind. destruct k as [|k]; intros Hk.
  - destruct (Hrun 0%nat) as [R0 _]. rewrite R0. cbn [bfgs_init b_stepsize]. unfold floor, step_floor. eapply Rle_trans; [apply Rmin_r|apply Rmin_r].
  - apply b_step; [lia|]. intros j Hj. apply IH; lia.
Qed.
End B.
End Runs.
