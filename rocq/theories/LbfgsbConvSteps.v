(** Line searches along a direction p with |p|^2 <= hi (- g.p), without a matrix behind it. *)
From Coq Require Import String.
From Coq Require Import Reals List Lra Lia Bool Arith Psatz.
From Verif Require Import Prelude Vec Mat Loss Backtracking BacktrackingTheorems Zoom ZoomProofs ZoomTheorems Run QuasiNewton QuasiNewtonProofs QuasiNewtonTheorems Convergence ConvergenceProofs ConvergenceRuns ConvergenceTheorems BfgsConvergence BfgsConvergenceProofs BfgsConvergenceTheorems.
From Verif Require Lbfgsb NcgConvergence NcgConvergenceTheorems.
From Verif Require Import ZoomSuccess ZoomSuccessProofs ZoomSuccessTheorems ZoomRuns ZoomRunsProofs.
Import ListNotations.
Open Scope R_scope.

Lemma dir_floor n mu L f gradf (x d : vec) hi c1 c2 tmin t : strongly_convex_smooth n mu L f gradf -> length x = n -> length d = n -> 0 < hi ->
  dot d d <= hi * - dot (gradf x) d -> c2 < 1 -> efficient_step c1 c2 tmin f gradf x d t -> dot (gradf x) d <> 0 ->
  Rmin (wolfe_floor c2 L hi) tmin <= t.
Proof.
  intros HF Hx Hdl Hhi Dd Hc (Ht & _ & [C|C]) Hq; [|eapply Rle_trans; [apply Rmin_r|exact C]].
  assert (HmL : 0 < mu <= L) by (destruct HF as (A & _); exact A).
  eapply Rle_trans; [apply Rmin_l|]. set (q := - dot (gradf x) d) in *. assert (Q0 : 0 <= q) by (pose proof (dot_self_nonneg d); nra).
  assert (Sl : dot (gradf x) d = - q) by (unfold q; ring). assert (Qn : q <> 0) by lra.
  pose proof (ssc_slope n mu L f gradf HF x d t Hx Hdl ltac:(lra)) as S_. rewrite Sl in C, S_.
  assert (LT : 0 <= L * t) by (apply Rmult_le_pos; lra).
  assert (A : (1 - c2) * q <= L * t * (hi * q)) by (assert (L * t * dot d d <= L * t * (hi * q)) by (apply Rmult_le_compat_l; lra); lra).
  assert (LH : 0 < L * hi) by (apply Rmult_lt_0_compat; lra).
  unfold wolfe_floor. apply (Rmult_le_reg_r (L * hi)); [exact LH|]. unfold Rdiv. rewrite Rmult_assoc, Rinv_l by lra.
  apply (Rmult_le_reg_r q); [lra|]. lra.
Qed.

Section ZoomDir.
Variables (n : nat) (mu L : R) (f : vec -> R) (gradf : vec -> vec).
Hypothesis HF : strongly_convex_smooth n mu L f gradf.
Variable zcfg : zoom_config.
Hypothesis Hex : slopes_exact (zc1 zcfg) n f gradf.
Hypothesis Hok : zoom_ok zcfg.
Hypothesis Hinc : 1 < increase_factor zcfg.
Hypothesis Hw : wolfe_constants zcfg.
Hypothesis Ht : ztol zcfg = 0.
Lemma zoom_dir hi (x d : vec) s0 J Z : 0 < hi -> length x = n -> length d = n -> dot d d <= hi * - dot (gradf x) d ->
  0 < s0 -> zmax zcfg <= s0 * increase_factor zcfg ^ J -> zmax zcfg * zoom_factor zcfg ^ Z <= accept_length zcfg L hi ->
  interval_threshold zcfg <= accept_length zcfg L hi -> (J + Z + 2 <= zmaxiter zcfg)%nat ->
  let o := zoom_ls zcfg f gradf s0 x (f x) (gradf x) d in
  ls_failed o = false /\ efficient_step (zc1 zcfg) (zc2 zcfg) (zmax zcfg) f gradf x d (ls_step o) /\
  Rmin (wolfe_floor (zc2 zcfg) L hi) (Rmin (zmax zcfg) s0) <= ls_step o.
Proof.
  intros Hhi Hx Hdl Dd Hs0 HJ HZ Hth Hbud o.
  assert (HmL : 0 < mu <= L) by (destruct HF as (A & _); exact A).
  set (q := - dot (gradf x) d) in *. assert (Q0 : 0 <= q) by (pose proof (dot_self_nonneg d); nra).
  assert (Sl : dot (gradf x) d = - q) by (unfold q; ring).
  assert (Hzm : 0 < zmax zcfg) by apply Hok.
  destruct (Req_dec q 0) as [E|E].
  - assert (Zd : d = vzero n).
    { rewrite <- Hdl. apply dot_self_zero. rewrite E in Dd. pose proof (dot_self_nonneg d). lra. }
    assert (Ez : forall t, vadd x (smul t d) = x).
    { intros t. rewrite Zd. apply vec_eq_dot; [rewrite vadd_length, smul_length, vzero_length; lia|]. intros w. autorewrite with vec. ring. }
    assert (S0 : dot (gradf x) d = 0) by lra.
    pose proof (NcgConvergenceTheorems.zoom_first_trial zcfg f gradf s0 x d Ht ltac:(lia) ltac:(lra)) as Q. cbv zeta in Q.
    assert (SW : NcgConvergence.strong_wolfe (zc1 zcfg) (zc2 zcfg) f gradf x d (Rmin s0 (zmax zcfg))).
    { split; [apply Rmin_glb_lt; assumption|]. rewrite Ez, S0, Rabs_R0. split; lra. }
    specialize (Q SW). unfold o. rewrite Q. cbn [ls_failed ls_step]. split; [reflexivity|]. split.
    + split; [apply Rmin_glb_lt; assumption|]. rewrite Ez, S0. split; [lra|]. left. lra.
    + rewrite (Rmin_comm s0). apply Rmin_r.
  - assert (Qp : 0 < q) by lra. assert (Hsl : dot (gradf x) d < 0) by lra.
    assert (Dp : 0 < dot d d).
    { destruct (Rle_lt_or_eq_dec 0 _ (dot_self_nonneg d)) as [P|Zz]; [exact P|exfalso].
      pose proof (cauchy_schwarz_sq (gradf x) d) as CS. rewrite <- Zz, Sl in CS. nra. }
    destruct (line_strong n mu L f gradf x d HF Hx Hdl Dp (zmax zcfg)) as (Hsm & Hcv & _).
    set (phi := fun t => f (vadd x (smul t d))) in *. set (dphi := fun t => dot (gradf (vadd x (smul t d))) d) in *.
    assert (E0 : vadd x (smul 0 d) = x).
    { apply vec_eq_dot; [rewrite vadd_length, smul_length, Hx, Hdl; apply Nat.max_id|]. intros w. autorewrite with vec. ring. }
    assert (Ep : phi 0 = f x) by (unfold phi; rewrite E0; reflexivity).
    assert (Ed : dphi 0 = dot (gradf x) d) by (unfold dphi; rewrite E0; reflexivity).
    assert (Hfl : accept_length zcfg L hi <= bracket_floor zcfg (L * dot d d) (dphi 0)).
    { unfold accept_length, bracket_floor. rewrite Ed, Sl, Rabs_Ropp, (Rabs_right q) by lra.
      destruct Hw as (W1 & W2 & W3). assert (Hm : 0 < Rmin (zc2 zcfg) (2 * (zc2 zcfg - zc1 zcfg))) by (apply Rmin_glb_lt; lra).
      set (m := Rmin _ _) in *. apply (Rmult_le_reg_r (L * dot d d)); [apply Rmult_lt_0_compat; lra|].
      replace (m * q / (L * dot d d) * (L * dot d d)) with (m * q) by (field; split; lra).
      replace (m / (L * hi) * (L * dot d d)) with (m * (dot d d / hi)) by (field; split; lra).
      apply Rmult_le_compat_l; [lra|]. apply (Rmult_le_reg_r hi); [lra|]. unfold Rdiv. rewrite Rmult_assoc, Rinv_l by lra. lra. }
    pose proof (C75_succeeds vec zcfg (real_fun f) gradf real_dot x d phi dphi (L * dot d d) (zmax zcfg) s0 (gradf x) true J Z
      Hok Hinc Hw Hs0 ltac:(apply Rmult_lt_0_compat; lra) ltac:(intros t _; split; reflexivity) Hsm ltac:(lra) (or_intror Hcv)
      (or_introl (Rle_refl _)) HJ ltac:(lra) ltac:(lra) Hbud) as R_.
    rewrite Ep, Ed in R_. unfold o, Lbfgsb.zoom_ls.
    change (fun z : vec => Fin (f z)) with (real_fun f). change (fun a b : vec => Fin (dot a b)) with real_dot.
    destruct (zoom_run zcfg (real_fun f) gradf real_dot true s0 x (f x) (gradf x) (dot (gradf x) d) d) as [s st]. cbn [ls_failed ls_step].
    destruct R_ as (_ & R2 & R3 & _ & R5 & _). split; [exact R2|].
    assert (Eff : efficient_step (zc1 zcfg) (zc2 zcfg) (zmax zcfg) f gradf x d s).
    { split; [lra|]. rewrite Ht in R5.
      assert (Arm : phi s <= phi 0 + zc1 zcfg * s * dphi 0 + 0 \/
         (phi s <= phi 0 + zc3 zcfg * Rabs (phi 0) + 0 /\ dphi s <= (2 * zc1 zcfg - 1) * dphi 0 + 0)).
      { destruct R5 as [[R5 _]|[_ R5]]; [exact R5|]. destruct R5 as [_ R5]. rewrite Ep, Ed. exact R5. }
      rewrite Ep, Ed in Arm. unfold phi, dphi in Arm. split.
      - destruct Arm as [Arm|[_ Arm]]; [lra|]. apply Hex; [exact Hx|exact Hdl|lra|lra].
      - destruct R5 as [[_ R5]|[R5 _]]; [left|right; rewrite R5; apply Rle_refl].
        rewrite Ed, (Rabs_left (dot (gradf x) d)) in R5 by exact Hsl. unfold dphi in R5.
        pose proof (Rle_abs (- dot (gradf (vadd x (smul s d))) d)) as A. rewrite Rabs_Ropp in A. lra. }
    split; [exact Eff|].
    apply Rle_trans with (Rmin (wolfe_floor (zc2 zcfg) L hi) (zmax zcfg)); [apply Rmin_glb; [apply Rmin_l|eapply Rle_trans; [apply Rmin_r|apply Rmin_l]]|].
    apply (dir_floor n mu L f gradf x d hi (zc1 zcfg) (zc2 zcfg) (zmax zcfg) s HF Hx Hdl Hhi); [rewrite Sl, Ropp_involutive; exact Dd|destruct Hw as (_ & A & _); lra|exact Eff|lra].
Qed.
End ZoomDir.

Lemma bt_dir n mu L f gradf hi (x d : vec) bcfg s0 :
  strongly_convex_smooth n mu L f gradf -> 0 < hi -> length x = n -> length d = n -> dot d d <= hi * - dot (gradf x) d ->
  condition bcfg = Armijo -> 0 < c1 bcfg < 1 -> tol bcfg = 0 -> 0 < s0 -> 0 < max_stepsize bcfg -> 0 < decrease_factor bcfg <= 1 -> (0 < maxiter bcfg)%nat ->
  max_stepsize bcfg * decrease_factor bcfg ^ (maxiter bcfg - 1) <= 2 * (1 - c1 bcfg) / (L * hi) ->
  let o := bt_line_search bcfg f gradf s0 x (f x) (gradf x) d in
  ls_failed o = false /\ f (vadd x (smul (ls_step o) d)) <= f x + c1 bcfg * ls_step o * dot (gradf x) d /\
  armijo_floor (c1 bcfg) (decrease_factor bcfg) (Rmin (max_stepsize bcfg) s0) L hi <= ls_step o.
Proof.
  intros HF Hhi Hx Hdl Dd Hc Hc1 Ht Hs Hm Hdf Hmax Hlast o.
  assert (HmL : 0 < mu <= L) by (destruct HF as (A & _); exact A).
  assert (Hdim : grad_dim n gradf) by (destruct HF as (_ & A & _); exact A).
  set (q := - dot (gradf x) d) in *. assert (Q0 : 0 <= q) by (pose proof (dot_self_nonneg d); nra).
  assert (Sl : dot (gradf x) d = - q) by (unfold q; ring).
  pose proof (C19_backtracking bcfg (fun z => Fin (f z)) gradf true s0 x (f x) (gradf x) (Some d) ltac:(lra) Hs Hm Hdf Hmax) as B.
  cbv zeta in B. cbn [the_direction] in B.
  pose proof (C19_smooth_success bcfg (fun z => Fin (f z)) gradf true s0 x (f x) (gradf x) d L Hc ltac:(lra) ltac:(lra) Hs Hm Hdf Hmax) as S_.
  unfold o, bt_line_search.
  destruct (bt_run bcfg (fun z => Fin (f z)) gradf true s0 x (f x) (gradf x) (Some d)) as [s st]. cbn [ls_failed ls_step].
  destruct B as (k & B1 & B2 & B3 & B4 & B5 & B6 & B7 & B8 & B9 & B10 & B11).
  assert (Dec : done st = true -> f (vadd x (smul s d)) <= f x + c1 bcfg * s * dot (gradf x) d).
  { intros D. apply B6 in D. unfold condition_holds in D. rewrite Hc in D. destruct D as [D _]. cbn [xle_bound] in D. lra. }
  assert (Sm : 0 < Rmin (max_stepsize bcfg) s0) by (apply Rmin_glb_lt; assumption).
  destruct (Req_dec q 0) as [E|E].
  - assert (Zd : d = vzero n).
    { rewrite <- Hdl. apply dot_self_zero. rewrite E in Dd. pose proof (dot_self_nonneg d). lra. }
    assert (Cond : forall t, condition_holds bcfg (fun z => Fin (f z)) gradf x d (gradf x) (f x) t).
    { intros t. unfold condition_holds. rewrite Hc. split; [|exact I]. cbn [xle_bound]. rewrite Sl, E, Zd.
      assert (Ez : vadd x (smul t (vzero n)) = x).
      { apply vec_eq_dot; [rewrite vadd_length, smul_length, vzero_length; lia|]. intros w. autorewrite with vec. ring. }
      rewrite Ez. lra. }
    assert (Dn : done st = true) by (apply B6, Cond).
    assert (k = 0%nat). { destruct k; [reflexivity|]. exfalso. apply (B5 0%nat ltac:(lia)). apply Cond. }
    subst k. split; [rewrite B7, Dn; reflexivity|]. split; [apply Dec; exact Dn|].
    unfold armijo_floor. rewrite B3. simpl. rewrite Rmult_1_r. apply Rmin_l.
  - assert (Qp : 0 < q) by lra.
    assert (Dp : 0 < dot d d).
    { destruct (Rle_lt_or_eq_dec 0 _ (dot_self_nonneg d)) as [P|Z]; [exact P|exfalso].
      pose proof (cauchy_schwarz_sq (gradf x) d) as CS. rewrite <- Z, Sl in CS. nra. }
    assert (LH : 0 < L * hi) by nra.
    assert (Thr : 2 * (1 - c1 bcfg) / (L * hi) <= 2 * (1 - c1 bcfg) * (- dot (gradf x) d) / (L * dot d d)).
    { rewrite Sl. apply (Rmult_le_reg_r (L * hi)); [exact LH|]. unfold Rdiv. rewrite (Rmult_assoc _ (/ (L * hi))), Rinv_l, Rmult_1_r by lra.
      apply (Rmult_le_reg_r (L * dot d d)); [nra|].
      replace (2 * (1 - c1 bcfg) * - - q * / (L * dot d d) * (L * hi) * (L * dot d d)) with (2 * (1 - c1 bcfg) * (L * (hi * q))) by (field; split; lra).
      replace (2 * (1 - c1 bcfg) * (L * dot d d)) with (2 * (1 - c1 bcfg) * (L * dot d d)) by reflexivity.
      apply Rmult_le_compat_l; [lra|]. apply Rmult_le_compat_l; lra. }
    specialize (S_ ltac:(rewrite Sl; lra) ltac:(lra)).
    assert (Up : forall t, 0 < t <= max_stepsize bcfg -> exists v, Fin (f (vadd x (smul t d))) = Fin v /\
        v <= f x + t * dot (gradf x) d + L / 2 * (t * t) * dot d d).
    { intros t Htt. exists (f (vadd x (smul t d))). split; [reflexivity|]. destruct HF as (_ & _ & A).
      assert (Hz : length (vadd x (smul t d)) = n) by (apply vadd_smul_length; assumption).
      destruct (A x _ Hx Hz) as [_ A2].
      assert (E1 : dot (gradf x) (vsub (vadd x (smul t d)) x) = t * dot (gradf x) d) by vring.
      assert (E2 : dist2 (vadd x (smul t d)) x = t * t * dot d d) by vring.
      rewrite E1, E2 in A2. lra. }
    specialize (S_ Up). cbv zeta in S_.
    assert (Hl : Rmin (max_stepsize bcfg) s0 * decrease_factor bcfg ^ (maxiter bcfg - 1) <= 2 * (1 - c1 bcfg) * - dot (gradf x) d / (L * dot d d)).
    { eapply Rle_trans; [|eapply Rle_trans; [exact Hlast|exact Thr]]. apply Rmult_le_compat_r; [apply pow_le; lra|apply Rmin_l]. }
    specialize (S_ Hl). destruct S_ as (S1 & S2 & S3).
    split; [exact S2|]. split; [apply Dec; exact S1|]. unfold armijo_floor. destruct S3 as [S3|S3].
    + rewrite S3. apply Rmin_l.
    + eapply Rle_trans; [apply Rmin_r|]. left. eapply Rle_lt_trans; [|exact S3]. apply Rmult_le_compat_l; [lra|exact Thr].
Qed.
(** backtracking from max_stepsize <= 1 returns steps in [0, 1] *)
Lemma bt_unit bcfg f gradf : tol bcfg = 0 -> 0 < max_stepsize bcfg <= 1 -> 0 < decrease_factor bcfg <= 1 -> (0 < maxiter bcfg)%nat ->
  Lbfgsb.ls_unit f gradf (bt_line_search bcfg f gradf).
Proof.
  intros Ht Hm Hdf Hmax s0 x v g d Hs. unfold bt_line_search.
  pose proof (C19_backtracking bcfg (fun z => Fin (f z)) gradf true s0 x v g (Some d) ltac:(lra) Hs ltac:(lra) Hdf Hmax) as B.
  cbv zeta in B. destruct (bt_run _ _ _ _ _ _ _ _ _) as [s st]. cbv zeta. cbn [ls_step ls_params ls_value ls_grad the_direction] in *.
  destruct B as (k & _ & _ & _ & B4 & _ & _ & _ & _ & B9 & B10 & B11).
  split; [lra|]. split; [exact B9|]. split; [rewrite B10; reflexivity|exact B11].
Qed.
