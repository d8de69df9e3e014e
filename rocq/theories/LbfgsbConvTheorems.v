(** C84: L-BFGS-B converges on strongly convex objectives over a box, and its run stops with the tolerance met. *)
From Coq Require Import String.
From Coq Require Import Reals List Lra Lia Bool Arith Psatz.
From Verif Require Import Prelude Base Vec Mat XArith LinAlg Loss LossProofs Backtracking BacktrackingTheorems Zoom ZoomProofs ZoomTheorems Run QuasiNewton QuasiNewtonProofs Convergence ConvergenceProofs ConvergenceRuns ConvergenceTheorems.
From Verif Require Import ZoomSuccess ZoomSuccessProofs ZoomSuccessTheorems ZoomRuns ZoomRunsProofs ZoomRunsTheorems.
From Verif Require Import Lbfgsb LbfgsbHess LbfgsbCauchy LbfgsbProofs LbfgsbTheorems LbfgsbConvergence LbfgsbConvHess LbfgsbConvPath LbfgsbConvSteps LbfgsbConvProofs LbfgsbConvRuns LbfgsbConvFree LbfgsbConvSolve.
Import ListNotations.
Open Scope R_scope.

Lemma inverse_large n mu L f gradf theta0 h : strongly_convex_smooth n mu L f gradf -> 0 < theta0 -> (0 < h)%nat ->
  0 < hess_inverse mu L (theta_low mu theta0) h /\ 2 <= L * hess_inverse mu L (theta_low mu theta0) h.
Proof.
  intros HF T0 Hh. assert (HmL : 0 < mu <= L) by apply HF. pose proof (tl_pos n mu L f gradf HF theta0 T0) as Tl.
  destruct h as [|h]; [lia|]. pose proof (hess_inverse_pos mu L (theta_low mu theta0) h HmL Tl) as P. cbn [hess_inverse].
  assert (Q : 0 < L / mu) by (apply Rdiv_lt_0_compat; lra). assert (Qa : 0 < 2 * (L / mu) * hess_inverse mu L (theta_low mu theta0) h) by (apply Rmult_lt_0_compat; [lra|exact P]).
  assert (Q2 : 0 < 2 / mu) by (apply Rdiv_lt_0_compat; lra). assert (Q3 : 2 / mu * mu = 2) by (field; lra). split; [lra|nra].
Qed.

(** The updates of LBFGSB never raise with known options: a run of any length exists. *)
Theorem C84_runs_exist : forall solve eps f gradf ls cfg theta0 bounds x0,
  use_linesearch cfg = true -> positive_starts cfg ->
  exists steps, forall N, lbfgsb_run solve eps f gradf ls cfg theta0 bounds x0 steps N.
Proof.
  intros solve eps f gradf ls cfg theta0 bounds x0 Hul (Hs & _).
  assert (U : forall s, exists s', lbfgsb_update solve eps f gradf ls cfg theta0 bounds s = Ok s').
  { intros [x st]. unfold lbfgsb_update. destruct (bounds_or_default _ _) as [lower upper]. unfold lbfgsb_step. rewrite Hul.
    assert (I : exists s0, init_stepsize (qn_linesearch_init cfg) (qn_max_stepsize cfg) (qn_min_stepsize cfg) (qn_increase_factor cfg) (lb_stepsize st) = Ok s0).
    { unfold init_stepsize. destruct Hs as [-> | ->]; cbn; repeat (destruct (string_dec _ _); [eexists; reflexivity|]); eexists; reflexivity. }
    destruct I as (s0 & ->). destruct (lbfgsb_store _ _ _ _ _) as [[[? ?] ?] ?]. eexists. reflexivity. }
  set (next := fun s => match lbfgsb_update solve eps f gradf ls cfg theta0 bounds s with Ok s' => s' | Err _ => s end).
  exists (fun k => Nat.iter k next (x0, lbfgsb_init f gradf cfg theta0 x0 bounds)). intros N. split; [reflexivity|].
  intros k _. change (Nat.iter (S k) next ?a) with (next (Nat.iter k next a)). set (s := Nat.iter k next _). unfold next. destruct (U s) as (s' & ->). reflexivity.
Qed.
Print Assumptions C84_runs_exist.

(** Along a run, theta and the eigenvalues of the approximate Hessian B stay in a fixed positive range. *)
Theorem C84_hessian : forall n mu L f gradf solve eps theta0 ls cfg bounds lower upper x0 steps N k z,
  lbfgsb_setting n mu L f gradf solve eps theta0 cfg bounds lower upper x0 -> ls_unit f gradf ls ->
  let C := hess_inverse mu L (theta_low mu theta0) (qn_history_size cfg) in
  let M := hess_upper L (theta_high L theta0) (qn_history_size cfg) in
  lbfgsb_run solve eps f gradf ls cfg theta0 bounds x0 steps N ->
  no_bounds lower upper \/ (forall j, (j < N)%nat -> clear_point eps C lower upper (fst (steps j)) (gradf (fst (steps j)))) ->
  (k <= N)%nat -> length z = n ->
  let st := snd (steps k) in
  let b := bform (lb_theta st) (state_w n st) (state_m solve (qn_history_size cfg) st) z z in
  0 < theta_low mu theta0 <= lb_theta st /\ lb_theta st <= theta_high L theta0 /\ 0 < C /\ dot z z <= C * b /\ b <= M * dot z z.
Proof.
  intros n mu L f gradf solve eps theta0 ls cfg bounds lower upper x0 steps N k z ST LU C M RUN CP Hk Hz st b.
  destruct (choose_eps n mu L f gradf solve eps theta0 ls cfg bounds lower upper x0 steps N ST LU RUN CP) as (e & Heps' & RUN' & CP' & Ed). destruct ST as (HF & SOL & Heps & T0 & Hh & Eb & Hul & PS & Hx0 & B0).
  clear RUN CP Heps. rename Heps' into Heps, RUN' into RUN, CP' into CP.
  pose proof (tl_pos n mu L f gradf HF theta0 T0) as Tl.
  pose proof (theta_range n mu L f gradf HF solve e theta0 ls cfg bounds lower upper SOL Heps T0 Hh Eb LU PS x0 Hx0 B0 steps N RUN CP k Hk) as Tr.
  pose proof (hess_bounds n mu L f gradf HF solve e theta0 ls cfg bounds lower upper SOL Heps T0 Hh Eb LU PS x0 Hx0 B0 steps N RUN CP k Hk z Hz) as Hb.
  destruct (inverse_large n mu L f gradf theta0 (qn_history_size cfg) HF T0 Hh) as [C0 _].
  cbv zeta in *. unfold st, b, C, M. cbv beta in *. split; [split; [exact Tl|apply Tr]|]. split; [apply Tr|]. split; [exact C0|exact Hb].
Qed.
Print Assumptions C84_hessian.

(** Every search direction ends in the box, descends at least in proportion to the slope towards the projected gradient step, and its
    length is controlled by that descent. *)
Theorem C84_direction : forall n mu L f gradf solve eps theta0 ls cfg bounds lower upper x0 steps N k,
  lbfgsb_setting n mu L f gradf solve eps theta0 cfg bounds lower upper x0 -> ls_unit f gradf ls ->
  let C := hess_inverse mu L (theta_low mu theta0) (qn_history_size cfg) in
  let M := hess_upper L (theta_high L theta0) (qn_history_size cfg) in
  lbfgsb_run solve eps f gradf ls cfg theta0 bounds x0 steps N ->
  no_bounds lower upper \/ (forall j, (j < N)%nat -> clear_point eps C lower upper (fst (steps j)) (gradf (fst (steps j)))) ->
  (k < N)%nat ->
  let x := fst (steps k) in let p := lbfgsb_direction solve eps cfg x (snd (steps k)) lower upper in
  length p = n /\ in_bounds lower upper (vadd x p) /\ 0 <= projected_slope lower upper x (gradf x) /\
  projected_slope lower upper x (gradf x) <= 2 * (M + 1) * - dot (gradf x) p /\ dot p p <= 2 * C * - dot (gradf x) p.
Proof.
  intros n mu L f gradf solve eps theta0 ls cfg bounds lower upper x0 steps N k ST LU C M RUN CP Hk x p.
  destruct (choose_eps n mu L f gradf solve eps theta0 ls cfg bounds lower upper x0 steps N ST LU RUN CP) as (e & Heps' & RUN' & CP' & Ed). destruct ST as (HF & SOL & Heps & T0 & Hh & Eb & Hul & PS & Hx0 & B0).
  clear RUN CP Heps. rename Heps' into Heps, RUN' into RUN, CP' into CP. unfold p, x. rewrite (Ed k Hk). clear p. set (p := lbfgsb_direction solve e cfg (fst (steps k)) (snd (steps k)) lower upper). fold x in p.
  destruct (dir_bounds n mu L f gradf HF solve e theta0 ls cfg bounds lower upper SOL Heps T0 Hh Eb LU PS x0 Hx0 B0 steps N RUN CP k Hk) as (Lp & Bp & Sl & Dd).
  destruct (facts n mu L f gradf HF solve e theta0 ls cfg bounds lower upper SOL Heps T0 Hh Eb LU PS x0 Hx0 B0 steps N RUN CP k ltac:(lia)) as (Lx & Bx & _).
  cbv beta in *. fold x in Lx, Bx, Lp, Bp, Sl, Dd. fold p in Lp, Bp, Sl, Dd.
  pose proof (M_pos n mu L f gradf HF theta0 cfg T0) as Mp. fold M in Mp, Sl.
  split; [exact Lp|]. split; [exact Bp|]. split.
  { exact (slope_nonneg n mu L f gradf HF lower upper x Lx Bx). }
  split; [|exact Dd]. apply (Rmult_le_compat_l (2 * (M + 1))) in Sl; [|lra]. replace (2 * (M + 1) * (projected_slope lower upper x (gradf x) / (2 * (M + 1)))) with (projected_slope lower upper x (gradf x)) in Sl by (field; lra). exact Sl.
Qed.
Print Assumptions C84_direction.

(** Linear convergence with any line search with steps in [0,1] whose results satisfy the Armijo condition and are not too short. *)
Theorem C84_linear : forall n mu L f gradf solve eps theta0 ls cfg bounds lower upper x0 steps N c1 c2 tmin z,
  lbfgsb_setting n mu L f gradf solve eps theta0 cfg bounds lower upper x0 -> ls_unit f gradf ls ->
  0 < c1 <= c2 -> c2 < 1 -> 0 < tmin ->
  let C := hess_inverse mu L (theta_low mu theta0) (qn_history_size cfg) in
  let M := hess_upper L (theta_high L theta0) (qn_history_size cfg) in
  lbfgsb_run solve eps f gradf ls cfg theta0 bounds x0 steps N ->
  no_bounds lower upper \/ (forall k, (k < N)%nat -> clear_point eps C lower upper (fst (steps k)) (gradf (fst (steps k)))) ->
  (forall k, (k < N)%nat -> efficient_step c1 c2 tmin f gradf (fst (steps k)) (lbfgsb_direction solve eps cfg (fst (steps k)) (snd (steps k)) lower upper) (lb_stepsize (snd (steps (S k))))) ->
  box_minimiser lower upper n f z ->
  let r := box_gap_factor mu c1 (Rmin (wolfe_floor c2 L (2 * C)) tmin) M in
  0 <= r < 1 /\
  forall k, (k <= N)%nat -> let x := fst (steps k) in
    length x = n /\ in_bounds lower upper x /\
    f x - f z <= r ^ k * (f x0 - f z) /\ mu / 2 * dist2 x z <= r ^ k * (f x0 - f z) /\
    exists e, lb_error (snd (steps k)) = Fin e /\ get_error x (gradf x) lower upper = Fin e /\ 0 <= e /\ e * e <= 2 * Rmax 1 L * r ^ k * (f x0 - f z).
Proof.
  intros n mu L f gradf solve eps theta0 ls cfg bounds lower upper x0 steps N c1 c2 tmin z ST LU Hc Hc2 Htm C M RUN CP EF BM r.
  destruct (choose_eps n mu L f gradf solve eps theta0 ls cfg bounds lower upper x0 steps N ST LU RUN CP) as (e & Heps' & RUN' & CP' & Ed). destruct ST as (HF & SOL & Heps & T0 & Hh & Eb & Hul & PS & Hx0 & B0).
  assert (EF' : forall k, (k < N)%nat -> efficient_step c1 c2 tmin f gradf (fst (steps k)) (lbfgsb_direction solve e cfg (fst (steps k)) (snd (steps k)) lower upper) (lb_stepsize (snd (steps (S k))))) by (intros k Hk; rewrite <- (Ed k Hk); apply EF, Hk).
  clear RUN CP Heps EF. rename Heps' into Heps, RUN' into RUN, CP' into CP, EF' into EF.
  assert (HmL : 0 < mu <= L) by apply HF.
  destruct (inverse_large n mu L f gradf theta0 (qn_history_size cfg) HF T0 Hh) as [C0 CL]. fold C in C0, CL.
  assert (W : wolfe_floor c2 L (2 * C) * (L * (2 * C)) = 1 - c2) by (unfold wolfe_floor; field; split; lra).
  assert (W0 : 0 < wolfe_floor c2 L (2 * C)) by (unfold wolfe_floor; apply Rdiv_lt_0_compat; [lra|apply Rmult_lt_0_compat; lra]).
  assert (W1 : wolfe_floor c2 L (2 * C) <= 1) by nra.
  set (floor := Rmin (wolfe_floor c2 L (2 * C)) tmin) in *. assert (F0 : 0 < floor) by (apply Rmin_glb_lt; assumption). assert (F1 : floor <= 1) by (eapply Rle_trans; [apply Rmin_l|exact W1]).
  assert (Hr : 0 <= r < 1) by (apply box_factor_range; try lra; [apply (M_pos n mu L f gradf HF theta0 cfg T0)|nra]).
  split; [exact Hr|].
  assert (Dec : forall k, (k < N)%nat -> let t := lb_stepsize (snd (steps (S k))) in let p := lbfgsb_direction solve e cfg (fst (steps k)) (snd (steps k)) lower upper in
    0 <= t /\ f (vadd (fst (steps k)) (smul t p)) <= f (fst (steps k)) + c1 * t * dot (gradf (fst (steps k))) p /\ (dot (gradf (fst (steps k))) p <> 0 -> floor <= t)).
  { intros k Hk. cbv zeta. specialize (EF k Hk).
    destruct (facts n mu L f gradf HF solve e theta0 ls cfg bounds lower upper SOL Heps T0 Hh Eb LU PS x0 Hx0 B0 steps N RUN CP k ltac:(lia)) as (Lx & _).
    destruct (dir_bounds n mu L f gradf HF solve e theta0 ls cfg bounds lower upper SOL Heps T0 Hh Eb LU PS x0 Hx0 B0 steps N RUN CP k Hk) as (Lp & _ & _ & Dd).
    split; [left; apply EF|]. split; [apply EF|]. intros Hq.
    apply (dir_floor n mu L f gradf _ _ (2 * C) c1 c2 tmin _ HF Lx Lp ltac:(lra) Dd Hc2 EF Hq). }
  intros k Hk. cbv zeta.
  destruct (facts n mu L f gradf HF solve e theta0 ls cfg bounds lower upper SOL Heps T0 Hh Eb LU PS x0 Hx0 B0 steps N RUN CP k Hk) as (Lx & Bx & _ & _ & _ & Ee & _).
  pose proof BM as (Hz & Bz & _).
  assert (G : f (fst (steps k)) - f z <= r ^ k * (f x0 - f z)) by apply (run_gap n mu L f gradf HF solve e theta0 ls cfg bounds lower upper SOL Heps T0 Hh Eb Hul LU PS x0 Hx0 B0 steps N RUN CP c1 floor (proj1 Hc) F0 Dec (proj1 Hr) z k Hz Bz Hk).
  pose proof (box_dist n mu L f gradf lower upper (fst (steps k)) z HF BM Lx Bx) as Bd.
  split; [exact Lx|]. split; [exact Bx|]. split; [exact G|]. split; [lra|].
  cbv beta in Ee. eexists. split; [rewrite Ee; apply (error_eq lower upper _ _ Bx)|]. split; [apply (error_eq lower upper _ _ Bx)|]. split; [apply maxabs_nonneg|].
  eapply (run_error n mu L f gradf HF solve e theta0 ls cfg bounds lower upper SOL Heps T0 Hh Eb Hul LU PS x0 Hx0 B0 steps N RUN CP c1 floor (proj1 Hc) F0 Dec (proj1 Hr) z _ k BM Hk).
  rewrite Ee. apply error_eq, Bx.
Qed.
Print Assumptions C84_linear.

(** The run with Armijo backtracking: N iterations are enough for the tolerance, whatever larger maxiter is given. *)
Theorem C84_backtracking : forall n mu L f gradf solve eps theta0 cfg bcfg bounds lower upper x0 z N steps,
  lbfgsb_setting n mu L f gradf solve eps theta0 cfg bounds lower upper x0 -> 1 <= qn_increase_factor cfg -> 0 < qn_tol cfg ->
  condition bcfg = Armijo -> 0 < c1 bcfg < 1 -> tol bcfg = 0 -> 0 < max_stepsize bcfg <= 1 -> 0 < decrease_factor bcfg <= 1 ->
  let C := hess_inverse mu L (theta_low mu theta0) (qn_history_size cfg) in
  let M := hess_upper L (theta_high L theta0) (qn_history_size cfg) in
  let ls := bt_line_search bcfg f gradf in
  (0 < maxiter bcfg)%nat -> max_stepsize bcfg * decrease_factor bcfg ^ (maxiter bcfg - 1) <= 2 * (1 - c1 bcfg) / (L * (2 * C)) ->
  box_minimiser lower upper n f z ->
  let r := box_gap_factor mu (c1 bcfg) (armijo_floor (c1 bcfg) (decrease_factor bcfg) (Rmin (max_stepsize bcfg) (qn_max_stepsize cfg)) L (2 * C)) M in
  (0 < N)%nat -> 2 * Rmax 1 L * r ^ N * (f x0 - f z) <= qn_tol cfg * qn_tol cfg ->
  lbfgsb_run solve eps f gradf ls cfg theta0 bounds x0 steps N ->
  no_bounds lower upper \/ (forall k, (k < N)%nat -> k = 0%nat \/ lbfgsb_cond cfg (snd (steps k)) = true -> clear_point eps C lower upper (fst (steps k)) (gradf (fst (steps k)))) ->
  0 <= r < 1 /\
  exists k, (1 <= k <= N)%nat /\ (forall maxit, (N <= maxit)%nat -> lbfgsb_solve solve eps f gradf ls cfg theta0 bounds maxit x0 = Ok (steps k)) /\
    box_answer n mu (qn_tol cfg) (r ^ k * (f x0 - f z)) f gradf lower upper z k (steps k).
Proof.
  intros n mu L f gradf solve eps theta0 cfg bcfg bounds lower upper x0 z N steps ST Hqi Htol Hc Hc1 Ht Hm Hdf C M ls Hmax Hlast BM r HN Hrate RUN CP. pose proof ST as (HF & SOL & Heps & T0 & Hh & Eb & Hul & PS & Hx0 & B0).
  assert (HmL : 0 < mu <= L) by apply HF.
  destruct (inverse_large n mu L f gradf theta0 (qn_history_size cfg) HF T0 Hh) as [C0 CL]. fold C in C0, CL.
  assert (LH : 0 < L * (2 * C)) by nra. pose proof PS as (_ & Hqm & _).
  set (floor := armijo_floor (c1 bcfg) (decrease_factor bcfg) (Rmin (max_stepsize bcfg) (qn_max_stepsize cfg)) L (2 * C)) in *.
  assert (Pthr : 0 < 2 * (1 - c1 bcfg) / (L * (2 * C))) by (apply Rdiv_lt_0_compat; lra).
  assert (F0 : 0 < floor) by (unfold floor, armijo_floor; repeat apply Rmin_glb_lt; try lra; apply Rmult_lt_0_compat; lra).
  assert (Fq : floor <= qn_max_stepsize cfg) by (unfold floor, armijo_floor; eapply Rle_trans; [apply Rmin_l|apply Rmin_r]).
  assert (Fm : floor <= max_stepsize bcfg) by (unfold floor, armijo_floor; eapply Rle_trans; [apply Rmin_l|apply Rmin_l]).
  assert (Fd : floor <= decrease_factor bcfg * (2 * (1 - c1 bcfg) / (L * (2 * C)))) by (unfold floor, armijo_floor; apply Rmin_r).
  assert (Hcf : c1 bcfg * floor <= 1) by nra.
  assert (Hr : 0 <= r < 1) by (apply box_factor_range; try lra; apply (M_pos n mu L f gradf HF theta0 cfg T0)).
  split; [exact Hr|].
  refine (conv_any n mu L f gradf solve eps theta0 ls cfg bounds lower upper x0 (c1 bcfg) floor floor z N steps ST _ Hqi Htol (proj1 Hc1) F0 Fq F0 Hcf _ BM HN Hrate RUN CP).
  - apply bt_unit; assumption.
  - intros x d s0 Lx Ld Dd Hs. fold C in Dd.
    destruct (bt_dir n mu L f gradf (2 * C) x d bcfg s0 HF ltac:(lra) Lx Ld Dd Hc Hc1 Ht ltac:(lra) (proj1 Hm) Hdf Hmax Hlast) as (A1 & A2 & A3).
    assert (Fs : floor <= armijo_floor (c1 bcfg) (decrease_factor bcfg) (Rmin (max_stepsize bcfg) s0) L (2 * C)) by (unfold armijo_floor; repeat apply Rmin_glb; assumption).
    cbv zeta. unfold ls. split; [exact A1|]. split; [exact A2|]. split; [|intros _]; eapply Rle_trans; eassumption.
Qed.
Print Assumptions C84_backtracking.

(** The run with the zoom search of the default options, on quadratics, with max_stepsize at most 1. *)
Theorem C84_zoom : forall n mu L Q b solve eps theta0 cfg zcfg bounds lower upper x0 z N steps J Z,
  mat_shape n n Q -> symmetric n Q -> length b = n -> 0 < mu <= L -> eig_bounds n mu L Q ->
  let f := quadratic Q b in let gradf := quadratic_grad Q b in
  lbfgsb_setting n mu L f gradf solve eps theta0 cfg bounds lower upper x0 -> 1 <= qn_increase_factor cfg -> 0 < qn_tol cfg ->
  zoom_ok zcfg -> 1 < increase_factor zcfg -> wolfe_constants zcfg -> ztol zcfg = 0 -> zmax zcfg <= 1 ->
  let C := hess_inverse mu L (theta_low mu theta0) (qn_history_size cfg) in
  let M := hess_upper L (theta_high L theta0) (qn_history_size cfg) in
  let ls := zoom_ls zcfg f gradf in
  zoom_fits zcfg cfg L (2 * C) J Z ->
  box_minimiser lower upper n f z ->
  let r := box_gap_factor mu (zc1 zcfg) (Rmin (wolfe_floor (zc2 zcfg) L (2 * C)) (zmax zcfg)) M in
  (0 < N)%nat -> 2 * Rmax 1 L * r ^ N * (f x0 - f z) <= qn_tol cfg * qn_tol cfg ->
  lbfgsb_run solve eps f gradf ls cfg theta0 bounds x0 steps N ->
  no_bounds lower upper \/ (forall k, (k < N)%nat -> k = 0%nat \/ lbfgsb_cond cfg (snd (steps k)) = true -> clear_point eps C lower upper (fst (steps k)) (gradf (fst (steps k)))) ->
  0 <= r < 1 /\
  exists k, (1 <= k <= N)%nat /\ (forall maxit, (N <= maxit)%nat -> lbfgsb_solve solve eps f gradf ls cfg theta0 bounds maxit x0 = Ok (steps k)) /\
    box_answer n mu (qn_tol cfg) (r ^ k * (f x0 - f z)) f gradf lower upper z k (steps k).
Proof.
  intros n mu L Q b solve eps theta0 cfg zcfg bounds lower upper x0 z N steps J Z HQ HS Hb HmL HE f gradf ST Hqi Htol Hok Hinc Hw Ht Hz1 C M ls Hfit BM r HN Hrate RUN CP. pose proof ST as (HF & SOL & Heps & T0 & Hh & Eb & Hul & PS & Hx0 & B0).
  assert (Hex : slopes_exact (zc1 zcfg) n f gradf) by (apply quad_exact; assumption).
  destruct (inverse_large n mu L f gradf theta0 (qn_history_size cfg) HF T0 Hh) as [C0 CL]. fold C in C0, CL.
  assert (LH : 0 < L * (2 * C)) by nra. pose proof PS as (_ & Hqm & _). pose proof Hok as Hok'. destruct Hw as (Hw1 & Hw2 & Hw3).
  assert (Wo : wolfe_constants zcfg) by (unfold wolfe_constants; auto).
  assert (Zm : 0 < zmax zcfg) by (unfold zoom_ok in Hok'; tauto || lra).
  assert (W0 : 0 < wolfe_floor (zc2 zcfg) L (2 * C)) by (unfold wolfe_floor; apply Rdiv_lt_0_compat; lra).
  set (floor := Rmin (wolfe_floor (zc2 zcfg) L (2 * C)) (zmax zcfg)) in *.
  assert (F0 : 0 < floor) by (apply Rmin_glb_lt; assumption). assert (F1 : floor <= 1) by (eapply Rle_trans; [apply Rmin_r|exact Hz1]).
  set (fl := step_floor zcfg cfg L (2 * C)).
  assert (Fl0 : 0 < fl) by (unfold fl, step_floor; repeat apply Rmin_glb_lt; assumption).
  assert (Flw : fl <= wolfe_floor (zc2 zcfg) L (2 * C)) by (apply Rmin_l).
  assert (Flm : fl <= zmax zcfg) by (eapply Rle_trans; [apply Rmin_r|apply Rmin_l]).
  assert (Flq : fl <= qn_max_stepsize cfg) by (eapply Rle_trans; [apply Rmin_r|apply Rmin_r]).
  destruct Hfit as (Z1 & Z2 & Z3 & Z4). fold fl in Z1.
  assert (Hcf : zc1 zcfg * floor <= 1) by nra.
  assert (Hr : 0 <= r < 1) by (apply box_factor_range; try lra; apply (M_pos n mu L f gradf HF theta0 cfg T0)).
  split; [exact Hr|].
  refine (conv_any n mu L f gradf solve eps theta0 ls cfg bounds lower upper x0 (zc1 zcfg) fl floor z N steps ST _ Hqi Htol ltac:(lra) Fl0 Flq F0 Hcf _ BM HN Hrate RUN CP).
  - apply C48_zoom; assumption.
  - intros x d s0 Lx Ld Dd Hs. fold C in Dd.
    assert (Z1' : zmax zcfg <= s0 * increase_factor zcfg ^ J).
    { eapply Rle_trans; [exact Z1|]. apply Rmult_le_compat_r; [apply pow_le; lra|exact Hs]. }
    destruct (zoom_dir n mu L f gradf HF zcfg Hex Hok Hinc Wo Ht (2 * C) x d s0 J Z ltac:(lra) Lx Ld Dd ltac:(lra) Z1' Z2 Z3 Z4) as (A1 & A2 & A3).
    cbv zeta. unfold ls. split; [exact A1|]. split; [apply A2|]. split.
    + eapply Rle_trans; [|exact A3]. repeat apply Rmin_glb; assumption.
    + intros Hq. apply (dir_floor n mu L f gradf x d (2 * C) (zc1 zcfg) (zc2 zcfg) (zmax zcfg) _ HF Lx Ld ltac:(lra) Dd ltac:(lra) A2 Hq).
Qed.
Print Assumptions C84_zoom.

(** Some number of iterations, which depends on the data and not on the run, is enough. *)
Theorem C84_converges : forall n mu L f gradf solve eps theta0 cfg bcfg bounds lower upper x0 z,
  lbfgsb_setting n mu L f gradf solve eps theta0 cfg bounds lower upper x0 -> 1 <= qn_increase_factor cfg -> 0 < qn_tol cfg ->
  condition bcfg = Armijo -> 0 < c1 bcfg < 1 -> tol bcfg = 0 -> 0 < max_stepsize bcfg <= 1 -> 0 < decrease_factor bcfg <= 1 ->
  let C := hess_inverse mu L (theta_low mu theta0) (qn_history_size cfg) in
  let ls := bt_line_search bcfg f gradf in
  (0 < maxiter bcfg)%nat -> max_stepsize bcfg * decrease_factor bcfg ^ (maxiter bcfg - 1) <= 2 * (1 - c1 bcfg) / (L * (2 * C)) ->
  box_minimiser lower upper n f z ->
  exists N, (0 < N)%nat /\ forall steps, lbfgsb_run solve eps f gradf ls cfg theta0 bounds x0 steps N ->
    no_bounds lower upper \/ (forall k, (k < N)%nat -> k = 0%nat \/ lbfgsb_cond cfg (snd (steps k)) = true -> clear_point eps C lower upper (fst (steps k)) (gradf (fst (steps k)))) ->
    exists k, (1 <= k <= N)%nat /\ (forall maxit, (N <= maxit)%nat -> lbfgsb_solve solve eps f gradf ls cfg theta0 bounds maxit x0 = Ok (steps k)) /\
      box_answer n mu (qn_tol cfg) (f x0 - f z) f gradf lower upper z k (steps k).
Proof.
  intros n mu L f gradf solve eps theta0 cfg bcfg bounds lower upper x0 z ST Hqi Htol Hc Hc1 Ht Hm Hdf C ls Hmax Hlast BM.
  pose proof ST as (HF & SOL & Heps & T0 & Hh & Eb & Hul & PS & Hx0 & B0). assert (HmL : 0 < mu <= L) by apply HF.
  destruct (inverse_large n mu L f gradf theta0 (qn_history_size cfg) HF T0 Hh) as [C0 CL]. fold C in C0, CL.
  pose proof PS as (_ & Hqm & _).
  set (r := box_gap_factor mu (c1 bcfg) (armijo_floor (c1 bcfg) (decrease_factor bcfg) (Rmin (max_stepsize bcfg) (qn_max_stepsize cfg)) L (2 * C)) (hess_upper L (theta_high L theta0) (qn_history_size cfg))).
  assert (Pthr : 0 < 2 * (1 - c1 bcfg) / (L * (2 * C))) by (apply Rdiv_lt_0_compat; [lra|nra]).
  assert (Hr : 0 <= r < 1).
  { set (floor := armijo_floor (c1 bcfg) (decrease_factor bcfg) (Rmin (max_stepsize bcfg) (qn_max_stepsize cfg)) L (2 * C)) in *.
    assert (F0 : 0 < floor) by (unfold floor, armijo_floor; repeat apply Rmin_glb_lt; try lra; apply Rmult_lt_0_compat; lra).
    assert (Fm : floor <= max_stepsize bcfg) by (unfold floor, armijo_floor; eapply Rle_trans; [apply Rmin_l|apply Rmin_l]).
    apply box_factor_range; try lra; [apply (M_pos n mu L f gradf HF theta0 cfg T0)|nra]. }
  assert (G0 : 0 <= f x0 - f z) by (destruct BM as (_ & _ & H); specialize (H x0 Hx0 B0); lra).
  assert (K0 : 0 <= 2 * Rmax 1 L * (f x0 - f z)) by (pose proof (Rmax_l 1 L); apply Rmult_le_pos; lra).
  destruct (pow_small (2 * Rmax 1 L * (f x0 - f z)) r (qn_tol cfg * qn_tol cfg) K0 Hr ltac:(nra)) as (N & HN).
  exists (S N). split; [lia|]. intros steps RUN CP.
  assert (Hrate : 2 * Rmax 1 L * r ^ S N * (f x0 - f z) <= qn_tol cfg * qn_tol cfg).
  { specialize (HN (S N) ltac:(lia)). lra. }
  destruct (C84_backtracking n mu L f gradf solve eps theta0 cfg bcfg bounds lower upper x0 z (S N) steps ST Hqi Htol Hc Hc1 Ht Hm Hdf Hmax Hlast BM ltac:(lia) Hrate RUN CP) as (_ & k & Hk & E & An).
  exists k. split; [exact Hk|]. split; [exact E|]. fold C r in An. unfold box_answer in *. destruct (steps k) as [x st].
  assert (P1 : r ^ k * (f x0 - f z) <= f x0 - f z) by (rewrite <- (Rmult_1_l (f x0 - f z)) at 2; apply Rmult_le_compat_r; [exact G0|rewrite <- (pow1 k); apply pow_incr; lra]).
  destruct An as (A1 & A2 & A3 & A4 & A5 & A6 & A7). repeat (split; [assumption|]). split; lra.
Qed.
Print Assumptions C84_converges.

(** Without bounds nothing is asked of the iterates: the run reaches the unconstrained minimiser within any tolerance. *)
Lemma default_free n lower upper : bounds_or_default n None = (lower, upper) -> no_bounds lower upper.
Proof.
  intros E i. injection E as <- <-. unfold lo, up. split.
  - destruct (Nat.lt_ge_cases i n) as [H|H]; [|apply nth_overflow; rewrite repeat_length; exact H]. apply (repeat_spec n), nth_In. rewrite repeat_length. exact H.
  - destruct (Nat.lt_ge_cases i n) as [H|H]; [|apply nth_overflow; rewrite repeat_length; exact H]. apply (repeat_spec n), nth_In. rewrite repeat_length. exact H.
Qed.
Lemma default_in n x : in_bounds (repeat NInf n) (repeat PInf n) x.
Proof. intros i Hi. destruct (default_free n (repeat NInf n) (repeat PInf n) eq_refl i) as [-> ->]. split; reflexivity. Qed.
Theorem C84_unbounded : forall n mu L f gradf solve eps theta0 cfg bcfg x0 z,
  strongly_convex_smooth n mu L f gradf -> exact_solver solve -> 0 < eps -> 0 < theta0 -> (0 < qn_history_size cfg)%nat ->
  use_linesearch cfg = true -> positive_starts cfg -> length x0 = n -> 1 <= qn_increase_factor cfg -> 0 < qn_tol cfg ->
  condition bcfg = Armijo -> 0 < c1 bcfg < 1 -> tol bcfg = 0 -> 0 < max_stepsize bcfg <= 1 -> 0 < decrease_factor bcfg <= 1 ->
  let C := hess_inverse mu L (theta_low mu theta0) (qn_history_size cfg) in
  (0 < maxiter bcfg)%nat -> max_stepsize bcfg * decrease_factor bcfg ^ (maxiter bcfg - 1) <= 2 * (1 - c1 bcfg) / (L * (2 * C)) ->
  length z = n -> (forall y, length y = n -> f z <= f y) ->
  exists N, (0 < N)%nat /\ forall maxit, (N <= maxit)%nat -> exists x st,
    lbfgsb_solve solve eps f gradf (bt_line_search bcfg f gradf) cfg theta0 None maxit x0 = Ok (x, st) /\
    length x = n /\ (1 <= lb_iter st <= N)%nat /\ lb_failed st = false /\
    (exists e, lb_error st = Fin e /\ get_error x (gradf x) (repeat NInf n) (repeat PInf n) = Fin e /\ 0 <= e <= qn_tol cfg) /\ f z <= f x <= f x0.
Proof.
  intros n mu L f gradf solve eps theta0 cfg bcfg x0 z HF SOL Heps T0 Hh Hul PS Hx0 Hqi Htol Hc Hc1 Ht Hm Hdf C Hmax Hlast Hz Hmin.
  assert (ST : lbfgsb_setting n mu L f gradf solve eps theta0 cfg None (repeat NInf n) (repeat PInf n) x0).
  { repeat (split; [assumption || reflexivity|]). apply default_in. }
  assert (BM : box_minimiser (repeat NInf n) (repeat PInf n) n f z) by (split; [exact Hz|split; [apply default_in|intros y Hy _; apply Hmin, Hy]]).
  destruct (C84_converges n mu L f gradf solve eps theta0 cfg bcfg None _ _ x0 z ST Hqi Htol Hc Hc1 Ht Hm Hdf Hmax Hlast BM) as (N & HN & K).
  exists N. split; [exact HN|]. intros maxit HM.
  destruct (C84_runs_exist solve eps f gradf (bt_line_search bcfg f gradf) cfg theta0 None x0 Hul PS) as (steps & RUN).
  destruct (K steps (RUN N) (or_introl (default_free n _ _ eq_refl))) as (k & Hk & E & An). specialize (E maxit HM). unfold box_answer in An. destruct (steps k) as [x st].
  destruct An as (A1 & A2 & A3 & A4 & A5 & A6 & A7). exists x, st. split; [exact E|]. split; [exact A1|]. split; [rewrite A3; exact Hk|]. split; [exact A4|]. split; [exact A5|].
  pose proof (Hmin x A1). split; lra.
Qed.
Print Assumptions C84_unbounded.

(** The hypotheses are met: x^2/2 on [-1, infinity) from 1, where the first point is above the tolerance. *)
Definition ex_cfg (tol : R) : qn_config :=
  {| qn_stepsize := StepConst 0; qn_linesearch_init := "increase"; qn_increase_factor := 2; qn_max_stepsize := 1; qn_min_stepsize := 1 / 1000000;
     qn_tol := tol; qn_stop_if_linesearch_fails := false; qn_history_size := 1; qn_use_gamma := true |}%string.
Definition ex_bcfg : bt_config :=
  {| condition := Armijo; c1 := 1 / 4; c2 := 9 / 10; decrease_factor := 4 / 5; max_stepsize := 1; tol := 0; maxiter := 10 |}.
Lemma ex_setting tol : let Q := [[1]] in let b := [0] in
  lbfgsb_setting 1 1 1 (quadratic Q b) (quadratic_grad Q b) gauss_solve (1 / 1000) 1 (ex_cfg tol) (Some ([Fin (-1)], [PInf])) [Fin (-1)] [PInf] [1] /\
  box_minimiser [Fin (-1)] [PInf] 1 (quadratic Q b) [0] /\
  hess_inverse 1 1 (theta_low 1 1) 1 = 4 /\ hess_upper 1 (theta_high 1 1) 1 = 2 /\
  clear_point (1 / 1000) 4 [Fin (-1)] [PInf] [1] (quadratic_grad Q b [1]) /\
  get_error [1] (quadratic_grad Q b [1]) [Fin (-1)] [PInf] = Fin 1.
Proof.
  intros Q b.
  assert (HF : strongly_convex_smooth 1 1 1 (quadratic Q b) (quadratic_grad Q b)).
  { apply quad_ssc; [split; [reflexivity|repeat constructor]| |reflexivity|lra|].
    - intros i j Hi Hj. destruct i as [|]; destruct j as [|]; try lia; reflexivity.
    - intros v Hv. destruct v as [|a [|]]; try discriminate. cbn. nra. }
  assert (Hg : quadratic_grad Q b [1] = [1]) by (unfold quadratic_grad, Q, b; cbn; f_equal; lra).
  assert (B1 : in_bounds [Fin (-1)] [PInf] [1]) by (intros [|i] Hi; cbn in Hi; try lia; cbn [lo up nth]; split; try reflexivity; apply xle_fin; lra).
  split. { split; [exact HF|]. split; [exact gauss_exact|]. split; [lra|]. split; [lra|]. split; [cbn; lia|]. split; [reflexivity|].
    split; [unfold use_linesearch; cbn; unfold Rleb; destruct (Rle_dec 0 0); [reflexivity|lra]|]. split; [split; [right; reflexivity|cbn; lra]|]. split; [reflexivity|exact B1]. }
  split. { split; [reflexivity|]. split; [intros [|i] Hi; cbn in Hi; try lia; cbn [lo up nth]; split; try reflexivity; apply xle_fin; lra|].
    intros y Hy _. destruct y as [|a [|]]; try discriminate. unfold quadratic, Q, b. cbn. nra. }
  unfold theta_low, theta_high, hess_upper. rewrite Rmin_left, Rmax_left by lra. split; [cbn; field|]. split; [cbn; lra|]. rewrite Hg.
  split. { split; [|split].
    - intros [|i] Hi; cbn in Hi; try lia. right. cbn. rewrite Rabs_pos_eq by lra. lra.
    - intros [|i] r Hi; cbn in Hi; try lia. intros [[A _]|[_ A]]; cbn in A; [lra|]. injection A as A. right. lra.
    - intros [|i] [|j] r Hi Hj; cbn in Hi, Hj; lia. }
  rewrite (error_eq _ _ _ _ B1). f_equal. unfold maxabs, pstep. cbn. unfold Rmax, Rmin, Rabs. repeat (destruct (Rle_dec _ _) || destruct (Rcase_abs _)); lra.
Qed.
Example C84_example : let Q := [[1]] in let b := [0] in let f := quadratic Q b in let gradf := quadratic_grad Q b in
  let cfg := ex_cfg (999 / 1000) in let bounds := Some ([Fin (-1)], [PInf]) in
  exists steps k, lbfgsb_run gauss_solve (1 / 1000) f gradf (bt_line_search ex_bcfg f gradf) cfg 1 bounds [1] steps 1 /\
    lb_error (snd (steps 0%nat)) = Fin 1 /\ (1 <= k <= 1)%nat /\
    lbfgsb_solve gauss_solve (1 / 1000) f gradf (bt_line_search ex_bcfg f gradf) cfg 1 bounds 500 [1] = Ok (steps k) /\
    exists gap, box_answer 1 1 (999 / 1000) gap f gradf [Fin (-1)] [PInf] [0] k (steps k) /\ gap < 1 / 2.
Proof.
  intros Q b f gradf cfg bounds. destruct (ex_setting (999 / 1000)) as (ST & BM & EC & EM & CP & Er).
  pose proof ST as (_ & _ & _ & _ & _ & _ & Hul & PS & _).
  destruct (C84_runs_exist gauss_solve (1 / 1000) f gradf (bt_line_search ex_bcfg f gradf) cfg 1 bounds [1] Hul PS) as (steps & RUN). exists steps.
  assert (S0 : steps 0%nat = ([1], lbfgsb_init f gradf cfg 1 [1] bounds)) by apply (RUN 1%nat).
  assert (Er0 : box_gap_factor 1 (c1 ex_bcfg) (armijo_floor (c1 ex_bcfg) (decrease_factor ex_bcfg) (Rmin (max_stepsize ex_bcfg) (qn_max_stepsize cfg)) 1 (2 * hess_inverse 1 1 (theta_low 1 1) (qn_history_size cfg)))
     (hess_upper 1 (theta_high 1 1) (qn_history_size cfg)) = 1 - 1 / 240).
  { change (qn_history_size cfg) with 1%nat. rewrite EC, EM. unfold box_gap_factor, armijo_floor. cbn [c1 ex_bcfg decrease_factor max_stepsize qn_max_stepsize cfg ex_cfg].
    rewrite (Rmin_left 1 1) by lra. rewrite Rmin_right by lra. field. }
  assert (F0 : f [1] - f [0] = 1 / 2) by (unfold f, quadratic, Q, b; cbn; lra).
  assert (H1 : 1 <= qn_increase_factor cfg) by (cbn; lra). assert (H2 : 0 < qn_tol cfg) by (cbn; lra). assert (H3 : 0 < c1 ex_bcfg < 1) by (cbn; lra).
  assert (H4 : 0 < max_stepsize ex_bcfg <= 1) by (cbn; lra). assert (H5 : 0 < decrease_factor ex_bcfg <= 1) by (cbn; lra). assert (H6 : (0 < maxiter ex_bcfg)%nat) by (cbn; lia).
  assert (H7 : max_stepsize ex_bcfg * decrease_factor ex_bcfg ^ (maxiter ex_bcfg - 1) <= 2 * (1 - c1 ex_bcfg) / (1 * (2 * hess_inverse 1 1 (theta_low 1 1) (qn_history_size cfg)))).
  { change (qn_history_size cfg) with 1%nat. rewrite EC. cbn. lra. }
  pose proof (C84_backtracking 1 1 1 f gradf gauss_solve (1 / 1000) 1 cfg ex_bcfg bounds [Fin (-1)] [PInf] [1] [0] 1 steps ST H1 H2 eq_refl H3 eq_refl H4 H5 H6 H7 BM) as Th.
  cbv zeta in Th. rewrite Er0, F0 in Th. destruct Th as (_ & k & Hk & E & An).
  - lia.
  - rewrite Rmax_left by lra. change (qn_tol cfg) with (999 / 1000). lra.
  - apply RUN.
  - right. intros k Hk _. replace k with 0%nat by lia. rewrite S0. cbn [fst]. change (qn_history_size cfg) with 1%nat. rewrite EC. exact CP.
  - exists k. split; [apply RUN|]. split; [rewrite S0; exact Er|]. split; [exact Hk|]. split; [apply E; lia|]. eexists. split; [exact An|].
    replace k with 1%nat by lia. lra.
Qed.
(** The same with the default zoom search. *)
Example C84_zoom_example : let Q := [[1]] in let b := [0] in let f := quadratic Q b in let gradf := quadratic_grad Q b in
  let tol := 1 - 5 / 100000000 in let cfg := ex_cfg tol in let bounds := Some ([Fin (-1)], [PInf]) in
  exists steps k, lbfgsb_run gauss_solve (1 / 1000) f gradf (zoom_ls zoom_defaults f gradf) cfg 1 bounds [1] steps 1 /\
    lb_error (snd (steps 0%nat)) = Fin 1 /\ (1 <= k <= 1)%nat /\
    lbfgsb_solve gauss_solve (1 / 1000) f gradf (zoom_ls zoom_defaults f gradf) cfg 1 bounds 500 [1] = Ok (steps k) /\
    exists gap, box_answer 1 1 tol gap f gradf [Fin (-1)] [PInf] [0] k (steps k) /\ gap < 1 / 2.
Proof.
  intros Q b f gradf tol cfg bounds. destruct (ex_setting tol) as (ST & BM & EC & EM & CP & Er).
  pose proof ST as (_ & _ & _ & _ & _ & _ & Hul & PS & _).
  destruct (C84_runs_exist gauss_solve (1 / 1000) f gradf (zoom_ls zoom_defaults f gradf) cfg 1 bounds [1] Hul PS) as (steps & RUN). exists steps.
  assert (S0 : steps 0%nat = ([1], lbfgsb_init f gradf cfg 1 [1] bounds)) by apply (RUN 1%nat).
  assert (Ez : zmax zoom_defaults = 1) by (unfold zmax; cbn; destruct (Req_EM_T 1 0); lra).
  assert (Ew : wolfe_floor (zc2 zoom_defaults) 1 (2 * 4) = 1 / 80) by (unfold wolfe_floor; cbn; lra).
  assert (Er0 : box_gap_factor 1 (zc1 zoom_defaults) (Rmin (wolfe_floor (zc2 zoom_defaults) 1 (2 * hess_inverse 1 1 (theta_low 1 1) (qn_history_size cfg))) (zmax zoom_defaults))
     (hess_upper 1 (theta_high 1 1) (qn_history_size cfg)) = 1 - 1 / 7200000).
  { change (qn_history_size cfg) with 1%nat. rewrite EC, EM, Ez, Ew. rewrite Rmin_left by lra. unfold box_gap_factor. cbn [zc1 zoom_defaults]. field. }
  assert (F0 : f [1] - f [0] = 1 / 2) by (unfold f, quadratic, Q, b; cbn; lra).
  assert (Fit : zoom_fits zoom_defaults cfg 1 (2 * hess_inverse 1 1 (theta_low 1 1) (qn_history_size cfg)) 7 21).
  { change (qn_history_size cfg) with 1%nat. rewrite EC. unfold zoom_fits, step_floor, accept_length, zoom_factor. rewrite Ew, Ez. cbn [zc1 zc2 zoom_defaults qn_max_stepsize cfg ex_cfg increase_factor rel_tol_cubic rel_tol_quad interval_threshold zmaxiter].
    rewrite (Rmin_left 1 1) by lra. rewrite (Rmin_left (1 / 80)) by lra. rewrite (Rmin_right (2 / 10) (1 / 10)) by lra. rewrite (Rmin_left (1 / 10)) by lra. rewrite (Rmin_left (9 / 10)) by lra.
    split; [cbn; lra|]. split; [cbn; lra|]. split; [lra|lia]. }
  assert (H1 : 1 <= qn_increase_factor cfg) by (cbn; lra). assert (H2 : 0 < qn_tol cfg) by (unfold qn_tol, cfg, ex_cfg, tol; lra).
  assert (H3 : zoom_ok zoom_defaults) by (unfold zoom_ok; rewrite Ez; cbn; repeat split; try lra; lia). assert (H4 : 1 < increase_factor zoom_defaults) by (cbn; lra).
  assert (H5 : wolfe_constants zoom_defaults) by (unfold wolfe_constants; cbn; lra). assert (H6 : zmax zoom_defaults <= 1) by lra.
  assert (H7 : mat_shape 1 1 Q) by (split; [reflexivity|repeat constructor]).
  assert (H8 : symmetric 1 Q) by (intros i j Hi Hj; destruct i as [|]; destruct j as [|]; try lia; reflexivity).
  assert (H9 : eig_bounds 1 1 1 Q) by (intros v Hv; destruct v as [|a [|]]; try discriminate; cbn; nra).
  pose proof (C84_zoom 1 1 1 Q b gauss_solve (1 / 1000) 1 cfg zoom_defaults bounds [Fin (-1)] [PInf] [1] [0] 1 steps 7 21 H7 H8 eq_refl ltac:(lra) H9 ST H1 H2 H3 H4 H5 eq_refl H6 Fit BM) as Th.
  cbv zeta in Th. fold f gradf in Th. rewrite Er0, F0 in Th. destruct Th as (_ & k & Hk & E & An).
  - lia.
  - rewrite Rmax_left by lra. change (qn_tol cfg) with tol. unfold tol. lra.
  - apply RUN.
  - right. intros k Hk _. replace k with 0%nat by lia. rewrite S0. cbn [fst]. change (qn_history_size cfg) with 1%nat. rewrite EC. exact CP.
  - exists k. split; [apply RUN|]. split; [rewrite S0; exact Er|]. split; [exact Hk|]. split; [apply E; lia|]. eexists. split; [exact An|].
    replace k with 1%nat by lia. lra.
Qed.
(** Without bounds: (x^2 + y^2)/2 - x from (2, 1), tolerance 1/100. *)
Example C84_unbounded_example : let Q := [[1; 0]; [0; 1]] in let b := [1; 0] in let f := quadratic Q b in let gradf := quadratic_grad Q b in let cfg := ex_cfg (1 / 100) in
  exists N, (0 < N)%nat /\ exists x st,
    lbfgsb_solve gauss_solve (1 / 1000) f gradf (bt_line_search ex_bcfg f gradf) cfg 1 None N [2; 1] = Ok (x, st) /\
    lb_failed st = false /\ (exists e, lb_error st = Fin e /\ 0 <= e <= 1 / 100) /\ -1 / 2 <= f x <= 1 / 2.
Proof.
  intros Q b f gradf cfg.
  assert (HF : strongly_convex_smooth 2 1 1 f gradf).
  { apply quad_ssc; [split; [reflexivity|repeat constructor]| |reflexivity|lra|].
    - intros i j Hi Hj. destruct i as [|[|]]; destruct j as [|[|]]; try lia; reflexivity.
    - intros v Hv. destruct v as [|a [|c [|]]]; try discriminate. cbn. nra. }
  assert (EC : hess_inverse 1 1 (theta_low 1 1) 1 = 4) by (unfold theta_low; rewrite Rmin_left by lra; cbn; field).
  assert (Hul : use_linesearch cfg = true) by (unfold use_linesearch; cbn; unfold Rleb; destruct (Rle_dec 0 0); [reflexivity|lra]).
  assert (PS : positive_starts cfg) by (split; [right; reflexivity|cbn; lra]).
  assert (H1 : 1 <= qn_increase_factor cfg) by (cbn; lra). assert (H2 : 0 < qn_tol cfg) by (cbn; lra). assert (H3 : 0 < c1 ex_bcfg < 1) by (cbn; lra).
  assert (H4 : 0 < max_stepsize ex_bcfg <= 1) by (cbn; lra). assert (H5 : 0 < decrease_factor ex_bcfg <= 1) by (cbn; lra). assert (H6 : (0 < maxiter ex_bcfg)%nat) by (cbn; lia).
  assert (H7 : max_stepsize ex_bcfg * decrease_factor ex_bcfg ^ (maxiter ex_bcfg - 1) <= 2 * (1 - c1 ex_bcfg) / (1 * (2 * hess_inverse 1 1 (theta_low 1 1) (qn_history_size cfg)))).
  { change (qn_history_size cfg) with 1%nat. rewrite EC. cbn. lra. }
  assert (Hh : (0 < qn_history_size cfg)%nat) by (cbn; lia).
  assert (Ep : 0 < 1 / 1000) by lra.
  assert (Hmin : forall y, length y = 2%nat -> f [1; 0] <= f y) by (intros y Hy; destruct y as [|a [|c [|]]]; try discriminate; unfold f, quadratic, Q, b; cbn; pose proof (pow2_ge_0 (a - 1)); pose proof (pow2_ge_0 c); lra).
  assert (F1 : f [1; 0] = -1 / 2) by (unfold f, quadratic, Q, b; cbn; lra).
  assert (F2 : f [2; 1] = 1 / 2) by (unfold f, quadratic, Q, b; cbn; lra).
  destruct (C84_unbounded 2 1 1 f gradf gauss_solve (1 / 1000) 1 cfg ex_bcfg [2; 1] [1; 0] HF gauss_exact Ep Rlt_0_1 Hh Hul PS eq_refl H1 H2 eq_refl H3 eq_refl H4 H5 H6 H7 eq_refl Hmin)
    as (N & HN & K).
  exists N. split; [exact HN|]. destruct (K N (Nat.le_refl N)) as (x & st & E & _ & _ & A & (e & Ee & _ & He) & B). exists x, st.
  split; [exact E|]. split; [exact A|]. split; [exists e; split; [exact Ee|exact He]|]. rewrite F1, F2 in B. exact B.
Qed.
