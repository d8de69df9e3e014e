(** Runs of L-BFGS-B on strongly convex functions. *)
From Coq Require Import String.
From Coq Require Import Reals List Lra Lia Bool Arith Psatz.
From Verif Require Import Prelude Base Vec Mat XArith LinAlg Loss LossProofs Run QuasiNewton QuasiNewtonProofs Convergence ConvergenceProofs ConvergenceRuns.
From Verif Require Import Lbfgsb LbfgsbHess LbfgsbCauchy LbfgsbProofs LbfgsbTheorems LbfgsbConvergence LbfgsbConvHess LbfgsbConvPath LbfgsbConvSteps LbfgsbConvProofs.
Import ListNotations.
Open Scope R_scope.

Section Run.
Variables (n : nat) (mu L : R) (f : vec -> R) (gradf : vec -> vec).
Hypothesis HF : strongly_convex_smooth n mu L f gradf.
Variables (solve : mat -> vec -> vec) (eps theta0 : R) (ls : line_search) (cfg : qn_config) (bounds : option (xbounds * xbounds)) (lower upper : xbounds).
Hypothesis SOL : exact_solver solve.
Hypothesis Heps : 0 < eps.
Hypothesis T0 : 0 < theta0.
Let h := qn_history_size cfg.
Hypothesis Hh : (0 < h)%nat.
Hypothesis Eb : bounds_or_default n bounds = (lower, upper).
Hypothesis Hul : use_linesearch cfg = true.
Hypothesis LU : ls_unit f gradf ls.
Hypothesis PS : positive_starts cfg.
Variable x0 : vec.
Hypothesis Hx0 : length x0 = n.
Hypothesis B0 : in_bounds lower upper x0.
Let M := hess_upper L (theta_high L theta0) h.
Let C := hess_inverse mu L (theta_low mu theta0) h.
Let HmL : 0 < mu <= L. Proof. destruct HF as (A & _); exact A. Qed.
Let Hdim : grad_dim n gradf. Proof. destruct HF as (_ & A & _); exact A. Qed.
Lemma tl_pos : 0 < theta_low mu theta0.
Proof. unfold theta_low. apply Rmult_lt_0_compat; [apply Rmin_glb_lt; lra|exact T0]. Qed.
Lemma M_pos : 0 < M.
Proof.
  unfold M, hess_upper, theta_high. assert (0 < Rmax 1 L * theta0) by (apply Rmult_lt_0_compat; [assert (1 <= Rmax 1 L) by apply Rmax_l; lra|exact T0]).
  assert (0 <= INR h * L) by (apply Rmult_le_pos; [apply pos_INR|lra]). lra.
Qed.
Lemma C_pos : 0 < C. Proof. apply hess_inverse_pos; [exact HmL|exact tl_pos]. Qed.

Variables (steps : nat -> vec * lbfgsb_state) (N : nat).
Hypothesis RUN : lbfgsb_run solve eps f gradf ls cfg theta0 bounds x0 steps N.
Hypothesis CPt : forall k, (k < N)%nat -> clear_point eps C lower upper (fst (steps k)) (gradf (fst (steps k))).
Let xs k := fst (steps k).
Let st k := snd (steps k).
Let p k := lbfgsb_direction solve eps cfg (xs k) (st k) lower upper.
Lemma CGr k : (k < N)%nat -> clear_gradient eps (gradf (xs k)).
Proof. intros Hk i Hi. destruct (proj1 (CPt k Hk) i Hi) as [E|[E _]]; [left|right]; exact E. Qed.
Lemma facts k : (k <= N)%nat ->
  length (xs k) = n /\ in_bounds lower upper (xs k) /\ lb_iter (st k) = k /\ lb_value (st k) = f (xs k) /\ lb_grad (st k) = gradf (xs k) /\
  lb_error (st k) = get_error (xs k) (gradf (xs k)) lower upper /\
  good_history n h (lb_num_updates (st k)) (lb_theta (st k)) (lb_s (st k)) (lb_y (st k)) /\
  (lb_s (st k), lb_y (st k), lb_num_updates (st k)) = push_pairs n h (step_pairs gradf xs k) /\
  lb_theta (st k) = last_scale (qn_use_gamma cfg) (step_pairs gradf xs k) * theta0.
Proof.
  intros Hk. pose proof (C48_run solve eps f gradf ls cfg theta0 bounds x0 steps N) as Q. cbv zeta in Q. rewrite Hx0, Eb in Q.
  specialize (Q SOL Heps T0 Hh Hdim B0 (fun _ => conj LU PS) RUN CGr k Hk). unfold xs, st. destruct (steps k) as [x s]. cbn [fst snd].
  destruct Q as (Q1 & Q2 & Q3 & Q4 & Q5 & Q6 & Q7 & Q8 & Q9 & _). auto 12.
Qed.
Lemma lens k : (k <= N)%nat -> length (xs k) = n. Proof. intros Hk. apply (facts k Hk). Qed.
Lemma pairs_ok k : (k <= N)%nat -> Forall (fun q => pair_bounds mu L q /\ 0 < dot (snd q) (fst q)) (step_pairs gradf xs k).
Proof. intros Hk. apply (step_pairs_bounds n mu L f gradf xs k HF). intros j Hj. apply lens. lia. Qed.
Lemma theta_range k : (k <= N)%nat -> theta_low mu theta0 <= lb_theta (st k) <= theta_high L theta0.
Proof.
  intros Hk. destruct (facts k Hk) as (_ & _ & _ & _ & _ & _ & _ & _ & E). rewrite E.
  destruct (last_scale_bounds mu L (qn_use_gamma cfg) _ HmL (pairs_ok k Hk)) as [A B]. split; apply Rmult_le_compat_r; lra.
Qed.
Lemma hess_bounds k : (k <= N)%nat -> forall z, length z = n ->
  let b := bform (lb_theta (st k)) (state_w n (st k)) (state_m solve h (st k)) z z in dot z z <= C * b /\ b <= M * dot z z.
Proof.
  intros Hk z Hz b. destruct (facts k Hk) as (_ & _ & _ & _ & _ & _ & G & E & _). destruct (theta_range k Hk) as [R1 R2].
  assert (PB := push_slots n h (pair_bounds mu L) (step_pairs gradf xs k) Hh). rewrite <- E in PB.
  specialize (PB ltac:(eapply Forall_impl; [|apply pairs_ok, Hk]; cbv beta; intros q Hq; apply Hq)).
  assert (Th := gh_theta _ _ _ _ _ _ G).
  destruct (b_bounds n h (lb_num_updates (st k)) (lb_theta (st k)) mu L (lb_s (st k)) (lb_y (st k)) G HmL PB solve SOL z Hz) as [A1 A2].
  change (bform (lb_theta (st k)) (w_flat (lb_theta (st k)) (lb_s (st k)) (lb_y (st k)) n) (linalg_inv solve (2 * h) (m_inv h (lb_num_updates (st k)) (lb_theta (st k)) (lb_s (st k)) (lb_y (st k)))) z z) with b in A1, A2.
  assert (Mo := hess_inverse_mono mu L (theta_low mu theta0) (lb_theta (st k)) h HmL (conj tl_pos R1)).
  assert (Cp := hess_inverse_pos mu L (lb_theta (st k)) h HmL Th). pose proof (dot_self_nonneg z) as Z0.
  assert (Bn : 0 <= b) by (destruct (Rle_lt_dec 0 b); [assumption|nra]).
  split; [eapply Rle_trans; [exact A1|apply Rmult_le_compat_r; assumption]|].
  eapply Rle_trans; [exact A2|]. apply Rmult_le_compat_r; [exact Z0|]. unfold M, hess_upper. lra.
Qed.
Lemma dir_bounds k : (k < N)%nat ->
  length (p k) = n /\ in_bounds lower upper (vadd (xs k) (p k)) /\
  projected_slope lower upper (xs k) (gradf (xs k)) / (2 * (M + 1)) <= - dot (gradf (xs k)) (p k) /\
  dot (p k) (p k) <= 2 * C * - dot (gradf (xs k)) (p k).
Proof.
  intros Hk. destruct (facts k ltac:(lia)) as (Lx & Bx & _ & _ & Eg & _ & G & _). pose proof (CPt k Hk) as CP. fold (xs k) in CP.
  assert (Lg : length (gradf (xs k)) = length (xs k)) by (rewrite Lx; apply Hdim, Lx).
  assert (Lg' : length (lb_grad (st k)) = length (xs k)) by (rewrite Eg; exact Lg). assert (CG' : clear_gradient eps (lb_grad (st k))) by (rewrite Eg; apply CGr, Hk).
  assert (G' := G). rewrite <- Lx in G'. pose proof M_pos as Mp. pose proof C_pos as Cp.
  destruct (C48_feasible solve eps cfg (xs k) (st k) lower upper SOL Heps Lg' Bx CG' G') as (q & Lq & _ & Eq & Bq). fold (p k) in Eq. subst q.
  rewrite Lx in Lq. split; [exact Lq|]. split; [exact Bq|].
  assert (CBk : clear_breaks eps (xs k) (lb_grad (st k)) lower upper) by (rewrite Eg; apply CP).
  destruct (C48_direction solve eps cfg (xs k) (st k) lower upper SOL Heps Lg' Bx CG' CBk G') as [D1 D2]. fold (p k) in D1, D2. rewrite Eg in D1, D2. rewrite Lx in D1, D2. fold h in D2.
  set (g := gradf (xs k)) in *. pose proof (slope_nonneg n mu L f gradf HF lower upper (xs k) Lx Bx) as S0. fold g in S0.
  destruct (Classical_Prop.classic (box_stationary lower upper (xs k) g)) as [St|St].
  - rewrite (D1 St), dot_vzero_l, dot_vzero_r. apply (stationary_path lower upper (xs k) g Lg Bx) in St.
    assert (Z : projected_slope lower upper (xs k) g = 0). { unfold projected_slope. rewrite St. rewrite dot_vsub_r. ring. }
    rewrite Z. unfold Rdiv. rewrite Rmult_0_l. lra.
  - destruct (D2 St) as (E1 & E2 & E3).
    assert (HB := hess_bounds k ltac:(lia)). cbv zeta in HB.
    assert (Ca := cauchy_decrease eps (xs k) g lower upper h (lb_num_updates (st k)) (lb_theta (st k)) (lb_s (st k)) (lb_y (st k)) solve M C Heps Lg Bx CP G' SOL Mp Cp).
    cbv zeta in Ca. rewrite Lx in Ca.
    specialize (Ca (fun z Hz => proj2 (HB z Hz)) (fun z Hz => proj1 (HB z Hz))).
    change (w_flat (lb_theta (st k)) (lb_s (st k)) (lb_y (st k)) n) with (state_w n (st k)) in Ca.
    change (linalg_inv solve (2 * h) (m_inv h (lb_num_updates (st k)) (lb_theta (st k)) (lb_s (st k)) (lb_y (st k)))) with (state_m solve h (st k)) in Ca.
    destruct (HB (p k) Lq) as [H1 H2]. set (b := bform (lb_theta (st k)) (state_w n (st k)) (state_m solve h (st k)) (p k) (p k)) in *.
    pose proof (dot_self_nonneg (p k)) as P0.
    assert (Bn : 0 <= b) by (destruct (Rle_lt_dec 0 b); [assumption|nra]).
    unfold qmodel at 1 in E2. fold b in E2. fold (projected_slope lower upper (xs k) g) in Ca.
    assert (S1 : 0 <= projected_slope lower upper (xs k) g / (2 * (M + 1))) by (apply Rmult_le_pos; [exact S0|apply Rlt_le, Rinv_0_lt_compat; lra]).
    set (sl := projected_slope lower upper (xs k) g / (2 * (M + 1))) in *. split; [lra|].
    eapply Rle_trans; [exact H1|]. replace (2 * C * - dot g (p k)) with (C * (2 * - dot g (p k))) by ring. apply Rmult_le_compat_l; lra.
Qed.
(** the step of iteration k *)
Lemma step_taken k : (k < N)%nat -> exists s0,
  init_stepsize (qn_linesearch_init cfg) (qn_max_stepsize cfg) (qn_min_stepsize cfg) (qn_increase_factor cfg) (lb_stepsize (st k)) = Ok s0 /\
  let o := ls s0 (xs k) (f (xs k)) (gradf (xs k)) (p k) in
  xs (S k) = ls_params o /\ lb_stepsize (st (S k)) = ls_step o /\ lb_failed (st (S k)) = ls_failed o.
Proof.
  intros Hk. destruct RUN as [_ RS]. pose proof (RS k Hk) as U. destruct (facts k ltac:(lia)) as (Lx & _ & _ & Ev & Eg & _).
  unfold p, xs, st in *. destruct (steps k) as [x s]. cbn [fst snd] in *. unfold lbfgsb_update in U. rewrite Lx, Eb in U. unfold lbfgsb_step in U. rewrite Hul in U.
  destruct (init_stepsize _ _ _ _ _) as [s0|e]; [|discriminate]. exists s0. split; [reflexivity|]. cbv zeta. rewrite Ev, Eg in U.
  set (o := ls s0 x (f x) (gradf x) (lbfgsb_direction solve eps cfg x s lower upper)) in *.
  destruct (lbfgsb_store cfg theta0 s (vsub (ls_params o) x) (vsub (ls_grad o) (gradf x))) as [[[a b] c] d]. injection U as U. rewrite <- U. cbn [fst snd lb_stepsize lb_failed]. split; [reflexivity|split; reflexivity].
Qed.
Lemma start_pos k s0 :
  init_stepsize (qn_linesearch_init cfg) (qn_max_stepsize cfg) (qn_min_stepsize cfg) (qn_increase_factor cfg) (lb_stepsize (st k)) = Ok s0 -> 0 < s0.
Proof.
  intros E. destruct PS as (IN & P1 & P2 & P3). revert E. unfold init_stepsize. destruct IN as [-> | ->]; cbn; [injection 1 as <-; exact P1|].
  unfold Zoom.Rleb. destruct (Rle_dec _ _); injection 1 as <-; [exact P1|]. apply Rmult_lt_0_compat; lra.
Qed.
Lemma step_point k : (k < N)%nat -> xs (S k) = vadd (xs k) (smul (lb_stepsize (st (S k))) (p k)).
Proof.
  intros Hk. destruct (step_taken k Hk) as (s0 & E & X1 & X2 & _). cbv zeta in X1, X2.
  assert (Hs := start_pos k s0 E).
  destruct (LU s0 (xs k) (f (xs k)) (gradf (xs k)) (p k) Hs) as (_ & A & _). rewrite X2, <- A. exact X1.
Qed.

(** linear decrease *)
Variables (c1 floor : R).
Hypothesis Hc1 : 0 < c1.
Hypothesis Hfl : 0 < floor.
Hypothesis Dec : forall k, (k < N)%nat -> let t := lb_stepsize (st (S k)) in
  0 <= t /\ f (vadd (xs k) (smul t (p k))) <= f (xs k) + c1 * t * dot (gradf (xs k)) (p k) /\ (dot (gradf (xs k)) (p k) <> 0 -> floor <= t).
Let r := box_gap_factor mu c1 floor M.
Hypothesis Hr : 0 <= r.
Lemma run_gap z k : length z = n -> in_bounds lower upper z -> (k <= N)%nat -> f (xs k) - f z <= r ^ k * (f x0 - f z).
Proof.
  intros Hz Bz Hk. assert (E0 : xs 0%nat = x0) by (unfold xs; rewrite (proj1 RUN); reflexivity).
  pose proof (gap_power (fun j => f (xs j) - f z) r N Hr) as GP. cbv beta in GP. rewrite E0 in GP. apply GP; [|exact Hk].
  intros j Hj. destruct (facts j ltac:(lia)) as (Lx & Bx & _). destruct (dir_bounds j Hj) as (Lp & _ & D1 & _). destruct (Dec j Hj) as (E1 & E2 & E3).
  rewrite (step_point j Hj). apply (step_gap n mu L f gradf HF lower upper (xs j) Lx Bx M c1 floor (p j) (lb_stepsize (st (S j))) M_pos Hc1 Hfl Lp D1 E1 E3 E2 z Hz Bz).
Qed.
Lemma run_error z e k : box_minimiser lower upper n f z -> (k <= N)%nat -> lb_error (st k) = Fin e -> 0 <= e /\ e * e <= 2 * Rmax 1 L * r ^ k * (f x0 - f z).
Proof.
  intros BM Hk E. destruct (facts k Hk) as (Lx & Bx & _ & _ & _ & Ee & _). rewrite Ee in E.
  destruct (error_slope n mu L f gradf HF lower upper (xs k) Lx Bx e E) as [E0 E1]. split; [exact E0|].
  pose proof (slope_gap n mu L f gradf HF lower upper (xs k) Lx Bx z BM) as SG. destruct BM as (Hz & Bz & _). pose proof (run_gap z k Hz Bz Hk) as RG.
  assert (1 <= Rmax 1 L) by apply Rmax_l. assert (2 * Rmax 1 L * (f (xs k) - f z) <= 2 * Rmax 1 L * (r ^ k * (f x0 - f z))) by (apply Rmult_le_compat_l; lra). lra.
Qed.
End Run.

(** the gap bounds the distance to the minimiser over the box *)
Lemma box_dist n mu L f gradf lower upper x z : strongly_convex_smooth n mu L f gradf -> box_minimiser lower upper n f z -> length x = n -> in_bounds lower upper x ->
  mu / 2 * dist2 x z <= f x - f z.
Proof.
  intros HF (Hz & Bz & Min) Hx Bx. destruct HF as (HmL & GD & A). destruct (A z x Hz Hx) as [A1 _].
  assert (V : 0 <= dot (gradf z) (vsub x z)); [|lra].
  destruct (Rle_lt_dec 0 (dot (gradf z) (vsub x z))) as [|Ng]; [assumption|exfalso].
  set (w := vsub x z) in *. assert (Lw : length w = n) by (unfold w; rewrite vsub_length; lia).
  set (t := Rmin 1 (- dot (gradf z) w / (L * (dot w w + 1)))). pose proof (dot_self_nonneg w) as W0.
  assert (De : 0 < L * (dot w w + 1)) by (apply Rmult_lt_0_compat; lra).
  assert (T0 : 0 < t) by (unfold t; apply Rmin_glb_lt; [lra|apply Rdiv_lt_0_compat; lra]). assert (T1 : t <= 1) by apply Rmin_l.
  assert (T2 : t * (L * (dot w w + 1)) <= - dot (gradf z) w).
  { apply Rle_trans with (- dot (gradf z) w / (L * (dot w w + 1)) * (L * (dot w w + 1))); [apply Rmult_le_compat_r; [lra|apply Rmin_r]|]. right. field. split; lra. }
  assert (Bt := box_convex lower upper z w t ltac:(rewrite Lw, Hz; reflexivity) Bz).
  assert (Ez : vadd z w = x).
  { apply (nth_ext _ _ 0 0); [rewrite vadd_length; unfold vec in *; lia|]. intros i Hi. unfold w. rewrite nth_vadd, nth_vsub. ring. }
  rewrite Ez in Bt. specialize (Bt Bx ltac:(lra)).
  assert (Lt : length (vadd z (smul t w)) = n) by (rewrite vadd_length, smul_length; unfold vec in *; lia).
  pose proof (Min _ Lt Bt) as M1. destruct (A z _ Hz Lt) as [_ A2].
  assert (E1 : dot (gradf z) (vsub (vadd z (smul t w)) z) = t * dot (gradf z) w) by vring.
  assert (E2 : dist2 (vadd z (smul t w)) z = t * t * dot w w) by vring. rewrite E1, E2 in A2.
  assert (X : t * dot (gradf z) w + L / 2 * (t * t * dot w w) < 0); [|lra].
  assert (t * (t * (L * (dot w w + 1))) <= t * - dot (gradf z) w) by (apply Rmult_le_compat_l; lra).
  assert (0 < t * t) by (apply Rmult_lt_0_compat; lra). assert (0 <= L * (t * t * dot w w)) by (apply Rmult_le_pos; [lra|apply Rmult_le_pos; lra]). assert (0 < L * (t * t)) by (apply Rmult_lt_0_compat; lra). nra.
Qed.
