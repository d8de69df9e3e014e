(** C76: BFGS and L-BFGS with their default line search converge on quadratics. *)
From Coq Require Import String.
From Coq Require Import Reals List Lra Lia Bool Arith Psatz.
From Verif Require Import Prelude Vec Mat Loss Backtracking BacktrackingTheorems Zoom ZoomProofs ZoomTheorems Run QuasiNewton QuasiNewtonProofs QuasiNewtonTheorems Convergence ConvergenceProofs ConvergenceRuns ConvergenceTheorems BfgsConvergence BfgsConvergenceProofs BfgsConvergenceTheorems.
From Verif Require Lbfgsb.
From Verif Require Import ZoomSuccess ZoomSuccessProofs ZoomSuccessTheorems ZoomRuns ZoomRunsProofs.
Import ListNotations.
Open Scope R_scope.

Lemma quad_expand n Q b x v : mat_shape n n Q -> symmetric n Q -> length b = n -> length x = n -> length v = n ->
  quadratic Q b (vadd x v) = quadratic Q b x + dot (quadratic_grad Q b x) v + 1 / 2 * dot v (mvec Q v) /\
  dot (quadratic_grad Q b (vadd x v)) v = dot (quadratic_grad Q b x) v + dot v (mvec Q v).
Proof.
  intros HQ HS Hb Hx Hv. pose proof (proj1 (symmetric_adjoint n Q HQ) HS x v Hx Hv) as E.
  unfold quadratic, quadratic_grad. rewrite mvec_vadd. autorewrite with vec. rewrite (dot_comm (mvec Q x) v) in E |- *. rewrite (dot_comm (mvec Q v) v). rewrite <- E. split; field.
Qed.
Lemma quad_ssc n mu L Q b : mat_shape n n Q -> symmetric n Q -> length b = n -> 0 < mu <= L -> eig_bounds n mu L Q ->
  strongly_convex_smooth n mu L (quadratic Q b) (quadratic_grad Q b).
Proof.
  intros HQ HS Hb HmL HE. split; [exact HmL|]. split.
  - intros x Hx. unfold quadratic_grad. apply vsub_length_eq; [rewrite mvec_length; apply HQ|exact Hb].
  - intros x z Hx Hz. assert (Hv : length (vsub z x) = n) by (apply vsub_length_eq; assumption).
    assert (Ez : vadd x (vsub z x) = z) by (apply vec_eq_dot; [rewrite vadd_length, Hx, Hv, Hz; apply Nat.max_id|intros w; autorewrite with vec; ring]).
    destruct (quad_expand n Q b x (vsub z x) HQ HS Hb Hx Hv) as [E _]. rewrite Ez in E. rewrite E.
    pose proof (HE (vsub z x) Hv). unfold dist2, sqnorm. lra.
Qed.
Lemma quad_exact n Q b c1 : mat_shape n n Q -> symmetric n Q -> length b = n -> slopes_exact c1 n (quadratic Q b) (quadratic_grad Q b).
Proof.
  intros HQ HS Hb x d t Hx Hd Ht H. assert (Hv : length (smul t d) = n) by (rewrite smul_length; exact Hd).
  destruct (quad_expand n Q b x (smul t d) HQ HS Hb Hx Hv) as [E1 E2]. rewrite E1. rewrite !dot_smul_r in E2. rewrite mvec_smul in *. rewrite !dot_smul_l, !dot_smul_r in *.
  set (sl := dot (quadratic_grad Q b x) d) in *. set (q := dot d (mvec Q d)) in *.
  assert (H' : t * dot (quadratic_grad Q b (vadd x (smul t d))) d <= t * ((2 * c1 - 1) * sl)) by (apply Rmult_le_compat_l; lra). lra.
Qed.

(** L-BFGS, whatever memory, initial scaling, initial step strategy and starting point: with the zoom
    search (tol = 0) and maxls large enough, no search fails, and run returns a point whose gradient is
    at most tol in norm after at most N iterations as soon as L/mu r^N |g0|^2 <= tol^2. *)
Theorem C76_lbfgs : forall n mu L Q b cfg zcfg x0 N J Z,
  mat_shape n n Q -> symmetric n Q -> length b = n -> 0 < mu <= L -> eig_bounds n mu L Q -> length x0 = n ->
  use_linesearch cfg = true -> known_strategy (qn_linesearch_init cfg) -> 1 <= qn_increase_factor cfg -> 0 < qn_max_stepsize cfg ->
  0 < qn_tol cfg ->
  zoom_ok zcfg -> 1 < increase_factor zcfg -> wolfe_constants zcfg -> ztol zcfg = 0 ->
  let hi := eig_upper mu L (qn_history_size cfg) in
  let lo := eig_lower L (qn_history_size cfg) in
  zoom_fits zcfg cfg L hi J Z ->
  let r := gap_factor mu (zc1 zcfg) (Rmin (wolfe_floor (zc2 zcfg) L hi) (zmax zcfg)) lo in
  let f := quadratic Q b in let gradf := quadratic_grad Q b in
  (0 < N)%nat -> L / mu * r ^ N * dot (gradf x0) (gradf x0) <= qn_tol cfg * qn_tol cfg ->
  0 <= r < 1 /\
  forall maxit, (N <= maxit)%nat -> exists x st,
    lbfgs_solve f gradf (Lbfgsb.zoom_ls zcfg f gradf) cfg maxit x0 = Ok (x, st) /\ length x = n /\
    (l_iter st <= N)%nat /\ l_error st = Fin (norm2 (gradf x)) /\ norm2 (gradf x) <= qn_tol cfg /\ l_failed st = false /\
    (forall z, length z = n -> f x - f z <= qn_tol cfg * qn_tol cfg / (2 * mu)) /\
    (forall z, length z = n -> mvec Q z = b -> norm2 (vsub x z) <= qn_tol cfg / mu).
Proof.
  intros n mu L Q b cfg zcfg x0 N J Z HQ HS Hb HmL HE Hx0 Hul Hks Hqi Hqm Htol Hok Hinc Hw Ht hi lo Hfit r f gradf HN0 HN.
  assert (HF : strongly_convex_smooth n mu L f gradf) by (apply quad_ssc; assumption).
  assert (Hex : slopes_exact (zc1 zcfg) n f gradf) by (apply quad_exact; assumption).
  assert (Hdim : grad_dim n gradf) by (destruct HF as (_ & A & _); exact A).
  set (ls := Lbfgsb.zoom_ls zcfg f gradf) in *.
  destruct (C27_runs_exist f gradf ls cfg x0 Hks) as (xs & sts & Ex0 & Hrun). rewrite <- Ex0 in Hx0.
  assert (Fl : forall k, step_floor zcfg cfg L hi <= l_stepsize (sts k)) by (intros k; apply (l_steps n mu L f gradf HF zcfg cfg Hex Hok Hinc Hw Ht Hul Hqi Hqm xs sts Hx0 Hrun J Z Hfit k)).
  assert (Step : forall k, l_failed (sts (S k)) = false /\ efficient_step (zc1 zcfg) (zc2 zcfg) (zmax zcfg) f gradf (xs k) (lbfgs_direction cfg (sts k)) (l_stepsize (sts (S k)))).
  { intros k. destruct (l_step n mu L f gradf HF zcfg cfg Hex Hok Hinc Hw Ht Hul Hqi Hqm xs sts Hx0 Hrun J Z Hfit k (fun j _ => Fl j)) as (A & _ & B). split; assumption. }
  assert (HG : forall K, lbfgs_run f gradf (guard_ls f gradf ls) cfg xs sts K) by (intros K; apply (l_guarded n mu L f gradf HF zcfg cfg Hex Hok Hinc Hw Ht Hul Hqi Hqm xs sts Hx0 Hrun J Z Hfit K)).
  assert (Hgls : ls_consistent f gradf (guard_ls f gradf ls)) by (apply guard_consistent, C64_zoom_consistent, Hok).
  assert (Lin : forall K, 0 <= r < 1 /\ (forall k, (k <= K)%nat -> dot (gradf (xs k)) (gradf (xs k)) <= L / mu * r ^ k * dot (gradf (xs 0%nat)) (gradf (xs 0%nat)))).
  { intros K. destruct Hw as (W1 & W2 & W3).
    destruct (run_efficient n mu L f gradf _ cfg HF Hgls xs sts K Hx0 (HG K) (zc1 zcfg) (zc2 zcfg) (zmax zcfg) ltac:(lra) ltac:(lra) ltac:(lra) ltac:(apply Hok) ltac:(intros k _; apply Step)) as (A & B & C).
    destruct (run_linear n mu L f gradf _ cfg HF Hgls xs sts K Hx0 (HG K) (zc1 zcfg) _ ltac:(lra) A B C) as (D & _ & E). split; [exact D|exact E]. }
  split; [apply (Lin 0%nat)|]. intros maxit Hmx.
  assert (Err : forall j, l_error (sts (S j)) = Fin (norm2 (gradf (xs (S j))))).
  { intros j. apply (run_error f gradf _ cfg Hgls xs sts (S j) (HG (S j)) j). lia. }
  assert (CondS : forall j, lbfgs_cond cfg (sts (S j)) = false -> norm2 (gradf (xs (S j))) <= qn_tol cfg).
  { intros j. destruct (Step j) as (T1 & _). unfold lbfgs_cond. rewrite Err, T1, orb_true_r, andb_true_r. cbn [xgtb]. destruct (Rlt_dec _ _); [discriminate|lra]. }
  assert (SmallN : norm2 (gradf (xs N)) <= qn_tol cfg).
  { apply norm2_le_sq; [lra|]. destruct (Lin N) as (_ & G). rewrite <- Ex0 in HN. eapply Rle_trans; [apply (G N); lia|exact HN]. }
  destruct (run_result_stops maxit (fun step => lbfgs_cond cfg (snd step)) (lbfgs_update f gradf ls cfg) (fun k => (xs k, sts k)) N ltac:(lia)) as (k & Hk & Er & He).
  { intros k. destruct (Hrun (S k)) as [_ R1]. apply R1. lia. }
  { destruct N as [|N']; [lia|]. cbn [snd]. unfold lbfgs_cond. rewrite Err. cbn [xgtb]. destruct (Rlt_dec _ _); [lra|reflexivity]. }
  cbn [snd] in He. destruct k as [|k]; [lia|]. pose proof (CondS k He) as Fin_.
  exists (xs (S k)), (sts (S k)).
  assert (Hl : length (xs (S k)) = n) by (apply (run_len n mu L f gradf _ cfg HF Hgls xs sts (S k) Hx0 (HG (S k)) (S k)); lia).
  split. { unfold lbfgs_solve. destruct (Hrun 0%nat) as [R0 _]. rewrite <- Ex0, <- R0. exact Er. }
  split; [exact Hl|]. split.
  { destruct (HG (S k)) as [R0 R1]. destruct (lbfgs_inv f gradf _ cfg n Hdim Hgls xs sts (S k) Hx0 R0 R1 (S k) ltac:(lia)) as (_ & _ & _ & I4 & _). rewrite I4. lia. }
  split; [apply Err|]. split; [exact Fin_|]. split; [apply (Step k)|]. split.
  - intros z Hz. pose proof (ssc_pl n mu L f gradf HF (xs (S k)) z Hl Hz) as P. rewrite <- norm2_sq in P.
    pose proof (norm2_nonneg (gradf (xs (S k)))). apply (Rmult_le_reg_l (2 * mu)); [lra|].
    replace (2 * mu * (qn_tol cfg * qn_tol cfg / (2 * mu))) with (qn_tol cfg * qn_tol cfg) by (field; lra). nra.
  - intros z Hz Hg. assert (Hg' : gradf z = vzero n).
    { unfold gradf, quadratic_grad. rewrite Hg. rewrite <- Hb. apply vec_eq_dot; [rewrite vzero_length; apply vsub_length_eq; reflexivity|]. intros w. autorewrite with vec. ring. }
    pose proof (ssc_dist n mu L f gradf (xs (S k)) z HF Hl Hz Hg') as P.
    apply (Rmult_le_reg_l mu); [lra|]. replace (mu * (qn_tol cfg / mu)) with (qn_tol cfg) by (field; lra). lra.
Qed.
Print Assumptions C76_lbfgs.

(** BFGS, with maxls large enough for N iterations. *)
Theorem C76_bfgs : forall n mu L Q b cfg zcfg x0 N J Z,
  mat_shape n n Q -> symmetric n Q -> length b = n -> 0 < mu <= L -> eig_bounds n mu L Q -> length x0 = n ->
  use_linesearch cfg = true -> known_strategy (qn_linesearch_init cfg) -> 1 <= qn_increase_factor cfg -> 0 < qn_max_stepsize cfg ->
  0 < qn_tol cfg ->
  zoom_ok zcfg -> 1 < increase_factor zcfg -> wolfe_constants zcfg -> ztol zcfg = 0 ->
  zoom_fits zcfg cfg L (eig_upper mu L N) J Z ->
  let r := bfgs_rate n mu L (zc1 zcfg) (zc2 zcfg) (zmax zcfg) 1 in
  let f := quadratic Q b in let gradf := quadratic_grad Q b in
  (0 < N)%nat -> L / mu * r ^ N * dot (gradf x0) (gradf x0) <= qn_tol cfg * qn_tol cfg ->
  0 < r < 1 /\
  forall maxit, (N <= maxit)%nat -> exists x st,
    bfgs_solve f gradf (Lbfgsb.zoom_ls zcfg f gradf) cfg maxit x0 = Ok (x, st) /\ length x = n /\
    (b_iter st <= N)%nat /\ b_error st = Fin (norm2 (gradf x)) /\ norm2 (gradf x) <= qn_tol cfg /\
    (forall z, length z = n -> f x - f z <= qn_tol cfg * qn_tol cfg / (2 * mu)) /\
    (forall z, length z = n -> mvec Q z = b -> norm2 (vsub x z) <= qn_tol cfg / mu).
Proof.
  intros n mu L Q b cfg zcfg x0 N J Z HQ HS Hb HmL HE Hx0 Hul Hks Hqi Hqm Htol Hok Hinc Hw Ht Hfit r f gradf HN0 HN.
  assert (HF : strongly_convex_smooth n mu L f gradf) by (apply quad_ssc; assumption).
  assert (Hex : slopes_exact (zc1 zcfg) n f gradf) by (apply quad_exact; assumption).
  assert (Hdim : grad_dim n gradf) by (destruct HF as (_ & A & _); exact A).
  set (ls := Lbfgsb.zoom_ls zcfg f gradf) in *.
  destruct (C26_runs_exist f gradf ls cfg x0 Hks) as (xs & sts & Ex0 & Hrun). rewrite <- Ex0 in Hx0.
  assert (Fp : 0 < step_floor zcfg cfg L (eig_upper mu L N)) by (apply (floor_pos n mu L f gradf HF zcfg cfg Hok Hw Hqm), eig_upper_pos; exact HmL).
  assert (Fl : forall k, (k <= N)%nat -> step_floor zcfg cfg L (eig_upper mu L N) <= b_stepsize (sts k)) by (intros k; apply (b_steps n mu L f gradf HF zcfg cfg Hex Hok Hinc Hw Ht Hul Hqi Hqm xs sts N Hx0 Hrun J Z Hfit k)).
  assert (Step : forall k, (k < N)%nat -> sufficient_step (zc1 zcfg) (zc2 zcfg) (zmax zcfg) 1 f gradf (xs k) (bfgs_direction (sts k)) (b_stepsize (sts (S k)))).
  { intros k Hk. apply (b_step n mu L f gradf HF zcfg cfg Hex Hok Hinc Hw Ht Hul Hqi Hqm xs sts N Hx0 Hrun J Z Hfit k Hk). intros j Hj. apply Fl. lia. }
  assert (Hgls : ls_consistent f gradf (guard_ls f gradf ls)) by (apply guard_consistent, C64_zoom_consistent, Hok).
  assert (HG : bfgs_run f gradf (guard_ls f gradf ls) cfg xs sts N).
  { apply guard_bfgs_run; [exact Hqm|lra| |apply Hrun]. intros j Hj. pose proof (Fl (S j) ltac:(lia)). lra. }
  destruct Hw as (W1 & W2 & W3).
  destruct (C65_linear n mu L f gradf ls cfg xs sts N (zc1 zcfg) (zc2 zcfg) (zmax zcfg) 1 HF (C64_zoom_consistent zcfg f gradf Hok) Hx0 Hqm ltac:(lra) ltac:(lra) ltac:(lra) ltac:(apply Hok) ltac:(lra) (Hrun N) Step) as (Hr & _ & G).
  fold r in Hr, G. split; [exact Hr|]. intros maxit Hmx.
  assert (SmallN : norm2 (gradf (xs N)) <= qn_tol cfg).
  { apply norm2_le_sq; [lra|]. rewrite <- Ex0 in HN. eapply Rle_trans; [apply (G N); lia|exact HN]. }
  assert (Err : forall j, (j < N)%nat -> b_error (sts (S j)) = Fin (norm2 (gradf (xs (S j))))).
  { intros j Hj. destruct HG as [_ R1]. apply (bfgs_step_facts f gradf _ cfg Hgls xs sts N R1 j Hj). }
  destruct (run_result_stops maxit (fun step => xgtb (b_error (snd step)) (qn_tol cfg)) (bfgs_update f gradf ls cfg) (fun k => (xs k, sts k)) N ltac:(lia)) as (k & Hk & Er & He).
  { intros k. destruct (Hrun (S k)) as [_ R1]. apply R1. lia. }
  { destruct N as [|N']; [lia|]. cbn [snd]. rewrite Err by lia. cbn [xgtb]. destruct (Rlt_dec _ _); [lra|reflexivity]. }
  cbn [snd] in He. destruct k as [|k]; [lia|]. rewrite Err in He by lia. cbn [xgtb] in He.
  assert (Fin_ : norm2 (gradf (xs (S k))) <= qn_tol cfg) by (destruct (Rlt_dec _ _); [discriminate|lra]).
  destruct HG as [R0 R1]. destruct (bfgs_inv f gradf _ cfg n Hdim Hgls xs sts N Hx0 R0 R1 (S k) ltac:(lia)) as (Hl & _ & _ & I4 & _).
  exists (xs (S k)), (sts (S k)).
  split. { unfold bfgs_solve. rewrite <- Ex0, <- R0. exact Er. }
  split; [exact Hl|]. split; [rewrite I4; lia|]. split; [apply Err; lia|]. split; [exact Fin_|]. split.
  - intros z Hz. pose proof (ssc_pl n mu L f gradf HF (xs (S k)) z Hl Hz) as P. rewrite <- norm2_sq in P.
    pose proof (norm2_nonneg (gradf (xs (S k)))). apply (Rmult_le_reg_l (2 * mu)); [lra|].
    replace (2 * mu * (qn_tol cfg * qn_tol cfg / (2 * mu))) with (qn_tol cfg * qn_tol cfg) by (field; lra). nra.
  - intros z Hz Hg. assert (Hg' : gradf z = vzero n).
    { unfold gradf, quadratic_grad. rewrite Hg. rewrite <- Hb. apply vec_eq_dot; [rewrite vzero_length; apply vsub_length_eq; reflexivity|]. intros w. autorewrite with vec. ring. }
    pose proof (ssc_dist n mu L f gradf (xs (S k)) z HF Hl Hz Hg') as P.
    apply (Rmult_le_reg_l mu); [lra|]. replace (mu * (qn_tol cfg / mu)) with (qn_tol cfg) by (field; lra). lra.
Qed.
Print Assumptions C76_bfgs.

(** So, whenever interval_threshold is below the accept length, every tolerance is reached once maxls and
    maxiter are large enough. *)
Theorem C76_lbfgs_converges : forall n mu L Q b cfg zcfg x0 smax,
  mat_shape n n Q -> symmetric n Q -> length b = n -> 0 < mu <= L -> eig_bounds n mu L Q -> length x0 = n ->
  use_linesearch cfg = true -> known_strategy (qn_linesearch_init cfg) -> 1 <= qn_increase_factor cfg -> 0 < qn_max_stepsize cfg ->
  0 < qn_tol cfg ->
  zoom_ok zcfg -> 1 < increase_factor zcfg -> wolfe_constants zcfg -> ztol zcfg = 0 ->
  max_stepsize_arg zcfg = Some smax -> 0 < smax -> 0 < rel_tol_cubic zcfg -> 0 < rel_tol_quad zcfg ->
  interval_threshold zcfg <= accept_length zcfg L (eig_upper mu L (qn_history_size cfg)) ->
  exists N m, forall maxls maxit, (m <= maxls)%nat -> (N <= maxit)%nat ->
  let f := quadratic Q b in let gradf := quadratic_grad Q b in
  exists x st, lbfgs_solve f gradf (Lbfgsb.zoom_ls (with_maxiter zcfg maxls) f gradf) cfg maxit x0 = Ok (x, st) /\ length x = n /\
    (l_iter st <= N)%nat /\ l_error st = Fin (norm2 (gradf x)) /\ norm2 (gradf x) <= qn_tol cfg /\ l_failed st = false.
Proof.
  intros n mu L Q b cfg zcfg x0 smax HQ HS Hb HmL HE Hx0 Hul Hks Hqi Hqm Htol Hok Hinc Hw Ht Em Hm Hc Hq Hth.
  assert (Ez : forall k, zmax (with_maxiter zcfg k) = smax) by (intros k; unfold zmax; cbn; rewrite Em; destruct (Req_EM_T smax 0); [lra|reflexivity]).
  assert (Ez0 : zmax zcfg = smax) by (unfold zmax; rewrite Em; destruct (Req_EM_T smax 0); [lra|reflexivity]).
  set (hi := eig_upper mu L (qn_history_size cfg)) in *. set (lo := eig_lower L (qn_history_size cfg)).
  assert (Hhi : 0 < hi) by (apply eig_upper_pos; exact HmL). assert (LH : 0 < L * hi) by (apply Rmult_lt_0_compat; lra).
  assert (HF : strongly_convex_smooth n mu L (quadratic Q b) (quadratic_grad Q b)) by (apply quad_ssc; assumption).
  pose proof (floor_pos n mu L _ _ HF zcfg cfg Hok Hw Hqm hi Hhi) as Fp.
  destruct Hw as (W1 & W2 & W3).
  assert (Ha : 0 < accept_length zcfg L hi) by (unfold accept_length; apply Rdiv_lt_0_compat; [apply Rmin_glb_lt; lra|exact LH]).
  destruct (pow_large (increase_factor zcfg) (smax / step_floor zcfg cfg L hi) Hinc) as [J HJ].
  destruct (pow_tiny (zoom_factor zcfg) smax (accept_length zcfg L hi) (factor_range zcfg Hc Hq) Ha ltac:(lra)) as [Z HZ].
  assert (HJ' : smax <= step_floor zcfg cfg L hi * increase_factor zcfg ^ J).
  { apply (Rmult_le_compat_l (step_floor zcfg cfg L hi)) in HJ; [|lra].
    replace (step_floor zcfg cfg L hi * (smax / step_floor zcfg cfg L hi)) with smax in HJ by (field; lra). exact HJ. }
  set (r := gap_factor mu (zc1 zcfg) (Rmin (wolfe_floor (zc2 zcfg) L hi) smax) lo).
  assert (Wf : wolfe_floor (zc2 zcfg) L hi * (L * hi) = 1 - zc2 zcfg) by (unfold wolfe_floor; field; split; lra).
  assert (Wp : 0 < wolfe_floor (zc2 zcfg) L hi) by (unfold wolfe_floor; apply Rdiv_lt_0_compat; lra).
  assert (Hr : 0 <= r < 1).
  { apply (ConvergenceProofs.factor_range mu L _ _ _ hi); [exact HmL| | |lra|apply Rmin_glb_lt; assumption|].
    - split; [apply eig_lower_pos; lra|apply eig_lower_le; lra].
    - apply eig_upper_ge; exact HmL.
    - set (fl := Rmin _ _). assert (fl * (L * hi) <= 1 - zc2 zcfg) by (rewrite <- Wf; apply Rmult_le_compat_r; [lra|apply Rmin_l]).
      rewrite Rmult_assoc. assert (zc1 zcfg * (fl * (L * hi)) <= zc1 zcfg * (1 - zc2 zcfg)) by (apply Rmult_le_compat_l; lra).
      assert (zc1 zcfg * (1 - zc2 zcfg) <= / 2 * 1) by (apply Rmult_le_compat; lra). lra. }
  pose proof (dot_self_nonneg (quadratic_grad Q b x0)) as G0.
  destruct (pow_small (L / mu * dot (quadratic_grad Q b x0) (quadratic_grad Q b x0)) r (qn_tol cfg * qn_tol cfg)) as (N & HN); [|exact Hr|nra|].
  { apply Rmult_le_pos; [left; apply Rdiv_lt_0_compat; lra|exact G0]. }
  exists (S N), (J + Z + 2)%nat. intros maxls maxit Hml Hmx f gradf.
  assert (HN' : L / mu * r ^ S N * dot (gradf x0) (gradf x0) <= qn_tol cfg * qn_tol cfg).
  { replace (L / mu * r ^ S N * dot (gradf x0) (gradf x0)) with (L / mu * dot (gradf x0) (gradf x0) * r ^ S N) by ring. apply HN. lia. }
  assert (Hok' : zoom_ok (with_maxiter zcfg maxls)).
  { destruct Hok as (O1 & O2 & O3 & O4 & O5 & O6). unfold zoom_ok. rewrite Ez. cbn. repeat split; try assumption; lia. }
  assert (Hfit : zoom_fits (with_maxiter zcfg maxls) cfg L hi J Z).
  { unfold zoom_fits, step_floor. rewrite Ez. unfold step_floor in HJ'. rewrite Ez0 in HJ'. repeat split; try assumption. }
  pose proof (C76_lbfgs n mu L Q b cfg (with_maxiter zcfg maxls) x0 (S N) J Z HQ HS Hb HmL HE Hx0 Hul Hks Hqi Hqm Htol Hok' Hinc (conj W1 (conj W2 W3)) Ht Hfit) as H.
  cbv zeta in H. rewrite Ez in H. destruct (H ltac:(lia) HN') as (_ & A).
  destruct (A maxit Hmx) as (x & st & A1 & A2 & A3 & A4 & A5 & A6 & _). exists x, st. auto 7.
Qed.
Print Assumptions C76_lbfgs_converges.

(** For BFGS the accept length that interval_threshold has to stay below depends on the number of
    iterations; with interval_threshold = 0 every tolerance is reached. *)
Theorem C76_bfgs_converges : forall n mu L Q b cfg zcfg x0 smax,
  mat_shape n n Q -> symmetric n Q -> length b = n -> 0 < mu <= L -> eig_bounds n mu L Q -> length x0 = n ->
  use_linesearch cfg = true -> known_strategy (qn_linesearch_init cfg) -> 1 <= qn_increase_factor cfg -> 0 < qn_max_stepsize cfg ->
  0 < qn_tol cfg ->
  zoom_ok zcfg -> 1 < increase_factor zcfg -> wolfe_constants zcfg -> ztol zcfg = 0 ->
  max_stepsize_arg zcfg = Some smax -> 0 < smax -> 0 < rel_tol_cubic zcfg -> 0 < rel_tol_quad zcfg ->
  interval_threshold zcfg <= 0 ->
  exists N m, forall maxls maxit, (m <= maxls)%nat -> (N <= maxit)%nat ->
  let f := quadratic Q b in let gradf := quadratic_grad Q b in
  exists x st, bfgs_solve f gradf (Lbfgsb.zoom_ls (with_maxiter zcfg maxls) f gradf) cfg maxit x0 = Ok (x, st) /\ length x = n /\
    (b_iter st <= N)%nat /\ b_error st = Fin (norm2 (gradf x)) /\ norm2 (gradf x) <= qn_tol cfg.
Proof.
  intros n mu L Q b cfg zcfg x0 smax HQ HS Hb HmL HE Hx0 Hul Hks Hqi Hqm Htol Hok Hinc Hw Ht Em Hm Hc Hq Hth.
  assert (Ez : forall k, zmax (with_maxiter zcfg k) = smax) by (intros k; unfold zmax; cbn; rewrite Em; destruct (Req_EM_T smax 0); [lra|reflexivity]).
  assert (Ez0 : zmax zcfg = smax) by (unfold zmax; rewrite Em; destruct (Req_EM_T smax 0); [lra|reflexivity]).
  assert (HF : strongly_convex_smooth n mu L (quadratic Q b) (quadratic_grad Q b)) by (apply quad_ssc; assumption).
  set (r := bfgs_rate n mu L (zc1 zcfg) (zc2 zcfg) smax 1).
  destruct Hw as (W1 & W2 & W3).
  assert (Hr : 0 < r < 1) by (apply (brun_rate n mu L _ _ HF); lra).
  pose proof (dot_self_nonneg (quadratic_grad Q b x0)) as G0.
  destruct (pow_small (L / mu * dot (quadratic_grad Q b x0) (quadratic_grad Q b x0)) r (qn_tol cfg * qn_tol cfg)) as (N & HN); [|lra|nra|].
  { apply Rmult_le_pos; [left; apply Rdiv_lt_0_compat; lra|exact G0]. }
  set (hi := eig_upper mu L (S N)).
  assert (Hhi : 0 < hi) by (apply eig_upper_pos; exact HmL). assert (LH : 0 < L * hi) by (apply Rmult_lt_0_compat; lra).
  pose proof (floor_pos n mu L _ _ HF zcfg cfg Hok (conj W1 (conj W2 W3)) Hqm hi Hhi) as Fp.
  assert (Ha : 0 < accept_length zcfg L hi) by (unfold accept_length; apply Rdiv_lt_0_compat; [apply Rmin_glb_lt; lra|exact LH]).
  destruct (pow_large (increase_factor zcfg) (smax / step_floor zcfg cfg L hi) Hinc) as [J HJ].
  destruct (pow_tiny (zoom_factor zcfg) smax (accept_length zcfg L hi) (factor_range zcfg Hc Hq) Ha ltac:(lra)) as [Z HZ].
  assert (HJ' : smax <= step_floor zcfg cfg L hi * increase_factor zcfg ^ J).
  { apply (Rmult_le_compat_l (step_floor zcfg cfg L hi)) in HJ; [|lra].
    replace (step_floor zcfg cfg L hi * (smax / step_floor zcfg cfg L hi)) with smax in HJ by (field; lra). exact HJ. }
  exists (S N), (J + Z + 2)%nat. intros maxls maxit Hml Hmx f gradf.
  assert (HN' : L / mu * r ^ S N * dot (gradf x0) (gradf x0) <= qn_tol cfg * qn_tol cfg).
  { replace (L / mu * r ^ S N * dot (gradf x0) (gradf x0)) with (L / mu * dot (gradf x0) (gradf x0) * r ^ S N) by ring. apply HN. lia. }
  assert (Hok' : zoom_ok (with_maxiter zcfg maxls)).
  { destruct Hok as (O1 & O2 & O3 & O4 & O5 & O6). unfold zoom_ok. rewrite Ez. cbn. repeat split; try assumption; lia. }
  assert (Hfit : zoom_fits (with_maxiter zcfg maxls) cfg L hi J Z).
  { unfold zoom_fits, step_floor. rewrite Ez. unfold step_floor in HJ'. rewrite Ez0 in HJ'. split; [exact HJ'|]. split; [exact HZ|]. split; [|exact Hml].
    change (accept_length (with_maxiter zcfg maxls) L hi) with (accept_length zcfg L hi). cbn [interval_threshold with_maxiter]. lra. }
  pose proof (C76_bfgs n mu L Q b cfg (with_maxiter zcfg maxls) x0 (S N) J Z HQ HS Hb HmL HE Hx0 Hul Hks Hqi Hqm Htol Hok' Hinc (conj W1 (conj W2 W3)) Ht Hfit) as H.
  cbv zeta in H. rewrite Ez in H. destruct (H ltac:(lia) HN') as (_ & A).
  destruct (A maxit Hmx) as (x & st & A1 & A2 & A3 & A4 & A5 & _). exists x, st. auto 6.
Qed.
Print Assumptions C76_bfgs_converges.

(** Quadratics are needed: the search also accepts steps that increase the value by up to c3 |value|.
    With all its default options L-BFGS moves from x = 1 to x = -2 on a strongly convex function, where the
    value is larger, and reports no failure. *)
Lemma zoom_first_approx zcfg f gradf s0 x d : ztol zcfg = 0 -> (0 < zmaxiter zcfg)%nat ->
  let t := Rmin s0 (zmax zcfg) in let z := vadd x (smul t d) in
  f z <= f x + zc3 zcfg * Rabs (f x) -> dot (gradf z) d <= (2 * zc1 zcfg - 1) * dot (gradf x) d -> Rabs (dot (gradf z) d) <= zc2 zcfg * Rabs (dot (gradf x) d) ->
  Lbfgsb.zoom_ls zcfg f gradf s0 x (f x) (gradf x) d = {| ls_step := t; ls_params := z; ls_value := f z; ls_grad := gradf z; ls_failed := false |}.
Proof.
  intros Ht Hm. cbv zeta. intros A B W. set (t := Rmin s0 (zmax zcfg)) in *. set (z := vadd x (smul t d)) in *.
  unfold Lbfgsb.zoom_ls, zoom_run. set (F := fun y : vec => Fin (f y)). set (V := fun a b : vec => Fin (dot a b)).
  set (st0 := zoom_init true x (f x) (gradf x) (dot (gradf x) d) d).
  assert (Ed : decrease_error zcfg t (F z) (V (gradf z) d) (f x) (dot (gradf x) d) = Fin 0).
  { unfold decrease_error, F, V. cbn [xaddr xmax2 xmin2]. unfold clean_error. simpl. f_equal. apply Rmax_right || apply Rmax_left. eapply Rle_trans; [apply Rmin_l|]. apply Rmax_lub; lra. }
  assert (Ec : curvature_error zcfg (V (gradf z) d) (dot (gradf x) d) = Fin 0).
  { unfold curvature_error, V. cbn [xaddr xabs]. unfold clean_error. simpl. f_equal. apply Rmax_right || apply Rmax_left. lra. }
  assert (U : exists st1, zoom_update zcfg F gradf V (s0, st0) = (t, st1) /\ z_params st1 = z /\ z_value st1 = F z /\ z_grad st1 = gradf z /\ z_failed st1 = false /\ z_done st1 = true).
  { unfold zoom_update, trial_step. cbn [st0 zoom_init z_found]. unfold search_interval. cbn [st0 zoom_init z_iter Nat.eqb z_params z_dir z_value_init z_slope_init z_prev_value z_prev z_num_fun z_num_grad z_grad z_value z_safe z_prev_slope]. fold t.
    change (line_point st0 t) with z. rewrite Ed, Ec.
    assert (M : xleb (xmaximum (Fin 0) (Fin 0)) (ztol zcfg) = true).
    { rewrite Ht. simpl. rewrite Rmax_left by lra. destruct (Rle_dec 0 0); [reflexivity|lra]. }
    rewrite M. rewrite orb_true_r, orb_true_l. cbn [negb]. rewrite andb_false_r. cbn [add_evals z_failed z_iter z_params z_value z_grad z_done].
    eexists. split; [reflexivity|]. cbn. auto. }
  destruct U as (st1 & U & Q1 & Q2 & Q3 & Q4 & Q5). destruct (zmaxiter zcfg) as [|m]; [lia|].
  assert (R1 : run_loop (S m) zoom_cond (zoom_update zcfg F gradf V) (s0, st0) = (t, st1)).
  { unfold run_loop. rewrite U. destruct m as [|m]; [reflexivity|]. simpl. unfold zoom_cond at 1. cbn [snd]. rewrite Q5, Q4. reflexivity. }
  rewrite R1, Q1, Q2, Q3, Q4. reflexivity.
Qed.
Lemma kink_ssc : strongly_convex_smooth 1 (6 / 5) 3 kink_f kink_g.
Proof.
  split; [lra|]. split; [intros x _; reflexivity|]. intros x z Hx Hz.
  destruct x as [|x [|]]; try discriminate. destruct z as [|z [|]]; try discriminate.
  pose proof (Rle_0_sqr (z - x)) as Q1. pose proof (Rle_0_sqr x) as Q2. pose proof (Rle_0_sqr z) as Q3. unfold Rsqr in Q1, Q2, Q3.
  unfold kink_f, kink_g, dist2, sqnorm. cbn [nth]. destruct (Rle_dec 0 x), (Rle_dec 0 z); cbn [vsub vadd smul dot map combine].
  - split; lra.
  - assert (0 <= x * - z) by (apply Rmult_le_pos; lra). split; lra.
  - assert (0 <= - x * z) by (apply Rmult_le_pos; lra). split; lra.
  - split; lra.
Qed.
Theorem C76_increase_refuted : strongly_convex_smooth 1 (6 / 5) 3 kink_f kink_g /\
  exists st, lbfgs_solve kink_f kink_g (Lbfgsb.zoom_ls zoom_defaults kink_f kink_g) lbfgs_defaults 1 [1] = Ok ([-2], st) /\
    l_failed st = false /\ kink_f [1] < kink_f [-2].
Proof.
  split; [exact kink_ssc|].
  assert (Ez : zmax zoom_defaults = 1) by (unfold zmax; cbn; destruct (Req_EM_T 1 0); lra).
  set (st0 := lbfgs_init kink_f kink_g lbfgs_defaults [1]).
  assert (Ed : lbfgs_direction lbfgs_defaults st0 = [-3]).
  { assert (Hls : ls_consistent kink_f kink_g (guard_ls kink_f kink_g (Lbfgsb.zoom_ls zoom_defaults kink_f kink_g))).
    { apply guard_consistent, C64_zoom_consistent. unfold zoom_ok. rewrite Ez. cbn. repeat split; lra || lia. }
    pose proof (lbfgs_dir kink_f kink_g _ lbfgs_defaults 1 ltac:(intros x _; reflexivity) Hls (fun _ => [1]) (fun _ => st0) 0 eq_refl eq_refl ltac:(intros k Hk; lia) 0 (Nat.le_refl 0) ltac:(cbn; lia)) as H.
    cbn [gamma_at last_pairs map seq Nat.sub bfgs_matrix fold_left] in H. etransitivity; [exact H|].
    unfold kink_g. cbn. destruct (Rle_dec 0 1); [|lra]. f_equal. lra. }
  assert (Eg : kink_g [1] = [3]) by (unfold kink_g; cbn; destruct (Rle_dec 0 1); [f_equal; lra|lra]).
  assert (Ef : kink_f [1] = 1000000 + 3 / 2) by (unfold kink_f; cbn; destruct (Rle_dec 0 1); lra).
  assert (Ex : vadd [1] (smul 1 [-3]) = [-2]) by (cbn; f_equal; lra).
  assert (Eg' : kink_g [-2] = [-12 / 5]) by (unfold kink_g; cbn; destruct (Rle_dec 0 (-2)); [lra|f_equal; lra]).
  assert (Ef' : kink_f [-2] = 1000000 + 12 / 5) by (unfold kink_f; cbn; destruct (Rle_dec 0 (-2)); lra).
  assert (Els : Lbfgsb.zoom_ls zoom_defaults kink_f kink_g (3 / 2) [1] (kink_f [1]) (kink_g [1]) [-3] =
    {| ls_step := 1; ls_params := [-2]; ls_value := kink_f [-2]; ls_grad := kink_g [-2]; ls_failed := false |}).
  { pose proof (zoom_first_approx zoom_defaults kink_f kink_g (3 / 2) [1] [-3] eq_refl ltac:(cbn; lia)) as H. cbv zeta in H.
    rewrite Ez, (Rmin_right (3 / 2) 1) in H by lra. rewrite Ex in H. apply H; rewrite ?Ef, ?Ef', ?Eg, ?Eg'; cbn.
    - rewrite Rabs_right by lra. lra.
    - lra.
    - rewrite Rabs_right by lra. rewrite Rabs_left by lra. lra. }
  eexists. split; [|split].
  - unfold lbfgs_solve, run_result, run_loop. cbn [Loop.python_for]. unfold lbfgs_update. fold st0. rewrite Ed. unfold take_step.
    assert (Eu : use_linesearch lbfgs_defaults = true) by (unfold use_linesearch; cbn; unfold Rleb; destruct (Rle_dec 0 0); [reflexivity|lra]). rewrite Eu.
    assert (Ei : init_stepsize (qn_linesearch_init lbfgs_defaults) (qn_max_stepsize lbfgs_defaults) (qn_min_stepsize lbfgs_defaults) (qn_increase_factor lbfgs_defaults) (l_stepsize st0) = Ok (3 / 2)).
    { unfold init_stepsize. cbn. unfold Rleb. destruct (Rle_dec 1 (1 / 1000000)); [lra|]. f_equal. lra. }
    rewrite Ei. change (l_value st0) with (kink_f [1]). change (l_grad st0) with (kink_g [1]). rewrite Els. reflexivity.
  - reflexivity.
  - rewrite Ef, Ef'. lra.
Qed.
Print Assumptions C76_increase_refuted.

Example C76_example : let Q := [[1; 0]; [0; 2]] in let b := [1; 1] in
  exists N m, forall maxls maxit, (m <= maxls)%nat -> (N <= maxit)%nat ->
  exists x st, lbfgs_solve (quadratic Q b) (quadratic_grad Q b) (Lbfgsb.zoom_ls (with_maxiter zoom_defaults maxls) (quadratic Q b) (quadratic_grad Q b)) lbfgs_defaults maxit [10; -7] = Ok (x, st) /\
    length x = 2%nat /\ (l_iter st <= N)%nat /\ l_error st = Fin (norm2 (quadratic_grad Q b x)) /\ norm2 (quadratic_grad Q b x) <= 1 / 1000 /\ l_failed st = false.
Proof.
  intros Q b.
  assert (Ez : zmax zoom_defaults = 1) by (unfold zmax; cbn; destruct (Req_EM_T 1 0); lra).
  apply (C76_lbfgs_converges 2 1 2 Q b lbfgs_defaults zoom_defaults [10; -7] 1); try (cbn; lra); try reflexivity.
  - split; [reflexivity|repeat constructor].
  - intros i j Hi Hj. destruct i as [|[|]]; destruct j as [|[|]]; try lia; reflexivity.
  - intros v Hv. destruct v as [|a [|c [|]]]; try discriminate. cbn. nra.
  - unfold use_linesearch. cbn. unfold Rleb. destruct (Rle_dec 0 0); [reflexivity|lra].
  - right. right. reflexivity.
  - unfold zoom_ok. rewrite Ez. cbn. repeat split; lra || lia.
  - unfold wolfe_constants. cbn. lra.
  - unfold accept_length. cbn [zc1 zc2 zoom_defaults interval_threshold qn_history_size lbfgs_defaults eig_upper].
    assert (E : Rmax 1 (/ 1) = 1) by (rewrite Rinv_1; apply Rmax_left; lra). rewrite E, Rinv_1.
    rewrite Rmin_left by lra. lra.
Qed.
