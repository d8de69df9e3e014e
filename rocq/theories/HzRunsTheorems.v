(** C82: BFGS and L-BFGS with linesearch = "hager-zhang" on quadratics. *)
From Coq Require Import String.
From Coq Require Import Reals List Lra Lia Bool Arith Psatz.
From Verif Require Import Prelude Vec Mat Loss Backtracking BacktrackingTheorems Zoom ZoomProofs ZoomTheorems Run QuasiNewton QuasiNewtonProofs QuasiNewtonTheorems Convergence ConvergenceProofs ConvergenceRuns ConvergenceTheorems BfgsConvergence BfgsConvergenceProofs BfgsConvergenceTheorems.
From Verif Require Import ZoomSuccess ZoomSuccessProofs ZoomSuccessTheorems ZoomRuns ZoomRunsProofs ZoomRunsTheorems.
From Verif Require Import HagerZhang HagerZhangProofs HzRuns HzRunsProofs.
Import ListNotations.
Open Scope R_scope.

(** One search along a descent direction on which f is a parabola with minimiser t: after one update it ends
    at a step c > 0 that meets Wolfe's conditions (the exact minimiser, unless an end of the bracket is accepted
    at once), with the value and the gradient there.  The search reports failure exactly when the minimiser is a
    power of the expansion factor, where it returns the minimiser. *)
Theorem C82_search : forall fuel hcfg f gradf s0 x d sl q J,
  hz_constants hcfg -> parabola f gradf x d sl q -> - sl / q <= hexp hcfg ^ J -> (J < fuel)%nat -> dot (gradf x) d = sl ->
  let o := hz_ls fuel hcfg f gradf s0 x (f x) (gradf x) d in
  exists c, ls_params o = vadd x (smul c d) /\ ls_value o = f (ls_params o) /\ ls_grad o = gradf (ls_params o) /\
    (ls_step o = c \/ ls_step o = s0) /\ (forall tmin, efficient_step (hc1 hcfg) (hc2 hcfg) tmin f gradf x d c) /\
    (c = - sl / q \/ exists i, c = hexp hcfg ^ i) /\
    (ls_failed o = true <-> exists i, - sl / q = hexp hcfg ^ i) /\ (ls_failed o = true -> c = - sl / q).
Proof.
  intros fuel hcfg f gradf s0 x d sl q J HC (Hs & Hq & Hp) Ht Hf Hg. unfold hz_ls. rewrite Hg.
  destruct (hz_quad hcfg (fun z => Fin (f z)) gradf (fun a b => Fin (dot a b)) true x d (f x) sl q) with (fuel := fuel) (J := J) (s0 := s0) (g := gradf x) as (j & c & st & step & A1 & A2 & A3 & A4 & A5 & A6 & A7 & A8 & A9 & A10 & A14 & A11 & A12 & A13); try assumption.
  { intros c. unfold lvalue, line. f_equal. apply Hp. } { intros c. unfold lslope, line. f_equal. apply Hp. }
  rewrite A2. cbv zeta. cbn [ls_params ls_value ls_grad ls_step ls_failed]. exists c.
  split; [exact A7|]. split; [reflexivity|]. split; [exact A8|]. split; [destruct A3; auto|]. split.
  { intros tmin. split; [exact A11|]. destruct (Hp c) as [P1 P2]. rewrite P1, P2, Hg. split; [exact A12|left; exact A13]. }
  assert (HE : 1 < hexp hcfg) by apply HC.
  split. { destruct A10 as [B|[B|B]]; [right|right; exists j; exact B|left; exact B]. destruct j as [|j]; [exfalso; cbn [blow] in B; lra|exists j; exact B]. }
  rewrite A6. destruct (Req_EM_T (- sl / q) (hexp hcfg ^ j)) as [E|E].
  - split; [split; [intros _; exists j; exact E|reflexivity]|]. intros _. apply A14; exact E.
  - split; [|discriminate]. split; [discriminate|]. intros (i & Ei). exfalso. apply E. rewrite Ei. f_equal.
    assert (I1 : (i <= j)%nat). { destruct (Nat.le_gt_cases i j) as [K|K]; [exact K|exfalso]. assert (hexp hcfg ^ j < hexp hcfg ^ i) by (apply Rlt_pow; assumption). lra. }
    destruct j as [|j]; [lia|]. destruct (Nat.eq_dec i (S j)) as [K|K]; [exact K|exfalso]. cbn [blow] in A1. assert (hexp hcfg ^ i <= hexp hcfg ^ j) by (apply Rle_pow; [lra|lia]). lra.
Qed.
Print Assumptions C82_search.

(** The initial step has no effect on the point, value, gradient and failure flag. *)
Theorem C82_initial_step_ignored : forall fuel hcfg f gradf s0 s1 x v g d,
  same_point (hz_ls fuel hcfg f gradf s0 x v g d) (hz_ls fuel hcfg f gradf s1 x v g d).
Proof. exact hz_same_point. Qed.
Print Assumptions C82_initial_step_ignored.

(** ** Runs *)
Section Runs.
Variables (n : nat) (mu L : R) (Q : mat) (b : vec) (hcfg : hz_config) (fuel J : nat).
Hypothesis HQ : mat_shape n n Q.
Hypothesis HS : symmetric n Q.
Hypothesis Hb : length b = n.
Hypothesis HmL : 0 < mu <= L.
Hypothesis HE : eig_bounds n mu L Q.
Hypothesis HC : hz_constants hcfg.
Notation f := (quadratic Q b).
Notation gradf := (quadratic_grad Q b).
Notation hz := (hz_ls fuel hcfg f gradf).
Lemma quad_line x d : length x = n -> length d = n -> dot (gradf x) d < 0 -> 0 < dot d d ->
  parabola f gradf x d (dot (gradf x) d) (dot d (mvec Q d)).
Proof.
  intros Hx Hd Hs Hdd. split; [exact Hs|]. split; [pose proof (HE d Hd); assert (0 < mu * dot d d) by (apply Rmult_lt_0_compat; lra); lra|].
  intros c. assert (Hv : length (smul c d) = n) by (rewrite smul_length; exact Hd).
  destruct (quad_expand n Q b x (smul c d) HQ HS Hb Hx Hv) as [E1 E2]. rewrite E1. rewrite mvec_smul in *. rewrite !dot_smul_l, !dot_smul_r in *. split; [field|].
  destruct (Req_dec c 0) as [Z|Z].
  - rewrite Z. assert (E0 : vadd x (smul 0 d) = x) by (apply vec_eq_dot; [rewrite vadd_length, smul_length, Hx, Hd; apply Nat.max_id|intros w; autorewrite with vec; ring]). rewrite E0. ring.
  - apply (Rmult_eq_reg_l c); [|exact Z]. rewrite E2. ring.
Qed.
Lemma hz_step lo hi H x : 0 < lo -> 0 < hi -> mat_shape n n H -> symmetric n H -> eig_bounds n lo hi H -> length x = n ->
  / (mu * lo) <= hexp hcfg ^ J -> (J < fuel)%nat ->
  let d := smul (-1) (mvec H (gradf x)) in
  forall s0 tmin, efficient_step (hc1 hcfg) (hc2 hcfg) tmin f gradf x d (ls_step (true_step hz s0 x (f x) (gradf x) d)).
Proof.
  intros Hlo Hhi HH Hsym HB Hx HJ Hf d s0 tmin.
  assert (HF : strongly_convex_smooth n mu L f gradf) by (apply quad_ssc; assumption).
  pose proof (step_slope gradf H x) as Sl. pose proof (step_q0 n mu L f gradf HF lo hi H x Hlo HB Hx) as Q0.
  pose proof (step_q n mu L f gradf HF lo hi H x HB Hx) as Q1.
  pose proof (step_dd n mu L f gradf HF lo hi H x Hlo Hhi HH Hsym HB Hx) as Dd. fold d in Sl, Dd.
  set (q := dot (gradf x) (mvec H (gradf x))) in *.
  assert (Hdl : length d = n) by (unfold d; rewrite smul_length, mvec_length; apply HH).
  unfold true_step. cbn [ls_step]. set (o := hz 1 x (f x) (gradf x) d).
  destruct (Req_dec q 0) as [E|E].
  - assert (Zd : dot d d = 0) by (rewrite E in Dd; pose proof (dot_self_nonneg d); lra).
    assert (S1 : step_to x (ls_params o) d = 1) by (unfold step_to; destruct (Req_EM_T _ _); [reflexivity|contradiction]). rewrite S1.
    assert (Ez : vadd x (smul 1 d) = x).
    { apply dot_self_zero in Zd. rewrite Zd. apply vec_eq_dot; [rewrite vadd_length, smul_length, vzero_length; lia|]. intros w. autorewrite with vec. ring. }
    split; [lra|]. rewrite Ez, Sl, E. split; [lra|left; lra].
  - assert (Qp : 0 < q) by lra. assert (Hsl : dot (gradf x) d < 0) by lra.
    pose proof (cauchy_schwarz_sq (gradf x) d) as CS. rewrite Sl in CS.
    assert (Dp : 0 < dot d d).
    { destruct (Rle_lt_or_eq_dec 0 _ (dot_self_nonneg d)) as [P|Zz]; [exact P|exfalso]. rewrite <- Zz in CS. assert (0 < q * q) by (apply Rmult_lt_0_compat; assumption). lra. }
    pose proof (quad_line x d Hx Hdl Hsl Dp) as P.
    (* the minimiser is at most 1 / (mu lo) *)
    assert (B1 : lo * q <= dot d d).
    { apply (Rmult_le_reg_l q); [exact Qp|]. assert (A1 : lo * (q * q) <= lo * (dot (gradf x) (gradf x) * dot d d)) by (apply Rmult_le_compat_l; lra).
      assert (A2 : lo * dot (gradf x) (gradf x) * dot d d <= q * dot d d) by (apply Rmult_le_compat_r; lra). lra. }
    pose proof (HE d Hdl) as [B2 _]. assert (M0 : 0 < mu * dot d d) by (apply Rmult_lt_0_compat; lra).
    assert (T : - dot (gradf x) d / dot d (mvec Q d) <= hexp hcfg ^ J).
    { eapply Rle_trans; [|exact HJ]. rewrite Sl, Ropp_involutive. apply (Rmult_le_reg_r (dot d (mvec Q d))); [lra|]. unfold Rdiv. rewrite Rmult_assoc, Rinv_l, Rmult_1_r by lra.
      assert (ML : 0 < mu * lo) by (apply Rmult_lt_0_compat; lra). apply (Rmult_le_reg_l (mu * lo)); [exact ML|]. rewrite <- Rmult_assoc, Rinv_r, Rmult_1_l by lra.
      assert (mu * (lo * q) <= mu * dot d d) by (apply Rmult_le_compat_l; lra). lra. }
    destruct (C82_search fuel hcfg f gradf 1 x d _ _ J HC P T Hf eq_refl) as (c & O1 & _ & _ & _ & O5 & _). fold o in O1.
    rewrite O1, step_to_line by lra. apply O5.
Qed.
Lemma hz_true_consistent : ls_consistent f gradf (true_step hz).
Proof. apply true_step_consistent. intros x v g d. apply hz_on_line. apply HC. Qed.
Lemma hz_true_same s0 s1 x v g d : same_point (hz s0 x v g d) (true_step hz s1 x v g d).
Proof. destruct (hz_same_point fuel hcfg f gradf s0 1 x v g d) as (A & B' & C' & D'). unfold true_step, same_point. cbn. auto. Qed.
End Runs.

(** L-BFGS, whatever memory, scaling and initial-step strategy (with stop_if_linesearch_fails = False): run
    returns a point whose gradient is at most tol in norm after at most N iterations as soon as
    L/mu r^N |g0|^2 <= tol^2.  The search needs no maxls beyond 1; its unbounded bracketing loop takes at most J
    rounds with expansion^J >= 1/(mu lo). *)
Theorem C82_lbfgs : forall n mu L Q b cfg hcfg fuel x0 N J,
  mat_shape n n Q -> symmetric n Q -> length b = n -> 0 < mu <= L -> eig_bounds n mu L Q -> length x0 = n ->
  use_linesearch cfg = true -> known_strategy (qn_linesearch_init cfg) -> qn_stop_if_linesearch_fails cfg = false -> 0 < qn_tol cfg ->
  hz_constants hcfg ->
  let hi := eig_upper mu L (qn_history_size cfg) in
  let lo := eig_lower L (qn_history_size cfg) in
  / (mu * lo) <= hexp hcfg ^ J -> (J < fuel)%nat ->
  let r := gap_factor mu (hc1 hcfg) (wolfe_floor (hc2 hcfg) L hi) lo in
  let f := quadratic Q b in let gradf := quadratic_grad Q b in
  (0 < N)%nat -> L / mu * r ^ N * dot (gradf x0) (gradf x0) <= qn_tol cfg * qn_tol cfg ->
  0 <= r < 1 /\
  forall maxit, (N <= maxit)%nat -> exists x st,
    lbfgs_solve f gradf (hz_ls fuel hcfg f gradf) cfg maxit x0 = Ok (x, st) /\ length x = n /\
    (l_iter st <= N)%nat /\ l_error st = Fin (norm2 (gradf x)) /\ norm2 (gradf x) <= qn_tol cfg /\
    (forall z, length z = n -> f x - f z <= qn_tol cfg * qn_tol cfg / (2 * mu)) /\
    (forall z, length z = n -> mvec Q z = b -> norm2 (vsub x z) <= qn_tol cfg / mu).
Proof.
  intros n mu L Q b cfg hcfg fuel x0 N J HQ HS Hb HmL HE Hx0 Hul Hks Hstop Htol HC hi lo HJ Hfu r f gradf HN0 HN.
  assert (HF : strongly_convex_smooth n mu L f gradf) by (apply quad_ssc; assumption).
  assert (Hdim : grad_dim n gradf) by (destruct HF as (_ & A & _); exact A).
  set (ls := true_step (hz_ls fuel hcfg f gradf)).
  assert (Hls : ls_consistent f gradf ls) by (apply hz_true_consistent; exact HC).
  destruct (C27_runs_exist f gradf ls cfg x0 Hks) as (xs & sts & Ex0 & Hrun). rewrite <- Ex0 in Hx0.
  assert (Hlo : 0 < lo) by (apply eig_lower_pos; lra). assert (Hhi : 0 < hi) by (apply eig_upper_pos; exact HmL).
  pose proof HC as (C1 & C2 & C3 & C4 & C5 & C6).
  assert (Wp : 0 < wolfe_floor (hc2 hcfg) L hi) by (unfold wolfe_floor; apply Rdiv_lt_0_compat; [lra|apply Rmult_lt_0_compat; lra]).
  assert (Step : forall k tmin, efficient_step (hc1 hcfg) (hc2 hcfg) tmin f gradf (xs k) (lbfgs_direction cfg (sts k)) (l_stepsize (sts (S k)))).
  { intros k tmin. destruct (Hrun (S k)) as [R0 R1]. pose proof (R1 k ltac:(lia)) as U.
    destruct (run_matrix n mu L f gradf ls cfg HF Hls xs sts (S k) Hx0 (Hrun (S k)) k ltac:(lia)) as (H & H1 & H2 & H3 & H4).
    destruct (lbfgs_inv f gradf ls cfg n Hdim Hls xs sts (S k) Hx0 R0 R1 k ltac:(lia)) as (Hl & I2 & I3 & _).
    unfold lbfgs_update, take_step in U. rewrite Hul, I2, I3 in U.
    destruct (init_stepsize _ _ _ _ _) as [s0|] in U; [|discriminate]. cbv zeta in U. injection U as Ux Us. rewrite <- Us. cbn [l_stepsize].
    rewrite H4. apply (hz_step n mu L Q b hcfg fuel J HQ HS Hb HmL HE HC lo hi H (xs k) Hlo Hhi H1 H2 H3 Hl HJ Hfu s0 tmin). }
  assert (Lin : forall K, 0 <= r < 1 /\ (forall k, (k <= K)%nat -> dot (gradf (xs k)) (gradf (xs k)) <= L / mu * r ^ k * dot (gradf (xs 0%nat)) (gradf (xs 0%nat)))).
  { intros K. destruct (run_efficient n mu L f gradf ls cfg HF Hls xs sts K Hx0 (Hrun K) (hc1 hcfg) (hc2 hcfg) (wolfe_floor (hc2 hcfg) L hi) ltac:(lra) ltac:(lra) ltac:(lra) Wp ltac:(intros k _; apply Step)) as (A & B & C).
    assert (Em : Rmin (wolfe_floor (hc2 hcfg) L hi) (wolfe_floor (hc2 hcfg) L hi) = wolfe_floor (hc2 hcfg) L hi) by (apply Rmin_left; lra).
    fold hi in A, B, C. rewrite Em in A, B, C.
    destruct (run_linear n mu L f gradf ls cfg HF Hls xs sts K Hx0 (Hrun K) (hc1 hcfg) _ ltac:(lra) A B C) as (D & _ & E). split; [exact D|exact E]. }
  split; [apply (Lin 0%nat)|]. intros maxit Hmx.
  assert (Err : forall j, l_error (sts (S j)) = Fin (norm2 (gradf (xs (S j))))).
  { intros j. apply (run_error f gradf ls cfg Hls xs sts (S j) (Hrun (S j)) j). lia. }
  assert (CondS : forall j, lbfgs_cond cfg (sts (S j)) = false -> norm2 (gradf (xs (S j))) <= qn_tol cfg).
  { intros j. unfold lbfgs_cond. rewrite Err, Hstop. cbn [negb orb]. rewrite andb_true_r. cbn [xgtb]. destruct (Rlt_dec _ _); [discriminate|lra]. }
  assert (SmallN : norm2 (gradf (xs N)) <= qn_tol cfg).
  { apply norm2_le_sq; [lra|]. destruct (Lin N) as (_ & G). rewrite <- Ex0 in HN. eapply Rle_trans; [apply (G N); lia|exact HN]. }
  destruct (run_result_stops maxit (fun step => lbfgs_cond cfg (snd step)) (lbfgs_update f gradf ls cfg) (fun k => (xs k, sts k)) N ltac:(lia)) as (k & Hk & Er & He).
  { intros k. destruct (Hrun (S k)) as [_ R1]. apply R1. lia. }
  { destruct N as [|N']; [lia|]. cbn [snd]. unfold lbfgs_cond. rewrite Err. cbn [xgtb]. destruct (Rlt_dec _ _); [lra|reflexivity]. }
  cbn [snd] in He. destruct k as [|k]; [lia|]. pose proof (CondS k He) as Fin_.
  (* the run with the reported steps has the same iterates *)
  assert (Sim : res_rel l_same (lbfgs_solve f gradf (hz_ls fuel hcfg f gradf) cfg maxit x0) (Ok (xs (S k), sts (S k)))).
  { rewrite <- Er. unfold lbfgs_solve, run_result. destruct (Hrun 0%nat) as [R0 _]. rewrite R0, Ex0. apply run_loop_rel.
    - intros [u|] [w|] H; cbn in H; try contradiction; [|reflexivity]. destruct H as (_ & _ & _ & _ & H5 & _ & _ & _ & _ & H10). unfold lbfgs_cond. rewrite H5, H10. reflexivity.
    - intros [u|] [w|] H; try contradiction H; [|exact H]. apply l_update_same; [intros; apply hz_true_same|exact Hul|exact H].
    - cbn. repeat split. }
  destruct (lbfgs_solve f gradf (hz_ls fuel hcfg f gradf) cfg maxit x0) as [[x st]|e] eqn:Es; [|contradiction Sim].
  destruct Sim as (E1 & E2). cbn [fst snd] in E1, E2. destruct E2 as (E2 & _ & _ & E5 & _). exists x, st. rewrite E1 in *. clear E1.
  assert (Hl : length (xs (S k)) = n) by (apply (run_len n mu L f gradf ls cfg HF Hls xs sts (S k) Hx0 (Hrun (S k)) (S k)); lia).
  split; [reflexivity|]. split; [exact Hl|]. split.
  { destruct (Hrun (S k)) as [R0 R1]. destruct (lbfgs_inv f gradf ls cfg n Hdim Hls xs sts (S k) Hx0 R0 R1 (S k) ltac:(lia)) as (_ & _ & _ & I4 & _). rewrite E2, I4. lia. }
  split; [rewrite E5; apply Err|]. split; [exact Fin_|]. split.
  - intros z Hz. pose proof (ssc_pl n mu L f gradf HF (xs (S k)) z Hl Hz) as P. rewrite <- norm2_sq in P.
    pose proof (norm2_nonneg (gradf (xs (S k)))). apply (Rmult_le_reg_l (2 * mu)); [lra|].
    replace (2 * mu * (qn_tol cfg * qn_tol cfg / (2 * mu))) with (qn_tol cfg * qn_tol cfg) by (field; lra). nra.
  - intros z Hz Hg. assert (Hg' : gradf z = vzero n).
    { unfold gradf, quadratic_grad. rewrite Hg. rewrite <- Hb. apply vec_eq_dot; [rewrite vzero_length; apply vsub_length_eq; reflexivity|]. intros w. autorewrite with vec. ring. }
    pose proof (ssc_dist n mu L f gradf (xs (S k)) z HF Hl Hz Hg') as P.
    apply (Rmult_le_reg_l mu); [lra|]. replace (mu * (qn_tol cfg / mu)) with (qn_tol cfg) by (field; lra). lra.
Qed.
Print Assumptions C82_lbfgs.

(** BFGS, with the same rate as in C65. *)
Theorem C82_bfgs : forall n mu L Q b cfg hcfg fuel x0 N J,
  mat_shape n n Q -> symmetric n Q -> length b = n -> 0 < mu <= L -> eig_bounds n mu L Q -> length x0 = n ->
  use_linesearch cfg = true -> known_strategy (qn_linesearch_init cfg) -> 0 < qn_max_stepsize cfg -> 0 < qn_increase_factor cfg -> 0 < qn_tol cfg ->
  hz_constants hcfg -> / (mu * eig_lower L N) <= hexp hcfg ^ J -> (J < fuel)%nat ->
  let r := bfgs_rate n mu L (hc1 hcfg) (hc2 hcfg) 1 1 in
  let f := quadratic Q b in let gradf := quadratic_grad Q b in
  (0 < N)%nat -> L / mu * r ^ N * dot (gradf x0) (gradf x0) <= qn_tol cfg * qn_tol cfg ->
  0 < r < 1 /\
  forall maxit, (N <= maxit)%nat -> exists x st,
    bfgs_solve f gradf (hz_ls fuel hcfg f gradf) cfg maxit x0 = Ok (x, st) /\ length x = n /\
    (b_iter st <= N)%nat /\ b_error st = Fin (norm2 (gradf x)) /\ norm2 (gradf x) <= qn_tol cfg /\
    (forall z, length z = n -> f x - f z <= qn_tol cfg * qn_tol cfg / (2 * mu)) /\
    (forall z, length z = n -> mvec Q z = b -> norm2 (vsub x z) <= qn_tol cfg / mu).
Proof.
  intros n mu L Q b cfg hcfg fuel x0 N J HQ HS Hb HmL HE Hx0 Hul Hks Hqm Hqi Htol HC HJ Hfu r f gradf HN0 HN.
  assert (HF : strongly_convex_smooth n mu L f gradf) by (apply quad_ssc; assumption).
  assert (Hdim : grad_dim n gradf) by (destruct HF as (_ & A & _); exact A).
  set (ls := true_step (hz_ls fuel hcfg f gradf)).
  assert (Hls : ls_consistent f gradf ls) by (apply hz_true_consistent; exact HC).
  destruct (C26_runs_exist f gradf ls cfg x0 Hks) as (xs & sts & Ex0 & Hrun). rewrite <- Ex0 in Hx0.
  pose proof HC as (C1 & C2 & C3 & C4 & C5 & C6).
  assert (Step : forall k, (k < N)%nat -> sufficient_step (hc1 hcfg) (hc2 hcfg) 1 1 f gradf (xs k) (bfgs_direction (sts k)) (b_stepsize (sts (S k)))).
  { intros k Hk. destruct (Hrun N) as [R0 R1]. pose proof (R1 k Hk) as U.
    destruct (C65_eigenvalues n mu L f gradf ls cfg xs sts N HF Hls Hx0 (Hrun N) k ltac:(lia)) as (H1 & H2 & H3 & H4).
    apply (eig_weaken n _ (eig_lower L N) _ (eig_upper mu L N)) in H3; [|apply eig_lower_mono; [lra|lia]|apply eig_upper_mono; [exact HmL|lia]].
    destruct (bfgs_inv f gradf ls cfg n Hdim Hls xs sts N Hx0 R0 R1 k ltac:(lia)) as (Hl & I2 & I3 & _).
    unfold bfgs_update, take_step in U. rewrite Hul, I2, I3 in U.
    destruct (init_stepsize _ _ _ _ _) as [s0|] in U; [|discriminate]. cbv zeta in U. injection U as Ux Us. rewrite <- Us. cbn [b_stepsize].
    apply C65_wolfe_sufficient. rewrite H4.
    apply (hz_step n mu L Q b hcfg fuel J HQ HS Hb HmL HE HC (eig_lower L N) (eig_upper mu L N) (b_H (sts k)) (xs k) (eig_lower_pos L N ltac:(lra)) (eig_upper_pos mu L N HmL) H1 H2 H3 Hl HJ Hfu s0 1). }
  destruct (C65_linear n mu L f gradf ls cfg xs sts N (hc1 hcfg) (hc2 hcfg) 1 1 HF (consistent_pos _ _ _ Hls) Hx0 Hqm Hqi ltac:(lra) ltac:(lra) ltac:(lra) ltac:(lra) (Hrun N) Step) as (Hr & _ & G).
  fold r in Hr, G. split; [exact Hr|]. intros maxit Hmx.
  assert (SmallN : norm2 (gradf (xs N)) <= qn_tol cfg).
  { apply norm2_le_sq; [lra|]. rewrite <- Ex0 in HN. eapply Rle_trans; [apply (G N); lia|exact HN]. }
  destruct (bfgs_solve_stops f gradf ls cfg xs sts N maxit Hls Hrun ltac:(lia) SmallN) as (k & Hk & Er & Ee & Fin_).
  assert (Sim : res_rel b_same (bfgs_solve f gradf (hz_ls fuel hcfg f gradf) cfg maxit x0) (Ok (xs k, sts k))).
  { rewrite <- Er, Ex0. unfold bfgs_solve, run_result. apply run_loop_rel.
    - intros [u|] [w|] H; cbn in H; try contradiction; [|reflexivity]. destruct H as (_ & _ & _ & _ & H5 & _). rewrite H5. reflexivity.
    - intros [u|] [w|] H; try contradiction H; [|exact H]. apply b_update_same; [intros; apply hz_true_same|exact Hul|exact H].
    - cbn. repeat split. }
  destruct (bfgs_solve f gradf (hz_ls fuel hcfg f gradf) cfg maxit x0) as [[x st]|e] eqn:Es; [|contradiction Sim].
  destruct Sim as (E1 & E2). cbn [fst snd] in E1, E2. destruct E2 as (E2 & _ & _ & E5 & _). exists x, st. rewrite E1 in *. clear E1.
  destruct (Hrun k) as [R0 R1]. destruct (bfgs_inv f gradf ls cfg n Hdim Hls xs sts k Hx0 R0 R1 k ltac:(lia)) as (Hl & _ & _ & I4 & _).
  split; [reflexivity|]. split; [exact Hl|]. split; [rewrite E2, I4; lia|]. split; [rewrite E5; exact Ee|]. split; [exact Fin_|]. split.
  - intros z Hz. pose proof (ssc_pl n mu L f gradf HF (xs k) z Hl Hz) as P. rewrite <- norm2_sq in P.
    pose proof (norm2_nonneg (gradf (xs k))). apply (Rmult_le_reg_l (2 * mu)); [lra|].
    replace (2 * mu * (qn_tol cfg * qn_tol cfg / (2 * mu))) with (qn_tol cfg * qn_tol cfg) by (field; lra). nra.
  - intros z Hz Hg. assert (Hg' : gradf z = vzero n).
    { unfold gradf, quadratic_grad. rewrite Hg. rewrite <- Hb. apply vec_eq_dot; [rewrite vzero_length; apply vsub_length_eq; reflexivity|]. intros w. autorewrite with vec. ring. }
    pose proof (ssc_dist n mu L f gradf (xs k) z HF Hl Hz Hg') as P.
    apply (Rmult_le_reg_l mu); [lra|]. replace (mu * (qn_tol cfg / mu)) with (qn_tol cfg) by (field; lra). lra.
Qed.
Print Assumptions C82_bfgs.

(** So every tolerance is reached once the bracketing loop is not cut and maxiter is large enough. *)
Theorem C82_lbfgs_converges : forall n mu L Q b cfg hcfg x0,
  mat_shape n n Q -> symmetric n Q -> length b = n -> 0 < mu <= L -> eig_bounds n mu L Q -> length x0 = n ->
  use_linesearch cfg = true -> known_strategy (qn_linesearch_init cfg) -> qn_stop_if_linesearch_fails cfg = false -> 0 < qn_tol cfg ->
  hz_constants hcfg ->
  exists N m, forall fuel maxit, (m <= fuel)%nat -> (N <= maxit)%nat ->
  let f := quadratic Q b in let gradf := quadratic_grad Q b in
  exists x st, lbfgs_solve f gradf (hz_ls fuel hcfg f gradf) cfg maxit x0 = Ok (x, st) /\ length x = n /\
    (l_iter st <= N)%nat /\ l_error st = Fin (norm2 (gradf x)) /\ norm2 (gradf x) <= qn_tol cfg.
Proof.
  intros n mu L Q b cfg hcfg x0 HQ HS Hb HmL HE Hx0 Hul Hks Hstop Htol HC.
  set (hi := eig_upper mu L (qn_history_size cfg)). set (lo := eig_lower L (qn_history_size cfg)).
  assert (Hlo : 0 < lo) by (apply eig_lower_pos; lra). assert (Hhi : 0 < hi) by (apply eig_upper_pos; exact HmL). assert (LH : 0 < L * hi) by (apply Rmult_lt_0_compat; lra).
  pose proof HC as (C1 & C2 & C3 & C4 & C5 & C6).
  set (r := gap_factor mu (hc1 hcfg) (wolfe_floor (hc2 hcfg) L hi) lo).
  assert (Wf : wolfe_floor (hc2 hcfg) L hi * (L * hi) = 1 - hc2 hcfg) by (unfold wolfe_floor; field; split; lra).
  assert (Wp : 0 < wolfe_floor (hc2 hcfg) L hi) by (unfold wolfe_floor; apply Rdiv_lt_0_compat; lra).
  assert (Hr : 0 <= r < 1).
  { apply (ConvergenceProofs.factor_range mu L _ _ _ hi); [exact HmL| | |lra|assumption|].
    - split; [apply eig_lower_pos; lra|apply eig_lower_le; lra].
    - apply eig_upper_ge; exact HmL.
    - rewrite Rmult_assoc, Wf. assert (hc1 hcfg * (1 - hc2 hcfg) <= 1 / 2 * 1) by (apply Rmult_le_compat; lra). lra. }
  pose proof (dot_self_nonneg (quadratic_grad Q b x0)) as G0.
  destruct (pow_small (L / mu * dot (quadratic_grad Q b x0) (quadratic_grad Q b x0)) r (qn_tol cfg * qn_tol cfg)) as (N & HN); [|exact Hr|nra|].
  { apply Rmult_le_pos; [left; apply Rdiv_lt_0_compat; lra|exact G0]. }
  destruct (pow_large (hexp hcfg) (/ (mu * lo)) C4) as [J HJ].
  exists (S N), (S J). intros fuel maxit Hf Hm f gradf.
  assert (HN' : L / mu * r ^ S N * dot (gradf x0) (gradf x0) <= qn_tol cfg * qn_tol cfg).
  { replace (L / mu * r ^ S N * dot (gradf x0) (gradf x0)) with (L / mu * dot (gradf x0) (gradf x0) * r ^ S N) by ring. apply HN. lia. }
  destruct (C82_lbfgs n mu L Q b cfg hcfg fuel x0 (S N) J HQ HS Hb HmL HE Hx0 Hul Hks Hstop Htol HC HJ ltac:(lia) ltac:(lia) HN') as (_ & A).
  destruct (A maxit Hm) as (x & st & A1 & A2 & A3 & A4 & A5 & _). exists x, st. auto 6.
Qed.
Print Assumptions C82_lbfgs_converges.

(** With stop_if_linesearch_fails = True the run can stop after one iteration at a point that is not within tol,
    although the search found the exact minimiser of the line: f(x) = (3 x1^2 + x2^2) / 4 from (2/3, 2), where
    the exact step is 1. *)
Definition spurious_Q : mat := [[3 / 2; 0]; [0; 1 / 2]].
Definition stopping_cfg : qn_config :=
  {| qn_stepsize := StepConst 0; qn_linesearch_init := "increase"; qn_increase_factor := 3 / 2; qn_max_stepsize := 1; qn_min_stepsize := 1 / 1000000;
     qn_tol := 1 / 1000; qn_stop_if_linesearch_fails := true; qn_history_size := 10; qn_use_gamma := true |}.
Lemma defaults_ok : hz_constants hz_defaults.
Proof. unfold hz_constants. cbn. repeat split; try lra; lia. Qed.
Lemma spurious_ok : mat_shape 2 2 spurious_Q /\ symmetric 2 spurious_Q /\ eig_bounds 2 (1 / 2) (3 / 2) spurious_Q.
Proof.
  split; [split; [reflexivity|repeat constructor]|]. split.
  - intros i j Hi Hj. destruct i as [|[|i]], j as [|[|j]]; try lia; cbn; reflexivity.
  - intros v Hv. destruct v as [|a [|c [|? ?]]]; try discriminate Hv. cbn. pose proof (Rle_0_sqr a) as A. pose proof (Rle_0_sqr c) as C. unfold Rsqr in A, C. lra.
Qed.
Theorem C82_spurious_failure_refuted :
  exists Q b x0 cfg hcfg, mat_shape 2 2 Q /\ symmetric 2 Q /\ length b = 2%nat /\ eig_bounds 2 (1 / 2) (3 / 2) Q /\ length x0 = 2%nat /\
    use_linesearch cfg = true /\ known_strategy (qn_linesearch_init cfg) /\ hz_constants hcfg /\ qn_stop_if_linesearch_fails cfg = true /\
  let f := quadratic Q b in let gradf := quadratic_grad Q b in
  forall fuel maxit, (0 < fuel)%nat -> (0 < maxit)%nat -> exists x st,
    lbfgs_solve f gradf (hz_ls fuel hcfg f gradf) cfg maxit x0 = Ok (x, st) /\ l_iter st = 1%nat /\ l_failed st = true /\
    (forall t, f x <= f (vsub x0 (smul t (gradf x0)))) /\ qn_tol cfg < norm2 (gradf x).
Proof.
  exists spurious_Q, [0; 0], [2 / 3; 2], stopping_cfg, hz_defaults. destruct spurious_ok as (HQ & HS & HE).
  assert (Hul : use_linesearch stopping_cfg = true) by (cbn; unfold Rleb; destruct (Rle_dec 0 0); [reflexivity|lra]).
  split; [exact HQ|]. split; [exact HS|]. split; [reflexivity|]. split; [exact HE|]. split; [reflexivity|]. split; [exact Hul|]. split; [right; right; reflexivity|].
  split; [exact defaults_ok|]. split; [reflexivity|]. intros f gradf fuel maxit Hf Hm. set (x0 := [2 / 3; 2]).
  assert (HF : strongly_convex_smooth 2 (1 / 2) (3 / 2) f gradf) by (apply quad_ssc; [exact HQ|exact HS|reflexivity|lra|exact HE]).
  assert (Hdim : grad_dim 2 gradf) by (destruct HF as (_ & A & _); exact A).
  set (ls := hz_ls fuel hz_defaults f gradf). set (st0 := lbfgs_init f gradf stopping_cfg x0).
  assert (Hg : gradf x0 = [1; 1]) by (unfold gradf, quadratic_grad, x0, spurious_Q; cbn; repeat (f_equal; try lra)).
  assert (Hd : lbfgs_direction stopping_cfg st0 = smul (-1) [1; 1]).
  { destruct (run_matrix 2 (1 / 2) (3 / 2) f gradf (true_step ls) stopping_cfg HF (hz_true_consistent spurious_Q [0; 0] hz_defaults fuel defaults_ok) (fun _ => x0) (fun _ => st0) 0 eq_refl) with (k := 0%nat) as (H & _).
    { split; [reflexivity|]. intros k Hk. lia. } { lia. }
    rewrite (lbfgs_dir f gradf (true_step ls) stopping_cfg 2 Hdim (hz_true_consistent spurious_Q [0; 0] hz_defaults fuel defaults_ok) (fun _ => x0) (fun _ => st0) 0 eq_refl eq_refl ltac:(intros k Hk; lia) 0 (le_n 0) ltac:(cbn; lia)).
    rewrite Hg. cbn. repeat (f_equal; try lra). }
  set (d := smul (-1) [1; 1]) in *.
  assert (Hdd : dot d d = 2) by (cbn; lra). assert (Hgd : dot (gradf x0) d = -2) by (rewrite Hg; cbn; lra).
  assert (Hqd : dot d (mvec spurious_Q d) = 2) by (cbn; lra).
  pose proof (quad_line 2 (1 / 2) (3 / 2) spurious_Q [0; 0] HQ HS eq_refl ltac:(lra) HE x0 d eq_refl eq_refl) as P.
  change (quadratic spurious_Q [0; 0]) with f in P. change (quadratic_grad spurious_Q [0; 0]) with gradf in P. rewrite Hgd, Hqd, Hdd in P. specialize (P ltac:(lra) ltac:(lra)).
  assert (T1 : - -2 / 2 = 1) by field.
  assert (Sr : forall s0, exists step, ls s0 x0 (f x0) (gradf x0) d = {| ls_step := step; ls_params := [-1/3; 1]; ls_value := f [-1/3; 1]; ls_grad := gradf [-1/3; 1]; ls_failed := true |}).
  { intros s0. destruct (C82_search fuel hz_defaults f gradf s0 x0 d (-2) 2 0 defaults_ok P ltac:(rewrite T1; cbn; lra) Hf Hgd) as (c & O1 & O2 & O3 & _ & _ & _ & O7 & O8). fold ls in O1, O2, O3, O7, O8.
    assert (F1 : ls_failed (ls s0 x0 (f x0) (gradf x0) d) = true) by (apply O7; exists 0%nat; rewrite T1; reflexivity). specialize (O8 F1). rewrite T1 in O8. subst c.
    destruct (ls s0 x0 (f x0) (gradf x0) d) as [a b' c' d' e']. cbn [ls_params ls_value ls_grad ls_failed] in *. exists a. subst c' d' e'.
    assert (X1 : b' = [-1/3; 1]) by (rewrite O1; unfold x0, d; cbn; repeat (f_equal; try lra)). rewrite X1. reflexivity. }
  assert (Hg1 : gradf [-1/3; 1] = [-1/2; 1/2]) by (unfold gradf, quadratic_grad, spurious_Q; cbn; repeat (f_equal; try lra)).
  assert (Hup : exists st1, lbfgs_update f gradf ls stopping_cfg (x0, st0) = Ok ([-1/3; 1], st1) /\ l_iter st1 = 1%nat /\ l_failed st1 = true).
  { unfold lbfgs_update. rewrite Hd. change (l_value st0) with (f x0). change (l_grad st0) with (gradf x0). unfold take_step. rewrite Hul.
    destruct (init_stepsize _ _ _ _ _) as [s0|e] eqn:Ei.
    - destruct (Sr s0) as (step & ->). eexists. split; [reflexivity|]. split; reflexivity.
    - exfalso. unfold init_stepsize in Ei. cbn in Ei. discriminate. }
  destruct Hup as (st1 & U1 & U2 & U3). exists [-1/3; 1], st1. split.
  { unfold lbfgs_solve, run_result. destruct maxit as [|m]; [lia|]. cbn [run_loop]. match goal with |- Loop.python_for _ _ _ ?i = _ => replace i with (@Ok (vec * lbfgs_state) ([-1/3; 1], st1)) by (symmetry; exact U1) end. destruct m; cbn [Loop.python_for snd]; [reflexivity|]. unfold lbfgs_cond. rewrite U3. cbn [stopping_cfg qn_stop_if_linesearch_fails negb orb]. rewrite andb_false_r. reflexivity. }
  split; [exact U2|]. split; [exact U3|]. split.
  - intros t. rewrite Hg. unfold f, quadratic, spurious_Q, x0. cbn. assert (A := Rle_0_sqr (t - 1)). unfold Rsqr in A. lra.
  - rewrite Hg1. cbn [stopping_cfg qn_tol]. unfold norm2. apply Rlt_le_trans with (sqrt (1 / 4)); [|apply sqrt_le_1_alt; cbn; lra].
    replace (1 / 4) with ((1 / 2) * (1 / 2)) by field. rewrite sqrt_square by lra. lra.
Qed.
Print Assumptions C82_spurious_failure_refuted.

Example C82_example : let f := quadratic spurious_Q [0; 0] in let gradf := quadratic_grad spurious_Q [0; 0] in
  parabola f gradf [1; 1] [-1; -1] (-2) 2 /\
  exists N m, forall fuel maxit, (m <= fuel)%nat -> (N <= maxit)%nat -> exists x st,
    lbfgs_solve f gradf (hz_ls fuel hz_defaults f gradf) lbfgs_defaults maxit [1; 1] = Ok (x, st) /\ norm2 (gradf x) <= 1 / 1000.
Proof.
  intros f gradf. destruct spurious_ok as (HQ & HS & HE). split.
  - split; [lra|]. split; [lra|]. intros c. unfold f, gradf, quadratic, quadratic_grad, spurious_Q. cbn. split; field.
  - destruct (C82_lbfgs_converges 2 (1 / 2) (3 / 2) spurious_Q [0; 0] lbfgs_defaults hz_defaults [1; 1] HQ HS eq_refl ltac:(lra) HE eq_refl) as (N & m & A).
    + cbn. unfold Rleb. destruct (Rle_dec 0 0); [reflexivity|lra].
    + right; right; reflexivity.
    + reflexivity.
    + cbn. lra.
    + exact defaults_ok.
    + exists N, m. intros fuel maxit H1 H2. destruct (A fuel maxit H1 H2) as (x & st & A1 & _ & _ & _ & A5). exists x, st. split; [exact A1|exact A5].
Qed.
