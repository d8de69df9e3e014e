(** C65: global linear convergence of BFGS. *)
From Coq Require Import String.
From Coq Require Import Reals List Lra Lia Bool Arith Psatz.
From Verif Require Import Prelude Vec Mat Zoom ZoomTheorems Loss Backtracking BacktrackingTheorems Run QuasiNewton QuasiNewtonProofs QuasiNewtonTheorems Convergence ConvergenceProofs ConvergenceRuns ConvergenceTheorems BfgsConvergence BfgsConvergenceProofs.
Import ListNotations.
Open Scope R_scope.

(** Steps that decrease f sufficiently and are not too short give linear convergence, of the gap
    to any point z (hence to the minimum) and of the gradient. *)
Theorem C65_linear : forall n mu L f gradf ls cfg xs sts K c1 c2 tmin df,
  strongly_convex_smooth n mu L f gradf -> ls_consistent_pos f gradf ls -> length (xs 0%nat) = n ->
  0 < qn_max_stepsize cfg -> 0 < qn_increase_factor cfg ->
  0 < c1 < 1 -> c2 < 1 -> 0 < tmin -> 0 < df ->
  bfgs_run f gradf ls cfg xs sts K ->
  (forall k, (k < K)%nat -> sufficient_step c1 c2 tmin df f gradf (xs k) (bfgs_direction (sts k)) (b_stepsize (sts (S k)))) ->
  let r := bfgs_rate n mu L c1 c2 tmin df in
  0 < r < 1 /\
  (forall z k, length z = n -> (k <= K)%nat -> f (xs k) - f z <= r ^ k * (f (xs 0%nat) - f z)) /\
  (forall k, (k <= K)%nat -> dot (gradf (xs k)) (gradf (xs k)) <= L / mu * r ^ k * dot (gradf (xs 0%nat)) (gradf (xs 0%nat))).
Proof.
  intros n mu L f gradf ls cfg xs sts K c1 c2 tmin df HF Hls Hx0 Hq1 Hq2 H1 H2 H3 H4 Hrun Hst r.
  apply guard_bfgs_run in Hrun; [|exact Hq1|exact Hq2|intros k Hk; apply (Hst k Hk)]. apply guard_consistent in Hls.
  assert (HmuL : 0 < mu <= L) by (destruct HF as (A & _); exact A).
  pose proof (brun_rate n mu L f gradf HF c1 c2 tmin df H1 H2 H3 H4) as Hr. fold r in Hr.
  pose proof (fun k => brun_len n mu L f gradf _ cfg HF Hls xs sts K Hx0 Hrun k) as Hl.
  assert (Hgap : forall z k, length z = n -> (k <= K)%nat -> f (xs k) - f z <= r ^ k * (f (xs 0%nat) - f z)).
  { intros z k Hz Hk. destruct n as [|n'].
    - pose proof (Hl k Hk) as A. apply length_zero_iff_nil in A, Hz, Hx0. rewrite A, Hz, Hx0. lra.
    - apply (brun_gap (S n') mu L f gradf _ cfg HF Hls xs sts K Hx0 Hrun c1 c2 tmin df H1 H2 H3 H4 Hst z k ltac:(lia) Hz Hk). }
  split; [exact Hr|]. split; [exact Hgap|]. intros k Hk.
  destruct (ssc_grad_upper n mu L f gradf HF (xs k) (Hl k Hk)) as (z & Hz & U).
  pose proof (Hgap z k Hz Hk) as G. pose proof (ssc_pl n mu L f gradf HF (xs 0%nat) z Hx0 Hz) as P.
  assert (Rk : 0 <= r ^ k) by (apply pow_le; lra). destruct HmuL as [Hm HL].
  assert (P2 : f (xs 0%nat) - f z <= / (2 * mu) * dot (gradf (xs 0%nat)) (gradf (xs 0%nat))).
  { apply (Rmult_le_reg_l (2 * mu)); [lra|]. rewrite <- Rmult_assoc, Rinv_r, Rmult_1_l by lra. exact P. }
  assert (2 * L * (f (xs k) - f z) <= 2 * L * (r ^ k * (/ (2 * mu) * dot (gradf (xs 0%nat)) (gradf (xs 0%nat))))).
  { apply Rmult_le_compat_l; [lra|]. eapply Rle_trans; [exact G|]. apply Rmult_le_compat_l; assumption. }
  replace (2 * L * (r ^ k * (/ (2 * mu) * dot (gradf (xs 0%nat)) (gradf (xs 0%nat))))) with (L / mu * r ^ k * dot (gradf (xs 0%nat)) (gradf (xs 0%nat))) in H by (field; lra).
  lra.
Qed.
Print Assumptions C65_linear.

(** A step that meets Wolfe's conditions (what C64_zoom and C64_backtracking_wolfe provide) is
    sufficient, and so is what a successful Armijo backtracking search returns. *)
Theorem C65_wolfe_sufficient : forall c1 c2 tmin df f gradf x d t,
  efficient_step c1 c2 tmin f gradf x d t -> sufficient_step c1 c2 tmin df f gradf x d t.
Proof. intros c1 c2 tmin df f gradf x d t (A & B & [C|C]); split; auto. Qed.
Print Assumptions C65_wolfe_sufficient.
Theorem C65_armijo_sufficient : forall bcfg f gradf s0 x d c2,
  condition bcfg = Armijo -> tol bcfg = 0 -> 0 < s0 -> 0 < max_stepsize bcfg -> 0 < decrease_factor bcfg <= 1 -> (0 < maxiter bcfg)%nat ->
  let o := bt_line_search bcfg f gradf s0 x (f x) (gradf x) d in
  ls_failed o = false ->
  sufficient_step (c1 bcfg) c2 (Rmin (max_stepsize bcfg) s0) (decrease_factor bcfg) f gradf x d (ls_step o).
Proof.
  intros bcfg f gradf s0 x d c2' Hc Ht Hs Hm Hdf Hmax. unfold bt_line_search.
  pose proof (C19_backtracking bcfg (fun z => Fin (f z)) gradf true s0 x (f x) (gradf x) (Some d) ltac:(lra) Hs Hm Hdf Hmax) as B.
  cbv zeta in B. cbn [the_direction] in B.
  destruct (bt_run bcfg (fun z => Fin (f z)) gradf true s0 x (f x) (gradf x) (Some d)) as [s st]. cbv zeta. cbn [ls_failed ls_step].
  destruct B as (k & B1 & B2 & B3 & B4 & B5 & B6 & B7 & _). intros F.
  assert (D : done st = true) by (rewrite F in B7; destruct (done st); [reflexivity|discriminate]).
  apply B6 in D. unfold condition_holds in D. rewrite Hc in D. destruct D as [D1 _]. cbn [xle_bound] in D1. rewrite Ht in D1.
  split; [lra|]. split; [lra|]. right. destruct k as [|k].
  - left. rewrite B3. simpl. lra.
  - right. specialize (B5 k ltac:(lia)). set (u := Rmin (max_stepsize bcfg) s0 * decrease_factor bcfg ^ k) in *.
    assert (E : s / decrease_factor bcfg = u) by (rewrite B3; unfold u; simpl pow; field; lra). rewrite E.
    destruct (Rlt_le_dec (f x + c1 bcfg * u * dot (gradf x) d) (f (vadd x (smul u d)))) as [A|A]; [exact A|exfalso].
    apply B5. unfold condition_holds. rewrite Hc. split; [|exact I]. cbn [xle_bound]. rewrite Ht. lra.
Qed.
Print Assumptions C65_armijo_sufficient.

(** Whatever the steps, the eigenvalues after k iterations. *)
Theorem C65_eigenvalues : forall n mu L f gradf ls cfg xs sts K,
  strongly_convex_smooth n mu L f gradf -> ls_consistent f gradf ls -> length (xs 0%nat) = n ->
  bfgs_run f gradf ls cfg xs sts K ->
  forall k, (k <= K)%nat -> mat_shape n n (b_H (sts k)) /\ symmetric n (b_H (sts k)) /\
    eig_bounds n (eig_lower L k) (eig_upper mu L k) (b_H (sts k)) /\
    bfgs_direction (sts k) = smul (-1) (mvec (b_H (sts k)) (gradf (xs k))).
Proof.
  intros n mu L f gradf ls cfg xs sts K HF Hls Hx0 [R0 R1] k Hk.
  assert (HmL : 0 < mu <= L) by (destruct HF as (A & _); exact A).
  assert (Hdim : grad_dim n gradf) by (destruct HF as (_ & A & _); exact A).
  pose proof (fun j Hj => bfgs_inv f gradf ls cfg n Hdim Hls xs sts K Hx0 R0 R1 j Hj) as I.
  destruct (I k Hk) as (I1 & _ & I3 & _ & I5 & I6). split; [exact I5|]. split; [exact I6|]. split; [|unfold bfgs_direction; rewrite I3; reflexivity].
  set (l := map (pair_at xs (fun j => gradf (xs j))) (seq 0 k)).
  assert (El : length l = k) by (unfold l; rewrite map_length, seq_length; reflexivity).
  assert (EH : b_H (sts k) = bfgs_matrix n 1 l).
  { rewrite (bfgs_H_matrix f gradf ls cfg n Hdim Hls xs sts K Hx0 R0 R1 k Hk). unfold bfgs_matrix. fold l. f_equal.
    unfold msmul. rewrite <- (map_id (eye n)) at 1. apply map_ext. intros r. unfold smul. rewrite <- (map_id r) at 1. apply map_ext. intros; ring. }
  rewrite EH, <- El. apply eig_matrix; [exact HmL| | |].
  - unfold eig_lower. simpl. pose proof (Rmax_l 1 L). pose proof (Rmax_l 1 (/ mu)). split; [|lra].
    assert (Q : / (Rmax 1 L + 0 * L) <= / 1) by (apply Rinv_le_contravar; lra). rewrite Rinv_1 in Q. exact Q.
  - apply Forall_forall. intros p Hp. unfold l in Hp. apply in_map_iff in Hp. destruct Hp as (j & <- & Hj). apply in_seq in Hj. unfold pair_at. cbn [fst snd].
    destruct (I j ltac:(lia)) as (J1 & _). destruct (I (S j) ltac:(lia)) as (J2 & _). split; apply vsub_len; auto.
  - apply Forall_forall. intros p Hp. unfold l in Hp. apply in_map_iff in Hp. destruct Hp as (j & <- & Hj). apply in_seq in Hj. unfold pair_ok, pair_at. cbn [fst snd].
    destruct (I j ltac:(lia)) as (J1 & _). destruct (I (S j) ltac:(lia)) as (J2 & _).
    split; [apply (ssc_cocoercive n mu L f gradf HF _ _ J1 J2)|apply (ssc_monotone n mu L f gradf HF _ _ J1 J2)].
Qed.
Print Assumptions C65_eigenvalues.

(** A run whose N-th gradient is small stops by then. *)
Lemma bfgs_solve_stops f gradf ls cfg xs sts N maxit :
  ls_consistent f gradf ls -> (forall K, bfgs_run f gradf ls cfg xs sts K) -> (0 < N <= maxit)%nat -> norm2 (gradf (xs N)) <= qn_tol cfg ->
  exists k, (1 <= k <= N)%nat /\ bfgs_solve f gradf ls cfg maxit (xs 0%nat) = Ok (xs k, sts k) /\
    b_error (sts k) = Fin (norm2 (gradf (xs k))) /\ norm2 (gradf (xs k)) <= qn_tol cfg.
Proof.
  intros Hls Hrun HN Hsm.
  destruct (run_result_spec maxit (fun step => xgtb (b_error (snd step)) (qn_tol cfg)) (bfgs_update f gradf ls cfg) (fun k => (xs k, sts k)) ltac:(lia)) as (k & Hk & Er & Hcd & He).
  { intros k. destruct (Hrun (S k)) as [_ R1]. apply R1. lia. }
  destruct k as [|k]; [lia|].
  assert (Err : forall j, b_error (sts (S j)) = Fin (norm2 (gradf (xs (S j))))).
  { intros j. destruct (Hrun (S j)) as [_ R1]. apply (bfgs_step_facts f gradf ls cfg Hls xs sts (S j) R1 j). lia. }
  assert (CondS : forall j, xgtb (b_error (sts (S j))) (qn_tol cfg) = true <-> qn_tol cfg < norm2 (gradf (xs (S j)))).
  { intros j. rewrite Err. cbn [xgtb]. destruct (Rlt_dec _ _); split; intros; try assumption; try reflexivity; try discriminate; contradiction. }
  destruct N as [|N']; [lia|].
  assert (HkN : (S k <= S N')%nat).
  { destruct (Nat.le_gt_cases (S k) (S N')) as [A|A]; [exact A|exfalso]. specialize (Hcd (S N') ltac:(lia)). cbn [snd] in Hcd. apply CondS in Hcd. lra. }
  exists (S k). split; [lia|]. split; [|split; [apply Err|]].
  - unfold bfgs_solve. destruct (Hrun 0%nat) as [R0 _]. rewrite <- R0. exact Er.
  - destruct He as [He|He].
    + assert (k = N') by lia. subst k. exact Hsm.
    + cbn [snd] in He. destruct (Rle_lt_dec (norm2 (gradf (xs (S k)))) (qn_tol cfg)) as [A|A]; [exact A|]. apply CondS in A. congruence.
Qed.

(** The whole run, with nothing assumed of the line searches: with Armijo backtracking from the
    largest step, and maxls large enough for N iterations, BFGS returns a point whose gradient is
    at most tol in norm after at most N iterations. *)
Theorem C65_run : forall n mu L f gradf cfg bcfg x0 N,
  strongly_convex_smooth n mu L f gradf -> length x0 = n ->
  use_linesearch cfg = true -> qn_linesearch_init cfg = "max"%string -> 0 < qn_max_stepsize cfg ->
  0 < qn_tol cfg ->
  condition bcfg = Armijo -> 0 < c1 bcfg < 1 -> tol bcfg = 0 -> 0 < max_stepsize bcfg -> 0 < decrease_factor bcfg <= 1 ->
  (0 < maxiter bcfg)%nat ->
  let r := bfgs_rate n mu L (c1 bcfg) 0 (Rmin (max_stepsize bcfg) (qn_max_stepsize cfg)) (decrease_factor bcfg) in
  (0 < N)%nat -> L / mu * r ^ N * dot (gradf x0) (gradf x0) <= qn_tol cfg * qn_tol cfg ->
  max_stepsize bcfg * decrease_factor bcfg ^ (maxiter bcfg - 1) <= 2 * (1 - c1 bcfg) / (L * eig_upper mu L N) ->
  0 < r < 1 /\
  forall maxit, (N <= maxit)%nat -> exists x st,
    bfgs_solve f gradf (bt_line_search bcfg f gradf) cfg maxit x0 = Ok (x, st) /\ length x = n /\
    (b_iter st <= N)%nat /\ b_error st = Fin (norm2 (gradf x)) /\ norm2 (gradf x) <= qn_tol cfg /\
    (forall z, length z = n -> f x - f z <= qn_tol cfg * qn_tol cfg / (2 * mu)) /\
    (forall z, length z = n -> gradf z = vzero n -> norm2 (vsub x z) <= qn_tol cfg / mu).
Proof.
  intros n mu L f gradf cfg bcfg x0 N HF Hx0 Hul Hks Hqm Htol Hc Hc1 Ht Hbm Hdf Hmax r HN0 HN Hlast.
  assert (HmL : 0 < mu <= L) by (destruct HF as (A & _); exact A).
  assert (Hdim : grad_dim n gradf) by (destruct HF as (_ & A & _); exact A).
  set (ls := bt_line_search bcfg f gradf) in *.
  assert (Hls : ls_consistent f gradf ls) by (apply C26_backtracking_consistent; [lra|exact Hmax]).
  destruct (C26_runs_exist f gradf ls cfg x0 ltac:(left; exact Hks)) as (xs & sts & Ex0 & Hrun). rewrite <- Ex0 in Hx0.
  assert (Hhi : 0 < eig_upper mu L N) by (apply eig_upper_pos; exact HmL).
  set (smax := Rmin (max_stepsize bcfg) (qn_max_stepsize cfg)) in *.
  assert (Hsm : 0 < smax) by (unfold smax; apply Rmin_glb_lt; assumption).
  assert (Step : forall k, (k < N)%nat -> sufficient_step (c1 bcfg) 0 smax (decrease_factor bcfg) f gradf (xs k) (bfgs_direction (sts k)) (b_stepsize (sts (S k)))).
  { intros k Hk. destruct (Hrun N) as [R0 R1]. pose proof (R1 k Hk) as U.
    destruct (C65_eigenvalues n mu L f gradf ls cfg xs sts N HF Hls Hx0 (Hrun N) k ltac:(lia)) as (H1 & H2 & H3 & H4).
    apply (eig_weaken n _ (eig_lower L N) _ (eig_upper mu L N)) in H3; [|apply eig_lower_mono; [lra|lia]|apply eig_upper_mono; [exact HmL|lia]].
    destruct (bfgs_inv f gradf ls cfg n Hdim Hls xs sts N Hx0 R0 R1 k ltac:(lia)) as (Hl & I2 & I3 & _).
    unfold bfgs_update, take_step in U. rewrite Hul, Hks in U. unfold init_stepsize in U. destruct (string_dec "max" "max") as [_|]; [|congruence].
    rewrite I2, I3 in U. cbv zeta in U.
    pose proof (bt_armijo n mu L f gradf (eig_lower L N) (eig_upper mu L N) (b_H (sts k)) (xs k) bcfg (qn_max_stepsize cfg) HF (eig_lower_pos L N ltac:(lra)) Hhi H1 H2 H3 Hl Hc Hc1 Ht Hqm Hbm Hdf Hmax Hlast) as B.
    cbv zeta in B. rewrite <- H4 in B. destruct B as (B1 & _).
    injection U as Ux Us. rewrite <- Us. cbn [b_stepsize]. apply C65_armijo_sufficient; assumption. }
  (* the searches of the first N iterations start from a positive step *)
  assert (Hq : exists cfg', 0 < qn_increase_factor cfg' /\ 0 < qn_max_stepsize cfg' /\ bfgs_run f gradf ls cfg' xs sts N).
  { exists {| qn_stepsize := qn_stepsize cfg; qn_linesearch_init := qn_linesearch_init cfg; qn_increase_factor := 1; qn_max_stepsize := qn_max_stepsize cfg;
              qn_min_stepsize := qn_min_stepsize cfg; qn_tol := qn_tol cfg; qn_stop_if_linesearch_fails := qn_stop_if_linesearch_fails cfg;
              qn_history_size := qn_history_size cfg; qn_use_gamma := qn_use_gamma cfg |}.
    split; [simpl; lra|]. split; [exact Hqm|]. destruct (Hrun N) as [R0 R1]. split; [exact R0|]. intros k Hk. rewrite <- (R1 k Hk).
    unfold bfgs_update, take_step. unfold use_linesearch in Hul |- *. cbn [qn_stepsize qn_linesearch_init qn_max_stepsize qn_min_stepsize qn_increase_factor]. rewrite Hul, Hks. unfold init_stepsize.
    destruct (string_dec "max" "max"); [reflexivity|congruence]. }
  destruct Hq as (cfg' & Q1 & Q2 & Q3).
  destruct (C65_linear n mu L f gradf ls cfg' xs sts N (c1 bcfg) 0 smax (decrease_factor bcfg) HF (consistent_pos _ _ _ Hls) Hx0 Q2 Q1 Hc1 ltac:(lra) Hsm ltac:(lra) Q3 Step) as (Hr & _ & G).
  fold r in Hr, G. split; [exact Hr|]. intros maxit Hmx.
  assert (SmallN : norm2 (gradf (xs N)) <= qn_tol cfg).
  { apply norm2_le_sq; [lra|]. rewrite <- Ex0 in HN. eapply Rle_trans; [apply (G N); lia|exact HN]. }
  destruct (bfgs_solve_stops f gradf ls cfg xs sts N maxit Hls Hrun ltac:(lia) SmallN) as (k & Hk & Es & Ee & Fin_).
  destruct (Hrun k) as [R0 R1]. destruct (bfgs_inv f gradf ls cfg n Hdim Hls xs sts k Hx0 R0 R1 k ltac:(lia)) as (Hl & _ & _ & I4 & _).
  exists (xs k), (sts k). rewrite <- Ex0. split; [exact Es|]. split; [exact Hl|]. split; [rewrite I4; lia|]. split; [exact Ee|]. split; [exact Fin_|]. split.
  - intros z Hz. pose proof (ssc_pl n mu L f gradf HF (xs k) z Hl Hz) as P. rewrite <- norm2_sq in P.
    pose proof (norm2_nonneg (gradf (xs k))). apply (Rmult_le_reg_l (2 * mu)); [lra|].
    replace (2 * mu * (qn_tol cfg * qn_tol cfg / (2 * mu))) with (qn_tol cfg * qn_tol cfg) by (field; lra). nra.
  - intros z Hz Hg. pose proof (ssc_dist n mu L f gradf (xs k) z HF Hl Hz Hg) as P.
    apply (Rmult_le_reg_l mu); [lra|]. replace (mu * (qn_tol cfg / mu)) with (qn_tol cfg) by (field; lra). lra.
Qed.
Print Assumptions C65_run.

(** So for every problem, start and tolerance there are a number of iterations and a maxls with
    which BFGS reaches the tolerance. *)
Theorem C65_converges : forall n mu L f gradf cfg x0 c smax df,
  strongly_convex_smooth n mu L f gradf -> length x0 = n ->
  use_linesearch cfg = true -> qn_linesearch_init cfg = "max"%string -> 0 < qn_max_stepsize cfg -> 0 < qn_tol cfg ->
  0 < c < 1 -> 0 < smax -> 0 < df < 1 ->
  exists N m, forall maxls maxit, (m <= maxls)%nat -> (N <= maxit)%nat ->
  let bcfg := {| condition := Armijo; c1 := c; c2 := 9 / 10; decrease_factor := df; max_stepsize := smax; tol := 0; maxiter := maxls |} in
  exists x st, bfgs_solve f gradf (bt_line_search bcfg f gradf) cfg maxit x0 = Ok (x, st) /\ length x = n /\
    (b_iter st <= N)%nat /\ b_error st = Fin (norm2 (gradf x)) /\ norm2 (gradf x) <= qn_tol cfg.
Proof.
  intros n mu L f gradf cfg x0 c smax df HF Hx0 Hul Hks Hqm Htol Hc Hsm Hdf.
  assert (HmL : 0 < mu <= L) by (destruct HF as (A & _); exact A).
  set (r := bfgs_rate n mu L c 0 (Rmin smax (qn_max_stepsize cfg)) df).
  assert (Hr : 0 < r < 1) by (apply (brun_rate n mu L f gradf HF); [exact Hc|lra|apply Rmin_glb_lt; assumption|lra]).
  pose proof (dot_self_nonneg (gradf x0)) as G0.
  destruct (pow_small (L / mu * dot (gradf x0) (gradf x0)) r (qn_tol cfg * qn_tol cfg)) as (N & HN); [|lra|nra|].
  { apply Rmult_le_pos; [left; apply Rdiv_lt_0_compat; lra|exact G0]. }
  assert (Hhi : 0 < eig_upper mu L (S N)) by (apply eig_upper_pos; exact HmL).
  destruct (pow_small smax df (2 * (1 - c) / (L * eig_upper mu L (S N)))) as (m & Hm); [lra|lra|apply Rdiv_lt_0_compat; [lra|nra]|].
  exists (S N), (S m). intros maxls maxit Hml Hmi bcfg.
  assert (HN' : L / mu * r ^ S N * dot (gradf x0) (gradf x0) <= qn_tol cfg * qn_tol cfg).
  { replace (L / mu * r ^ S N * dot (gradf x0) (gradf x0)) with (L / mu * dot (gradf x0) (gradf x0) * r ^ S N) by ring. apply HN. lia. }
  destruct (C65_run n mu L f gradf cfg bcfg x0 (S N) HF Hx0 Hul Hks Hqm Htol eq_refl Hc eq_refl Hsm ltac:(simpl; lra) ltac:(simpl; lia) ltac:(lia) HN' ltac:(simpl; apply Hm; lia)) as (_ & A).
  destruct (A maxit Hmi) as (x & st & A1 & A2 & A3 & A4 & A5 & _). exists x, st. auto 6.
Qed.
Print Assumptions C65_converges.

Example C65_example : let f := fun x : vec => (nth 0 x 0 * nth 0 x 0 + 2 * (nth 1 x 0 * nth 1 x 0)) / 2 in
  let gradf := fun x : vec => [nth 0 x 0; 2 * nth 1 x 0] in
  let cfg := {| qn_stepsize := StepConst 0; qn_linesearch_init := "max"; qn_increase_factor := 3 / 2; qn_max_stepsize := 1;
                qn_min_stepsize := 1 / 1000000; qn_tol := 1 / 1000; qn_stop_if_linesearch_fails := true; qn_history_size := 2; qn_use_gamma := true |} in
  strongly_convex_smooth 2 1 2 f gradf /\ use_linesearch cfg = true /\
  exists N m, forall maxls maxit, (m <= maxls)%nat -> (N <= maxit)%nat ->
  let bcfg := {| condition := Armijo; c1 := 1 / 10000; c2 := 9 / 10; decrease_factor := 8 / 10; max_stepsize := 1; tol := 0; maxiter := maxls |} in
  exists x st, bfgs_solve f gradf (bt_line_search bcfg f gradf) cfg maxit [1; 1] = Ok (x, st) /\ norm2 (gradf x) <= 1 / 1000.
Proof.
  intros f gradf cfg. destruct C64_example as (HF & _ & _).
  assert (Hul : use_linesearch cfg = true) by (unfold use_linesearch; simpl; unfold Rleb; destruct (Rle_dec 0 0); [reflexivity|lra]).
  split; [exact HF|]. split; [exact Hul|].
  destruct (C65_converges 2 1 2 f gradf cfg [1; 1] (1 / 10000) 1 (8 / 10) HF eq_refl Hul eq_refl) as (N & m & A); simpl; try lra.
  exists N, m. intros maxls maxit H1 H2. destruct (A maxls maxit H1 H2) as (x & st & A1 & _ & _ & _ & A5). exists x, st. split; [exact A1|exact A5].
Qed.
