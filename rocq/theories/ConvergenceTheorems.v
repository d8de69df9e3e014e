(** C64: global linear convergence of L-BFGS. *)
From Coq Require Import String.
From Coq Require Import Reals List Lra Lia Bool Arith Psatz.
From Verif Require Import Prelude Vec Mat Zoom ZoomTheorems Loss Backtracking BacktrackingTheorems Run QuasiNewton QuasiNewtonProofs QuasiNewtonTheorems Lbfgsb Convergence ConvergenceProofs ConvergenceRuns.
Import ListNotations.
Open Scope R_scope.

(** Whatever the steps, the matrix of the direction has its eigenvalues between two positive
    numbers that depend on mu, L and the memory only. *)
Theorem C64_eigenvalues : forall n mu L f gradf ls cfg xs sts K,
  strongly_convex_smooth n mu L f gradf -> ls_consistent f gradf ls -> length (xs 0%nat) = n ->
  lbfgs_run f gradf ls cfg xs sts K ->
  let m := qn_history_size cfg in
  0 < eig_lower L m /\ 0 < eig_upper mu L m /\
  forall k, (k <= K)%nat -> exists H,
    mat_shape n n H /\ symmetric n H /\ eig_bounds n (eig_lower L m) (eig_upper mu L m) H /\
    lbfgs_direction cfg (sts k) = smul (-1) (mvec H (gradf (xs k))).
Proof.
  intros n mu L f gradf ls cfg xs sts K HF Hls Hx0 Hrun m.
  assert (HmL : 0 < mu <= L) by (destruct HF as (A & _); exact A).
  split; [apply eig_lower_pos; lra|]. split; [apply eig_upper_pos; exact HmL|].
  intros k Hk. apply (run_matrix n mu L f gradf ls cfg HF Hls xs sts K Hx0 Hrun k Hk).
Qed.
Print Assumptions C64_eigenvalues.

(** Steps that decrease f sufficiently and are not too short give linear convergence: of the gap
    to any point z (hence to the minimum), and of the gradient. *)
Theorem C64_linear : forall n mu L f gradf ls cfg xs sts K c1 c2 tmin,
  strongly_convex_smooth n mu L f gradf -> ls_consistent_pos f gradf ls -> length (xs 0%nat) = n ->
  0 < qn_max_stepsize cfg -> 0 < qn_increase_factor cfg ->
  0 < c1 -> c1 <= c2 -> c2 < 1 -> 0 < tmin ->
  lbfgs_run f gradf ls cfg xs sts K ->
  (forall k, (k < K)%nat -> efficient_step c1 c2 tmin f gradf (xs k) (lbfgs_direction cfg (sts k)) (l_stepsize (sts (S k)))) ->
  let m := qn_history_size cfg in
  let r := gap_factor mu c1 (Rmin (wolfe_floor c2 L (eig_upper mu L m)) tmin) (eig_lower L m) in
  0 <= r < 1 /\
  (forall z k, length z = n -> (k <= K)%nat -> f (xs k) - f z <= r ^ k * (f (xs 0%nat) - f z)) /\
  (forall k, (k <= K)%nat -> dot (gradf (xs k)) (gradf (xs k)) <= L / mu * r ^ k * dot (gradf (xs 0%nat)) (gradf (xs 0%nat))).
Proof.
  intros n mu L f gradf ls cfg xs sts K c1 c2 tmin HF Hls Hx0 Hq1 Hq2 H1 H2 H3 H4 Hrun Hst m r.
  apply guard_lbfgs_run in Hrun; [|exact Hq1|exact Hq2|intros k Hk; apply (Hst k Hk)].
  apply guard_consistent in Hls.
  destruct (run_efficient n mu L f gradf _ cfg HF Hls xs sts K Hx0 Hrun c1 c2 tmin H1 H2 H3 H4 Hst) as (A & B & C).
  apply (run_linear n mu L f gradf _ cfg HF Hls xs sts K Hx0 Hrun c1 _ H1 A B C).
Qed.
Print Assumptions C64_linear.

(** A successful zoom search (the default of the solvers, with tol=0) returns such a step, unless
    it only passed the approximate test of the values, f(z) <= f(x) + c3 |f(x)|. *)
Theorem C64_zoom : forall zcfg f gradf s0 x d,
  zoom_ok zcfg -> ztol zcfg = 0 -> 0 <= zc2 zcfg -> 0 < s0 -> dot (gradf x) d <= 0 ->
  let o := zoom_ls zcfg f gradf s0 x (f x) (gradf x) d in
  ls_failed o = false ->
  efficient_step (zc1 zcfg) (zc2 zcfg) (zmax zcfg) f gradf x d (ls_step o) \/
  f x + zc1 zcfg * ls_step o * dot (gradf x) d < f (ls_params o) <= f x + zc3 zcfg * Rabs (f x).
Proof.
  intros zcfg f gradf s0 x d Z Ht Hc2 Hs Hd. unfold zoom_ls.
  pose proof (C20_zoom vec zcfg (fun z => Fin (f z)) gradf (fun a b => Fin (dot a b)) x d (f x) (gradf x) (dot (gradf x) d) s0 true Z Hs) as Q. cbv zeta in Q.
  destruct (zoom_run _ _ _ _ _ _ _ _ _ _ _) as [s st]. cbv zeta. cbn [ls_failed ls_step ls_params].
  destruct Q as (k & _ & Q1 & Q2 & Q3 & Q4 & Q5 & Q6 & _). intros F. rewrite F in Q1.
  assert (D : z_done st = true) by (destruct (z_done st); [reflexivity|discriminate]).
  destruct (Q6 D) as (S0 & _ & (_ & G) & C). rewrite Q3.
  assert (Cv : zc2 zcfg * dot (gradf x) d <= dot (gradf (vadd x (smul s d))) d \/ zmax zcfg <= s).
  { destruct C as [(v & Ev & C)|C]; [left|right; lra]. injection Ev as Ev. rewrite Ev.
    rewrite Ht, Rplus_0_r, (Rabs_left1 (dot (gradf x) d)) in C by exact Hd.
    pose proof (Rle_abs (- v)). rewrite Rabs_Ropp in H. lra. }
  destruct (Rle_lt_dec (f (vadd x (smul s d))) (f x + zc1 zcfg * s * dot (gradf x) d)) as [A|A].
  - left. split; [exact S0|]. split; [exact A|exact Cv].
  - right. split; [exact A|]. cbn [xle_bound] in G. rewrite Ht in G. destruct G as [G|[G _]]; lra.
Qed.
Print Assumptions C64_zoom.

(** The zoom search meets the other hypothesis of C64_linear. *)
Theorem C64_zoom_consistent : forall zcfg f gradf, zoom_ok zcfg -> ls_consistent_pos f gradf (zoom_ls zcfg f gradf).
Proof.
  intros zcfg f gradf Z s0 x v g d Hs. unfold zoom_ls.
  pose proof (C20_zoom vec zcfg (fun z => Fin (f z)) gradf (fun a b => Fin (dot a b)) x d v g (dot g d) s0 true Z Hs) as Q. cbv zeta in Q.
  destruct (zoom_run _ _ _ _ _ _ _ _ _ _ _) as [s st]. destruct Q as (k & _ & _ & _ & P & V & G & _). cbv zeta. cbn [ls_step ls_params ls_value ls_grad].
  split; [exact P|]. split; [rewrite V; reflexivity|exact G].
Qed.
Print Assumptions C64_zoom_consistent.

(** A successful backtracking search with one of the two Wolfe conditions (strong-wolfe is what
    linesearch="backtracking" uses) returns such a step; *)
Theorem C64_backtracking_wolfe : forall bcfg f gradf s0 x d,
  condition bcfg = Wolfe \/ condition bcfg = StrongWolfe -> tol bcfg = 0 ->
  0 < s0 -> 0 < max_stepsize bcfg -> 0 < decrease_factor bcfg <= 1 -> (0 < maxiter bcfg)%nat -> dot (gradf x) d <= 0 ->
  let o := bt_line_search bcfg f gradf s0 x (f x) (gradf x) d in
  ls_failed o = false -> forall tmin, efficient_step (c1 bcfg) (c2 bcfg) tmin f gradf x d (ls_step o).
Proof.
  intros bcfg f gradf s0 x d Hc Ht Hs Hm Hdf Hmax Hd. unfold bt_line_search.
  pose proof (C19_backtracking bcfg (fun z => Fin (f z)) gradf true s0 x (f x) (gradf x) (Some d) ltac:(lra) Hs Hm Hdf Hmax) as B.
  cbv zeta in B. cbn [the_direction] in B.
  destruct (bt_run bcfg (fun z => Fin (f z)) gradf true s0 x (f x) (gradf x) (Some d)) as [s st]. cbv zeta. cbn [ls_failed ls_step].
  destruct B as (k & B1 & B2 & B3 & B4 & B5 & B6 & B7 & _). intros F tmin.
  assert (D : done st = true) by (rewrite F in B7; destruct (done st); [reflexivity|discriminate]).
  apply B6 in D. destruct D as [D1 D2]. cbn [xle_bound] in D1. rewrite Ht in D1.
  split; [lra|]. split; [lra|]. left. destruct Hc as [Hc|Hc]; rewrite Hc, Ht in D2; [lra|].
  rewrite (Rabs_left1 (dot (gradf x) d)) in D2 by exact Hd. pose proof (Rle_abs (- dot (gradf (vadd x (smul s d))) d)) as A. rewrite Rabs_Ropp in A. lra.
Qed.
Print Assumptions C64_backtracking_wolfe.

(** The whole run, with nothing assumed of the line searches: with Armijo backtracking and
    maxls large enough, L-BFGS returns a point whose gradient is at most tol in norm, after at
    most [N] iterations as soon as L/mu r^N |g0|^2 <= tol^2. *)
Theorem C64_run : forall n mu L f gradf cfg bcfg x0 N,
  strongly_convex_smooth n mu L f gradf -> length x0 = n ->
  use_linesearch cfg = true -> known_strategy (qn_linesearch_init cfg) -> 1 <= qn_increase_factor cfg -> 0 < qn_max_stepsize cfg ->
  0 < qn_tol cfg ->
  condition bcfg = Armijo -> 0 < c1 bcfg < 1 -> tol bcfg = 0 -> 0 < max_stepsize bcfg -> 0 < decrease_factor bcfg <= 1 ->
  let hi := eig_upper mu L (qn_history_size cfg) in
  let lo := eig_lower L (qn_history_size cfg) in
  (0 < maxiter bcfg)%nat -> max_stepsize bcfg * decrease_factor bcfg ^ (maxiter bcfg - 1) <= 2 * (1 - c1 bcfg) / (L * hi) ->
  let r := gap_factor mu (c1 bcfg) (armijo_floor (c1 bcfg) (decrease_factor bcfg) (Rmin (max_stepsize bcfg) (qn_max_stepsize cfg)) L hi) lo in
  (0 < N)%nat -> L / mu * r ^ N * dot (gradf x0) (gradf x0) <= qn_tol cfg * qn_tol cfg ->
  0 <= r < 1 /\
  forall maxit, (N <= maxit)%nat -> exists x st,
    lbfgs_solve f gradf (bt_line_search bcfg f gradf) cfg maxit x0 = Ok (x, st) /\ length x = n /\
    (l_iter st <= N)%nat /\ l_error st = Fin (norm2 (gradf x)) /\ norm2 (gradf x) <= qn_tol cfg /\ l_failed st = false /\
    (forall z, length z = n -> f x - f z <= qn_tol cfg * qn_tol cfg / (2 * mu)) /\
    (forall z, length z = n -> gradf z = vzero n -> norm2 (vsub x z) <= qn_tol cfg / mu).
Proof.
  intros n mu L f gradf cfg bcfg x0 N HF Hx0 Hul Hks Hinc Hqm Htol Hc Hc1 Ht Hbm Hdf hi lo Hmax Hlast r HN0 HN.
  assert (HmL : 0 < mu <= L) by (destruct HF as (A & _); exact A).
  assert (Hdim : grad_dim n gradf) by (destruct HF as (_ & A & _); exact A).
  set (ls := bt_line_search bcfg f gradf) in *.
  assert (Hls : ls_consistent f gradf ls) by (apply C26_backtracking_consistent; [lra|exact Hmax]).
  destruct (C27_runs_exist f gradf ls cfg x0 Hks) as (xs & sts & Ex0 & Hrun). rewrite <- Ex0 in Hx0.
  assert (Hlo : 0 < lo) by (apply eig_lower_pos; lra).
  assert (Hhi : 0 < hi) by (apply eig_upper_pos; exact HmL).
  assert (LH : 0 < L * hi) by nra.
  set (floor := armijo_floor (c1 bcfg) (decrease_factor bcfg) (Rmin (max_stepsize bcfg) (qn_max_stepsize cfg)) L hi) in *.
  assert (Pthr : 0 < 2 * (1 - c1 bcfg) / (L * hi)) by (apply Rdiv_lt_0_compat; lra).
  assert (Hfl : 0 < floor) by (unfold floor, armijo_floor; repeat apply Rmin_glb_lt; try assumption; nra).
  (* every step *)
  assert (Step : forall k, floor <= l_stepsize (sts k) ->
    l_failed (sts (S k)) = false /\ floor <= l_stepsize (sts (S k)) /\
    f (xs (S k)) <= f (xs k) + c1 bcfg * l_stepsize (sts (S k)) * dot (gradf (xs k)) (lbfgs_direction cfg (sts k))).
  { intros k Hk. destruct (Hrun (S k)) as [R0 R1]. pose proof (R1 k ltac:(lia)) as U.
    destruct (run_matrix n mu L f gradf ls cfg HF Hls xs sts (S k) Hx0 (Hrun (S k)) k ltac:(lia)) as (H & H1 & H2 & H3 & H4).
    pose proof (run_len n mu L f gradf ls cfg HF Hls xs sts (S k) Hx0 (Hrun (S k)) k ltac:(lia)) as Hl.
    pose proof (lbfgs_inv f gradf ls cfg n Hdim Hls xs sts (S k) Hx0 R0 R1 k ltac:(lia)) as (_ & I2 & I3 & _).
    pose proof (run_next f gradf ls cfg Hls xs sts (S k) (Hrun (S k)) k ltac:(lia)) as Nx.
    unfold lbfgs_update in U. unfold take_step in U. rewrite Hul in U.
    destruct (init_stepsize _ _ _ _ _) as [s0|e] eqn:Es; [|discriminate].
    assert (Hs0 : floor <= s0 /\ 0 < s0).
    { assert (Fq : floor <= qn_max_stepsize cfg) by (unfold floor, armijo_floor; eapply Rle_trans; [apply Rmin_l|apply Rmin_r]).
      revert Es. unfold init_stepsize. destruct (string_dec _ _); [injection 1 as <-; lra|]. destruct (string_dec _ _); [injection 1 as <-; lra|].
      destruct (string_dec _ _); [|discriminate]. unfold Rleb. destruct (Rle_dec _ _); injection 1 as <-; [lra|].
      assert (l_stepsize (sts k) * 1 <= l_stepsize (sts k) * qn_increase_factor cfg) by (apply Rmult_le_compat_l; lra). lra. }
    destruct Hs0 as [Hs1 Hs2].
    pose proof (bt_armijo n mu L f gradf lo hi H (xs k) bcfg s0 HF Hlo Hhi H1 H2 H3 Hl Hc Hc1 Ht Hs2 Hbm Hdf Hmax Hlast) as B.
    cbv zeta in B. rewrite <- H4 in B. fold ls in B. rewrite I2, I3 in U.
    set (o := ls s0 (xs k) (f (xs k)) (gradf (xs k)) (lbfgs_direction cfg (sts k))) in *.
    destruct B as (B1 & B2 & B3). cbv zeta in U. injection U as Ux Us. 
    assert (Eo : l_stepsize (sts (S k)) = ls_step o) by (rewrite <- Us; reflexivity).
    split; [rewrite <- Us; exact B1|]. split; [|rewrite Nx, Eo; exact B2].
    rewrite Eo. eapply Rle_trans; [|exact B3]. unfold floor, armijo_floor. apply Rmin_glb; [|apply Rmin_r].
    apply Rmin_glb; [eapply Rle_trans; [apply Rmin_l|apply Rmin_l]|exact Hs1]. }
  assert (Steps : forall k, floor <= l_stepsize (sts k)).
  { induction k as [|k IH]; [|apply (Step k IH)]. destruct (Hrun 0%nat) as [R0 _]. rewrite R0. cbn [lbfgs_init l_stepsize].
    unfold floor, armijo_floor. eapply Rle_trans; [apply Rmin_l|apply Rmin_r]. }
  assert (Half : c1 bcfg * floor * (L * hi) <= 1 / 2).
  { assert (floor <= decrease_factor bcfg * (2 * (1 - c1 bcfg) / (L * hi))) by apply Rmin_r.
    assert (decrease_factor bcfg * (2 * (1 - c1 bcfg) / (L * hi)) <= 1 * (2 * (1 - c1 bcfg) / (L * hi))) by (apply Rmult_le_compat_r; lra).
    assert (floor <= 2 * (1 - c1 bcfg) / (L * hi)) by lra.
    assert (floor * (L * hi) <= 2 * (1 - c1 bcfg)).
    { replace (2 * (1 - c1 bcfg)) with (2 * (1 - c1 bcfg) / (L * hi) * (L * hi)) by (field; split; lra). apply Rmult_le_compat_r; lra. }
    pose proof (Rle_0_sqr (2 * c1 bcfg - 1)) as Sq. unfold Rsqr in Sq. rewrite Rmult_assoc. assert (c1 bcfg * (floor * (L * hi)) <= c1 bcfg * (2 * (1 - c1 bcfg))) by (apply Rmult_le_compat_l; lra). lra. }
  assert (Lin := fun K => run_linear n mu L f gradf ls cfg HF Hls xs sts K Hx0 (Hrun K) (c1 bcfg) floor ltac:(lra) Hfl Half
     ltac:(intros k _ t d; destruct (Step k (Steps k)) as (T1 & T2 & T3); split; [unfold t; lra|]; split; [exact T3|intros _; exact T2])).
  cbv zeta in Lin. fold lo r in Lin.
  split; [apply (Lin 0%nat)|]. intros maxit Hmx.
  destruct (run_result_spec maxit (fun step => lbfgs_cond cfg (snd step)) (lbfgs_update f gradf ls cfg) (fun k => (xs k, sts k)) ltac:(lia)) as (k & Hk & Er & Hcd & He).
  { intros k. destruct (Hrun (S k)) as [_ R1]. apply R1. lia. }
  destruct k as [|k]; [lia|].
  assert (Err : forall j, l_error (sts (S j)) = Fin (norm2 (gradf (xs (S j))))).
  { intros j. apply (run_error f gradf ls cfg Hls xs sts (S j) (Hrun (S j)) j). lia. }
  assert (CondS : forall j, lbfgs_cond cfg (sts (S j)) = true <-> qn_tol cfg < norm2 (gradf (xs (S j)))).
  { intros j. destruct (Step j (Steps j)) as (T1 & _). unfold lbfgs_cond. rewrite Err, T1, orb_true_r, andb_true_r. cbn [xgtb]. destruct (Rlt_dec _ _); split; intros; try assumption; try reflexivity; try discriminate; contradiction. }
  assert (SmallN : norm2 (gradf (xs N)) <= qn_tol cfg).
  { apply norm2_le_sq; [lra|]. destruct (Lin N) as (_ & _ & G). rewrite <- Ex0 in HN. eapply Rle_trans; [apply (G N); lia|exact HN]. }
  destruct N as [|N']; [lia|].
  assert (HkN : (S k <= S N')%nat).
  { destruct (Nat.le_gt_cases (S k) (S N')) as [A|A]; [exact A|exfalso]. specialize (Hcd (S N') ltac:(lia)). cbn [snd] in Hcd. apply CondS in Hcd. lra. }
  assert (Fin_ : norm2 (gradf (xs (S k))) <= qn_tol cfg).
  { destruct He as [He|He].
    - assert (k = N') by lia. subst k. exact SmallN.
    - cbn [snd] in He. destruct (Rle_lt_dec (norm2 (gradf (xs (S k)))) (qn_tol cfg)) as [A|A]; [exact A|]. apply CondS in A. congruence. }
  exists (xs (S k)), (sts (S k)).
  assert (Hl : length (xs (S k)) = n) by (apply (run_len n mu L f gradf ls cfg HF Hls xs sts (S k) Hx0 (Hrun (S k)) (S k)); lia).
  split. { unfold lbfgs_solve. destruct (Hrun 0%nat) as [R0 _]. rewrite <- Ex0, <- R0. exact Er. }
  split; [exact Hl|]. split.
  { destruct (Hrun (S k)) as [R0 R1]. destruct (lbfgs_inv f gradf ls cfg n Hdim Hls xs sts (S k) Hx0 R0 R1 (S k) ltac:(lia)) as (_ & _ & _ & I4 & _). rewrite I4. exact HkN. }
  split; [apply Err|]. split; [exact Fin_|]. split; [apply (Step k (Steps k))|]. split.
  - intros z Hz. pose proof (ssc_pl n mu L f gradf HF (xs (S k)) z Hl Hz) as P. rewrite <- norm2_sq in P.
    pose proof (norm2_nonneg (gradf (xs (S k)))). apply (Rmult_le_reg_l (2 * mu)); [lra|].
    replace (2 * mu * (qn_tol cfg * qn_tol cfg / (2 * mu))) with (qn_tol cfg * qn_tol cfg) by (field; lra). nra.
  - intros z Hz Hg. pose proof (ssc_dist n mu L f gradf (xs (S k)) z HF Hl Hz Hg) as P.
    apply (Rmult_le_reg_l mu); [lra|]. replace (mu * (qn_tol cfg / mu)) with (qn_tol cfg) by (field; lra). lra.
Qed.
Print Assumptions C64_run.

(** There is such an N: L-BFGS with Armijo backtracking reaches any positive tolerance. *)
Theorem C64_converges : forall n mu L f gradf cfg bcfg x0,
  strongly_convex_smooth n mu L f gradf -> length x0 = n ->
  use_linesearch cfg = true -> known_strategy (qn_linesearch_init cfg) -> 1 <= qn_increase_factor cfg -> 0 < qn_max_stepsize cfg ->
  0 < qn_tol cfg ->
  condition bcfg = Armijo -> 0 < c1 bcfg < 1 -> tol bcfg = 0 -> 0 < max_stepsize bcfg -> 0 < decrease_factor bcfg <= 1 ->
  (0 < maxiter bcfg)%nat ->
  max_stepsize bcfg * decrease_factor bcfg ^ (maxiter bcfg - 1) <= 2 * (1 - c1 bcfg) / (L * eig_upper mu L (qn_history_size cfg)) ->
  exists N, forall maxit, (N <= maxit)%nat -> exists x st,
    lbfgs_solve f gradf (bt_line_search bcfg f gradf) cfg maxit x0 = Ok (x, st) /\ length x = n /\
    (l_iter st <= N)%nat /\ l_error st = Fin (norm2 (gradf x)) /\ norm2 (gradf x) <= qn_tol cfg.
Proof.
  intros n mu L f gradf cfg bcfg x0 HF Hx0 Hul Hks Hinc Hqm Htol Hc Hc1 Ht Hbm Hdf Hmax Hlast.
  assert (HmL : 0 < mu <= L) by (destruct HF as (A & _); exact A).
  set (hi := eig_upper mu L (qn_history_size cfg)) in *. set (lo := eig_lower L (qn_history_size cfg)).
  set (r := gap_factor mu (c1 bcfg) (armijo_floor (c1 bcfg) (decrease_factor bcfg) (Rmin (max_stepsize bcfg) (qn_max_stepsize cfg)) L hi) lo).
  assert (Hhi : 0 < hi) by (apply eig_upper_pos; exact HmL). assert (LH : 0 < L * hi) by nra.
  assert (Pthr : 0 < 2 * (1 - c1 bcfg) / (L * hi)) by (apply Rdiv_lt_0_compat; lra).
  assert (Pdt : 0 < decrease_factor bcfg * (2 * (1 - c1 bcfg) / (L * hi))) by nra.
  assert (Hr : 0 <= r < 1).
  { apply (factor_range mu L _ _ _ hi); [exact HmL| | | | |].
    - split; [apply eig_lower_pos; lra|apply eig_lower_le; lra].
    - apply eig_upper_ge; exact HmL.
    - lra.
    - unfold armijo_floor. repeat apply Rmin_glb_lt; assumption.
    - set (floor := armijo_floor _ _ _ _ _).
      assert (floor <= decrease_factor bcfg * (2 * (1 - c1 bcfg) / (L * hi))) by apply Rmin_r.
      assert (decrease_factor bcfg * (2 * (1 - c1 bcfg) / (L * hi)) <= 1 * (2 * (1 - c1 bcfg) / (L * hi))) by (apply Rmult_le_compat_r; lra).
      assert (floor * (L * hi) <= 2 * (1 - c1 bcfg)).
      { replace (2 * (1 - c1 bcfg)) with (2 * (1 - c1 bcfg) / (L * hi) * (L * hi)) by (field; split; lra). apply Rmult_le_compat_r; lra. }
      pose proof (Rle_0_sqr (2 * c1 bcfg - 1)) as Sq. unfold Rsqr in Sq.
      rewrite Rmult_assoc. assert (c1 bcfg * (floor * (L * hi)) <= c1 bcfg * (2 * (1 - c1 bcfg))) by (apply Rmult_le_compat_l; lra). lra. }
  pose proof (dot_self_nonneg (gradf x0)) as G0.
  destruct (pow_small (L / mu * dot (gradf x0) (gradf x0)) r (qn_tol cfg * qn_tol cfg)) as (N & HN); [|exact Hr|nra|].
  { apply Rmult_le_pos; [left; apply Rdiv_lt_0_compat; lra|exact G0]. }
  assert (HN' : L / mu * r ^ S N * dot (gradf x0) (gradf x0) <= qn_tol cfg * qn_tol cfg).
  { replace (L / mu * r ^ S N * dot (gradf x0) (gradf x0)) with (L / mu * dot (gradf x0) (gradf x0) * r ^ S N) by ring. apply HN. lia. }
  destruct (C64_run n mu L f gradf cfg bcfg x0 (S N) HF Hx0 Hul Hks Hinc Hqm Htol Hc Hc1 Ht Hbm Hdf Hmax Hlast ltac:(lia) HN') as (_ & A).
  exists (S N). intros maxit Hmx. destruct (A maxit Hmx) as (x & st & A1 & A2 & A3 & A4 & A5 & _). exists x, st. auto 6.
Qed.
Print Assumptions C64_converges.

(** A constant step 0 < t <= 1 / (L eig_upper) needs no line search. *)
Theorem C64_fixed_step : forall n mu L f gradf ls cfg xs sts K t,
  strongly_convex_smooth n mu L f gradf -> length (xs 0%nat) = n -> qn_stepsize cfg = StepConst t ->
  let m := qn_history_size cfg in
  0 < t <= / (L * eig_upper mu L m) -> lbfgs_run f gradf ls cfg xs sts K ->
  let r := gap_factor mu (1 / 2) t (eig_lower L m) in
  0 <= r < 1 /\
  (forall z k, length z = n -> (k <= K)%nat -> f (xs k) - f z <= r ^ k * (f (xs 0%nat) - f z)) /\
  (forall k, (k <= K)%nat -> dot (gradf (xs k)) (gradf (xs k)) <= L / mu * r ^ k * dot (gradf (xs 0%nat)) (gradf (xs 0%nat))).
Proof.
  intros n mu L f gradf ls cfg xs sts K t HF Hx0 Hcst m Ht Hrun r.
  assert (HmL : 0 < mu <= L) by (destruct HF as (A & _); exact A).
  assert (Hdim : grad_dim n gradf) by (destruct HF as (_ & A & _); exact A).
  assert (Hul : use_linesearch cfg = false).
  { unfold use_linesearch. rewrite Hcst. unfold Rleb. destruct (Rle_dec t 0); [lra|reflexivity]. }
  set (ls' := fun (s0 : R) (x : vec) (v : R) (g d : vec) => let p := vadd x (smul 0 d) in {| ls_step := 0; ls_params := p; ls_value := f p; ls_grad := gradf p; ls_failed := true |}).
  assert (Hls : ls_consistent f gradf ls') by (intros s0 x v g d; cbn; auto).
  assert (Hrun' : lbfgs_run f gradf ls' cfg xs sts K).
  { destruct Hrun as [R0 R1]. split; [exact R0|]. intros k Hk. rewrite <- (R1 k Hk). unfold lbfgs_update, take_step. rewrite Hul. reflexivity. }
  assert (Hhi : 0 < eig_upper mu L m) by (apply eig_upper_pos; exact HmL). assert (LH : 0 < L * eig_upper mu L m) by nra.
  assert (HtL : t * (L * eig_upper mu L m) <= 1).
  { replace 1 with (/ (L * eig_upper mu L m) * (L * eig_upper mu L m)) by (apply Rinv_l; lra). apply Rmult_le_compat_r; lra. }
  assert (Hstep : forall k, (k < K)%nat -> l_stepsize (sts (S k)) = t).
  { intros k Hk. destruct Hrun' as [R0 R1]. pose proof (R1 k Hk) as U. unfold lbfgs_update, take_step in U. rewrite Hul in U.
    injection U as Ux Us. rewrite <- Us. cbn [l_stepsize ls_step]. unfold fixed_step. rewrite Hcst. reflexivity. }
  apply (run_linear n mu L f gradf ls' cfg HF Hls xs sts K Hx0 Hrun' (1 / 2) t); [lra|lra|fold m; lra|].
  intros k Hk t' d. unfold t'. rewrite (Hstep k Hk). split; [lra|]. split; [|lra].
  destruct (run_matrix n mu L f gradf ls' cfg HF Hls xs sts K Hx0 Hrun' k ltac:(lia)) as (H & H1 & H2 & H3 & H4).
  pose proof (run_len n mu L f gradf ls' cfg HF Hls xs sts K Hx0 Hrun' k ltac:(lia)) as Hl. fold m in H3.
  pose proof (step_slope gradf H (xs k)) as Sl. pose proof (step_q0 n mu L f gradf HF _ _ H (xs k) (eig_lower_pos L m ltac:(lra)) H3 Hl) as Q0.
  pose proof (step_dd n mu L f gradf HF _ _ H (xs k) (eig_lower_pos L m ltac:(lra)) Hhi H1 H2 H3 Hl) as Dd.
  rewrite (run_next f gradf ls' cfg Hls xs sts K Hrun' k Hk), (Hstep k Hk). unfold d. rewrite H4.
  set (dd := smul (-1) (mvec H (gradf (xs k)))) in *. set (q := dot (gradf (xs k)) (mvec H (gradf (xs k)))) in *.
  destruct HF as (_ & _ & A).
  assert (Hdl : length dd = n) by (unfold dd; rewrite smul_length, mvec_length; apply H1).
  destruct (A (xs k) (vadd (xs k) (smul t dd)) Hl (vadd_smul_length n _ _ _ Hl Hdl)) as [_ A2].
  assert (E1 : dot (gradf (xs k)) (vsub (vadd (xs k) (smul t dd)) (xs k)) = t * dot (gradf (xs k)) dd) by vring.
  assert (E2 : dist2 (vadd (xs k) (smul t dd)) (xs k) = t * t * dot dd dd) by vring.
  rewrite E1, E2 in A2. rewrite Sl in A2 |- *.
  assert (L / 2 * (t * t * dot dd dd) <= 1 / 2 * t * q).
  { assert (L / 2 * (t * t * dot dd dd) <= L / 2 * (t * t * (eig_upper mu L m * q))) by (apply Rmult_le_compat_l; [lra|]; apply Rmult_le_compat_l; nra).
    replace (L / 2 * (t * t * (eig_upper mu L m * q))) with (t * (L * eig_upper mu L m) * (1 / 2 * t * q)) in H0 by field.
    assert (0 <= 1 / 2 * t * q) by nra. nra. }
  lra.
Qed.
Print Assumptions C64_fixed_step.

(** A concrete problem: (x^2 + 2 y^2) / 2, memory 2, default options of Armijo backtracking. *)
Example C64_example : let f := fun x : vec => (nth 0 x 0 * nth 0 x 0 + 2 * (nth 1 x 0 * nth 1 x 0)) / 2 in
  let gradf := fun x : vec => [nth 0 x 0; 2 * nth 1 x 0] in
  let cfg := {| qn_stepsize := StepConst 0; qn_linesearch_init := "increase"; qn_increase_factor := 3 / 2; qn_max_stepsize := 1;
                qn_min_stepsize := 1 / 1000000; qn_tol := 1 / 1000; qn_stop_if_linesearch_fails := true; qn_history_size := 2; qn_use_gamma := true |} in
  let bcfg := {| condition := Armijo; c1 := 1 / 10000; c2 := 9 / 10; decrease_factor := 8 / 10; max_stepsize := 1; tol := 0; maxiter := 30 |} in
  strongly_convex_smooth 2 1 2 f gradf /\ use_linesearch cfg = true /\ known_strategy (qn_linesearch_init cfg) /\
  max_stepsize bcfg * decrease_factor bcfg ^ (maxiter bcfg - 1) <= 2 * (1 - c1 bcfg) / (2 * eig_upper 1 2 (qn_history_size cfg)) /\
  exists N, forall maxit, (N <= maxit)%nat -> exists x st,
    lbfgs_solve f gradf (bt_line_search bcfg f gradf) cfg maxit [1; 1] = Ok (x, st) /\ norm2 (gradf x) <= 1 / 1000.
Proof.
  intros f gradf cfg bcfg.
  assert (HF : strongly_convex_smooth 2 1 2 f gradf).
  { split; [lra|]. split; [intros x _; reflexivity|]. intros x z Hx Hz.
    destruct x as [|x0 [|x1 [|]]]; try discriminate. destruct z as [|z0 [|z1 [|]]]; try discriminate.
    pose proof (Rle_0_sqr (z0 - x0)) as Q1. pose proof (Rle_0_sqr (z1 - x1)) as Q2. unfold Rsqr in Q1, Q2.
    unfold f, gradf, dist2, sqnorm, vsub. simpl. split; lra. }
  assert (Hul : use_linesearch cfg = true) by (unfold use_linesearch; simpl; unfold Rleb; destruct (Rle_dec 0 0); [reflexivity|lra]).
  assert (Hks : known_strategy (qn_linesearch_init cfg)) by (right; right; reflexivity).
  assert (Hlast : max_stepsize bcfg * decrease_factor bcfg ^ (maxiter bcfg - 1) <= 2 * (1 - c1 bcfg) / (2 * eig_upper 1 2 (qn_history_size cfg))).
  { cbn [qn_history_size cfg eig_upper max_stepsize decrease_factor maxiter c1 bcfg]. rewrite Rinv_1. unfold Rmax. destruct (Rle_dec 1 1); [|lra].
    simpl Nat.sub. simpl pow. lra. }
  split; [exact HF|]. split; [exact Hul|]. split; [exact Hks|]. split; [exact Hlast|].
  destruct (C64_converges 2 1 2 f gradf cfg bcfg [1; 1] HF eq_refl Hul Hks) as (N & HN); try exact Hlast; try reflexivity; simpl; try lra; try lia.
  exists N. intros maxit Hm. destruct (HN maxit Hm) as (x & st & A & _ & _ & _ & B). exists x, st. split; [exact A|exact B].
Qed.
