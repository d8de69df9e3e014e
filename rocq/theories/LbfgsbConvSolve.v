(** The run of L-BFGS-B reaches its tolerance. *)
From Coq Require Import String.
From Coq Require Import Reals List Lra Lia Bool Arith Psatz.
From Verif Require Import Prelude Base Vec Mat XArith LinAlg Loss LossProofs Run QuasiNewton QuasiNewtonProofs Convergence ConvergenceProofs ConvergenceRuns.
From Verif Require Import ZoomRunsProofs.
From Verif Require Import Lbfgsb LbfgsbHess LbfgsbCauchy LbfgsbProofs LbfgsbTheorems LbfgsbConvergence LbfgsbConvHess LbfgsbConvPath LbfgsbConvSteps LbfgsbConvProofs LbfgsbConvRuns LbfgsbConvFree.
Import ListNotations.
Open Scope R_scope.

Lemma run_result_prefix {A} maxiter cond (update : A -> result A) (steps : nat -> A) j : (1 <= j <= maxiter)%nat ->
  (forall k, (k < j)%nat -> update (steps k) = Ok (steps (S k))) -> (forall k, (1 <= k < j)%nat -> cond (steps k) = true) -> cond (steps j) = false ->
  run_result maxiter cond update (steps 0%nat) = Ok (steps j).
Proof.
  intros Hj Hu Ht Hf. unfold run_result.
  set (upd := fun r => match r with Ok a => update a | Err e => Err e end).
  set (cnd := fun r => match r with Ok a => cond a | Err _ => false end).
  assert (Hit : forall k, (k <= j)%nat -> Nat.iter k upd (Ok (steps 0%nat)) = Ok (steps k)).
  { induction k as [|k IH]; intros Hk; [reflexivity|]. change (Nat.iter (S k) upd (Ok (steps 0%nat))) with (upd (Nat.iter k upd (Ok (steps 0%nat)))). rewrite IH by lia. apply Hu. lia. }
  destruct (run_loop_spec maxiter cnd upd (Ok (steps 0%nat)) ltac:(lia)) as (k & Hk & Er & Hc & He).
  destruct (lt_eq_lt_dec k j) as [[C|C]|C].
  - exfalso. destruct He as [He|He]; [lia|]. rewrite Hit in He by lia. cbn in He. rewrite Ht in He by lia. discriminate.
  - subst k. etransitivity; [exact Er|apply Hit; lia].
  - exfalso. specialize (Hc j ltac:(lia)). rewrite Hit in Hc by lia. cbn in Hc. rewrite Hf in Hc. discriminate.
Qed.
Lemma first_stop (P : nat -> bool) N : (1 <= N)%nat -> (exists j, (1 <= j <= N)%nat /\ P j = false /\ forall k, (1 <= k < j)%nat -> P k = true) \/ (forall k, (1 <= k <= N)%nat -> P k = true).
Proof.
  induction N as [|N IH]; intros H; [lia|]. destruct (Nat.eq_dec N 0) as [->|N0].
  - destruct (P 1%nat) eqn:E; [right; intros k Hk; replace k with 1%nat by lia; exact E|left; exists 1%nat; split; [lia|]; split; [exact E|intros; lia]].
  - destruct (IH ltac:(lia)) as [(j & H1 & H2 & H3)|A]; [left; exists j; split; [lia|auto]|].
    destruct (P (S N)) eqn:E; [right|left].
    + intros k Hk. destruct (Nat.eq_dec k (S N)) as [->|]; [exact E|apply A; lia].
    + exists (S N). split; [lia|]. split; [exact E|]. intros k Hk. apply A. lia.
Qed.
Lemma box_factor_range mu c1 floor M : 0 < mu -> 0 < M -> 0 < c1 -> 0 < floor -> c1 * floor <= 1 -> 0 <= box_gap_factor mu c1 floor M < 1.
Proof.
  intros Hm HM Hc Hf Hcf. unfold box_gap_factor. assert (I0 : 0 < / (2 * mu)) by (apply Rinv_0_lt_compat; lra).
  assert (CF : 0 < c1 * floor) by (apply Rmult_lt_0_compat; assumption). set (de := 2 * (M + 1) * (1 + / (2 * mu))).
  assert (De : 1 <= de) by (unfold de; nra). assert (Q : c1 * floor / de * de = c1 * floor) by (field; lra).
  assert (0 < c1 * floor / de) by (apply Rdiv_lt_0_compat; lra). split; [nra|lra].
Qed.

Section Solve.
Variables (n : nat) (mu L : R) (f : vec -> R) (gradf : vec -> vec).
Hypothesis HF : strongly_convex_smooth n mu L f gradf.
Variables (solve : mat -> vec -> vec) (eps theta0 : R) (ls : line_search) (cfg : qn_config) (bounds : option (xbounds * xbounds)) (lower upper : xbounds).
Hypothesis SOL : exact_solver solve.
Hypothesis Heps : 0 < eps.
Hypothesis T0 : 0 < theta0.
Let h := qn_history_size cfg.
Hypothesis Hh : (0 < h)%nat.
Hypothesis Eb : bounds_or_default n bounds = (lower, upper).
Hypothesis Hul : use_linesearch cfg = true.
Hypothesis LU : ls_unit f gradf ls.
Hypothesis PS : positive_starts cfg.
Hypothesis Hqi : 1 <= qn_increase_factor cfg.
Hypothesis Htol : 0 < qn_tol cfg.
Variable x0 : vec.
Hypothesis Hx0 : length x0 = n.
Hypothesis B0 : in_bounds lower upper x0.
Let M := hess_upper L (theta_high L theta0) h.
Let C := hess_inverse mu L (theta_low mu theta0) h.
Variables (c1 fl floor : R).
Hypothesis Hc1 : 0 < c1.
Hypothesis Hfl0 : 0 < fl.
Hypothesis Hflm : fl <= qn_max_stepsize cfg.
Hypothesis Hfl : 0 < floor.
Hypothesis Hcf : c1 * floor <= 1.
Hypothesis LSok : forall x d s0, length x = n -> length d = n -> dot d d <= 2 * C * - dot (gradf x) d -> fl <= s0 ->
  let o := ls s0 x (f x) (gradf x) d in
  ls_failed o = false /\ f (vadd x (smul (ls_step o) d)) <= f x + c1 * ls_step o * dot (gradf x) d /\ fl <= ls_step o /\
  (dot (gradf x) d <> 0 -> floor <= ls_step o).
Let r := box_gap_factor mu c1 floor M.
Lemma Hr : 0 <= r < 1.
Proof. apply box_factor_range; try assumption; [apply HF|apply (M_pos n mu L f gradf HF theta0 cfg T0)]. Qed.

Section Prefix.
Variables (steps : nat -> vec * lbfgsb_state) (N : nat).
Hypothesis RUN : lbfgsb_run solve eps f gradf ls cfg theta0 bounds x0 steps N.
Hypothesis CPt : forall k, (k < N)%nat -> clear_point eps C lower upper (fst (steps k)) (gradf (fst (steps k))).
Lemma search_ok k : (k < N)%nat -> fl <= lb_stepsize (snd (steps k)) ->
  let t := lb_stepsize (snd (steps (S k))) in let p := lbfgsb_direction solve eps cfg (fst (steps k)) (snd (steps k)) lower upper in
  lb_failed (snd (steps (S k))) = false /\ fl <= t /\
  f (vadd (fst (steps k)) (smul t p)) <= f (fst (steps k)) + c1 * t * dot (gradf (fst (steps k))) p /\ (dot (gradf (fst (steps k))) p <> 0 -> floor <= t).
Proof.
  intros Hk Hp. cbv zeta.
  destruct (step_taken n mu L f gradf HF solve eps theta0 ls cfg bounds lower upper SOL Heps T0 Hh Eb Hul LU PS x0 Hx0 B0 steps N RUN CPt k Hk) as (s0 & E & X1 & X2 & X3).
  destruct (facts n mu L f gradf HF solve eps theta0 ls cfg bounds lower upper SOL Heps T0 Hh Eb LU PS x0 Hx0 B0 steps N RUN CPt k ltac:(lia)) as (Lx & _).
  destruct (dir_bounds n mu L f gradf HF solve eps theta0 ls cfg bounds lower upper SOL Heps T0 Hh Eb LU PS x0 Hx0 B0 steps N RUN CPt k Hk) as (Lp & _ & _ & Dd).
  assert (Hs := init_step_floor _ _ _ _ _ s0 fl E Hfl0 Hflm Hp Hqi).
  destruct (LSok _ _ s0 Lx Lp Dd Hs) as (Y1 & Y2 & Y3 & Y4). cbv zeta in X1, X2, X3. rewrite <- X2 in Y2, Y3, Y4. rewrite X3. auto.
Qed.
Lemma steps_floor k : (k <= N)%nat -> fl <= lb_stepsize (snd (steps k)).
Proof.
  induction k as [|k IH]; intros Hk; [|apply (search_ok k ltac:(lia) (IH ltac:(lia)))].
  rewrite (proj1 RUN). unfold lbfgsb_init. rewrite Hx0, Eb. cbn. exact Hflm.
Qed.
Lemma prefix_dec k : (k < N)%nat -> let t := lb_stepsize (snd (steps (S k))) in let p := lbfgsb_direction solve eps cfg (fst (steps k)) (snd (steps k)) lower upper in
  0 <= t /\ f (vadd (fst (steps k)) (smul t p)) <= f (fst (steps k)) + c1 * t * dot (gradf (fst (steps k))) p /\ (dot (gradf (fst (steps k))) p <> 0 -> floor <= t).
Proof. intros Hk. destruct (search_ok k Hk (steps_floor k ltac:(lia))) as (A1 & A2 & A3 & A4). cbv zeta in *. split; [lra|auto]. Qed.
Lemma prefix_facts k : (k <= N)%nat -> let x := fst (steps k) in let st := snd (steps k) in
  length x = n /\ in_bounds lower upper x /\ lb_iter st = k /\ ((1 <= k)%nat -> lb_failed st = false) /\
  (forall z, length z = n -> in_bounds lower upper z -> f x - f z <= r ^ k * (f x0 - f z)) /\
  exists e, lb_error st = Fin e /\ get_error x (gradf x) lower upper = Fin e /\ 0 <= e /\ forall z, box_minimiser lower upper n f z -> e * e <= 2 * Rmax 1 L * r ^ k * (f x0 - f z).
Proof.
  intros Hk. cbv zeta.
  destruct (facts n mu L f gradf HF solve eps theta0 ls cfg bounds lower upper SOL Heps T0 Hh Eb LU PS x0 Hx0 B0 steps N RUN CPt k Hk) as (Lx & Bx & I & _ & _ & Ee & _).
  split; [exact Lx|]. split; [exact Bx|]. split; [exact I|]. split.
  { intros K1. destruct k as [|k]; [lia|]. apply (search_ok k ltac:(lia) (steps_floor k ltac:(lia))). }
  split. { intros z Hz Bz. apply (run_gap n mu L f gradf HF solve eps theta0 ls cfg bounds lower upper SOL Heps T0 Hh Eb Hul LU PS x0 Hx0 B0 steps N RUN CPt c1 floor Hc1 Hfl prefix_dec (proj1 Hr) z k Hz Bz Hk). }
  rewrite Ee, (error_eq lower upper _ _ Bx). eexists. split; [reflexivity|]. split; [reflexivity|]. split; [apply maxabs_nonneg|]. intros z BM.
  eapply (run_error n mu L f gradf HF solve eps theta0 ls cfg bounds lower upper SOL Heps T0 Hh Eb Hul LU PS x0 Hx0 B0 steps N RUN CPt c1 floor Hc1 Hfl prefix_dec (proj1 Hr) z _ k BM Hk).
  rewrite Ee. apply error_eq, Bx.
Qed.
End Prefix.

Lemma conv_stop z N steps : box_minimiser lower upper n f z -> (0 < N)%nat -> 2 * Rmax 1 L * r ^ N * (f x0 - f z) <= qn_tol cfg * qn_tol cfg ->
  lbfgsb_run solve eps f gradf ls cfg theta0 bounds x0 steps N ->
  (forall k, (k < N)%nat -> k = 0%nat \/ lbfgsb_cond cfg (snd (steps k)) = true -> clear_point eps C lower upper (fst (steps k)) (gradf (fst (steps k)))) ->
  exists k, (1 <= k <= N)%nat /\ (forall j, (1 <= j < k)%nat -> lbfgsb_cond cfg (snd (steps j)) = true) /\ lbfgsb_cond cfg (snd (steps k)) = false /\
    box_answer n mu (qn_tol cfg) (r ^ k * (f x0 - f z)) f gradf lower upper z k (steps k).
Proof.
  intros BM HN Hrate RUN CP.
  assert (Sub : forall j, (j <= N)%nat -> lbfgsb_run solve eps f gradf ls cfg theta0 bounds x0 steps j) by (intros j Hj; split; [apply RUN|intros k Hk; apply RUN; lia]).
  assert (Cnd : forall k e, lb_failed (snd (steps k)) = false -> lb_error (snd (steps k)) = Fin e -> lbfgsb_cond cfg (snd (steps k)) = false -> e <= qn_tol cfg).
  { intros k e F E Cf. unfold lbfgsb_cond in Cf. rewrite F, E in Cf. cbn [negb] in Cf. rewrite orb_true_r, andb_true_r in Cf. cbn [xgtb] in Cf. destruct (Rlt_dec _ _); [discriminate|lra]. }
  destruct (first_stop (fun k => lbfgsb_cond cfg (snd (steps k))) N HN) as [(j & Hj & Cf & Ct)|All].
  - assert (CPj : forall k, (k < j)%nat -> clear_point eps C lower upper (fst (steps k)) (gradf (fst (steps k)))).
    { intros k Hk. apply CP; [lia|]. destruct k as [|k]; [left; reflexivity|right; apply Ct; lia]. }
    destruct (prefix_facts steps j (Sub j ltac:(lia)) CPj j (Nat.le_refl j)) as (Lx & Bx & I & F & G & e & Ee & Eg & E0 & _). specialize (F ltac:(lia)).
    exists j. split; [exact Hj|]. split; [exact Ct|]. split; [exact Cf|].
    { pose proof (Cnd j e F Ee Cf) as Et. pose proof (box_dist n mu L f gradf lower upper (fst (steps j)) z HF BM Lx Bx) as Bd.
      destruct BM as (Hz & Bz & _). specialize (G z Hz Bz). destruct (steps j) as [x st]. cbn [fst snd] in *.
      unfold box_answer. repeat (split; [first [assumption|exists e; split; [exact Ee|split; [exact Eg|lra]]]|]). lra. }
  - exfalso. assert (CPN : forall k, (k < N)%nat -> clear_point eps C lower upper (fst (steps k)) (gradf (fst (steps k)))).
    { intros k Hk. apply CP; [lia|]. destruct k as [|k]; [left; reflexivity|right; apply All; lia]. }
    destruct (prefix_facts steps N RUN CPN N (Nat.le_refl N)) as (Lx & Bx & I & F & G & e & Ee & _ & E0 & Eb'). specialize (F ltac:(lia)). specialize (Eb' z BM).
    assert (Et : e <= qn_tol cfg) by (destruct (Rle_lt_dec e (qn_tol cfg)); [assumption|nra]).
    specialize (All N ltac:(lia)). unfold lbfgsb_cond in All. rewrite Ee in All. cbn [xgtb] in All. destruct (Rlt_dec (qn_tol cfg) e); [lra|discriminate].
Qed.
Lemma conv_solve z N steps : box_minimiser lower upper n f z -> (0 < N)%nat -> 2 * Rmax 1 L * r ^ N * (f x0 - f z) <= qn_tol cfg * qn_tol cfg ->
  lbfgsb_run solve eps f gradf ls cfg theta0 bounds x0 steps N ->
  (forall k, (k < N)%nat -> k = 0%nat \/ lbfgsb_cond cfg (snd (steps k)) = true -> clear_point eps C lower upper (fst (steps k)) (gradf (fst (steps k)))) ->
  exists k, (1 <= k <= N)%nat /\ (forall maxit, (N <= maxit)%nat -> lbfgsb_solve solve eps f gradf ls cfg theta0 bounds maxit x0 = Ok (steps k)) /\
    box_answer n mu (qn_tol cfg) (r ^ k * (f x0 - f z)) f gradf lower upper z k (steps k).
Proof.
  intros BM HN Hrate RUN CP. destruct (conv_stop z N steps BM HN Hrate RUN CP) as (j & Hj & Ct & Cf & An). exists j. split; [exact Hj|]. split; [|exact An].
  intros maxit Hm. unfold lbfgsb_solve. rewrite <- (proj1 RUN).
  apply (run_result_prefix maxit (fun step => lbfgsb_cond cfg (snd step)) _ steps j); [lia|intros k Hk; apply RUN; lia|exact Ct|exact Cf].
Qed.
End Solve.

Lemma choose_eps n mu L f gradf solve eps theta0 ls cfg bounds lower upper x0 steps N :
  lbfgsb_setting n mu L f gradf solve eps theta0 cfg bounds lower upper x0 -> ls_unit f gradf ls ->
  lbfgsb_run solve eps f gradf ls cfg theta0 bounds x0 steps N ->
  let C := hess_inverse mu L (theta_low mu theta0) (qn_history_size cfg) in
  no_bounds lower upper \/ (forall k, (k < N)%nat -> clear_point eps C lower upper (fst (steps k)) (gradf (fst (steps k)))) ->
  exists eps', 0 < eps' /\ lbfgsb_run solve eps' f gradf ls cfg theta0 bounds x0 steps N /\
    (forall k, (k < N)%nat -> clear_point eps' C lower upper (fst (steps k)) (gradf (fst (steps k)))) /\
    forall k, (k < N)%nat -> lbfgsb_direction solve eps cfg (fst (steps k)) (snd (steps k)) lower upper = lbfgsb_direction solve eps' cfg (fst (steps k)) (snd (steps k)) lower upper.
Proof.
  intros ST LU RUN C [NB|CP].
  - destruct (free_run n mu L f gradf solve eps theta0 ls cfg bounds lower upper x0 steps N ST LU NB RUN) as (e & E0 & R' & K). exists e. split; [exact E0|]. split; [exact R'|]. split; intros k Hk; apply (K k Hk).
  - exists eps. split; [apply ST|]. split; [exact RUN|]. split; [exact CP|reflexivity].
Qed.
Lemma conv_any n mu L f gradf solve eps theta0 ls cfg bounds lower upper x0 c1 fl floor z N steps :
  lbfgsb_setting n mu L f gradf solve eps theta0 cfg bounds lower upper x0 -> ls_unit f gradf ls -> 1 <= qn_increase_factor cfg -> 0 < qn_tol cfg ->
  0 < c1 -> 0 < fl -> fl <= qn_max_stepsize cfg -> 0 < floor -> c1 * floor <= 1 ->
  let C := hess_inverse mu L (theta_low mu theta0) (qn_history_size cfg) in
  (forall x d s0, length x = n -> length d = n -> dot d d <= 2 * C * - dot (gradf x) d -> fl <= s0 ->
    let o := ls s0 x (f x) (gradf x) d in
    ls_failed o = false /\ f (vadd x (smul (ls_step o) d)) <= f x + c1 * ls_step o * dot (gradf x) d /\ fl <= ls_step o /\
    (dot (gradf x) d <> 0 -> floor <= ls_step o)) ->
  box_minimiser lower upper n f z ->
  let r := box_gap_factor mu c1 floor (hess_upper L (theta_high L theta0) (qn_history_size cfg)) in
  (0 < N)%nat -> 2 * Rmax 1 L * r ^ N * (f x0 - f z) <= qn_tol cfg * qn_tol cfg ->
  lbfgsb_run solve eps f gradf ls cfg theta0 bounds x0 steps N ->
  no_bounds lower upper \/
  (forall k, (k < N)%nat -> k = 0%nat \/ lbfgsb_cond cfg (snd (steps k)) = true -> clear_point eps C lower upper (fst (steps k)) (gradf (fst (steps k)))) ->
  exists k, (1 <= k <= N)%nat /\ (forall maxit, (N <= maxit)%nat -> lbfgsb_solve solve eps f gradf ls cfg theta0 bounds maxit x0 = Ok (steps k)) /\
    box_answer n mu (qn_tol cfg) (r ^ k * (f x0 - f z)) f gradf lower upper z k (steps k).
Proof.
  intros ST LU Hqi Htol Hc1 Hfl0 Hflm Hfl Hcf C LSok BM r HN Hrate RUN [NB|CP]; pose proof ST as (HF & SOL & Heps & T0 & Hh & Eb & Hul & PS & Hx0 & B0).
  - destruct (free_run n mu L f gradf solve eps theta0 ls cfg bounds lower upper x0 steps N ST LU NB RUN) as (e & E0 & R' & K).
    destruct (conv_stop n mu L f gradf HF solve e theta0 ls cfg bounds lower upper SOL E0 T0 Hh Eb Hul LU PS Hqi Htol x0 Hx0 B0 c1 fl floor Hc1 Hfl0 Hflm Hfl Hcf LSok z N steps BM HN Hrate R' (fun k Hk _ => proj1 (K k Hk))) as (j & Hj & Ct & Cf & An).
    exists j. split; [exact Hj|]. split; [|exact An]. intros maxit Hm. unfold lbfgsb_solve. rewrite <- (proj1 RUN).
    apply (run_result_prefix maxit (fun step => lbfgsb_cond cfg (snd step)) _ steps j); [lia|intros k Hk; apply RUN; lia|exact Ct|exact Cf].
  - exact (conv_solve n mu L f gradf HF solve eps theta0 ls cfg bounds lower upper SOL Heps T0 Hh Eb Hul LU PS Hqi Htol x0 Hx0 B0 c1 fl floor Hc1 Hfl0 Hflm Hfl Hcf LSok z N steps BM HN Hrate RUN CP).
Qed.
