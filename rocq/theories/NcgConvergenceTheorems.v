(** C66: NonlinearCG descends and converges with Fletcher-Reeves and tight strong Wolfe steps; with
    the default method or the default curvature constant its direction can point uphill. *)
From Coq Require Import String.
From Coq Require Import Reals List Lra Lia Bool Arith Psatz.
From Verif Require Import Prelude Vec Mat LinAlg Loop Backtracking Zoom ZoomProofs ZoomTheorems Run LinSolveProofs ImplicitDiffTheorems QuasiNewton QuasiNewtonProofs Lbfgsb Convergence NonlinearCG NonlinearCGTheorems NcgConvergence NcgConvergenceProofs.
Import ListNotations.
Local Open Scope string_scope.
Open Scope R_scope.

(** Zoutendijk's condition, for every method: the squared cosines of the searched directions times the
    squared gradient norms are summable. *)
Theorem C66_zoutendijk : forall n L c1 c2 f gradf ls cfg xs sts K,
  lipschitz_gradient n L gradf -> ls_consistent_pos f gradf ls -> 0 < c_max_stepsize cfg -> 0 < c_increase_factor cfg -> 0 < c1 -> c2 < 1 ->
  length (xs 0%nat) = n -> ncg_seq f gradf ls cfg xs sts K ->
  (forall k, (k < K)%nat -> let d := searched_direction cfg (sts k) in
     dot (gradf (xs k)) d <= 0 /\ strong_wolfe c1 c2 f gradf (xs k) d (c_stepsize (sts (S k)))) ->
  c1 * (1 - c2) / L * sum_below K (fun k => let d := searched_direction cfg (sts k) in (dot (gradf (xs k)) d) ^ 2 / dot d d) <= f (xs 0%nat) - f (xs K).
Proof.
  intros n L c1 c2 f gradf ls cfg xs sts K HL Hls Hmax Hinc Hc1 Hc2 Hx Hseq HW. cbv zeta in HW.
  apply (rate_sum f xs K); [lia|]. intros k Hk. cbv zeta.
  pose proof (rate_decrease n L c1 c2 f gradf ls cfg HL Hls Hmax Hinc Hc1 xs sts K Hx Hseq (fun j Hj => proj2 (HW j Hj)) k Hk Hc2 (proj1 (HW k Hk))) as Q. cbv zeta in Q.
  simpl pow. rewrite Rmult_1_r. exact Q.
Qed.
Print Assumptions C66_zoutendijk.

(** With linesearch="backtracking" (which searches along minus the gradient) the squared gradient norms
    are summable, whatever the method: the smallest of K gradients is of order 1/sqrt(K). *)
Theorem C66_backtracking : forall n L c1 c2 f gradf ls cfg xs sts K,
  lipschitz_gradient n L gradf -> ls_consistent_pos f gradf ls -> 0 < c_max_stepsize cfg -> 0 < c_increase_factor cfg -> 0 < c1 -> c2 < 1 ->
  length (xs 0%nat) = n -> ncg_seq f gradf ls cfg xs sts K -> c_linesearch cfg = LsName "backtracking" ->
  (forall k, (k < K)%nat -> strong_wolfe c1 c2 f gradf (xs k) (smul (-1) (gradf (xs k))) (c_stepsize (sts (S k)))) ->
  c1 * (1 - c2) / L * sum_below K (fun k => sqnorm (gradf (xs k))) <= f (xs 0%nat) - f (xs K) /\
  forall eps, 0 <= eps -> (forall k, (k < K)%nat -> eps <= norm2 (gradf (xs k))) -> c1 * (1 - c2) / L * (INR K * eps ^ 2) <= f (xs 0%nat) - f (xs K).
Proof.
  intros n L c1 c2 f gradf ls cfg xs sts K HL Hls Hmax Hinc Hc1 Hc2 Hx Hseq Hb HW.
  assert (L0 : 0 < L) by (destruct HL; assumption). assert (Hdim : grad_dim n gradf) by (destruct HL as (_ & H & _); exact H).
  assert (Hpos : forall k, (S k < K)%nat -> 0 < c_stepsize (sts (S k))) by (intros k Hk; destruct (HW k ltac:(lia)) as (P & _); exact P).
  assert (Es : forall k, (k <= K)%nat -> searched_direction cfg (sts k) = smul (-1) (gradf (xs k))).
  { intros k Hk. unfold searched_direction. rewrite Hb. simpl. destruct (seq_inv n f gradf ls cfg Hdim Hls Hmax Hinc xs sts K Hx Hseq Hpos k Hk) as (_ & _ & _ & ->). reflexivity. }
  assert (M : c1 * (1 - c2) / L * sum_below K (fun k => sqnorm (gradf (xs k))) <= f (xs 0%nat) - f (xs K)).
  { apply (rate_sum f xs K); [lia|]. intros k Hk. assert (HW' : forall j, (j < K)%nat -> strong_wolfe c1 c2 f gradf (xs j) (searched_direction cfg (sts j)) (c_stepsize (sts (S j)))) by (intros j Hj; rewrite Es by lia; apply HW; exact Hj).
    pose proof (dot_self_nonneg (gradf (xs k))) as G0.
    pose proof (rate_decrease n L c1 c2 f gradf ls cfg HL Hls Hmax Hinc Hc1 xs sts K Hx Hseq HW' k Hk Hc2) as Q. cbv zeta in Q. rewrite (Es k ltac:(lia)) in Q.
    rewrite !dot_smul_r, !dot_smul_l in Q. specialize (Q ltac:(lra)). eapply Rle_trans; [|exact Q]. apply Req_le. f_equal. unfold sqnorm.
    destruct (Req_dec (dot (gradf (xs k)) (gradf (xs k))) 0) as [Z|Z]; [rewrite Z; unfold Rdiv; ring|field; exact Z]. }
  split; [exact M|]. intros eps He HG. eapply Rle_trans; [|exact M]. apply Rmult_le_compat_l; [apply Rmult_le_pos; [nra|left; apply Rinv_0_lt_compat; exact L0]|].
  clear - He HG. induction K as [|K IH]; [simpl; lra|]. cbn [sum_below]. rewrite S_INR. specialize (IH ltac:(intros k Hk; apply HG; lia)).
  pose proof (HG K ltac:(lia)) as G. pose proof (norm2_sq (gradf (xs K))) as Q. fold (sqnorm (gradf (xs K))) in Q. assert (eps * eps <= norm2 (gradf (xs K)) * norm2 (gradf (xs K))) by (apply Rmult_le_compat; assumption).
  simpl pow in *. lra.
Qed.
Print Assumptions C66_backtracking.

(** Fletcher-Reeves with strong Wolfe steps and a curvature constant below 1/2: every direction is a
    descent direction, with a slope comparable to the squared gradient norm. *)
Theorem C66_fr_descent : forall n L c1 c2 f gradf ls cfg xs sts K,
  lipschitz_gradient n L gradf -> ls_consistent_pos f gradf ls -> 0 < c_max_stepsize cfg -> 0 < c_increase_factor cfg -> 0 < c1 -> 0 < c2 < 1 / 2 ->
  c_method cfg = "fletcher-reeves" -> c_linesearch cfg <> LsName "backtracking" ->
  length (xs 0%nat) = n -> ncg_seq f gradf ls cfg xs sts K ->
  (forall k, (k < K)%nat -> strong_wolfe c1 c2 f gradf (xs k) (c_direction (sts k)) (c_stepsize (sts (S k)))) ->
  forall k, (k <= K)%nat ->
    - (/ (1 - c2)) * sqnorm (gradf (xs k)) <= dot (gradf (xs k)) (c_direction (sts k)) <= - ((1 - 2 * c2) / (1 - c2)) * sqnorm (gradf (xs k)).
Proof.
  intros n L c1 c2 f gradf ls cfg xs sts K HL Hls Hmax Hinc Hc1 Hc2 Hm Hb Hx Hseq HW k Hk.
  assert (HW' : forall j, (j < K)%nat -> strong_wolfe c1 c2 f gradf (xs j) (searched_direction cfg (sts j)) (c_stepsize (sts (S j)))) by (intros j Hj; rewrite searched_id by exact Hb; apply HW; exact Hj).
  pose proof (rate_fr_bounds n L c1 c2 f gradf ls cfg HL Hls Hmax Hinc xs sts K Hx Hseq HW' Hm Hb Hc2 k Hk) as B. cbv zeta in B.
  replace (/ (1 - c2)) with (2 - (1 - 2 * c2) / (1 - c2)) by (field; lra). exact B.
Qed.
Print Assumptions C66_fr_descent.

(** Hence a bound on the number of iterations whose gradients stay above eps (no convexity). *)
Theorem C66_fr_bound : forall n L c1 c2 f gradf ls cfg xs sts K eps,
  lipschitz_gradient n L gradf -> ls_consistent_pos f gradf ls -> 0 < c_max_stepsize cfg -> 0 < c_increase_factor cfg -> 0 < c1 -> 0 < c2 < 1 / 2 ->
  c_method cfg = "fletcher-reeves" -> c_linesearch cfg <> LsName "backtracking" ->
  length (xs 0%nat) = n -> ncg_seq f gradf ls cfg xs sts K ->
  (forall k, (k < K)%nat -> strong_wolfe c1 c2 f gradf (xs k) (c_direction (sts k)) (c_stepsize (sts (S k)))) ->
  0 < eps -> (forall k, (k < K)%nat -> eps <= norm2 (gradf (xs k))) ->
  fr_constant L c1 c2 * eps ^ 2 * ln (INR K + 1) <= f (xs 0%nat) - f (xs K).
Proof.
  intros n L c1 c2 f gradf ls cfg xs sts K eps HL Hls Hmax Hinc Hc1 Hc2 Hm Hb Hx Hseq HW He HG.
  assert (HW' : forall j, (j < K)%nat -> strong_wolfe c1 c2 f gradf (xs j) (searched_direction cfg (sts j)) (c_stepsize (sts (S j)))) by (intros j Hj; rewrite searched_id by exact Hb; apply HW; exact Hj).
  assert (HG2 : forall j, (j < K)%nat -> eps * eps <= dot (gradf (xs j)) (gradf (xs j))).
  { intros j Hj. pose proof (norm2_sq (gradf (xs j))) as Q. pose proof (HG j Hj) as G. assert (eps * eps <= norm2 (gradf (xs j)) * norm2 (gradf (xs j))) by (apply Rmult_le_compat; lra). simpl pow in Q. lra. }
  assert (L0 : 0 < L) by (destruct HL; assumption).
  assert (C0 : 0 <= fr_constant L c1 c2 * eps ^ 2).
  { unfold fr_constant. assert (0 < (1 + c2) / (1 - c2)) by (apply Rdiv_lt_0_compat; lra). assert (0 < / (L * ((1 + c2) / (1 - c2)))) by (apply Rinv_0_lt_compat, Rmult_lt_0_compat; assumption).
    apply Rmult_le_pos; [|nra]. apply Rmult_le_pos; [|lra]. apply Rmult_le_pos; [nra|]. apply pow_le. left. apply Rdiv_lt_0_compat; lra. }
  eapply Rle_trans; [apply Rmult_le_compat_l; [exact C0|apply harmonic]|].
  apply (rate_sum f xs K); [lia|]. intros k Hk. replace (eps ^ 2) with (eps * eps) by ring.
  apply (rate_fr_decrease n L c1 c2 f gradf ls cfg HL Hls Hmax Hinc Hc1 xs sts K Hx Hseq HW' Hm Hb Hc2 k eps Hk He). intros j Hj. apply HG2. lia.
Qed.
Print Assumptions C66_fr_bound.

(** run() with a search that always finds such steps stops, before its [maxiter] iterations, after
    updating parameters whose gradient norm is at most [tol]; that norm is the error it reports. *)
Lemma least_below (P : nat -> Prop) N : (forall k, {P k} + {~ P k}) -> (exists k, (k < N)%nat /\ P k /\ forall j, (j < k)%nat -> ~ P j) \/ (forall k, (k < N)%nat -> ~ P k).
Proof.
  intros D. induction N as [|N [(k & A & B)|IH]]; [right; intros; lia|left; exists k; split; [lia|exact B]|].
  destruct (D N) as [H|H]; [left; exists N; auto|right]. intros k Hk. destruct (Nat.eq_dec k N) as [->|]; [exact H|apply IH; lia].
Qed.
Lemma loop_reaches ls cfg (xs : nat -> vec) sts k : forall m j fuel, (k - j = m)%nat -> (j <= k)%nat -> (m <= fuel)%nat ->
  (forall i, (j <= i)%nat -> (i < k)%nat -> ncg_update ls cfg (xs (S i), sts (S i)) = Ok (xs (S (S i)), sts (S (S i))) /\ xgtb (c_error (sts (S i))) (c_tol cfg) = true) ->
  xgtb (c_error (sts (S k))) (c_tol cfg) = false ->
  ncg_loop ls cfg fuel (xs (S j), sts (S j)) = Ok (xs (S k), sts (S k)).
Proof.
  induction m as [|m IH]; intros j fuel Hm Hj Hf HU HE.
  - assert (j = k) by lia. subst j. destruct fuel; [reflexivity|]. cbn [ncg_loop snd]. rewrite HE. reflexivity.
  - destruct fuel as [|fuel]; [lia|]. destruct (HU j ltac:(lia) ltac:(lia)) as (U & E). cbn [ncg_loop snd]. rewrite E, U.
    apply IH; [lia|lia|lia| |exact HE]. intros i H1 H2. apply HU; lia.
Qed.
Theorem C66_fr_run : forall n L c1 c2 f gradf ls cfg fmin x0 N maxiter,
  lipschitz_gradient n L gradf -> ls_consistent_pos f gradf ls -> 0 < c_max_stepsize cfg -> 0 < c_increase_factor cfg -> 0 < c1 -> 0 < c2 < 1 / 2 ->
  c_method cfg = "fletcher-reeves" -> c_linesearch cfg <> LsName "backtracking" -> known_init (c_linesearch_init cfg) -> 0 < c_tol cfg ->
  strong_wolfe_search n c1 c2 f gradf ls -> (forall x, length x = n -> fmin <= f x) -> length x0 = n ->
  f x0 - fmin < fr_constant L c1 c2 * c_tol cfg ^ 2 * ln (INR N + 1) -> (N <= maxiter)%nat ->
  exists k y sty x st, (k < N)%nat /\
    ncg_after f gradf ls cfg k x0 = Ok (y, sty) /\ norm2 (gradf y) <= c_tol cfg /\
    ncg_run f gradf ls cfg maxiter x0 = Ok (x, st) /\ ncg_after f gradf ls cfg (S k) x0 = Ok (x, st) /\ c_error st = Fin (norm2 (gradf y)).
Proof.
  intros n L c1 c2 f gradf ls cfg fmin x0 N maxiter HL Hls Hmax Hinc Hc1 Hc2 Hm Hb Hi Htol HS Hf Hx HN Hmi.
  assert (Hdim : grad_dim n gradf) by (destruct HL as (_ & H & _); exact H).
  assert (Hk : known_method (c_method cfg)) by (right; left; exact Hm).
  set (xs := Xof f gradf ls cfg x0). set (sts := Sof f gradf ls cfg x0).
  assert (E0 : xs 0%nat = x0) by reflexivity.
  assert (Hrun : forall k, ncg_after f gradf ls cfg k x0 = Ok (xs k, sts k)) by (intros k; apply Xof_run; assumption).
  assert (Hseq : forall K, ncg_seq f gradf ls cfg xs sts K) by (intros K k _; rewrite E0; apply Hrun).
  assert (Hlen : length (xs 0%nat) = n) by (rewrite E0; exact Hx).
  assert (HW : forall m, (forall j, (j < m)%nat -> ~ norm2 (gradf (xs j)) <= c_tol cfg) ->
     forall k, (k < m)%nat -> strong_wolfe c1 c2 f gradf (xs k) (c_direction (sts k)) (c_stepsize (sts (S k)))).
  { induction m as [|m IH]; intros HG k Hkm; [lia|]. specialize (IH ltac:(intros j Hj; apply HG; lia)).
    destruct (Nat.eq_dec k m) as [->|]; [|apply IH; lia].
    assert (Hpos : forall i, (S i < S m)%nat -> 0 < c_stepsize (sts (S i))) by (intros i Hi'; destruct (IH i ltac:(lia)) as (P & _); exact P).
    destruct (seq_next n f gradf ls cfg Hdim Hls Hmax Hinc xs sts (S m) Hlen (Hseq (S m)) Hpos m ltac:(lia)) as (_ & _ & _ & (s0 & S0 & Et) & _). cbv zeta in Et.
    destruct (seq_inv n f gradf ls cfg Hdim Hls Hmax Hinc xs sts (S m) Hlen (Hseq (S m)) Hpos m ltac:(lia)) as (I1 & I2 & _).
    rewrite (searched_id cfg Hb) in Et. rewrite Et. apply HS; auto.
    destruct (C66_fr_descent n L c1 c2 f gradf ls cfg xs sts m HL Hls Hmax Hinc Hc1 Hc2 Hm Hb Hlen (Hseq m) IH m (Nat.le_refl m)) as (_ & D).
    assert (0 < sqnorm (gradf (xs m))).
    { pose proof (HG m ltac:(lia)) as G. apply Rnot_le_lt in G. pose proof (norm2_sq (gradf (xs m))) as Q. unfold sqnorm. simpl pow in Q. assert (0 < norm2 (gradf (xs m)) * norm2 (gradf (xs m))) by (apply Rmult_lt_0_compat; lra). lra. }
    assert (0 < (1 - 2 * c2) / (1 - c2)) by (apply Rdiv_lt_0_compat; lra). assert (0 < (1 - 2 * c2) / (1 - c2) * sqnorm (gradf (xs m))) by (apply Rmult_lt_0_compat; assumption). lra. }
  destruct (least_below (fun k => norm2 (gradf (xs k)) <= c_tol cfg) N) as [(k & HkN & Hk1 & Hk2)|HA].
  { intros k. destruct (Rle_dec (norm2 (gradf (xs k))) (c_tol cfg)); auto. }
  - pose proof (HW k Hk2) as W.
    assert (Hpos : forall i, (S i < S k)%nat -> 0 < c_stepsize (sts (S i))) by (intros i Hi'; destruct (W i ltac:(lia)) as (P & _); exact P).
    assert (HE : forall i, (i < S k)%nat -> c_error (sts (S i)) = Fin (norm2 (gradf (xs i)))).
    { intros i Hi'. destruct (seq_next n f gradf ls cfg Hdim Hls Hmax Hinc xs sts (S k) Hlen (Hseq (S k)) Hpos i Hi') as (_ & E & _). exact E. }
    exists k, (xs k), (sts k), (xs (S k)), (sts (S k)). split; [exact HkN|]. split; [apply Hrun|]. split; [exact Hk1|]. split; [|split; [apply Hrun|apply HE; lia]].
    unfold ncg_run. destruct maxiter as [|mi]; [lia|].
    assert (U0 : ncg_update ls cfg (x0, ncg_init f gradf cfg x0) = Ok (xs 1%nat, sts 1%nat)) by (pose proof (Hrun 1%nat) as Q; exact Q).
    match goal with |- match ?u with Ok s => _ | Err _ => _ end = _ => replace u with (Ok (xs 1%nat, sts 1%nat)) by (symmetry; exact U0) end.
    apply (loop_reaches ls cfg xs sts k k 0%nat mi); [lia|lia|lia| |].
    + intros i _ Hik. split; [pose proof (Hrun (S (S i))) as Q; change (ncg_after f gradf ls cfg (S (S i)) x0) with (match ncg_after f gradf ls cfg (S i) x0 with Ok s => ncg_update ls cfg s | Err e => Err e end) in Q; rewrite Hrun in Q; exact Q|]. rewrite HE by lia. pose proof (Hk2 i Hik) as G. apply Rnot_le_lt in G.
      simpl. destruct (Rlt_dec (c_tol cfg) (norm2 (gradf (xs i)))); [reflexivity|contradiction].
    + rewrite HE by lia. simpl. destruct (Rlt_dec (c_tol cfg) (norm2 (gradf (xs k)))); [lra|reflexivity].
  - exfalso. pose proof (C66_fr_bound n L c1 c2 f gradf ls cfg xs sts N (c_tol cfg) HL Hls Hmax Hinc Hc1 Hc2 Hm Hb Hlen (Hseq N) (HW N HA) Htol) as B.
    specialize (B ltac:(intros k Hk'; left; apply Rnot_le_lt; apply HA; exact Hk')). rewrite E0 in B.
    assert (HpN : forall i, (S i < N)%nat -> 0 < c_stepsize (sts (S i))) by (intros i Hi'; destruct (HW N HA i ltac:(lia)) as (P & _); exact P).
    destruct (seq_inv n f gradf ls cfg Hdim Hls Hmax Hinc xs sts N Hlen (Hseq N) HpN N ltac:(lia)) as (I1 & _).
    pose proof (Hf (xs N) I1). lra.
Qed.
Print Assumptions C66_fr_run.
Theorem C66_fr_converges : forall n L c1 c2 f gradf ls cfg fmin x0,
  lipschitz_gradient n L gradf -> ls_consistent_pos f gradf ls -> 0 < c_max_stepsize cfg -> 0 < c_increase_factor cfg -> 0 < c1 -> 0 < c2 < 1 / 2 ->
  c_method cfg = "fletcher-reeves" -> c_linesearch cfg <> LsName "backtracking" -> known_init (c_linesearch_init cfg) -> 0 < c_tol cfg ->
  strong_wolfe_search n c1 c2 f gradf ls -> (forall x, length x = n -> fmin <= f x) -> length x0 = n ->
  exists N, forall maxiter, (N <= maxiter)%nat -> exists x st y, 
    ncg_run f gradf ls cfg maxiter x0 = Ok (x, st) /\ c_error st = Fin (norm2 (gradf y)) /\ norm2 (gradf y) <= c_tol cfg.
Proof.
  intros n L c1 c2 f gradf ls cfg fmin x0 HL Hls Hmax Hinc Hc1 Hc2 Hm Hb Hi Htol HS Hf Hx.
  assert (L0 : 0 < L) by (destruct HL; assumption).
  assert (C0 : 0 < fr_constant L c1 c2 * c_tol cfg ^ 2).
  { unfold fr_constant. assert (0 < (1 + c2) / (1 - c2)) by (apply Rdiv_lt_0_compat; lra). assert (0 < / (L * ((1 + c2) / (1 - c2)))) by (apply Rinv_0_lt_compat, Rmult_lt_0_compat; assumption).
    apply Rmult_lt_0_compat; [|apply pow_lt; exact Htol]. apply Rmult_lt_0_compat; [|assumption]. apply Rmult_lt_0_compat; [nra|]. apply pow_lt. apply Rdiv_lt_0_compat; lra. }
  set (C := fr_constant L c1 c2 * c_tol cfg ^ 2) in *. set (B := (f x0 - fmin) / C).
  assert (AR : exists N, exp B < INR N).
  { exists (Z.to_nat (Rdefinitions.up (exp B))). destruct (archimed (exp B)) as (U & _). pose proof (exp_pos B). rewrite INR_IZR_INZ, Z2Nat.id by (apply le_IZR; lra). lra. }
  destruct AR as (N & HN). exists N. intros maxiter Hmi.
  assert (E : f x0 - fmin < C * ln (INR N + 1)).
  { replace (f x0 - fmin) with (C * B) by (unfold B; field; lra). apply Rmult_lt_compat_l; [exact C0|]. rewrite <- (ln_exp B). pose proof (exp_pos B). apply ln_increasing; lra. }
  destruct (C66_fr_run n L c1 c2 f gradf ls cfg fmin x0 N maxiter HL Hls Hmax Hinc Hc1 Hc2 Hm Hb Hi Htol HS Hf Hx E Hmi) as (k & y & sty & x & st & _ & _ & G & R & _ & Er).
  exists x, st, y. auto.
Qed.
Print Assumptions C66_fr_converges.

(** A zoom search that succeeds below its largest step returns such a step, unless it only passed
    the approximate test of the values. *)
Theorem C66_zoom : forall zcfg f gradf s0 x d,
  zoom_ok zcfg -> ztol zcfg = 0 -> 0 < s0 ->
  let o := zoom_ls zcfg f gradf s0 x (f x) (gradf x) d in
  ls_failed o = false -> ls_step o < zmax zcfg ->
  strong_wolfe (zc1 zcfg) (zc2 zcfg) f gradf x d (ls_step o) \/
  f x + zc1 zcfg * ls_step o * dot (gradf x) d < f (ls_params o) <= f x + zc3 zcfg * Rabs (f x).
Proof.
  intros zcfg f gradf s0 x d Z Ht Hs. unfold zoom_ls.
  pose proof (C20_zoom vec zcfg (fun z => Fin (f z)) gradf (fun a b => Fin (dot a b)) x d (f x) (gradf x) (dot (gradf x) d) s0 true Z Hs) as Q. cbv zeta in Q.
  destruct (zoom_run _ _ _ _ _ _ _ _ _ _ _) as [s st]. cbv zeta. cbn [ls_failed ls_step ls_params].
  destruct Q as (k & _ & Q1 & Q2 & Q3 & Q4 & Q5 & Q6 & _). intros F Hm. rewrite F in Q1.
  assert (D : z_done st = true) by (destruct (z_done st); [reflexivity|discriminate]).
  destruct (Q6 D) as (S0 & _ & (_ & G) & C). rewrite Q3.
  destruct C as [(v & Ev & C)|C]; [|lra]. injection Ev as Ev. rewrite Ht, Rplus_0_r in C.
  destruct (Rle_lt_dec (f (vadd x (smul s d))) (f x + zc1 zcfg * s * dot (gradf x) d)) as [A|A].
  - left. split; [exact S0|]. split; [exact A|]. rewrite Ev. exact C.
  - right. split; [exact A|]. cbn [xle_bound] in G. rewrite Ht in G. destruct G as [G|[G _]]; lra.
Qed.
Print Assumptions C66_zoom.

(** The zoom search (tol=0) returns its first trial when that meets the strong Wolfe conditions. *)
Lemma zoom_first_trial zcfg f gradf s0 x d : ztol zcfg = 0 -> (0 < zmaxiter zcfg)%nat -> dot (gradf x) d <= 0 ->
  let t := Rmin s0 (zmax zcfg) in let z := vadd x (smul t d) in
  strong_wolfe (zc1 zcfg) (zc2 zcfg) f gradf x d t ->
  zoom_ls zcfg f gradf s0 x (f x) (gradf x) d = {| ls_step := t; ls_params := z; ls_value := f z; ls_grad := gradf z; ls_failed := false |}.
Proof.
  intros Ht Hm Hs. cbv zeta. intros (P & A & W). set (t := Rmin s0 (zmax zcfg)) in *. set (z := vadd x (smul t d)) in *.
  unfold zoom_ls, zoom_run. set (F := fun y : vec => Fin (f y)). set (V := fun a b : vec => Fin (dot a b)).
  set (st0 := zoom_init true x (f x) (gradf x) (dot (gradf x) d) d).
  assert (Ed : decrease_error zcfg t (F z) (V (gradf z) d) (f x) (dot (gradf x) d) = Fin 0).
  { unfold decrease_error, F, V. cbn [xaddr xmax2 xmin2]. unfold clean_error. simpl. f_equal. apply Rmax_right || apply Rmax_left. eapply Rle_trans; [apply Rmin_r|]. lra. }
  assert (Ec : curvature_error zcfg (V (gradf z) d) (dot (gradf x) d) = Fin 0).
  { unfold curvature_error, V. cbn [xaddr xabs]. unfold clean_error. simpl. f_equal. apply Rmax_right || apply Rmax_left. lra. }
  assert (U : exists st1, zoom_update zcfg F gradf V (s0, st0) = (t, st1) /\ z_params st1 = z /\ z_value st1 = F z /\ z_grad st1 = gradf z /\ z_failed st1 = false /\ z_done st1 = true).
  { unfold zoom_update, trial_step. cbn [st0 zoom_init z_found]. unfold search_interval. cbn [st0 zoom_init z_iter Nat.eqb z_params z_dir z_value_init z_slope_init z_prev_value z_prev z_num_fun z_num_grad z_grad z_value z_safe z_prev_slope]. fold t.
    change (line_point st0 t) with z. rewrite Ed, Ec.
    assert (M : xleb (xmaximum (Fin 0) (Fin 0)) (ztol zcfg) = true).
    { rewrite Ht. simpl. rewrite Rmax_left by lra. destruct (Rle_dec 0 0); [reflexivity|lra]. }
    rewrite M. rewrite orb_true_r, orb_true_l. cbn [negb]. rewrite andb_false_r. cbn [add_evals z_failed z_iter z_params z_value z_grad z_done].
    eexists. split; [reflexivity|]. cbn. auto. }
  destruct U as (st1 & U & Q1 & Q2 & Q3 & Q4 & Q5). destruct (zmaxiter zcfg) as [|m]; [lia|].
  assert (R1 : run_loop (S m) zoom_cond (zoom_update zcfg F gradf V) (s0, st0) = (t, st1)).
  { unfold run_loop. rewrite U. destruct m as [|m]; [reflexivity|]. simpl. unfold zoom_cond at 1. cbn [snd]. rewrite Q5, Q4. reflexivity. }
  rewrite R1, Q1, Q2, Q3, Q4. reflexivity.
Qed.
(** With its defaults NonlinearCG can search uphill: f(x) = 9/10 x^2 from 1.  The first step passes
    the line search; the next direction is an ascent direction. *)
Theorem C66_descent_refuted :
  let f := fun x : vec => 9 / 10 * dot x x in let gradf := smul (9 / 5) in let ls := zoom_ls default_zoom f gradf in
  exists x st, ncg_after f gradf ls (default_ncg "polak-ribiere") 1 [1] = Ok (x, st) /\
    strong_wolfe (1 / 10000) (9 / 10) f gradf [1] (smul (-1) (gradf [1])) (c_stepsize st) /\ 0 < dot (gradf x) (c_direction st).
Proof.
  cbv zeta. set (f := fun x : vec => 9 / 10 * dot x x). set (gradf := smul (9 / 5)).
  assert (Hz : zmax default_zoom = 1) by (unfold zmax; simpl; destruct (Req_EM_T 1 0); lra).
  set (d := smul (-1) (gradf [1])).
  assert (Ei : init_stepsize "increase" 1 (1 / 1000000) (6 / 5) 1 = Ok (6 / 5)).
  { unfold init_stepsize. simpl. unfold Rleb. destruct (Rle_dec 1 (1 / 1000000)); [lra|]. f_equal. field. }
  assert (T : Rmin (6 / 5) (zmax default_zoom) = 1) by (rewrite Hz; apply Rmin_right; lra).
  assert (SW : strong_wolfe (1 / 10000) (9 / 10) f gradf [1] d 1).
  { unfold strong_wolfe, f, gradf, d. simpl. split; [lra|]. split; [lra|]. rewrite (Rabs_left1 (9 / 5 * 1 * _ + 0)) by lra. rewrite Rabs_pos_eq by lra. lra. }
  assert (Z : zoom_ls default_zoom f gradf (6 / 5) [1] (f [1]) (gradf [1]) d = {| ls_step := 1; ls_params := vadd [1] (smul 1 d); ls_value := f (vadd [1] (smul 1 d)); ls_grad := gradf (vadd [1] (smul 1 d)); ls_failed := false |}).
  { pose proof (zoom_first_trial default_zoom f gradf (6 / 5) [1] d eq_refl) as Q. cbv zeta in Q. rewrite T in Q. apply Q; [simpl; lia|unfold gradf, d; simpl; lra|exact SW]. }
  eexists. eexists. split.
  - cbn [ncg_after]. unfold ncg_update, ncg_init, run_ls_opt, default_ncg. cbn [c_linesearch c_linesearch_init c_max_stepsize c_min_stepsize c_increase_factor c_stepsize c_method c_value c_grad c_direction].
    rewrite Ei. destruct (string_dec "zoom" "backtracking") as [Hc|_]; [discriminate|].
    match goal with |- context [zoom_ls default_zoom f gradf ?c ?x ?v ?g ?dd] => replace (zoom_ls default_zoom f gradf c x v g dd) with {| ls_step := 1; ls_params := vadd [1] (smul 1 d); ls_value := f (vadd [1] (smul 1 d)); ls_grad := gradf (vadd [1] (smul 1 d)); ls_failed := false |} by (symmetry; exact Z) end.
    cbn [ls_grad ls_params ls_step ls_value].
    unfold ncg_beta. destruct (string_dec "polak-ribiere" "polak-ribiere") as [_|Hc]; [|congruence]. reflexivity.
  - cbn [c_stepsize c_direction]. split; [exact SW|]. unfold d, gradf. simpl.
    rewrite clamp_id by (unfold ncg_eps; lra). unfold relu. rewrite Rmax_left by lra. lra.
Qed.
Print Assumptions C66_descent_refuted.
(** Fletcher-Reeves with the default curvature constant 0.9 can also search uphill: x^2/2 from 1, steps
    0.1 then 1, both within the strong Wolfe conditions (so the 1/2 above is needed). *)
Theorem C66_curvature_refuted : exists xs sts,
  let ls := ladder_ls half_sq ident_grad in
  ls_consistent half_sq ident_grad ls /\ ncg_seq half_sq ident_grad ls (default_ncg "fletcher-reeves") xs sts 2 /\
  (forall k, (k < 2)%nat -> strong_wolfe (1 / 10000) (9 / 10) half_sq ident_grad (xs k) (c_direction (sts k)) (c_stepsize (sts (S k)))) /\
  0 < dot (ident_grad (xs 2%nat)) (c_direction (sts 2%nat)).
Proof.
  set (ls := ladder_ls half_sq ident_grad). set (cfg := default_ncg "fletcher-reeves").
  assert (K1 : known_method (c_method cfg)) by (right; left; reflexivity). assert (K2 : known_init (c_linesearch_init cfg)) by (right; right; reflexivity).
  assert (HC : ls_consistent half_sq ident_grad ls) by (intros s0 x v g d; cbv zeta; unfold ls, ladder_ls; cbn [ls_params ls_step ls_value ls_grad]; auto).
  set (xs := Xof half_sq ident_grad ls cfg [1]). set (sts := Sof half_sq ident_grad ls cfg [1]).
  assert (Hrun : forall k, ncg_after half_sq ident_grad ls cfg k [1] = Ok (xs k, sts k)) by (intros k; apply Xof_run; assumption).
  assert (S0 : sts 0%nat = ncg_init half_sq ident_grad cfg [1]) by reflexivity. assert (X0 : xs 0%nat = [1]) by reflexivity.
  assert (HU : forall k, ncg_update ls cfg (xs k, sts k) = Ok (xs (S k), sts (S k))) by (intros k; pose proof (Hrun (S k)) as Q; cbn [ncg_after] in Q; rewrite Hrun in Q; exact Q).
  assert (St : forall k x d, xs k = [x] -> c_grad (sts k) = [x] -> c_direction (sts k) = [d] -> 1 / 1000 <= x * x ->
    let t := if Rleb 1 x then 1 / 10 else 1 in let x' := x + t * d in
    c_stepsize (sts (S k)) = t /\ xs (S k) = [x'] /\ c_grad (sts (S k)) = [x'] /\ c_direction (sts (S k)) = [- x' + x' * x' / (x * x) * d]).
  { intros k x d Ex Eg Ed Hx. cbv zeta. destruct (update_inv ls cfg _ _ _ _ (HU k)) as (s0 & beta & dd & Edd & _ & Eb & Exx & Est).
    simpl in Edd. rewrite Edd, Ex, Eg, Ed in *. unfold ls, ladder_ls in *. cbn [ls_grad ls_params ls_step ls_value nth] in *. set (t := if Rleb 1 x then 1 / 10 else 1) in *.
    rewrite Est, Exx. cbn [c_stepsize c_grad c_direction]. split; [reflexivity|]. unfold ident_grad in *. cbn [vadd smul map] in *. simpl in Eb. injection Eb as <-.
    rewrite !Rplus_0_r. rewrite clamp_id by (unfold ncg_eps; lra). rewrite relu_id by (apply Rmult_le_pos; [apply Rle_0_sqr|left; apply Rinv_0_lt_compat; lra]).
    split; [reflexivity|]. split; [reflexivity|]. f_equal. ring. }
  assert (T0 : Rleb 1 1 = true) by (unfold Rleb; destruct (Rle_dec 1 1); [reflexivity|lra]).
  destruct (St 0%nat 1 (-1)) as (A1 & A2 & A3 & A4); [exact X0|rewrite S0; reflexivity|rewrite S0; cbn; f_equal; unfold ident_grad; ring|lra|]. rewrite T0 in A1, A2, A3, A4.
  assert (A2' : xs 1%nat = [9 / 10]) by (rewrite A2; f_equal; lra). assert (A3' : c_grad (sts 1%nat) = [9 / 10]) by (rewrite A3; f_equal; lra).
  assert (A4' : c_direction (sts 1%nat) = [- (171 / 100)]) by (rewrite A4; f_equal; field).
  assert (T1 : Rleb 1 (9 / 10) = false) by (unfold Rleb; destruct (Rle_dec 1 (9 / 10)); [lra|reflexivity]).
  destruct (St 1%nat (9 / 10) (- (171 / 100)) A2' A3' A4' ltac:(lra)) as (B1 & B2 & B3 & B4). rewrite T1 in B1, B2, B3, B4.
  exists xs, sts. cbv zeta. split; [exact HC|]. split; [intros k _; rewrite X0; apply Hrun|]. split.
  - intros k Hk. destruct k as [|[|]]; [| |lia].
    + rewrite X0, S0, A1. unfold strong_wolfe, half_sq, ident_grad. simpl. split; [lra|]. split; [lra|]. rewrite !Rabs_left1 by lra. lra.
    + rewrite A2', A4', B1. unfold strong_wolfe, half_sq, ident_grad. simpl. split; [lra|]. split; [lra|]. rewrite (Rabs_pos_eq (_ + 0)) by lra. rewrite Rabs_left1 by lra. lra.
  - rewrite B2, B4. unfold ident_grad. simpl. lra.
Qed.
Print Assumptions C66_curvature_refuted.

(** Non-vacuity: the exact line search on a quadratic. *)
Example C66_example : let Q := [[2; 1]; [1; 2]] in let b := [1; 0] in let f := fun x => 1 / 2 * dot x (mvec Q x) - dot b x in
  lipschitz_gradient 2 3 (quad_grad Q b) /\ ls_consistent_pos f (quad_grad Q b) (exact_ls f Q b) /\
  strong_wolfe_search 2 (1 / 4) (1 / 4) f (quad_grad Q b) (exact_ls f Q b) /\ (forall x, length x = 2%nat -> - (1 / 3) <= f x) /\
  exists N, forall maxiter, (N <= maxiter)%nat -> exists x st y,
    ncg_run f (quad_grad Q b) (exact_ls f Q b) (default_ncg "fletcher-reeves") maxiter [1; 1] = Ok (x, st) /\
    c_error st = Fin (norm2 (quad_grad Q b y)) /\ norm2 (quad_grad Q b y) <= 1 / 1000.
Proof.
  cbv zeta. set (Q := [[2; 1]; [1; 2]]). set (b := [1; 0]). set (f := fun x => 1 / 2 * dot x (mvec Q x) - dot b x).
  assert (A : lipschitz_gradient 2 3 (quad_grad Q b)).
  { split; [lra|]. split.
    - intros x Hx. unfold quad_grad. rewrite vsub_length, mvec_length. simpl. reflexivity.
    - intros x z Hx Hz. destruct x as [|x1 [|x2 [|]]]; try discriminate. destruct z as [|z1 [|z2 [|]]]; try discriminate. unfold quad_grad, dist2, sqnorm, Q, b. simpl.
      set (p := z1 - x1). set (q := z2 - x2). pose proof (Rle_0_sqr (p - q)) as S. unfold Rsqr in S.
      match goal with |- ?l <= ?r => replace l with (5 * (p * p) + 8 * (p * q) + 5 * (q * q)) by (unfold p, q; ring); replace r with (9 * (p * p) + 9 * (q * q)) by (unfold p, q; ring) end. lra. }
  assert (B : ls_consistent_pos f (quad_grad Q b) (exact_ls f Q b)) by (intros s0 x v g d _; cbv zeta; unfold exact_ls; cbn [ls_params ls_step ls_value ls_grad]; auto).
  assert (C : strong_wolfe_search 2 (1 / 4) (1 / 4) f (quad_grad Q b) (exact_ls f Q b)).
  { intros s0 x d _ Hx Hd Hs. unfold exact_ls. cbn [ls_step]. set (p := dot (quad_grad Q b x) d) in *. set (q := dot d (mvec Q d)).
    assert (Hq : 0 < q).
    { destruct d as [|d1 [|d2 [|]]]; try discriminate. unfold q, Q. simpl. destruct (Req_dec (d1 * d1 + d2 * d2) 0) as [Z|Z].
      - assert (d1 = 0) by nra. assert (d2 = 0) by nra. subst. exfalso. unfold p in Hs. destruct x as [|x1 [|x2 [|]]]; try discriminate. unfold quad_grad, Q, b in Hs. simpl in Hs. lra.
      - nra. }
    assert (T : 0 < - p / q) by (apply Rdiv_lt_0_compat; lra).
    assert (E1 : forall t, f (vadd x (smul t d)) = f x + t * p + 1 / 2 * t * t * q).
    { intros t. unfold f, p, q. destruct d as [|d1 [|d2 [|]]]; try discriminate. destruct x as [|x1 [|x2 [|]]]; try discriminate. unfold quad_grad, Q, b. simpl. field. }
    assert (E2 : forall t, dot (quad_grad Q b (vadd x (smul t d))) d = p + t * q).
    { intros t. unfold p, q. destruct d as [|d1 [|d2 [|]]]; try discriminate. destruct x as [|x1 [|x2 [|]]]; try discriminate. unfold quad_grad, Q, b. simpl. field. }
    unfold strong_wolfe. cbv zeta. split; [exact T|]. rewrite E1, E2. split.
    - fold p. replace (f x + - p / q * p + 1 / 2 * (- p / q) * (- p / q) * q) with (f x + 1 / 2 * (- p / q) * p) by (field; lra).
      assert (0 <= - p / q * - p) by (apply Rmult_le_pos; lra). lra.
    - replace (p + - p / q * q) with 0 by (field; lra). rewrite Rabs_R0. pose proof (Rabs_pos (dot (quad_grad Q b x) d)). lra. }
  assert (D : forall x, length x = 2%nat -> - (1 / 3) <= f x).
  { intros x Hx. destruct x as [|x1 [|x2 [|]]]; try discriminate. unfold f, Q, b. simpl. pose proof (Rle_0_sqr (x2 + x1 / 2)) as S1. pose proof (Rle_0_sqr (x1 - 2 / 3)) as S2. unfold Rsqr in *. lra. }
  split; [exact A|]. split; [exact B|]. split; [exact C|]. split; [exact D|].
  apply (C66_fr_converges 2 3 (1 / 4) (1 / 4) f (quad_grad Q b) (exact_ls f Q b) (default_ncg "fletcher-reeves") (- (1 / 3)) [1; 1] A B); try (simpl; lra); try exact C; try exact D; try reflexivity; [discriminate|right; right; reflexivity].
Qed.
