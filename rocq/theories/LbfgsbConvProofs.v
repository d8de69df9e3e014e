(** Global convergence of L-BFGS-B: one iteration and the run. *)
From Coq Require Import String.
From Coq Require Import Reals List Lra Lia Bool Arith Psatz.
From Verif Require Import Prelude Base Vec Mat XArith LinAlg Loss LossProofs Run QuasiNewton QuasiNewtonProofs Convergence ConvergenceProofs ConvergenceRuns.
From Verif Require Import Lbfgsb LbfgsbHess LbfgsbCauchy LbfgsbProofs LbfgsbTheorems LbfgsbConvergence LbfgsbConvHess LbfgsbConvPath LbfgsbConvSteps.
Import ListNotations.
Open Scope R_scope.

Lemma hess_inverse_mono mu L a b m : 0 < mu <= L -> 0 < a <= b -> hess_inverse mu L b m <= hess_inverse mu L a m.
Proof.
  intros H T. induction m as [|m IH]; cbn [hess_inverse]; [apply Rinv_le_contravar; lra|].
  assert (0 < L / mu) by (apply Rdiv_lt_0_compat; lra). apply Rplus_le_compat_r, Rmult_le_compat_l; [lra|exact IH].
Qed.

Lemma nth_set_other {T} (l : list T) i j v d : j <> i -> nth j (set_nth l i v) d = nth j l d.
Proof. revert i j. induction l as [|a l IH]; intros [|i] [|j] N; cbn; try reflexivity; try lia. apply IH. lia. Qed.
Lemma nth_le_norm2 (v : vec) i : Rabs (nth i v 0) <= norm2 v.
Proof.
  destruct (Nat.lt_ge_cases i (length v)) as [H|H]; [|rewrite nth_overflow by exact H; rewrite Rabs_R0; apply norm2_nonneg].
  assert (Q : nth i v 0 * nth i v 0 <= dot v v).
  { revert i H. induction v as [|a v IH]; intros [|i] H; cbn in H |- *; try lia; pose proof (dot_self_nonneg v) as N; unfold dot in *; [nra|]. specialize (IH i ltac:(lia)). nra. }
  pose proof (norm2_sq v) as N2. pose proof (norm2_nonneg v). destruct (Rle_lt_dec (Rabs (nth i v 0)) (norm2 v)); [assumption|].
  assert (Rabs (nth i v 0) * Rabs (nth i v 0) = nth i v 0 * nth i v 0) by (rewrite <- Rabs_mult; apply Rabs_right; nra). nra.
Qed.

(** ** The pairs of a run *)
Definition pair_bounds (mu L : R) (p : vec * vec) : Prop :=
  mu * dot (fst p) (fst p) <= dot (fst p) (snd p) /\ dot (snd p) (snd p) <= L * dot (fst p) (snd p).
Lemma push_slots n h (Q : vec * vec -> Prop) pairs : (0 < h)%nat -> Forall Q pairs ->
  let '(sh, yh, k) := push_pairs n h pairs in forall i, (i < h)%nat -> (i < k)%nat -> Q (s_at sh i, y_at yh i).
Proof.
  intros Hh F. unfold push_pairs.
  assert (X : forall st, (let '(sh, yh, k) := st in length sh = h /\ length yh = h /\ forall i, (i < h)%nat -> (i < k)%nat -> Q (s_at sh i, y_at yh i)) ->
    let '(sh, yh, k) := fold_left (fun st (p : vec * vec) => let '(sh, yh, k) := st in (set_nth sh (k mod h)%nat (fst p), set_nth yh (k mod h)%nat (snd p), (k + 1)%nat)) pairs st in
    length sh = h /\ length yh = h /\ forall i, (i < h)%nat -> (i < k)%nat -> Q (s_at sh i, y_at yh i)).
  { induction F as [|p l Hp F IH]; intros [[sh yh] k] (L1 & L2 & P); cbn [fold_left]; [auto|]. apply IH.
    assert (Km : (k mod h < h)%nat) by (apply Nat.mod_upper_bound; lia).
    split; [rewrite set_nth_length; exact L1|]. split; [rewrite set_nth_length; exact L2|]. intros i Hi Ki. unfold s_at, y_at.
    destruct (Nat.eq_dec i (k mod h)) as [->|N].
    - rewrite !nth_set_same by lia. destruct p; exact Hp.
    - rewrite !nth_set_other by exact N. apply P; [exact Hi|]. destruct (Nat.eq_dec i k) as [->|N2]; [|lia]. rewrite Nat.mod_small in N by exact Hi. lia. }
  specialize (X (repeat (vzero n) h, repeat (vzero n) h, 0%nat)). cbv beta iota in X.
  specialize (X (conj (repeat_length _ _) (conj (repeat_length _ _) (fun i _ Ki => False_ind _ (Nat.nlt_0_r i Ki))))).
  destruct (fold_left _ pairs _) as [[sh yh] k]. apply X.
Qed.
Lemma step_pairs_bounds n mu L f gradf (xs : nat -> vec) N : strongly_convex_smooth n mu L f gradf -> (forall k, (k <= N)%nat -> length (xs k) = n) ->
  Forall (fun p => pair_bounds mu L p /\ 0 < dot (snd p) (fst p)) (step_pairs gradf xs N).
Proof.
  intros HF Hl. unfold step_pairs. apply Forall_forall. intros p Hp. apply filter_In in Hp. destruct Hp as [Hp C].
  apply in_map_iff in Hp. destruct Hp as (k & <- & Hk). apply in_seq in Hk.
  unfold curved in C. cbn [fst snd] in *. destruct (Rlt_dec _ _) as [C'|]; [|discriminate]. unfold pair_bounds. cbn [fst snd].
  assert (A := ssc_monotone n mu L f gradf HF (xs k) (xs (S k)) (Hl k ltac:(lia)) (Hl (S k) ltac:(lia))).
  assert (B := ssc_cocoercive n mu L f gradf HF (xs k) (xs (S k)) (Hl k ltac:(lia)) (Hl (S k) ltac:(lia))). cbv zeta in A, B.
  rewrite (dot_comm (vsub (xs (S k)) (xs k)) (vsub (gradf (xs (S k))) (gradf (xs k)))). split; [split; assumption|exact C'].
Qed.
Lemma last_scale_bounds mu L ug pairs : 0 < mu <= L -> Forall (fun p => pair_bounds mu L p /\ 0 < dot (snd p) (fst p)) pairs ->
  Rmin 1 mu <= last_scale ug pairs <= Rmax 1 L.
Proof.
  intros HmL F. unfold last_scale. assert (O : Rmin 1 mu <= 1 <= Rmax 1 L) by (split; [apply Rmin_l|apply Rmax_l]).
  destruct (rev pairs) as [|[s y] l] eqn:E; [exact O|]. destruct ug; [|exact O].
  assert (I : In (s, y) pairs) by (apply in_rev; rewrite E; left; reflexivity). rewrite Forall_forall in F. destruct (F _ I) as [[P1 P2] P3]. cbn [fst snd] in *.
  rewrite (dot_comm s y) in P1, P2. pose proof (cauchy_schwarz_sq s y) as CS. rewrite (dot_comm s y) in CS.
  set (c := dot y s) in *. set (yy := dot y y) in *. set (ss := dot s s) in *. assert (0 <= yy) by apply dot_self_nonneg.
  assert (A : mu * c <= yy).
  { apply (Rmult_le_reg_r c); [exact P3|]. apply Rle_trans with (mu * (ss * yy)); [nra|]. replace (mu * (ss * yy)) with (yy * (mu * ss)) by ring. apply Rmult_le_compat_l; assumption. }
  split.
  - eapply Rle_trans; [apply Rmin_r|]. apply (Rmult_le_reg_r c); [exact P3|]. unfold Rdiv. rewrite Rmult_assoc, Rinv_l by lra. lra.
  - eapply Rle_trans; [|apply Rmax_r]. apply (Rmult_le_reg_r c); [exact P3|]. unfold Rdiv. rewrite Rmult_assoc, Rinv_l by lra. lra.
Qed.

(** ** The gap and the projected slope *)
Lemma clip_vi y l u a z : xle l (Fin a) = true -> xle (Fin a) u = true -> xle l (Fin z) = true -> xle (Fin z) u = true ->
  (y - clip_real y l u) * (z - clip_real y l u) <= 0.
Proof.
  intros H1 H2 H3 H4. unfold clip_real. destruct l as [l| | |]; try discriminate H1; destruct u as [u| | |]; try discriminate H2; rewrite ?xle_fin in *;
  unfold Rmax, Rmin; repeat destruct (Rle_dec _ _); nra.
Qed.
Section Gap.
Variables (n : nat) (mu L : R) (f : vec -> R) (gradf : vec -> vec).
Hypothesis HF : strongly_convex_smooth n mu L f gradf.
Variables (lower upper : xbounds) (x : vec).
Hypothesis Hx : length x = n.
Hypothesis B : in_bounds lower upper x.
Let g := gradf x.
Let p := vsub (path x g lower upper 1) x.
Let D := projected_slope lower upper x g.
Let HmL : 0 < mu <= L. Proof. destruct HF as (A & _); exact A. Qed.
Let Lg : length g = length x. Proof. destruct HF as (_ & A & _). rewrite Hx. apply A, Hx. Qed.
Lemma slope_sq : dot p p <= D.
Proof. pose proof (d_sq x g lower upper Lg B 1 Rle_0_1) as A. cbv beta in A. unfold D, projected_slope, p. lra. Qed.
Lemma slope_nonneg : 0 <= D.
Proof. pose proof slope_sq. pose proof (dot_self_nonneg p). lra. Qed.
Let Lp : length p = n. Proof. unfold p. rewrite <- Hx. apply (d_len x g lower upper Lg 1). Qed.
Lemma path_vi z : length z = n -> in_bounds lower upper z -> 0 <= dot (vadd g p) (vsub (vsub z x) p).
Proof.
  intros Hz Bz. assert (Lgn : length g = n) by (rewrite Lg; exact Hx). pose proof Lp as Lpn.
  rewrite (dot_sumn n) by (rewrite ?vadd_length, ?vsub_length; unfold vec in *; lia).
  apply sumn_nonneg. intros i Hi. rewrite nth_vadd, !nth_vsub. unfold p. rewrite (d_nth x g lower upper 1 i ltac:(lia)).
  destruct (B i ltac:(lia)) as [B1 B2]. destruct (Bz i ltac:(lia)) as [B3 B4].
  pose proof (clip_vi (nth i x 0 - 1 * nth i g 0) _ _ _ _ B1 B2 B3 B4) as V. nra.
Qed.
Lemma gap_slope z : length z = n -> in_bounds lower upper z -> f x - f z <= (1 + / (2 * mu)) * D.
Proof.
  intros Hz Bz. pose proof (path_vi z Hz Bz) as V. pose proof slope_sq as S1. destruct HF as (_ & _ & A). destruct (A x z Hx Hz) as [A1 _].
  unfold dist2, sqnorm in A1. fold g in A1. set (w := vsub z x) in *. rewrite dot_vadd_l, !dot_vsub_r in V.
  assert (Gp : dot g p = - D) by (unfold D, projected_slope, p; ring). rewrite Gp in V.
  assert (Y : dot p w <= mu / 2 * dot w w + / (2 * mu) * dot p p).
  { pose proof (dot_self_nonneg (vsub (smul mu w) p)) as N. autorewrite with vec in N. rewrite (dot_comm w p) in N.
    apply (Rmult_le_reg_l (2 * mu)); [lra|]. replace (2 * mu * (mu / 2 * dot w w + / (2 * mu) * dot p p)) with (mu * mu * dot w w + dot p p) by (field; lra). lra. }
  assert (I0 : 0 < / (2 * mu)) by (apply Rinv_0_lt_compat; lra).
  assert (/ (2 * mu) * dot p p <= / (2 * mu) * D) by (apply Rmult_le_compat_l; lra). pose proof (dot_self_nonneg p). lra.
Qed.
Lemma path1_in : in_bounds lower upper (vadd x p).
Proof.
  replace (vadd x p) with (path x g lower upper 1).
  - intros i Hi. rewrite path_len in Hi. unfold path. rewrite nth_tab by exact Hi. destruct (B i Hi) as [B1 B2]. apply (clip_real_in _ _ _ _ B1 B2).
  - apply (nth_ext _ _ 0 0); [rewrite vadd_length, path_len, Lp; lia|]. intros i Hi. rewrite nth_vadd. unfold p. rewrite nth_vsub. ring.
Qed.
Lemma slope_gap z : box_minimiser lower upper n f z -> D <= 2 * Rmax 1 L * (f x - f z).
Proof.
  intros (Hz & Bz & Min). set (K := Rmax 1 L). assert (K1 : 1 <= K) by apply Rmax_l. assert (KL : L <= K) by apply Rmax_r.
  set (t := / K). assert (T : t * K = 1) by (unfold t; field; lra). assert (T0 : 0 < t) by (apply Rinv_0_lt_compat; lra). assert (T1 : t <= 1) by nra.
  assert (Bt := box_convex lower upper x p t ltac:(rewrite Lp, Hx; reflexivity) B path1_in ltac:(lra)).
  assert (Lt : length (vadd x (smul t p)) = n) by (rewrite vadd_length, smul_length, Lp; lia).
  pose proof (Min _ Lt Bt) as M1. destruct HF as (_ & _ & A). destruct (A x _ Hx Lt) as [_ A2].
  assert (E1 : dot (gradf x) (vsub (vadd x (smul t p)) x) = t * dot g p) by (unfold g; vring).
  assert (E2 : dist2 (vadd x (smul t p)) x = t * t * dot p p) by vring. rewrite E1, E2 in A2.
  assert (Gp : dot g p = - D) by (unfold D, projected_slope, p; ring). rewrite Gp in A2. pose proof slope_sq as S1. pose proof slope_nonneg as S0. pose proof (dot_self_nonneg p) as P0.
  assert (X : L / 2 * (t * t * dot p p) <= t / 2 * D).
  { apply Rle_trans with (K / 2 * (t * t * dot p p)); [apply Rmult_le_compat_r; [repeat apply Rmult_le_pos; lra|lra]|].
    replace (K / 2 * (t * t * dot p p)) with (t * K * (t / 2) * dot p p) by field. rewrite T. rewrite Rmult_1_l. apply Rmult_le_compat_l; lra. }
  assert (Y : t / 2 * D <= f x - f z) by lra. replace D with (2 * K * (t / 2 * D)) by (transitivity (t * K * D); [field|rewrite T; ring]). apply Rmult_le_compat_l; lra.
Qed.
(** the error is at most the square root of the slope *)
Lemma error_slope e : get_error x g lower upper = Fin e -> 0 <= e /\ e * e <= D.
Proof.
  intros E. rewrite (error_eq lower upper x g B) in E. injection E as <-. split; [apply maxabs_nonneg|]. pose proof slope_sq as S1.
  assert (Q : maxabs (pstep lower upper x g) <= norm2 p).
  { apply maxabs_le; [apply norm2_nonneg|]. intros i Hi.
    apply nth_le_norm2. }
  pose proof (maxabs_nonneg (pstep lower upper x g)). pose proof (norm2_sq p). nra.
Qed.
(** one step of a decreasing search *)
Lemma step_gap M c1 floor d t : 0 < M -> 0 < c1 -> 0 < floor -> length d = n -> D / (2 * (M + 1)) <= - dot g d -> 0 <= t -> (dot g d <> 0 -> floor <= t) ->
  f (vadd x (smul t d)) <= f x + c1 * t * dot g d -> forall z, length z = n -> in_bounds lower upper z ->
  f (vadd x (smul t d)) - f z <= box_gap_factor mu c1 floor M * (f x - f z).
Proof.
  intros HM Hc Hf Ld Hd Ht Hfl Hdec z Hz Bz. pose proof (gap_slope z Hz Bz) as G1. pose proof slope_nonneg as S0.
  unfold box_gap_factor. set (k1 := 1 + / (2 * mu)) in *. assert (K1 : 0 < k1) by (unfold k1; assert (0 < / (2 * mu)) by (apply Rinv_0_lt_compat; lra); lra).
  assert (Q : c1 * floor * - dot g d <= c1 * t * - dot g d).
  { destruct (Req_dec (dot g d) 0) as [E|E]; [rewrite E; lra|]. specialize (Hfl E).
    assert (0 <= D / (2 * (M + 1))) by (apply Rmult_le_pos; [exact S0|apply Rlt_le, Rinv_0_lt_compat; lra]).
    apply Rmult_le_compat_r; [lra|]. apply Rmult_le_compat_l; lra. }
  assert (CF : 0 < c1 * floor) by (apply Rmult_lt_0_compat; assumption).
  assert (Q2 : c1 * floor * (D / (2 * (M + 1))) <= c1 * floor * - dot g d) by (apply Rmult_le_compat_l; lra).
  assert (Q3 : c1 * floor / (2 * (M + 1) * k1) * (f x - f z) <= c1 * floor * (D / (2 * (M + 1)))).
  { replace (c1 * floor * (D / (2 * (M + 1)))) with (c1 * floor / (2 * (M + 1) * k1) * (k1 * D)) by (field; lra).
    apply Rmult_le_compat_l; [|exact G1]. apply Rlt_le, Rdiv_lt_0_compat; [exact CF|]. apply Rmult_lt_0_compat; lra. }
  lra.
Qed.
End Gap.
