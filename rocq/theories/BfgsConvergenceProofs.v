From Coq Require Import String.
From Coq Require Import Reals List Lra Lia Bool Arith Psatz.
From Verif Require Import Prelude Vec Mat Zoom Loss Backtracking Run QuasiNewton QuasiNewtonProofs Convergence ConvergenceProofs Pivots HessianApprox BfgsConvergence.
Import ListNotations.
Open Scope R_scope.

(** ** Logarithms *)
Lemma ln_le_tangent a x : 0 < a -> 0 < x -> ln x <= ln a + x / a - 1.
Proof.
  intros Ha Hx. assert (P : 0 < x / a) by (apply Rdiv_lt_0_compat; assumption).
  pose proof (exp_ineq1_le (ln (x / a))) as E. rewrite exp_ln in E by exact P. unfold Rdiv in E at 1. rewrite ln_mult, ln_Rinv in E; [lra|assumption|assumption|apply Rinv_0_lt_compat; exact Ha].
Qed.
Lemma ln_lower c x : 0 < c -> 0 < x -> c * (1 + ln x - ln c) <= x.
Proof.
  intros Hc Hx. pose proof (ln_le_tangent c x Hc Hx) as E. assert (1 + ln x - ln c <= x / c) by lra.
  replace x with (c * (x / c)) at 2 by (field; lra). apply Rmult_le_compat_l; lra.
Qed.
Lemma ln_le_self x : 0 < x -> ln x <= x.
Proof. intros Hx. pose proof (ln_le_tangent 1 x Rlt_0_1 Hx) as E. rewrite ln_1 in E. unfold Rdiv in E. rewrite Rinv_1 in E. lra. Qed.
Lemma ln_pow_le n x y : 0 < x -> x <= y ^ n -> 0 <= y -> (0 < n)%nat -> ln x <= INR n * y.
Proof.
  intros Hx Hle Hy Hn. assert (Yp : 0 < y).
  { destruct (Rle_lt_or_eq_dec 0 y Hy) as [P|<-]; [exact P|]. rewrite pow_i in Hle by exact Hn. lra. }
  assert (E : ln x <= ln (y ^ n)).
  { destruct (Rle_lt_or_eq_dec _ _ Hle) as [P|P]; [left; apply ln_increasing; assumption|rewrite P; lra]. }
  assert (E2 : ln (y ^ n) = INR n * ln y).
  { clear - Yp. induction n as [|n IH]; [simpl; rewrite ln_1; ring|]. rewrite S_INR. simpl pow. rewrite ln_mult, IH; [ring|exact Yp|apply pow_lt; exact Yp]. }
  rewrite E2 in E. pose proof (ln_le_self y Yp). assert (INR n * ln y <= INR n * y) by (apply Rmult_le_compat_l; [apply pos_INR|exact H]). lra.
Qed.
Fixpoint rsum (k : nat) (u : nat -> R) : R := match k with O => 0 | S j => rsum j u + u j end.
Lemma rsum_le k u v : (forall j, (j < k)%nat -> u j <= v j) -> rsum k u <= rsum k v.
Proof. induction k as [|k IH]; intros H; simpl; [lra|]. apply Rplus_le_compat; [apply IH; intros j Hj; apply H; lia|apply H; lia]. Qed.
Lemma rsum_plus k u v : rsum k (fun j => u j + v j) = rsum k u + rsum k v.
Proof. induction k as [|k IH]; simpl; [ring|]. rewrite IH. ring. Qed.
Lemma rsum_scal k a u : rsum k (fun j => a * u j) = a * rsum k u.
Proof. induction k as [|k IH]; simpl; [ring|]. rewrite IH. ring. Qed.
Lemma rsum_const k a : rsum k (fun _ => a) = INR k * a.
Proof. induction k as [|k IH]; [simpl; ring|]. cbn [rsum]. rewrite IH, S_INR. ring. Qed.

(** ** One iteration *)
Section Step.
Variables (n : nat) (mu L : R) (f : vec -> R) (gradf : vec -> vec).
Hypothesis HF : strongly_convex_smooth n mu L f gradf.
Let HmuL : 0 < mu <= L. Proof. destruct HF as (A & _); exact A. Qed.
Let Hdim : grad_dim n gradf. Proof. destruct HF as (_ & A & _); exact A. Qed.
Variables (B H : mat) (x : vec) (t : R).
Hypothesis HB : mat_shape n n B.
Hypothesis SB : symmetric n B.
Hypothesis PB : pos_def n B.
Hypothesis HH : mat_shape n n H.
Hypothesis Inv : forall v, length v = n -> mvec B (mvec H v) = v.
Hypothesis Hx : length x = n.
Hypothesis Hg : gradf x <> vzero n.
Hypothesis Ht : 0 < t.
Let g := gradf x.
Let d := smul (-1) (mvec H g).
Let z := vadd x (smul t d).
Let q := dot g (mvec H g).
Definition xi_of : R := dot (gradf x) (gradf x) / dot (gradf x) (mvec H (gradf x)).
Let s := vsub z x.
Let y := vsub (gradf z) g.

Let Lg : length g = n. Proof. apply Hdim. exact Hx. Qed.
Let Lh : length (mvec H g) = n. Proof. rewrite mvec_length. apply HH. Qed.
Let Ld : length d = n. Proof. unfold d. rewrite smul_length. exact Lh. Qed.
Let Lz : length z = n. Proof. apply vadd_smul_length; assumption. Qed.
Lemma bstep_q : 0 < q.
Proof.
  unfold q. pose proof (Inv g Lg) as E. rewrite <- E at 1. rewrite dot_comm. apply PB; [exact Lh|].
  intros Z. apply Hg. fold g. rewrite <- E, Z, mvec_vzero. destruct HB as [-> _]. reflexivity.
Qed.
Lemma bstep_gg : 0 < dot g g.
Proof.
  pose proof (dot_self_nonneg g) as P. destruct (Req_dec (dot g g) 0) as [Z|Z]; [|lra]. exfalso. apply Hg.
  pose proof (dot_self_zero g Z) as E. rewrite Lg in E. exact E.
Qed.
Lemma bstep_xi : 0 < xi_of.
Proof. unfold xi_of. fold g. fold q. apply Rdiv_lt_0_compat; [apply bstep_gg|apply bstep_q]. Qed.
Lemma bstep_slope : dot g d = - q. Proof. unfold d, q. rewrite dot_smul_r. ring. Qed.
Lemma bstep_s : s = smul t d.
Proof. apply vec_eq_dot; [unfold s; unfold vec in *; rewrite (vsub_len n), smul_length by assumption; lia|]. intros w. unfold s, z. vring. Qed.
Lemma bstep_bs : mvec B s = smul (- t) g.
Proof. rewrite bstep_s. unfold d. rewrite !mvec_smul, (Inv g Lg), smul_smul. f_equal. ring. Qed.
Lemma bstep_sbs : dot s (mvec B s) = t * t * q.
Proof. rewrite bstep_bs, bstep_s, dot_smul_r, dot_smul_l, (dot_comm d g), bstep_slope. ring. Qed.
(** |d|^2 / q >= 1 / xi *)
Lemma bstep_dd : q * q <= dot g g * dot d d.
Proof. pose proof (cauchy_schwarz_sq g d) as CS. rewrite bstep_slope in CS. lra. Qed.
Lemma bstep_d0 : 0 < dot d d.
Proof. pose proof bstep_dd. pose proof bstep_q. pose proof bstep_gg. pose proof (dot_self_nonneg d). destruct (Req_dec (dot d d) 0) as [Z|Z]; [rewrite Z in *; nra|lra]. Qed.
Lemma bstep_ys : mu * (t * t * dot d d) <= dot y s.
Proof.
  pose proof (ssc_monotone n mu L f gradf HF x z Hx Lz) as M. cbv zeta in M. fold g in M. fold y s in M.
  replace (dot s s) with (t * t * dot d d) in M by (rewrite bstep_s, dot_smul_l, dot_smul_r; ring). exact M.
Qed.
Lemma bstep_ys0 : 0 < dot y s.
Proof. pose proof bstep_ys. pose proof bstep_d0. assert (0 < mu * (t * t * dot d d)) by (apply Rmult_lt_0_compat; [lra|]; apply Rmult_lt_0_compat; nra). lra. Qed.

Lemma bstep_ratio c1 c2 tmin df : c1 < 1 -> c2 < 1 -> 0 < tmin -> 0 < df -> sufficient_step c1 c2 tmin df f gradf x d t ->
  bfgs_progress mu L c1 c2 tmin df / (t * (1 + xi_of)) <= dot y s / (t * t * q).
Proof.
  intros Hc1 Hc2 Htm Hdf (_ & _ & C). pose proof bstep_q as Q0. pose proof bstep_gg as G0. pose proof bstep_xi as X0. pose proof bstep_ys as Y1. pose proof bstep_dd as D1. pose proof bstep_d0 as D0.
  set (a := bfgs_progress mu L c1 c2 tmin df).
  assert (A1 : a <= 1 - c2) by apply Rmin_l.
  assert (A2 : a <= tmin * mu) by (eapply Rle_trans; [apply Rmin_r|apply Rmin_l]).
  assert (A3 : a <= 2 * mu * df * (1 - c1) / L) by (eapply Rle_trans; [apply Rmin_r|apply Rmin_r]).
  assert (T2 : 0 < t * t * q) by (apply Rmult_lt_0_compat; nra).
  assert (T1 : 0 < t * (1 + xi_of)) by (apply Rmult_lt_0_compat; lra).
  apply (Rmult_le_reg_r (t * t * q)); [exact T2|]. replace (dot y s / (t * t * q) * (t * t * q)) with (dot y s) by (field; lra).
  assert (W : forall b, a <= b -> 0 < b -> b * (t * q) <= dot y s -> a / (t * (1 + xi_of)) * (t * t * q) <= dot y s).
  { intros b Hab Hb Hle. replace (a / (t * (1 + xi_of)) * (t * t * q)) with (a * (t * q) / (1 + xi_of)) by (field; lra).
    apply (Rmult_le_reg_r (1 + xi_of)); [lra|]. replace (a * (t * q) / (1 + xi_of) * (1 + xi_of)) with (a * (t * q)) by (field; lra).
    assert (a * (t * q) <= b * (t * q)) by (apply Rmult_le_compat_r; [nra|exact Hab]).
    assert (0 <= dot y s * xi_of) by (apply Rmult_le_pos; [pose proof bstep_ys0|]; lra). lra. }
  destruct C as [C|[C|C]].
  - apply (W (1 - c2) A1); [lra|]. rewrite bstep_s, dot_smul_r. fold z in C. fold g in C. rewrite bstep_slope in C.
    assert (Ey : dot y d = dot (gradf z) d - dot g d) by (unfold y; vring). rewrite Ey, bstep_slope.
    replace ((1 - c2) * (t * q)) with (t * ((1 - c2) * q)) by ring. apply Rmult_le_compat_l; lra.
  - (* mu t^2 |d|^2 >= mu t^2 q / xi *)
    assert (E : q / xi_of <= dot d d).
    { unfold xi_of. fold g. fold q. apply (Rmult_le_reg_r (dot g g)); [exact G0|]. replace (q / (dot g g / q) * dot g g) with (q * q) by (field; lra). lra. }
    assert (F : mu * (t * t * (q / xi_of)) <= dot y s).
    { eapply Rle_trans; [|exact Y1]. apply Rmult_le_compat_l; [lra|]. apply Rmult_le_compat_l; [nra|exact E]. }
    eapply Rle_trans; [|exact F]. replace (a / (t * (1 + xi_of)) * (t * t * q)) with (a * (t * q * / (1 + xi_of))) by (field; lra).
    replace (mu * (t * t * (q / xi_of))) with (t * mu * (t * q * / xi_of)) by (field; lra).
    assert (I : / (1 + xi_of) <= / xi_of) by (apply Rinv_le_contravar; lra).
    assert (I0 : 0 < / (1 + xi_of)) by (apply Rinv_0_lt_compat; lra).
    assert (TQ : 0 < t * q) by nra.
    assert (t * q * / (1 + xi_of) <= t * q * / xi_of) by (apply Rmult_le_compat_l; lra).
    assert (0 <= t * q * / (1 + xi_of)) by (apply Rmult_le_pos; lra).
    assert (a <= t * mu) by (eapply Rle_trans; [exact A2|]; apply Rmult_le_compat_r; lra).
    eapply Rle_trans; [apply Rmult_le_compat_r; [exact H1|exact H2]|]. apply Rmult_le_compat_l; [nra|exact H0].
  - apply (W (2 * mu * df * (1 - c1) / L) A3).
    + apply Rdiv_lt_0_compat; [|lra]. apply Rmult_lt_0_compat; [|lra]. apply Rmult_lt_0_compat; lra.
    + destruct HF as (_ & _ & A). set (tau := t / df) in *. assert (Tau : 0 < tau) by (apply Rdiv_lt_0_compat; assumption).
      destruct (A x (vadd x (smul tau d)) Hx (vadd_smul_length n _ _ _ Hx Ld)) as [_ U].
      assert (E1 : dot (gradf x) (vsub (vadd x (smul tau d)) x) = tau * dot g d) by (unfold g; vring).
      assert (E2 : dist2 (vadd x (smul tau d)) x = tau * tau * dot d d) by vring.
      rewrite E1, E2 in U. fold g in C. rewrite bstep_slope in C, U.
      assert (V : (1 - c1) * q <= L / 2 * (tau * dot d d)).
      { apply (Rmult_le_reg_l tau); [exact Tau|]. lra. }
      assert (Td : tau * df = t) by (unfold tau; field; lra).
      eapply Rle_trans; [|exact Y1]. apply (Rmult_le_compat_l (2 * mu * df * t / L)) in V.
      2:{ left. apply Rdiv_lt_0_compat; [|lra]. apply Rmult_lt_0_compat; [|lra]. apply Rmult_lt_0_compat; lra. }
      replace (2 * mu * df * t / L * (L / 2 * (tau * dot d d))) with (mu * (tau * df * t * dot d d)) in V by (field; lra). rewrite Td in V.
      replace (2 * mu * df * (1 - c1) / L * (t * q)) with (2 * mu * df * t / L * ((1 - c1) * q)) by (field; lra). exact V.
Qed.

(** The next inverse. *)
Lemma bstep_next c1 c2 tmin df : c1 < 1 -> c2 < 1 -> 0 < tmin -> 0 < df -> sufficient_step c1 c2 tmin df f gradf x d t ->
  exists B', mat_shape n n B' /\ symmetric n B' /\ pos_def n B' /\
    (forall v, length v = n -> mvec B' (mvec (bfgs_matrix_update H s y) v) = v) /\
    trace n B' <= trace n B + L - xi_of /\
    ln (pivot_product n B) + ln (bfgs_progress mu L c1 c2 tmin df) - ln t - ln (1 + xi_of) <= ln (pivot_product n B').
Proof.
  intros Hc1 Hc2 Htm Hdf HS. pose proof bstep_q as Q0. pose proof bstep_gg as G0. pose proof bstep_xi as X0. pose proof bstep_ys0 as Y0.
  assert (Ls : length s = n) by (apply vsub_len; assumption). assert (Ly : length y = n) by (apply vsub_len; [apply Hdim; exact Lz|exact Lg]).
  exists (hess2 B s y). split; [apply (hess2_shape n); assumption|]. split; [apply (hess2_sym n); assumption|]. split; [apply (hess2_pd n); assumption|].
  split; [intros v Hv; apply (hess2_inverse n); assumption|]. split.
  - rewrite (hess2_trace n) by assumption.
    pose proof (ssc_cocoercive n mu L f gradf HF x z Hx Lz) as Co. cbv zeta in Co. fold g in Co. fold y s in Co.
    assert (E1 : dot y y / dot y s <= L).
    { apply (Rmult_le_reg_r (dot y s)); [exact Y0|]. replace (dot y y / dot y s * dot y s) with (dot y y) by (field; lra). exact Co. }
    assert (E2 : dot (mvec B s) (mvec B s) / dot s (mvec B s) = xi_of).
    { rewrite bstep_sbs, bstep_bs, dot_smul_l, dot_smul_r. unfold xi_of. fold g. fold q. field. lra. }
    rewrite E2. lra.
  - rewrite (hess2_pivots n B H) by assumption. rewrite bstep_sbs.
    pose proof (pivot_product_trace n B HB SB PB) as ((P0 & _) & _).
    pose proof (bstep_ratio c1 c2 tmin df Hc1 Hc2 Htm Hdf HS) as Ra.
    set (a := bfgs_progress mu L c1 c2 tmin df) in *.
    assert (A0 : 0 < a).
    { unfold a, bfgs_progress. repeat apply Rmin_glb_lt; [lra|nra|]. apply Rdiv_lt_0_compat; [|lra]. apply Rmult_lt_0_compat; [|lra]. apply Rmult_lt_0_compat; lra. }
    assert (T1 : 0 < t * (1 + xi_of)) by (apply Rmult_lt_0_compat; lra).
    assert (R0 : 0 < a / (t * (1 + xi_of))) by (apply Rdiv_lt_0_compat; assumption).
    rewrite ln_mult; [|exact P0|lra].
    assert (M : ln (a / (t * (1 + xi_of))) <= ln (dot y s / (t * t * q))).
    { destruct (Rle_lt_or_eq_dec _ _ Ra) as [P|P]; [left; apply ln_increasing; assumption|rewrite P; lra]. }
    unfold Rdiv in M at 1. rewrite ln_mult, ln_Rinv, ln_mult in M; try lra; try (apply Rinv_0_lt_compat; exact T1).
Qed.

(** The decrease, relative to the gap. *)
Lemma bstep_decrease c1 fz w : 0 < c1 -> length w = n -> fz <= f x + c1 * t * dot g d ->
  fz - f w <= (f x - f w) - 2 * mu * c1 * t / xi_of * (f x - f w).
Proof.
  intros Hc Hw Hz. rewrite bstep_slope in Hz. pose proof (ssc_pl n mu L f gradf HF x w Hx Hw) as PL. fold g in PL.
  pose proof bstep_q as Q0. pose proof bstep_gg as G0.
  assert (2 * mu * c1 * t / xi_of * (f x - f w) <= c1 * t * q).
  { replace (2 * mu * c1 * t / xi_of * (f x - f w)) with (c1 * t * (q / dot g g) * (2 * mu * (f x - f w))) by (unfold xi_of; fold g; fold q; field; lra).
    replace (c1 * t * q) with (c1 * t * (q / dot g g) * dot g g) by (field; lra).
    apply Rmult_le_compat_l; [|exact PL]. apply Rmult_le_pos; [nra|]. left. apply Rdiv_lt_0_compat; assumption. }
  lra.
Qed.
End Step.

(** ** The run *)
Section BfgsRun.
Variables (n : nat) (mu L : R) (f : vec -> R) (gradf : vec -> vec) (ls : line_search) (cfg : qn_config).
Hypothesis HF : strongly_convex_smooth n mu L f gradf.
Hypothesis Hls : ls_consistent f gradf ls.
Variables (xs : nat -> vec) (sts : nat -> bfgs_state) (K : nat).
Hypothesis Hx0 : length (xs 0%nat) = n.
Hypothesis Hrun : bfgs_run f gradf ls cfg xs sts K.
Variables (c1 c2 tmin df : R).
Hypothesis Hc1 : 0 < c1 < 1.
Hypothesis Hc2 : c2 < 1.
Hypothesis Htm : 0 < tmin.
Hypothesis Hdf : 0 < df.
Hypothesis Hst : forall k, (k < K)%nat -> sufficient_step c1 c2 tmin df f gradf (xs k) (bfgs_direction (sts k)) (b_stepsize (sts (S k))).
Let HmuL : 0 < mu <= L. Proof. destruct HF as (A & _); exact A. Qed.
Let Hdim : grad_dim n gradf. Proof. destruct HF as (_ & A & _); exact A. Qed.
Let R0 : sts 0%nat = bfgs_init f gradf cfg (xs 0%nat). Proof. exact (proj1 Hrun). Qed.
Let R1 : forall k, (k < K)%nat -> bfgs_update f gradf ls cfg (xs k, sts k) = Ok (xs (S k), sts (S k)). Proof. exact (proj2 Hrun). Qed.
Let t k := b_stepsize (sts (S k)).
Let xi k := xi_of gradf (b_H (sts k)) (xs k).
Let a := bfgs_progress mu L c1 c2 tmin df.

Lemma brun_len k : (k <= K)%nat -> length (xs k) = n.
Proof. intros Hk. apply (bfgs_inv f gradf ls cfg n Hdim Hls xs sts K Hx0 R0 R1 k Hk). Qed.
Lemma brun_grad k : (k <= K)%nat -> b_grad (sts k) = gradf (xs k).
Proof. intros Hk. apply (bfgs_inv f gradf ls cfg n Hdim Hls xs sts K Hx0 R0 R1 k Hk). Qed.
Lemma brun_dir k : (k <= K)%nat -> bfgs_direction (sts k) = smul (-1) (mvec (b_H (sts k)) (gradf (xs k))).
Proof. intros Hk. unfold bfgs_direction. rewrite (brun_grad k Hk). reflexivity. Qed.
Lemma brun_next k : (k < K)%nat -> xs (S k) = vadd (xs k) (smul (t k) (bfgs_direction (sts k))).
Proof. intros Hk. apply (bfgs_step_facts f gradf ls cfg Hls xs sts K R1 k Hk). Qed.
Lemma brun_shape k : (k <= K)%nat -> mat_shape n n (b_H (sts k)).
Proof. intros Hk. apply (bfgs_inv f gradf ls cfg n Hdim Hls xs sts K Hx0 R0 R1 k Hk). Qed.
Lemma brun_progress : 0 < a.
Proof. unfold a, bfgs_progress. repeat apply Rmin_glb_lt; [lra|nra|]. apply Rdiv_lt_0_compat; [|lra]. apply Rmult_lt_0_compat; [|lra]. apply Rmult_lt_0_compat; lra. Qed.

Definition inverse_at (k : nat) (B : mat) : Prop :=
  mat_shape n n B /\ symmetric n B /\ pos_def n B /\ (forall v, length v = n -> mvec B (mvec (b_H (sts k)) v) = v).
Lemma brun_inverse k : (k <= K)%nat -> (forall j, (j < k)%nat -> gradf (xs j) <> vzero n) -> exists B, inverse_at k B /\
  trace n B + rsum k xi <= INR n + INR k * L /\
  rsum k (fun j => ln a - ln (t j) - ln (1 + xi j)) <= ln (pivot_product n B).
Proof.
  induction k as [|k IH]; intros Hk Hg.
  - exists (eye n). split.
    + split; [apply eye_shape|]. split; [apply eye_sym|]. split; [apply eye_pd|]. intros v Hv. rewrite R0. cbn [bfgs_init b_H]. rewrite Hx0, !mvec_eye; auto. rewrite mvec_eye; auto.
    + rewrite trace_eye, pivot_product_eye, ln_1. simpl. lra.
  - destruct IH as (B & (I1 & I2 & I3 & I4) & IT & IP); [lia|intros j Hj; apply Hg; lia|].
    pose proof (Hst k ltac:(lia)) as HS. pose proof HS as (T0 & _). rewrite (brun_dir k ltac:(lia)) in HS.
    destruct (bstep_next n mu L f gradf HF B (b_H (sts k)) (xs k) (t k) I1 I2 I3 (brun_shape k ltac:(lia)) I4 (brun_len k ltac:(lia)) (Hg k ltac:(lia)) T0 c1 c2 tmin df ltac:(lra) Hc2 Htm Hdf HS)
      as (B' & J1 & J2 & J3 & J4 & J5 & J6).
    exists B'. split.
    + split; [exact J1|]. split; [exact J2|]. split; [exact J3|].
      intros v Hv. rewrite (bfgs_H_step f gradf ls cfg n Hdim Hls xs sts K Hx0 R0 R1 k ltac:(lia)).
      rewrite (brun_next k ltac:(lia)), (brun_dir k ltac:(lia)). apply J4. exact Hv.
    + cbn [rsum]. rewrite S_INR. fold (xi k) in J5, J6. fold a in J6. split; lra.
Qed.
Lemma brun_mono_step k : (k < K)%nat -> f (xs (S k)) <= f (xs k).
Proof.
  intros Hk. destruct (Hst k Hk) as (T0 & T1 & _). rewrite (brun_next k Hk).
  assert (P : pos_def n (b_H (sts k))).
  { apply (bfgs_pd f gradf ls cfg n Hdim Hls xs sts K Hx0 R0 R1 k ltac:(lia)). intros j Hj.
    pose proof (ssc_monotone n mu L f gradf HF (xs j) (xs (S j)) (brun_len j ltac:(lia)) (brun_len (S j) ltac:(lia))) as M. cbv zeta in M.
    pose proof (dot_self_nonneg (vsub (xs (S j)) (xs j))). nra. }
  assert (D : dot (gradf (xs k)) (bfgs_direction (sts k)) <= 0).
  { rewrite (brun_dir k ltac:(lia)), dot_smul_r. pose proof (Hdim _ (brun_len k ltac:(lia))) as Lg.
    destruct (Req_dec (dot (gradf (xs k)) (gradf (xs k))) 0) as [Z|Z].
    - pose proof (dot_self_zero _ Z) as E. rewrite E at 1. rewrite dot_vzero_l. lra.
    - assert (0 < dot (gradf (xs k)) (mvec (b_H (sts k)) (gradf (xs k)))); [|lra]. apply P; [exact Lg|]. intros E. apply Z. rewrite E. apply dot_vzero_l. }
  assert (0 <= c1 * b_stepsize (sts (S k)) * - dot (gradf (xs k)) (bfgs_direction (sts k))) by (apply Rmult_le_pos; [nra|lra]). fold (t k) in *. lra.
Qed.
Lemma brun_mono j k : (j <= k)%nat -> (k <= K)%nat -> f (xs k) <= f (xs j).
Proof. intros Hj. induction Hj as [|k Hj IH]; intros Hk; [lra|]. pose proof (brun_mono_step k ltac:(lia)). specialize (IH ltac:(lia)). lra. Qed.
Lemma brun_decrease k w : (k < K)%nat -> length w = n -> (forall j, (j <= k)%nat -> gradf (xs j) <> vzero n) ->
  f (xs (S k)) - f w <= (1 - 2 * mu * c1 * t k / xi k) * (f (xs k) - f w) /\ 0 < t k /\ 0 < xi k.
Proof.
  intros Hk Hw Hg. destruct (Hst k Hk) as (T0 & T1 & _).
  destruct (brun_inverse k ltac:(lia) ltac:(intros j Hj; apply Hg; lia)) as (B & (I1 & I2 & I3 & I4) & _).
  assert (X0 : 0 < xi k) by (apply (bstep_xi n mu L f gradf HF B); [exact I1|exact I3|apply brun_shape; lia|exact I4|apply brun_len; lia|apply Hg; lia]).
  split; [|split; [exact T0|exact X0]].
  rewrite (brun_dir k ltac:(lia)) in T1.
  pose proof (bstep_decrease n mu L f gradf HF B (b_H (sts k)) (xs k) (t k) I1 I3 (brun_shape k ltac:(lia)) I4 (brun_len k ltac:(lia)) (Hg k ltac:(lia)) T0 c1 _ w ltac:(lra) Hw T1) as D.
  rewrite (brun_next k Hk), (brun_dir k ltac:(lia)). fold (xi k) in D. fold (t k) in D. lra.
Qed.

Let M := 1 + INR n + L.
Let c0 := 2 * mu * c1 * a / M ^ 2 * exp (- (INR n * (INR n + L))).
Let rho k := 2 * mu * c1 * t k / xi k.
Lemma brun_M : 1 < M. Proof. unfold M. pose proof (pos_INR n). lra. Qed.
Lemma brun_c0 : 0 < c0.
Proof.
  unfold c0. apply Rmult_lt_0_compat; [|apply exp_pos]. pose proof brun_progress. pose proof brun_M. apply Rdiv_lt_0_compat; [|apply pow_lt; lra].
  apply Rmult_lt_0_compat; [|assumption]. apply Rmult_lt_0_compat; lra.
Qed.
Lemma brun_ln_c0 : ln c0 = ln (2 * mu * c1) + ln a - 2 * ln M - INR n * (INR n + L).
Proof.
  unfold c0. pose proof brun_progress as A0. pose proof brun_M as M1. assert (P : 0 < 2 * mu * c1) by (apply Rmult_lt_0_compat; lra).
  assert (M2 : 0 < M ^ 2) by (apply pow_lt; lra).
  rewrite ln_mult, ln_exp; [|apply Rdiv_lt_0_compat; [apply Rmult_lt_0_compat|]; assumption|apply exp_pos].
  unfold Rdiv. rewrite ln_mult, ln_mult, ln_Rinv; try assumption; [|apply Rmult_lt_0_compat; assumption|apply Rinv_0_lt_compat; exact M2].
  simpl pow. rewrite Rmult_1_r, (ln_mult M M) by lra. ring.
Qed.
(** The sum of the relative decreases grows linearly. *)
Lemma brun_sum k : (k <= K)%nat -> (0 < n)%nat -> (forall j, (j < k)%nat -> gradf (xs j) <> vzero n) -> INR k * c0 <= rsum k rho.
Proof.
  intros Hk Hn Hg. destruct k as [|k']; [simpl; lra|]. set (k := S k') in *.
  assert (K1 : 1 <= INR k) by (unfold k; rewrite S_INR; pose proof (pos_INR k'); lra).
  destruct (brun_inverse k Hk Hg) as (B & (I1 & I2 & I3 & I4) & IT & IP).
  pose proof (pivot_product_trace n B I1 I2 I3) as ((P0 & P1) & P2).
  pose proof brun_progress as A0. pose proof brun_M as M1. pose proof brun_c0 as C0.
  assert (Pos : forall j, (j < k)%nat -> 0 < t j /\ 0 < xi j).
  { intros j Hj. destruct (brun_decrease j (xs 0%nat) ltac:(lia) Hx0 ltac:(intros i Hi; apply Hg; lia)) as (_ & A & B0). auto. }
  pose proof (pos_INR n) as N0.
  assert (Xs : 0 <= rsum k xi).
  { replace 0 with (rsum k (fun _ => 0)) by (rewrite rsum_const; ring). apply rsum_le. intros j Hj. left. apply Pos. exact Hj. }
  (* sum of ln (1 + xi) *)
  assert (S1 : rsum k (fun j => ln (1 + xi j)) <= INR k * ln M).
  { eapply Rle_trans; [apply (rsum_le k _ (fun j => (ln M - 1 + / M) + / M * xi j))|].
    - intros j Hj. destruct (Pos j Hj) as [_ X]. pose proof (ln_le_tangent M (1 + xi j) ltac:(lra) ltac:(lra)) as E. unfold Rdiv in E. lra.
    - rewrite rsum_plus, rsum_const, rsum_scal.
      assert (I : 0 < / M) by (apply Rinv_0_lt_compat; lra).
      assert (Sx : rsum k xi <= INR k * (INR n + L)).
      { assert (INR n <= INR k * INR n) by nra. nra. }
      assert (/ M * rsum k xi <= / M * (INR k * (INR n + L))) by (apply Rmult_le_compat_l; lra).
      assert (E : / M * (INR k * (INR n + L)) = INR k * (1 - / M)) by (unfold M; field; fold M; lra). lra. }
  (* logarithm of the determinant *)
  assert (S2 : ln (pivot_product n B) <= INR k * (INR n * (INR n + L))).
  { assert (T : trace n B <= INR k * (INR n + L)).
    { assert (INR n <= INR k * INR n) by nra. lra. }
    pose proof (ln_pow_le n _ _ P0 P1 P2 Hn) as E. assert (INR n * trace n B <= INR n * (INR k * (INR n + L))) by (apply Rmult_le_compat_l; lra). lra. }
  (* sum of ln t *)
  assert (S3 : INR k * ln a - rsum k (fun j => ln (1 + xi j)) - ln (pivot_product n B) <= rsum k (fun j => ln (t j))).
  { assert (E : rsum k (fun j => ln a - ln (t j) - ln (1 + xi j)) = INR k * ln a - rsum k (fun j => ln (t j)) - rsum k (fun j => ln (1 + xi j))).
    { clear. induction k as [|k IH]; [simpl; ring|]. cbn [rsum]. rewrite IH, S_INR. ring. }
    rewrite E in IP. lra. }
  (* conclusion *)
  assert (P : 0 < 2 * mu * c1) by (apply Rmult_lt_0_compat; lra).
  assert (S4 : rsum k (fun j => c0 * (1 - ln c0 + ln (2 * mu * c1) + ln (t j) - ln (1 + xi j))) <= rsum k rho).
  { apply rsum_le. intros j Hj. destruct (Pos j Hj) as [T0 X0]. unfold rho.
    assert (Rp : 0 < 2 * mu * c1 * t j / (1 + xi j)) by (apply Rdiv_lt_0_compat; [apply Rmult_lt_0_compat|]; lra).
    pose proof (ln_lower c0 _ C0 Rp) as E.
    unfold Rdiv in E. rewrite (ln_mult (2 * mu * c1 * t j)), (ln_mult (2 * mu * c1)), ln_Rinv in E; try lra; [|apply Rmult_lt_0_compat; lra|apply Rinv_0_lt_compat; lra].
    assert (2 * mu * c1 * t j * / (1 + xi j) <= 2 * mu * c1 * t j / xi j).
    { unfold Rdiv. apply Rmult_le_compat_l; [left; apply Rmult_lt_0_compat; lra|]. apply Rinv_le_contravar; lra. }
    lra. }
  rewrite rsum_scal in S4.
  assert (E5 : rsum k (fun j => 1 - ln c0 + ln (2 * mu * c1) + ln (t j) - ln (1 + xi j)) =
               INR k * (1 - ln c0 + ln (2 * mu * c1)) + rsum k (fun j => ln (t j)) - rsum k (fun j => ln (1 + xi j))).
  { clear. induction k as [|k IH]; [simpl; ring|]. cbn [rsum]. rewrite IH, S_INR. ring. }
  rewrite E5 in S4. rewrite brun_ln_c0 in S4.
  assert (INR k <= INR k * (1 - (ln (2 * mu * c1) + ln a - 2 * ln M - INR n * (INR n + L)) + ln (2 * mu * c1)) + rsum k (fun j => ln (t j)) - rsum k (fun j => ln (1 + xi j))) by lra.
  apply (Rmult_le_compat_l c0) in H; [|lra]. lra.
Qed.
Lemma brun_gap z k : (0 < n)%nat -> length z = n -> (k <= K)%nat ->
  f (xs k) - f z <= bfgs_rate n mu L c1 c2 tmin df ^ k * (f (xs 0%nat) - f z).
Proof.
  intros Hn Hz Hk.
  assert (Er : bfgs_rate n mu L c1 c2 tmin df ^ k = exp (- (INR k * c0))).
  { unfold bfgs_rate. fold a. fold M. fold c0. clear. induction k as [|k IH]; [simpl; replace (- (0 * c0)) with 0 by ring; rewrite exp_0; reflexivity|].
    rewrite S_INR. simpl pow. rewrite IH, <- exp_plus. f_equal. ring. }
  rewrite Er. pose proof brun_c0 as C0. assert (E1 : 0 < exp (- (INR k * c0)) <= 1).
  { split; [apply exp_pos|]. rewrite <- exp_0. assert (0 <= INR k * c0) by (apply Rmult_le_pos; [apply pos_INR|lra]).
    destruct (Rle_lt_or_eq_dec _ _ H) as [P|P]; [left; apply exp_increasing; lra|rewrite <- P; replace (- 0) with 0 by ring; lra]. }
  set (e0 := f (xs 0%nat) - f z).
  destruct (Rle_lt_dec 0 e0) as [G0|G0].
  2:{ pose proof (brun_mono 0 k ltac:(lia) Hk). unfold e0 in *. nra. }
  assert (Hdec : (forall j, (j < k)%nat -> gradf (xs j) <> vzero n) \/ exists j, (j < k)%nat /\ gradf (xs j) = vzero n).
  { clear - k. induction k as [|k IH]; [left; intros j Hj; lia|]. destruct IH as [A|(j & A & B)]; [|right; exists j; split; [lia|exact B]].
    destruct (Req_dec (dot (gradf (xs k)) (gradf (xs k))) 0) as [Z|Z].
    - destruct (list_eq_dec Req_EM_T (gradf (xs k)) (vzero n)) as [E|E]; [right; exists k; split; [lia|exact E]|].
      left. intros j Hj. destruct (Nat.eq_dec j k) as [->|]; [exact E|apply A; lia].
    - left. intros j Hj. destruct (Nat.eq_dec j k) as [->|]; [|apply A; lia]. intros E. apply Z. rewrite E. apply dot_vzero_l. }
  destruct Hdec as [Hg|(j & Hj & Ej)].
  - assert (G : f (xs k) - f z <= exp (- rsum k rho) * e0).
    { clear Er E1. revert Hk Hg. induction k as [|k IH]; intros Hk Hg; [simpl; rewrite Ropp_0, exp_0; unfold e0; lra|].
      specialize (IH ltac:(lia) ltac:(intros j Hj; apply Hg; lia)). cbn [rsum].
      destruct (brun_decrease k z ltac:(lia) Hz ltac:(intros j Hj; apply Hg; lia)) as (D & T0 & X0). fold (rho k) in D.
      assert (Rp : 0 <= rho k) by (unfold rho; left; apply Rdiv_lt_0_compat; [apply Rmult_lt_0_compat; [apply Rmult_lt_0_compat|]|]; lra).
      pose proof (exp_pos (- (rsum k rho + rho k))) as EP.
      destruct (Rle_lt_dec 0 (f (xs k) - f z)) as [P|P].
      - pose proof (exp_ineq1_le (- rho k)) as E. replace (- (rsum k rho + rho k)) with (- rho k + - rsum k rho) by ring. rewrite exp_plus, Rmult_assoc.
        pose proof (exp_pos (- rho k)) as EP2.
        eapply Rle_trans; [exact D|]. eapply Rle_trans; [apply Rmult_le_compat_r; [exact P|]; apply (Rle_trans _ (exp (- rho k))); [lra|apply Rle_refl]|].
        apply Rmult_le_compat_l; [lra|exact IH].
      - pose proof (brun_mono_step k ltac:(lia)). assert (0 <= exp (- (rsum k rho + rho k)) * e0) by (apply Rmult_le_pos; lra). lra. }
    eapply Rle_trans; [exact G|]. apply Rmult_le_compat_r; [exact G0|].
    pose proof (brun_sum k Hk Hn Hg) as S. destruct (Rle_lt_or_eq_dec _ _ S) as [P|P]; [left; apply exp_increasing; lra|rewrite P; lra].
  - pose proof (ssc_pl n mu L f gradf HF (xs j) z (brun_len j ltac:(lia)) Hz) as PL. rewrite Ej, dot_vzero_l in PL.
    pose proof (brun_mono j k ltac:(lia) Hk). assert (f (xs j) - f z <= 0) by nra.
    assert (0 <= exp (- (INR k * c0)) * e0) by (apply Rmult_le_pos; lra). lra.
Qed.
Lemma brun_rate : 0 < bfgs_rate n mu L c1 c2 tmin df < 1.
Proof.
  unfold bfgs_rate. fold a. fold M. fold c0. split; [apply exp_pos|]. rewrite <- exp_0. apply exp_increasing. pose proof brun_c0. lra.
Qed.
End BfgsRun.
