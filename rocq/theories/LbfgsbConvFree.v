(** Without finite bounds the updates of L-BFGS-B do not depend on eps, so that eps can be taken as small as needed. *)
From Coq Require Import String.
From Coq Require Import Reals List Lra Lia Bool Arith Psatz.
From Verif Require Import Prelude Base Vec Mat XArith LinAlg Loss LossProofs Run QuasiNewton QuasiNewtonProofs Convergence ConvergenceProofs ConvergenceRuns.
From Verif Require Import Lbfgsb LbfgsbHess LbfgsbCauchy LbfgsbProofs LbfgsbTheorems LbfgsbConvergence LbfgsbConvHess LbfgsbConvPath LbfgsbConvSteps LbfgsbConvProofs LbfgsbConvRuns.
Import ListNotations.
Open Scope R_scope.

Section Free.
Variables (x g : vec) (lower upper : xbounds) (theta : R) (w m : mat).
Hypothesis NB : no_bounds lower upper.
Variable C : R.
Hypothesis PD : forall z, length z = length x -> dot z z <= C * bform theta w m z z.
Lemma free_t eps : 0 < eps -> cp_t eps x g lower upper = tab (length x) (fun _ => PInf).
Proof.
  intros He. unfold cp_t. apply tab_ext. intros i Hi. destruct (NB i) as [E1 E2]. cbv zeta. destruct (Rlt_dec _ eps) as [A|A]; [reflexivity|].
  destruct (Rlt_dec _ 0) as [B|B]; rewrite ?E1, ?E2; cbn; destruct (Rlt_dec (nth i g 0) 0); try contradiction; reflexivity.
Qed.
Lemma free_d eps : 0 < eps -> cp_d eps x g lower upper = tab (length x) (fun i => - nth i g 0).
Proof. intros He. unfold cp_d. apply tab_ext. intros i Hi. rewrite (free_t eps He), nth_tab by exact Hi. reflexivity. Qed.
Lemma free_sorted eps i : 0 < eps -> nth i (t_sorted eps x g lower upper) NaN = PInf \/ nth i (t_sorted eps x g lower upper) NaN = NaN.
Proof.
  intros He. unfold t_sorted. rewrite (free_t eps He). set (l := t_ind _ _ _ _ _). destruct (Nat.lt_ge_cases i (length l)) as [Hi|Hi].
  - set (F := fun i => nth i (tab (length x) (fun _ => PInf)) NaN). rewrite (nth_indep _ NaN (F 0%nat)) by (rewrite map_length; exact Hi). rewrite (map_nth F). unfold F.
    set (j := nth i l 0%nat). destruct (Nat.lt_ge_cases j (length x)) as [Hj|Hj]; [left; apply nth_tab; exact Hj|right; apply nth_overflow; rewrite tab_length; exact Hj].
  - right. apply nth_overflow. rewrite map_length. exact Hi.
Qed.
Lemma free_dt eps i : 0 < eps -> nth i (cp_dt eps x g lower upper) NaN = PInf \/ nth i (cp_dt eps x g lower upper) NaN = NaN.
Proof.
  intros He. destruct (Nat.lt_ge_cases i (length x)) as [Hi|Hi]; [|right; apply nth_overflow; unfold cp_dt; rewrite tab_length; exact Hi].
  unfold cp_dt. rewrite nth_tab by exact Hi. destruct (free_sorted eps i He) as [-> | ->]; [|right; destruct (t_prev _ _ _ _ _ _); reflexivity].
  unfold t_prev. destruct i as [|j]; [left; reflexivity|]. destruct (free_sorted eps j He) as [-> | ->]; right; reflexivity.
Qed.
Lemma free_cond eps : 0 < eps -> cp_cond eps x g lower upper (cp_init eps x g lower upper theta w m) = false.
Proof.
  intros He. unfold cp_cond. apply andb_false_intro1. set (s := cp_init _ _ _ _ _ _ _ _). set (k := Nat.min _ _).
  assert (Q : exists q, xdivx (Fin (- cp_df s)) (Fin (cp_ddf s)) = q /\ q <> PInf).
  { eexists. split; [reflexivity|]. cbn [xdivx]. destruct (Req_EM_T _ 0) as [Z|Z]; [|discriminate].
    unfold s, cp_init in *. cbn [cp_df cp_ddf] in *. set (d := cp_d eps x g lower upper) in *.
    assert (Ld : length d = length x) by (apply tab_length). pose proof (PD d Ld) as PD0. unfold bform in PD0. rewrite (dot_comm (mvec m _)) in Z.
    assert (dot d d <= 0) by (pose proof (Rmult_eq_compat_l C _ _ Z); lra). pose proof (dot_self_nonneg d). unfold xinf_times.
    destruct (Rlt_dec 0 _); [lra|]. destruct (Rlt_dec _ 0); discriminate. }
  destruct Q as (q & -> & Hq). destruct (free_dt eps k He) as [-> | ->]; [|reflexivity]. destruct q; try reflexivity. contradiction.
Qed.
Lemma free_final eps : 0 < eps -> cp_final eps x g lower upper theta w m = cp_init eps x g lower upper theta w m.
Proof. intros He. assert (W : forall k, cp_while eps x g lower upper theta w m k (cp_init eps x g lower upper theta w m) = cp_init eps x g lower upper theta w m) by (intros [|k]; [reflexivity|]; cbn [cp_while]; rewrite (free_cond eps He); reflexivity). apply W. Qed.

Variables (e1 e2 : R).
Hypothesis H1 : 0 < e1.
Hypothesis H2 : 0 < e2.
Lemma eq_t : cp_t e1 x g lower upper = cp_t e2 x g lower upper. Proof. rewrite !free_t by assumption. reflexivity. Qed.
Lemma eq_d : cp_d e1 x g lower upper = cp_d e2 x g lower upper. Proof. rewrite !free_d by assumption. reflexivity. Qed.
Lemma eq_bound : cp_bound e1 x g lower upper = cp_bound e2 x g lower upper. Proof. unfold cp_bound. rewrite eq_d. reflexivity. Qed.
Lemma eq_ind : t_ind e1 x g lower upper = t_ind e2 x g lower upper. Proof. unfold t_ind. rewrite eq_t. reflexivity. Qed.
Lemma eq_sorted : t_sorted e1 x g lower upper = t_sorted e2 x g lower upper. Proof. unfold t_sorted. rewrite eq_ind, eq_t. reflexivity. Qed.
Lemma eq_prev i : t_prev e1 x g lower upper i = t_prev e2 x g lower upper i. Proof. unfold t_prev. rewrite eq_sorted. reflexivity. Qed.
Lemma eq_active : active_sorted e1 x g lower upper = active_sorted e2 x g lower upper.
Proof.
  unfold active_sorted. rewrite eq_sorted. apply map_ext_in. intros t Ht. apply (In_nth _ _ NaN) in Ht. destruct Ht as (i & _ & <-).
  destruct (free_sorted e2 i H2) as [-> | ->]; reflexivity.
Qed.
Lemma eq_init : cp_init e1 x g lower upper theta w m = cp_init e2 x g lower upper theta w m.
Proof. unfold cp_init, start_ind. rewrite eq_d, eq_active. reflexivity. Qed.
Lemma eq_final : cp_final e1 x g lower upper theta w m = cp_final e2 x g lower upper theta w m.
Proof. rewrite !free_final by assumption. apply eq_init. Qed.
Lemma eq_min : dt_min e1 x g lower upper theta w m = dt_min e2 x g lower upper theta w m. Proof. unfold dt_min. rewrite eq_final. reflexivity. Qed.
Lemma eq_mask : active_set_mask e1 x g lower upper theta w m = active_set_mask e2 x g lower upper theta w m. Proof. unfold active_set_mask. rewrite eq_ind, eq_final. reflexivity. Qed.
Lemma eq_cauchy : x_cauchy e1 x g lower upper theta w m = x_cauchy e2 x g lower upper theta w m.
Proof. unfold x_cauchy, t_old. rewrite eq_mask, eq_d, eq_bound, eq_final, eq_min, eq_prev. reflexivity. Qed.
Lemma eq_c : cauchy_c e1 x g lower upper theta w m = cauchy_c e2 x g lower upper theta w m. Proof. unfold cauchy_c. rewrite eq_final, eq_min. reflexivity. Qed.
End Free.

Lemma free_clear lower upper (x g : vec) eps : no_bounds lower upper -> clear_breaks eps x g lower upper /\ distinct_breaks x g lower upper.
Proof.
  intros NB. assert (NH : forall i r, ~ hits x g lower upper i r) by (intros i r; destruct (NB i) as [E1 E2]; intros [[_ A]|[_ A]]; rewrite ?E1, ?E2 in A; discriminate).
  split; [intros i r _ A|intros i j r _ _ A _]; exfalso; apply (NH _ _ A).
Qed.
Lemma small_entry C a : 0 < C -> exists e, 0 < e /\ forall e', 0 < e' <= e -> a = 0 \/ (e' <= Rabs a /\ C * e' <= a * a).
Proof.
  intros HC. destruct (Req_dec a 0) as [Z|Z]; [exists 1; split; [lra|intros; left; exact Z]|].
  pose proof (Rabs_pos_lt a Z) as P. assert (Q : 0 < a * a / C) by (apply Rdiv_lt_0_compat; [nra|exact HC]).
  exists (Rmin (Rabs a) (a * a / C)). split; [apply Rmin_glb_lt; assumption|]. intros e' [H0 H]. right. split; [eapply Rle_trans; [exact H|apply Rmin_l]|].
  assert (e' <= a * a / C) by (eapply Rle_trans; [exact H|apply Rmin_r]). assert (a * a / C * C = a * a) by (field; lra). nra.
Qed.
Lemma small_vec C (v : vec) : 0 < C -> exists e, 0 < e /\ forall e', 0 < e' <= e -> forall i, (i < length v)%nat -> nth i v 0 = 0 \/ (e' <= Rabs (nth i v 0) /\ C * e' <= nth i v 0 * nth i v 0).
Proof.
  intros HC. induction v as [|a v (e & E0 & E)]; [exists 1; split; [lra|cbn; intros; lia]|]. destruct (small_entry C a HC) as (e2 & P0 & P).
  exists (Rmin e e2). split; [apply Rmin_glb_lt; assumption|]. intros e' [Q0 Q] i Hi. pose proof (Rmin_l e e2). pose proof (Rmin_r e e2). destruct i as [|i]; cbn [nth]; [apply P; lra|apply E; [lra|cbn in Hi; lia]].
Qed.
Lemma small_all C (v : nat -> vec) N : 0 < C -> exists e, 0 < e /\ forall k, (k < N)%nat -> forall i, (i < length (v k))%nat -> nth i (v k) 0 = 0 \/ (e <= Rabs (nth i (v k) 0) /\ C * e <= nth i (v k) 0 * nth i (v k) 0).
Proof.
  intros HC. assert (G : exists e, 0 < e /\ forall e', 0 < e' <= e -> forall k, (k < N)%nat -> forall i, (i < length (v k))%nat -> nth i (v k) 0 = 0 \/ (e' <= Rabs (nth i (v k) 0) /\ C * e' <= nth i (v k) 0 * nth i (v k) 0)).
  { induction N as [|N (e & E0 & E)]; [exists 1; split; [lra|intros; lia]|]. destruct (small_vec C (v N) HC) as (e2 & P0 & P).
    exists (Rmin e e2). split; [apply Rmin_glb_lt; assumption|]. intros e' [Q0 Q] k Hk. pose proof (Rmin_l e e2). pose proof (Rmin_r e e2).
    destruct (Nat.eq_dec k N) as [->|]; [apply P; lra|apply E; [lra|lia]]. }
  destruct G as (e & E0 & E). exists e. split; [exact E0|]. apply E. lra.
Qed.

Lemma free_run n mu L f gradf solve eps theta0 ls cfg bounds lower upper x0 steps N :
  lbfgsb_setting n mu L f gradf solve eps theta0 cfg bounds lower upper x0 -> ls_unit f gradf ls -> no_bounds lower upper ->
  lbfgsb_run solve eps f gradf ls cfg theta0 bounds x0 steps N ->
  exists eps', 0 < eps' /\ lbfgsb_run solve eps' f gradf ls cfg theta0 bounds x0 steps N /\
    forall k, (k < N)%nat -> clear_point eps' (hess_inverse mu L (theta_low mu theta0) (qn_history_size cfg)) lower upper (fst (steps k)) (gradf (fst (steps k))) /\
      lbfgsb_direction solve eps cfg (fst (steps k)) (snd (steps k)) lower upper = lbfgsb_direction solve eps' cfg (fst (steps k)) (snd (steps k)) lower upper.
Proof.
  intros (HF & SOL & Heps & T0 & Hh & Eb & Hul & PS & Hx0 & B0) LU NB RUN. assert (HmL : 0 < mu <= L) by apply HF.
  pose proof (tl_pos n mu L f gradf HF theta0 T0) as Tl. set (C := hess_inverse mu L (theta_low mu theta0) (qn_history_size cfg)).
  assert (C0 : 0 < C) by (apply hess_inverse_pos; assumption).
  destruct (small_all C (fun k => gradf (fst (steps k))) N C0) as (e & E0 & E).
  assert (CP : forall k, (k < N)%nat -> clear_point e C lower upper (fst (steps k)) (gradf (fst (steps k)))).
  { intros k Hk. split; [apply (E k Hk)|apply free_clear, NB]. }
  assert (D : forall j, (j <= N)%nat -> lbfgsb_run solve e f gradf ls cfg theta0 bounds x0 steps j ->
    length (fst (steps j)) = n /\ lbfgsb_direction solve eps cfg (fst (steps j)) (snd (steps j)) lower upper = lbfgsb_direction solve e cfg (fst (steps j)) (snd (steps j)) lower upper).
  { intros j Hj Rj. assert (CPj : forall k, (k < j)%nat -> clear_point e C lower upper (fst (steps k)) (gradf (fst (steps k)))) by (intros k Hk; apply CP; lia).
    destruct (facts n mu L f gradf HF solve e theta0 ls cfg bounds lower upper SOL E0 T0 Hh Eb LU PS x0 Hx0 B0 steps j Rj CPj j (Nat.le_refl j)) as (Lx & _).
    pose proof (hess_bounds n mu L f gradf HF solve e theta0 ls cfg bounds lower upper SOL E0 T0 Hh Eb LU PS x0 Hx0 B0 steps j Rj CPj j (Nat.le_refl j)) as HB.
    cbv beta zeta in Lx, HB. split; [exact Lx|]. destruct (steps j) as [x st]. cbn [fst snd] in *.
    assert (PD : forall z, length z = length x -> dot z z <= C * bform (lb_theta st) (state_w (length x) st) (state_m solve (qn_history_size cfg) st) z z).
    { rewrite Lx. intros z Hz. apply (HB z Hz). }
    unfold lbfgsb_direction, lbfgsb_target. cbv zeta. unfold state_w, state_m in PD.
    rewrite (eq_cauchy x (lb_grad st) lower upper _ _ _ NB C PD eps e Heps E0), (eq_c x (lb_grad st) lower upper _ _ _ NB C PD eps e Heps E0), (eq_mask x (lb_grad st) lower upper _ _ _ NB C PD eps e Heps E0). reflexivity. }
  assert (R' : forall j, (j <= N)%nat -> lbfgsb_run solve e f gradf ls cfg theta0 bounds x0 steps j).
  { induction j as [|j IH]; intros Hj; [split; [apply RUN|intros; lia]|]. specialize (IH ltac:(lia)). split; [apply RUN|]. intros k Hk.
    destruct (Nat.eq_dec k j) as [->|]; [|apply IH; lia]. destruct RUN as [_ U]. rewrite <- (U j ltac:(lia)).
    destruct (D j ltac:(lia) IH) as [Lx Ed]. destruct (steps j) as [x st]. cbn [fst snd] in *. unfold lbfgsb_update. rewrite Lx, Eb. cbv zeta. rewrite Ed. reflexivity. }
  exists e. split; [exact E0|]. split; [apply R'; lia|]. intros k Hk. split; [apply CP, Hk|]. apply D; [lia|apply R'; lia].
Qed.
