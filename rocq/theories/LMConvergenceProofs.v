(** Lemmas for C73. *)
From Coq Require Import String.
From Coq Require Import Reals List Lra Lia Bool Arith.
From Verif Require Import Prelude Vec Mat LinAlg LinSolve LinSolveProofs LinSolveTheorems XArith Run LM LMProofs LMTheorems LMConvergence.
Import ListNotations.
Local Open Scope string_scope.
Open Scope R_scope.

Lemma transpose_bound m n M B w : mat_shape m n M -> 0 <= B -> (forall v, length v = n -> norm2 (mvec M v) <= B * norm2 v) -> norm2 (tvec n M w) <= B * norm2 w.
Proof.
  intros HM PB HB. set (t := tvec n M w). assert (Lt : length t = n) by (apply (tvec_length m); exact HM).
  assert (D : norm2 t * norm2 t = dot w (mvec M t)) by (rewrite norm2_sq; unfold sqnorm, t at 1; apply (dot_tvec n); assumption).
  pose proof (dot_le_norm w (mvec M t)) as CS. specialize (HB t Lt). pose proof (norm2_nonneg t) as Pt. pose proof (norm2_nonneg w) as Pw.
  destruct (Rle_lt_dec (norm2 t) (B * norm2 w)) as [|C]; [assumption|]. exfalso.
  assert (P : 0 < norm2 t) by (pose proof (Rmult_le_pos _ _ PB Pw); lra).
  assert (Q : norm2 t * norm2 t <= norm2 w * (B * norm2 t)) by (rewrite D; eapply Rle_trans; [exact CS|apply Rmult_le_compat_l; assumption]).
  assert (Q2 : (B * norm2 w) * norm2 t < norm2 t * norm2 t) by (apply Rmult_lt_compat_r; assumption). lra.
Qed.
(** the curvature of J^T J + mu I is at most B^2 + mu *)
Lemma damped_curvature m n M mu b v B : mat_shape m n M -> 0 < mu -> 0 <= B -> (forall v, length v = n -> norm2 (mvec M v) <= B * norm2 v) -> damped_solution n M mu b v ->
  sqnorm b <= (B * B + mu) * dot v b.
Proof.
  intros HM Pm PB HB HD. rewrite (damped_energy m n M mu b v HM HD). destruct HD as [Lv <-].
  pose proof (transpose_bound m n M B (mvec M v) HM PB HB) as T. pose proof (HB v Lv) as K. set (Jv := mvec M v) in *. set (t := tvec n M Jv) in *.
  assert (E : dot t v = sqnorm Jv) by (unfold t; rewrite (dot_tvec n) by exact HM; reflexivity).
  assert (E0 : sqnorm (vadd t (smul mu v)) = sqnorm t + 2 * mu * dot t v + mu * mu * sqnorm v) by (unfold sqnorm; autorewrite with vec; rewrite (dot_comm v t); ring).
  eapply Rle_trans; [right; exact E0|]. rewrite E.
  assert (S1 : sqnorm t <= B * B * sqnorm Jv). { unfold sqnorm. rewrite <- !norm2_sq. pose proof (norm2_nonneg t). pose proof (norm2_nonneg Jv). replace (B * B * (norm2 Jv * norm2 Jv)) with ((B * norm2 Jv) * (B * norm2 Jv)) by ring. apply Rmult_le_compat; assumption. }
  assert (S2 : sqnorm Jv <= B * B * sqnorm v). { unfold sqnorm. rewrite <- !norm2_sq. pose proof (norm2_nonneg v). pose proof (norm2_nonneg Jv). replace (B * B * (norm2 v * norm2 v)) with ((B * norm2 v) * (B * norm2 v)) by ring. apply Rmult_le_compat; assumption. }
  assert (S3 : mu * sqnorm Jv <= mu * (B * B * sqnorm v)) by (apply Rmult_le_compat_l; lra). nra.
Qed.

Section Conv.
Variables (m n : nat) (r : vec -> vec) (J : vec -> mat) (D2 : vec -> vec -> vec)
  (res : xvec -> xvec) (jt_op jtj_op d2fvv : xvec -> xvec -> xvec) (jac_fun : xvec -> xmat)
  (solver_fn : (xvec -> xvec) -> xvec -> xnum -> option xvec -> xvec) (la_solve pos_solve la_tri : xmat -> xvec -> xvec) (la_inv : xmat -> xmat) (la_qr : xmat -> xmat * xmat)
  (cfg : lm_config) (F0 C B mu0 tol : R).
Notation upd := (lm_update n res jt_op jtj_op d2fvv jac_fun solver_fn la_solve pos_solve la_tri la_inv la_qr cfg).
Notation loop := (lm_loop n res jt_op jtj_op d2fvv jac_fun solver_fn la_solve pos_solve la_tri la_inv la_qr cfg).
Notation at_ := (lm_at n r J cfg).
Notation F := (lm_cost r).
Notation G := (lm_gradient n r J).
Hypothesis HO : lm_ok m n r J D2 res jt_op jtj_op d2fvv jac_fun solver_fn la_solve pos_solve la_tri la_inv la_qr.
Hypothesis Hg : lm_geodesic cfg = false.
Hypothesis HSm : lm_smooth n r J F0 C B.
Hypothesis Hcap : 2 * C <= damping_factor_max.
Hypothesis Htol : 0 < tol.
Notation M := (damping_bound mu0).
Notation dl := (lm_decrease mu0 B tol).

(** One update from a point with gradient norm above tol: either the objective drops by dl and the
    damping by at most 3, or the damping, which was below 2 C, grows by 9/8. *)
Lemma conv_step x mu nu st : length x = n -> at_ x mu nu st -> 0 < mu <= M -> 2 <= nu <= increase_factor_max -> F x <= F0 -> G x <> vzero n ->
  exists x' mu' nu' st', upd (fin x, st) = (fin x', st') /\ length x' = n /\ at_ x' mu' nu' st' /\ F x' <= F x /\ l_iter st' = S (l_iter st) /\
    0 < mu' <= M /\ 2 <= nu' <= increase_factor_max /\ mu / 3 <= mu' /\
    (tol < norm2 (G x) -> F x' <= F x - dl \/ (mu < 2 * C /\ 9 / 8 * mu <= mu')).
Proof.
  intros Hx HA Hmu Hnu HF0 Hne. pose proof (sm_C _ _ _ _ _ _ HSm) as PC. pose proof (sm_B _ _ _ _ _ _ HSm) as PB.
  destruct (lf_shape _ _ _ _ _ _ _ _ _ _ (proj1 HO) x Hx) as [Lr HM].
  destruct (C45_step m n r J D2 res jt_op jtj_op d2fvv jac_fun solver_fn la_solve pos_solve la_tri la_inv la_qr cfg x mu nu st HO Hg Hx HA (proj1 Hmu) ltac:(lra) Hne) as (v & Hv & Pp & st' & _ & Ei & Hcase).
  cbv zeta in *. set (x1 := vadd x (smul (-1) v)) in *. set (pred := 1 / 2 * (sqnorm (mvec (J x) v) + 2 * (mu * sqnorm v))) in *.
  assert (Lx1 : length x1 = n) by (unfold x1; rewrite vadd_length, smul_length, (proj1 Hv); unfold vec in *; lia).
  assert (Pv := velocity_nonzero m n r J D2 res jt_op jtj_op d2fvv jac_fun solver_fn la_solve pos_solve la_tri la_inv la_qr x mu v HO Hx (proj1 Hmu) Hne Hv). assert (Pj := sqnorm_nonneg (mvec (J x) v)).
  assert (Lsv : length (smul (-1) v) = n) by (rewrite smul_length; apply Hv).
  pose proof (sm_model _ _ _ _ _ _ HSm x (smul (-1) v) Hx Lsv HF0) as HD. fold x1 in HD.
  pose proof (damped_energy m n (J x) mu (G x) v HM Hv) as En. rewrite dot_smul_r, dot_comm, En in HD.
  assert (E : sqnorm (smul (-1) v) = sqnorm v) by (unfold sqnorm; rewrite dot_smul_l, dot_smul_r; ring). rewrite E in HD.
  set (a := sqnorm (mvec (J x) v)) in *. set (b := sqnorm v) in *.
  assert (Dec : a + (mu - C) * b <= F x - F x1) by lra.
  assert (PM : 2 * damping_factor_max <= M /\ mu0 <= M) by (split; [apply Rmax_r|apply Rmax_l]).
  assert (Pcap : 0 < damping_factor_max) by (unfold damping_factor_max; lra).
  assert (Hbig : tol < norm2 (G x) -> dl <= pred / 4).
  { intros HT. pose proof (damped_curvature m n (J x) mu (G x) v B HM (proj1 Hmu) PB (fun u Hu => sm_jac _ _ _ _ _ _ HSm x u Hx Hu HF0) Hv) as K. rewrite En in K. fold a b in K.
    assert (Pe : 0 <= a + mu * b) by (apply Rplus_le_le_0_compat; [exact Pj|apply Rmult_le_pos; lra]).
    assert (K2 : sqnorm (G x) <= (B * B + M) * (a + mu * b)) by (eapply Rle_trans; [exact K|apply Rmult_le_compat_r; lra]).
    assert (K3 : tol * tol <= sqnorm (G x)) by (unfold sqnorm; rewrite <- norm2_sq; apply Rmult_le_compat; lra).
    assert (PBM : 0 < B * B + M) by (pose proof (Rmult_le_pos _ _ PB PB); lra).
    unfold lm_decrease. apply Rmult_le_reg_r with (8 * (B * B + M)); [lra|]. unfold Rdiv at 1. rewrite Rmult_assoc, Rinv_l, Rmult_1_r by lra.
    apply Rle_trans with ((B * B + M) * (a + mu * b)); [lra|]. unfold pred. replace (1 / 2 * (a + 2 * (mu * b)) / 4 * (8 * (B * B + M))) with ((B * B + M) * (a + mu * b + mu * b)) by field.
    apply Rmult_le_compat_l; [lra|]. assert (0 <= mu * b) by (apply Rmult_le_pos; lra). lra. }
  destruct Hcase as [(Hlt & Eu & Hat)|(Hle & Eu & Hat)].
  - set (rho := (F x - F x1) / pred) in *. assert (Er : F x - F x1 = rho * pred) by (unfold rho; field; lra).
    assert (Prho : 0 < rho) by (apply Rdiv_lt_0_compat; lra). pose proof (accept_bounds mu rho (proj1 Hmu) Prho) as AB. unfold damping_accept in AB.
    set (mu' := mu * Rmax (1 / 3) (1 - (2 * rho - 1) ^ 3)) in *.
    assert (Hr2 : 2 * C <= mu -> 1 / 2 <= rho).
    { intros H2. apply Rmult_le_reg_r with pred; [exact Pp|]. rewrite <- Er. eapply Rle_trans; [|exact Dec]. unfold pred.
      assert (0 <= (mu - 2 * C) * b) by (apply Rmult_le_pos; lra). lra. }
    assert (HM' : mu' <= M).
    { destruct (Rle_lt_dec (2 * C) mu) as [H2|H2]; [|lra]. specialize (Hr2 H2). apply Rle_trans with mu; [|lra]. rewrite <- (Rmult_1_r mu). apply Rmult_le_compat_l; [lra|].
      apply Rmax_lub; [lra|]. assert (0 <= (2 * rho - 1) ^ 3) by (apply pow_le; lra). lra. }
    exists x1, mu', 2, st'. split; [exact Eu|]. split; [exact Lx1|]. split; [exact Hat|]. split; [lra|]. split; [exact Ei|]. split; [lra|]. split; [unfold increase_factor_max; lra|]. split; [lra|].
    intros HT. specialize (Hbig HT). destruct (Rle_lt_dec rho (1 / 4)) as [Hs|Hs].
    + right. split; [destruct (Rle_lt_dec (2 * C) mu) as [H2|H2]; [specialize (Hr2 H2); lra|exact H2]|].
      unfold mu'. rewrite (Rmult_comm (9 / 8)). apply Rmult_le_compat_l; [lra|]. eapply Rle_trans; [|apply Rmax_r].
      assert (K : (1 / 2) ^ 3 <= (1 - 2 * rho) ^ 3) by (apply pow_incr; lra). replace ((2 * rho - 1) ^ 3) with (- (1 - 2 * rho) ^ 3) by ring. lra.
    + left. assert (1 / 4 * pred <= rho * pred) by (apply Rmult_le_compat_r; lra). lra.
  - assert (HmC : mu <= C). { destruct (Rle_lt_dec mu C) as [|K]; [assumption|]. exfalso. assert (0 < (mu - C) * b) by (apply Rmult_lt_0_compat; lra). lra. }
    assert (K2 : 2 * mu <= Rmin (mu * nu) damping_factor_max) by (apply Rmin_glb; [rewrite (Rmult_comm 2); apply Rmult_le_compat_l; lra|lra]).
    exists x. eexists. eexists. exists st'. split; [exact Eu|]. split; [exact Hx|]. split; [exact Hat|]. split; [lra|]. split; [exact Ei|].
    pose proof (Rmin_r (mu * nu) damping_factor_max). split; [lra|]. split; [split; [apply Rmin_glb; unfold increase_factor_max; lra|apply Rmin_r]|]. split; [lra|]. intros _. right. lra.
Qed.
(** The loop stops once the budget of g decreases and b increases of the damping is used up. *)
Lemma conv_loop : lm_stop cfg = "grad-l2-norm" -> lm_tol cfg = tol -> forall fuel g b x mu nu st, (g + b <= fuel)%nat ->
  length x = n -> at_ x mu nu st -> 0 < mu <= M -> 2 <= nu <= increase_factor_max -> F x <= F0 -> F x < INR g * dl -> 2 * C * 3 ^ g <= mu * (9 / 8) ^ b ->
  exists x' st', loop fuel (fin x, st) = Ok (fin x', st') /\ length x' = n /\ F x' <= F x /\ norm2 (G x') <= tol /\ l_value st' = Fin (F x') /\ l_error st' = Fin (norm2 (G x')) /\ (l_iter st' <= l_iter st + (g + b))%nat.
Proof.
  intros Hstop Et. pose proof (sm_C _ _ _ _ _ _ HSm) as PC.
  assert (Fpos : forall y, 0 <= F y) by (intros y; unfold lm_cost; pose proof (sqnorm_nonneg (r y)); lra).
  assert (P98 : forall k, 0 < (9 / 8) ^ k) by (intros; apply pow_lt; lra). assert (P3 : forall k, 1 <= 3 ^ k) by (intros; apply pow_R1_Rle; lra).
  induction fuel as [|fuel IH]; intros g b x mu nu st Hf Hx HA Hmu Hnu HF0 Hg0 Hb.
  { assert (g = 0%nat) by lia. subst g. simpl INR in Hg0. specialize (Fpos x). lra. }
  cbn [lm_loop]. unfold lm_cond. rewrite Hstop. simpl string_dec. cbv iota. rewrite (at_error _ _ _ _ _ _ _ _ HA). cbn [xgtb]. rewrite Et.
  destruct (Rlt_dec tol (norm2 (G x))) as [HT|HT].
  - assert (HG : G x <> vzero n). { intros K. rewrite K in HT. unfold norm2 in HT. rewrite dot_vzero_l, sqrt_0 in HT. lra. }
    destruct (conv_step x mu nu st Hx HA Hmu Hnu HF0 HG) as (x1 & mu1 & nu1 & st1 & Eu & L1 & A1 & F1 & I1 & M1 & N1 & D1 & Hc). rewrite Eu.
    destruct (Hc HT) as [Hgood|[Hlt Hbad]].
    + destruct g as [|g]; [simpl INR in Hg0; specialize (Fpos x); lra|].
      assert (Q1 : F x1 < INR g * dl) by (rewrite S_INR in Hg0; lra).
      assert (Q2 : 2 * C * 3 ^ g <= mu1 * (9 / 8) ^ b). { simpl pow in Hb. specialize (P98 b). assert (mu / 3 * (9 / 8) ^ b <= mu1 * (9 / 8) ^ b) by (apply Rmult_le_compat_r; lra). lra. }
      destruct (IH g b x1 mu1 nu1 st1 ltac:(lia) L1 A1 M1 N1 ltac:(lra) Q1 Q2) as (x' & st' & E & L' & F' & T & V & Er & Ti). exists x', st'. split; [exact E|]. repeat split; auto; [lra|lia].
    + destruct b as [|b]. { simpl pow in Hb. specialize (P3 g). assert (2 * C * 1 <= 2 * C * 3 ^ g) by (apply Rmult_le_compat_l; lra). lra. }
      assert (Q2 : 2 * C * 3 ^ g <= mu1 * (9 / 8) ^ b). { simpl pow in Hb. specialize (P98 b). assert (9 / 8 * mu * (9 / 8) ^ b <= mu1 * (9 / 8) ^ b) by (apply Rmult_le_compat_r; lra). lra. }
      destruct (IH g b x1 mu1 nu1 st1 ltac:(lia) L1 A1 M1 N1 ltac:(lra) ltac:(lra) Q2) as (x' & st' & E & L' & F' & T & V & Er & Ti). exists x', st'. split; [exact E|]. repeat split; auto; [lra|lia].
  - exists x, st. split; [reflexivity|]. destruct HA. repeat split; auto; [lra|lra|lia].
Qed.
End Conv.
