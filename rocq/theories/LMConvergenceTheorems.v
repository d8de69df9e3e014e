(** C73: Levenberg-Marquardt reaches every gradient tolerance, when the damping cap allows it. *)
From Coq Require Import String.
From Coq Require Import Reals List Lra Lia Bool Arith ZArith.
From Verif Require Import Prelude Vec Mat LinAlg LinSolve LinSolveProofs LinSolveTheorems XArith Run GaussNewton GNConvergence GNConvergenceProofs LM LMProofs LMTheorems LMConvergence LMConvergenceProofs.
Import ListNotations.
Local Open Scope string_scope.
Open Scope R_scope.

(** run(): for every budget of [good] decreases and [bad] increases of the damping that is large
    enough, whatever the solver option and Jacobian mode, the run stops at the gradient tolerance
    after at most good + bad + 1 updates. *)
Theorem C73_run : forall m n r J D2 res jt_op jtj_op d2fvv jac_fun solver_fn la_solve pos_solve la_tri la_inv la_qr cfg (x0 : vec) C B mx good bad maxiter,
  lm_ok m n r J D2 res jt_op jtj_op d2fvv jac_fun solver_fn la_solve pos_solve la_tri la_inv la_qr ->
  lm_geodesic cfg = false -> lm_stop cfg = "grad-l2-norm" -> 0 < lm_tol cfg -> 0 < lm_damping_parameter cfg -> length x0 = n ->
  (forall i, (i < n)%nat -> sqnorm (mvec (J x0) (unit_vec n i)) <= mx) -> (exists i, (i < n)%nat /\ mx = sqnorm (mvec (J x0) (unit_vec n i))) -> 0 < mx ->
  lm_smooth n r J (lm_cost r x0) C B -> 2 * C <= damping_factor_max ->
  let mu0 := lm_damping_parameter cfg * mx in
  lm_cost r x0 < INR good * lm_decrease mu0 B (lm_tol cfg) -> 2 * C * 3 ^ (S good) <= mu0 * (9 / 8) ^ bad -> (S (good + bad) <= maxiter)%nat ->
  exists x st, lm_run n res jt_op jtj_op d2fvv jac_fun solver_fn la_solve pos_solve la_tri la_inv la_qr cfg maxiter (fin x0) = Ok (fin x, st) /\
    length x = n /\ lm_cost r x <= lm_cost r x0 /\ norm2 (lm_gradient n r J x) <= lm_tol cfg /\ l_error st = Fin (norm2 (lm_gradient n r J x)) /\ (l_iter st <= S (good + bad))%nat.
Proof.
  intros m n r J D2 res jt_op jtj_op d2fvv jac_fun solver_fn la_solve pos_solve la_tri la_inv la_qr cfg x0 C B mx good bad maxiter HO Hg Hs Ht Hd Hx Hmx1 Hmx2 Pmx HSm Hcap mu0 HF Hb Hmax.
  set (tol := lm_tol cfg) in *. pose proof (sm_C _ _ _ _ _ _ HSm) as PC.
  assert (Pmu0 : 0 < mu0) by (apply Rmult_lt_0_compat; assumption).
  assert (Pdec : 0 < lm_decrease mu0 B tol).
  { unfold lm_decrease. apply Rdiv_lt_0_compat; [apply Rmult_lt_0_compat; assumption|]. pose proof (Rmax_l mu0 (2 * damping_factor_max)) as Q. fold (damping_bound mu0) in Q. pose proof (Rle_0_sqr B) as Q2. unfold Rsqr in Q2. lra. }
  assert (Hn : (0 < n)%nat) by (destruct Hmx2 as (i & Hi & _); lia).
  destruct (C45_init m n r J D2 res jt_op jtj_op d2fvv jac_fun solver_fn la_solve pos_solve la_tri la_inv la_qr cfg x0 HO Hn Hx) as (mx' & B1 & (j & Hj & B2) & HA).
  assert (Emx : mx' = mx) by (destruct Hmx2 as (i & Hi & Ei); specialize (B1 i Hi); specialize (Hmx1 j Hj); lra). rewrite Emx in HA. fold mu0 in HA.
  destruct maxiter as [|k]; [lia|]. unfold lm_run.
  destruct (list_eq_dec Req_EM_T (lm_gradient n r J x0) (vzero n)) as [HG|HG].
  - assert (N0 : norm2 (lm_gradient n r J x0) = 0) by (rewrite HG; apply norm2_zero_iff; rewrite vzero_length; reflexivity).
    destruct (C45_stationary_refuted m n r J D2 res jt_op jtj_op d2fvv jac_fun solver_fn la_solve pos_solve la_tri la_inv la_qr cfg x0 _ 2 _ HO Hg Hx HA Pmu0 HG) as (E1 & _ & E3 & E4).
    destruct (lm_update n res jt_op jtj_op d2fvv jac_fun solver_fn la_solve pos_solve la_tri la_inv la_qr cfg (fin x0, lm_init_state n res jt_op jtj_op jac_fun cfg (fin x0))) as [y sy] eqn:Eu. cbn [fst snd] in E1, E3, E4. subst y.
    assert (Iy : l_iter sy = 1%nat). { unfold lm_update in Eu. destruct (lm_directions n jt_op jtj_op d2fvv solver_fn la_solve pos_solve la_tri la_inv la_qr cfg (fin x0) (lm_init_state n res jt_op jtj_op jac_fun cfg (fin x0))). injection Eu as _ <-. cbn [l_iter]. unfold lm_init_state. destruct (lm_materialize cfg); reflexivity. }
    exists x0, sy. split; [|split; [exact Hx|split; [lra|split; [rewrite N0; lra|split; [rewrite N0; exact E3|lia]]]]].
    destruct k; [reflexivity|]. cbn [lm_loop]. unfold lm_cond. rewrite Hs. simpl string_dec. cbv iota. rewrite E3. cbn [xgtb]. fold tol. destruct (Rlt_dec tol 0); [lra|reflexivity].
  - destruct (conv_step m n r J D2 res jt_op jtj_op d2fvv jac_fun solver_fn la_solve pos_solve la_tri la_inv la_qr cfg (lm_cost r x0) C B mu0 tol HO Hg HSm Hcap Ht x0 mu0 2 _ Hx HA (conj Pmu0 (Rmax_l _ _)) ltac:(unfold increase_factor_max; lra) (Rle_refl _) HG)
      as (x1 & mu1 & nu1 & st1 & Eu & L1 & A1 & F1 & I1 & M1 & N1 & D1 & _). rewrite Eu.
    assert (Hb1 : 2 * C * 3 ^ good <= mu1 * (9 / 8) ^ bad).
    { assert (P98 : 0 < (9 / 8) ^ bad) by (apply pow_lt; lra). assert (mu0 / 3 * (9 / 8) ^ bad <= mu1 * (9 / 8) ^ bad) by (apply Rmult_le_compat_r; lra). simpl pow in Hb. lra. }
    destruct (conv_loop m n r J D2 res jt_op jtj_op d2fvv jac_fun solver_fn la_solve pos_solve la_tri la_inv la_qr cfg (lm_cost r x0) C B mu0 tol HO Hg HSm Hcap Ht Hs eq_refl k good bad x1 mu1 nu1 st1 ltac:(lia) L1 A1 M1 N1 F1 ltac:(lra) Hb1)
      as (x & st & E & L & Fx & T & V & Er & Ti). exists x, st. split; [exact E|]. split; [exact L|]. split; [lra|]. split; [exact T|]. split; [exact Er|].
    assert (I0 : l_iter (lm_init_state n res jt_op jtj_op jac_fun cfg (fin x0)) = 0%nat) by (unfold lm_init_state; destruct (lm_materialize cfg); reflexivity). lia.
Qed.
Print Assumptions C73_run.

Lemma real_below_nat r : exists k, r < INR k.
Proof.
  exists (Z.to_nat (up r)). destruct (archimed r) as [H _]. destruct (Z.le_gt_cases 0 (up r)) as [Hz|Hz].
  - rewrite INR_IZR_INZ, Z2Nat.id by exact Hz. lra.
  - apply IZR_lt in Hz. pose proof (pos_INR (Z.to_nat (up r))). lra.
Qed.
(** Hence every tolerance is reached, if maxiter is large enough. *)
Theorem C73_terminates : forall m n r J D2 res jt_op jtj_op d2fvv jac_fun solver_fn la_solve pos_solve la_tri la_inv la_qr cfg (x0 : vec) C B,
  lm_ok m n r J D2 res jt_op jtj_op d2fvv jac_fun solver_fn la_solve pos_solve la_tri la_inv la_qr ->
  lm_geodesic cfg = false -> lm_stop cfg = "grad-l2-norm" -> 0 < lm_tol cfg -> 0 < lm_damping_parameter cfg -> length x0 = n ->
  (exists i, (i < n)%nat /\ 0 < sqnorm (mvec (J x0) (unit_vec n i))) -> lm_smooth n r J (lm_cost r x0) C B -> 2 * C <= damping_factor_max ->
  exists K, forall maxiter, (K <= maxiter)%nat ->
  exists x st, lm_run n res jt_op jtj_op d2fvv jac_fun solver_fn la_solve pos_solve la_tri la_inv la_qr cfg maxiter (fin x0) = Ok (fin x, st) /\
    lm_cost r x <= lm_cost r x0 /\ norm2 (lm_gradient n r J x) <= lm_tol cfg /\ (l_iter st <= K)%nat.
Proof.
  intros m n r J D2 res jt_op jtj_op d2fvv jac_fun solver_fn la_solve pos_solve la_tri la_inv la_qr cfg x0 C B HO Hg Hs Ht Hd Hx (i & Hi & HJ) HSm Hcap.
  pose proof (sm_C _ _ _ _ _ _ HSm) as PC.
  destruct (C45_init m n r J D2 res jt_op jtj_op d2fvv jac_fun solver_fn la_solve pos_solve la_tri la_inv la_qr cfg x0 HO ltac:(lia) Hx) as (mx & B1 & B2 & _).
  assert (Pmx : 0 < mx) by (specialize (B1 i Hi); lra). set (mu0 := lm_damping_parameter cfg * mx). assert (Pmu0 : 0 < mu0) by (apply Rmult_lt_0_compat; assumption).
  assert (Pdec : 0 < lm_decrease mu0 B (lm_tol cfg)).
  { unfold lm_decrease. apply Rdiv_lt_0_compat; [apply Rmult_lt_0_compat; assumption|]. pose proof (Rmax_l mu0 (2 * damping_factor_max)) as Q. fold (damping_bound mu0) in Q. pose proof (Rle_0_sqr B) as Q2. unfold Rsqr in Q2. lra. }
  destruct (real_below_nat (lm_cost r x0 / lm_decrease mu0 B (lm_tol cfg))) as [good Hgood].
  assert (H1 : lm_cost r x0 < INR good * lm_decrease mu0 B (lm_tol cfg)).
  { apply Rmult_lt_reg_r with (/ lm_decrease mu0 B (lm_tol cfg)); [apply Rinv_0_lt_compat; exact Pdec|]. rewrite Rmult_assoc, Rinv_r by lra. unfold Rdiv in Hgood. lra. }
  destruct (Pow_x_infinity (9 / 8) ltac:(rewrite Rabs_pos_eq; lra) (2 * C * 3 ^ S good / mu0)) as [bad Hbad]. specialize (Hbad bad (Nat.le_refl _)). rewrite Rabs_pos_eq in Hbad by (apply pow_le; lra).
  assert (H2 : 2 * C * 3 ^ S good <= mu0 * (9 / 8) ^ bad).
  { apply Rmult_le_reg_r with (/ mu0); [apply Rinv_0_lt_compat; exact Pmu0|]. rewrite (Rmult_comm mu0), (Rmult_assoc _ mu0), Rinv_r by lra. unfold Rdiv in Hbad. lra. }
  exists (S (good + bad)). intros maxiter Hm.
  destruct (C73_run m n r J D2 res jt_op jtj_op d2fvv jac_fun solver_fn la_solve pos_solve la_tri la_inv la_qr cfg x0 C B mx good bad maxiter HO Hg Hs Ht Hd Hx B1 B2 Pmx HSm Hcap H1 H2 Hm) as (x & st & E & _ & Fx & T & _ & Ti).
  exists x, st. auto.
Qed.
Print Assumptions C73_terminates.

(** The smoothness condition holds for residuals whose Jacobian is bounded by B and L-Lipschitz,
    with C = (L sqrt(2 F0) + B^2) / 2. *)
Theorem C73_smooth : forall m n (r : vec -> vec) J F0 L B, residual_shapes m n r J -> is_jacobian m n r J -> 0 <= L -> 0 < B -> 0 <= F0 ->
  (forall x v, length x = n -> length v = n -> norm2 (mvec (J x) v) <= B * norm2 v) ->
  (forall x y v, length x = n -> length y = n -> length v = n -> norm2 (vsub (mvec (J x) v) (mvec (J y) v)) <= L * norm2 (vsub x y) * norm2 v) ->
  lm_smooth n r J F0 ((L * sqrt (2 * F0) + B * B) / 2) B.
Proof.
  intros m n r J F0 L B HS HJ PL PB PF HB HL. pose proof (sqrt_pos (2 * F0)) as Psq. pose proof (Rmult_le_pos _ _ PL Psq) as PLs.
  split; [|lra| |intros; apply HB; assumption].
  - assert (0 < B * B) by (apply Rmult_lt_0_compat; assumption). lra.
  - intros x d Hx Hd HF. set (y := vadd x d). assert (Ly : length y = n) by (unfold y; rewrite vadd_length; unfold vec in *; lia).
    assert (Ed : vsub y x = d). { apply vec_ext; [rewrite vsub_length; unfold vec in *; lia|]. intros i Hi. unfold y. rewrite nth_vsub, nth_vadd. ring. }
    destruct (HS x Hx) as [Lr HM]. destruct (HS y Ly) as [Lry _].
    assert (K1 : norm2 (vsub (vsub (r y) (r x)) (mvec (J x) (vsub y x))) <= L / 2 * (norm2 (vsub y x) * norm2 (vsub y x))).
    { apply (linearisation_bound m n); try assumption. intros t Ht. set (z := vadd x (smul t (vsub y x))). assert (Lz : length z = n) by (unfold z; rewrite vadd_length, smul_length, vsub_length; unfold vec in *; lia).
      assert (Ez : norm2 (vsub z x) = t * norm2 (vsub y x)).
      { replace (vsub z x) with (smul t (vsub y x)); [rewrite norm2_smul, Rabs_pos_eq by lra; reflexivity|].
        apply vec_ext; [rewrite smul_length, !vsub_length, Lz; unfold vec in *; lia|]. intros i Hi. unfold z. rewrite nth_smul, nth_vsub, nth_vsub, nth_vadd, nth_smul, nth_vsub. ring. }
      rewrite <- Ez. apply HL; [exact Lz|exact Hx|rewrite vsub_length; unfold vec in *; lia]. }
    assert (K2 : norm2 (vsub (r y) (r x)) <= B * norm2 (vsub y x)).
    { apply (residual_lipschitz m n) with (jac := J); try assumption; [lra|]. intros t Ht. apply HB; [rewrite vadd_length, smul_length, vsub_length; unfold vec in *; lia|rewrite vsub_length; unfold vec in *; lia]. }
    rewrite Ed in K1, K2. set (e := vsub (r y) (r x)) in *. pose proof (norm2_nonneg d) as Pd. pose proof (norm2_nonneg e) as Pe.
    assert (Er : r y = vadd (r x) e). { apply vec_ext; [rewrite vadd_length; unfold e; rewrite vsub_length; unfold vec in *; lia|]. intros i Hi. unfold e. rewrite nth_vadd, nth_vsub. ring. }
    assert (S0 : lm_cost r y = lm_cost r x + dot (r x) e + 1 / 2 * sqnorm e) by (unfold lm_cost, sqnorm; rewrite Er; autorewrite with vec; rewrite (dot_comm e); field).
    assert (Eg : dot (lm_gradient n r J x) d = dot (r x) (mvec (J x) d)) by (unfold lm_gradient; apply (dot_tvec n); assumption).
    assert (S1 : dot (r x) e = dot (r x) (mvec (J x) d) + dot (r x) (vsub e (mvec (J x) d))) by (rewrite dot_vsub_r; ring).
    pose proof (dot_le_norm (r x) (vsub e (mvec (J x) d))) as CS.
    assert (Nr : norm2 (r x) <= sqrt (2 * F0)). { unfold norm2. apply sqrt_le_1_alt. unfold lm_cost, sqnorm in HF. lra. }
    assert (S2 : norm2 (r x) * norm2 (vsub e (mvec (J x) d)) <= sqrt (2 * F0) * (L / 2 * (norm2 d * norm2 d))) by (apply Rmult_le_compat; try apply norm2_nonneg; assumption).
    assert (S3 : sqnorm e <= (B * norm2 d) * (B * norm2 d)). { unfold sqnorm. rewrite <- norm2_sq. apply Rmult_le_compat; assumption. }
    assert (S4 : sqnorm d = norm2 d * norm2 d) by (symmetry; apply norm2_sq). unfold vec in *. rewrite S4, Eg. lra.
Qed.
Print Assumptions C73_smooth.

(** The damping factor is capped at 2^32, whatever the units of the parameters.  For the residual
    u / sqrt(1 + u^2), u = 10^6 x, started at x = 2e-6 (u = 2), every damping up to the cap gives a
    step past x = -2e-6, which is rejected: the run performs all maxiter iterations without moving,
    although the residual vanishes at x = 0. *)
Lemma sig_cost a : lm_cost sig_r [a] = 1 / 2 * ((1000000 * a) * (1000000 * a) / (1 + (1000000 * a) * (1000000 * a))).
Proof.
  unfold lm_cost, sqnorm, sig_r, sig_u. cbn. set (u := 1000000 * a). assert (P : 0 < 1 + u * u) by (pose proof (Rle_0_sqr u) as Q; unfold Rsqr in Q; lra).
  f_equal. pose proof (sqrt_lt_R0 _ P) as Ps. pose proof (sqrt_sqrt (1 + u * u) ltac:(lra)) as E. rewrite Rplus_0_r. set (s := sqrt (1 + u * u)) in *. rewrite <- E. field. lra.
Qed.
Lemma sig_sq : 0 < sqrt 5 /\ sqrt 5 * sqrt 5 = 5.
Proof. split; [apply sqrt_lt_R0; lra|apply sqrt_sqrt; lra]. Qed.
Lemma sig_at : sig_u [2 / 1000000] = 2 /\ sig_r [2 / 1000000] = [2 / sqrt 5] /\ sig_J [2 / 1000000] = [[1000000 / (5 * sqrt 5)]].
Proof.
  assert (E : sig_u [2 / 1000000] = 2) by (unfold sig_u; cbn; field). unfold sig_r, sig_J. rewrite E. replace (1 + 2 * 2) with 5 by ring. auto.
Qed.
Lemma sig_gradient : lm_gradient 1 sig_r sig_J [2 / 1000000] = [80000].
Proof.
  destruct sig_at as (_ & Er & EJ). unfold lm_gradient. rewrite Er, EJ. cbn. f_equal. destruct sig_sq as [P E]. field_simplify; [|lra]. replace (sqrt 5 ^ 2) with 5 by (simpl; rewrite Rmult_1_r; lra). field.
Qed.
Lemma sig_reject mu v : 0 < mu <= damping_factor_max -> damped_solution 1 (sig_J [2 / 1000000]) mu (lm_gradient 1 sig_r sig_J [2 / 1000000]) v ->
  lm_cost sig_r [2 / 1000000] < lm_cost sig_r (vadd [2 / 1000000] (smul (-1) v)).
Proof.
  intros Hmu [Lv Ev]. rewrite sig_gradient in Ev. destruct sig_at as (_ & _ & EJ). rewrite EJ in Ev. destruct v as [|v [|]]; try discriminate. cbn in Ev. injection Ev as Ev. destruct sig_sq as [P E].
  assert (Ev2 : (8000000000 + mu) * v = 80000).
  { rewrite <- Ev. replace ((1000000 / (5 * sqrt 5) * v + 0) * (1000000 / (5 * sqrt 5)) + 0 + mu * v) with (1000000000000 / (25 * (sqrt 5 * sqrt 5)) * v + mu * v) by (field; lra). rewrite E. field. }
  unfold damping_factor_max in Hmu. assert (Hv : 4 / 1000000 < v).
  { apply Rmult_lt_reg_l with (8000000000 + mu); [lra|]. rewrite Ev2. lra. }
  change (lm_cost sig_r [2 / 1000000] < lm_cost sig_r [2 / 1000000 + -1 * v]). rewrite !sig_cost. replace (1000000 * (2 / 1000000)) with 2 by field.
  set (u := 1000000 * (2 / 1000000 + -1 * v)). assert (Hu : u < -2) by (unfold u; lra). assert (Q : 4 < u * u) by nra.
  apply Rmult_lt_compat_l; [lra|]. replace (2 * 2 / (1 + 2 * 2)) with (4 / 5) by field.
  apply Rmult_lt_reg_r with (1 + u * u); [lra|]. unfold Rdiv at 2. rewrite Rmult_assoc, Rinv_l by lra. lra.
Qed.
Theorem C73_cap_refuted : forall D2 res jt_op jtj_op d2fvv jac_fun solver_fn la_solve pos_solve la_tri la_inv la_qr cfg maxiter,
  lm_ok 1 1 sig_r sig_J D2 res jt_op jtj_op d2fvv jac_fun solver_fn la_solve pos_solve la_tri la_inv la_qr ->
  lm_geodesic cfg = false -> lm_stop cfg = "grad-l2-norm" -> 0 < lm_damping_parameter cfg <= 1 / 2 -> 0 <= lm_tol cfg < 80000 ->
  lm_cost sig_r [0] = 0 /\ lm_cost sig_r [2 / 1000000] = 2 / 5 /\
  exists st, lm_run 1 res jt_op jtj_op d2fvv jac_fun solver_fn la_solve pos_solve la_tri la_inv la_qr cfg maxiter (fin [2 / 1000000]) = Ok (fin [2 / 1000000], st) /\
    l_iter st = maxiter /\ l_error st = Fin 80000.
Proof.
  intros D2 res jt_op jtj_op d2fvv jac_fun solver_fn la_solve pos_solve la_tri la_inv la_qr cfg maxiter HO Hg Hs Hd Ht.
  split; [rewrite sig_cost; field; lra|]. split; [rewrite sig_cost; replace (1000000 * (2 / 1000000)) with 2 by field; field|].
  set (x0 := [2 / 1000000]) in *. set (upd := lm_update 1 res jt_op jtj_op d2fvv jac_fun solver_fn la_solve pos_solve la_tri la_inv la_qr cfg).
  assert (HG : lm_gradient 1 sig_r sig_J x0 = [80000]) by apply sig_gradient.
  assert (N8 : norm2 (lm_gradient 1 sig_r sig_J x0) = 80000). { rewrite HG. unfold norm2. cbn. replace (80000 * 80000 + 0) with (80000 * 80000) by ring. apply sqrt_square. lra. }
  assert (Pcap : 0 < damping_factor_max) by (unfold damping_factor_max; lra).
  assert (Hstep : forall mu nu st, lm_at 1 sig_r sig_J cfg x0 mu nu st -> 0 < mu <= damping_factor_max -> 2 <= nu <= increase_factor_max ->
    exists mu' nu' st', upd (fin x0, st) = (fin x0, st') /\ lm_at 1 sig_r sig_J cfg x0 mu' nu' st' /\ 0 < mu' <= damping_factor_max /\ 2 <= nu' <= increase_factor_max /\ l_iter st' = S (l_iter st)).
  { intros mu nu st HA Hmu Hnu.
    destruct (C45_step 1 1 sig_r sig_J D2 res jt_op jtj_op d2fvv jac_fun solver_fn la_solve pos_solve la_tri la_inv la_qr cfg x0 mu nu st HO Hg eq_refl HA (proj1 Hmu) ltac:(lra)) as (v & Hv & Pp & st' & _ & Ei & [(Hlt & _)|(_ & Eu & Hat)]).
    - rewrite HG. intros K. injection K as K. lra.
    - exfalso. pose proof (sig_reject mu v Hmu Hv) as K. cbv zeta in Hlt. unfold x0 in Hlt. lra.
    - eexists. eexists. exists st'. split; [exact Eu|]. split; [exact Hat|]. split; [split; [apply Rmin_glb_lt; [apply Rmult_lt_0_compat; lra|exact Pcap]|apply Rmin_r]|].
      split; [split; [apply Rmin_glb; unfold increase_factor_max; lra|apply Rmin_r]|exact Ei]. }
  assert (Hloop : forall fuel mu nu st, lm_at 1 sig_r sig_J cfg x0 mu nu st -> 0 < mu <= damping_factor_max -> 2 <= nu <= increase_factor_max ->
    exists st', lm_loop 1 res jt_op jtj_op d2fvv jac_fun solver_fn la_solve pos_solve la_tri la_inv la_qr cfg fuel (fin x0, st) = Ok (fin x0, st') /\ l_iter st' = (l_iter st + fuel)%nat /\ l_error st' = Fin 80000).
  { induction fuel as [|fuel IH]; intros mu nu st HA Hmu Hnu.
    - exists st. split; [reflexivity|]. split; [lia|]. rewrite (at_error _ _ _ _ _ _ _ _ HA), N8. reflexivity.
    - cbn [lm_loop]. unfold lm_cond. rewrite Hs. simpl string_dec. cbv iota. rewrite (at_error _ _ _ _ _ _ _ _ HA), N8. cbn [xgtb]. destruct (Rlt_dec (lm_tol cfg) 80000) as [_|K]; [|lra].
      destruct (Hstep mu nu st HA Hmu Hnu) as (mu' & nu' & st' & Eu & A' & M' & N' & I'). unfold upd in Eu. rewrite Eu.
      destruct (IH mu' nu' st' A' M' N') as (s2 & E & I2 & R2). exists s2. split; [exact E|]. split; [lia|exact R2]. }
  destruct (C45_init 1 1 sig_r sig_J D2 res jt_op jtj_op d2fvv jac_fun solver_fn la_solve pos_solve la_tri la_inv la_qr cfg x0 HO ltac:(lia) eq_refl) as (mx & _ & (i & Hi & Emx) & HA).
  assert (Em : mx = 8000000000).
  { rewrite Emx. destruct i as [|]; [|lia]. destruct sig_at as (_ & _ & EJ). unfold x0. rewrite EJ. cbn. unfold sqnorm. cbn. destruct sig_sq as [P E].
    replace (1000000 / (5 * sqrt 5) * 1 + 0) with (1000000 / (5 * sqrt 5)) by ring. replace (1000000 / (5 * sqrt 5) * (1000000 / (5 * sqrt 5)) + 0) with (1000000000000 / (25 * (sqrt 5 * sqrt 5))) by (field; lra). rewrite E. field. }
  rewrite Em in HA. assert (I0 : l_iter (lm_init_state 1 res jt_op jtj_op jac_fun cfg (fin x0)) = 0%nat) by (unfold lm_init_state; destruct (lm_materialize cfg); reflexivity).
  destruct maxiter as [|k].
  - exists (lm_init_state 1 res jt_op jtj_op jac_fun cfg (fin x0)). split; [reflexivity|]. split; [exact I0|]. rewrite (at_error _ _ _ _ _ _ _ _ HA), N8. reflexivity.
  - destruct (Hstep _ _ _ HA ltac:(unfold damping_factor_max; lra) ltac:(unfold increase_factor_max; lra)) as (mu' & nu' & st' & Eu & A' & M' & N' & I').
    unfold lm_run. unfold upd in Eu. rewrite Eu. destruct (Hloop k mu' nu' st' A' M' N') as (s2 & E & I2 & R2). exists s2. split; [exact E|]. split; [lia|exact R2].
Qed.
Print Assumptions C73_cap_refuted.

(** Hypotheses met by r(x) = sqrt(1 + x^2) from x0 = 1, with C = 1/2 and B = 1, and exact solvers. *)
Example C73_example : let r := fun x : vec => [sqrt (1 + nth 0 x 0 * nth 0 x 0)] in let J := fun x : vec => [[nth 0 x 0 / sqrt (1 + nth 0 x 0 * nth 0 x 0)]] in
  lm_smooth 1 r J (lm_cost r [1]) (1 / 2) 1 /\ 2 * (1 / 2) <= damping_factor_max /\ (exists i, (i < 1)%nat /\ 0 < sqnorm (mvec (J [1]) (unit_vec 1 i))) /\
  lm_ok 1 1 r J (fun _ _ => [0]) (fun x => fin (r (unf x))) (fun x y => fin (tvec 1 (J (unf x)) (unf y))) (fun x v => fin (tvec 1 (J (unf x)) (mvec (J (unf x)) (unf v))))
    (fun x v => fin [0]) (fun x => finm (J (unf x))) ex_solver ex_dense ex_dense ex_dense ex_inv (ex_qr 1).
Proof.
  intros r J. assert (Ps : forall a, 0 < 1 + a * a) by (intros a; pose proof (Rle_0_sqr a) as Q; unfold Rsqr in Q; lra).
  assert (Pq : forall a, 0 < sqrt (1 + a * a)) by (intros; apply sqrt_lt_R0, Ps). assert (Eq : forall a, sqrt (1 + a * a) * sqrt (1 + a * a) = 1 + a * a) by (intros a; apply sqrt_sqrt; specialize (Ps a); lra).
  assert (EF : forall a, lm_cost r [a] = 1 / 2 * (1 + a * a)) by (intros a; unfold lm_cost, sqnorm, r; cbn; rewrite Eq; ring).
  split; [split; [lra|lra| |]|split; [unfold damping_factor_max; lra|split; [|split]]].
  - intros [|a [|]] [|d [|]] Hx Hd _; try discriminate. change (vadd [a] [d]) with [a + d]. rewrite !EF. unfold lm_gradient, sqnorm, r, J. cbn. specialize (Pq a).
    replace ((a / sqrt (1 + a * a) * sqrt (1 + a * a) + 0) * d) with (a * d) by (field; lra). right. field. lra.
  - intros [|a [|]] [|v [|]] Hx Hv _; try discriminate. unfold norm2, J. cbn. rewrite Rmult_1_l. apply sqrt_le_1_alt. specialize (Pq a). specialize (Eq a). specialize (Ps a).
    set (s := sqrt (1 + a * a)) in *. replace ((a / s * v + 0) * (a / s * v + 0) + 0) with ((a * a) * (v * v) / (s * s)) by (field; lra). rewrite Eq.
    apply Rmult_le_reg_r with (1 + a * a); [exact Ps|]. unfold Rdiv. rewrite Rmult_assoc, Rinv_l by lra. pose proof (Rle_0_sqr v) as Q. unfold Rsqr in Q. lra.
  - exists 0%nat. split; [lia|]. unfold sqnorm, J. cbn. specialize (Pq 1). set (s := sqrt (1 + 1 * 1)) in *. replace ((1 / s * 1 + 0) * (1 / s * 1 + 0) + 0) with ((/ s) * (/ s)) by (field; lra). pose proof (Rinv_0_lt_compat _ Pq). apply Rmult_lt_0_compat; assumption.
  - apply (lifted_lm_functions 1 1 r J (fun _ _ => [0])); [|reflexivity]. intros x Hx. split; [reflexivity|]. split; [reflexivity|repeat constructor].
  - apply exact_lm_solvers.
Qed.
