(** C45: Levenberg-Marquardt. *)
From Coq Require Import String.
From Coq Require Import Reals List Lra Lia Bool Arith.
From Verif Require Import Prelude Vec Mat LinAlg LinSolve LinSolveProofs LinSolveTheorems EqQPProofs XArith GramSchmidt Run LM LMProofs.
Import ListNotations.
Local Open Scope string_scope.
Open Scope R_scope.

Section Theorems.
Variables (m n : nat) (r : vec -> vec) (J : vec -> mat) (D2 : vec -> vec -> vec)
  (res : xvec -> xvec) (jt_op jtj_op d2fvv : xvec -> xvec -> xvec) (jac_fun : xvec -> xmat)
  (solver_fn : (xvec -> xvec) -> xvec -> xnum -> option xvec -> xvec) (la_solve pos_solve la_tri : xmat -> xvec -> xvec) (la_inv : xmat -> xmat) (la_qr : xmat -> xmat * xmat)
  (cfg : lm_config).
Notation dirs := (lm_directions n jt_op jtj_op d2fvv solver_fn la_solve pos_solve la_tri la_inv la_qr cfg).
Notation upd := (lm_update n res jt_op jtj_op d2fvv jac_fun solver_fn la_solve pos_solve la_tri la_inv la_qr cfg).
Notation init := (lm_init_state n res jt_op jtj_op jac_fun cfg).
Notation run := (lm_run n res jt_op jtj_op d2fvv jac_fun solver_fn la_solve pos_solve la_tri la_inv la_qr cfg).
Notation at_ := (lm_at n r J cfg).
Notation F := (lm_cost r).
Notation G := (lm_gradient n r J).
Definition lm_ok : Prop := lm_functions m n r J D2 res jt_op jtj_op d2fvv jac_fun /\ lm_solvers n solver_fn la_solve pos_solve la_tri la_inv la_qr.

Lemma predicted_eq x mu v : lm_ok -> length x = n -> damped_solution n (J x) mu (G x) v ->
  predicted mu (smul (-1) v) (G x) = 1 / 2 * (sqnorm (mvec (J x) v) + 2 * (mu * sqnorm v)).
Proof.
  intros [HF _] Hx Hd. destruct (lf_shape _ _ _ _ _ _ _ _ _ _ HF x Hx) as [_ HM]. unfold predicted. rewrite dot_smul_l, (damped_energy m n (J x) mu (G x) v HM Hd). unfold sqnorm. rewrite dot_smul_l, dot_smul_r. ring.
Qed.
Lemma velocity_nonzero x mu v : lm_ok -> length x = n -> 0 < mu -> G x <> vzero n -> damped_solution n (J x) mu (G x) v -> 0 < sqnorm v.
Proof.
  intros [HF _] Hx Hmu Hne Hd. destruct (lf_shape _ _ _ _ _ _ _ _ _ _ HF x Hx) as [_ HM].
  destruct (Rle_lt_or_eq_dec 0 (sqnorm v) (sqnorm_nonneg v)) as [|E]; [assumption|]. exfalso. apply Hne. destruct Hd as [L <-].
  assert (Z : v = vzero n) by (apply sqnorm_zero_vec; [exact L|symmetry; exact E]). rewrite Z, mvec_vzero, (proj1 HM).
  apply vec_eq_dot; [rewrite vadd_length, (tvec_length m), smul_length, !vzero_length by exact HM; lia|].
  intros w. rewrite dot_vadd_l, (dot_tvec n), dot_smul_l, !dot_vzero_l by exact HM. ring.
Qed.
Lemma cube_bound t : 0 < t -> 1 - (2 * t - 1) ^ 3 < 2.
Proof.
  intros H. set (u := 2 * t - 1). assert (E : 2 - (1 - u ^ 3) = (1 + u) * (u * u - u + 1)) by ring. assert (Hq : 0 < u * u - u + 1) by (assert (0 <= (u - 1 / 2) * (u - 1 / 2)) by apply Rle_0_sqr; lra).
  assert (0 < (1 + u) * (u * u - u + 1)) by (apply Rmult_lt_0_compat; [unfold u; lra|exact Hq]). lra.
Qed.
Lemma accept_bounds mu rho : 0 < mu -> 0 < rho -> mu / 3 <= damping_accept mu rho < 2 * mu.
Proof.
  intros Hmu Hr. unfold damping_accept. assert (H1 := Rmax_l (1 / 3) (1 - (2 * rho - 1) ^ 3)). assert (Hc := cube_bound rho Hr).
  assert (H2 : Rmax (1 / 3) (1 - (2 * rho - 1) ^ 3) < 2) by (apply Rmax_lub_lt; lra). split; [apply Rle_trans with (mu * (1 / 3)); [lra|apply Rmult_le_compat_l; lra]|rewrite Rmult_comm; apply Rmult_lt_compat_r; assumption].
Qed.

(** One update without geodesic acceleration from a non-stationary point, whatever the solver option
    and Jacobian mode.  The step -v solves (J^T J + mu I) v = J^T r.  It is taken exactly when it
    decreases the objective; the new state describes the new (or unchanged) point. *)
Theorem C45_step : forall x mu nu st, lm_ok -> lm_geodesic cfg = false -> length x = n -> at_ x mu nu st -> 0 < mu -> 0 < nu -> G x <> vzero n ->
  exists v, damped_solution n (J x) mu (G x) v /\
    let x1 := vadd x (smul (-1) v) in
    let pred := 1 / 2 * (sqnorm (mvec (J x) v) + 2 * (mu * sqnorm v)) in
    let rho := (F x - F x1) / pred in
    0 < pred /\
    exists st', l_delta st' = fin (smul (-1) v) /\ l_iter st' = S (l_iter st) /\
    ((F x1 < F x /\ upd (fin x, st) = (fin x1, st') /\ at_ x1 (mu * Rmax (1 / 3) (1 - (2 * rho - 1) ^ 3)) 2 st') \/
     (F x <= F x1 /\ upd (fin x, st) = (fin x, st') /\ at_ x (Rmin (mu * nu) damping_factor_max) (Rmin (2 * nu) increase_factor_max) st')).
Proof.
  intros x mu nu st HO Hg Hx HA Hmu Hnu Hne. destruct HO as [HF HS]. destruct (directions_exact m n r J D2 res jt_op jtj_op d2fvv jac_fun solver_fn la_solve pos_solve la_tri la_inv la_qr cfg HF HS x mu nu st Hx HA Hmu) as (v & a & ED & Hv & _).
  exists v. split; [exact Hv|]. cbv zeta. assert (Ep := predicted_eq x mu v (conj HF HS) Hx Hv).
  assert (Pv := velocity_nonzero x mu v (conj HF HS) Hx Hmu Hne Hv). assert (Pj := sqnorm_nonneg (mvec (J x) v)).
  assert (Pp : 0 < 1 / 2 * (sqnorm (mvec (J x) v) + 2 * (mu * sqnorm v))) by (assert (0 < mu * sqnorm v) by (apply Rmult_lt_0_compat; assumption); lra). split; [exact Pp|].
  assert (Ld : length (smul (-1) v) = n) by (rewrite smul_length; apply Hv).
  destruct (gain_step m n r J D2 res jt_op jtj_op d2fvv jac_fun solver_fn la_solve pos_solve la_tri la_inv la_qr cfg HF x mu nu st v a (smul (-1) v) Hx HA Hmu Ld ED) as (st' & Eu & E1 & E2 & E3).
  - rewrite Hg. reflexivity.
  - rewrite Ep. lra.
  - rewrite Hg. discriminate.
  - rewrite Hg in Eu, E3. rewrite Ep in Eu, E3. exists st'. split; [exact E1|]. split; [exact E2|].
    set (x1 := vadd x (smul (-1) v)) in *. set (p := 1 / 2 * (sqnorm (mvec (J x) v) + 2 * (mu * sqnorm v))) in *.
    destruct (Rlt_dec 0 ((F x - F x1) / p)) as [Hr|Hr]; simpl in Eu, E3.
    + left. split; [|split; assumption]. assert (F x - F x1 = (F x - F x1) / p * p) by (field; lra). assert (0 < (F x - F x1) / p * p) by (apply Rmult_lt_0_compat; assumption). lra.
    + right. split; [|split; assumption]. apply Rnot_lt_le. intros C. apply Hr. apply Rdiv_lt_0_compat; lra.
Qed.
(** Damping stays positive and at most max(2 * previous, cap); the increase factor stays in [2, cap]. *)
Theorem C45_damping : forall x mu nu st, lm_ok -> lm_geodesic cfg = false -> length x = n -> at_ x mu nu st -> 0 < mu -> 2 <= nu <= increase_factor_max -> G x <> vzero n ->
  exists x' mu' nu' st', upd (fin x, st) = (fin x', st') /\ length x' = n /\ at_ x' mu' nu' st' /\ F x' <= F x /\ (x' <> x -> F x' < F x) /\
    l_iter st' = S (l_iter st) /\ 0 < mu' /\ 2 <= nu' <= increase_factor_max /\ (mu' < 2 * mu \/ mu' <= damping_factor_max).
Proof.
  intros x mu nu st HO Hg Hx HA Hmu Hnu Hne. assert (Hnu0 : 0 < nu) by lra.
  destruct (C45_step x mu nu st HO Hg Hx HA Hmu Hnu0 Hne) as (v & Hv & Pp & st' & _ & Ei & [(Hlt & Eu & Hat)|(Hle & Eu & Hat)]).
  - exists (vadd x (smul (-1) v)). eexists. eexists. exists st'. split; [exact Eu|]. split; [rewrite vadd_length, smul_length, (proj1 Hv); unfold vec in *; lia|]. split; [exact Hat|].
    match type of Hat with lm_at _ _ _ _ _ (mu * Rmax _ (1 - (2 * ?rho - 1) ^ 3)) _ _ => assert (Hr : 0 < rho) by (apply Rdiv_lt_0_compat; lra); assert (B := accept_bounds mu rho Hmu Hr) end.
    unfold damping_accept in B. split; [lra|]. split; [intros; exact Hlt|]. split; [exact Ei|]. split; [lra|]. split; [unfold increase_factor_max; lra|]. left. lra.
  - exists x. eexists. eexists. exists st'. split; [exact Eu|]. split; [exact Hx|]. split; [exact Hat|]. split; [lra|]. split; [intros C; contradiction|]. split; [exact Ei|].
    split; [apply Rmin_glb_lt; [apply Rmult_lt_0_compat; lra|unfold damping_factor_max; lra]|]. split; [split; [apply Rmin_glb; [lra|unfold increase_factor_max; lra]|apply Rmin_r]|]. right. apply Rmin_r.
Qed.
(** A large enough damping forces acceptance: if F(x+d) <= F(x) + <G(x), d> + C |d|^2 and mu > C. *)
Theorem C45_accept : forall x mu nu st C, lm_ok -> lm_geodesic cfg = false -> length x = n -> at_ x mu nu st -> 0 < mu -> 0 < nu -> G x <> vzero n ->
  (forall d, length d = n -> F (vadd x d) <= F x + dot (G x) d + C * sqnorm d) -> C < mu ->
  exists x' st', upd (fin x, st) = (fin x', st') /\ F x' < F x.
Proof.
  intros x mu nu st C HO Hg Hx HA Hmu Hnu Hne HC Hlt. destruct (C45_step x mu nu st HO Hg Hx HA Hmu Hnu Hne) as (v & Hv & Pp & st' & _ & _ & [(H1 & Eu & _)|(Hle & _)]).
  - eexists. exists st'. split; [exact Eu|exact H1].
  - exfalso. assert (Lv : length (smul (-1) v) = n) by (rewrite smul_length; apply Hv). specialize (HC _ Lv).
    rewrite dot_smul_r, dot_comm, (damped_energy m n (J x) mu (G x) v (proj2 (lf_shape _ _ _ _ _ _ _ _ _ _ (proj1 HO) x Hx)) Hv) in HC.
    assert (Pv := velocity_nonzero x mu v HO Hx Hmu Hne Hv). assert (Pj := sqnorm_nonneg (mvec (J x) v)).
    assert (E : sqnorm (smul (-1) v) = sqnorm v) by (unfold sqnorm; rewrite dot_smul_l, dot_smul_r; ring). rewrite E in HC. nra.
Qed.
Lemma diag_entry M i : (i < n)%nat -> mat_shape m n M -> entry (mmul n (mtrans n M) M) i i = sqnorm (mvec M (unit_vec n i)).
Proof.
  intros Hi HM. assert (HT := mtrans_shape m n M (proj1 HM)). rewrite (entry_dot n n) by (try assumption; apply (mmul_shape n n m); assumption).
  rewrite mvec_mmul, (mvec_mtrans m n) by (try exact HM; rewrite mvec_length; apply HM). rewrite dot_comm, (dot_tvec n) by exact HM. reflexivity.
Qed.
Lemma xvmax_fin a (x : vec) : exists b, xvmax (fin (a :: x)) = Fin b /\ (forall c, In c (a :: x) -> c <= b) /\ In b (a :: x).
Proof.
  cbn [fin map xvmax]. fold (fin x). revert a. induction x as [|c x IH]; intros a.
  - exists a. split; [reflexivity|]. split; [intros d [<-|[]]; lra|left; reflexivity].
  - cbn [fin map fold_left xmax]. fold (fin x). destruct (IH (Rmax a c)) as (b & E & Hb & Hin). exists b. split; [exact E|]. split.
    + intros d [<-|[<-|Hd]]; [|apply Rle_trans with (Rmax a c); [apply Rmax_r|apply Hb; left; reflexivity]|apply Hb; right; exact Hd].
      apply Rle_trans with (Rmax a c); [apply Rmax_l|apply Hb; left; reflexivity].
    + destruct Hin as [<-|Hin]; [|right; right; exact Hin]. unfold Rmax. destruct (Rle_dec a c); [right; left|left]; reflexivity.
Qed.
(** The initial state describes init_params, with damping = damping_parameter * max diag(J^T J). *)
Theorem C45_init : forall x, lm_ok -> (0 < n)%nat -> length x = n ->
  exists mx, (forall i, (i < n)%nat -> sqnorm (mvec (J x) (unit_vec n i)) <= mx) /\ (exists i, (i < n)%nat /\ mx = sqnorm (mvec (J x) (unit_vec n i))) /\
    at_ x (lm_damping_parameter cfg * mx) 2 (init (fin x)).
Proof.
  intros x HO Hn Hx. destruct HO as [HF HS]. destruct (lf_shape _ _ _ _ _ _ _ _ _ _ HF x Hx) as [Lr HM].
  set (dg := map (fun i => sqnorm (mvec (J x) (unit_vec n i))) (seq 0 n)).
  assert (Hdg : exists mx, xvmax (fin dg) = Fin mx /\ (forall i, (i < n)%nat -> sqnorm (mvec (J x) (unit_vec n i)) <= mx) /\ (exists i, (i < n)%nat /\ mx = sqnorm (mvec (J x) (unit_vec n i)))).
  { destruct dg as [|a dg'] eqn:Ed; [apply (f_equal (@length R)) in Ed; unfold dg in Ed; rewrite map_length, seq_length in Ed; simpl in Ed; lia|].
    destruct (xvmax_fin a dg') as (b & E & Hb & Hin). exists b. split; [exact E|]. rewrite <- Ed in Hb, Hin. unfold dg in Hb, Hin. split.
    - intros i Hi. apply Hb. apply in_map_iff. exists i. split; [reflexivity|]. apply in_seq. lia.
    - apply in_map_iff in Hin. destruct Hin as (i & E' & Hi). exists i. apply in_seq in Hi. split; [lia|symmetry; exact E']. }
  destruct Hdg as (mx & Emx & B1 & B2). exists mx. split; [exact B1|]. split; [exact B2|].
  assert (LZ : exists d, xvzero n = fin d /\ length d = n) by (exists (vzero n); split; [apply xvzero_fin|apply vzero_length]).
  unfold lm_init_state. rewrite (lf_res _ _ _ _ _ _ _ _ _ _ HF), (lf_jac _ _ _ _ _ _ _ _ _ _ HF) by exact Hx. destruct (lm_materialize cfg) eqn:Em.
  - rewrite xmtrans_fin, xmmul_fin, xtvec_fin, xdiag_fin.
    assert (Edg : map (fun i => entry (mmul n (mtrans n (J x)) (J x)) i i) (seq 0 n) = dg) by (apply map_ext_in; intros i Hi; apply in_seq in Hi; apply diag_entry; [lia|exact HM]).
    rewrite Edg, Emx. split; cbn [l_damping l_increase l_residual l_value l_gradient l_error l_delta l_jac l_jtj]; rewrite ?Em; try reflexivity; try apply half_sum_fin; try apply xnorm2_fin; exact LZ.
  - rewrite (lf_jt _ _ _ _ _ _ _ _ _ _ HF) by assumption.
    assert (Edg : jtj_diag_op n jtj_op (fin x) = fin dg).
    { transitivity (map (fun i => Fin (sqnorm (mvec (J x) (unit_vec n i)))) (seq 0 n)); [|unfold fin, dg; rewrite map_map; reflexivity]. unfold jtj_diag_op. apply map_ext. intros i. cbv zeta. rewrite (lf_jtj _ _ _ _ _ _ _ _ _ _ HF) by (try exact Hx; apply unit_vec_length).
      rewrite xdot_fin, dot_comm, (dot_tvec n) by exact HM. reflexivity. }
    rewrite Edg, Emx. split; cbn [l_damping l_increase l_residual l_value l_gradient l_error l_delta l_jac l_jtj]; rewrite ?Em; try reflexivity; try apply half_sum_fin; try apply xnorm2_fin; exact LZ.
Qed.
(** A stationary point (gradient exactly 0): the parameters are kept, but the gain ratio is 0/0 and
    the damping factor becomes NaN. *)
Theorem C45_stationary_refuted : forall x mu nu st, lm_ok -> lm_geodesic cfg = false -> length x = n -> at_ x mu nu st -> 0 < mu -> G x = vzero n ->
  fst (upd (fin x, st)) = fin x /\ l_damping (snd (upd (fin x, st))) = NaN /\ l_error (snd (upd (fin x, st))) = Fin 0 /\ l_value (snd (upd (fin x, st))) = Fin (F x).
Proof.
  intros x mu nu st [HF HS] Hg Hx HA Hmu HG. destruct (lf_shape _ _ _ _ _ _ _ _ _ _ HF x Hx) as [Lr HM].
  destruct (directions_exact m n r J D2 res jt_op jtj_op d2fvv jac_fun solver_fn la_solve pos_solve la_tri la_inv la_qr cfg HF HS x mu nu st Hx HA Hmu) as (v & a & ED & Hv & _).
  rewrite HG in Hv. assert (Ev := damped_zero m n (J x) mu v HM Hmu Hv). subst v.
  unfold lm_update. rewrite ED, Hg. cbv zeta. rewrite xopp_fin.
  assert (Ez : smul (-1) (vzero n) = vzero n) by (apply vec_eq_dot; [rewrite smul_length; reflexivity|]; intros w; rewrite dot_smul_l, dot_vzero_l; ring). rewrite Ez.
  unfold update_delta. cbn [t_params t_damping t_gradient]. rewrite (at_value _ _ _ _ _ _ _ _ HA), (at_damping _ _ _ _ _ _ _ _ HA), (at_gradient _ _ _ _ _ _ _ _ HA), (at_increase _ _ _ _ _ _ _ _ HA), (at_residual _ _ _ _ _ _ _ _ HA).
  rewrite xvadd_fin. assert (Ex : vadd x (vzero n) = x) by (apply vadd_vzero_r; unfold vec in *; lia). rewrite Ex, (lf_res _ _ _ _ _ _ _ _ _ _ HF) by exact Hx. rewrite half_sum_fin, !xsmul_fin, xvsub_fin, xdot_fin.
  rewrite dot_smul_l, dot_vzero_l. fold (F x). cbn [xsub xdivx]. destruct (Req_EM_T (1 / 2 * 0) 0) as [_|C]; [|exfalso; apply C; ring]. unfold xinf_times.
  destruct (Rlt_dec 0 (F x - F x)) as [C|_]; [lra|]. destruct (Rlt_dec (F x - F x) 0) as [C|_]; [lra|].
  unfold update_gain. simpl xgtb. cbn [andb]. unfold blend_tuple, gain_true, gain_false. cbv zeta. cbn [t_params t_damping t_increase t_residual t_gradient t_jac t_jtj fst snd l_damping l_error l_value].
  rewrite (lf_res _ _ _ _ _ _ _ _ _ _ HF) by exact Hx. split; [apply blend_vec_fin; reflexivity|]. split; [reflexivity|].
  assert (Eg' : (match (if lm_materialize cfg then Some (jac_fun (fin x)) else None) with Some jac => xtvec n jac (fin (r x)) | None => jt_op (fin x) (fin (r x)) end) = fin (G x)).
  { rewrite (lf_jac _ _ _ _ _ _ _ _ _ _ HF) by exact Hx. destruct (lm_materialize cfg); [apply xtvec_fin|]. apply (lf_jt _ _ _ _ _ _ _ _ _ _ HF); assumption. }
  rewrite Eg', !blend_vec_fin by reflexivity. split; [|apply half_sum_fin]. rewrite xnorm2_fin, HG. f_equal. unfold norm2. rewrite dot_vzero_l. apply sqrt_0.
Qed.
Lemma lm_loop_inv : lm_ok -> lm_geodesic cfg = false -> lm_stop cfg = "grad-l2-norm" -> 0 <= lm_tol cfg -> forall fuel x mu nu st,
  length x = n -> at_ x mu nu st -> 0 < mu -> 2 <= nu <= increase_factor_max ->
  exists x' st', lm_loop n res jt_op jtj_op d2fvv jac_fun solver_fn la_solve pos_solve la_tri la_inv la_qr cfg fuel (fin x, st) = Ok (fin x', st') /\
    length x' = n /\ F x' <= F x /\ l_value st' = Fin (F x') /\ l_residual st' = fin (r x') /\ l_error st' = Fin (norm2 (G x')) /\
    (norm2 (G x') <= lm_tol cfg \/ l_iter st' = (l_iter st + fuel)%nat) /\ (l_iter st' <= l_iter st + fuel)%nat.
Proof.
  intros HO Hg Hstop Htol. induction fuel as [|fuel IH]; intros x mu nu st Hx HA Hmu Hnu.
  - exists x, st. split; [reflexivity|]. split; [exact Hx|]. split; [lra|]. destruct HA. repeat split; auto; lia.
  - cbn [lm_loop]. unfold lm_cond. rewrite Hstop. simpl string_dec. cbv iota. rewrite (at_error _ _ _ _ _ _ _ _ HA). cbn [xgtb].
    destruct (Rlt_dec (lm_tol cfg) (norm2 (G x))) as [Hlt|Hge].
    + assert (HG : G x <> vzero n). { intros C. rewrite C in Hlt. unfold norm2 in Hlt. rewrite dot_vzero_l, sqrt_0 in Hlt. lra. }
      destruct (C45_damping x mu nu st HO Hg Hx HA Hmu Hnu HG) as (x1 & mu1 & nu1 & st1 & Eu & L1 & A1 & F1 & _ & I1 & M1 & N1 & _).
      match goal with |- context [lm_loop _ _ _ _ _ _ _ _ _ _ _ _ _ fuel ?s] => replace s with (fin x1, st1) by (symmetry; exact Eu) end.
      destruct (IH x1 mu1 nu1 st1 L1 A1 M1 N1) as (x' & st' & E & L' & F' & V & RR & E' & T & Ti). exists x', st'. split; [exact E|]. split; [exact L'|]. split; [lra|]. split; [exact V|]. split; [exact RR|]. split; [exact E'|].
      rewrite I1 in T, Ti. split; [destruct T as [T|T]; [left; exact T|right; lia]|lia].
    + exists x, st. split; [reflexivity|]. split; [exact Hx|]. split; [lra|]. destruct HA. repeat split; auto; [|lia]. left. lra.
Qed.
(** run(): with the default stopping test and a Jacobian that is not zero at the start, the returned
    parameters never have a larger objective than the initial ones, the state reports value, residual
    and gradient norm at them, and run stops at the tolerance or after maxiter updates. *)
Theorem C45_run : forall maxiter x0, lm_ok -> lm_geodesic cfg = false -> lm_stop cfg = "grad-l2-norm" -> 0 <= lm_tol cfg -> 0 < lm_damping_parameter cfg ->
  length x0 = n -> (exists i, (i < n)%nat /\ 0 < sqnorm (mvec (J x0) (unit_vec n i))) -> (0 < maxiter)%nat ->
  exists x st, run maxiter (fin x0) = Ok (fin x, st) /\ length x = n /\ F x <= F x0 /\ l_value st = Fin (F x) /\ l_error st = Fin (norm2 (G x)) /\
    (norm2 (G x) <= lm_tol cfg \/ l_iter st = maxiter) /\ (l_iter st <= maxiter)%nat.
Proof.
  intros maxiter x0 HO Hg Hs Ht Hd Hx (i & Hi & HJ) Hm. destruct maxiter as [|k]; [lia|]. unfold lm_run.
  destruct (C45_init x0 HO ltac:(lia) Hx) as (mx & B & _ & HA). assert (Hmu : 0 < lm_damping_parameter cfg * mx) by (apply Rmult_lt_0_compat; [exact Hd|specialize (B i Hi); lra]).
  assert (Hnu : 2 <= 2 <= increase_factor_max) by (unfold increase_factor_max; lra).
  destruct (list_eq_dec Req_EM_T (G x0) (vzero n)) as [HG|HG].
  - destruct (C45_stationary_refuted x0 _ 2 _ HO Hg Hx HA Hmu HG) as (E1 & _ & E3 & E4). destruct (upd (fin x0, init (fin x0))) as [y st] eqn:Eu. cbn [fst snd] in *. subst y.
    assert (N0 : norm2 (G x0) = 0) by (rewrite HG; unfold norm2; rewrite dot_vzero_l; apply sqrt_0).
    assert (Ei : l_iter st = 1%nat). { unfold lm_update in Eu. destruct (dirs (fin x0) (init (fin x0))). injection Eu as _ <-. cbn [l_iter]. unfold lm_init_state. destruct (lm_materialize cfg); reflexivity. }
    exists x0, st. assert (El : lm_loop n res jt_op jtj_op d2fvv jac_fun solver_fn la_solve pos_solve la_tri la_inv la_qr cfg k (fin x0, st) = Ok (fin x0, st)).
    { destruct k; [reflexivity|]. cbn [lm_loop]. unfold lm_cond. rewrite Hs. simpl string_dec. cbv iota. rewrite E3. cbn [xgtb]. destruct (Rlt_dec (lm_tol cfg) 0); [lra|reflexivity]. }
    split; [exact El|]. split; [exact Hx|]. split; [lra|]. split; [exact E4|]. split; [rewrite N0; exact E3|]. split; [left; lra|lia].
  - destruct (C45_damping x0 _ 2 _ HO Hg Hx HA Hmu Hnu HG) as (x1 & mu1 & nu1 & st1 & Eu & L1 & A1 & F1 & _ & I1 & M1 & N1 & _).
    match goal with |- context [lm_loop _ _ _ _ _ _ _ _ _ _ _ _ _ k ?s] => replace s with (fin x1, st1) by (symmetry; exact Eu) end.
    destruct (lm_loop_inv HO Hg Hs Ht k x1 mu1 nu1 st1 L1 A1 M1 N1) as (x & st & E & L & Fx & V & _ & Er & T & Ti). exists x, st. split; [exact E|]. split; [exact L|]. split; [lra|]. split; [exact V|]. split; [exact Er|].
    assert (I0 : l_iter (init (fin x0)) = 0%nat) by (unfold lm_init_state; destruct (lm_materialize cfg); reflexivity). rewrite I1, I0 in T, Ti. split; [destruct T; [left; assumption|right; lia]|lia].
Qed.
Lemma xdot_self_cases z : xdot z z = NaN \/ xdot z z = PInf \/ exists y, z = fin y.
Proof.
  induction z as [|a z IH]; [right; right; exists []; reflexivity|]. cbn [xdot].
  assert (H0 : forall y, 0 <= dot y y) by apply sqnorm_nonneg.
  destruct a as [a| | |]; cbn [xmul]; destruct IH as [->|[->|(y & ->)]]; auto.
  all: try (right; right; exists (a :: y); reflexivity).
  all: try (rewrite xdot_fin; auto).
Qed.
Lemma xdot_nan z w i : nth_error z i = Some NaN -> length z = length w -> xdot z w = NaN.
Proof.
  revert w i. induction z as [|a z IH]; intros [|b w] [|i] H L; try discriminate; simpl in L.
  - injection H as ->. cbn [xdot xmul]. destruct (xdot z w); reflexivity.
  - cbn [xdot]. rewrite (IH w i) by (assumption || lia). destruct (xmul a b); reflexivity.
Qed.
Lemma nonfinite_entry z : (forall y, z <> fin y) -> exists i a, nth_error z i = Some a /\ forall b, a <> Fin b.
Proof.
  induction z as [|a z IH]; intros H; [exfalso; apply (H []); reflexivity|]. destruct a as [a| | |]; try (exists 0%nat; eexists; split; [reflexivity|discriminate]).
  destruct IH as (i & c & E & Hc); [intros y C; apply (H (a :: y)); rewrite C; reflexivity|]. exists (S i), c. auto.
Qed.
(** Overflow at the trial point: the step is rejected and the parameters stay, but 0 * inf leaks
    into the state, whose damping factor and value become NaN.  Here y, g, M are the residual,
    gradient and Jacobian held at params. *)
Theorem C45_overflow_refuted : forall (x y g v a : vec) M mu nu st, lm_geodesic cfg = false -> length x = n -> mat_shape m n M -> 0 < mu -> g <> vzero n -> length g = n ->
  l_damping st = Fin mu -> l_increase st = Fin nu -> l_residual st = fin y -> l_gradient st = fin g -> l_value st = Fin (1 / 2 * sqnorm y) ->
  dirs (fin x) st = (fin v, fin a) -> damped_solution n M mu g v ->
  let trial := res (fin (vadd x (smul (-1) v))) in
  length trial = length y -> (forall z, trial <> fin z) ->
  fst (upd (fin x, st)) = fin x /\ l_damping (snd (upd (fin x, st))) = NaN /\ l_value (snd (upd (fin x, st))) = NaN.
Proof.
  intros x y g v a M mu nu st Hgeo Hx HM Hmu Hg Lg E1 E2 E3 E4 E5 ED Hv trial Lt Ht.
  unfold lm_update. rewrite ED, Hgeo. cbv zeta. rewrite xopp_fin. unfold update_delta. cbn [t_params t_damping t_gradient]. rewrite E1, E2, E3, E4, E5.
  rewrite xvadd_fin. fold trial. rewrite !xsmul_fin, xvsub_fin, xdot_fin.
  set (p := dot (smul (1 / 2) (smul (-1) v)) (vsub (smul mu (smul (-1) v)) g)).
  assert (Hp : 0 < p).
  { unfold p. rewrite !dot_smul_l, dot_vsub_r, !dot_smul_r, (damped_energy m n M mu g v HM Hv). assert (P1 := sqnorm_nonneg (mvec M v)).
    assert (P2 : 0 < sqnorm v).
    { destruct (Rle_lt_or_eq_dec 0 (sqnorm v) (sqnorm_nonneg v)) as [|E]; [assumption|]. exfalso. apply Hg. destruct Hv as [Lv <-]. assert (Z : v = vzero n) by (apply sqnorm_zero_vec; [exact Lv|symmetry; exact E]). rewrite Z, mvec_vzero, (proj1 HM).
      apply vec_eq_dot; [rewrite vadd_length, (tvec_length m), smul_length, !vzero_length by exact HM; lia|]. intros w. rewrite dot_vadd_l, (dot_tvec n), dot_smul_l, !dot_vzero_l by exact HM. ring. }
    fold (sqnorm v). assert (0 < mu * sqnorm v) by (apply Rmult_lt_0_compat; assumption). lra. }
  assert (Hloss : xdivx (xsub (Fin (1 / 2 * sqnorm y)) (half_sum_squares trial)) (Fin p) = NaN \/ xdivx (xsub (Fin (1 / 2 * sqnorm y)) (half_sum_squares trial)) (Fin p) = NInf).
  { unfold half_sum_squares. destruct (xdot_self_cases trial) as [->|[->|(z & C)]]; [left; reflexivity| |exfalso; exact (Ht z C)]. right. cbn [xmul]. unfold xinf_times. destruct (Rlt_dec 0 (1 / 2)); [|lra]. simpl. destruct (Rlt_dec p 0); [lra|reflexivity]. }
  set (rho := xdivx (xsub (Fin (1 / 2 * sqnorm y)) (half_sum_squares trial)) (Fin p)) in *.
  unfold update_gain. assert (Etest : (xgtb rho 0 && xleb (Fin 0) 0)%bool = false) by (destruct Hloss as [-> | ->]; reflexivity). rewrite Etest.
  unfold blend_tuple, gain_true, gain_false. cbv zeta. cbn [t_params t_damping t_increase t_residual t_gradient t_jac t_jtj fst snd l_damping l_error l_value]. fold trial.
  split; [|split].
  - rewrite blend_vec_fin; [reflexivity|]. rewrite vadd_length, smul_length, (proj1 Hv). unfold vec in *; lia.
  - destruct Hloss as [-> | ->]; simpl; [reflexivity|]. unfold xinf_times. destruct (Rlt_dec 0 2); [|lra]. simpl. unfold xinf_times. destruct (Rlt_dec 0 mu); [|lra]. unfold blend. simpl. unfold xinf_times. destruct (Rlt_dec 0 0); [lra|]. reflexivity.
  - destruct (nonfinite_entry trial Ht) as (i & c & Ei & Hc).
    assert (EN : forall (z : xvec) (w : vec) i, length z = length w -> nth_error z i = Some c -> nth_error (blend_vec false z (fin w)) i = Some NaN).
    { induction z as [|u z IHz]; intros [|b w] [|k] L E; try discriminate; simpl in L.
      - injection E as ->. cbn. f_equal. unfold blend. cbn. destruct c as [c| | |]; [exfalso; apply (Hc c); reflexivity| | |]; cbn; unfold xinf_times; try (destruct (Rlt_dec 0 0); [lra|]); reflexivity.
      - cbn. apply IHz; [lia|exact E]. }
    unfold half_sum_squares. rewrite (xdot_nan _ _ i (EN trial y i Lt Ei) eq_refl). reflexivity.
Qed.
End Theorems.
Print Assumptions C45_step.
Print Assumptions C45_damping.
Print Assumptions C45_accept.
Print Assumptions C45_init.
Print Assumptions C45_stationary_refuted.
Print Assumptions C45_run.
Print Assumptions C45_overflow_refuted.

(** Every solver option, materialised or not, computes the same step. *)
Theorem C45_modes_agree : forall m n r J D2 res jt_op jtj_op d2fvv jac_fun solver_fn la_solve pos_solve la_tri la_inv la_qr cfg1 cfg2 x mu nu st1 st2,
  lm_functions m n r J D2 res jt_op jtj_op d2fvv jac_fun -> lm_solvers n solver_fn la_solve pos_solve la_tri la_inv la_qr ->
  lm_geodesic cfg1 = false -> lm_geodesic cfg2 = false -> length x = n -> lm_at n r J cfg1 x mu nu st1 -> lm_at n r J cfg2 x mu nu st2 -> 0 < mu -> 0 < nu -> lm_gradient n r J x <> vzero n ->
  let upd := lm_update n res jt_op jtj_op d2fvv jac_fun solver_fn la_solve pos_solve la_tri la_inv la_qr in
  exists x' mu' nu' st1' st2', upd cfg1 (fin x, st1) = (fin x', st1') /\ upd cfg2 (fin x, st2) = (fin x', st2') /\
    lm_at n r J cfg1 x' mu' nu' st1' /\ lm_at n r J cfg2 x' mu' nu' st2' /\ l_delta st1' = l_delta st2'.
Proof.
  intros m n r J D2 res jt_op jtj_op d2fvv jac_fun solver_fn la_solve pos_solve la_tri la_inv la_qr cfg1 cfg2 x mu nu st1 st2 HF HS G1 G2 Hx A1 A2 Hmu Hnu Hne upd.
  destruct (C45_step m n r J D2 res jt_op jtj_op d2fvv jac_fun solver_fn la_solve pos_solve la_tri la_inv la_qr cfg1 x mu nu st1 (conj HF HS) G1 Hx A1 Hmu Hnu Hne) as (v & Hv & _ & s1 & D1 & _ & C1).
  destruct (C45_step m n r J D2 res jt_op jtj_op d2fvv jac_fun solver_fn la_solve pos_solve la_tri la_inv la_qr cfg2 x mu nu st2 (conj HF HS) G2 Hx A2 Hmu Hnu Hne) as (w & Hw & _ & s2 & D3 & _ & C2).
  assert (E : w = v) by (apply (damped_unique m n (J x) mu (lm_gradient n r J x)); try assumption; apply (proj2 (lf_shape _ _ _ _ _ _ _ _ _ _ HF x Hx))). subst w.
  destruct C1 as [(F1 & U1 & B1)|(F1 & U1 & B1)]; destruct C2 as [(F2 & U2 & B2)|(F2 & U2 & B2)]; try lra.
  - exists (vadd x (smul (-1) v)). eexists. eexists. exists s1, s2. split; [exact U1|]. split; [exact U2|]. split; [exact B1|]. split; [exact B2|]. congruence.
  - exists x. eexists. eexists. exists s1, s2. split; [exact U1|]. split; [exact U2|]. split; [exact B1|]. split; [exact B2|]. congruence.
Qed.
Print Assumptions C45_modes_agree.

(** Stopping: 'grad-l2-norm' continues while |gradient| > tol; 'madsen-nielsen' continues while the
    gradient's maximum norm exceeds gtol and |delta| > xtol (|x| - xtol).  Stopping there implies the
    documented test, for xtol >= 0; any other option raises. *)
Theorem C45_stop : forall cfg (x : vec) st d g, l_gradient st = fin g -> l_delta st = fin d -> l_error st = Fin (norm2 g) -> g <> [] ->
  (lm_stop cfg = "grad-l2-norm" -> (lm_cond cfg (fin x, st) = Ok false <-> norm2 g <= lm_tol cfg)) /\
  (lm_stop cfg = "madsen-nielsen" ->
     (lm_cond cfg (fin x, st) = Ok false <-> ((forall c, In c g -> Rabs c <= lm_gtol cfg) \/ norm2 d <= lm_xtol cfg * (norm2 x - lm_xtol cfg))) /\
     (0 <= lm_xtol cfg -> lm_cond cfg (fin x, st) = Ok false -> ((forall c, In c g -> Rabs c <= lm_gtol cfg) \/ norm2 d <= lm_xtol cfg * (norm2 x + lm_xtol cfg)))) /\
  (lm_stop cfg <> "grad-l2-norm" -> lm_stop cfg <> "madsen-nielsen" -> lm_cond cfg (fin x, st) = Err NotImplementedErr).
Proof.
  intros cfg x st d g E1 E2 E3 Hg. split; [|split].
  - intros Hs. unfold lm_cond. rewrite Hs. simpl string_dec. cbv iota. rewrite E3. simpl. destruct (Rlt_dec (lm_tol cfg) (norm2 g)); split; intros H; try discriminate; try lra; reflexivity.
  - intros Hs. assert (K : lm_cond cfg (fin x, st) = Ok false <-> ((forall c, In c g -> Rabs c <= lm_gtol cfg) \/ norm2 d <= lm_xtol cfg * (norm2 x - lm_xtol cfg))).
    { unfold lm_cond. rewrite Hs. simpl string_dec. cbv iota. rewrite E1, E2, !xnorm2_fin. cbn [xsub xmul xltb].
      assert (Ea : map xabs (fin g) = fin (map Rabs g)) by (unfold fin; rewrite !map_map; reflexivity). rewrite Ea. destruct g as [|a g']; [contradiction|]. cbn [map].
      destruct (xvmax_fin (Rabs a) (map Rabs g')) as (b & Eb & Hb & Hin). rewrite Eb. cbn [xgtb]. change (Rabs a :: map Rabs g') with (map Rabs (a :: g')) in Hb, Hin.
      destruct (Rlt_dec (lm_gtol cfg) b) as [H1|H1].
      - destruct (Rlt_dec (lm_xtol cfg * (norm2 x - lm_xtol cfg)) (norm2 d)) as [H2|H2]; simpl; split; intros H; try discriminate; try reflexivity.
        + exfalso. destruct H as [H|H]; [|lra]. apply in_map_iff in Hin. destruct Hin as (c & Ec & Hc). specialize (H c Hc). lra.
        + right. lra.
      - simpl. split; intros _; [|reflexivity]. left. intros c Hc. apply Rle_trans with b; [|lra]. apply Hb. apply in_map. exact Hc. }
    split; [exact K|]. intros Hx H. apply K in H. destruct H as [H|H]; [left; exact H|right]. assert (0 <= lm_xtol cfg * lm_xtol cfg) by nra. lra.
  - intros H1 H2. unfold lm_cond. destruct (string_dec _ _); [contradiction|]. destruct (string_dec _ _); [contradiction|reflexivity].
Qed.
Print Assumptions C45_stop.
(** The converse fails: documented convergence (a zero step at the origin) does not stop the loop. *)
Theorem C45_stop_refuted : forall cfg st, lm_stop cfg = "madsen-nielsen" -> 0 < lm_xtol cfg -> lm_gtol cfg < 1 -> l_gradient st = fin [1] -> l_delta st = fin [0] ->
  norm2 [0] <= lm_xtol cfg * (norm2 [0] + lm_xtol cfg) /\ lm_cond cfg (fin [0], st) = Ok true.
Proof.
  intros cfg st Hs Hx Hg E1 E2. assert (N : norm2 [0] = 0) by (unfold norm2; simpl; replace (0 * 0 + 0) with 0 by ring; apply sqrt_0).
  split; [rewrite N; nra|]. unfold lm_cond. rewrite Hs. simpl string_dec. cbv iota. rewrite E1, E2, !xnorm2_fin, N. cbn.
  destruct (Rlt_dec (lm_gtol cfg) (Rabs 1)) as [_|C]; [|exfalso; apply C; rewrite Rabs_R1; exact Hg]. destruct (Rlt_dec (lm_xtol cfg * (0 - lm_xtol cfg)) 0) as [_|C]; [reflexivity|exfalso; apply C; nra].
Qed.
Print Assumptions C45_stop_refuted.
(** Constructor: materialize_jac=True with a user-supplied jac_fun fails with AttributeError. *)
Theorem C45_jac_fun_refuted : forall k, lm_first_use (Some k) true true = Err AttributeError /\ lm_first_use (Some k) true false = Ok tt /\
  (lm_first_use (Some k) false true = Ok tt <-> k <> SQr) /\ lm_first_use None true true = Err NotImplementedErr.
Proof. intros k. repeat split; try reflexivity; destruct k; intros H; try discriminate; try reflexivity; try congruence. Qed.
Print Assumptions C45_jac_fun_refuted.

(** With geodesic acceleration the step is -(v + a/2), with v and a solving the damped systems for
    J^T r and J^T r''(v, v).  It is taken iff |a| <= 0.75 |v| and the actual and predicted reductions
    have the same sign. *)
Theorem C45_geodesic : forall m n r J D2 res jt_op jtj_op d2fvv jac_fun solver_fn la_solve pos_solve la_tri la_inv la_qr cfg x mu nu st,
  lm_ok m n r J D2 res jt_op jtj_op d2fvv jac_fun solver_fn la_solve pos_solve la_tri la_inv la_qr ->
  lm_geodesic cfg = true -> length x = n -> lm_at n r J cfg x mu nu st -> 0 < mu -> lm_gradient n r J x <> vzero n ->
  exists v a, damped_solution n (J x) mu (lm_gradient n r J x) v /\ damped_solution n (J x) mu (tvec n (J x) (D2 x v)) a /\
    let d := smul (-1) (vadd v (smul (1 / 2) a)) in let pred := 1 / 2 * (mu * sqnorm d - dot d (lm_gradient n r J x)) in
    (pred <> 0 -> exists x' mu' nu' st', lm_update n res jt_op jtj_op d2fvv jac_fun solver_fn la_solve pos_solve la_tri la_inv la_qr cfg (fin x, st) = (fin x', st') /\ lm_at n r J cfg x' mu' nu' st' /\
       ((x' = vadd x d /\ 0 < (lm_cost r x - lm_cost r (vadd x d)) * pred /\ norm2 a <= 3 / 4 * norm2 v) \/
        (x' = x /\ ((lm_cost r x - lm_cost r (vadd x d)) * pred <= 0 \/ 3 / 4 * norm2 v < norm2 a)))).
Proof.
  intros m n r J D2 res jt_op jtj_op d2fvv jac_fun solver_fn la_solve pos_solve la_tri la_inv la_qr cfg x mu nu st HO Hg Hx HA Hmu Hne. assert (HO' := HO). destruct HO as [HF HS].
  destruct (directions_exact m n r J D2 res jt_op jtj_op d2fvv jac_fun solver_fn la_solve pos_solve la_tri la_inv la_qr cfg HF HS x mu nu st Hx HA Hmu) as (v & a & ED & Hv & Ha).
  exists v, a. split; [exact Hv|]. split; [exact Ha|]. cbv zeta. set (d := smul (-1) (vadd v (smul (1 / 2) a))). intros Hp.
  assert (Pv := velocity_nonzero m n r J D2 res jt_op jtj_op d2fvv jac_fun solver_fn la_solve pos_solve la_tri la_inv la_qr x mu v HO' Hx Hmu Hne Hv).
  assert (Nv : 0 < norm2 v) by (unfold norm2; apply sqrt_lt_R0; exact Pv).
  assert (Ld : length d = n) by (unfold d; rewrite smul_length, vadd_length, smul_length, (proj1 Hv), (proj1 Ha); lia).
  destruct (gain_step m n r J D2 res jt_op jtj_op d2fvv jac_fun solver_fn la_solve pos_solve la_tri la_inv la_qr cfg HF x mu nu st v a d Hx HA Hmu Ld ED) as (st' & Eu & _ & _ & E3).
  - rewrite Hg. reflexivity.
  - exact Hp.
  - intros _. lra.
  - rewrite Hg in Eu, E3. unfold predicted in Eu, E3. set (p := 1 / 2 * (mu * sqnorm d - dot d (lm_gradient n r J x))) in *. set (DF := lm_cost r x - lm_cost r (vadd x d)) in *.
    assert (Esg : forall q, 0 < DF / p -> q = p -> 0 < DF * q). { intros q H ->. assert (E : DF * p = DF / p * (p * p)) by (field; exact Hp). rewrite E. apply Rmult_lt_0_compat; [exact H|]. assert (0 <= p * p) by apply Rle_0_sqr. assert (p * p <> 0) by (intros C; apply Rmult_integral in C; tauto). lra. }
    assert (Esg' : ~ 0 < DF / p -> DF * p <= 0). { intros H. apply Rnot_lt_le. intros C. apply H. assert (E : DF / p = DF * p / (p * p)) by (field; exact Hp). rewrite E. apply Rdiv_lt_0_compat; [exact C|]. assert (0 <= p * p) by apply Rle_0_sqr. assert (p * p <> 0) by (intros C'; apply Rmult_integral in C'; tauto). lra. }
    assert (Er : norm2 a / norm2 v - contribution_ratio_threshold <= 0 <-> norm2 a <= 3 / 4 * norm2 v).
    { unfold contribution_ratio_threshold. assert (E : norm2 a = norm2 a / norm2 v * norm2 v) by (field; lra). split; intros H.
      - rewrite E. apply Rmult_le_compat_r; lra.
      - apply Rle_minus. apply Rmult_le_reg_r with (norm2 v); [exact Nv|]. rewrite <- E. exact H. }
    destruct (Rlt_dec 0 (DF / p)) as [H1|H1]; destruct (Rle_dec (norm2 a / norm2 v - contribution_ratio_threshold) 0) as [H2|H2]; simpl in Eu, E3.
    + exists (vadd x d). eexists. eexists. exists st'. split; [exact Eu|]. split; [exact E3|]. left. split; [reflexivity|]. split; [exact (Esg p H1 eq_refl)|apply Er; exact H2].
    + exists x. eexists. eexists. exists st'. split; [exact Eu|]. split; [exact E3|]. right. split; [reflexivity|]. right. apply Rnot_le_lt. intros C. apply H2. apply Er. exact C.
    + exists x. eexists. eexists. exists st'. split; [exact Eu|]. split; [exact E3|]. right. split; [reflexivity|]. left. exact (Esg' H1).
    + exists x. eexists. eexists. exists st'. split; [exact Eu|]. split; [exact E3|]. right. split; [reflexivity|]. left. exact (Esg' H1).
Qed.
Print Assumptions C45_geodesic.

(** ** The assumptions can be met: exact solvers, lifted to extended numbers *)
Definition unx (x : xnum) : R := match x with Fin a => a | _ => 0 end.
Definition unf (v : xvec) : vec := map unx v.
Definition unfm (M : xmat) : mat := map unf M.
Lemma unf_fin v : unf (fin v) = v.
Proof. unfold unf, fin. rewrite map_map. apply map_id. Qed.
Lemma unfm_fin M : unfm (finm M) = M.
Proof. unfold unfm, finm. rewrite map_map. rewrite <- (map_id M) at 2. apply map_ext. apply unf_fin. Qed.
Definition ex_solver (f : xvec -> xvec) (b : xvec) (ridge : xnum) (init : option xvec) : xvec :=
  fin (gauss_krylov (fun v => vadd (unf (f (fin v))) (smul (unx ridge) v)) (unf b) None).
Definition ex_dense (A : xmat) (b : xvec) : xvec := fin (gauss_solve (unfm A) (unf b)).
Definition ex_inv (A : xmat) : xmat := finm (gauss_inv (unfm A)).
Definition ex_qr (n : nat) (A : xmat) : xmat * xmat := let '(q, rr) := gs_qr n (unfm A) in (finm q, finm rr).
Lemma posdef_nonsingular n A : mat_shape n n A -> pos_def n A -> nonsingular n A.
Proof.
  intros HA HP. split; [exact HA|]. intros v Hv E. destruct (list_eq_dec Req_EM_T v (vzero n)) as [|Hne]; [assumption|].
  specialize (HP v Hv Hne). rewrite E, dot_vzero_r in HP. lra.
Qed.
Theorem exact_lm_solvers n : lm_solvers n ex_solver ex_dense ex_dense ex_dense ex_inv (ex_qr n).
Proof.
  assert (HD : forall A b, nonsingular n A -> length b = n -> exists s, ex_dense (finm A) (fin b) = fin s /\ length s = n /\ mvec A s = b).
  { intros A b HN Hb. unfold ex_dense. rewrite unfm_fin, unf_fin. exists (gauss_solve A b). split; [reflexivity|]. apply (gauss_exact n); assumption. }
  split.
  - intros m M f b mu init HM Hf Hmu Hb _. unfold ex_solver. rewrite unf_fin. cbn [unx].
    set (g := fun v => vadd (unf (f (fin v))) (smul mu v)).
    assert (Eg : forall v, length v = n -> g v = vadd (tvec n M (mvec M v)) (smul mu v)) by (intros v Hv; unfold g; rewrite Hf, unf_fin by exact Hv; reflexivity).
    assert (HL : is_linear n g).
    { split; [intros x Hx; rewrite Eg, vadd_length, smul_length, (tvec_length m) by assumption; unfold vec in *; lia|]. split.
      - intros x y Hx Hy. rewrite !Eg by (try assumption; apply vadd_length_eq; assumption). rewrite mvec_vadd, (tvec_vadd m) by exact HM.
        apply vec_eq_dot; [rewrite !vadd_length, !smul_length, !vadd_length, !(tvec_length m) by exact HM; unfold vec in *; lia|]. intros w. vring.
      - intros c x Hx. rewrite !Eg by (try assumption; rewrite smul_length; assumption). rewrite mvec_smul, (tvec_smul m) by exact HM.
        apply vec_eq_dot; [rewrite ?smul_length, !vadd_length, !smul_length, !(tvec_length m) by exact HM; unfold vec in *; lia|]. intros w. vring. }
    destruct (C42_example_regular n g b None HL) as [L E]; [|exact Hb|exact I|].
    + intros v Hv E. rewrite smul_0, vadd_vzero_r, Eg in E by (try exact Hv; rewrite Eg, vadd_length, smul_length, (tvec_length m) by assumption; unfold vec in *; lia).
      apply (damped_zero m n M mu); [exact HM|exact Hmu|]. split; [exact Hv|exact E].
    + exists (gauss_krylov g b None). split; [reflexivity|]. split; [exact L|]. rewrite <- Eg by exact L. exact E.
  - intros A b HA HP Hb. apply HD; [apply posdef_nonsingular; assumption|exact Hb].
  - intros A b HA _ HP Hb. apply HD; [apply posdef_nonsingular; assumption|exact Hb].
  - intros A HA HP. unfold ex_inv. rewrite unfm_fin. exists (gauss_inv A). split; [reflexivity|]. split; [unfold gauss_inv; rewrite (proj1 HA); unfold materialize_array; apply mtrans_shape; rewrite map_length, seq_length; reflexivity|].
    intros b Hb. apply (C42_example_inverse n); [apply posdef_nonsingular; assumption|exact Hb].
  - intros k A HA HI. unfold ex_qr. rewrite unfm_fin. assert (Q := gs_qr_exact n k A HA HI). destruct (gs_qr n A) as [q rr]. destruct Q as (Q1 & Q2 & Q3 & Q4 & Q5).
    exists q, rr. split; [reflexivity|]. split; [exact Q1|]. split; [exact Q2|]. split; [exact Q3|]. split; [exact Q4|]. intros b Hb. apply HD; assumption.
Qed.
(** Any residual function with shapes m, n lifts to extended numbers. *)
Theorem lifted_lm_functions m n r J D2 : (forall x, length x = n -> length (r x) = m /\ mat_shape m n (J x)) -> (forall x v, length x = n -> length v = n -> length (D2 x v) = m) ->
  lm_functions m n r J D2 (fun x => fin (r (unf x))) (fun x y => fin (tvec n (J (unf x)) (unf y))) (fun x v => fin (tvec n (J (unf x)) (mvec (J (unf x)) (unf v))))
    (fun x v => fin (D2 (unf x) (unf v))) (fun x => finm (J (unf x))).
Proof.
  intros H H2. split; [exact H| | | | |]; intros; rewrite ?unf_fin; try reflexivity. split; [reflexivity|apply H2; assumption].
Qed.

(** Geodesic acceleration can accept a step that increases the objective (the predicted reduction
    is negative, and so is the actual one): r(x) = (2.02 + 10 x1 - 3.7875 x2^2, 2 + x2 - 10 x2^3) from 0
    with damping_parameter 0.01. *)
Definition geo_r (x : vec) : vec :=
  let a := nth 0 x 0 in let b := nth 1 x 0 in [2.02 + 10 * a - 3.7875 * (b * b); 2 + b - 10 * (b * b * b)].
Definition geo_J (x : vec) : mat := let b := nth 1 x 0 in [[10; - 7.575 * b]; [0; 1 - 30 * (b * b)]].
Definition geo_D2 (x v : vec) : vec := let b := nth 1 x 0 in let w := nth 1 v 0 in [- 7.575 * (w * w); - 60 * b * (w * w)].
Definition geo_cfg : lm_config :=
  {| lm_materialize := false; lm_solver_kind := SCallable; lm_geodesic := true; lm_damping_parameter := 1 / 100;
     lm_stop := "grad-l2-norm"; lm_tol := 1 / 1000; lm_xtol := 1 / 1000; lm_gtol := 1 / 1000 |}.
Theorem C45_geodesic_refuted : forall res jt_op jtj_op d2fvv jac_fun solver_fn la_solve pos_solve la_tri la_inv la_qr,
  lm_ok 2 2 geo_r geo_J geo_D2 res jt_op jtj_op d2fvv jac_fun solver_fn la_solve pos_solve la_tri la_inv la_qr ->
  let st := lm_init_state 2 res jt_op jtj_op jac_fun geo_cfg (fin [0; 0]) in
  exists x st', lm_update 2 res jt_op jtj_op d2fvv jac_fun solver_fn la_solve pos_solve la_tri la_inv la_qr geo_cfg (fin [0; 0], st) = (fin x, st') /\
    lm_cost geo_r x > 10 * lm_cost geo_r [0; 0] /\ l_value st' = Fin (lm_cost geo_r x).
Proof.
  intros res jt_op jtj_op d2fvv jac_fun solver_fn la_solve pos_solve la_tri la_inv la_qr HO st.
  destruct (C45_init 2 2 geo_r geo_J geo_D2 res jt_op jtj_op d2fvv jac_fun solver_fn la_solve pos_solve la_tri la_inv la_qr geo_cfg [0; 0] HO ltac:(lia) eq_refl) as (mx & B & (i & Hi & Ei) & HA). fold st in HA.
  assert (Emx : mx = 100).
  { assert (B0 := B 0%nat ltac:(lia)). destruct i as [|[|]]; [|exfalso|lia].
    - rewrite Ei. unfold sqnorm, geo_J. simpl. lra.
    - rewrite Ei in B0. unfold sqnorm, geo_J in B0. simpl in B0. lra. }
  rewrite Emx in HA. cbn [lm_damping_parameter geo_cfg] in HA. replace (1 / 100 * 100) with 1 in HA by field.
  assert (EG : lm_gradient 2 geo_r geo_J [0; 0] = [20.2; 2]) by (unfold lm_gradient, geo_J, geo_r; simpl; repeat (f_equal; try lra)).
  assert (HM : mat_shape 2 2 (geo_J [0; 0])) by (split; [reflexivity|repeat constructor]).
  destruct (C45_geodesic 2 2 geo_r geo_J geo_D2 res jt_op jtj_op d2fvv jac_fun solver_fn la_solve pos_solve la_tri la_inv la_qr geo_cfg [0; 0] 1 2 st HO eq_refl eq_refl HA ltac:(lra)) as (v & a & Hv & Ha & HU).
  { rewrite EG. intros C. injection C as C _. lra. }
  rewrite EG in *.
  assert (Ev : v = [0.2; 1]).
  { apply (damped_unique 2 2 (geo_J [0; 0]) 1 [20.2; 2]); [exact HM|lra|exact Hv|]. split; [reflexivity|]. unfold geo_J. simpl. repeat (f_equal; try lra). }
  subst v. assert (Ea : a = [- 0.75; 0]).
  { apply (damped_unique 2 2 (geo_J [0; 0]) 1 (tvec 2 (geo_J [0; 0]) (geo_D2 [0; 0] [0.2; 1]))); [exact HM|lra|exact Ha|]. split; [reflexivity|]. unfold geo_J, geo_D2. simpl. repeat (f_equal; try lra). }
  subst a. cbv zeta in HU.
  set (d := smul (-1) (vadd [0.2; 1] (smul (1 / 2) [- 0.75; 0]))) in *.
  assert (Ed : d = [0.175; -1]) by (unfold d; simpl; repeat (f_equal; try lra)).
  assert (Epred : 1 / 2 * (1 * sqnorm d - dot d [20.2; 2]) = - 0.2521875) by (rewrite Ed; unfold sqnorm; simpl; lra).
  assert (EF : lm_cost geo_r [0; 0] - lm_cost geo_r (vadd [0; 0] d) < - 50) by (rewrite Ed; unfold lm_cost, geo_r, sqnorm; simpl; lra).
  rewrite Epred in HU. destruct HU as (x' & mu' & nu' & st' & Eu & HA' & C); [lra|]. exists x', st'. split; [exact Eu|].
  assert (Ex : x' = vadd [0; 0] d).
  { destruct C as [(-> & _)|(-> & [C|C])]; [reflexivity| |].
    - exfalso. nra.
    - exfalso. assert (N1 : norm2 [- 0.75; 0] = 0.75) by (unfold norm2; simpl; replace (- 0.75 * - 0.75 + (0 * 0 + 0)) with (0.75 * 0.75) by lra; apply sqrt_square; lra).
      assert (N2 : 1 <= norm2 [0.2; 1]) by (apply Rle_trans with (sqrt 1); [rewrite sqrt_1; lra|unfold norm2; apply sqrt_le_1_alt; simpl; lra]). rewrite N1 in C. lra. }
  subst x'. split; [|apply (at_value _ _ _ _ _ _ _ _ HA')]. rewrite Ed. unfold lm_cost, geo_r, sqnorm. simpl. lra.
Qed.
Print Assumptions C45_geodesic_refuted.

(** Non-vacuity: the assumptions hold for every dimension with the verified solvers, here on a
    non-linear residual with a non-stationary start. *)
Example C45_example : forall k geo mat,
  let cfg := {| lm_materialize := mat; lm_solver_kind := k; lm_geodesic := geo; lm_damping_parameter := 1 / 100; lm_stop := "grad-l2-norm"; lm_tol := 1 / 1000; lm_xtol := 1 / 1000; lm_gtol := 1 / 1000 |} in
  exists res jt jtj d2 jac, lm_ok 2 2 geo_r geo_J geo_D2 res jt jtj d2 jac ex_solver ex_dense ex_dense ex_dense ex_inv (ex_qr 2) /\
    lm_gradient 2 geo_r geo_J [0; 0] <> vzero 2 /\ lm_at 2 geo_r geo_J cfg [0; 0] 1 2 (lm_init_state 2 res jt jtj jac cfg (fin [0; 0])).
Proof.
  intros k geo mat cfg.
  assert (HO : lm_ok 2 2 geo_r geo_J geo_D2 (fun x => fin (geo_r (unf x))) (fun x y => fin (tvec 2 (geo_J (unf x)) (unf y))) (fun x v => fin (tvec 2 (geo_J (unf x)) (mvec (geo_J (unf x)) (unf v))))
    (fun x v => fin (geo_D2 (unf x) (unf v))) (fun x => finm (geo_J (unf x))) ex_solver ex_dense ex_dense ex_dense ex_inv (ex_qr 2)).
  { split; [apply (lifted_lm_functions 2 2 geo_r geo_J geo_D2)|apply exact_lm_solvers].
    - intros x Hx. split; [reflexivity|split; [reflexivity|repeat constructor]].
    - reflexivity. }
  eexists. eexists. eexists. eexists. eexists.
  split; [exact HO|]. split; [unfold lm_gradient, geo_J, geo_r; simpl; intros C; injection C as C _; lra|].
  destruct (C45_init 2 2 geo_r geo_J geo_D2 _ _ _ _ _ _ _ _ _ _ _ cfg [0; 0] HO ltac:(lia) eq_refl) as (mx & B & (i & Hi & Ei) & HA).
  assert (Emx : mx = 100).
  { assert (B0 := B 0%nat ltac:(lia)). destruct i as [|[|]]; [|exfalso|lia].
    - rewrite Ei. unfold sqnorm, geo_J. simpl. lra.
    - rewrite Ei in B0. unfold sqnorm, geo_J in B0. simpl in B0. lra. }
  rewrite Emx in HA. cbn [lm_damping_parameter cfg] in HA. replace (1 / 100 * 100) with 1 in HA by field. exact HA.
Qed.
