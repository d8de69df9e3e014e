(** Lemmas for C45. *)
From Coq Require Import String.
From Coq Require Import Reals List Lra Lia Bool Arith.
From Verif Require Import Prelude Vec Mat LinAlg LinSolveProofs EqQPProofs XArith Run LM.
Import ListNotations.
Open Scope R_scope.

Lemma blend_fin t a b : blend t (Fin a) (Fin b) = Fin (if t then a else b).
Proof. unfold blend. destruct t; simpl; f_equal; ring. Qed.
Lemma blend_vec_fin t (a b : vec) : length a = length b -> blend_vec t (fin a) (fin b) = fin (if t then a else b).
Proof.
  revert b. induction a as [|u a IH]; intros [|w b] H; try discriminate; [destruct t; reflexivity|].
  cbn [fin map blend_vec]. fold (fin a) (fin b). rewrite blend_fin, IH by (simpl in H; lia). destruct t; reflexivity.
Qed.
Lemma blend_mat_fin t m n (A B : mat) : mat_shape m n A -> mat_shape m n B -> blend_mat t (finm A) (finm B) = finm (if t then A else B).
Proof.
  revert m B. induction A as [|a A IH]; intros m [|b B] [HA1 HA2] [HB1 HB2]; simpl in *; try lia; [destruct t; reflexivity|].
  inversion HA2; inversion HB2; subst. fold (finm A) (finm B). rewrite blend_vec_fin by (unfold vec in *; lia).
  rewrite (IH (length A) B) by (split; auto; lia). destruct t; reflexivity.
Qed.
Lemma xopp_fin v : map xopp (fin v) = fin (smul (-1) v).
Proof. unfold fin, smul. rewrite !map_map. apply map_ext. intros a. simpl. f_equal. ring. Qed.
Lemma half_sum_fin v : half_sum_squares (fin v) = Fin (1 / 2 * sqnorm v).
Proof. unfold half_sum_squares. rewrite xdot_fin. reflexivity. Qed.
Lemma fin_app a b : fin (a ++ b) = (fin a ++ fin b)%list. Proof. apply map_app. Qed.
Lemma finm_app A B : finm (A ++ B) = (finm A ++ finm B)%list. Proof. apply map_app. Qed.

(** The damped normal equations *)
Lemma damped_energy m n M mu b s : mat_shape m n M -> damped_solution n M mu b s -> dot s b = sqnorm (mvec M s) + mu * sqnorm s.
Proof. intros HM [L <-]. rewrite dot_vadd_r, dot_smul_r, (dot_comm s), (dot_tvec n) by exact HM. reflexivity. Qed.
Lemma damped_unique m n M mu b s t : mat_shape m n M -> 0 < mu -> damped_solution n M mu b s -> damped_solution n M mu b t -> s = t.
Proof.
  intros HM Hmu [Ls Es] [Lt Et]. apply dist2_zero; [unfold vec in *; lia|]. set (e := vsub s t).
  assert (Le : length e = n) by (unfold e; rewrite vsub_length; unfold vec in *; lia).
  assert (E : vadd (tvec n M (mvec M e)) (smul mu e) = vzero n).
  { unfold e. rewrite mvec_vsub. rewrite (tvec_vsub m) by (try exact HM; rewrite !mvec_length; apply HM).
    apply vec_eq_dot; [rewrite vadd_length, vsub_length, smul_length, vsub_length, !(tvec_length m), vzero_length by exact HM; unfold vec in *; lia|].
    intros w. assert (D : dot (vadd (tvec n M (mvec M s)) (smul mu s)) w = dot (vadd (tvec n M (mvec M t)) (smul mu t)) w) by (rewrite Es, Et; reflexivity).
    autorewrite with vec in *. lra. }
  assert (D : dot e (vadd (tvec n M (mvec M e)) (smul mu e)) = 0) by (rewrite E; apply dot_vzero_r).
  rewrite dot_vadd_r, dot_smul_r, (dot_comm e), (dot_tvec n) in D by exact HM. fold (sqnorm (mvec M e)) in D.
  assert (P1 := sqnorm_nonneg (mvec M e)). assert (P2 := sqnorm_nonneg e). unfold dist2. fold e. fold (sqnorm e) in D. nra.
Qed.
Lemma damped_zero m n M mu s : mat_shape m n M -> 0 < mu -> damped_solution n M mu (vzero n) s -> s = vzero n.
Proof.
  intros HM Hmu H. apply (damped_unique m n M mu (vzero n)); [exact HM|exact Hmu|exact H|]. split; [apply vzero_length|].
  rewrite mvec_vzero, (proj1 HM). apply vec_eq_dot; [rewrite vadd_length, (tvec_length m), smul_length, !vzero_length by exact HM; lia|].
  intros w. rewrite dot_vadd_l, (dot_tvec n), dot_smul_l, !dot_vzero_l by exact HM. ring.
Qed.
(** Gauss-Newton matrix plus damping *)
Definition corr (n : nat) (M : mat) (mu : R) : mat := madd (mmul n (mtrans n M) M) (msmul mu (eye n)).
Lemma corr_shape m n M mu : mat_shape m n M -> mat_shape n n (corr n M mu).
Proof.
  intros HM. unfold corr. apply madd_shape; [|apply msmul_shape, eye_shape]. apply (mmul_shape n n m); [apply mtrans_shape; apply HM|exact HM].
Qed.
Lemma corr_mvec m n M mu v : mat_shape m n M -> length v = n -> mvec (corr n M mu) v = vadd (tvec n M (mvec M v)) (smul mu v).
Proof.
  intros HM Hv. unfold corr. assert (HT := mtrans_shape m n M (proj1 HM)).
  rewrite mvec_madd, mvec_mmul, mvec_msmul, mvec_eye by (try exact Hv; unfold mmul, msmul; rewrite !map_length, (proj1 HT), (proj1 (eye_shape n)); reflexivity).
  rewrite (mvec_mtrans m n) by (try exact HM; rewrite mvec_length; apply HM). reflexivity.
Qed.
Lemma corr_dot m n M mu u v : mat_shape m n M -> length v = n -> dot u (mvec (corr n M mu) v) = dot (mvec M u) (mvec M v) + mu * dot u v.
Proof. intros HM Hv. rewrite (corr_mvec m) by assumption. rewrite dot_vadd_r, dot_smul_r, (dot_comm u), (dot_tvec n), dot_comm by exact HM. reflexivity. Qed.
Lemma corr_pos m n M mu : mat_shape m n M -> 0 < mu -> pos_def n (corr n M mu).
Proof.
  intros HM Hmu v Hv Hne. rewrite (corr_dot m) by assumption. assert (P := sqnorm_nonneg (mvec M v)). unfold sqnorm in P.
  assert (0 < dot v v). { destruct (Rle_lt_or_eq_dec 0 (dot v v) (sqnorm_nonneg v)) as [|E]; [assumption|]. exfalso. apply Hne. apply sqnorm_zero_vec; [exact Hv|symmetry; exact E]. }
  nra.
Qed.
Lemma corr_sym m n M mu : mat_shape m n M -> symmetric n (corr n M mu).
Proof.
  intros HM. apply symmetric_adjoint; [apply (corr_shape m); exact HM|]. intros x y Hx Hy. rewrite dot_comm, !(corr_dot m) by assumption.
  rewrite (dot_comm (mvec M y)), (dot_comm y). reflexivity.
Qed.
Lemma corr_solution m n M mu b s : mat_shape m n M -> length s = n -> (damped_solution n M mu b s <-> mvec (corr n M mu) s = b).
Proof. intros HM Hs. rewrite (corr_mvec m) by assumption. unfold damped_solution. tauto. Qed.

(** QR of the augmented Jacobian *)
Lemma aug_shape m n M c : mat_shape m n M -> mat_shape (m + n) n (M ++ msmul c (eye n)).
Proof.
  intros [H1 H2]. destruct (msmul_shape n n c (eye n) (eye_shape n)) as [H3 H4]. split; [rewrite app_length; unfold mat, vec in *; lia|apply Forall_app; split; assumption].
Qed.
Lemma aug_mvec n M c v : length v = n -> mvec (M ++ msmul c (eye n)) v = (mvec M v ++ smul c v)%list.
Proof. intros Hv. unfold mvec at 1. rewrite map_app. fold (mvec M v) (mvec (msmul c (eye n)) v). rewrite mvec_msmul, mvec_eye by exact Hv. reflexivity. Qed.
Lemma aug_full m n M c v : mat_shape m n M -> 0 < c -> length v = n -> mvec (M ++ msmul c (eye n)) v = vzero (m + n) -> v = vzero n.
Proof.
  intros HM Hc Hv E. rewrite aug_mvec, vzero_app in E by exact Hv. apply app_inj in E; [|rewrite mvec_length, vzero_length; apply HM]. destruct E as [_ E].
  apply vec_eq_dot; [rewrite vzero_length; exact Hv|]. intros w. assert (D : dot (smul c v) w = 0) by (rewrite E; apply dot_vzero_l).
  rewrite dot_smul_l in D. rewrite dot_vzero_l. apply Rmult_eq_reg_l with c; lra.
Qed.
Lemma qr_solution m n M mu q rr y s : mat_shape m n M -> 0 < mu -> mat_shape (m + n) n q -> mat_shape n n rr -> length y = m ->
  (forall v, length v = n -> tvec n q (mvec q v) = v) -> (forall v, length v = n -> mvec (M ++ msmul (sqrt mu) (eye n)) v = mvec q (mvec rr v)) ->
  length s = n -> mvec rr s = tvec n q (y ++ vzero n) -> damped_solution n M mu (tvec n M y) s.
Proof.
  intros HM Hmu Hq Hr Hy Hqq HA Hs E. split; [exact Hs|]. apply vec_eq_dot_len.
  { rewrite vadd_length, smul_length, !(tvec_length m) by exact HM. unfold vec in *; lia. }
  intros w Hw. rewrite vadd_length, smul_length, (tvec_length m) in Hw by exact HM. assert (Lw : length w = n) by (unfold vec in *; lia).
  rewrite dot_vadd_l, dot_smul_l, !(dot_tvec n) by exact HM.
  (* <A s, A w> = <A s, q rr w> = <rr s, rr w> = <q^T y0, rr w> = <y0, A w> *)
  assert (Ls := HA s Hs). assert (Lw' := HA w Lw).
  assert (E1 : dot (mvec (M ++ msmul (sqrt mu) (eye n)) s) (mvec (M ++ msmul (sqrt mu) (eye n)) w) = dot (y ++ vzero n) (mvec (M ++ msmul (sqrt mu) (eye n)) w)).
  { rewrite Lw', Ls. assert (Lrs : length (mvec rr s) = n) by (rewrite mvec_length; apply Hr).
    rewrite <- (dot_tvec n) by exact Hq. rewrite Hqq by exact Lrs. rewrite E, (dot_tvec n) by exact Hq. reflexivity. }
  rewrite !aug_mvec in E1 by assumption.
  rewrite !dot_app in E1 by (rewrite ?mvec_length, ?Hy; symmetry; rewrite ?mvec_length; try reflexivity; try apply HM).
  rewrite dot_smul_l, !dot_smul_r, dot_vzero_l in E1. rewrite <- Rmult_assoc, sqrt_sqrt in E1 by lra. lra.
Qed.

Section Steps.
Variables (m n : nat) (r : vec -> vec) (J : vec -> mat) (D2 : vec -> vec -> vec)
  (res : xvec -> xvec) (jt_op jtj_op d2fvv : xvec -> xvec -> xvec) (jac_fun : xvec -> xmat)
  (solver_fn : (xvec -> xvec) -> xvec -> xnum -> option xvec -> xvec) (la_solve pos_solve la_tri : xmat -> xvec -> xvec) (la_inv : xmat -> xmat) (la_qr : xmat -> xmat * xmat)
  (cfg : lm_config).
Hypothesis HF : lm_functions m n r J D2 res jt_op jtj_op d2fvv jac_fun.
Hypothesis HS : lm_solvers n solver_fn la_solve pos_solve la_tri la_inv la_qr.
Notation dirs := (lm_directions n jt_op jtj_op d2fvv solver_fn la_solve pos_solve la_tri la_inv la_qr cfg).
Notation upd := (lm_update n res jt_op jtj_op d2fvv jac_fun solver_fn la_solve pos_solve la_tri la_inv la_qr cfg).
Notation at_ := (lm_at n r J cfg).
Notation F := (lm_cost r).
Notation G := (lm_gradient n r J).
Lemma Glen x : length x = n -> length (G x) = n.
Proof. intros Hx. unfold lm_gradient. apply (tvec_length m). apply (proj2 (lf_shape _ _ _ _ _ _ _ _ _ _ HF x Hx)). Qed.
Lemma dense_exact x mu nu st y : length x = n -> at_ x mu nu st -> 0 < mu -> lm_materialize cfg = true -> length y = m ->
  exists s, dense_solve n la_solve pos_solve la_tri la_inv la_qr cfg st (finm (J x)) (finm (mmul n (mtrans n (J x)) (J x))) (fin y) = fin s /\
    damped_solution n (J x) mu (tvec n (J x) y) s.
Proof.
  intros Hx HA Hmu Hmat Hy. destruct (lf_shape _ _ _ _ _ _ _ _ _ _ HF x Hx) as [Lr HM]. unfold dense_solve. rewrite (at_damping _ _ _ _ _ _ _ _ HA).
  assert (Ec : xmadd (finm (mmul n (mtrans n (J x)) (J x))) (xmsmul (Fin mu) (xeye n)) = finm (corr n (J x) mu)).
  { unfold xeye, corr. rewrite xmsmul_fin, xmadd_fin. reflexivity. }
  assert (Lg : length (tvec n (J x) y) = n) by (apply (tvec_length m); exact HM).
  assert (HC := corr_shape m n (J x) mu HM). assert (HP := corr_pos m n (J x) mu HM Hmu). assert (HY := corr_sym m n (J x) mu HM).
  assert (Kpos : exists s, pos_solve (finm (corr n (J x) mu)) (fin (tvec n (J x) y)) = fin s /\ damped_solution n (J x) mu (tvec n (J x) y) s).
  { destruct (ls_pos _ _ _ _ _ _ _ HS _ _ HC HY HP Lg) as (s & -> & Ls & Es). exists s. split; [reflexivity|]. apply (corr_solution m); assumption. }
  destruct (lm_solver_kind cfg); cbv zeta; try (rewrite Ec, xtvec_fin; exact Kpos).
  - rewrite Ec, xtvec_fin. destruct (ls_lu _ _ _ _ _ _ _ HS _ _ HC HP Lg) as (s & -> & Ls & Es). exists s. split; [reflexivity|]. apply (corr_solution m); assumption.
  - assert (Es : xsqrt (Fin mu) = Fin (sqrt mu)) by (simpl; destruct (Rlt_dec mu 0); [lra|reflexivity]). rewrite Es. unfold xeye. rewrite xmsmul_fin, <- finm_app, xvzero_fin, <- fin_app.
    destruct (ls_qr _ _ _ _ _ _ _ HS _ _ (aug_shape m n (J x) (sqrt mu) HM)) as (q & rr & -> & Hq & Hr & Hqq & HA' & Ht).
    { intros v Hv. apply (aug_full m); [exact HM|apply sqrt_lt_R0; exact Hmu|exact Hv]. }
    rewrite xtvec_fin. destruct (Ht (tvec n q (y ++ vzero n)) (tvec_length _ _ _ _ Hq)) as (s & -> & Ls & E). exists s. split; [reflexivity|].
    apply (qr_solution m n (J x) mu q rr); assumption.
  - rewrite Ec, xtvec_fin. destruct (ls_inv _ _ _ _ _ _ _ HS _ HC HP) as (B & -> & HB & EB). rewrite xmvec_fin. exists (mvec B (tvec n (J x) y)). split; [reflexivity|].
    apply (corr_solution m); [exact HM|rewrite mvec_length; apply HB|apply EB; exact Lg].
Qed.
(** Velocity and acceleration solve the damped normal equations, in every configuration. *)
Lemma directions_exact x mu nu st : length x = n -> at_ x mu nu st -> 0 < mu ->
  exists v a, dirs (fin x) st = (fin v, fin a) /\ damped_solution n (J x) mu (G x) v /\ damped_solution n (J x) mu (tvec n (J x) (D2 x v)) a.
Proof.
  intros Hx HA Hmu. destruct (lf_shape _ _ _ _ _ _ _ _ _ _ HF x Hx) as [Lr HM]. unfold lm_directions. rewrite (at_jac _ _ _ _ _ _ _ _ HA), (at_jtj _ _ _ _ _ _ _ _ HA).
  destruct (lm_materialize cfg) eqn:Em.
  - rewrite (at_residual _ _ _ _ _ _ _ _ HA). destruct (dense_exact x mu nu st (r x) Hx HA Hmu Em Lr) as (v & -> & Hv).
    destruct (lf_d2 _ _ _ _ _ _ _ _ _ _ HF x v Hx (proj1 Hv)) as [-> L2]. destruct (dense_exact x mu nu st (D2 x v) Hx HA Hmu Em L2) as (a & -> & Ha).
    exists v, a. auto.
  - rewrite (at_gradient _ _ _ _ _ _ _ _ HA), (at_damping _ _ _ _ _ _ _ _ HA).
    assert (Hop : forall v, length v = n -> jtj_op (fin x) (fin v) = fin (tvec n (J x) (mvec (J x) v))) by (intros v Hv; apply (lf_jtj _ _ _ _ _ _ _ _ _ _ HF); assumption).
    destruct (ls_fn _ _ _ _ _ _ _ HS m (J x) (jtj_op (fin x)) (G x) mu (match lm_solver_kind cfg with SCallable => Some (l_delta st) | _ => None end) HM Hop Hmu (Glen x Hx)) as (v & -> & Hv).
    { destruct (lm_solver_kind cfg); try exact I. destruct (at_delta _ _ _ _ _ _ _ _ HA) as (d & -> & Ld). exists d. auto. }
    destruct (lf_d2 _ _ _ _ _ _ _ _ _ _ HF x v Hx (proj1 Hv)) as [-> L2]. rewrite (lf_jt _ _ _ _ _ _ _ _ _ _ HF) by assumption.
    destruct (ls_fn _ _ _ _ _ _ _ HS m (J x) (jtj_op (fin x)) (tvec n (J x) (D2 x v)) mu None HM Hop Hmu) as (a & -> & Ha); [apply (tvec_length m); exact HM|exact I|].
    exists v, a. auto.
Qed.
(** predicted reduction L(0) - L(d) *)
Definition predicted (mu : R) (d g : vec) : R := 1 / 2 * (mu * sqnorm d - dot d g).
Definition damping_accept (mu rho : R) : R := mu * Rmax (1 / 3) (1 - (2 * rho - 1) ^ 3).
(** The update once the directions are known, all finite with a non-zero predicted reduction *)
Lemma gain_step x mu nu st v a d : length x = n -> at_ x mu nu st -> 0 < mu -> length d = n -> dirs (fin x) st = (fin v, fin a) ->
  d = smul (-1) (if lm_geodesic cfg then vadd v (smul (1 / 2) a) else v) ->
  predicted mu d (G x) <> 0 -> (lm_geodesic cfg = true -> norm2 v <> 0) ->
  let rho := (F x - F (vadd x d)) / predicted mu d (G x) in
  exists st', upd (fin x, st) = (fin (if (if Rlt_dec 0 rho then true else false) && (if lm_geodesic cfg then if Rle_dec (norm2 a / norm2 v - contribution_ratio_threshold) 0 then true else false else true)
     then vadd x d else x)%bool, st') /\ l_delta st' = fin d /\ l_iter st' = S (l_iter st) /\
    (if (if Rlt_dec 0 rho then true else false) && (if lm_geodesic cfg then if Rle_dec (norm2 a / norm2 v - contribution_ratio_threshold) 0 then true else false else true)
     then at_ (vadd x d) (damping_accept mu rho) 2 st'
     else at_ x (Rmin (mu * nu) damping_factor_max) (Rmin (2 * nu) increase_factor_max) st')%bool.
Proof.
  intros Hx HA Hmu Ld ED Ed Hp Hv rho.
  assert (Hxd : length (vadd x d) = n) by (rewrite vadd_length; unfold vec in *; lia).
  destruct (lf_shape _ _ _ _ _ _ _ _ _ _ HF x Hx) as [Lr HM]. destruct (lf_shape _ _ _ _ _ _ _ _ _ _ HF _ Hxd) as [Lr' HM'].
  unfold lm_update. rewrite ED.
  assert (Edx : map xopp (if lm_geodesic cfg then xvadd (fin v) (xsmul (Fin (1 / 2)) (fin a)) else fin v) = fin d).
  { rewrite Ed. destruct (lm_geodesic cfg); rewrite ?xsmul_fin, ?xvadd_fin; apply xopp_fin. }
  cbv zeta. match goal with |- context [map xopp ?e] => replace (map xopp e) with (fin d) by (symmetry; exact Edx) end. clear Edx.
  set (crd := if lm_geodesic cfg then xsub (xdivx (xnorm2 (fin a)) (xnorm2 (fin v))) (Fin contribution_ratio_threshold) else Fin 0).
  assert (Ecrd : xleb crd 0 = (if lm_geodesic cfg then if Rle_dec (norm2 a / norm2 v - contribution_ratio_threshold) 0 then true else false else true)).
  { unfold crd. destruct (lm_geodesic cfg); [|simpl; destruct (Rle_dec 0 0); [reflexivity|lra]]. rewrite !xnorm2_fin. cbn [xdivx]. destruct (Req_EM_T (norm2 v) 0) as [E|]; [exfalso; apply (Hv eq_refl); exact E|]. reflexivity. }
  rewrite <- Ecrd. clear Ecrd. unfold update_delta. cbn [t_params t_damping t_gradient].
  rewrite (at_value _ _ _ _ _ _ _ _ HA), (at_damping _ _ _ _ _ _ _ _ HA), (at_gradient _ _ _ _ _ _ _ _ HA), (at_increase _ _ _ _ _ _ _ _ HA), (at_residual _ _ _ _ _ _ _ _ HA).
  rewrite xvadd_fin, (lf_res _ _ _ _ _ _ _ _ _ _ HF) by exact Hxd. rewrite half_sum_fin, !xsmul_fin, xvsub_fin, xdot_fin.
  assert (Eden : dot (smul (1 / 2) d) (vsub (smul mu d) (G x)) = predicted mu d (G x)).
  { unfold predicted, sqnorm. rewrite dot_smul_l, dot_vsub_r, dot_smul_r. ring. }
  rewrite Eden. fold (F (vadd x d)). cbn [xsub xdivx]. destruct (Req_EM_T (predicted mu d (G x)) 0) as [|_]; [contradiction|]. fold rho.
  unfold update_gain. change (xgtb (Fin rho) 0) with (if Rlt_dec 0 rho then true else false).
  set (test := ((if Rlt_dec 0 rho then true else false) && xleb crd 0)%bool).
  assert (Eg' : (match (if lm_materialize cfg then Some (jac_fun (fin (vadd x d))) else None) with Some jac => xtvec n jac (res (fin (vadd x d))) | None => jt_op (fin (vadd x d)) (res (fin (vadd x d))) end) = fin (G (vadd x d))).
  { rewrite (lf_res _ _ _ _ _ _ _ _ _ _ HF), (lf_jac _ _ _ _ _ _ _ _ _ _ HF) by exact Hxd. destruct (lm_materialize cfg); [apply xtvec_fin|]. apply (lf_jt _ _ _ _ _ _ _ _ _ _ HF); assumption. }
  unfold blend_tuple, gain_true, gain_false. cbv zeta. cbn [t_params t_damping t_increase t_residual t_gradient t_jac t_jtj].
  rewrite Eg'. rewrite (lf_res _ _ _ _ _ _ _ _ _ _ HF) by exact Hxd. cbn [xmul xsub xmax xmin].
  rewrite !blend_fin. rewrite !blend_vec_fin by (unfold vec in *; rewrite ?Glen by assumption; lia).
  assert (Ed1 : mu * Rmax (1 / 3) (1 - (2 * rho - 1) * ((2 * rho - 1) * (2 * rho - 1))) = damping_accept mu rho) by (unfold damping_accept; do 2 f_equal; ring).
  rewrite Ed1.
  eexists. split; [reflexivity|]. split; [reflexivity|]. split; [reflexivity|].
  assert (Ejac : forall t, blend_opt t (if lm_materialize cfg then Some (jac_fun (fin (vadd x d))) else None) (l_jac st) = if lm_materialize cfg then Some (finm (J (if t then vadd x d else x))) else None).
  { intros t. rewrite (at_jac _ _ _ _ _ _ _ _ HA), (lf_jac _ _ _ _ _ _ _ _ _ _ HF) by exact Hxd. destruct (lm_materialize cfg); [|reflexivity]. simpl. rewrite (blend_mat_fin t m n) by assumption. destruct t; reflexivity. }
  assert (Ejtj : forall t, blend_opt t (match (if lm_materialize cfg then Some (jac_fun (fin (vadd x d))) else None) with Some jac => Some (xmmul n (xmtrans n jac) jac) | None => None end) (l_jtj st)
     = if lm_materialize cfg then Some (finm (mmul n (mtrans n (J (if t then vadd x d else x))) (J (if t then vadd x d else x)))) else None).
  { intros t. rewrite (at_jtj _ _ _ _ _ _ _ _ HA), (lf_jac _ _ _ _ _ _ _ _ _ _ HF) by exact Hxd. destruct (lm_materialize cfg); [|reflexivity]. rewrite xmtrans_fin, xmmul_fin. simpl.
    rewrite (blend_mat_fin t n n) by (apply (mmul_shape n n m); [apply mtrans_shape; apply HM || apply HM'|assumption]). destruct t; reflexivity. }
  destruct test; (split; cbn [l_damping l_increase l_residual l_value l_gradient l_error l_delta l_jac l_jtj];
    [reflexivity|reflexivity|reflexivity|apply half_sum_fin|reflexivity|apply xnorm2_fin|exists d; auto|rewrite Ejac; reflexivity|rewrite Ejtj; reflexivity]).
Qed.
End Steps.
