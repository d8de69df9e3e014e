(** Lemmas for C71. *)
From Coq Require Import Reals List Lra Lia Bool Arith.
From Verif Require Import Prelude Vec Mat LinAlg LinSolve ImplicitDiff ImplicitDiffProofs ImplicitDiffTheorems Run FixedPoint FixedPointTheorems ImplicitError ImplicitErrorProofs Unrolled.
Import ListNotations.
Open Scope R_scope.

Lemma run_loop_det {V} maxiter cond update (init : V) k : (1 <= k <= maxiter)%nat -> (forall j, (1 <= j < k)%nat -> cond (Nat.iter j update init) = true) ->
  (k = maxiter \/ cond (Nat.iter k update init) = false) -> run_loop maxiter cond update init = Nat.iter k update init.
Proof.
  intros Hk Hc He. destruct (run_loop_spec maxiter cond update init ltac:(lia)) as (k' & Hk' & E & Hc' & He'). rewrite E.
  destruct (Nat.lt_trichotomy k k') as [C|[->|C]]; [|reflexivity|].
  - destruct He as [->|He]; [lia|]. rewrite (Hc' k) in He by lia. discriminate.
  - destruct He' as [->|He']; [lia|]. rewrite (Hc k') in He' by lia. discriminate.
Qed.
Lemma args_move_0 ps args v : args_ok ps args -> args_ok ps v -> args_move args 0 v = args.
Proof.
  intros Ha Hv. unfold args_move, args_ok in *. revert v Hv. induction Ha as [|p b qs bs Hb HF IH]; intros v Hv; inversion Hv; subst; [reflexivity|].
  cbn [combine map fst snd]. f_equal; [|apply IH; assumption]. apply vec_ext; [rewrite vadd_length, smul_length; unfold vec in *; lia|]. intros i Hi. rewrite nth_vadd, nth_smul. ring.
Qed.

(** ** Dual loop *)
Section Dual.
Context {X : Type}.
Variables (n : nat) (u : list vec -> fp_user X) (J1 : vec -> mat) (D2 : vec -> list mat) (args v : list vec) (x0 dx0 : vec).
Let T := the_map (u args).
Lemma fp_iter_fst k : fst (Nat.iter k (fp_update (u args)) (x0, fp_init_state)) = Nat.iter k T x0.
Proof. destruct k; [reflexivity|]. rewrite C44_update. reflexivity. Qed.
Lemma fp_iter_num k : fp_iter (snd (Nat.iter k (fp_update (u args)) (x0, fp_init_state))) = k.
Proof. destruct k; [reflexivity|]. rewrite C44_update. reflexivity. Qed.
Lemma jvp_iter k : Nat.iter k (fp_update_jvp n u J1 D2 args v) ((x0, fp_init_state), dx0) =
  (Nat.iter k (fp_update (u args)) (x0, fp_init_state), tangent_iterate n T J1 D2 v x0 dx0 k).
Proof.
  induction k as [|k IH]; [reflexivity|].
  change (Nat.iter (S k) (fp_update_jvp n u J1 D2 args v) ((x0, fp_init_state), dx0)) with (fp_update_jvp n u J1 D2 args v (Nat.iter k (fp_update_jvp n u J1 D2 args v) ((x0, fp_init_state), dx0))).
  rewrite IH. unfold fp_update_jvp. cbn [tangent_iterate]. rewrite <- fp_iter_fst.
  change (Nat.iter (S k) (fp_update (u args)) (x0, fp_init_state)) with (fp_update (u args) (Nat.iter k (fp_update (u args)) (x0, fp_init_state))).
  destruct (Nat.iter k (fp_update (u args)) (x0, fp_init_state)) as [x st]. reflexivity.
Qed.
Lemma run_jvp tol maxiter : fp_run_jvp n u J1 D2 args v tol maxiter x0 dx0 =
  (fp_run (u args) tol maxiter x0, tangent_iterate n T J1 D2 v x0 dx0 (fp_iter (snd (fp_run (u args) tol maxiter x0)))).
Proof.
  destruct maxiter as [|m]; [reflexivity|]. unfold fp_run, fp_run_jvp.
  destruct (run_loop_spec (S m) (fun s => xgtb (fp_error (snd s)) tol) (fp_update (u args)) (x0, fp_init_state) ltac:(lia)) as (k & Hk & E & Hc & He).
  assert (E' : run_loop (S m) (fun s => xgtb (fp_error (snd (fst s))) tol) (fp_update_jvp n u J1 D2 args v) ((x0, fp_init_state), dx0) =
    Nat.iter k (fp_update_jvp n u J1 D2 args v) ((x0, fp_init_state), dx0)).
  { apply run_loop_det; [exact Hk| |].
    - intros j Hj. rewrite jvp_iter. apply Hc. exact Hj.
    - rewrite jvp_iter. exact He. }
  rewrite E', jvp_iter. f_equal; [symmetry; exact E|].
  etransitivity; [|apply f_equal; apply f_equal; apply f_equal; symmetry; exact E]. rewrite fp_iter_num. reflexivity.
Qed.
End Dual.

(** ** Chain rule *)
Lemma curve_bound n (Y : R -> vec) y' : (forall t, length (Y t) = n) -> length y' = n -> curve_derivative Y y' -> forall e, 0 < e ->
  exists d, 0 < d /\ forall t, Rabs t < d -> norm2 (vsub (Y t) (Y 0)) <= (norm2 y' + e) * Rabs t.
Proof.
  intros LY Ly HY e He. destruct (HY e He) as (d & Hd & H). exists d. split; [exact Hd|]. intros t Ht. specialize (H t Ht).
  assert (E : vsub (Y t) (Y 0) = vadd (vsub (vsub (Y t) (Y 0)) (smul t y')) (smul t y')).
  { assert (L1 := LY t). assert (L2 := LY 0). apply vec_eq_dot; [rewrite ?vadd_length, ?vsub_length, ?smul_length; unfold vec in *; lia|]. intros z. autorewrite with vec. ring. }
  rewrite E. eapply Rle_trans; [apply norm2_triangle|]. rewrite norm2_smul. lra.
Qed.
Lemma curve_continuous n Y y' : (forall t, length (Y t) = n) -> length y' = n -> curve_derivative Y y' -> continuous_at_0 Y.
Proof.
  intros LY Ly HY e He. destruct (curve_bound n Y y' LY Ly HY 1 ltac:(lra)) as (d & Hd & H). pose proof (norm2_nonneg y') as Py.
  exists (Rmin d (e / (norm2 y' + 2))). split; [apply Rmin_pos; [exact Hd|apply Rdiv_lt_0_compat; lra]|]. intros t Ht.
  assert (H1 : Rabs t < d) by (eapply Rlt_le_trans; [exact Ht|apply Rmin_l]). assert (H2 : Rabs t < e / (norm2 y' + 2)) by (eapply Rlt_le_trans; [exact Ht|apply Rmin_r]).
  eapply Rle_lt_trans; [apply H; exact H1|]. pose proof (Rabs_pos t).
  apply Rle_lt_trans with ((norm2 y' + 2) * Rabs t); [apply Rmult_le_compat_r; lra|].
  apply Rlt_le_trans with ((norm2 y' + 2) * (e / (norm2 y' + 2))); [apply Rmult_lt_compat_l; lra|]. right. field. lra.
Qed.
Lemma chain_step n ps (T : vec -> list vec -> vec) args v (Y : R -> vec) y' A B : (forall z a, length z = n -> args_ok ps a -> length (T z a) = n) -> args_ok ps args -> args_ok ps v ->
  (forall t, length (Y t) = n) -> length y' = n -> curve_derivative Y y' -> mat_shape n n A -> jac_ok n ps B -> frechet n ps T (Y 0) args A B ->
  curve_derivative (fun t => T (Y t) (args_move args t v)) (vadd (mvec A y') (jvp_args n B v)).
Proof.
  intros LT Ha Hv LY Ly HY HA HB HF eps He. cbv beta. rewrite (args_move_0 ps) by assumption.
  set (V := norm2 (concat v)). set (K := row_norms A). pose proof (norm2_nonneg (concat v)) as PV. fold V in PV. pose proof (row_norms_nonneg A) as PK. fold K in PK. pose proof (norm2_nonneg y') as Py.
  set (e1 := eps / (2 * (norm2 y' + 1 + V))). assert (He1 : 0 < e1) by (apply Rdiv_lt_0_compat; lra).
  set (e2 := eps / (2 * (K + 1))). assert (He2 : 0 < e2) by (apply Rdiv_lt_0_compat; lra).
  destruct (HF e1 He1) as (dl & Hdl & Hfr). destruct (curve_bound n Y y' LY Ly HY 1 ltac:(lra)) as (d1 & Hd1 & HB1).
  destruct (HY e2 He2) as (d2 & Hd2 & HB2).
  set (d3 := dl / (norm2 y' + 2 + V)). assert (Hd3 : 0 < d3) by (apply Rdiv_lt_0_compat; lra).
  exists (Rmin d1 (Rmin d2 d3)). split; [repeat apply Rmin_pos; assumption|]. intros t Ht.
  assert (H1 : Rabs t < d1) by (eapply Rlt_le_trans; [exact Ht|apply Rmin_l]).
  assert (H23 : Rabs t < Rmin d2 d3) by (eapply Rlt_le_trans; [exact Ht|apply Rmin_r]).
  assert (H2 : Rabs t < d2) by (eapply Rlt_le_trans; [exact H23|apply Rmin_l]).
  assert (H3 : Rabs t < d3) by (eapply Rlt_le_trans; [exact H23|apply Rmin_r]).
  pose proof (Rabs_pos t) as Pt. specialize (HB1 t H1). specialize (HB2 t H2).
  assert (Hmv : args_sub (args_move args t v) args = map (smul t) v) by (apply (args_sub_move ps); assumption).
  assert (Hnv : norm2 (concat (args_sub (args_move args t v) args)) = Rabs t * V) by (rewrite Hmv, concat_smul, norm2_smul; reflexivity).
  assert (Hsm : Rabs t * (norm2 y' + 2 + V) < dl).
  { apply Rlt_le_trans with (d3 * (norm2 y' + 2 + V)); [apply Rmult_lt_compat_r; lra|]. unfold d3. right. field. lra. }
  assert (PtV : 0 <= Rabs t * V) by (apply Rmult_le_pos; assumption). assert (Pty : 0 <= Rabs t * norm2 y') by (apply Rmult_le_pos; assumption).
  assert (S1 : norm2 (vsub (Y t) (Y 0)) < dl) by lra. assert (S2 : norm2 (concat (args_sub (args_move args t v) args)) < dl) by (rewrite Hnv; lra).
  specialize (Hfr (Y t) (args_move args t v) (LY t) (args_move_ok ps args t v Ha Hv) S1 S2). rewrite Hnv, Hmv, jvp_args_smul in Hfr.
  assert (LA : forall w, length (mvec A w) = n) by (intros; rewrite mvec_length; apply HA). assert (LB := jvp_args_length n ps B v HB).
  assert (L1 := LT (Y t) _ (LY t) (args_move_ok ps args t v Ha Hv)). assert (L0 := LT (Y 0) args (LY 0) Ha).
  assert (E : vsub (vsub (T (Y t) (args_move args t v)) (T (Y 0) args)) (smul t (vadd (mvec A y') (jvp_args n B v))) =
    vadd (vsub (T (Y t) (args_move args t v)) (vadd (T (Y 0) args) (vadd (mvec A (vsub (Y t) (Y 0))) (smul t (jvp_args n B v))))) (mvec A (vsub (vsub (Y t) (Y 0)) (smul t y')))).
  { rewrite !mvec_vsub, mvec_smul. apply vec_eq_dot; [repeat (rewrite ?vadd_length, ?vsub_length, ?smul_length); rewrite ?LA; unfold vec in *; lia|]. intros z. autorewrite with vec. ring. }
  rewrite E. eapply Rle_trans; [apply norm2_triangle|].
  pose proof (mvec_bound A (vsub (vsub (Y t) (Y 0)) (smul t y'))) as MB. fold K in MB.
  assert (C1 : e1 * (norm2 (vsub (Y t) (Y 0)) + Rabs t * V) <= eps / 2 * Rabs t).
  { apply Rle_trans with (e1 * ((norm2 y' + 1 + V) * Rabs t)); [apply Rmult_le_compat_l; lra|]. unfold e1. right. field. lra. }
  assert (C2 : K * norm2 (vsub (vsub (Y t) (Y 0)) (smul t y')) <= eps / 2 * Rabs t).
  { apply Rle_trans with (K * (e2 * Rabs t)); [apply Rmult_le_compat_l; assumption|].
    apply Rle_trans with ((K + 1) * (e2 * Rabs t)); [apply Rmult_le_compat_r; [apply Rmult_le_pos; lra|lra]|]. unfold e2. right. field. lra. }
  lra.
Qed.
Lemma tangent_length n ps T J1 D2 v x0 dx0 k : (forall z, length z = n -> length (T z) = n) -> (forall z, length z = n -> mat_shape n n (J1 z) /\ jac_ok n ps (D2 z)) ->
  length x0 = n -> length dx0 = n -> length (tangent_iterate n T J1 D2 v x0 dx0 k) = n.
Proof.
  intros LT HD Hx Hd. destruct k as [|k]; [exact Hd|]. cbn [tangent_iterate].
  assert (Lk : length (Nat.iter k T x0) = n) by (induction k; simpl; [exact Hx|apply LT; assumption]). destruct (HD _ Lk) as [S1 S2].
  pose proof (jvp_args_length n ps _ v S2). pose proof (proj1 S1). rewrite vadd_length, mvec_length. unfold vec, mat in *. lia.
Qed.
Lemma iter_length n (T : vec -> vec) x k : (forall z, length z = n -> length (T z) = n) -> length x = n -> length (Nat.iter k T x) = n.
Proof. intros LT Hx. induction k; simpl; [exact Hx|apply LT; assumption]. Qed.
Lemma chain n ps (T : vec -> list vec -> vec) args v J1 D2 (X0 : R -> vec) dx0 k : (forall z a, length z = n -> args_ok ps a -> length (T z a) = n) -> args_ok ps args -> args_ok ps v ->
  (forall z, length z = n -> mat_shape n n (J1 z) /\ jac_ok n ps (D2 z) /\ frechet n ps T z args (J1 z) (D2 z)) ->
  (forall t, length (X0 t) = n) -> length dx0 = n -> curve_derivative X0 dx0 ->
  curve_derivative (fun t => Nat.iter k (fun z : vec => T z (args_move args t v)) (X0 t)) (tangent_iterate n (fun z : vec => T z args) J1 D2 v (X0 0) dx0 k).
Proof.
  intros LT Ha Hv HD LX Ld HX. induction k as [|k IH]; [exact HX|]. cbn [tangent_iterate].
  set (Y := fun t => Nat.iter k (fun z : vec => T z (args_move args t v)) (X0 t)) in *.
  assert (LY : forall t, length (Y t) = n).
  { intros t. unfold Y. apply iter_length; [|apply LX]. intros z Hz. apply LT; [exact Hz|]. apply args_move_ok; assumption. }
  assert (E0 : Y 0 = Nat.iter k (fun z : vec => T z args) (X0 0)) by (unfold Y; rewrite (args_move_0 ps) by assumption; reflexivity).
  rewrite <- E0. destruct (HD (Y 0) (LY 0)) as (S1 & S2 & S3).
  change (curve_derivative (fun t => T (Y t) (args_move args t v)) (vadd (mvec (J1 (Y 0)) (tangent_iterate n (fun z : vec => T z args) J1 D2 v (X0 0) dx0 k)) (jvp_args n (D2 (Y 0)) v))).
  apply (chain_step n ps); try assumption.
  apply (tangent_length n ps); [intros z Hz; apply LT; assumption|intros z Hz; destruct (HD z Hz) as (Q1 & Q2 & _); split; assumption|apply LX|exact Ld].
Qed.

(** ** Reverse mode *)
Lemma total_dot_add (a b c : list vec) : length a = length b -> length b = length c ->
  total_dot (map (fun ab => vadd (fst ab) (snd ab)) (combine a b)) c = total_dot a c + total_dot b c.
Proof.
  revert b c. induction a as [|x a IH]; intros [|y b] [|z c] H1 H2; try discriminate; [unfold total_dot; simpl; ring|].
  unfold total_dot in *. cbn [combine map fst snd fold_right]. rewrite IH by (simpl in *; lia). rewrite dot_vadd_l. ring.
Qed.
Lemma total_dot_vjp n ps D2 v w : jac_ok n ps D2 -> args_ok ps v -> length w = n ->
  total_dot (map (fun pM => tvec (fst pM) (snd pM) w) (combine ps D2)) v = dot w (jvp_args n D2 v).
Proof.
  intros HD Hv Hw. rewrite (dot_jvp_args n ps D2 v w HD); [reflexivity|]. rewrite <- (Forall2_length HD). apply (Forall2_length Hv).
Qed.
Lemma vjp_shape n ps D2 (w : vec) : jac_ok n ps D2 -> args_ok ps (map (fun pM => tvec (fst pM) (snd pM) w) (combine ps D2)).
Proof. intros HD. unfold args_ok. induction HD as [|p M qs D HM HF IH]; [constructor|]. cbn [combine map fst snd]. constructor; [apply (tvec_length n); exact HM|exact IH]. Qed.
Lemma args_add_ok ps a b : args_ok ps a -> args_ok ps b -> args_ok ps (map (fun ab => vadd (fst ab) (snd ab)) (combine a b)).
Proof.
  intros Ha. revert b. induction Ha as [|p x qs l Hx HF IH]; intros b Hb; inversion Hb; subst; [constructor|]. cbn [combine map fst snd]. constructor; [|apply IH; assumption].
  rewrite vadd_length. unfold vec in *. lia.
Qed.
Section Back.
Context {X : Type}.
Variables (n : nat) (ps : list nat) (u : list vec -> fp_user X) (J1 : vec -> mat) (D2 : vec -> list mat) (args v : list vec) (x0 dx0 : vec).
Hypothesis LT : forall z, length z = n -> length (the_map (u args) z) = n.
Hypothesis HD : forall z, length z = n -> mat_shape n n (J1 z) /\ jac_ok n ps (D2 z).
Hypothesis Hv : args_ok ps v.
Hypothesis Hx0 : length x0 = n.
Hypothesis Hdx : length dx0 = n.
Lemma backward_spec k : forall w acc, length w = n -> args_ok ps acc ->
  let '(g0, gs) := fp_backward n ps J1 D2 (visited u args k x0) w acc in
  length g0 = n /\ args_ok ps gs /\ dot g0 dx0 + total_dot gs v = dot w (tangent_iterate n (the_map (u args)) J1 D2 v x0 dx0 k) + total_dot acc v.
Proof.
  induction k as [|k IH]; intros w acc Hw Hacc; [cbn; repeat split; assumption|]. cbn [visited fp_backward].
  set (x := Nat.iter k (the_map (u args)) x0). assert (Lx : length x = n) by (apply iter_length; assumption). destruct (HD x Lx) as [S1 S2].
  assert (Lt : length (tvec n (J1 x) w) = n) by (apply (tvec_length n); exact S1).
  pose proof (IH (tvec n (J1 x) w) _ Lt (args_add_ok ps _ _ (vjp_shape n ps (D2 x) w S2) Hacc)) as I.
  destruct (fp_backward n ps J1 D2 (visited u args k x0) (tvec n (J1 x) w) _) as [g0 gs]. destruct I as (L0 & Lg & E). split; [exact L0|]. split; [exact Lg|].
  rewrite E. cbn [tangent_iterate]. fold x. rewrite total_dot_add.
  - rewrite (total_dot_vjp n) by assumption. rewrite (dot_tvec n) by assumption. rewrite dot_vadd_r. ring.
  - rewrite <- (Forall2_length (vjp_shape n ps (D2 x) w S2)). apply (Forall2_length Hacc).
  - rewrite <- (Forall2_length Hacc). apply (Forall2_length Hv).
Qed.
End Back.

(** ** Rate on contractions *)
Lemma bounded_of_frechet n ps F x args D1 D2 q : (forall y, length y = n -> length (F y args) = n) ->
  (forall y z, length y = n -> length z = n -> vdist (F y args) (F z args) <= q * vdist y z) ->
  frechet n ps F x args D1 D2 -> length x = n -> args_ok ps args -> jac_ok n ps D2 -> mat_shape n n D1 -> bounded n q (mvec D1).
Proof.
  intros LF Hm HF Hx Ha HD HM w Hw. apply Rnot_lt_le. intros C. pose proof (norm2_nonneg w) as Pw.
  assert (Hp : 0 < norm2 w).
  { destruct (Rle_lt_or_eq_dec 0 (norm2 w) Pw) as [|E]; [assumption|]. rewrite <- E, Rmult_0_r in C.
    rewrite (norm_zero_vec n w Hw ltac:(lra)) in C. pose proof (mvec_bound D1 (vzero n)) as Bz. rewrite norm_vzero, Rmult_0_r in Bz. lra. }
  set (e := (norm2 (mvec D1 w) - q * norm2 w) / (2 * norm2 w)). assert (He : 0 < e) by (apply Rdiv_lt_0_compat; lra).
  destruct (frechet_line n ps F x args D1 D2 w e HF Hx Ha HD HM Hw (LF x Hx) He) as (t & Ht & H).
  set (y := vadd x (smul t w)) in *. assert (Ly : length y = n) by (unfold y; rewrite vadd_length, smul_length; unfold vec in *; lia).
  specialize (H y eq_refl (LF y Ly)). pose proof (Hm y x Ly Hx) as B. unfold vdist in B.
  assert (Es : vsub y x = smul t w).
  { unfold y. apply vec_ext; [rewrite vsub_length, vadd_length, !smul_length; unfold vec in *; lia|]. intros i Hi. rewrite nth_vsub, nth_vadd, nth_smul. ring. }
  rewrite Es, norm2_smul, Rabs_pos_eq in B by lra.
  assert (Tr : t * norm2 (mvec D1 w) <= norm2 (vsub (F y args) (F x args)) + norm2 (vsub (vsub (F y args) (F x args)) (smul t (mvec D1 w)))).
  { rewrite <- (Rabs_pos_eq t) at 1 by lra. rewrite <- norm2_smul. eapply Rle_trans; [|apply norm_sub]. right. f_equal.
    assert (L1 := LF y Ly). assert (L2 := LF x Hx).
    apply vec_eq_dot; [rewrite ?vadd_length, ?vsub_length, ?smul_length, ?mvec_length, ?(proj1 HM); unfold vec in *; lia|]. intros z. autorewrite with vec. ring. }
  assert (E2 : e * norm2 w = (norm2 (mvec D1 w) - q * norm2 w) / 2) by (unfold e; field; lra).
  assert (K : t * norm2 (mvec D1 w) <= t * (q * norm2 w + e * norm2 w)) by lra. apply Rmult_le_reg_l in K; [|exact Ht]. lra.
Qed.
Lemma pow_INR_small q : 0 <= q < 1 -> forall eps, 0 < eps -> exists K, forall k, (K <= k)%nat -> INR k * q ^ k <= eps.
Proof.
  intros Hq eps He. set (r := sqrt q). assert (Hr0 : 0 <= r) by apply sqrt_pos. assert (Err : r * r = q) by (apply sqrt_def; lra).
  assert (Hr1 : r < 1). { apply Rnot_le_lt. intros C. assert (1 * 1 <= r * r) by (apply Rmult_le_compat; lra). lra. }
  assert (S : forall k, (1 - r) * (INR k * r ^ k) <= 1 - r ^ k).
  { induction k as [|k IH]; [simpl; lra|]. rewrite S_INR. cbn [pow]. pose proof (pow_le r k Hr0) as Pk.
    assert (INR k * r ^ k * (1 - r) * r <= (1 - r ^ k) * r) by (apply Rmult_le_compat_r; lra).
    assert (r * r ^ k <= r ^ k) by (rewrite <- (Rmult_1_l (r ^ k)) at 2; apply Rmult_le_compat_r; lra).
    replace ((1 - r) * ((INR k + 1) * (r * r ^ k))) with (INR k * r ^ k * (1 - r) * r + (1 - r) * (r * r ^ k)) by ring.
    replace (1 - r * r ^ k) with ((1 - r ^ k) * r + (1 - r)) by ring.
    assert (Pk1 : r * r ^ k <= 1). { pose proof (pow_incr r 1 (S k) ltac:(lra)) as Q. rewrite pow1 in Q. cbn [pow] in Q. exact Q. }
    assert ((1 - r) * (r * r ^ k) <= (1 - r) * 1) by (apply Rmult_le_compat_l; lra). lra. }
  assert (Hsm : 0 < eps * (1 - r)) by (apply Rmult_lt_0_compat; lra).
  destruct (pow_lt_1_zero r ltac:(rewrite Rabs_pos_eq; lra) (eps * (1 - r)) Hsm) as [K HK].
  exists K. intros k Hk. specialize (HK k ltac:(lia)). pose proof (pow_le r k Hr0) as Pk. rewrite Rabs_pos_eq in HK by exact Pk.
  rewrite <- Err, Rpow_mult_distr. pose proof (pos_INR k) as Pi.
  assert (B : (1 - r) * (INR k * (r ^ k * r ^ k)) <= r ^ k).
  { replace ((1 - r) * (INR k * (r ^ k * r ^ k))) with ((1 - r) * (INR k * r ^ k) * r ^ k) by ring.
    rewrite <- (Rmult_1_l (r ^ k)) at 3. apply Rmult_le_compat_r; [exact Pk|]. specialize (S k). lra. }
  apply Rmult_le_reg_l with (1 - r); [lra|]. lra.
Qed.
Section Rate.
Variables (n : nat) (ps : list nat) (T : vec -> vec) (J1 : vec -> mat) (D2 : vec -> list mat) (v : list vec) (x0 dx0 xs Js : vec) (q beta gamma : R).
Hypothesis Hq : 0 <= q < 1.
Hypothesis HC : contraction n q T.
Hypothesis HD : forall z, length z = n -> mat_shape n n (J1 z) /\ jac_ok n ps (D2 z).
Hypothesis HB : forall z, length z = n -> bounded n q (mvec (J1 z)).
Hypothesis Hb : 0 <= beta.
Hypothesis Hg : 0 <= gamma.
Hypothesis HL1 : lipschitz_D1 n beta J1.
Hypothesis HL2 : lipschitz_D2 n ps gamma D2.
Hypothesis Hv : args_ok ps v.
Hypothesis Hx0 : length x0 = n.
Hypothesis Hdx : length dx0 = n.
Hypothesis Hxs : length xs = n.
Hypothesis Fx : T xs = xs.
Hypothesis HJ : length Js = n.
Hypothesis EJ : Js = vadd (mvec (J1 xs) Js) (jvp_args n (D2 xs) v).
Let C := beta * norm2 Js + gamma * norm2 (concat v).
Lemma tangent_rate k : norm2 (vsub (tangent_iterate n T J1 D2 v x0 dx0 k) Js) <= q ^ k * norm2 (vsub dx0 Js) + INR k * q ^ (k - 1) * (C * vdist x0 xs).
Proof.
  assert (PC : 0 <= C) by (unfold C; pose proof (norm2_nonneg Js); pose proof (norm2_nonneg (concat v)); apply Rplus_le_le_0_compat; apply Rmult_le_pos; assumption).
  induction k as [|k IH]; [simpl; lra|]. cbn [tangent_iterate]. set (x := Nat.iter k T x0) in *. set (w := tangent_iterate n T J1 D2 v x0 dx0 k) in *.
  assert (Lx : length x = n) by (apply iter_length; [apply HC|exact Hx0]).
  assert (Lw : length w = n) by (apply (tangent_length n ps); [apply HC|exact HD|exact Hx0|exact Hdx]).
  destruct (HD x Lx) as [S1 S2]. destruct (HD xs Hxs) as [S3 S4].
  assert (LA : forall z, length (mvec (J1 x) z) = n) by (intros; rewrite mvec_length; apply S1). assert (LAs : forall z, length (mvec (J1 xs) z) = n) by (intros; rewrite mvec_length; apply S3).
  assert (LB := jvp_args_length n ps (D2 x) v S2). assert (LBs := jvp_args_length n ps (D2 xs) v S4).
  assert (E : vsub (vadd (mvec (J1 x) w) (jvp_args n (D2 x) v)) Js =
    vadd (mvec (J1 x) (vsub w Js)) (vadd (vsub (mvec (J1 x) Js) (mvec (J1 xs) Js)) (vsub (jvp_args n (D2 x) v) (jvp_args n (D2 xs) v)))).
  { rewrite EJ at 1. rewrite mvec_vsub. apply vec_eq_dot; [repeat (rewrite ?vadd_length, ?vsub_length); rewrite ?LA, ?LAs; unfold vec in *; lia|]. intros z. autorewrite with vec. ring. }
  rewrite E. eapply Rle_trans; [apply norm2_triangle|].
  pose proof (norm2_triangle (vsub (mvec (J1 x) Js) (mvec (J1 xs) Js)) (vsub (jvp_args n (D2 x) v) (jvp_args n (D2 xs) v))) as Tr.
  pose proof (HB x Lx (vsub w Js) (vsub_length_eq _ _ n Lw HJ)) as B0. pose proof (HL1 x xs Js Lx Hxs HJ) as B1. pose proof (HL2 x xs v Lx Hxs Hv) as B2.
  pose proof (dist_decay n q T Hq HC x0 xs k Hx0 Hxs Fx) as Bd. fold x in Bd.
  assert (B3 : C * vdist x xs <= q ^ k * (C * vdist x0 xs)) by (apply Rle_trans with (C * (q ^ k * vdist x0 xs)); [apply Rmult_le_compat_l; assumption|right; ring]).
  assert (B4 : q * norm2 (vsub w Js) <= q * (q ^ k * norm2 (vsub dx0 Js) + INR k * q ^ (k - 1) * (C * vdist x0 xs))) by (apply Rmult_le_compat_l; [lra|exact IH]).
  assert (E5 : INR k * q ^ (k - 1) * q = INR k * q ^ k).
  { destruct k as [|j]; [simpl; ring|]. replace (S j - 1)%nat with j by lia. cbn [pow]. ring. }
  rewrite S_INR. replace (S k - 1)%nat with k by lia. cbn [pow].
  assert (E6 : q * (q ^ k * norm2 (vsub dx0 Js) + INR k * q ^ (k - 1) * (C * vdist x0 xs)) = q * q ^ k * norm2 (vsub dx0 Js) + INR k * q ^ k * (C * vdist x0 xs)) by (rewrite <- E5; ring).
  unfold C in *. lra.
Qed.
End Rate.
