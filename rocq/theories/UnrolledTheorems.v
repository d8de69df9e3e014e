(** C71: differentiation through the iterations. *)
From Coq Require Import Reals List Lra Lia Bool Arith.
From Verif Require Import Prelude Vec Mat LinAlg LinSolve ImplicitDiff ImplicitDiffProofs ImplicitDiffTheorems Run FixedPoint FixedPointTheorems ProxGrad ProxGradProofs QuasiNewton QuasiNewtonProofs Convergence ConvergenceProofs ImplicitError ImplicitErrorProofs ImplicitErrorTheorems Unrolled UnrolledProofs.
Import ListNotations.
Open Scope R_scope.

(** Differentiating does not change the values, and the tangent is that of the iterate at which the run stops. *)
Theorem C71_primal : forall Aux n (u : list vec -> fp_user Aux) J1 D2 args v tol maxiter x0 dx0,
  let r := fp_run (u args) tol maxiter x0 in
  fp_run_jvp n u J1 D2 args v tol maxiter x0 dx0 = (r, tangent_iterate n (the_map (u args)) J1 D2 v x0 dx0 (fp_iter (snd r))).
Proof. intros. apply run_jvp. Qed.
Print Assumptions C71_primal.

(** The tangents are the derivatives of the iterates along args + t v and any differentiable curve of starting points. *)
Theorem C71_chain : forall n ps (T : vec -> list vec -> vec) args v J1 D2 beta gamma (X0 : R -> vec) dx0 k,
  smooth_optimality n ps T args J1 D2 beta gamma -> args_ok ps v -> (forall t, length (X0 t) = n) -> length dx0 = n -> curve_derivative X0 dx0 ->
  curve_derivative (fun t => Nat.iter k (fun z : vec => T z (args_move args t v)) (X0 t)) (tangent_iterate n (fun z : vec => T z args) J1 D2 v (X0 0) dx0 k).
Proof. intros n ps T args v J1 D2 beta gamma X0 dx0 k (_ & _ & Ha & LT & HD & _) Hv LX Ld HX. apply (chain n ps); assumption. Qed.
Print Assumptions C71_chain.

Lemma tangent_ext n T T' J1 D2 v x0 dx0 k : (forall z, T z = T' z) -> tangent_iterate n T J1 D2 v x0 dx0 k = tangent_iterate n T' J1 D2 v x0 dx0 k.
Proof.
  intros H. assert (HI : forall j, Nat.iter j T x0 = Nat.iter j T' x0) by (induction j; simpl; [reflexivity|rewrite IHj; apply H]).
  induction k as [|k IH]; [reflexivity|]. cbn [tangent_iterate]. rewrite IH, HI. reflexivity.
Qed.
Lemma iter_map_ext (T T' : vec -> vec) x k : (forall z, T z = T' z) -> Nat.iter k T x = Nat.iter k T' x.
Proof. intros H. induction k; simpl; [reflexivity|rewrite IHk; apply H]. Qed.

(** The whole run is differentiable with the derivative that autodiff computes, unless one of the errors compared
    with the tolerance equals it. *)
Theorem C71_run : forall Aux n ps (u : list vec -> fp_user Aux) T args v J1 D2 beta gamma (X0 : R -> vec) dx0 tol maxiter,
  (forall a z, the_map (u a) z = T z a) -> smooth_optimality n ps T args J1 D2 beta gamma -> args_ok ps v ->
  (forall t, length (X0 t) = n) -> length dx0 = n -> curve_derivative X0 dx0 ->
  (let k := fp_iter (snd (fp_run (u args) tol maxiter (X0 0))) in forall j, (1 <= j <= k)%nat -> (j < maxiter)%nat -> step_error (fun z => T z args) (X0 0) j <> tol) ->
  curve_derivative (fun t => fst (fp_run (u (args_move args t v)) tol maxiter (X0 t))) (snd (fp_run_jvp n u J1 D2 args v tol maxiter (X0 0) dx0)) /\
  exists r, 0 < r /\ forall t, Rabs t < r -> fp_iter (snd (fp_run (u (args_move args t v)) tol maxiter (X0 t))) = fp_iter (snd (fp_run (u args) tol maxiter (X0 0))).
Proof.
  intros Aux n ps u T args v J1 D2 beta gamma X0 dx0 tol maxiter HU HO Hv LX Ld HX Hne. cbv zeta in Hne.
  pose proof HO as (_ & _ & Ha & LT & HD & _).
  rewrite run_jvp. cbn [snd]. set (r0 := fp_run (u args) tol maxiter (X0 0)) in *.
  rewrite (tangent_ext n _ (fun z : vec => T z args)) by (intros; apply HU).
  destruct maxiter as [|m].
  { unfold r0, fp_run, run_loop. cbn [fst snd fp_iter fp_init_state tangent_iterate]. split; [exact HX|]. exists 1. split; [lra|]. reflexivity. }
  destruct (run_loop_spec (S m) (fun s => xgtb (fp_error (snd s)) tol) (fp_update (u args)) (X0 0, fp_init_state) ltac:(lia)) as (k & Hk & E & Hc & He).
  assert (E0 : r0 = Nat.iter k (fp_update (u args)) (X0 0, fp_init_state)) by exact E.
  assert (Ek : fp_iter (snd r0) = k) by (rewrite E0; apply fp_iter_num). rewrite Ek in *.
  set (Y := fun j t => Nat.iter j (fun z : vec => T z (args_move args t v)) (X0 t)).
  assert (LY : forall j t, length (Y j t) = n).
  { intros j t. unfold Y. apply iter_length; [|apply LX]. intros z Hz. apply LT; [exact Hz|]. apply args_move_ok; assumption. }
  assert (HY : forall j, curve_derivative (Y j) (tangent_iterate n (fun z : vec => T z args) J1 D2 v (X0 0) dx0 j)).
  { intros j. apply (C71_chain n ps T args v J1 D2 beta gamma); assumption. }
  assert (HYc : forall j, continuous_at_0 (Y j)).
  { intros j. apply (curve_continuous n _ _ (LY j)) with (2 := HY j).
    apply (tangent_length n ps); [intros z Hz; apply LT; assumption|intros z Hz; destruct (HD z Hz) as (Q1 & Q2 & _); split; assumption|apply LX|exact Ld]. }
  assert (Y0 : forall j, Y j 0 = Nat.iter j (fun z : vec => T z args) (X0 0)) by (intros j; unfold Y; rewrite (args_move_0 ps) by assumption; reflexivity).
  (* the error after update j+1, as a function of t *)
  assert (HE : forall t j, fp_error (snd (Nat.iter (S j) (fp_update (u (args_move args t v))) (X0 t, fp_init_state))) = Fin (vdist (Y (S j) t) (Y j t))).
  { intros t j. rewrite C44_update. cbn [snd fp_error]. f_equal. unfold Y. f_equal; [cbn; rewrite HU; f_equal|]; apply iter_map_ext; intros; apply HU. }
  assert (HE0 : forall j, fp_error (snd (Nat.iter (S j) (fp_update (u args)) (X0 0, fp_init_state))) = Fin (vdist (Y (S j) 0) (Y j 0))).
  { intros j. rewrite <- HE, (args_move_0 ps) by assumption. reflexivity. }
  assert (Hdist : forall j eps, 0 < eps -> exists d, 0 < d /\ forall t, Rabs t < d -> Rabs (vdist (Y (S j) t) (Y j t) - vdist (Y (S j) 0) (Y j 0)) < eps).
  { intros j eps Heps. destruct (HYc (S j) (eps / 2) ltac:(lra)) as (d1 & Hd1 & B1). destruct (HYc j (eps / 2) ltac:(lra)) as (d2 & Hd2 & B2).
    exists (Rmin d1 d2). split; [apply Rmin_pos; assumption|]. intros t Ht.
    specialize (B1 t ltac:(eapply Rlt_le_trans; [exact Ht|apply Rmin_l])). specialize (B2 t ltac:(eapply Rlt_le_trans; [exact Ht|apply Rmin_r])).
    fold (vdist (Y (S j) t) (Y (S j) 0)) in B1. fold (vdist (Y j t) (Y j 0)) in B2.
    pose proof (dist_tri n (Y (S j) t) (Y (S j) 0) (Y j t) (LY _ _) (LY _ _) (LY _ _)) as T1.
    pose proof (dist_tri n (Y (S j) 0) (Y j 0) (Y j t) (LY _ _) (LY _ _) (LY _ _)) as T2.
    pose proof (dist_tri n (Y (S j) 0) (Y (S j) t) (Y j 0) (LY _ _) (LY _ _) (LY _ _)) as T3.
    pose proof (dist_tri n (Y (S j) t) (Y j t) (Y j 0) (LY _ _) (LY _ _) (LY _ _)) as T4.
    rewrite (dist_sym (Y j 0) (Y j t)) in T2. rewrite (dist_sym (Y (S j) 0) (Y (S j) t)) in T3. apply Rabs_def1; lra. }
  assert (Hdec : forall j, (1 <= j <= k)%nat -> (j < S m)%nat -> exists d, 0 < d /\ forall t, Rabs t < d ->
      xgtb (fp_error (snd (Nat.iter j (fp_update (u (args_move args t v))) (X0 t, fp_init_state)))) tol =
      xgtb (fp_error (snd (Nat.iter j (fp_update (u args)) (X0 0, fp_init_state)))) tol).
  { intros [|j] Hj Hjm; [lia|]. specialize (Hne (S j) Hj Hjm). unfold step_error in Hne. replace (S j - 1)%nat with j in Hne by lia.
    assert (Hne' : vdist (Y (S j) 0) (Y j 0) <> tol) by (rewrite !Y0; exact Hne).
    set (c := Rabs (vdist (Y (S j) 0) (Y j 0) - tol)). assert (Hc0 : 0 < c) by (apply Rabs_pos_lt; lra).
    destruct (Hdist j c Hc0) as (d & Hd & B). exists d. split; [exact Hd|]. intros t Ht. specialize (B t Ht). rewrite HE, HE0. unfold xgtb.
    unfold c in B. destruct (Rabs_def2 _ _ B) as [U1 U2].
    destruct (Rlt_dec tol (vdist (Y (S j) t) (Y j t))) as [C1|C1], (Rlt_dec tol (vdist (Y (S j) 0) (Y j 0))) as [C2|C2]; try reflexivity; exfalso.
    - rewrite Rabs_left1 in U1, U2 by lra. lra.
    - rewrite Rabs_pos_eq in U1, U2 by lra. lra. }
  assert (Hall : forall i, (i <= k)%nat -> exists d, 0 < d /\ forall j t, (1 <= j <= i)%nat -> (j < S m)%nat -> Rabs t < d ->
      xgtb (fp_error (snd (Nat.iter j (fp_update (u (args_move args t v))) (X0 t, fp_init_state)))) tol =
      xgtb (fp_error (snd (Nat.iter j (fp_update (u args)) (X0 0, fp_init_state)))) tol).
  { induction i as [|i IH]; intros Hi; [exists 1; split; [lra|intros; lia]|].
    destruct (IH ltac:(lia)) as (d1 & Hd1 & B1). destruct (Nat.lt_ge_cases (S i) (S m)) as [C|C].
    - destruct (Hdec (S i) ltac:(lia) C) as (d2 & Hd2 & B2). exists (Rmin d1 d2). split; [apply Rmin_pos; assumption|]. intros j t Hj Hjm Ht.
      destruct (Nat.eq_dec j (S i)) as [->|Hj2]; [apply B2; eapply Rlt_le_trans; [exact Ht|apply Rmin_r]|apply B1; [lia|exact Hjm|eapply Rlt_le_trans; [exact Ht|apply Rmin_l]]].
    - exists d1. split; [exact Hd1|]. intros j t Hj Hjm Ht. apply B1; [lia|exact Hjm|exact Ht]. }
  destruct (Hall k ltac:(lia)) as (d & Hd & B).
  assert (Hrun : forall t, Rabs t < d -> fp_run (u (args_move args t v)) tol (S m) (X0 t) = Nat.iter k (fp_update (u (args_move args t v))) (X0 t, fp_init_state)).
  { intros t Ht. unfold fp_run. apply run_loop_det; [exact Hk| |].
    - intros j Hj. rewrite (B j t ltac:(lia) ltac:(lia) Ht). apply Hc. exact Hj.
    - destruct (Nat.eq_dec k (S m)) as [Ekm|Hkm]; [left; exact Ekm|]. right. rewrite (B k t ltac:(lia) ltac:(lia) Ht). destruct He as [He|He]; [contradiction|exact He]. }
  assert (Hfst : forall t, Rabs t < d -> fst (fp_run (u (args_move args t v)) tol (S m) (X0 t)) = Y k t).
  { intros t Ht. rewrite Hrun by exact Ht. rewrite (fp_iter_fst u (args_move args t v) (X0 t) k). unfold Y. apply iter_map_ext. intros; apply HU. }
  split.
  - intros eps Heps. destruct (HY k eps Heps) as (d' & Hd' & B'). exists (Rmin d d'). split; [apply Rmin_pos; assumption|]. intros t Ht.
    assert (H1 : Rabs t < d) by (eapply Rlt_le_trans; [exact Ht|apply Rmin_l]). assert (H2 : Rabs t < d') by (eapply Rlt_le_trans; [exact Ht|apply Rmin_r]).
    rewrite (Hfst t H1), (Hfst 0) by (rewrite Rabs_R0; exact Hd). apply B'. exact H2.
  - exists d. split; [exact Hd|]. intros t Ht. rewrite Hrun by exact Ht. apply (fp_iter_num u (args_move args t v) (X0 t) k).
Qed.
Print Assumptions C71_run.

(** Reverse mode: the gradients returned for the starting point and the arguments are the transposed products. *)
Theorem C71_adjoint : forall Aux n ps (u : list vec -> fp_user Aux) J1 D2 args v tol maxiter x0 dx0 w,
  (forall z, length z = n -> length (the_map (u args) z) = n) -> (forall z, length z = n -> mat_shape n n (J1 z) /\ jac_ok n ps (D2 z)) ->
  args_ok ps v -> length x0 = n -> length dx0 = n -> length w = n ->
  let '(g0, gs) := fp_run_vjp n ps u J1 D2 args tol maxiter x0 w in
  length g0 = n /\ args_ok ps gs /\ dot g0 dx0 + total_dot gs v = dot w (snd (fp_run_jvp n u J1 D2 args v tol maxiter x0 dx0)).
Proof.
  intros Aux n ps u J1 D2 args v tol maxiter x0 dx0 w LT HD Hv Hx Hd Hw. rewrite run_jvp. cbn [snd]. unfold fp_run_vjp.
  destruct (fp_run (u args) tol maxiter x0) as [x st]. cbn [snd].
  assert (Z : args_ok ps (map vzero ps)) by (unfold args_ok; clear; induction ps; constructor; [apply vzero_length|assumption]).
  pose proof (backward_spec n ps u J1 D2 args v x0 dx0 LT HD Hv Hx (fp_iter st) w (map vzero ps) Hw Z) as B.
  destruct (fp_backward _ _ _ _ _ _ _) as [g0 gs]. destruct B as (B1 & B2 & B3). split; [exact B1|]. split; [exact B2|].
  assert (E : total_dot (map vzero ps) v = 0).
  { clear -Hv. unfold total_dot. induction Hv as [|p a qs l Ha HF IH]; [reflexivity|]. cbn [map combine fold_right fst snd]. rewrite IH, dot_vzero_l. ring. }
  lra.
Qed.
Print Assumptions C71_adjoint.

(** On a contraction the tangents converge to the derivative of the fixed point, at the rate k q^(k-1). *)
Theorem C71_rate : forall n ps (T : vec -> list vec -> vec) args v J1 D2 beta gamma q X, 0 <= q < 1 -> contraction n q (fun z => T z args) ->
  smooth_optimality n ps T args J1 D2 beta gamma -> solution_curve n ps (fixed_point_optimality T) args v X ->
  exists Js, curve_derivative X Js /\ forall x0 dx0, length x0 = n -> length dx0 = n ->
    (forall k, norm2 (vsub (tangent_iterate n (fun z : vec => T z args) J1 D2 v x0 dx0 k) Js)
      <= q ^ k * norm2 (vsub dx0 Js) + INR k * q ^ (k - 1) * ((beta * norm2 Js + gamma * norm2 (concat v)) * vdist x0 (X 0))) /\
    forall eps, 0 < eps -> exists K, forall k, (K <= k)%nat -> norm2 (vsub (tangent_iterate n (fun z : vec => T z args) J1 D2 v x0 dx0 k) Js) <= eps.
Proof.
  intros n ps T args v J1 D2 beta gamma q X Hq HC HO HX.
  destruct (fixed_point_facts n ps T args J1 D2 v X q beta gamma Hq HC HO HX) as (_ & _ & Js & HJ & [LJ RJ] & Fx).
  pose proof HO as (Hb & Hg & Ha & LT & HD & HL1 & HL2). assert (LX0 : length (X 0) = n) by apply HX. assert (Hv : args_ok ps v) by apply HX.
  exists Js. split; [exact HJ|]. intros x0 dx0 Hx0 Hdx.
  assert (HD' : forall z, length z = n -> mat_shape n n (J1 z) /\ jac_ok n ps (D2 z)) by (intros z Hz; destruct (HD z Hz) as (Q1 & Q2 & _); split; assumption).
  assert (HB : forall z, length z = n -> bounded n q (mvec (J1 z))).
  { intros z Hz. destruct (HD z Hz) as (S1 & S2 & S3). apply (bounded_of_frechet n ps T z args (J1 z) (D2 z)); try assumption; [intros; apply LT; assumption|].
    intros y p Hy Hp. apply (proj2 HC); assumption. }
  destruct (HD' (X 0) LX0) as [S1 S2].
  assert (EJ : Js = vadd (mvec (J1 (X 0)) Js) (jvp_args n (D2 (X 0)) v)).
  { unfold fixed_point_D1 in RJ. rewrite mvec_msub in RJ by (rewrite (proj1 S1); symmetry; apply eye_shape). rewrite mvec_eye in RJ by exact LJ.
    assert (Lm : length (mvec (J1 (X 0)) Js) = n) by (rewrite mvec_length; apply S1). assert (Lw := jvp_args_length n ps (D2 (X 0)) v S2).
    apply vec_eq_dot; [rewrite vadd_length; unfold vec in *; lia|]. intros z.
    assert (Ez : dot (vadd (vsub (mvec (J1 (X 0)) Js) Js) (jvp_args n (D2 (X 0)) v)) z = 0) by (rewrite RJ; apply dot_vzero_l). autorewrite with vec in *. lra. }
  assert (HR := tangent_rate n ps (fun z => T z args) J1 D2 v x0 dx0 (X 0) Js q beta gamma Hq HC HD' HB Hb Hg HL1 HL2 Hv Hx0 Hdx LX0 Fx LJ EJ).
  split; [exact HR|]. intros eps He. set (C := (beta * norm2 Js + gamma * norm2 (concat v)) * vdist x0 (X 0)) in *.
  assert (PC : 0 <= C).
  { unfold C. pose proof (norm2_nonneg Js). pose proof (norm2_nonneg (concat v)). apply Rmult_le_pos; [|apply norm2_nonneg]. apply Rplus_le_le_0_compat; apply Rmult_le_pos; assumption. }
  pose proof (norm2_nonneg (vsub dx0 Js)) as P0. set (P := norm2 (vsub dx0 Js)) in *.
  destruct (pow_INR_small q Hq (eps / (3 * (P + 1))) ltac:(apply Rdiv_lt_0_compat; lra)) as [K1 HK1].
  destruct (pow_INR_small q Hq (eps / (3 * (C + 1))) ltac:(apply Rdiv_lt_0_compat; lra)) as [K2 HK2].
  exists (S (S (K1 + K2)))%nat. intros k Hk. eapply Rle_trans; [apply HR|].
  assert (B1 : q ^ k <= eps / (3 * (P + 1))).
  { eapply Rle_trans; [|apply (HK1 k); lia]. rewrite <- (Rmult_1_l (q ^ k)) at 1. apply Rmult_le_compat_r; [apply pow_le; lra|]. apply (le_INR 1); lia. }
  assert (B2 : INR k * q ^ (k - 1) <= 2 * (eps / (3 * (C + 1)))).
  { eapply Rle_trans; [|apply Rmult_le_compat_l; [lra|apply (HK2 (k - 1)%nat); lia]]. rewrite <- Rmult_assoc. apply Rmult_le_compat_r; [apply pow_le; lra|].
    replace (2 * INR (k - 1)) with (INR (2 * (k - 1))) by (rewrite mult_INR; reflexivity). apply le_INR. lia. }
  assert (C1 : q ^ k * P <= eps / 3).
  { apply Rle_trans with (eps / (3 * (P + 1)) * P); [apply Rmult_le_compat_r; lra|].
    apply Rle_trans with (eps / (3 * (P + 1)) * (P + 1)); [apply Rmult_le_compat_l; [left; apply Rdiv_lt_0_compat; lra|lra]|]. right. field. lra. }
  assert (C2 : INR k * q ^ (k - 1) * C <= 2 * (eps / 3)).
  { apply Rle_trans with (2 * (eps / (3 * (C + 1))) * C); [apply Rmult_le_compat_r; lra|].
    apply Rle_trans with (2 * (eps / (3 * (C + 1))) * (C + 1)); [apply Rmult_le_compat_l; [|lra]; assert (0 < eps / (3 * (C + 1))) by (apply Rdiv_lt_0_compat; lra); lra|]. right. field. lra. }
  lra.
Qed.
Print Assumptions C71_rate.

(** GradientDescent with a constant step s <= 1/L on strongly convex functions: the iterates are those of a smooth
    contraction, so differentiating through them converges to the derivative of the minimiser. *)
Lemma gd_contraction n mu L f gradf s : strongly_convex_smooth n mu L f gradf -> 0 < s -> s * L <= 1 ->
  0 <= sqrt (1 - s * mu) < 1 /\ contraction n (sqrt (1 - s * mu)) (fun z => vadd z (smul (- s) (gradf z))).
Proof.
  intros HF Hs HsL. pose proof HF as (Hmu & Hd & _).
  assert (Hsm : s * mu <= 1) by (apply Rle_trans with (s * L); [apply Rmult_le_compat_l; lra|exact HsL]). assert (Hsm0 : 0 < s * mu) by (apply Rmult_lt_0_compat; lra).
  split. { split; [apply sqrt_pos|]. apply Rlt_le_trans with (sqrt 1); [apply sqrt_lt_1_alt; lra|rewrite sqrt_1; lra]. }
  split. { intros z Hz. rewrite vadd_length, smul_length. pose proof (Hd z Hz). unfold vec in *. lia. }
  intros x z Hx Hz. unfold vdist. pose proof (ssc_cocoercive n mu L f gradf HF z x Hz Hx) as A. pose proof (ssc_monotone n mu L f gradf HF z x Hz Hx) as B. cbv zeta in A, B.
  set (y := vsub (gradf x) (gradf z)) in *. set (d := vsub x z) in *.
  assert (E : vsub (vadd x (smul (- s) (gradf x))) (vadd z (smul (- s) (gradf z))) = vsub d (smul s y)).
  { pose proof (Hd x Hx) as L1. pose proof (Hd z Hz) as L2. unfold d, y. apply vec_eq_dot; [repeat rewrite ?vsub_length, ?vadd_length, ?smul_length; unfold vec in *; lia|]. intros w. autorewrite with vec. ring. }
  rewrite E. unfold norm2. rewrite <- sqrt_mult by (try lra; apply dot_self_nonneg). apply sqrt_le_1_alt. autorewrite with vec.
  replace (dot y d) with (dot d y) in * by apply dot_comm.
  assert (C : s * (s * dot y y) <= s * (s * (L * dot d y))) by (apply Rmult_le_compat_l; [lra|]; apply Rmult_le_compat_l; lra).
  assert (P : 0 <= dot d y). { pose proof (dot_self_nonneg d). assert (0 <= mu * dot d d) by (apply Rmult_le_pos; lra). lra. }
  assert (D : s * (s * L) * dot d y <= s * 1 * dot d y) by (apply Rmult_le_compat_r; [exact P|]; apply Rmult_le_compat_l; lra).
  assert (F : s * (mu * dot d d) <= s * dot d y) by (apply Rmult_le_compat_l; lra). lra.
Qed.
Lemma gd_smooth n ps gradf args H G beta gamma s : 0 < s -> smooth_optimality n ps gradf args H G beta gamma ->
  smooth_optimality n ps (gd_map s gradf) args (gd_J1 n s H) (gd_D2 s G) (s * beta) (s * gamma).
Proof.
  intros Hs (Hb & Hg & Ha & LT & HD & HL1 & HL2).
  assert (LM : forall a M, mat_shape n n M -> mat_shape n n (msmul a M)) by (intros; apply msmul_shape; assumption).
  assert (S1 : forall z, length z = n -> mat_shape n n (gd_J1 n s H z)).
  { intros z Hz. destruct (HD z Hz) as (Q & _). unfold gd_J1. apply msub_shape; [apply eye_shape|apply LM; exact Q]. }
  assert (E1 : forall z w, length z = n -> length w = n -> mvec (gd_J1 n s H z) w = vsub w (smul s (mvec (H z) w))).
  { intros z w Hz Hw. destruct (HD z Hz) as (Q & _). unfold gd_J1. rewrite mvec_msub by (rewrite (proj1 (eye_shape n)); symmetry; apply (LM s _ Q)). rewrite mvec_eye by exact Hw. rewrite mvec_msmul. reflexivity. }
  assert (E2 : forall D v, jvp_args n (map (msmul (- s)) D) v = smul (- s) (jvp_args n D v)).
  { intros D. induction D as [|M D IH]; intros [|w v]; unfold jvp_args in *; cbn [map combine fold_right fst snd]; try (apply vec_ext; [rewrite smul_length; reflexivity|]; intros i Hi; rewrite nth_smul, nth_vzero; ring).
    rewrite IH, mvec_msmul. apply vec_eq_dot; [rewrite ?vadd_length, ?smul_length, ?vadd_length; reflexivity|]. intros z. autorewrite with vec. ring. }
  split; [apply Rmult_le_pos; lra|]. split; [apply Rmult_le_pos; lra|]. split; [exact Ha|]. split.
  { intros z a Hz Haa. unfold gd_map. rewrite vadd_length, smul_length. pose proof (LT z a Hz Haa). unfold vec in *. lia. }
  split; [|split].
  - intros z Hz. destruct (HD z Hz) as (Q1 & Q2 & Q3). split; [apply S1; exact Hz|]. split.
    + unfold gd_D2, jac_ok in *. clear -Q2. induction Q2; [constructor|]. cbn [map]. constructor; [apply msmul_shape; assumption|assumption].
    + intros eps He. destruct (Q3 (eps / s) ltac:(apply Rdiv_lt_0_compat; lra)) as (dl & Hdl & B). exists dl. split; [exact Hdl|]. intros x a Hx Haa N1 N2. specialize (B x a Hx Haa N1 N2).
      set (N := norm2 (vsub x z) + norm2 (concat (args_sub a args))) in *.
      assert (Ld : length (vsub x z) = n) by (apply vsub_length_eq; assumption).
      pose proof (LT z args Hz Ha) as L1. pose proof (LT x a Hx Haa) as L2. pose proof (jvp_args_length n ps (G z) (args_sub a args) Q2) as L3.
      assert (L4 : length (mvec (H z) (vsub x z)) = n) by (rewrite mvec_length; apply Q1).
      assert (E : vsub (gd_map s gradf x a) (vadd (gd_map s gradf z args) (vadd (mvec (gd_J1 n s H z) (vsub x z)) (jvp_args n (gd_D2 s G z) (args_sub a args)))) =
        smul (- s) (vsub (gradf x a) (vadd (gradf z args) (vadd (mvec (H z) (vsub x z)) (jvp_args n (G z) (args_sub a args)))))).
      { rewrite E1 by assumption. unfold gd_D2. rewrite E2. unfold gd_map. apply vec_eq_dot; [repeat rewrite ?vsub_length, ?vadd_length, ?smul_length; unfold vec in *; lia|]. intros w. autorewrite with vec. ring. }
      rewrite E, norm2_smul, Rabs_Ropp, Rabs_pos_eq by lra. apply Rle_trans with (s * (eps / s * N)); [apply Rmult_le_compat_l; lra|]. right. field. lra.
  - intros x y w Hx Hy Hw. rewrite !E1 by assumption. destruct (HD x Hx) as (Q1 & _). destruct (HD y Hy) as (Q2 & _).
    assert (E : vsub (vsub w (smul s (mvec (H x) w))) (vsub w (smul s (mvec (H y) w))) = smul (- s) (vsub (mvec (H x) w) (mvec (H y) w))).
    { apply vec_eq_dot; [repeat rewrite ?vsub_length, ?smul_length, ?mvec_length; rewrite (proj1 Q1), (proj1 Q2); unfold vec in *; lia|]. intros z. autorewrite with vec. ring. }
    rewrite E, norm2_smul, Rabs_Ropp, Rabs_pos_eq by lra. pose proof (HL1 x y w Hx Hy Hw) as B. apply Rle_trans with (s * (beta * vdist x y * norm2 w)); [apply Rmult_le_compat_l; lra|]. right. ring.
  - intros x y w Hx Hy Hw. unfold gd_D2. rewrite !E2.
    assert (E : vsub (smul (- s) (jvp_args n (G x) w)) (smul (- s) (jvp_args n (G y) w)) = smul (- s) (vsub (jvp_args n (G x) w) (jvp_args n (G y) w))).
    { apply vec_eq_dot; [repeat rewrite ?vsub_length, ?smul_length; reflexivity|]. intros z. autorewrite with vec. ring. }
    rewrite E, norm2_smul, Rabs_Ropp, Rabs_pos_eq by lra. pose proof (HL2 x y w Hx Hy Hw) as B. apply Rle_trans with (s * (gamma * vdist x y * norm2 (concat w))); [apply Rmult_le_compat_l; lra|]. right. ring.
Qed.
Lemma gd_iterates cfg f gradf x0 s k : acceleration cfg = false -> (forall i, step_at cfg i = s) -> 0 < s ->
  pg_iterate cfg f gradf gd_prox x0 k = Nat.iter k (fun z : vec => vadd z (smul (- s) (gradf z))) x0.
Proof.
  intros Hacc Hst Hs. induction k as [|k IH]; [reflexivity|].
  destruct (plain_step cfg f gradf gd_prox x0 Hacc k ltac:(rewrite Hst; exact Hs)) as [E _].
  etransitivity; [exact E|]. rewrite Hst, IH. reflexivity.
Qed.
Theorem C71_gradient_descent : forall cfg n ps f gradf args v H G beta gamma mu L s X,
  acceleration cfg = false -> (forall i, step_at cfg i = s) -> 0 < s -> s * L <= 1 ->
  strongly_convex_smooth n mu L (fun z => f z args) (fun z => gradf z args) -> smooth_optimality n ps gradf args H G beta gamma ->
  solution_curve n ps gradf args v X ->
  exists Js, curve_derivative X Js /\ forall x0, length x0 = n ->
    let x' k := tangent_iterate n (fun z : vec => gd_map s gradf z args) (gd_J1 n s H) (gd_D2 s G) v x0 (vzero n) k in
    let q := sqrt (1 - s * mu) in 0 <= q < 1 /\
    (forall k, curve_derivative (fun t => pg_iterate cfg (fun z => f z (args_move args t v)) (fun z => gradf z (args_move args t v)) gd_prox x0 k) (x' k)) /\
    (forall k, norm2 (vsub (x' k) Js) <= q ^ k * norm2 Js + INR k * q ^ (k - 1) * (s * (beta * norm2 Js + gamma * norm2 (concat v)) * vdist x0 (X 0))) /\
    forall eps, 0 < eps -> exists K, forall k, (K <= k)%nat -> norm2 (vsub (x' k) Js) <= eps.
Proof.
  intros cfg n ps f gradf args v H G beta gamma mu L s X Hacc Hst Hs HsL HF HO HX.
  destruct (gd_contraction n mu L _ _ s HF Hs HsL) as [Hq HC]. pose proof (gd_smooth n ps gradf args H G beta gamma s Hs HO) as HS.
  pose proof HO as (_ & _ & Ha & LT & _). pose proof HX as (Hv & LX & HXc & r & Hr & HR).
  assert (HX' : solution_curve n ps (fixed_point_optimality (gd_map s gradf)) args v X).
  { split; [exact Hv|]. split; [exact LX|]. split; [exact HXc|]. exists r. split; [exact Hr|]. intros t Ht. unfold fixed_point_optimality, gd_map. rewrite (HR t Ht).
    pose proof (LX t) as Lt. apply vec_eq_dot; [repeat rewrite ?vsub_length, ?vadd_length, ?smul_length, ?vzero_length; unfold vec in *; lia|]. intros w. autorewrite with vec. rewrite ?dot_vzero_l. ring. }
  destruct (C71_rate n ps (gd_map s gradf) args v _ _ _ _ _ X Hq HC HS HX') as (Js & HJ & HB). exists Js. split; [exact HJ|]. intros x0 Hx0 x' q.
  destruct (HB x0 (vzero n) Hx0 (vzero_length n)) as [HB1 HB2]. split; [exact Hq|]. split; [|split; [|exact HB2]].
  - intros k. pose proof (C71_chain n ps (gd_map s gradf) args v _ _ _ _ (fun _ => x0) (vzero n) k HS Hv (fun _ => Hx0) (vzero_length n)) as HCh.
    assert (Hc0 : curve_derivative (fun _ : R => x0) (vzero n)).
    { intros eps He. exists 1. split; [lra|]. intros t Ht. pose proof (Rabs_pos t). apply Rle_trans with 0; [|apply Rmult_le_pos; lra]. right.
      rewrite vsub_self, <- (norm_vzero n). f_equal. apply vec_eq_dot; [repeat rewrite ?vsub_length, ?smul_length, ?vzero_length; unfold vec in *; lia|]. intros w. autorewrite with vec. rewrite ?dot_vzero_l. ring. }
    specialize (HCh Hc0). intros eps He. destruct (HCh eps He) as (d & Hd & B). exists d. split; [exact Hd|]. intros t Ht. specialize (B t Ht). cbv beta in B.
    rewrite !(gd_iterates cfg _ _ x0 s k Hacc Hst Hs). exact B.
  - intros k. eapply Rle_trans; [apply HB1|]. right. f_equal.
    + f_equal. unfold norm2. f_equal. autorewrite with vec. rewrite ?dot_vzero_l, ?dot_vzero_r. ring.
    + unfold q. ring.
Qed.
Print Assumptions C71_gradient_descent.

(** T(x, theta) = x / 2 + theta, with fixed point 2 theta. *)
Definition ex71_T (x : vec) (a : list vec) : vec := [nth 0 x 0 / 2 + nth 0 (nth 0 a []) 0].
Definition ex71_u (a : list vec) : fp_user unit := NoAux (fun x => ex71_T x a).
Definition ex71_J1 (_ : vec) : mat := [[/ 2]].
Definition ex71_D2 (_ : vec) : list mat := [[[1]]].
Lemma ex71_smooth c : smooth_optimality 1 [1%nat] ex71_T [[c]] ex71_J1 ex71_D2 0 0.
Proof.
  split; [lra|]. split; [lra|]. split; [repeat constructor|]. split; [reflexivity|]. split; [|split].
  - intros z Hz. split; [split; [reflexivity|repeat constructor]|]. split; [repeat constructor|]. intros eps He. exists 1. split; [lra|].
    intros y a Hy Ha _ _. destruct (one_args a Ha) as [t ->]. rewrite (one_elem z Hz), (one_elem y Hy).
    match goal with |- norm2 ?w <= _ => replace w with [0] by (unfold jvp_args, args_sub, ex71_T; cbn; f_equal; field) end.
    rewrite norm_single, Rabs_R0. apply Rmult_le_pos; [lra|]. apply Rplus_le_le_0_compat; apply norm2_nonneg.
  - intros x y w _ _ _. unfold ex71_J1. rewrite vsub_self, norm_vzero. lra.
  - intros x y w _ _ _. unfold ex71_D2. rewrite vsub_self, norm_vzero. lra.
Qed.
Lemma ex71_contraction c : contraction 1 (/ 2) (fun z => ex71_T z [[c]]).
Proof.
  split; [reflexivity|]. intros x y Hx Hy. unfold vdist, ex71_T. rewrite (one_elem x Hx), (one_elem y Hy). cbn [nth]. set (p := nth 0 x 0). set (r := nth 0 y 0).
  replace (vsub [p / 2 + c] [r / 2 + c]) with [/ 2 * (p - r)] by (cbn; f_equal; field). replace (vsub [p] [r]) with [p - r] by reflexivity.
  rewrite !norm_single, Rabs_mult, (Rabs_pos_eq (/ 2)) by lra. lra.
Qed.
Lemma ex71_curve : solution_curve 1 [1%nat] (fixed_point_optimality ex71_T) [[0]] [[1]] (fun t => [2 * t]) /\ curve_derivative (fun t => [2 * t]) [2].
Proof.
  split.
  - split; [repeat constructor|]. split; [reflexivity|]. split.
    + intros eps He. exists (eps / 2). split; [lra|]. intros t Ht. replace (vsub [2 * t] [2 * 0]) with [2 * t] by (cbn; f_equal; ring). rewrite norm_single, Rabs_mult, Rabs_pos_eq by lra. lra.
    + exists 1. split; [lra|]. intros t _. unfold fixed_point_optimality, ex71_T, args_move. cbn. unfold vzero. cbn. f_equal. field.
  - intros eps He. exists 1. split; [lra|]. intros t _. replace (vsub (vsub [2 * t] [2 * 0]) (smul t [2])) with [0] by (cbn; f_equal; ring).
    rewrite norm_single, Rabs_R0. apply Rmult_le_pos; [lra|apply Rabs_pos].
Qed.
(** Starting at the exact solution, with any tolerance: the value returned is exact, and the derivative obtained by
    differentiating through the iterations is 1 instead of 2. *)
Theorem C71_warm_start_refuted : forall tol maxiter, 0 <= tol -> (0 < maxiter)%nat ->
  let r := fp_run_jvp 1 ex71_u ex71_J1 ex71_D2 [[0]] [[1]] tol maxiter [0] [0] in
  fst (fst r) = [0] /\ fp_error (snd (fst r)) = Fin 0 /\ snd r = [1] /\
  solution_curve 1 [1%nat] (fixed_point_optimality ex71_T) [[0]] [[1]] (fun t => [2 * t]) /\ curve_derivative (fun t => [2 * t]) [2].
Proof.
  intros tol maxiter Ht Hm r.
  assert (E1 : ex71_T [0] [[0]] = [0]) by (unfold ex71_T; cbn; f_equal; field).
  assert (En : norm2 (vsub [0] [0]) = 0) by (rewrite vsub_self; apply norm_vzero).
  assert (Er : r = (([0], {| fp_iter := 1; fp_error := Fin 0; fp_aux := None; fp_num_fun_eval := 1 |}), [1])).
  { unfold r, fp_run_jvp.
    assert (Eu : Nat.iter 1 (fp_update_jvp 1 ex71_u ex71_J1 ex71_D2 [[0]] [[1]]) (([0], fp_init_state), [0]) = (([0], {| fp_iter := 1; fp_error := Fin 0; fp_aux := None; fp_num_fun_eval := 1 |}), [1])).
    { cbn [Nat.iter nat_rect]. unfold fp_update_jvp, fp_update, fp_fun, ex71_u. rewrite E1, En. unfold jvp_args. cbn. f_equal. f_equal. field. }
    rewrite (run_loop_det maxiter _ _ _ 1%nat); [exact Eu|lia|lia|]. right. etransitivity; [exact (f_equal (fun p : (vec * fp_state unit) * vec => xgtb (fp_error (snd (fst p))) tol) Eu)|]. cbn [fst snd fp_error]. unfold xgtb. destruct (Rlt_dec tol 0); [lra|reflexivity]. }
  rewrite Er. cbn [fst snd fp_error]. split; [reflexivity|]. split; [reflexivity|]. split; [reflexivity|]. exact ex71_curve.
Qed.
Print Assumptions C71_warm_start_refuted.
(** The restriction in C71_run is needed: when an error equals the tolerance, the point returned is not even a
    continuous function of the argument. *)
Lemma ex71_run t : - / 4 < t < / 4 -> fst (fp_run (ex71_u [[t]]) (/ 2) 2 [1]) = if Rlt_dec t 0 then [/ 4 + 3 / 2 * t] else [/ 2 + t].
Proof.
  intros Ht. unfold fp_run, run_loop, ex71_u. cbn [Loop.python_for]. unfold fp_update at 1 2. cbn [fp_fun fp_error snd].
  assert (En : norm2 (vsub (ex71_T [1] [[t]]) [1]) = / 2 - t).
  { unfold ex71_T. cbn [nth]. replace (vsub [1 / 2 + t] [1]) with [- (/ 2 - t)] by (cbn; f_equal; field). rewrite norm_single, Rabs_Ropp, Rabs_pos_eq; lra. }
  rewrite En. unfold xgtb. destruct (Rlt_dec (/ 2) (/ 2 - t)) as [C|C], (Rlt_dec t 0) as [D|D]; try lra; unfold fp_update, fp_fun, ex71_T; cbn; f_equal; field.
Qed.
Theorem C71_at_tolerance_refuted : forall x', ~ curve_derivative (fun t => fst (fp_run (ex71_u (args_move [[0]] t [[1]])) (/ 2) 2 [1])) x'.
Proof.
  intros x' H. destruct (H 1 Rlt_0_1) as (d & Hd & B). pose proof (norm2_nonneg x') as P.
  set (c := / (8 * (3 + norm2 x'))). assert (Hc : 0 < c) by (apply Rinv_0_lt_compat; lra).
  assert (Hc8 : c * (8 * (3 + norm2 x')) = 1) by (apply Rinv_l; lra).
  set (t := - Rmin (d / 2) c). assert (Hm : 0 < Rmin (d / 2) c) by (apply Rmin_pos; lra). pose proof (Rmin_l (d / 2) c) as M1. pose proof (Rmin_r (d / 2) c) as M2.
  assert (Ha : Rabs t = Rmin (d / 2) c) by (unfold t; rewrite Rabs_Ropp, Rabs_pos_eq; lra).
  specialize (B t ltac:(rewrite Ha; lra)).
  assert (Hc24 : c * 24 <= 1) by (assert (0 <= c * norm2 x') by (apply Rmult_le_pos; lra); lra).
  assert (E : forall z, args_move [[0]] z [[1]] = [[z]]) by (intros z; unfold args_move; cbn; do 2 f_equal; ring).
  rewrite !E in B. rewrite (ex71_run t) in B by (unfold t; lra). rewrite (ex71_run 0) in B by lra.
  destruct (Rlt_dec t 0) as [_|C]; [|unfold t in C; lra]. destruct (Rlt_dec 0 0) as [C|_]; [lra|].
  replace (vsub [/ 4 + 3 / 2 * t] [/ 2 + 0]) with [- (/ 4 - 3 / 2 * t)] in B by (cbn; f_equal; field).
  assert (T1 : norm2 [- (/ 4 - 3 / 2 * t)] <= norm2 (vsub [- (/ 4 - 3 / 2 * t)] (smul t x')) + norm2 (smul t x')).
  { set (p := [- (/ 4 - 3 / 2 * t)]). pose proof (norm2_triangle (vsub p (smul t x')) (smul t x')) as Tr. eapply Rle_trans; [|exact Tr].
    unfold norm2. right. f_equal. autorewrite with vec. ring. }
  rewrite norm_single, Rabs_Ropp, Rabs_pos_eq in T1 by (unfold t; lra). rewrite norm2_smul, Ha in T1. rewrite Ha in B. 
  assert (K : Rmin (d / 2) c * norm2 x' <= c * norm2 x') by (apply Rmult_le_compat_r; lra). unfold t in *. lra.
Qed.
Print Assumptions C71_at_tolerance_refuted.

(** The tangents of the example, and its hypotheses. *)
Example C71_example : smooth_optimality 1 [1%nat] ex71_T [[0]] ex71_J1 ex71_D2 0 0 /\ contraction 1 (/ 2) (fun z => ex71_T z [[0]]) /\
  solution_curve 1 [1%nat] (fixed_point_optimality ex71_T) [[0]] [[1]] (fun t => [2 * t]) /\
  (forall k, tangent_iterate 1 (fun z => ex71_T z [[0]]) ex71_J1 ex71_D2 [[1]] [1] [0] k = [2 - 2 * (/ 2) ^ k]) /\
  step_error (fun z => ex71_T z [[0]]) [1] 1 <> / 3.
Proof.
  split; [apply ex71_smooth|]. split; [apply ex71_contraction|]. split; [apply ex71_curve|]. split.
  - induction k as [|k IH]; [cbn; f_equal; ring|]. cbn [tangent_iterate]. rewrite IH. unfold ex71_J1, ex71_D2, jvp_args. cbn. f_equal. field.
  - unfold step_error. cbn. unfold vdist, ex71_T. cbn [nth]. replace (vsub [1 / 2 + 0] [1]) with [- / 2] by (cbn; f_equal; field). rewrite norm_single, Rabs_Ropp, Rabs_pos_eq; lra.
Qed.
