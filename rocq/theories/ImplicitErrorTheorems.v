(** C70: implicit derivatives at approximate solutions. *)
From Coq Require Import Reals List Lra Lia Bool Arith.
From Verif Require Import Prelude Vec Mat LinAlg LinSolve LinSolveProofs LinSolveTheorems EqQPProofs ImplicitDiff ImplicitDiffProofs ImplicitDiffTheorems Run FixedPoint FixedPointTheorems QuasiNewton QuasiNewtonProofs Convergence ConvergenceProofs OptError OptErrorProofs ImplicitError ImplicitErrorProofs.
Import ListNotations.
Open Scope R_scope.

(** The derivatives computed at x by root_jvp and root_vjp, with Jacobians that expand by a at x and a linear solver
    with relative residual delta, are those at the root up to
    ((beta |J*| + gamma |v|) |x - x*| + delta |D2 v|) / a. *)
Theorem C70_accuracy : forall solve n ps F args D1 D2 beta gamma x xs v Js a delta,
  smooth_optimality n ps F args D1 D2 beta gamma -> length x = n -> length xs = n -> args_ok ps v ->
  root_derivative n (D1 xs) (D2 xs) v Js -> 0 < a -> expands n a (mvec (D1 x)) -> 0 <= delta ->
  approx_solves solve n (mvec (D1 x)) delta -> approx_solves solve n (tvec n (D1 x)) delta ->
  accurate_derivatives n ps solve (D1 x) (D2 x) v Js
    (((beta * norm2 Js + gamma * norm2 (concat v)) * vdist x xs + delta * norm2 (jvp_args n (D2 x) v)) / a).
Proof.
  intros solve n ps F args D1 D2 beta gamma x xs v Js a delta (Hb & Hg & Ha & LF & HD & HL1 & HL2) Hx Hxs Hv HJ Ha0 HE Hd HS HT.
  destruct (HD x Hx) as (S1 & S2 & _). destruct (HD xs Hxs) as (S3 & S4 & _).
  pose proof (HL1 x xs Js Hx Hxs (proj1 HJ)) as B1. pose proof (HL2 x xs v Hx Hxs Hv) as B2.
  assert (Q : forall r, (((beta * norm2 Js + gamma * norm2 (concat v)) * vdist x xs + delta * norm2 (jvp_args n (D2 x) v)) / a * r) =
     / a * ((beta * vdist x xs * norm2 Js + gamma * vdist x xs * norm2 (concat v) + delta * norm2 (jvp_args n (D2 x) v)) * r)) by (intros r; field; lra).
  split.
  - destruct (jvp_error n ps (D1 x) (D1 xs) (D2 x) (D2 xs) v Js a _ _ S1 S3 S2 S4 Hv HE HJ B1 B2 solve delta HS) as (J & E & L & B).
    exists J. split; [exact E|]. split; [exact L|].
    rewrite <- (Rmult_1_r (_ / a)), Q, Rmult_1_r. apply Rmult_le_reg_l with a; [exact Ha0|]. rewrite <- Rmult_assoc, Rinv_r, Rmult_1_l by lra. exact B.
  - intros w Hw.
    destruct (vjp_error n ps (D1 x) (D1 xs) (D2 x) (D2 xs) v Js a _ _ S1 S3 S2 S4 Hv Ha0 HE HJ B1 B2 solve delta w HT Hd Hw) as [E B].
    split; [exact E|]. rewrite Q. apply Rmult_le_reg_l with a; [exact Ha0|]. rewrite <- Rmult_assoc, Rinv_r, Rmult_1_l by lra. exact B.
Qed.
Print Assumptions C70_accuracy.

(** Close to a regular root the Jacobian expands: by a - beta |x - x*|. *)
Theorem C70_near : forall n D1 beta x xs a, lipschitz_D1 n beta D1 -> (forall z, length z = n -> mat_shape n n (D1 z)) -> length x = n -> length xs = n ->
  expands n a (mvec (D1 xs)) -> expands n (a - beta * vdist x xs) (mvec (D1 x)).
Proof.
  intros n D1 beta x xs a HL HS Hx Hxs HE w Hw. pose proof (HE w Hw) as B. pose proof (HL x xs w Hx Hxs Hw) as C.
  assert (T : norm2 (mvec (D1 xs) w) <= norm2 (mvec (D1 x) w) + norm2 (vsub (mvec (D1 x) w) (mvec (D1 xs) w))).
  { eapply Rle_trans; [|apply norm_sub]. right. f_equal. assert (L1 := HS x Hx). assert (L2 := HS xs Hxs).
    apply vec_eq_dot; [rewrite ?vsub_length, ?mvec_length, ?(proj1 L1), ?(proj1 L2); lia|]. intros z. autorewrite with vec. ring. }
  lra.
Qed.
Print Assumptions C70_near.

(** The default linear solver, conjugate gradient on the normal equations with tolerance delta, leaves a residual of at
    most delta B / a on an operator with a |w| <= |D1 w| <= B |w|, in both directions. *)
Lemma normal_cg_residual cg n f a B delta : tolerance_on_positive cg delta -> is_linear n f -> 0 < a -> 0 <= delta ->
  expands n a f -> bounded n B f -> approx_solves (normal_cg_solver cg n) n f (delta * B / a).
Proof.
  intros HC HL Ha Hd HE HB b Hb. unfold normal_cg_solver, solve_normal_cg. set (M := materialize_array f n).
  assert (HM : mat_shape n n M) by apply (materialize_shape n f HL).
  assert (EM : forall x, length x = n -> mvec M x = f x) by (intros; apply materialize_mvec; assumption).
  destruct (Nat.eq_dec (length b) n) as [_|C]; [|contradiction].
  assert (HEM : expands n a (mvec M)) by (intros w Hw; rewrite EM by exact Hw; apply HE; exact Hw).
  assert (HBM : bounded n B (mvec M)) by (intros w Hw; rewrite EM by exact Hw; apply HB; exact Hw).
  assert (HP : positive_op n (normal_matvec n M) None).
  { split; [intros x y Hx Hy; rewrite dot_normal, (dot_comm x), dot_normal; apply dot_comm|].
    intros x Hx Hne. rewrite dot_comm, dot_normal. assert (H1 := sqnorm_nonneg (mvec M x)). unfold sqnorm in H1.
    assert (Hx2 : dot (mvec M x) (mvec M x) <> 0).
    { intros E. apply Hne. apply (proj2 (expands_nonsingular n a M HM Ha HEM)); [exact Hx|]. apply sqnorm_zero_vec; [rewrite mvec_length; apply HM|exact E]. }
    lra. }
  assert (Lb : length (tvec n M b) = n) by (apply (tvec_length n); exact HM).
  destruct (HC n _ (tvec n M b) (with_ridge_linear n _ None (normal_linear n n M HM)) (with_ridge_positive n _ None (normal_linear n n M HM) HP) Lb) as [Lx Ex].
  set (x := cg _ _ _) in *. split; [exact Lx|]. cbn [with_ridge] in Ex. unfold normal_matvec in Ex.
  rewrite <- EM by exact Lx.
  assert (Lm : length (mvec M x) = n) by (rewrite mvec_length; apply HM).
  pose proof (expands_transpose n a M HM Ha HEM (vsub (mvec M x) b) (vsub_length_eq _ _ n Lm Hb)) as B1.
  pose proof (bounded_transpose n B M HM HBM b Hb) as B2.
  assert (Et : tvec n M (vsub (mvec M x) b) = vsub (tvec n M (mvec M x)) (tvec n M b)).
  { apply vec_eq_dot; [rewrite vsub_length, !(tvec_length n) by exact HM; lia|]. intros z. rewrite dot_vsub_l, !(dot_tvec n), dot_vsub_l by (try assumption; apply vsub_length_eq; assumption). reflexivity. }
  rewrite Et in B1.
  apply Rmult_le_reg_l with a; [exact Ha|]. eapply Rle_trans; [exact B1|]. eapply Rle_trans; [exact Ex|].
  replace (a * (delta * B / a * norm2 b)) with (delta * (B * norm2 b)) by (field; lra). apply Rmult_le_compat_l; assumption.
Qed.
Theorem C70_default_solver : forall cg n D1 a B delta, tolerance_on_positive cg delta -> mat_shape n n D1 -> 0 < a -> 0 <= delta ->
  expands n a (mvec D1) -> bounded n B (mvec D1) ->
  approx_solves (normal_cg_solver cg n) n (mvec D1) (delta * B / a) /\ approx_solves (normal_cg_solver cg n) n (tvec n D1) (delta * B / a).
Proof.
  intros cg n D1 a B delta HC HM Ha Hd HE HB. split; apply normal_cg_residual; try assumption.
  - apply matrix_linear. exact HM.
  - split; [intros; apply (tvec_length n); exact HM|]. split.
    + intros x y Hx Hy. apply (tvec_vadd n). exact HM.
    + intros c x Hx. apply (tvec_smul n). exact HM.
  - apply expands_transpose; assumption.
  - apply bounded_transpose; assumption.
Qed.
Print Assumptions C70_default_solver.

(** the derivative of a curve of roots *)
Lemma curve_root_derivative n ps F args D1 D2 v X a : (forall z b, length z = n -> args_ok ps b -> length (F z b) = n) -> args_ok ps args ->
  mat_shape n n D1 -> jac_ok n ps D2 -> frechet n ps F (X 0) args D1 D2 -> 0 < a -> expands n a (mvec D1) -> solution_curve n ps F args v X ->
  F (X 0) args = vzero n /\ exists Js, curve_derivative X Js /\ root_derivative n D1 D2 v Js.
Proof.
  intros LF Ha HM HD HF Ha0 HE (Hv & LX & HX & r & Hr & HR). assert (HN := expands_nonsingular n a D1 HM Ha0 HE).
  assert (E0 : args_move args 0 v = args).
  { clear -Ha Hv. unfold args_move, args_ok in *. revert v Hv. induction Ha as [|p b qs bs Hb HF IH]; intros v Hv; inversion Hv; subst; [reflexivity|].
    cbn [combine map fst snd]. f_equal; [|apply IH; assumption]. apply vec_ext; [rewrite vadd_length, smul_length; unfold vec in *; lia|]. intros i Hi. rewrite nth_vadd, nth_smul. ring. }
  assert (F0 : F (X 0) args = vzero n) by (rewrite <- E0; apply HR; rewrite Rabs_R0; exact Hr). split; [exact F0|].
  assert (HS1 : solves_with (dense_solve n) n (mvec D1)) by (apply dense_solves; [apply matrix_linear; exact HM|apply HN]).
  assert (HS2 : solves_with (dense_solve n) n (tvec n D1)).
  { apply dense_solves; [|exact (nonsingular_adjoint n D1 HN)]. split; [intros; apply (tvec_length n); exact HM|]. split.
    + intros x y Hx Hy. apply (tvec_vadd n). exact HM.
    + intros c x Hx. apply (tvec_smul n). exact HM. }
  destruct (C38_ift (dense_solve n) n ps F (X 0) args D1 D2 v X r HN HD Ha Hv (LX 0) LF HF F0 LX eq_refl HX Hr HR HS1 HS2) as (J & EJ & HJ & _).
  exists J. split; [exact HJ|]. destruct (C38_jvp (dense_solve n) n ps D1 D2 v HM HD Hv HS1) as (J' & EJ' & LJ & Ej).
  rewrite EJ in EJ'. injection EJ' as <-. split; assumption.
Qed.

(** Strongly convex problems.  X t minimises f(., args + t v).  The gradient error at x is controlled by the
    optimality error reported for x. *)
Theorem C70_strongly_convex : forall solve n ps f gradf args D1 D2 v X mu L beta gamma delta,
  strongly_convex_smooth n mu L (fun z => f z args) (fun z => gradf z args) ->
  smooth_optimality n ps gradf args D1 D2 beta gamma -> solution_curve n ps gradf args v X -> 0 <= delta ->
  exists Js, curve_derivative X Js /\
    forall x, length x = n -> approx_solves solve n (mvec (D1 x)) delta -> approx_solves solve n (tvec n (D1 x)) delta ->
    let e := l2_optimality_error (gradient_optimality (fun z => gradf z args)) x in
    accurate_derivatives n ps solve (D1 x) (D2 x) v Js (((beta * norm2 Js + gamma * norm2 (concat v)) * (e / mu) + delta * norm2 (jvp_args n (D2 x) v)) / mu).
Proof.
  intros solve n ps f gradf args D1 D2 v X mu L beta gamma delta HF HO HX Hd.
  pose proof HO as (Hb & Hg & Ha & LF & HD & HL1 & HL2). pose proof HF as (Hmu & Hgd & _).
  assert (HE : forall x, length x = n -> expands n mu (mvec (D1 x))).
  { intros x Hx. destruct (HD x Hx) as (S1 & S2 & S3). apply (expands_of_frechet n ps gradf x args (D1 x) (D2 x)); try assumption; try (intros; apply LF; assumption).
    intros y z Hy Hz. unfold vdist. apply (ssc_strong_norm n mu L (fun z => f z args) (fun z => gradf z args) HF); assumption. }
  assert (LX0 : length (X 0) = n) by apply HX. destruct (HD (X 0) LX0) as (S1 & S2 & S3).
  destruct (curve_root_derivative n ps gradf args (D1 (X 0)) (D2 (X 0)) v X mu LF Ha S1 S2 S3 ltac:(lra) (HE _ LX0) HX) as (F0 & Js & HJ & RJ).
  exists Js. split; [exact HJ|]. intros x Hx HS HT e.
  assert (Bd : vdist x (X 0) <= e / mu).
  { pose proof (ssc_strong_norm n mu L (fun z => f z args) (fun z => gradf z args) HF (X 0) x LX0 Hx) as B. cbv beta in B. rewrite F0 in B.
    assert (En : norm2 (vsub (gradf x args) (vzero n)) = e).
    { unfold e, l2_optimality_error, gradient_optimality. f_equal. assert (Lg := LF x args Hx Ha).
      apply vec_eq_dot; [rewrite vsub_length, vzero_length; unfold vec in *; lia|]. intros z. rewrite dot_vsub_l, dot_vzero_l. ring. }
    rewrite En in B. unfold vdist. apply Rmult_le_reg_l with mu; [lra|]. replace (mu * (e / mu)) with e by (field; lra). exact B. }
  destruct (C70_accuracy solve n ps gradf args D1 D2 beta gamma x (X 0) v Js mu delta HO Hx LX0 (proj1 HX) RJ ltac:(lra) (HE x Hx) Hd HS HT) as [(J & EJ & LJ & BJ) HV].
  assert (Hle : ((beta * norm2 Js + gamma * norm2 (concat v)) * vdist x (X 0) + delta * norm2 (jvp_args n (D2 x) v)) / mu <=
    ((beta * norm2 Js + gamma * norm2 (concat v)) * (e / mu) + delta * norm2 (jvp_args n (D2 x) v)) / mu).
  { unfold Rdiv. apply Rmult_le_compat_r; [left; apply Rinv_0_lt_compat; lra|]. apply Rplus_le_compat_r, Rmult_le_compat_l; [|exact Bd].
    pose proof (norm2_nonneg Js). pose proof (norm2_nonneg (concat v)). apply Rplus_le_le_0_compat; apply Rmult_le_pos; assumption. }
  split.
  - exists J. split; [exact EJ|]. split; [exact LJ|]. eapply Rle_trans; [exact BJ|exact Hle].
  - intros w Hw. destruct (HV w Hw) as [E B]. split; [exact E|]. eapply Rle_trans; [exact B|]. apply Rmult_le_compat_r; [apply norm2_nonneg|exact Hle].
Qed.
Print Assumptions C70_strongly_convex.

(** a contraction as a root problem *)
Lemma fixed_point_facts n ps T args J1 D2 v X q beta gamma : 0 <= q < 1 -> contraction n q (fun z => T z args) ->
  smooth_optimality n ps T args J1 D2 beta gamma -> solution_curve n ps (fixed_point_optimality T) args v X ->
  smooth_optimality n ps (fixed_point_optimality T) args (fun z => fixed_point_D1 n (J1 z)) D2 beta gamma /\
  (forall z, length z = n -> expands n (1 - q) (mvec (fixed_point_D1 n (J1 z)))) /\
  exists Js, curve_derivative X Js /\ root_derivative n (fixed_point_D1 n (J1 (X 0))) (D2 (X 0)) v Js /\ T (X 0) args = X 0.
Proof.
  intros Hq HC HO HX.
  pose proof HO as (Hb & Hg & Ha & LT & HD & HL1 & HL2).
  assert (LF : forall z b, length z = n -> args_ok ps b -> length (fixed_point_optimality T z b) = n).
  { intros z b Hz Hbb. unfold fixed_point_optimality. apply vsub_length_eq; [apply LT; assumption|exact Hz]. }
  assert (HO' : smooth_optimality n ps (fixed_point_optimality T) args (fun z => fixed_point_D1 n (J1 z)) D2 beta gamma).
  { split; [exact Hb|]. split; [exact Hg|]. split; [exact Ha|]. split; [exact LF|]. split; [|split; [|exact HL2]].
    - intros z Hz. destruct (HD z Hz) as (S1 & S2 & S3). split; [unfold fixed_point_D1; apply msub_shape; [exact S1|apply eye_shape]|]. split; [exact S2|].
      apply (proj2 (C38_fixed_point_root n ps T z args (J1 z) (D2 z) Hz LT Ha S1)). exact S3.
    - intros y z w Hy Hz Hw. destruct (HD y Hy) as (Sy & _). destruct (HD z Hz) as (Sz & _). eapply Rle_trans; [|apply (HL1 y z w Hy Hz Hw)]. right. f_equal.
      unfold fixed_point_D1. rewrite !mvec_msub by (rewrite (proj1 Sy) || rewrite (proj1 Sz); symmetry; apply eye_shape).
      apply vec_eq_dot; [rewrite ?vsub_length, ?mvec_length, (proj1 Sy), (proj1 Sz), (proj1 (eye_shape n)); lia|]. intros p. autorewrite with vec. ring. }
  assert (HE : forall z, length z = n -> expands n (1 - q) (mvec (fixed_point_D1 n (J1 z)))).
  { intros z Hz. destruct HO' as (_ & _ & _ & _ & HD' & _). destruct (HD' z Hz) as (S1 & S2 & S3).
    apply (expands_of_frechet n ps (fixed_point_optimality T) z args _ (D2 z)); try assumption; try (intros; apply LF; assumption).
    intros y p Hy Hp. pose proof (proj2 HC y p Hy Hp) as B. unfold fixed_point_optimality, vdist in *.
    assert (L1 := LT y args Hy Ha). assert (L2 := LT p args Hp Ha).
    assert (Tr : norm2 (vsub y p) <= norm2 (vsub (T y args) (T p args)) + norm2 (vsub (vsub (T y args) y) (vsub (T p args) p))).
    { eapply Rle_trans; [|apply norm_sub]. right. f_equal. apply vec_eq_dot; [rewrite ?vsub_length; unfold vec in *; lia|]. intros s. autorewrite with vec. ring. }
    lra. }
  assert (LX0 : length (X 0) = n) by apply HX. pose proof HO' as (_ & _ & _ & _ & HD' & _). destruct (HD' (X 0) LX0) as (S1 & S2 & S3).
  destruct (curve_root_derivative n ps (fixed_point_optimality T) args _ (D2 (X 0)) v X (1 - q) LF Ha S1 S2 S3 ltac:(lra) (HE _ LX0) HX) as (F0 & Js & HJ & RJ).
  assert (Fx : T (X 0) args = X 0) by (apply (proj1 (C38_fixed_point_root n ps T (X 0) args (J1 (X 0)) (D2 (X 0)) LX0 LT Ha (proj1 (HD _ LX0)))); exact F0).
  split; [exact HO'|]. split; [exact HE|]. exists Js. split; [exact HJ|]. split; assumption.
Qed.
(** FixedPointIteration.run on a contraction, then implicit differentiation with the Jacobians at the point returned: the
    derivatives are those of the fixed point up to a multiple of the tolerance. *)
Theorem C70_fixed_point_run : forall Aux (u : fp_user Aux) solve n ps T args J1 D2 v X q beta gamma delta x0 tol maxiter N,
  (forall z, the_map u z = T z args) -> 0 <= q < 1 -> contraction n q (fun z => T z args) ->
  smooth_optimality n ps T args J1 D2 beta gamma -> solution_curve n ps (fixed_point_optimality T) args v X -> 0 <= delta -> length x0 = n ->
  (1 <= N <= maxiter)%nat -> q ^ (N - 1) * vdist (T x0 args) x0 <= tol ->
  let x := fst (fp_run u tol maxiter x0) in
  let D1 := fixed_point_D1 n (J1 x) in
  approx_solves solve n (mvec D1) delta -> approx_solves solve n (tvec n D1) delta ->
  exists Js, curve_derivative X Js /\
    accurate_derivatives n ps solve D1 (D2 x) v Js
      (((beta * norm2 Js + gamma * norm2 (concat v)) * (q / (1 - q) * tol) + delta * norm2 (jvp_args n (D2 x) v)) / (1 - q)).
Proof.
  intros Aux u solve n ps T args J1 D2 v X q beta gamma delta x0 tol maxiter N HU Hq HC HO HX Hd Hx0 HN Htol x D1 HS HT.
  destruct (fixed_point_facts n ps T args J1 D2 v X q beta gamma Hq HC HO HX) as (HO' & HE & Js & HJ & RJ & Fx).
  pose proof HO as (Hb & Hg & _). assert (LX0 : length (X 0) = n) by apply HX.
  exists Js. split; [exact HJ|].
  assert (HC' : contraction n q (the_map u)).
  { split; [intros z Hz; rewrite HU; apply HC; exact Hz|]. intros y z Hy Hz. rewrite !HU. apply HC; assumption. }
  pose proof (C44_run Aux u n q x0 (X 0) tol maxiter N Hq HC' Hx0 LX0 ltac:(rewrite HU; exact Fx) HN ltac:(rewrite HU; exact Htol)) as R.
  subst D1 x. destruct (fp_run u tol maxiter x0) as [x st] eqn:ER. cbn [fst] in *. destruct R as (_ & _ & Bd).
  assert (Hx : length x = n).
  { pose proof ER as ER2. unfold fp_run in ER2. destruct (run_loop_spec maxiter (fun s => xgtb (fp_error (snd s)) tol) (fp_update u) (x0, fp_init_state) ltac:(lia)) as (k & _ & Ek & _).
    pose proof (eq_trans (eq_sym Ek) ER2) as ER3. destruct k as [|k]; [injection ER3 as <- _; exact Hx0|]. rewrite C44_update in ER3. injection ER3 as <- _.
    apply (proj1 HC'). clear -HC' Hx0. induction k as [|k IH]; [exact Hx0|]. apply (proj1 HC'). exact IH. }
  destruct (C70_accuracy solve n ps (fixed_point_optimality T) args (fun z => fixed_point_D1 n (J1 z)) D2 beta gamma x (X 0) v Js (1 - q) delta HO' Hx LX0 (proj1 HX) RJ ltac:(lra) (HE x Hx) Hd HS HT) as [(J & EJ & LJ & BJ) HV].
  assert (Hle : ((beta * norm2 Js + gamma * norm2 (concat v)) * vdist x (X 0) + delta * norm2 (jvp_args n (D2 x) v)) / (1 - q) <=
    ((beta * norm2 Js + gamma * norm2 (concat v)) * (q / (1 - q) * tol) + delta * norm2 (jvp_args n (D2 x) v)) / (1 - q)).
  { unfold Rdiv. apply Rmult_le_compat_r; [left; apply Rinv_0_lt_compat; lra|]. apply Rplus_le_compat_r, Rmult_le_compat_l; [|exact Bd].
    pose proof (norm2_nonneg Js). pose proof (norm2_nonneg (concat v)). apply Rplus_le_le_0_compat; apply Rmult_le_pos; assumption. }
  split.
  - exists J. split; [exact EJ|]. split; [exact LJ|]. eapply Rle_trans; [exact BJ|exact Hle].
  - intros w Hw. destruct (HV w Hw) as [E B]. split; [exact E|]. eapply Rle_trans; [exact B|]. apply Rmult_le_compat_r; [apply norm2_nonneg|exact Hle].
Qed.
Print Assumptions C70_fixed_point_run.

(** T(x, theta) = theta x / 2 + 1 at theta = 1: the fixed point is 2 / (2 - theta), with derivative 2; at x the
    derivative computed is x, so the bound, |x - 2|, is attained. *)
Definition ex70_T (x : vec) (a : list vec) : vec := [nth 0 (nth 0 a []) 0 * nth 0 x 0 / 2 + 1].
Definition ex70_X (t : R) : vec := [2 / (1 - t)].
Lemma norm_single r : norm2 [r] = Rabs r.
Proof. unfold norm2. cbn. rewrite Rplus_0_r. apply sqrt_Rsqr_abs. Qed.
Lemma one_elem (x : vec) : length x = 1%nat -> x = [nth 0 x 0].
Proof. destruct x as [|a [|b l]]; try discriminate. reflexivity. Qed.
Lemma one_args (a : list vec) : args_ok [1%nat] a -> exists t, a = [[t]].
Proof. intros H. inversion H as [|p b qs l Hb Hl]; subst. inversion Hl; subst. exists (nth 0 b 0). f_equal. apply one_elem. exact Hb. Qed.
Example C70_example :
  smooth_optimality 1 [1%nat] ex70_T [[1]] (fun _ => [[/ 2]]) (fun z => [[[nth 0 z 0 / 2]]]) 0 (/ 2) /\
  contraction 1 (/ 2) (fun z => ex70_T z [[1]]) /\ solution_curve 1 [1%nat] (fixed_point_optimality ex70_T) [[1]] [[1]] ex70_X /\
  root_derivative 1 (fixed_point_D1 1 [[/ 2]]) [[[nth 0 (ex70_X 0) 0 / 2]]] [[1]] [2] /\
  forall x, vadd (mvec (fixed_point_D1 1 [[/ 2]]) [x]) (jvp_args 1 [[[x / 2]]] [[1]]) = vzero 1.
Proof.
  assert (HT : forall z a, length z = 1%nat -> args_ok [1%nat] a -> length (ex70_T z a) = 1%nat) by reflexivity.
  split; [|split; [|split; [|split]]].
  - split; [lra|]. split; [lra|]. split; [repeat constructor|]. split; [exact HT|]. split; [|split].
    + intros z Hz. split; [split; [reflexivity|repeat constructor]|]. split; [repeat constructor|].
      intros eps He. exists (2 * eps). split; [lra|]. intros y a Hy Ha B1 B2. rewrite (one_elem z Hz), (one_elem y Hy) in *. destruct (one_args a Ha) as [t ->].
      set (p := nth 0 y 0) in *. set (r := nth 0 z 0) in *. unfold ex70_T, args_sub in *. cbn [combine map concat fst snd app nth] in *.
      assert (E1 : vsub [p] [r] = [p - r]) by reflexivity. assert (E2 : vsub [t] [1] = [t - 1]) by reflexivity. rewrite E1, E2 in *. cbn [app] in *.
      match goal with |- norm2 ?u <= _ => replace u with [(p - r) * (t - 1) / 2] by (unfold jvp_args; cbn; f_equal; field) end.
      rewrite norm_single in *. rewrite !norm_single in *. unfold Rdiv. rewrite !Rabs_mult, (Rabs_pos_eq (/ 2)) by lra.
      pose proof (Rabs_pos (p - r)). pose proof (Rabs_pos (t - 1)).
      assert (Rabs (p - r) * Rabs (t - 1) <= 2 * eps * Rabs (t - 1)) by (apply Rmult_le_compat_r; lra). assert (0 <= eps * Rabs (p - r)) by (apply Rmult_le_pos; lra). lra.
    + intros x y w Hx Hy Hw. rewrite vsub_self, norm_vzero. pose proof (norm2_nonneg w). lra.
    + intros x y v Hx Hy Hv. rewrite (one_elem x Hx), (one_elem y Hy). destruct (one_args v Hv) as [t ->]. unfold vdist. cbn [nth concat app].
      set (p := nth 0 x 0). set (r := nth 0 y 0).
      replace (vsub (jvp_args 1 [[[p / 2]]] [[t]]) (jvp_args 1 [[[r / 2]]] [[t]])) with [/ 2 * ((p - r) * t)] by (unfold jvp_args; cbn; f_equal; field).
      replace (vsub [p] [r]) with [p - r] by reflexivity. rewrite !norm_single, !Rabs_mult, (Rabs_pos_eq (/ 2)) by lra. right. ring.
  - split; [reflexivity|]. intros x y Hx Hy. unfold vdist, ex70_T. rewrite (one_elem x Hx), (one_elem y Hy). cbn [nth].
    set (p := nth 0 x 0). set (r := nth 0 y 0).
    replace (vsub [1 * p / 2 + 1] [1 * r / 2 + 1]) with [/ 2 * (p - r)] by (cbn; f_equal; field). replace (vsub [p] [r]) with [p - r] by reflexivity.
    rewrite !norm_single, Rabs_mult, (Rabs_pos_eq (/ 2)) by lra. lra.
  - split; [repeat constructor|]. split; [reflexivity|]. split.
    + intros eps He. exists (Rmin (/ 2) (eps / 8)). split; [apply Rmin_pos; lra|]. intros t Ht.
      assert (H1 : Rabs t < / 2) by (eapply Rlt_le_trans; [exact Ht|apply Rmin_l]). assert (H2 : Rabs t < eps / 8) by (eapply Rlt_le_trans; [exact Ht|apply Rmin_r]).
      destruct (Rabs_def2 _ _ H1). unfold ex70_X.
      assert (E : vsub [2 / (1 - t)] [2 / (1 - 0)] = [2 * / (1 - t) * t]) by (cbn; f_equal; field; lra). rewrite E, norm_single, !Rabs_mult, (Rabs_pos_eq 2) by lra.
      assert (Hi : Rabs (/ (1 - t)) <= 2). { rewrite Rabs_pos_eq by (left; apply Rinv_0_lt_compat; lra). apply Rmult_le_reg_l with (1 - t); [lra|]. rewrite Rinv_r by lra. lra. }
      pose proof (Rabs_pos t). assert (2 * Rabs (/ (1 - t)) * Rabs t <= 2 * 2 * Rabs t) by (apply Rmult_le_compat_r; lra). lra.
    + exists 1. split; [lra|]. intros t Ht. destruct (Rabs_def2 _ _ Ht). unfold fixed_point_optimality, ex70_T, ex70_X, args_move. cbn. unfold vzero. cbn. f_equal. field. lra.
  - split; [reflexivity|]. unfold ex70_X. cbn. unfold vzero. cbn. f_equal. field.
  - intros x. cbn. unfold vzero. cbn. f_equal. field.
Qed.
