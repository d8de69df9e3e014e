From Coq Require Import Reals List Bool Lra Lia Arith.
From Verif Require Import Prelude Vec Loop Run Zoom ZoomProofs Prox ProxProofs ProxTheorems ProxGrad ProxGradProofs.
Import ListNotations.
Open Scope R_scope.

Lemma accepts_quad cfg f prox x gx s : 0 < s ->
  ls_accepts cfg f prox x (f x) gx s <-> quad_bound f x gx s (pg_eps cfg) (prox_grad prox x gx s).
Proof.
  intros Hs. unfold ls_accepts, quad_bound. cbv zeta. set (z := prox_grad prox x gx s).
  assert (E : s * (f x + dot gx (vsub z x) + dist2 z x / (2 * s) + pg_eps cfg / s) =
     s * f x + s * dot gx (vsub z x) + / 2 * dist2 z x + pg_eps cfg) by (field; lra).
  split; intros H.
  - apply Rmult_le_reg_l with s; [exact Hs|]. lra.
  - apply Rmult_le_compat_l with (r := s) in H; [|lra]. lra.
Qed.

(** *** C22: the backtracking line search *)
Theorem C22_line_search : forall cfg f prox x gx s0, 0 < s0 -> 0 < pg_decrease cfg ->
  exists k, (k <= pg_maxls cfg)%nat /\
  let s := s0 * pg_decrease cfg ^ k in
  fista_line_search cfg f prox x (f x) gx s0 = (prox (vadd x (smul (- s) gx)) s, s) /\
  (k = pg_maxls cfg \/ quad_bound f x gx s (pg_eps cfg) (prox (vadd x (smul (- s) gx)) s)) /\
  (forall j, (j < k)%nat -> let s' := s0 * pg_decrease cfg ^ j in
     ~ quad_bound f x gx s' (pg_eps cfg) (prox (vadd x (smul (- s') gx)) s')).
Proof.
  intros cfg f prox x gx s0 Hs0 Hdf.
  destruct (fista_ls_spec cfg f prox x (f x) gx s0) as (k & Hk & Er & Hbad & Hok).
  assert (Hpos : forall j, 0 < s0 * pg_decrease cfg ^ j) by (intros j; apply Rmult_lt_0_compat; [exact Hs0|apply pow_lt, Hdf]).
  exists k. split; [exact Hk|]. cbv zeta. split; [exact Er|]. split.
  - destruct Hok as [Hok|Hok]; [left; exact Hok|right]. apply accepts_quad in Hok; [exact Hok|apply Hpos].
  - intros j Hj Hq. apply (Hbad j Hj). apply accepts_quad; [apply Hpos|exact Hq].
Qed.
Print Assumptions C22_line_search.

(** For L-smooth f the bound is met within log(s0 L)/log(1/decrease) reductions, and the
    accepted step is at least min(s0, decrease/L). *)
Theorem C22_line_search_succeeds : forall cfg n D f g gradf prox x L s0,
  composite_problem n D f g gradf prox -> smooth n f gradf L -> 0 < L -> in_dim n x ->
  0 < s0 -> 0 < pg_decrease cfg <= 1 -> 0 <= pg_eps cfg -> s0 * pg_decrease cfg ^ pg_maxls cfg * L <= 1 ->
  let '(z, s) := fista_line_search cfg f prox x (f x) (gradf x) s0 in
  D z /\ quad_bound f x (gradf x) s (pg_eps cfg) z /\ Rmin s0 (pg_decrease cfg / L) <= s <= s0.
Proof.
  intros cfg n D f g gradf prox x L s0 (Hgl & Hf & Hg & Hp) HL HL0 Hx Hs0 Hdf He Hmax.
  destruct (fista_ls_spec cfg f prox x (f x) (gradf x) s0) as (k & Hk & Er & Hbad & Hok).
  rewrite Er.
  assert (Hpw : forall j, 0 < pg_decrease cfg ^ j) by (intros j; apply pow_lt; lra).
  assert (Hpos : forall j, 0 < s0 * pg_decrease cfg ^ j) by (intros j; apply Rmult_lt_0_compat; auto).
  assert (Hshort : forall s, 0 < s -> s * L <= 1 -> ls_accepts cfg f prox x (f x) (gradf x) s).
  { intros s Hs HsL. apply (accepts_short cfg n D f g gradf prox Hgl Hg Hp He L HL); assumption. }
  split; [apply (prox_grad_dom n D g gradf prox Hgl Hp); auto|]. split.
  - apply accepts_quad; [auto|]. destruct Hok as [->|Hok]; [apply Hshort; auto|exact Hok].
  - split.
    + destruct k as [|k]; [simpl; rewrite Rmult_1_r; apply Rmin_l|].
      assert (Hna : 1 < s0 * pg_decrease cfg ^ k * L).
      { apply Rnot_le_lt. intros Hle. apply (Hbad k ltac:(lia)). apply Hshort; auto. }
      eapply Rle_trans; [apply Rmin_r|]. apply Rmult_le_reg_r with L; [exact HL0|].
      replace (pg_decrease cfg / L * L) with (pg_decrease cfg) by (field; lra). simpl. nra.
    + assert (pg_decrease cfg ^ k <= 1).
      { clear -Hdf. induction k; simpl; [lra|]. assert (0 < pg_decrease cfg ^ k) by (apply pow_lt; lra). nra. }
      pose proof (Hpw k). nra.
Qed.
Print Assumptions C22_line_search_succeeds.

(** *** C23: descent, rates, fixed points *)
Theorem C23_descent : forall cfg n D f g gradf prox x0 L k,
  composite_problem n D f g gradf prox -> smooth n f gradf L -> in_dim n x0 ->
  acceleration cfg = false -> short_steps cfg L ->
  let X := pg_iterate cfg f gradf prox x0 in
  D (X k) ->
  D (X (S k)) /\
  objective f g (X (S k)) <= objective f g (X k) - dist2 (X (S k)) (X k) / (2 * step_at cfg k).
Proof.
  intros cfg n D f g gradf prox x0 L k (Hgl & Hf & Hg & Hp) HL Hx Hacc Hs X HD. split.
  - apply (plain_dim cfg n D f g gradf prox Hgl Hg Hp x0 Hx Hacc); [intros i; apply Hs|lia].
  - apply (plain_descent cfg n D f g gradf prox Hgl Hf Hg Hp x0 Hx Hacc L); assumption.
Qed.
Print Assumptions C23_descent.

Theorem C23_rate : forall cfg n D f g gradf prox x0 L z k,
  composite_problem n D f g gradf prox -> smooth n f gradf L -> in_dim n x0 ->
  acceleration cfg = false -> short_steps cfg L -> D z -> (0 < k)%nat ->
  objective f g (pg_iterate cfg f gradf prox x0 k) - objective f g z <= dist2 x0 z / (2 * step_sum cfg k).
Proof.
  intros cfg n D f g gradf prox x0 L z k (Hgl & Hf & Hg & Hp) HL Hx Hacc Hs Hz Hk.
  pose proof (plain_rate cfg n D f g gradf prox Hgl Hf Hg Hp x0 Hx Hacc L z k HL Hs Hz Hk) as H.
  assert (Hss : 0 < step_sum cfg k).
  { destruct k as [|k]; [lia|]. simpl. pose proof (step_sum_nonneg cfg k (fun i => proj1 (Hs i))). destruct (Hs k). lra. }
  pose proof (dist2_nonneg (pg_iterate cfg f gradf prox x0 k) z) as Hn.
  apply Rmult_le_reg_l with (2 * step_sum cfg k); [lra|].
  replace (2 * step_sum cfg k * (dist2 x0 z / (2 * step_sum cfg k))) with (dist2 x0 z) by (field; lra). lra.
Qed.
Print Assumptions C23_rate.

(** The textbook form for a constant step. *)
Theorem C23_rate_constant : forall cfg n D f g gradf prox x0 L s z k,
  composite_problem n D f g gradf prox -> smooth n f gradf L -> in_dim n x0 ->
  acceleration cfg = false -> pg_stepsize cfg = StepConst s -> 0 < s -> s * L <= 1 -> D z -> (0 < k)%nat ->
  objective f g (pg_iterate cfg f gradf prox x0 k) - objective f g z <= dist2 x0 z / (2 * s * INR k).
Proof.
  intros cfg n D f g gradf prox x0 L s z k HP HL Hx Hacc Es Hs HsL Hz Hk.
  assert (Hst : short_steps cfg L) by (intros i; unfold step_at; rewrite Es; auto).
  pose proof (C23_rate cfg n D f g gradf prox x0 L z k HP HL Hx Hacc Hst Hz Hk) as H.
  assert (E : step_sum cfg k = s * INR k).
  { clear -Es. induction k as [|k IH]; [simpl; ring|]. rewrite S_INR. cbn [step_sum]. rewrite IH.
    unfold step_at. rewrite Es. ring. }
  rewrite E in H. replace (2 * s * INR k) with (2 * (s * INR k)) by ring. exact H.
Qed.
Print Assumptions C23_rate_constant.

Theorem C23_accelerated_rate : forall cfg n D f g gradf prox x0 L xs k,
  composite_problem n D f g gradf prox -> smooth n f gradf L -> in_dim n x0 ->
  acceleration cfg = true -> short_steps cfg L -> (forall i, step_at cfg (S i) <= step_at cfg i) ->
  minimiser D f g xs -> (0 < k)%nat ->
  objective f g (pg_iterate cfg f gradf prox x0 k) - objective f g xs
    <= 2 * dist2 x0 xs / (step_at cfg (k - 1) * (INR k + 1) ^ 2).
Proof.
  intros cfg n D f g gradf prox x0 L xs k (Hgl & Hf & Hg & Hp) HL Hx Hacc Hs Hdec Hm Hk.
  pose proof (accel_rate cfg n D f g gradf prox Hgl Hf Hg Hp x0 Hx Hacc L xs k HL Hs Hdec Hm Hk) as H.
  destruct (Hs (k - 1)%nat) as [H0 _]. pose proof (pos_INR k) as Hi.
  assert (Hd : 0 < step_at cfg (k - 1) * (INR k + 1) ^ 2) by (apply Rmult_lt_0_compat; [exact H0|apply pow_lt; lra]).
  apply Rmult_le_reg_l with (step_at cfg (k - 1) * (INR k + 1) ^ 2); [exact Hd|].
  replace (step_at cfg (k - 1) * (INR k + 1) ^ 2 * (2 * dist2 x0 xs / (step_at cfg (k - 1) * (INR k + 1) ^ 2)))
    with (2 * dist2 x0 xs) by (field; split; lra). exact H.
Qed.
Print Assumptions C23_accelerated_rate.

(** With the line search: every accepted step is at least min(1, decrease/L) and the best of
    the first k iterates is within the O(1/k) bound up to the floating-point slack.  The
    search starts at most at (1/decrease)^k, hence the assumption on maxls. *)
Theorem C23_line_search_rate : forall cfg n D f g gradf prox x0 L xs k,
  composite_problem n D f g gradf prox -> smooth n f gradf L -> 0 < L -> in_dim n x0 ->
  acceleration cfg = false -> uses_line_search cfg -> 0 < pg_decrease cfg < 1 -> 0 <= pg_eps cfg ->
  (/ pg_decrease cfg) ^ k * pg_decrease cfg ^ pg_maxls cfg * L <= 1 ->
  minimiser D f g xs -> (0 < k)%nat ->
  let m := Rmin 1 (pg_decrease cfg / L) in
  exists i, (1 <= i <= k)%nat /\
    objective f g (pg_iterate cfg f gradf prox x0 i) - objective f g xs
      <= dist2 x0 xs / (2 * m * INR k) + pg_eps cfg / m.
Proof.
  intros cfg n D f g gradf prox x0 L xs k (Hgl & Hf & Hg & Hp) HL HL0 Hx Hacc Hls Hdf He Hmax Hm Hk m.
  set (B := dist2 x0 xs / (2 * m * INR k) + pg_eps cfg / m).
  set (gap := fun i => objective f g (pg_iterate cfg f gradf prox x0 i) - objective f g xs).
  assert (Hdec : forall j, (exists i, (1 <= i <= j)%nat /\ gap i <= B) \/ (forall i, (1 <= i <= j)%nat -> B < gap i)).
  { induction j as [|j IH]; [right; intros; lia|]. destruct IH as [(i & Hi & H)|H].
    - left. exists i. split; [lia|exact H].
    - destruct (Rle_lt_dec (gap (S j)) B) as [Hle|Hlt]; [left; exists (S j); split; [lia|exact Hle]|].
      right. intros i Hi. destruct (Nat.eq_dec i (S j)) as [->|]; [exact Hlt|apply H; lia]. }
  destruct (Hdec k) as [H|H]; [exact H|exfalso].
  assert (E := ls_sum cfg n D f g gradf prox Hgl Hf Hg Hp x0 Hx Hacc Hls Hdf He L HL0 HL xs k Hm Hmax H). lia.
Qed.
Print Assumptions C23_line_search_rate.

(** Without acceleration: zero reported error iff the iterate did not move, iff it already
    was a fixed point, iff it already was a minimiser. *)
Theorem C23_error_zero : forall cfg n D f g gradf prox x0 L k,
  composite_problem n D f g gradf prox -> smooth n f gradf L -> 0 < L -> in_dim n x0 ->
  acceleration cfg = false -> (forall i, 0 < step_at cfg i) ->
  let X := pg_iterate cfg f gradf prox x0 in
  let state := snd (Nat.iter (S k) (pg_update cfg f gradf prox) (x0, pg_init cfg x0)) in
  (pg_error state = Fin 0 <-> X (S k) = X k) /\
  (X (S k) = X k <-> prox_grad prox (X k) (gradf (X k)) (step_at cfg k) = X k) /\
  (pg_error state = Fin 0 <-> minimiser D f g (X k)).
Proof.
  intros cfg n D f g gradf prox x0 L k (Hgl & Hf & Hg & Hp) HL HL0 Hx Hacc Hs X state.
  destruct (plain_step cfg f gradf prox x0 Hacc k (Hs k)) as [Ex Ee].
  destruct (plain_dim cfg n D f g gradf prox Hgl Hg Hp x0 Hx Hacc k Hs) as [Hk _].
  destruct (plain_dim cfg n D f g gradf prox Hgl Hg Hp x0 Hx Hacc (S k) Hs) as [HSk _].
  fold X in Ex, Ee, Hk, HSk. fold state in Ee.
  assert (H1 : pg_error state = Fin 0 <-> X (S k) = X k).
  { rewrite Ee. split; intros H.
    - injection H as H. assert (Hn : norm2 (vsub (X (S k)) (X k)) = 0).
      { specialize (Hs k). apply Rmult_integral in H. destruct H as [H|H]; [exact H|].
        exfalso. pose proof (Rinv_0_lt_compat _ Hs). lra. }
      apply dist2_zero; [rewrite HSk, Hk; reflexivity|]. unfold dist2, sqnorm. rewrite <- norm2_sq, Hn. ring.
    - rewrite H. f_equal. assert (E : norm2 (vsub (X k) (X k)) = 0).
      { unfold norm2. replace (dot (vsub (X k) (X k)) (vsub (X k) (X k))) with (dist2 (X k) (X k)) by reflexivity.
        rewrite dist2_self. apply sqrt_0. }
      rewrite E. field. specialize (Hs k). lra. }
  split; [exact H1|]. split; [rewrite <- Ex; tauto|]. rewrite H1. rewrite Ex. split; intros H.
  - apply (fixed_point_min n D f g gradf prox Hgl Hf Hg Hp (X k) (step_at cfg k)); auto.
  - apply (min_fixed_point n D f g gradf prox Hgl Hg Hp L); auto.
Qed.
Print Assumptions C23_error_zero.

(** Hence [run] is accurate: when it stops after k iterations because of the tolerance the
    gap is at most tol * ||x0 - x*||, and otherwise the rate applies at k = maxiter. *)
Theorem C23_run : forall cfg n D f g gradf prox x0 L xs,
  composite_problem n D f g gradf prox -> smooth n f gradf L -> in_dim n x0 ->
  acceleration cfg = false -> short_steps cfg L -> minimiser D f g xs -> (0 < pg_maxiter cfg)%nat ->
  let '(x, state) := pg_run cfg f gradf prox x0 in
  D x /\ (pg_iter state <= pg_maxiter cfg)%nat /\
  objective f g x - objective f g xs <= dist2 x0 xs / (2 * step_sum cfg (pg_iter state)) /\
  (pg_iter state = pg_maxiter cfg \/
   objective f g x - objective f g xs <= pg_tol cfg * norm2 (vsub x0 xs)).
Proof.
  intros cfg n D f g gradf prox x0 L xs HP HL Hx Hacc Hs Hm Hmi.
  pose proof HP as (Hgl & Hf & Hg & Hp).
  unfold pg_run.
  destruct (run_loop_spec (pg_maxiter cfg) (fun st => xgtb (pg_error (snd st)) (pg_tol cfg))
     (pg_update cfg f gradf prox) (x0, pg_init cfg x0) Hmi) as (k & Hk & E & _ & Hstop).
  rewrite E. destruct k as [|k]; [lia|].
  pose proof (iter_num cfg f gradf prox x0 (S k)) as Hi.
  destruct (plain_step cfg f gradf prox x0 Hacc k (proj1 (Hs k))) as [_ Ee].
  destruct (Nat.iter (S k) (pg_update cfg f gradf prox) (x0, pg_init cfg x0)) as [x s] eqn:Ex.
  assert (EX : x = pg_iterate cfg f gradf prox x0 (S k)) by (unfold pg_iterate; rewrite Ex; reflexivity).
  cbn [snd] in *. rewrite Hi.
  split; [rewrite EX; apply (plain_dim cfg n D f g gradf prox Hgl Hg Hp x0 Hx Hacc); [intros i; apply Hs|lia]|].
  split; [lia|]. split; [rewrite EX; apply (C23_rate cfg n D f g gradf prox x0 L); auto; [apply Hm|lia]|].
  destruct Hstop as [Hstop|Hstop]; [left; exact Hstop|right].
  rewrite EX. apply (plain_error_gap cfg n D f g gradf prox Hgl Hf Hg Hp x0 Hx Hacc L); auto.
  rewrite Ee in Hstop. unfold xgtb in Hstop. destruct (Rlt_dec _ _); [discriminate|]. lra.
Qed.
Print Assumptions C23_run.

(** [optimality_fun] vanishes exactly at the minimisers. *)
Theorem C23_optimality_fun : forall n D f g gradf prox L x,
  composite_problem n D f g gradf prox -> smooth n f gradf L -> 0 < L -> in_dim n x ->
  (pg_optimality_fun gradf prox x = vzero n <-> minimiser D f g x).
Proof.
  intros n D f g gradf prox L x (Hgl & Hf & Hg & Hp) HL HL0 Hx.
  assert (E : pg_fixed_point_fun gradf prox x = prox_grad prox x (gradf x) 1).
  { unfold pg_fixed_point_fun, prox_grad. f_equal. rewrite vsub_as_vadd. reflexivity. }
  assert (HD := prox_grad_dom n D g gradf prox Hgl Hp x 1 Hx Rlt_0_1).
  assert (Hl : length (prox_grad prox x (gradf x) 1) = n) by (apply Hg, HD).
  unfold pg_optimality_fun. rewrite E. split; intros H.
  - apply (fixed_point_min n D f g gradf prox Hgl Hf Hg Hp x 1 Hx Rlt_0_1).
    apply dist2_zero; [rewrite Hl, Hx; reflexivity|]. unfold dist2, sqnorm. rewrite H. apply dot_vzero_l.
  - rewrite (min_fixed_point n D f g gradf prox Hgl Hg Hp L x 1 HL HL0 Rlt_0_1 H), vsub_self. rewrite Hx. reflexivity.
Qed.
Print Assumptions C23_optimality_fun.

(** The two wrappers are instances: gradient descent ... *)
Theorem C23_gradient_descent : forall n f gradf, (forall x, in_dim n x -> in_dim n (gradf x)) ->
  convex_grad n f gradf -> composite_problem n (in_dim n) f no_penalty gradf gd_prox.
Proof.
  intros n f gradf Hgl Hf. split; [exact Hgl|]. split; [exact Hf|]. unfold no_penalty. split.
  - split; [auto|]. intros x y a Hx Hy Ha. split; [|lra].
    unfold in_dim in *. rewrite vadd_length, !smul_length. lia.
  - intros v s Hv Hs. unfold gd_prox. split; [exact Hv|]. intros z Hz. rewrite dist2_self.
    pose proof (dist2_nonneg z v). apply Rplus_le_compat_l. unfold Rdiv. apply Rmult_le_compat_r; [|exact H].
    left. apply Rinv_0_lt_compat. lra.
Qed.
Print Assumptions C23_gradient_descent.
(** ... whose optimality function is the gradient ... *)
Theorem C23_gradient_descent_optimality : forall n f gradf L x, (forall x, in_dim n x -> in_dim n (gradf x)) ->
  convex_grad n f gradf -> smooth n f gradf L -> 0 < L -> in_dim n x ->
  (gd_optimality_fun gradf x = vzero n <-> forall z, in_dim n z -> f x <= f z).
Proof.
  intros n f gradf L x Hgl Hf HL HL0 Hx. unfold gd_optimality_fun. split; intros H.
  - intros z Hz. specialize (Hf x z Hx Hz). rewrite H, dot_vzero_l in Hf. lra.
  - pose proof (C23_gradient_descent n f gradf Hgl Hf) as (_ & _ & Hg & Hp).
    assert (Hm : minimiser (in_dim n) f no_penalty x).
    { split; [exact Hx|]. intros z Hz. unfold objective, no_penalty. specialize (H z Hz). lra. }
    pose proof (min_fixed_point n (in_dim n) f no_penalty gradf gd_prox Hgl Hg Hp L x 1 HL HL0 Rlt_0_1 Hm) as E.
    unfold prox_grad, gd_prox in E. apply dist2_zero; [unfold vzero; rewrite repeat_length; apply Hgl, Hx|].
    assert (E1 : dot (gradf x) (gradf x) = 0).
    { assert (E2 : dist2 (vadd x (smul (- (1)) (gradf x))) x = 0) by (rewrite E; apply dist2_self).
      rewrite <- E2. vring. }
    unfold dist2, sqnorm. vexpand. try rewrite !dot_vzero_r; try rewrite !dot_vzero_l. lra.
Qed.
Print Assumptions C23_gradient_descent_optimality.
(** ... and projected gradient, for any exact projection onto a convex set. *)
Theorem C23_projected_gradient : forall n (C : vec -> Prop) f gradf projection,
  (forall x, in_dim n x -> in_dim n (gradf x)) -> convex_grad n f gradf ->
  (forall x, C x -> in_dim n x) ->
  (forall x y a, C x -> C y -> 0 <= a <= 1 -> C (vadd (smul (1 - a) x) (smul a y))) ->
  (forall v, in_dim n v -> is_projection C v (projection v)) ->
  composite_problem n C f no_penalty gradf (projg_prox projection).
Proof.
  intros n C f gradf projection Hgl Hf HC Hcv Hpr. split; [exact Hgl|]. split; [exact Hf|]. unfold no_penalty. split.
  - split; [exact HC|]. intros x y a Hx Hy Ha. split; [apply Hcv; assumption|lra].
  - intros v s Hv Hs. unfold projg_prox. destruct (Hpr v Hv) as (H1 & H2 & _). split; [exact H1|].
    intros z Hz. specialize (H2 z Hz). rewrite (dist2_comm (projection v)), (dist2_comm z).
    apply Rplus_le_compat_l. unfold Rdiv. apply Rmult_le_compat_r; [left; apply Rinv_0_lt_compat; lra|exact H2].
Qed.
Print Assumptions C23_projected_gradient.
(** ... and the library's soft-thresholding (lasso) operator is a valid prox. *)
Theorem C23_lasso : forall n f gradf l, 0 <= l -> (forall x, in_dim n x -> in_dim n (gradf x)) ->
  convex_grad n f gradf ->
  composite_problem n (in_dim n) f (fun z => l * norm1 z) gradf (fun v s => prox_lasso_scalar v l s).
Proof.
  intros n f gradf l Hl Hgl Hf. split; [exact Hgl|]. split; [exact Hf|]. split.
  - split; [auto|]. intros x y a Hx Hy Ha. unfold in_dim in *. split; [rewrite vadd_length, !smul_length; lia|].
    rewrite <- !Rmult_assoc, (Rmult_comm (1 - a)), (Rmult_comm a), !Rmult_assoc, <- Rmult_plus_distr_l.
    apply Rmult_le_compat_l; [exact Hl|]. rewrite <- Hy in Hx. clear -Hx Ha.
    revert y Hx. induction x as [|u x IH]; intros [|v y] Hx; try discriminate; unfold norm1 in *; [simpl; lra|].
    injection Hx as Hx. specialize (IH y Hx). simpl in *.
    assert (Rabs ((1 - a) * u + a * v) <= (1 - a) * Rabs u + a * Rabs v).
    { eapply Rle_trans; [apply Rabs_triang|]. rewrite !Rabs_mult, (Rabs_right (1 - a)), (Rabs_right a) by lra. lra. }
    lra.
  - intros v s Hv Hs. destruct (C13_prox_lasso_scalar v l s ltac:(lra) Hl) as (H1 & H2 & _).
    unfold same_shape, prox_objective in *. split; [unfold in_dim in *; congruence|].
    intros z Hz. assert (Hz' : length z = length v) by (unfold in_dim in *; congruence). specialize (H2 z Hz').
    rewrite (dist2_comm (prox_lasso_scalar v l s) v), (dist2_comm z v).
    apply Rmult_le_reg_l with s; [exact Hs|].
    rewrite !Rmult_plus_distr_l.
    replace (s * (dist2 v (prox_lasso_scalar v l s) / (2 * s))) with (/ 2 * dist2 v (prox_lasso_scalar v l s)) by (field; lra).
    replace (s * (dist2 v z / (2 * s))) with (/ 2 * dist2 v z) by (field; lra). lra.
Qed.
Print Assumptions C23_lasso.

(** *** What is false *)
Definition half_sq (v : vec) : R := / 2 * dot v v.
Lemma half_sq_problem n : composite_problem n (in_dim n) half_sq no_penalty (fun v => v) gd_prox /\
  smooth n half_sq (fun v => v) 1.
Proof.
  split.
  - apply C23_gradient_descent; [auto|]. intros x y Hx Hy. unfold half_sq.
    pose proof (dist2_nonneg y x). assert (E : dist2 y x = dot y y - 2 * dot x (vsub y x) - dot x x) by vring. lra.
  - intros x y Hx Hy. unfold half_sq.
    assert (E : dist2 y x = dot y y - 2 * dot x (vsub y x) - dot x x) by vring. lra.
Qed.

(** With acceleration (the default) a zero error does not mean a fixed point: on x^2/2 from
    x0 = 1, for a suitable constant step below 1/L, [run] with tol = 0 stops after 4 of 100
    iterations reporting error 0 at a point that is not the minimiser. *)
Theorem C23_accelerated_error_refuted : exists s x,
  0 < s < 1 /\
  let cfg := {| pg_stepsize := StepConst s; pg_maxiter := 100; pg_maxls := 15; pg_tol := 0;
                acceleration := true; pg_decrease := / 2; pg_eps := 0 |} in
  let '(r, state) := pg_run cfg half_sq (fun v => v) gd_prox [1] in
  r = [x] /\ pg_iter state = 4%nat /\ pg_error state = Fin 0 /\
  ~ minimiser (in_dim 1) half_sq no_penalty r /\
  prox_grad gd_prox r r s <> r.
Proof.
  set (t2 := next_t 1). set (t3 := next_t t2). set (t4 := next_t t3).
  assert (H2 : 1 + / 2 <= t2) by (apply next_t_ge; lra).
  assert (H3 : t2 + / 2 <= t3) by (apply next_t_ge; lra).
  assert (H4 : t3 + / 2 <= t4) by (apply next_t_ge; lra).
  set (b2 := (t2 - 1) / t3). set (b3 := (t3 - 1) / t4).
  assert (Hb2 : 0 < b2) by (apply Rdiv_lt_0_compat; lra).
  assert (Hb3 : 0 < b3) by (apply Rdiv_lt_0_compat; lra).
  set (q := b2 / ((1 + b2) * (1 + b3))).
  assert (Hq0 : 0 < q) by (apply Rdiv_lt_0_compat; [lra|nra]).
  assert (Hqe : q * ((1 + b2) * (1 + b3)) = b2) by (unfold q; field; lra).
  clearbody q.
  assert (Hq1 : q < 1).
  { apply Rnot_le_lt. intros Hge. assert (0 < b2 * b3) by (apply Rmult_lt_0_compat; assumption).
    assert (1 * ((1 + b2) * (1 + b3)) <= q * ((1 + b2) * (1 + b3))) by (apply Rmult_le_compat_r; [nra|exact Hge]). lra. }
  set (w := q - b2 * (1 - q)).
  assert (Hw : w = - (q * b3 * (1 + b2))) by (unfold w; clear -Hqe; clearbody b2 b3; lra).
  assert (Hwn : w < 0) by (rewrite Hw; assert (0 < q * b3 * (1 + b2)) by (apply Rmult_lt_0_compat; [apply Rmult_lt_0_compat; assumption|lra]); lra).
  exists (1 - q), (q * q * w). split; [lra|]. intros cfg.
  assert (Hstep : forall it st er y t x, pg_update cfg half_sq (fun v => v) gd_prox
      ([x], {| pg_iter := it; pg_step := st; pg_error := er; pg_velocity := Some [y]; pg_t := t |}) =
      ([q * y], {| pg_iter := it + 1; pg_step := 1 - q; pg_error := Fin (Rabs (q * y - x) / (1 - q));
         pg_velocity := Some [q * y + (t - 1) / next_t t * (q * y - x)]; pg_t := next_t t |})).
  { intros. unfold pg_update. cbn [acceleration cfg]. unfold pg_update_accel, pg_iter_step.
    cbn [pg_velocity pg_t pg_iter pg_step pg_stepsize cfg].
    unfold Rleb. destruct (Rle_dec (1 - q) 0) as [|_]; [lra|].
    unfold prox_grad, gd_prox. cbn [vadd smul map].
    replace (y + - (1 - q) * y) with (q * y) by ring.
    unfold vsub. cbn [smul map vadd]. unfold next_t. repeat f_equal; try ring.
    unfold pg_err, norm2. cbn [dot]. f_equal.
    rewrite Rplus_0_r. apply sqrt_Rsqr_abs. }
  assert (Ei : pg_init cfg [1] = {| pg_iter := 0; pg_step := 1; pg_error := PInf; pg_velocity := Some [1]; pg_t := 1 |}) by reflexivity.
  unfold pg_run. rewrite Ei. change (pg_maxiter cfg) with (4 + 96)%nat. cbn [Nat.add run_loop].
  rewrite Hstep. fold t2. cbn [python_for Nat.add].
  assert (Hgo : forall e, e <> 0 -> xgtb (Fin (Rabs e / (1 - q))) (pg_tol cfg) = true).
  { intros e He. unfold xgtb. cbn [pg_tol cfg]. pose proof (Rabs_pos_lt e He).
    assert (0 < Rabs e / (1 - q)) by (apply Rdiv_lt_0_compat; lra). destruct (Rlt_dec _ _); [reflexivity|lra]. }
  cbn [snd pg_error]. rewrite Hgo by nra.
  replace (q * 1 + (1 - 1) / t2 * (q * 1 - 1)) with q by (field; lra).
  rewrite Hstep. fold t3. cbn [snd pg_error Nat.add]. rewrite Hgo by nra.
  rewrite Hstep. fold t4. cbn [snd pg_error Nat.add]. fold b2.
  replace (q * (q * q + b2 * (q * q - q * 1))) with (q * q * w) by (unfold w; ring).
  rewrite Hgo.
  2:{ assert (q * q * w < 0) by (assert (0 < q * q) by nra; nra). nra. }
  rewrite Hstep. cbn [snd pg_error Nat.add]. fold b3.
  assert (E4 : q * (q * q * w + b3 * (q * q * w - q * q)) = q * q * w).
  { assert (Ew1 : w - 1 = - (1 - q) * (1 + b2)) by (unfold w; ring).
    replace (q * (q * q * w + b3 * (q * q * w - q * q))) with (q * q * (q * w + q * b3 * (w - 1))) by ring.
    rewrite Ew1. replace (q * b3 * (- (1 - q) * (1 + b2))) with ((1 - q) * - (q * b3 * (1 + b2))) by ring.
    rewrite <- Hw. ring. }
  rewrite E4. replace (q * q * w - q * q * w) with 0 by ring. rewrite Rabs_R0.
  assert (E0 : xgtb (Fin (0 / (1 - q))) (pg_tol cfg) = false).
  { unfold xgtb. cbn [pg_tol cfg]. destruct (Rlt_dec _ _) as [H|]; [|reflexivity]. exfalso.
    unfold Rdiv in H. rewrite Rmult_0_l in H. lra. }
  rewrite E0. cbn [pg_iter pg_error]. split; [reflexivity|]. split; [reflexivity|].
  split; [f_equal; unfold Rdiv; ring|].
  assert (Hne : q * q * w < 0) by (assert (0 < q * q) by nra; nra).
  split.
  - intros [_ Hm]. specialize (Hm [0] eq_refl). unfold objective, half_sq, no_penalty in Hm. simpl in Hm. nra.
  - unfold prox_grad, gd_prox. cbn. intros E. injection E as E. nra.
Qed.
Print Assumptions C23_accelerated_error_refuted.

(** With the line search the reported error does not use the step that was taken: on x^2/2
    from 1 the step taken is 1 and moves by 1, and the error reported is 1/2. *)
Theorem C23_line_search_error_refuted : exists cfg,
  uses_line_search cfg /\ acceleration cfg = false /\
  fista_line_search cfg half_sq gd_prox [1] (half_sq [1]) [1] 1 = ([0], 1) /\
  let '(x, state) := pg_update cfg half_sq (fun v => v) gd_prox ([1], pg_init cfg [1]) in
  x = [0] /\ pg_step state = 2 /\ pg_error state = Fin (/ 2) /\ norm2 (vsub x [1]) / 1 = 1.
Proof.
  exists {| pg_stepsize := StepConst 0; pg_maxiter := 100; pg_maxls := 15; pg_tol := 0;
            acceleration := false; pg_decrease := / 2; pg_eps := 0 |}.
  set (cfg := Build_pg_config _ _ _ _ _ _ _).
  assert (E : fista_line_search cfg half_sq gd_prox [1] (half_sq [1]) [1] 1 = ([0], 1)).
  { unfold fista_line_search.
    assert (Hst : forall (c : vec * R -> bool) u k v, c v = false -> python_for c u k v = v)
      by (intros c u [|k] v H; simpl; [|rewrite H]; reflexivity).
    assert (Eb : prox_grad gd_prox [1] [1] 1 = [0]) by (unfold prox_grad, gd_prox; cbn; f_equal; ring).
    rewrite Eb.
    assert (Ec : ls_cond cfg half_sq [1] (half_sq [1]) [1] ([0], 1) = false).
    { unfold ls_cond, half_sq, sqnorm. cbn. unfold Rltb. destruct (Rlt_dec _ _) as [H|]; [exfalso; lra|reflexivity]. }
    apply Hst, Ec. }
  assert (En : norm2 (vsub [0] [1]) = 1).
  { unfold norm2. cbn. transitivity (sqrt 1); [f_equal; ring|apply sqrt_1]. }
  split; [exists 0; split; [reflexivity|lra]|]. split; [reflexivity|]. split; [exact E|].
  unfold pg_update. cbn [acceleration cfg]. unfold pg_update_plain, pg_iter_step, pg_init. cbn [pg_stepsize cfg pg_step pg_iter].
  unfold Rleb at 1. destruct (Rle_dec 0 0) as [_|]; [|lra]. fold cfg. rewrite E.
  unfold Rleb. destruct (Rle_dec 1 (/ 1000000)); [lra|]. cbn [pg_decrease cfg pg_error pg_step].
  split; [reflexivity|]. split; [lra|]. unfold pg_err. rewrite En. split; [f_equal; lra|lra].
Qed.
Print Assumptions C23_line_search_error_refuted.

(** In general: unless the step was reset, the error reported with the line search is
    decrease_factor times ||x' - x|| / (step taken). *)
Theorem C23_line_search_error : forall cfg f gradf prox x state z s,
  uses_line_search cfg -> acceleration cfg = false -> 0 < pg_decrease cfg ->
  fista_line_search cfg f prox x (f x) (gradf x) (pg_step state) = (z, s) -> / 1000000 < s ->
  fst (pg_update cfg f gradf prox (x, state)) = z /\
  pg_error (snd (pg_update cfg f gradf prox (x, state))) = Fin (pg_decrease cfg * (norm2 (vsub z x) / s)).
Proof.
  intros cfg f gradf prox x state z s (s0 & Es & Hs0) Hacc Hdf Er Hs.
  unfold pg_update. rewrite Hacc. unfold pg_update_plain, pg_iter_step. rewrite Es.
  assert (Hb : Rleb s0 0 = true) by (unfold Rleb; destruct (Rle_dec s0 0); [reflexivity|lra]).
  assert (Hc : Rleb s (/ 1000000) = false) by (unfold Rleb; destruct (Rle_dec s (/ 1000000)); [lra|reflexivity]).
  rewrite Hb, Er, Hc. split; [reflexivity|]. cbn [snd pg_error]. unfold pg_err. f_equal. field. lra.
Qed.
Print Assumptions C23_line_search_error.

(** Non-vacuity: a lasso problem of any dimension with f = ||x||^2/2. *)
Example C23_example : forall n, composite_problem n (in_dim n) half_sq (fun z => 3 * norm1 z) (fun v => v)
    (fun v s => prox_lasso_scalar v 3 s) /\
  smooth n half_sq (fun v => v) 1 /\
  (forall b, short_steps {| pg_stepsize := StepConst (/ 2); pg_maxiter := 10; pg_maxls := 15; pg_tol := / 1000;
      acceleration := b; pg_decrease := / 2; pg_eps := 0 |} 1) /\
  minimiser (in_dim n) half_sq (fun z => 3 * norm1 z) (vzero n).
Proof.
  intros n. split; [apply C23_lasso; [lra|auto|apply (half_sq_problem n)]|]. split; [apply half_sq_problem|]. split.
  - intros b i. unfold step_at. cbn. lra.
  - split; [unfold in_dim, vzero; apply repeat_length|]. intros z Hz. unfold objective, half_sq.
    rewrite dot_vzero_l. assert (E : norm1 (vzero n) = 0).
    { unfold norm1, vzero. clear. induction n; simpl in *; [reflexivity|]. rewrite IHn, Rabs_R0. ring. }
    rewrite E. pose proof (dot_self_nonneg z). assert (0 <= norm1 z); [|lra].
    unfold norm1. apply vsum_nonneg. apply Forall_forall. intros a Ha. apply in_map_iff in Ha.
    destruct Ha as (b & <- & _). apply Rabs_pos.
Qed.
