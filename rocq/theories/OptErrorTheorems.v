(** C68: what l2_optimality_error and the stopping tests say about the distance to the solution. *)
From Coq Require Import Reals List Lra Lia Bool Arith.
From Verif Require Import Prelude Vec Mat Proj ProjProofs Prox ProxProofs Loss LossProofs Run ProxGrad ProxGradProofs ProxGradTheorems SimplexTheorems FixedPoint FixedPointTheorems QuasiNewton QuasiNewtonProofs Convergence ConvergenceProofs NcgConvergence CDQP CDQPProofs CDQPTheorems Objective ObjectiveProofs ObjectiveTheorems BlockCD BlockCDProofs BlockCDTheorems OptError OptErrorProofs.
Import ListNotations.
Open Scope R_scope.

(** Solvers whose optimality function is the gradient, on a strongly convex smooth function with
    minimiser xs: the error is between mu and L times the distance to xs, and its square bounds the
    suboptimality from both sides. *)
Theorem C68_gradient : forall n mu L f gradf x xs, strongly_convex_smooth n mu L f gradf -> length x = n -> length xs = n ->
  (forall z, length z = n -> f xs <= f z) ->
  let e := l2_optimality_error (gradient_optimality gradf) x in
  mu * vdist x xs <= e <= L * vdist x xs /\ e * e / (2 * L) <= f x - f xs <= e * e / (2 * mu) /\
  (e = 0 <-> x = xs).
Proof.
  intros n mu L f gradf x xs HF Hx Hxs Hm. cbv zeta. unfold l2_optimality_error, gradient_optimality. pose proof HF as (Hmu & Hgd & _).
  pose proof (ssc_min_grad n mu L f gradf HF xs Hxs Hm) as Z.
  assert (En : norm2 (vsub (gradf x) (gradf xs)) = norm2 (gradf x)).
  { unfold norm2. f_equal. assert (C : dot (gradf x) (gradf xs) = 0).
    { pose proof (cauchy_schwarz_sq (gradf x) (gradf xs)) as C. rewrite Z, Rmult_0_r in C. apply Rsqr_0_uniq. unfold Rsqr. pose proof (Rle_0_sqr (dot (gradf x) (gradf xs))). unfold Rsqr in *. lra. }
    assert (E : dot (vsub (gradf x) (gradf xs)) (vsub (gradf x) (gradf xs)) = dot (gradf x) (gradf x) - 2 * dot (gradf x) (gradf xs) + dot (gradf xs) (gradf xs)) by vring. rewrite E, C, Z. ring. }
  pose proof (ssc_lipschitz n mu L f gradf HF xs x Hxs Hx) as A. pose proof (ssc_strong_norm n mu L f gradf HF xs x Hxs Hx) as B. rewrite En in A, B. unfold vdist.
  split; [split; assumption|]. rewrite norm_mul_sq. split.
  - split.
    + destruct (ssc_grad_upper n mu L f gradf HF x Hx) as (z & Hz & H). specialize (Hm z Hz).
      apply (Rmult_le_reg_r (2 * L)); [lra|]. unfold Rdiv. rewrite Rmult_assoc, Rinv_l, Rmult_1_r by lra.
      assert (0 <= (2 * L) * (f z - f xs)) by (apply Rmult_le_pos; lra). lra.
    + pose proof (ssc_pl n mu L f gradf HF x xs Hx Hxs) as H. apply (Rmult_le_reg_r (2 * mu)); [lra|]. unfold Rdiv. rewrite Rmult_assoc, Rinv_l, Rmult_1_r by lra. lra.
  - split; intros E.
    + rewrite E in B. pose proof (norm_nonneg (vsub x xs)). assert (Z0 : norm2 (vsub x xs) = 0) by (assert (mu * norm2 (vsub x xs) <= mu * 0) by lra; apply Rle_antisym; [apply (Rmult_le_reg_l mu); lra|assumption]).
      apply dist2_zero; [congruence|]. unfold dist2, sqnorm. rewrite <- norm_mul_sq, Z0. ring.
    + subst. rewrite <- (Rmult_0_r (norm2 (gradf xs))). unfold norm2. rewrite Z, sqrt_0. ring.
Qed.
Print Assumptions C68_gradient.

(** Convex functions: the suboptimality against any z is at most error times distance. *)
Theorem C68_gradient_convex : forall n f gradf x z, convex_grad n f gradf -> in_dim n x -> in_dim n z ->
  f x - f z <= l2_optimality_error (gradient_optimality gradf) x * vdist x z.
Proof.
  intros n f gradf x z Hf Hx Hz. unfold l2_optimality_error, gradient_optimality, vdist. pose proof (Hf x z Hx Hz) as A.
  pose proof (dot_le_norms (gradf x) (vsub x z)) as B. assert (E : dot (gradf x) (vsub x z) = - dot (gradf x) (vsub z x)) by vring. lra.
Qed.
Print Assumptions C68_gradient_convex.

(** Proximal and projected gradient (also LBFGSB and the bounded SciPy solvers), whatever step size the
    solver uses. *)
Theorem C68_prox : forall n D f g gradf prox mu L x xs, composite_problem n D f g gradf prox -> strongly_convex_smooth n mu L f gradf ->
  in_dim n x -> minimiser D f g xs ->
  let e := l2_optimality_error (pg_optimality_fun gradf prox) x in
  mu * vdist x xs <= (1 + L) * e /\ e <= (1 + L) * vdist x xs.
Proof. intros. apply (prox_error_bound n D f g); assumption. Qed.
Print Assumptions C68_prox.

(** Fixed point iterations and Anderson acceleration. *)
Theorem C68_fixed_point : forall X (u : fp_user X) n q x xs, 0 <= q < 1 -> contraction n q (the_map u) -> length x = n -> length xs = n -> the_map u xs = xs ->
  let e := l2_optimality_error (fp_optimality u) x in (1 - q) * vdist x xs <= e <= (1 + q) * vdist x xs.
Proof.
  intros X u n q x xs Hq HT Hx Hxs E. cbv zeta. unfold l2_optimality_error.
  assert (Eo : fp_optimality u x = vsub (the_map u x) x) by (unfold fp_optimality, fp_fun, the_map; destruct u as [T|T]; [reflexivity|destruct (T x); reflexivity]).
  rewrite Eo. fold (vdist (the_map u x) x). pose proof (proj1 HT x Hx) as Hl. pose proof (proj2 HT x xs Hx Hxs) as B. rewrite E in B.
  pose proof (dist_tri n x (the_map u x) xs Hx Hl Hxs) as T1. pose proof (dist_tri n (the_map u x) xs x Hl Hxs Hx) as T2.
  rewrite (dist_sym x (the_map u x)) in T1. rewrite (dist_sym xs x) in T2. lra.
Qed.
Print Assumptions C68_fixed_point.

(** What the reported error says about the optimality error of the returned parameters. *)
(** ProximalGradient and ProjectedGradient with given step sizes s <= 1/L, no acceleration: the
    optimality error is at most twice the reported error; at most 2 tol if the run ended early. *)
Theorem C68_pg_run : forall cfg n D f g gradf prox x0 L, composite_problem n D f g gradf prox -> lipschitz_gradient n L gradf ->
  in_dim n x0 -> acceleration cfg = false -> short_steps cfg L -> (0 < pg_maxiter cfg)%nat ->
  let '(x, state) := pg_run cfg f gradf prox x0 in
  exists er, pg_error state = Fin er /\ l2_optimality_error (pg_optimality_fun gradf prox) x <= 2 * er /\
    (pg_iter state = pg_maxiter cfg \/ er <= pg_tol cfg).
Proof.
  intros cfg n D f g gradf prox x0 L HP HL Hx Hacc Hs Hmi. pose proof HP as (Hgl & Hf & Hg & Hp). unfold pg_run.
  destruct (run_loop_spec (pg_maxiter cfg) (fun st => xgtb (pg_error (snd st)) (pg_tol cfg)) (pg_update cfg f gradf prox) (x0, pg_init cfg x0) Hmi) as (k & Hk & E & _ & Hstop).
  rewrite E. destruct k as [|k]; [lia|]. pose proof (iter_num cfg f gradf prox x0 (S k)) as Hi.
  destruct (Hs k) as (Hsk & HsL). destruct (plain_step cfg f gradf prox x0 Hacc k Hsk) as [EX Ee].
  destruct (plain_dim cfg n D f g gradf prox Hgl Hg Hp x0 Hx Hacc k ltac:(intros i; apply Hs)) as (Hxk & _).
  unfold pg_iterate in EX, Ee, Hxk. set (s := step_at cfg k) in *.
  pose proof (step_residual n D f g gradf prox HP L _ s HL Hxk Hsk) as A. cbv zeta in A.
  destruct (Nat.iter (S k) (pg_update cfg f gradf prox) (x0, pg_init cfg x0)) as [x st]. cbn [fst snd] in *. eexists. split; [exact Ee|]. split.
  - unfold l2_optimality_error. rewrite EX. eapply Rle_trans; [exact A|]. set (d := norm2 _). assert (0 <= d) by apply norm_nonneg.
    assert (Hi0 : 0 < / s) by (apply Rinv_0_lt_compat; exact Hsk). assert (LE : L <= / s) by (apply (Rmult_le_reg_l s); [exact Hsk|rewrite Rinv_r by lra; exact HsL]).
    replace (2 * (d / s)) with ((/ s + / s) * d) by (field; lra). apply Rmult_le_compat_r; lra.
  - destruct Hstop as [Hstop|Hstop]; [left; congruence|right]. rewrite Ee in Hstop. unfold xgtb in Hstop. destruct (Rlt_dec _ _); [discriminate|]. lra.
Qed.
Print Assumptions C68_pg_run.
(** ... hence the distance to the minimiser of a strongly convex problem is at most 2 (1 + L) / mu times
    the reported error. *)
Theorem C68_pg_distance : forall cfg n D f g gradf prox x0 mu L xs, composite_problem n D f g gradf prox -> strongly_convex_smooth n mu L f gradf ->
  in_dim n x0 -> acceleration cfg = false -> short_steps cfg L -> (0 < pg_maxiter cfg)%nat -> minimiser D f g xs ->
  let '(x, state) := pg_run cfg f gradf prox x0 in
  exists er, pg_error state = Fin er /\ vdist x xs <= 2 * (1 + L) / mu * er /\ (pg_iter state = pg_maxiter cfg \/ er <= pg_tol cfg).
Proof.
  intros cfg n D f g gradf prox x0 mu L xs HP HF Hx Hacc Hs Hmi Hm. pose proof HF as (Hmu & Hgd & _).
  assert (HL : lipschitz_gradient n L gradf).
  { split; [lra|]. split; [exact Hgd|]. intros a b Ha Hb. pose proof (ssc_lipschitz n mu L f gradf HF a b Ha Hb) as Q.
    rewrite <- norm_mul_sq. unfold dist2, sqnorm. rewrite <- norm_mul_sq. replace (L * L * (norm2 (vsub b a) * norm2 (vsub b a))) with ((L * norm2 (vsub b a)) * (L * norm2 (vsub b a))) by ring.
    apply Rmult_le_compat; try apply norm_nonneg; exact Q. }
  pose proof (C68_pg_run cfg n D f g gradf prox x0 L HP HL Hx Hacc Hs Hmi) as A.
  assert (HD : in_dim n (fst (pg_run cfg f gradf prox x0))).
  { pose proof HP as (Hgl & _ & Hg & Hp). unfold pg_run. destruct (run_loop_spec (pg_maxiter cfg) (fun st => xgtb (pg_error (snd st)) (pg_tol cfg)) (pg_update cfg f gradf prox) (x0, pg_init cfg x0) Hmi) as (k & _ & E & _). rewrite E.
    apply (plain_dim cfg n D f g gradf prox Hgl Hg Hp x0 Hx Hacc k). intros i; apply Hs. }
  destruct (pg_run cfg f gradf prox x0) as [x st]. cbn [fst] in HD. destruct A as (er & E & A & B). exists er. split; [exact E|]. split; [|exact B].
  destruct (C68_prox n D f g gradf prox mu L x xs HP HF HD Hm) as (C & _). cbv zeta in C.
  apply (Rmult_le_reg_l mu); [lra|]. replace (mu * (2 * (1 + L) / mu * er)) with ((1 + L) * (2 * er)) by (field; lra).
  eapply Rle_trans; [exact C|]. apply Rmult_le_compat_l; lra.
Qed.
Print Assumptions C68_pg_distance.
(** With the line search the reported error is that of a step enlarged by 1/decrease_factor; the bound
    weakens accordingly. *)
Theorem C68_pg_line_search : forall cfg n D f g gradf prox x state L z s, composite_problem n D f g gradf prox -> lipschitz_gradient n L gradf ->
  in_dim n x -> acceleration cfg = false -> uses_line_search cfg -> 0 < pg_decrease cfg -> 0 < pg_step state ->
  fista_line_search cfg f prox x (f x) (gradf x) (pg_step state) = (z, s) -> / 1000000 < s ->
  fst (pg_update cfg f gradf prox (x, state)) = z /\
  exists er, pg_error (snd (pg_update cfg f gradf prox (x, state))) = Fin er /\
    l2_optimality_error (pg_optimality_fun gradf prox) z <= (1 + s * L) / pg_decrease cfg * er.
Proof.
  intros cfg n D f g gradf prox x state L z s HP HL Hx Hacc Hu Hd Hst Els Hs.
  destruct (C23_line_search_error cfg f gradf prox x state z s Hu Hacc Hd Els Hs) as (E1 & E2). split; [exact E1|]. eexists. split; [exact E2|].
  destruct (C22_line_search cfg f prox x (gradf x) (pg_step state) Hst Hd) as (k & _ & Ek & _). cbv zeta in Ek. rewrite Els in Ek. injection Ek as Ez Es.
  assert (Hs0 : 0 < s) by lra. rewrite <- Es in Ez. pose proof (step_residual n D f g gradf prox HP L x s HL Hx Hs0) as A. cbv zeta in A. unfold prox_grad in A. rewrite <- Ez in A.
  unfold l2_optimality_error. eapply Rle_trans; [exact A|]. right. field. lra.
Qed.
Print Assumptions C68_pg_line_search.
(** BoxCDQP: with positive diagonal and entries at most M. *)
Theorem C68_cdqp_run : forall Q c l u n maxiter tol x0 M, qp_problem Q c l u n -> length x0 = n -> (0 < maxiter)%nat ->
  (forall i, (i < n)%nat -> 0 < entry Q i i) -> (forall i j, (i < n)%nat -> (j < n)%nat -> Rabs (entry Q i j) <= M) ->
  let '(x, st) := cd_run Q c l u maxiter tol x0 in
  exists er, cd_error st = Fin er /\ l2_optimality_error (cd_optimality_fun Q c l u) x <= sqrt (INR n) * M * er /\
    (cd_iter st = maxiter \/ er <= tol).
Proof.
  intros Q c l u n maxiter tol x0 M HP Hx Hm Hh HM. destruct (cd_run_spec Q c l u maxiter tol x0 Hm) as (k & Hk & -> & _ & Hstop).
  assert (Hit : forall k, cd_iter (snd (Nat.iter k (cd_update Q c l u) (x0, cd_init))) = k).
  { clear. induction k as [|k IH]; [reflexivity|]. simpl. destruct (Nat.iter k (cd_update Q c l u) (x0, cd_init)) as [x st]. unfold cd_update. destruct (cd_epoch Q c l u x) as [a b]. cbn [snd cd_iter] in *. rewrite IH. reflexivity. }
  pose proof (Hit k) as Hitk. destruct k as [|k]; [lia|].
  assert (Hlen : length (fst (Nat.iter k (cd_update Q c l u) (x0, cd_init))) = n).
  { clear Hk Hstop Hitk. induction k as [|k IH]; [exact Hx|]. simpl. destruct (Nat.iter k (cd_update Q c l u) (x0, cd_init)) as [x st]. simpl in IH.
    unfold cd_update. rewrite (cd_epoch_Xk Q c l u n x IH). simpl. apply (Xk_length Q c l u n HP x IH). lia. }
  change (Nat.iter (S k) (cd_update Q c l u) (x0, cd_init)) with (cd_update Q c l u (Nat.iter k (cd_update Q c l u) (x0, cd_init))) in *.
  destruct (Nat.iter k (cd_update Q c l u) (x0, cd_init)) as [x st]. simpl in Hlen. unfold cd_update in *. rewrite (cd_epoch_Xk Q c l u n x Hlen) in *. cbn [snd cd_error cd_iter] in *.
  eexists. split; [reflexivity|]. split.
  - unfold l2_optimality_error. rewrite Rmult_assoc. apply (cd_residual Q c l u n HP x M Hlen Hh HM).
  - destruct Hstop as [Hstop|Hstop]; [left; rewrite Hitk; exact Hstop|right]. unfold xgtb in Hstop. destruct (Rlt_dec _ _); [discriminate|lra].
Qed.
Print Assumptions C68_cdqp_run.
(** BlockCoordinateDescent: with column constants at most Lmax and block gradients Lf-Lipschitz. *)
Theorem C68_bcd_run : forall m n k f D r prox maxiter tol x0 Lmax Lf, bcd_problem m n k f D r prox -> bcd_lipschitz n k Lf f ->
  (forall i, (i < n)%nat -> nth i (columnwise f) 0 <= Lmax) -> mat_shape n k x0 -> (0 < maxiter)%nat ->
  exists x st er, bcd_run k f prox maxiter tol x0 = Some (x, st) /\ bcd_error st = Fin er /\
    bcd_l2_optimality_error k f prox x <= bcd_constant n Lmax Lf * er /\ (bcd_iter st = maxiter \/ er <= tol).
Proof.
  intros m n k f D r prox maxiter tol x0 Lmax Lf HP HLip HLm Hx Hm. pose proof (problem_pl m n k f D r prox HP) as Hpl. pose proof HP as (Hs & HL & _).
  destruct (bcd_run_spec k f prox maxiter tol x0 Hm) as (j & Hj & E & _ & Hstop). cbv zeta in E, Hstop. rewrite E. clear E. destruct j as [|j]; [lia|].
  destruct (C31_cache m n k f prox x0 j Hs HL Hpl Hx) as (x & st & E & E1 & E2 & E3 & E4).
  change (Nat.iter (S j) (bcd_update k f prox) (Some (x0, bcd_init k f x0))) with (bcd_update k f prox (Nat.iter j (bcd_update k f prox) (Some (x0, bcd_init k f x0)))) in *.
  rewrite E in *. rewrite (update_consistent m n k f prox Hs Hpl HL x st E1 (conj E3 E4)) in *. do 3 eexists. split; [reflexivity|]. cbn [bcd_error bcd_iter] in *. split; [reflexivity|]. split.
  - apply (bcd_residual m n k f D r prox Lmax Lf HP HLip HLm x E1).
  - rewrite E2. destruct Hstop as [Hstop|Hstop]; [left; exact Hstop|right]. unfold xgtb in Hstop. destruct (Rlt_dec _ _); [discriminate|]. unfold fdist2. lra.
Qed.
Print Assumptions C68_bcd_run.

(** *** Refuted: "A cheap-to-compute lower-bound of self.l2_optimality_error" (block_cd.py:144).  Least squares
    with the single column (1/2), target 0, no penalty, from 1: the reported error is 1 while
    l2_optimality_error is 1/4 at the old and 0 at the new parameters. *)
Definition free_prox (v : vec) (_ : R) : vec := v.
Theorem C68_bcd_lower_bound_refuted : let f := least_squares 1 1 [[/ 2]] [[0]] in let x0 := [[1]] in
  bcd_problem 1 1 1 f (in_dim 1) no_penalty free_prox /\
  exists x st, bcd_update 1 f free_prox (Some (x0, bcd_init 1 f x0)) = Some (x, st) /\ bcd_error st = Fin 1 /\
    bcd_l2_optimality_error 1 f free_prox x0 = / 4 /\ bcd_l2_optimality_error 1 f free_prox x = 0.
Proof.
  intros f x0.
  assert (HX : mat_shape 1 1 [[/ 2]]) by (split; [reflexivity|repeat constructor]).
  assert (HY : mat_shape 1 1 [[0]]) by (split; [reflexivity|repeat constructor]).
  assert (HP : bcd_problem 1 1 1 f (in_dim 1) no_penalty free_prox).
  { destruct (C32_least_squares 1 1 1 _ _ HX HY ltac:(lia) ltac:(lia)) as (_ & _ & H3). split; [apply ls_shapes; assumption|].
    destruct (C23_gradient_descent 1 (fun _ => 0) (fun v => vzero (length v))) as (_ & _ & Hc & Hp).
    { intros x Hx. unfold in_dim, vzero in *. rewrite repeat_length. exact Hx. }
    { intros x y Hx Hy. rewrite dot_vzero_l. lra. }
    split; [|split; [exact H3|split; [exact Hc|exact Hp]]]. intros [|i] Hi; [|lia]. unfold f, lo_column_sq_norms, col. simpl. lra. }
  split; [exact HP|]. exists [[0]].
  assert (EL : nth 0 (columnwise f) 0 = / 4) by (unfold f, lo_column_sq_norms, col; simpl; field).
  assert (Hx0 : mat_shape 1 1 x0) by (split; [reflexivity|repeat constructor]).
  assert (EB : Bk 1 f free_prox x0 1 = [[0]]).
  { unfold Bk, bstep, new_block, free_prox. cbn [fori]. rewrite EL. unfold full_grad_block, f, x0, lo_rmatvec_element, lo_matvec, col. simpl. do 2 f_equal. field. }
  eexists. split; [|split; [|split]].
  - etransitivity; [apply (update_consistent 1 1 1 f free_prox (proj1 HP) (problem_pl _ _ _ _ _ _ _ HP) (proj1 (proj2 HP)) x0 (bcd_init 1 f x0) Hx0 (conj eq_refl eq_refl))|].
    rewrite EB. reflexivity.
  - cbn [bcd_error]. f_equal. unfold x0, mdot, msub, madd, msmul. simpl.
    match goal with |- sqrt ?a = _ => replace a with (1 * 1) by ring end. apply sqrt_square. lra.
  - unfold bcd_l2_optimality_error, bcd_optimality_fun, bcd_fixed_point_fun, free_prox, full_grad_block, f, x0, lo_rmatvec_element, lo_matvec, col, msub, madd, msmul. simpl.
    match goal with |- sqrt ?a = _ => replace a with (/ 4 * / 4) by field end. apply sqrt_square. lra.
  - unfold bcd_l2_optimality_error, bcd_optimality_fun, bcd_fixed_point_fun, free_prox, full_grad_block, f, lo_rmatvec_element, lo_matvec, col, msub, madd, msmul. simpl.
    match goal with |- sqrt ?a = _ => replace a with 0 by field end. apply sqrt_0.
Qed.
Print Assumptions C68_bcd_lower_bound_refuted.

(** Non-vacuity: x^2/2 with the l1 norm. *)
Example C68_example : composite_problem 1 (in_dim 1) half_sq (fun z => 3 * norm1 z) (fun v => v) (fun v s => prox_lasso_scalar v 3 s) /\
  strongly_convex_smooth 1 1 1 half_sq (fun v => v) /\ minimiser (in_dim 1) half_sq (fun z => 3 * norm1 z) (vzero 1) /\
  (forall z, length z = 1%nat -> half_sq [0] <= half_sq z).
Proof.
  destruct (C23_example 1) as (A & _ & _ & B). split; [exact A|]. split; [|split; [exact B|]].
  - split; [lra|]. split; [intros v Hv; exact Hv|]. intros x z Hx Hz. destruct x as [|a [|? ?]]; try discriminate. destruct z as [|b [|? ?]]; try discriminate.
    unfold half_sq, dist2, sqnorm. simpl. lra.
  - intros z Hz. destruct z as [|b [|? ?]]; try discriminate. unfold half_sq. simpl. pose proof (Rle_0_sqr b). unfold Rsqr in *. lra.
Qed.
