(** C81: the solutions that the solvers approximate exist, and the iterates converge to them. *)
From Coq Require Import Reals List Lra Lia Bool Arith.
From Verif Require Import Prelude Vec Mat Proj ProjProofs Prox Run Loss Objective ObjectiveProofs ObjectiveTheorems SparseSimplex ProxGrad ProxGradProofs ProxGradTheorems
  BlockCD BlockCDProofs BlockCDTheorems CDQP CDQPProofs CDQPTheorems SvmDual SvmDualProofs SvmDualTheorems CDConvergence CDConvergenceProofs CDConvergenceTheorems
  CDSublinear CDSublinearProofs CDSublinearTheorems FixedPoint FixedPointTheorems Convergence ConvergenceProofs ConvergenceRuns Unrolled UnrolledTheorems OptError OptErrorProofs OptErrorTheorems Existence Compact ExistenceProofs.
Import ListNotations.
Open Scope R_scope.

(** A lower semi-continuous function attains its minimum on every closed, bounded, non-empty set. *)
Theorem C81_attained : forall n K f, (exists x, K x) -> bounded_set n K -> closed_set n K -> lsc_on n K f ->
  exists c, K c /\ forall x, K x -> f c <= f x.
Proof. intros. apply (attains_minimum n); assumption. Qed.
Print Assumptions C81_attained.

(** BoxCDQP's problem has a solution, convex or not. *)
Lemma box_bounded l u n : length l = n -> bounded_set n (in_box l u).
Proof.
  intros Hl. exists (norm1 l + norm1 u). intros x [Lx Hx]. split; [congruence|]. intros i Hi. specialize (Hx i ltac:(unfold vec in *; lia)).
  pose proof (norm1_coord l i) as A. pose proof (norm1_coord u i) as B. apply abs_bounds in A. apply abs_bounds in B. pose proof (norm1_nonneg l). pose proof (norm1_nonneg u). apply Rabs_le. lra.
Qed.
Lemma box_closed l u n : length l = n -> closed_set n (in_box l u).
Proof.
  intros Hl c Lc H. split; [congruence|]. intros i Hi. split; apply le_limit; intros eps He; destruct (H eps He) as (x & [Lx Hx] & Nr);
    specialize (Hx i ltac:(unfold vec in *; lia)); specialize (Nr i ltac:(unfold vec in *; lia)); apply Rabs_def2 in Nr; lra.
Qed.
Lemma qp_lsc Q c l u n : qp_problem Q c l u n -> lsc_on n (in_box l u) (qp_objective Q c).
Proof.
  intros HP x0 Hx0 eps He. pose proof HP as (HQ & _ & Lc & Ll & _). assert (L0 : length x0 = n) by (destruct Hx0; congruence).
  set (g := norm1 (grad Q c x0)). set (S := vsum (map norm1 Q)). assert (G0 : 0 <= g) by apply norm1_nonneg.
  assert (S0 : 0 <= S) by (unfold S; apply vsum_nonneg, Forall_forall; intros a Ha; apply in_map_iff in Ha; destruct Ha as (b & <- & _); apply norm1_nonneg).
  set (dl := Rmin 1 (eps / (g + S + 1))). assert (D0 : 0 < dl) by (apply Rmin_glb_lt; [lra|apply Rdiv_lt_0_compat; lra]). assert (D1 : dl <= 1) by apply Rmin_l.
  assert (D2 : dl * (g + S + 1) <= eps).
  { assert (A : dl <= eps / (g + S + 1)) by apply Rmin_r. apply (Rmult_le_compat_r (g + S + 1)) in A; [|lra]. replace (eps / (g + S + 1) * (g + S + 1)) with eps in A by (field; lra). exact A. }
  exists dl. split; [exact D0|]. intros x Hx Nr. assert (Lx : length x = n) by (destruct Hx; congruence).
  set (d := vsub x x0). assert (Ld : length d = n) by (unfold d; rewrite vsub_length, Lx, L0; apply Nat.max_id).
  assert (Nd : forall i, (i < n)%nat -> Rabs (nth i d 0) < dl) by (intros i Hi; unfold d; rewrite nth_vsub; apply Nr; exact Hi).
  assert (Ex : x = vadd x0 d) by (apply vec_ext; [rewrite vadd_length, L0, Ld; symmetry; rewrite Lx; apply Nat.max_id|]; intros i Hi; unfold d; rewrite nth_vadd, nth_vsub; ring).
  rewrite Ex, (objective_shift Q c l u n HP x0 d L0 Ld).
  assert (A : Rabs (dot d (grad Q c x0)) <= dl * g) by (apply (dot_near n); [exact Ld|apply (grad_length Q c l u n HP)|lra|exact Nd]).
  assert (B : norm1 (mvec Q d) <= dl * S).
  { unfold S, norm1 at 1, mvec. rewrite map_map. destruct HQ as [_ HQ]. clearbody dl. clear -HQ Nd Ld D0. induction Q as [|r Q' IH]; [simpl; lra|]. inversion HQ as [|? ? Hr HQ']; subst. cbn [map vsum].
    specialize (IH HQ'). pose proof (dot_near _ r d dl eq_refl (eq_sym (eq_trans (eq_sym Hr) eq_refl)) ltac:(lra) Nd) as A. rewrite (dot_comm r d). lra. }
  assert (E : Rabs (dot d (mvec Q d)) <= dl * norm1 (mvec Q d)) by (apply (dot_near n); [exact Ld|rewrite mvec_length; apply HQ|lra|exact Nd]).
  rewrite (dot_comm (grad Q c x0)). apply abs_bounds in A. apply abs_bounds in E.
  assert (F : dl * norm1 (mvec Q d) <= dl * S). { assert (dl * S <= 1 * S) by (apply Rmult_le_compat_r; lra). apply Rmult_le_compat_l; lra. }
  assert (H : dl * (g + S + 1) = dl * g + dl * S + dl) by ring. assert (0 <= dl * S) by (apply Rmult_le_pos; lra). lra.
Qed.
Theorem C81_box_qp : forall Q c l u n, qp_problem Q c l u n -> exists x, box_minimiser Q c l u x.
Proof.
  intros Q c l u n HP. pose proof HP as (_ & _ & _ & Ll & Lu & _ & Hlu). destruct (attains_minimum n (in_box l u) (qp_objective Q c)) as (x & Hx & Hm).
  - exists l. split; [reflexivity|]. intros i Hi. specialize (Hlu i ltac:(unfold vec in *; lia)). lra.
  - apply box_bounded. exact Ll.
  - apply box_closed. exact Ll.
  - apply (qp_lsc Q c l u n HP).
  - exists x. split; assumption.
Qed.
Print Assumptions C81_box_qp.
(** Convex: BoxCDQP's objective converges to the minimum, from every starting point; strongly convex: its
    iterates converge to the one minimiser. *)
Theorem C81_cdqp : forall Q c l u n x0, qp_problem Q c l u n -> pos_semidef n Q -> (forall i, (i < n)%nat -> 0 < entry Q i i) -> length x0 = n ->
  exists xs A, box_minimiser Q c l u xs /\ forall t,
    0 <= qp_objective Q c (cdqp_iterate Q c l u x0 (S t)) - qp_objective Q c xs <= A / INR (S t).
Proof.
  intros Q c l u n x0 HP Hpsd Hd Hx. destruct (C81_box_qp Q c l u n HP) as (xs & Hm). destruct (C80_cdqp_converges Q c l u n x0 HP Hpsd Hd Hx) as (A & HA).
  exists xs, A. split; [exact Hm|]. intros t. split; [|apply HA, Hm].
  assert (Hin : in_box l u (cdqp_iterate Q c l u x0 (S t))); [|pose proof (proj2 Hm _ Hin); lra].
  rewrite (iterate_first Q c l u n x0 t HP Hx). unfold cdqp_iterate. apply (cd_iter_inv Q c l u n _ t HP (epoch_box Q c l u n HP x0 Hx)).
Qed.
Print Assumptions C81_cdqp.

(** A strongly convex function with Lipschitz gradient has one minimiser, where its gradient is 0. *)
Theorem C81_strongly_convex : forall n mu L f gradf, strongly_convex_smooth n mu L f gradf ->
  exists xs, length xs = n /\ gradf xs = vzero n /\ forall z, length z = n -> f xs + mu / 2 * dist2 z xs <= f z.
Proof.
  intros n mu L f gradf HF. pose proof HF as (Hmu & Hgd & HB). assert (Hi : 0 < / L) by (apply Rinv_0_lt_compat; lra).
  destruct (gd_contraction n mu L f gradf (/ L) HF Hi ltac:(right; field; lra)) as [Hq HC].
  destruct (C44_banach n _ _ Hq HC) as (xs & Lx & E & _). exists xs. split; [exact Lx|].
  assert (G : gradf xs = vzero n).
  { pose proof (Hgd xs Lx) as Lg. apply vec_ext; [rewrite vzero_length; exact Lg|]. intros i Hi'. apply (f_equal (fun v => nth i v 0)) in E. cbv beta in E. rewrite nth_vadd, nth_smul in E.
    rewrite nth_vzero. apply (Rmult_eq_reg_l (- / L)); lra. }
  split; [exact G|]. intros z Lz. pose proof (HB xs z Lx Lz) as [A _]. rewrite G, dot_vzero_l in A. lra.
Qed.
Print Assumptions C81_strongly_convex.

(** A strongly convex function plus a convex penalty with an exact prox has one minimiser, and
    ProximalGradient with a constant step s <= 1/L (also ProjectedGradient and GradientDescent, C23)
    converges to it linearly from every starting point. *)
Lemma prox_step_contraction n D f g gradf prox mu L s : composite_problem n D f g gradf prox -> strongly_convex_smooth n mu L f gradf -> 0 < s -> s * L <= 1 ->
  0 <= sqrt (1 - s * mu) < 1 /\ contraction n (sqrt (1 - s * mu)) (fun x => prox_grad prox x (gradf x) s).
Proof.
  intros HP HF Hs HsL. destruct (gd_contraction n mu L f gradf s HF Hs HsL) as [Hq [C1 C2]]. split; [exact Hq|]. pose proof HP as (Hgl & Hf & Hg & Hp). split.
  - intros x Lx. apply Hg. apply (Hp _ s (C1 x Lx) Hs).
  - intros x y Lx Ly. unfold prox_grad. set (v := vadd x (smul (- s) (gradf x))). set (w := vadd y (smul (- s) (gradf y))). assert (Lv : length v = n) by apply (C1 x Lx). assert (Lw : length w = n) by apply (C1 y Ly).
    destruct (Hp v s Lv Hs) as [Dv _]. destruct (Hp w s Lw Hs) as [Dw _].
    pose proof (prox_subgrad n D g prox Hg Hp v s (prox w s) Lv Hs Dw) as A. pose proof (prox_subgrad n D g prox Hg Hp w s (prox v s) Lw Hs Dv) as B. set (p := prox v s) in *. set (q := prox w s) in *.
    apply Rle_trans with (vdist v w); [|apply C2; assumption]. unfold vdist.
    assert (M : dot (vsub p q) (vsub p q) <= dot (vsub v w) (vsub p q)).
    { assert (Z : dot (vsub v p) (vsub q p) / s + dot (vsub w q) (vsub p q) / s <= 0) by lra.
      replace (dot (vsub v p) (vsub q p) / s + dot (vsub w q) (vsub p q) / s) with ((dot (vsub v p) (vsub q p) + dot (vsub w q) (vsub p q)) / s) in Z by (field; lra).
      assert (Z' : dot (vsub v p) (vsub q p) + dot (vsub w q) (vsub p q) <= 0).
      { apply (Rmult_le_compat_r s) in Z; [|lra]. unfold Rdiv in Z. rewrite Rmult_assoc, Rinv_l, Rmult_1_r, Rmult_0_l in Z by lra. exact Z. }
      assert (E : dot (vsub v p) (vsub q p) + dot (vsub w q) (vsub p q) = dot (vsub p q) (vsub p q) - dot (vsub v w) (vsub p q)) by vring. lra. }
    pose proof (dot_le_norms (vsub v w) (vsub p q)) as N. rewrite <- norm_mul_sq in M. pose proof (norm_nonneg (vsub p q)) as N1. pose proof (norm_nonneg (vsub v w)) as N2.
    destruct (Req_dec (norm2 (vsub p q)) 0) as [E0|E0]; [rewrite E0; exact N2|]. apply (Rmult_le_reg_r (norm2 (vsub p q))); lra.
Qed.
Theorem C81_composite : forall n D f g gradf prox mu L, composite_problem n D f g gradf prox -> strongly_convex_smooth n mu L f gradf ->
  exists xs, minimiser D f g xs /\ (forall z, minimiser D f g z -> z = xs) /\
    forall cfg x0 s k, in_dim n x0 -> acceleration cfg = false -> pg_stepsize cfg = StepConst s -> 0 < s -> s * L <= 1 ->
      vdist (pg_iterate cfg f gradf prox x0 k) xs <= sqrt (1 - s * mu) ^ k * vdist x0 xs.
Proof.
  intros n D f g gradf prox mu L HP HF. pose proof HP as (Hgl & Hf & Hg & Hp). pose proof HF as (Hmu & _ & HB).
  assert (Hsm : smooth n f gradf L) by (intros x z Lx Lz; apply (HB x z Lx Lz)). assert (Hi : 0 < / L) by (apply Rinv_0_lt_compat; lra).
  destruct (prox_step_contraction n D f g gradf prox mu L (/ L) HP HF Hi ltac:(right; field; lra)) as [Hq HC].
  destruct (C44_banach n _ _ Hq HC) as (xs & Lx & E & Hu).
  assert (Hm : minimiser D f g xs) by (apply (fixed_point_min n D f g gradf prox Hgl Hf Hg Hp xs (/ L)); assumption).
  exists xs. split; [exact Hm|]. split.
  - intros z Hz. apply Hu; [apply Hg, Hz|]. apply (min_fixed_point n D f g gradf prox Hgl Hg Hp L z (/ L)); try assumption; lra.
  - intros cfg x0 s k Lx0 Hacc Hst Hs HsL. destruct (prox_step_contraction n D f g gradf prox mu L s HP HF Hs HsL) as [Hq' HC'].
    assert (Fx : prox_grad prox xs (gradf xs) s = xs) by (apply (min_fixed_point n D f g gradf prox Hgl Hg Hp L xs s); try assumption; lra).
    assert (St : forall i, step_at cfg i = s) by (intros i; unfold step_at; rewrite Hst; reflexivity).
    assert (Sp : forall i, 0 < step_at cfg i) by (intros i; rewrite St; exact Hs).
    induction k as [|k IH]; [unfold pg_iterate; simpl; lra|].
    destruct (plain_step cfg f gradf prox x0 Hacc k (Sp k)) as [-> _]. rewrite St. destruct (plain_dim cfg n D f g gradf prox Hgl Hg Hp x0 Lx0 Hacc k Sp) as [Lk _].
    rewrite <- Fx at 1. eapply Rle_trans; [apply HC'; [exact Lk|exact Lx]|]. simpl pow. rewrite Rmult_assoc. apply Rmult_le_compat_l; [lra|exact IH].
Qed.
Print Assumptions C81_composite.

(** The multiclass linear SVM: the dual has a solution, the training problem has exactly one, and the weights
    recovered from BlockCoordinateDescent's iterates converge to it. *)
Lemma simplex_closed k v : closed_set k (simplex k v).
Proof.
  intros c Lc H. split; [exact Lc|]. split.
  - intros i Hi. apply le_limit. intros eps He. destruct (H eps He) as (x & (_ & Hx & _) & Nr). specialize (Hx i Hi). specialize (Nr i Hi). apply Rabs_def2 in Nr. lra.
  - apply Rabs_limit. intros eps He. pose proof (pos_INR k) as K0. set (e := eps / (INR k + 1)). assert (He' : 0 < e) by (apply Rdiv_lt_0_compat; lra).
    destruct (H e He') as (x & (Lx & _ & Sx) & Nr).
    assert (A : Rabs (dot (vsub c x) (vones k)) <= e * norm1 (vones k)).
    { apply (dot_near k); [rewrite vsub_length, Lc, Lx; apply Nat.max_id|apply vones_length|lra|]. intros i Hi. rewrite nth_vsub, Rabs_minus_sym. apply Nr. exact Hi. }
    assert (N1 : norm1 (vones k) = INR k).
    { clear. unfold norm1, vones. induction k as [|k IH]; [reflexivity|]. cbn [repeat map vsum]. rewrite IH, S_INR, Rabs_R1. ring. }
    assert (E : dot (vsub c x) (vones k) = vsum c - v).
    { rewrite dot_vsub_l. pose proof (vsum_dot c) as Ec. pose proof (vsum_dot x) as Ex. rewrite Lc in Ec. rewrite Lx, Sx in Ex. rewrite (dot_comm c), (dot_comm x). rewrite <- ?Ec, <- ?Ex, ?(dot_comm (vones k)), <- ?Ec, <- ?Ex. reflexivity. }
    rewrite E, N1 in A. assert (Q : e * (INR k + 1) = eps) by (unfold e; field; lra). lra.
Qed.
Theorem C81_svm_dual : forall N p k l2reg X y, mat_shape N p X -> length y = N -> 0 < l2reg -> (0 < k)%nat ->
  exists beta, svm_dual_optimal N p k l2reg X y beta.
Proof.
  intros N p k l2reg X y HX Hy Hr Hk. set (f := multiclass_linear_svm_dual p k l2reg X (binarized k y)). pose proof (binarized_shape N k y Hy) as HY.
  destruct (C32_svm_dual N p k l2reg X (binarized k y) HX HY Hr) as (Hcv & _). fold f in Hcv.
  destruct (svm_shapes N p k l2reg X (binarized k y) HX HY) as [S1 S2]. fold f in S1, S2.
  assert (Hs : bcd_shapes p N k f).
  { split; [exact S1|]. split; [|split; [exact S2|]].
    - intros P HPs. unfold f. simpl. apply msmul_shape', msub_shape'; [exact HPs|]. apply (mmul_shape p k N); [apply mtrans_shape; apply HX|exact HY].
    - unfold f. simpl. unfold lo_column_sq_norms. rewrite map_length, seq_length. apply HX. }
  assert (Hobj : forall Z, bcd_objective k f (fun _ => 0) Z = svm_dual p k l2reg X y Z).
  { intros Z. unfold bcd_objective, svm_dual. fold f. assert (vsum (map (fun _ : vec => 0) Z) = 0) as -> by (clear; induction Z as [|z Z IH]; simpl; [reflexivity|rewrite IH; ring]). ring. }
  set (u := unit_vec k 0). assert (Hu : simplex k 1 u).
  { split; [apply unit_vec_length|]. split.
    - intros i Hi. unfold u. rewrite nth_unit_vec by exact Hi. destruct (Nat.eq_dec 0 i); lra.
    - pose proof (vsum_dot u) as E. rewrite E. unfold u at 1 2. rewrite unit_vec_length, ?(dot_comm (vones k)), dot_unit_vec by (try apply vones_length; assumption). unfold vones. apply nth_repeat_lt. exact Hk. }
  destruct (bcd_attains p N k f (simplex k 1) (fun _ => 0) Hs Hcv (simplex_closed k 1) ltac:(intros c _ eps He; exists 1; split; [lra|intros; lra]) (repeat u N) 1) as (beta & B1 & B2 & B3).
  - split; [apply repeat_length|]. apply Forall_forall. intros c Hc. apply repeat_spec in Hc. subst c. apply Hu.
  - apply Forall_forall. intros c Hc. apply repeat_spec in Hc. subst c. exact Hu.
  - intros Z HZ HD _ i j Hi Hj. unfold blocks_in in HD. rewrite Forall_forall in HD. assert (Hin : In (nth i Z []) Z) by (apply nth_In; rewrite (proj1 HZ); exact Hi). destruct (HD _ Hin) as (L1 & P1 & Q1).
    assert (A : Rabs (nth j (nth i Z []) 0) <= norm1 (nth i Z [])) by apply norm1_coord. assert (E : norm1 (nth i Z []) = 1); [|unfold entry; lra].
    rewrite <- Q1. rewrite <- L1 in P1. revert P1. generalize (nth i Z []). clear. intros b Hn. unfold norm1. induction b as [|a b IH]; [reflexivity|]. simpl. rewrite IH by (intros i Hi; apply (Hn (S i)); simpl; lia).
    rewrite Rabs_right; [reflexivity|]. apply Rle_ge, (Hn 0%nat). simpl. lia.
  - exists beta. split; [split; [apply (shape_length _ _ _ B1)|exact B2]|]. intros gamma Hg. rewrite <- !Hobj. apply B3; [apply feasible_shape; exact Hg|apply Hg].
Qed.
Print Assumptions C81_svm_dual.
Theorem C81_svm : forall N p k l2reg X y, mat_shape N p X -> length y = N -> 0 < l2reg -> (0 < k)%nat ->
  exists W, svm_primal_optimal p k l2reg X y W /\ (forall V, svm_primal_optimal p k l2reg X y V -> V = W) /\
    (forall beta, svm_dual_optimal N p k l2reg X y beta -> svm_weights p k l2reg X y beta = W) /\
    (1 <= l2reg -> (forall i, (i < N)%nat -> nth i X [] <> vzero p) -> forall beta0, svm_feasible N k beta0 ->
     let f := multiclass_linear_svm_dual p k l2reg X (binarized k y) in
     let prox := fun v s => make_prox_from_projection projection_simplex v 1 s in
     exists A, forall t, exists beta st, Nat.iter t (bcd_update k f prox) (Some (beta0, bcd_init k f beta0)) = Some (beta, st) /\
       fdist2 W (svm_weights p k l2reg X y beta) <= A / INR (S t)).
Proof.
  intros N p k l2reg X y HX Hy Hr Hk. destruct (C81_svm_dual N p k l2reg X y HX Hy Hr Hk) as (bs & Hbs). set (W := svm_weights p k l2reg X y bs).
  destruct (C78_strong_duality N p k l2reg X y bs HX Hy Hr Hk Hbs) as [E Hopt]. fold W in E, Hopt.
  assert (Near : forall V beta, mat_shape p k V -> svm_feasible N k beta -> l2reg / 2 * fdist2 V (svm_weights p k l2reg X y beta) <= svm_primal k l2reg X y V + svm_dual p k l2reg X y beta).
  { intros V beta HV Hb. pose proof (C78_weak_duality N p k l2reg X y V beta HX Hy Hr HV Hb). lra. }
  assert (Same : forall V Z, mat_shape p k V -> mat_shape p k Z -> l2reg / 2 * fdist2 V Z <= 0 -> V = Z).
  { intros V Z HV HZ H. assert (F0 : fdist2 V Z = 0) by (pose proof (mdot_self_nonneg (msub V Z)) as P; unfold fdist2 in *; apply Rle_antisym; [|exact P]; apply (Rmult_le_reg_l (l2reg / 2)); lra).
    apply (fdist_zero p k); assumption. }
  assert (WS : forall beta, svm_feasible N k beta -> mat_shape p k (svm_weights p k l2reg X y beta)) by (intros beta Hb; apply (weights_shape N p k l2reg X y HX Hy beta (feasible_shape _ _ _ Hb))).
  exists W. split; [exact Hopt|]. split; [|split].
  - intros V [HV HVo]. apply Same; [exact HV|apply WS, Hbs|]. specialize (HVo W (proj1 Hopt)). pose proof (Near V bs HV (proj1 Hbs)). fold W in H. lra.
  - intros beta Hbeta. symmetry. apply Same; [apply Hopt|apply WS, Hbeta|]. pose proof (Near W beta (proj1 Hopt) (proj1 Hbeta)). pose proof (proj2 Hbeta bs (proj1 Hbs)). lra.
  - intros Hr1 HX0 beta0 Hb0 f prox. destruct (C80_svm N p k l2reg X y beta0 HX Hy Hr1 Hk HX0 Hb0) as (A & HA). cbv zeta in HA. fold f prox in HA.
    exists (2 / l2reg * A). intros t. destruct (HA t) as (beta & st & Eq & Hb & Hd & _). exists beta, st. split; [exact Eq|].
    pose proof (Near W beta (proj1 Hopt) Hb) as A1. specialize (Hd bs (proj1 Hbs)). apply (Rmult_le_reg_l (l2reg / 2)); [lra|].
    assert (T0 : INR (S t) <> 0) by (apply not_0_INR; lia). set (T := INR (S t)) in *. clearbody T. replace (l2reg / 2 * (2 / l2reg * A / T)) with (A / T) by (field; lra). lra.
Qed.
Print Assumptions C81_svm.

(** The (multi-output) lasso has a solution, whatever the data, and BlockCoordinateDescent's objective
    converges to the minimum. *)
Lemma abs_lsc k lam : 0 <= lam -> lsc_on k (in_dim k) (fun w => lam * norm1 w).
Proof.
  intros Hl. apply subgradient_lsc; [intros c Hc; exact Hc|]. intros c Hc. exists (map (fun a => lam * (if Rle_dec 0 a then 1 else -1)) c). split; [rewrite map_length; exact Hc|].
  intros x Hx. unfold in_dim in *. rewrite <- Hc in Hx. clear Hc. revert x Hx. induction c as [|a c IH]; intros [|b x] Hx; try discriminate; [unfold norm1; simpl; lra|].
  specialize (IH x ltac:(simpl in Hx; lia)). rewrite dot_vsub_l in *. unfold norm1 in *. simpl in *.
  assert (A : lam * Rabs a + (b - a) * (lam * (if Rle_dec 0 a then 1 else -1)) <= lam * Rabs b).
  { replace (lam * Rabs a + (b - a) * (lam * (if Rle_dec 0 a then 1 else -1))) with (lam * (Rabs a + (b - a) * (if Rle_dec 0 a then 1 else -1))) by ring. apply Rmult_le_compat_l; [exact Hl|].
    pose proof (Rle_abs b). pose proof (Rle_abs (- b)) as Q. rewrite Rabs_Ropp in Q. destruct (Rle_dec 0 a); [rewrite (Rabs_right a) by lra|rewrite (Rabs_left a) by lra]; lra. }
  lra.
Qed.
Theorem C81_lasso : forall m n k X Y lam, mat_shape m n X -> mat_shape m k Y -> (0 < m)%nat -> (0 < k)%nat -> 0 < lam ->
  let f := least_squares n k X Y in let r := fun w => lam * norm1 w in
  exists W, bcd_minimiser n k f (in_dim k) r W /\
    ((forall i, (i < n)%nat -> col i X <> vzero m) -> forall x0, mat_shape n k x0 -> exists A, forall t, exists x st,
       Nat.iter t (bcd_update k f (fun v s => prox_lasso_scalar v lam s)) (Some (x0, bcd_init k f x0)) = Some (x, st) /\
       0 <= bcd_objective k f r x - bcd_objective k f r W <= A / INR (S t)).
Proof.
  intros m n k X Y lam HX HY Hm Hk Hlam f r. destruct (C32_least_squares m n k X Y HX HY Hm Hk) as (Hcv & _).
  assert (HDall : forall Z, mat_shape n k Z -> blocks_in (in_dim k) Z) by (intros Z HZ; apply HZ).
  assert (HN : 1 <= INR (m * k)) by (change 1 with (INR 1); apply le_INR; nia).
  assert (Hi : 0 < / INR (m * k)) by (apply Rinv_0_lt_compat; lra).
  assert (Hlow : forall Z, lam * vsum (map norm1 Z) <= bcd_objective k f r Z).
  { intros Z. unfold bcd_objective, comp_call, f, r. cbn [linear_term subfun linop least_squares]. rewrite (shape_length m k Y HY).
    assert (E : vsum (map (fun w => lam * norm1 w) Z) = lam * vsum (map norm1 Z)) by apply vsum_map_scal. rewrite E.
    pose proof (mdot_self_nonneg (msub (lo_matvec k X Z) Y)) as H. set (q := mdot (msub (lo_matvec k X Z) Y) (msub (lo_matvec k X Z) Y)) in *.
    assert (0 <= q / INR (m * k)) by (apply Rmult_le_pos; lra). lra. }
  set (X0 := repeat (vzero k) n). assert (H0 : mat_shape n k X0) by (split; [apply repeat_length|]; apply Forall_forall; intros c Hc; apply repeat_spec in Hc; subst c; apply vzero_length).
  destruct (bcd_attains m n k f (in_dim k) r (ls_shapes m n k X Y HX HY) Hcv ltac:(intros c Lc _; exact Lc) (abs_lsc k lam ltac:(lra)) X0 (bcd_objective k f r X0 / lam) H0 (HDall X0 H0)) as (W & HW).
  { intros Z HZ _ Hle i j Hi' Hj. apply Rle_trans with (vsum (map norm1 Z)).
    - unfold entry. pose proof (norm1_coord (nth i Z []) j) as A. eapply Rle_trans; [exact A|]. assert (Li : (i < length Z)%nat) by (rewrite (proj1 HZ); exact Hi'). clear -Li. revert i Li.
      assert (P : forall Q : mat, 0 <= vsum (map norm1 Q)) by (intros Q; induction Q as [|z Q IH]; simpl; [lra|pose proof (norm1_nonneg z); lra]).
      induction Z as [|z Z IH]; intros [|i] Li; simpl in *; try lia; [specialize (P Z); lra|]. specialize (IH i ltac:(lia)). pose proof (norm1_nonneg z). lra.
    - apply (Rmult_le_reg_l lam); [exact Hlam|]. replace (lam * (bcd_objective k f r X0 / lam)) with (bcd_objective k f r X0) by (field; lra). specialize (Hlow Z). lra. }
  exists W. split; [exact HW|]. intros Hcol x0 Hx0. destruct (C80_lasso m n k X Y lam x0 HX HY Hm Hk Hcol Hlam Hx0) as (A & HA). cbv zeta in HA. fold f in HA.
  exists A. intros t. destruct (HA t) as (x & st & E & Hx & Hd). exists x, st. split; [exact E|]. split; [|apply Hd, HW]. pose proof (proj2 (proj2 HW) x Hx (HDall x Hx)). lra.
Qed.
Print Assumptions C81_lasso.

(** A non-convex box QP, a composite problem, an SVM and a lasso that meet the hypotheses. *)
Example C81_example :
  (qp_problem [[1; 3]; [3; 1]] [-1; -1] [0; 0] [1; 1] 2 /\ ~ pos_semidef 2 [[1; 3]; [3; 1]]) /\
  (composite_problem 1 (in_dim 1) half_sq (fun z => 3 * norm1 z) (fun v => v) (fun v s => prox_lasso_scalar v 3 s) /\ strongly_convex_smooth 1 1 1 half_sq (fun v => v)) /\
  (mat_shape 2 2 [[1; 0]; [1; 2]] /\ length [0; 1]%nat = 2%nat /\ forall i, (i < 2)%nat -> nth i [[1; 0]; [1; 2]] [] <> vzero 2) /\
  (mat_shape 1 2 [[1; 1]] /\ mat_shape 1 1 [[3]]) /\
  (bounded_set 2 (simplex 2 1) /\ closed_set 2 (simplex 2 1)).
Proof.
  split; [split|split; [|split; [|split; [|split]]]].
  - split; [split; [reflexivity|repeat constructor]|]. split; [intros [|[|i]] [|[|j]] Hi Hj; try lia; reflexivity|]. repeat (split; [reflexivity|]).
    split; intros [|[|i]] Hi; try lia; unfold entry; simpl; lra.
  - intros H. specialize (H [1; -1] eq_refl). simpl in H. lra.
  - split; apply C68_example.
  - split; [split; [reflexivity|repeat constructor]|]. split; [reflexivity|]. intros [|[|i]] Hi; try lia; unfold vzero; simpl; intros E; injection E; intros; lra.
  - split; (split; [reflexivity|repeat constructor]).
  - exists 1. intros [|a [|b [|? x]]] (Lx & Hx & Sx); try discriminate. split; [reflexivity|]. pose proof (Hx 0%nat ltac:(lia)) as A. pose proof (Hx 1%nat ltac:(lia)) as B. simpl in A, B, Sx.
    intros [|[|i]] Hi; try lia; simpl; apply Rabs_le; lra.
  - apply simplex_closed.
Qed.
