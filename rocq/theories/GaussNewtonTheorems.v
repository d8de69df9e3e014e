(** C46: Gauss-Newton. *)
From Coq Require Import Reals List Lra Lia Bool Arith.
From Verif Require Import Prelude Vec Mat LinAlg LinSolve LinSolveProofs LinSolveTheorems Run GaussNewton.
Import ListNotations.
Open Scope R_scope.

Lemma vsum_hmul_self v : vsum (hmul v v) = sqnorm v.
Proof. unfold sqnorm. induction v as [|a v IH]; [reflexivity|]. change (vsum (hmul (a :: v) (a :: v))) with (a * a + vsum (hmul v v)). rewrite IH. reflexivity. Qed.
Lemma jtj_positive m n M : full_column_rank m n M -> positive_op n (fun v => tvec n M (mvec M v)) None.
Proof.
  intros [HM HK]. split.
  - intros x y Hx Hy. rewrite !(dot_comm x), !(dot_tvec n) by assumption. apply dot_comm.
  - intros x Hx Hne. rewrite dot_comm, (dot_tvec n) by assumption. rewrite Rmult_0_l, Rplus_0_r.
    destruct (Rle_lt_or_eq_dec 0 (dot (mvec M x) (mvec M x))) as [|E]; [apply sqnorm_nonneg|assumption|].
    exfalso. apply Hne. apply HK; [exact Hx|]. apply sqnorm_zero_vec; [rewrite mvec_length; apply HM|symmetry; exact E].
Qed.
Lemma gn_step cg m n res jac (x : vec) s : exact_on_positive cg -> residual_shapes m n res jac -> length x = n -> full_column_rank m n (jac x) ->
  exists d, length d = n /\ tvec n (jac x) (mvec (jac x) d) = tvec n (jac x) (res x) /\
    gn_update cg n res jac (x, s) = (vsub x d, {| gn_iter := S (gn_iter s); gn_error := Fin (norm2 d); gn_residual := res x; gn_value := cost res x; gn_delta := d; gn_gradient := tvec n (jac x) (res x) |}).
Proof.
  intros HE HS Hx HF. destruct (HS x Hx) as [Lr HM].
  assert (HL := normal_linear m n (jac x) HM). assert (HP := jtj_positive m n (jac x) HF).
  destruct (HE n (fun v => tvec n (jac x) (mvec (jac x) v)) (tvec n (jac x) (res x)) None HL HP) as [Ld Ed].
  - apply (tvec_length m). exact HM.
  - exact I.
  - exists (cg (fun v => tvec n (jac x) (mvec (jac x) v)) (tvec n (jac x) (res x)) None). split; [exact Ld|]. split; [exact Ed|].
    unfold gn_update, solve_cg, with_ridge, jt_op, jtj_op, cost. rewrite vsum_hmul_self. reflexivity.
Qed.
(** One update from x with a Jacobian of full column rank: the step solves the normal equations,
    is the (unique) minimiser of the linearised residual, and the reported error is its norm. *)
Theorem C46_step : forall cg m n res jac (x : vec) s, exact_on_positive cg -> residual_shapes m n res jac -> length x = n -> full_column_rank m n (jac x) ->
  let '(x', s') := gn_update cg n res jac (x, s) in
  exists d, length d = n /\ x' = vsub x d /\ gn_delta s' = d /\ gn_error s' = Fin (norm2 d) /\
    tvec n (jac x) (mvec (jac x) d) = tvec n (jac x) (res x) /\
    (forall y, length y = n -> sqnorm (linearised res jac x (smul (-1) d)) <= sqnorm (linearised res jac x y)) /\
    (* descent: the directional derivative of the cost along -d is -|J d|^2, negative unless stationary *)
    dot (gn_optimality n res jac x) (smul (-1) d) = - sqnorm (mvec (jac x) d) /\
    (gn_optimality n res jac x <> vzero n -> dot (gn_optimality n res jac x) (smul (-1) d) < 0).
Proof.
  intros cg m n res jac x s HE HS Hx HF. destruct (gn_step cg m n res jac x s HE HS Hx HF) as (d & Ld & Ed & ->).
  destruct (HS x Hx) as [Lr HM].
  exists d. split; [exact Ld|]. split; [reflexivity|]. split; [reflexivity|]. split; [reflexivity|]. split; [exact Ed|].
  assert (Eg : dot (gn_optimality n res jac x) d = sqnorm (mvec (jac x) d)).
  { unfold gn_optimality, jt_op. rewrite <- Ed, (dot_tvec n) by exact HM. reflexivity. }
  assert (Eg' : dot (gn_optimality n res jac x) (smul (-1) d) = - sqnorm (mvec (jac x) d)) by (rewrite dot_smul_r, Eg; ring).
  split; [|split; [exact Eg'|]].
  - intros y Hy. unfold linearised. rewrite mvec_smul.
    set (g := vadd (res x) (smul (-1) (mvec (jac x) d))). set (h := mvec (jac x) (vadd y d)).
    assert (Ey : vadd (res x) (mvec (jac x) y) = vadd g h).
    { unfold g, h. rewrite mvec_vadd. apply vec_eq_dot; [rewrite !vadd_length, smul_length, !mvec_length, (proj1 HM); unfold vec in *; lia|]. intros w. vring. }
    assert (Eo : dot g h = 0).
    { unfold h. rewrite <- (dot_tvec n) by exact HM. unfold g. rewrite (tvec_vadd m), (tvec_smul m), Ed by exact HM. autorewrite with vec. ring. }
    unfold vec in *. rewrite Ey. unfold sqnorm. rewrite dot_vadd_l, !dot_vadd_r, (dot_comm h g), Eo. assert (P := sqnorm_nonneg h). unfold sqnorm in P. lra.
  - intros Hne. rewrite Eg'. destruct (Rle_lt_or_eq_dec 0 (sqnorm (mvec (jac x) d)) (sqnorm_nonneg _)) as [P|P]; [lra|]. exfalso. apply Hne.
    unfold gn_optimality, jt_op. rewrite <- Ed. assert (Z : mvec (jac x) d = vzero m) by (apply sqnorm_zero_vec; [rewrite mvec_length; apply HM|symmetry; exact P]).
    rewrite Z. apply vec_eq_dot; [rewrite (tvec_length m), vzero_length by exact HM; reflexivity|]. intros w. rewrite (dot_tvec n) by exact HM. rewrite !dot_vzero_l. reflexivity.
Qed.
Print Assumptions C46_step.
(** Error zero means the point (which the update leaves unchanged) is stationary, and conversely. *)
Theorem C46_stationary : forall cg m n res jac (x : vec) s, exact_on_positive cg -> residual_shapes m n res jac -> length x = n -> full_column_rank m n (jac x) ->
  let '(x', s') := gn_update cg n res jac (x, s) in
  (gn_error s' = Fin 0 <-> gn_optimality n res jac x = vzero n) /\ (gn_error s' = Fin 0 -> x' = x).
Proof.
  intros cg m n res jac x s HE HS Hx HF. destruct (gn_step cg m n res jac x s HE HS Hx HF) as (d & Ld & Ed & ->).
  destruct (HS x Hx) as [Lr HM]. cbn [gn_error].
  assert (H0 : Fin (norm2 d) = Fin 0 -> d = vzero n).
  { intros E. injection E as E. apply norm2_zero_iff in E. rewrite E, Ld. reflexivity. }
  assert (Z : forall M, mat_shape m n M -> tvec n M (mvec M (vzero n)) = vzero n).
  { intros M HM'. apply vec_eq_dot; [rewrite (tvec_length m), vzero_length by exact HM'; reflexivity|]. intros w. rewrite (dot_tvec n), mvec_vzero by exact HM'. rewrite !dot_vzero_l. reflexivity. }
  split; [split|].
  - intros E. unfold gn_optimality, jt_op. rewrite <- Ed, (H0 E). apply Z. exact HM.
  - intros E. unfold gn_optimality, jt_op in E. f_equal. apply norm2_zero_iff.
    assert (Ez : d = vzero n).
    { destruct HF as [_ HK]. apply HK; [exact Ld|]. apply sqnorm_zero_vec; [rewrite mvec_length; apply HM|]. unfold sqnorm.
      rewrite <- (dot_tvec n) by exact HM. rewrite Ed. unfold vec in *. rewrite E. apply dot_vzero_l. }
    rewrite Ez, vzero_length. reflexivity.
  - intros E. rewrite (H0 E). apply vec_eq_dot; [rewrite vsub_length, vzero_length; unfold vec in *; lia|]. intros w. autorewrite with vec. ring.
Qed.
Print Assumptions C46_stationary.
(** state.residual, value and gradient describe the point before the step, so after run() they are
    not those of the returned parameters. *)
Theorem C46_state : forall cg m n res jac (x : vec) s, exact_on_positive cg -> residual_shapes m n res jac -> length x = n -> full_column_rank m n (jac x) ->
  let s' := snd (gn_update cg n res jac (x, s)) in
  gn_iter s' = S (gn_iter s) /\ gn_residual s' = res x /\ gn_value s' = cost res x /\ gn_gradient s' = gn_optimality n res jac x.
Proof. intros cg m n res jac x s HE HS Hx HF. destruct (gn_step cg m n res jac x s HE HS Hx HF) as (d & Ld & Ed & ->). repeat split. Qed.
Print Assumptions C46_state.

Lemma stationary_error cg m n res jac (x : vec) s : exact_on_positive cg -> residual_shapes m n res jac -> length x = n -> full_column_rank m n (jac x) ->
  gn_optimality n res jac x = vzero n -> gn_error (snd (gn_update cg n res jac (x, s))) = Fin 0.
Proof.
  intros HE HS Hx HF. generalize (C46_stationary cg m n res jac x s HE HS Hx HF). destruct (gn_update cg n res jac (x, s)) as [x' s'].
  intros [[_ H] _] E. exact (H E).
Qed.
(** Affine residuals A x - b: one update from anywhere reaches a least-squares solution, ... *)
Section Affine.
Variables (cg : (vec -> vec) -> vec -> option vec -> vec) (m n : nat) (A : mat) (b : vec).
Hypothesis HE : exact_on_positive cg.
Hypothesis HF : full_column_rank m n A.
Hypothesis Hb : length b = m.
Let res := fun x => vsub (mvec A x) b.
Let jac := fun _ : vec => A.
Lemma affine_shapes : residual_shapes m n res jac.
Proof. intros x Hx. split; [unfold res; rewrite vsub_length, mvec_length, (proj1 (proj1 HF)); unfold vec in *; lia|apply HF]. Qed.
Lemma affine_step (x : vec) s : length x = n -> exists d, length d = n /\ fst (gn_update cg n res jac (x, s)) = vsub x d /\ gn_error (snd (gn_update cg n res jac (x, s))) = Fin (norm2 d) /\
  tvec n A (mvec A d) = tvec n A (res x) /\ tvec n A (res (vsub x d)) = vzero n.
Proof.
  intros Hx. destruct (gn_step cg m n res jac x s HE affine_shapes Hx HF) as (d & Ld & Ed & ->). exists d. split; [exact Ld|]. split; [reflexivity|]. split; [reflexivity|]. split; [exact Ed|].
  unfold res in *. rewrite mvec_vsub. assert (HM := proj1 HF). unfold jac in Ed.
  assert (Lm : forall y, length (mvec A y) = m) by (intros; rewrite mvec_length; apply HM).
  apply vec_eq_dot; [rewrite (tvec_length m), vzero_length by exact HM; reflexivity|]. intros w.
  assert (Ew : dot (tvec n A (mvec A d)) w = dot (tvec n A (vsub (mvec A x) b)) w) by (rewrite Ed; reflexivity).
  rewrite !(dot_tvec n) in Ew by exact HM. rewrite (dot_tvec n) by exact HM. autorewrite with vec in *. lra.
Qed.
Lemma affine_optimal x : length x = n -> tvec n A (res x) = vzero n -> forall y, length y = n -> cost res x <= cost res y.
Proof.
  intros Hx E y Hy. unfold cost. assert (HM := proj1 HF).
  assert (Ey : res y = vadd (res x) (mvec A (vsub y x))).
  { unfold res. rewrite mvec_vsub. assert (Lm : forall y, length (mvec A y) = m) by (intros; rewrite mvec_length; apply HM).
    apply vec_eq_dot; [rewrite vadd_length, !vsub_length, !Lm; unfold vec in *; lia|]. intros w. vring. }
  rewrite Ey. assert (Eo : dot (res x) (mvec A (vsub y x)) = 0) by (rewrite <- (dot_tvec n) by exact HM; rewrite E; apply dot_vzero_l).
  unfold sqnorm. rewrite dot_vadd_l, !dot_vadd_r, (dot_comm (mvec A (vsub y x))), Eo. assert (P := sqnorm_nonneg (mvec A (vsub y x))). unfold sqnorm in P. lra.
Qed.
Theorem affine_one : forall (x : vec) s y, length x = n -> length y = n ->
  cost res (fst (gn_update cg n res jac (x, s))) <= cost res y.
Proof.
  intros x s y Hx Hy. destruct (affine_step x s Hx) as (d & Ld & -> & _ & _ & E). apply affine_optimal; [rewrite vsub_length; unfold vec in *; lia|exact E|exact Hy].
Qed.
Theorem affine_run : forall tol maxiter (x : vec), length x = n -> 0 <= tol -> (1 <= maxiter)%nat ->
  let '(x', s') := gn_run cg n res jac tol maxiter x in
  (gn_iter s' <= 2)%nat /\ (forall y, length y = n -> cost res x' <= cost res y) /\ ((2 <= maxiter)%nat -> exists e, gn_error s' = Fin e /\ e <= tol).
Proof.
  intros tol maxiter x Hx Ht Hmax.
  assert (Hnext : forall s : vec * gn_state, length (fst s) = n -> length (fst (gn_update cg n res jac s)) = n /\ tvec n A (res (fst (gn_update cg n res jac s))) = vzero n).
  { intros [y s] Hy. simpl in Hy. destruct (affine_step y s Hy) as (d & Ld & -> & _ & _ & E). split; [rewrite vsub_length; unfold vec in *; lia|exact E]. }
  assert (Hiter : forall k, length (fst (Nat.iter k (gn_update cg n res jac) (x, gn_init_state n res jac x))) = n).
  { induction k; [exact Hx|]. simpl Nat.iter. apply Hnext. exact IHk. }
  assert (Hst : xgtb (gn_error (snd (Nat.iter 2 (gn_update cg n res jac) (x, gn_init_state n res jac x)))) tol = false /\
    exists e, gn_error (snd (Nat.iter 2 (gn_update cg n res jac) (x, gn_init_state n res jac x))) = Fin e /\ e <= tol).
  { change (Nat.iter 2 (gn_update cg n res jac) (x, gn_init_state n res jac x)) with (gn_update cg n res jac (gn_update cg n res jac (x, gn_init_state n res jac x))).
    destruct (Hnext (x, gn_init_state n res jac x) Hx) as [L1 S1].
    destruct (gn_update cg n res jac (x, gn_init_state n res jac x)) as [x1 s1] eqn:E1. cbn [fst] in L1, S1.
    rewrite (stationary_error cg m n res jac x1 s1 HE affine_shapes L1 HF S1). split; [unfold xgtb; destruct (Rlt_dec tol 0); [lra|reflexivity]|]. exists 0. auto. }
  unfold gn_run. destruct (run_loop_spec maxiter (fun s => xgtb (gn_error (snd s)) tol) (gn_update cg n res jac) (x, gn_init_state n res jac x) ltac:(lia)) as (k & Hk & Ek & Hc & Hend).
  assert (Hk2 : (k <= 2)%nat).
  { destruct (Nat.le_gt_cases k 2) as [|C]; [assumption|]. specialize (Hc 2%nat ltac:(lia)). rewrite (proj1 Hst) in Hc. discriminate. }
  assert (Hit : forall j, gn_iter (snd (Nat.iter j (gn_update cg n res jac) (x, gn_init_state n res jac x))) = j).
  { induction j; [reflexivity|]. simpl Nat.iter. destruct (Nat.iter j (gn_update cg n res jac) (x, gn_init_state n res jac x)) as [y s]. simpl in *. rewrite IHj. reflexivity. }
  specialize (Hit k).
  assert (Hopt : forall y, length y = n -> cost res (fst (Nat.iter k (gn_update cg n res jac) (x, gn_init_state n res jac x))) <= cost res y).
  { intros y Hy. destruct k as [|k]; [lia|]. apply affine_optimal; [apply Hiter| |exact Hy]. simpl Nat.iter. apply Hnext. apply Hiter. }
  assert (Herr : (2 <= maxiter)%nat -> exists e, gn_error (snd (Nat.iter k (gn_update cg n res jac) (x, gn_init_state n res jac x))) = Fin e /\ e <= tol).
  { intros H2. destruct Hend as [->|Hend].
    - assert (E2 : maxiter = 2%nat) by lia. rewrite E2. apply Hst.
    - destruct k as [|k]; [lia|]. simpl Nat.iter in Hend |- *. destruct (Nat.iter k (gn_update cg n res jac) (x, gn_init_state n res jac x)) as [y s] eqn:Ey.
      assert (Ly : length y = n) by (specialize (Hiter k); rewrite Ey in Hiter; exact Hiter).
      destruct (affine_step y s Ly) as (d & Ld & _ & Ee & _). rewrite Ee in Hend |- *. exists (norm2 d). split; [reflexivity|].
      unfold xgtb in Hend. destruct (Rlt_dec tol (norm2 d)); [discriminate|lra]. }
  rewrite Ek. destruct (Nat.iter k (gn_update cg n res jac) (x, gn_init_state n res jac x)) as [x' s']. cbn [fst snd] in *. split; [lia|]. split; assumption.
Qed.
End Affine.
Theorem C46_affine : forall cg m n A b (x : vec) s y, exact_on_positive cg -> full_column_rank m n A -> length b = m -> length x = n -> length y = n ->
  let res := fun x => vsub (mvec A x) b in
  cost res (fst (gn_update cg n res (fun _ => A) (x, s))) <= cost res y.
Proof. intros. apply (affine_one cg m n A b); assumption. Qed.
Print Assumptions C46_affine.
(** ... and run() stops there after at most two updates. *)
Theorem C46_affine_run : forall cg m n A b tol maxiter (x : vec), exact_on_positive cg -> full_column_rank m n A -> length b = m -> length x = n -> 0 <= tol -> (1 <= maxiter)%nat ->
  let res := fun x => vsub (mvec A x) b in
  let '(x', s') := gn_run cg n res (fun _ => A) tol maxiter x in
  (gn_iter s' <= 2)%nat /\ (forall y, length y = n -> cost res x' <= cost res y) /\ ((2 <= maxiter)%nat -> exists e, gn_error s' = Fin e /\ e <= tol).
Proof. intros. apply (affine_run cg m n A b); assumption. Qed.
Print Assumptions C46_affine_run.
(** Hypotheses met: a 2 x 1 overdetermined system, and exact CG exists (C42_example_positive). *)
Example C46_example : full_column_rank 2 1 [[1]; [2]] /\ residual_shapes 2 1 (fun x => vsub (mvec [[1]; [2]] x) [1; 1]) (fun _ => [[1]; [2]]) /\ exact_on_positive gauss_krylov.
Proof.
  assert (HF : full_column_rank 2 1 [[1]; [2]]).
  { split; [repeat constructor|]. intros [|a [|]] L E; try discriminate. cbv in E. injection E as E _. cbv. f_equal. lra. }
  split; [exact HF|]. split; [apply (affine_shapes 2 1 [[1];[2]] [1;1]); [exact HF|reflexivity]|].
  intros n f b i HL HP Hb Hi. apply C42_example_regular; try assumption.
  intros x Hx E. destruct (list_eq_dec Req_EM_T x (vzero n)) as [|Hne]; [assumption|]. exfalso. destruct HP as [_ HP]. specialize (HP x Hx Hne).
  assert (Ed : dot x (vadd (f x) (smul 0 x)) = 0) by (rewrite E; apply dot_vzero_r). autorewrite with vec in Ed. lra.
Qed.
