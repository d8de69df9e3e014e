(** Theorems for C43 (iterative_refinement.py). *)
From Coq Require Import Reals List Lra Lia Bool Arith.
From Verif Require Import Prelude Vec Mat LinAlg LinSolve LinSolveProofs LinSolveTheorems Run IterRefine.
Import ListNotations.
Open Scope R_scope.

(** C43: after any update, target and error are the residual b - A params and its norm. *)
Theorem C43_residual : forall solve A Ab b s,
  let '(x, st) := ir_update solve A Ab b s in
  ir_target st = vsub b (A x) /\ ir_error st = Fin (norm2 (ir_optimality A b x)) /\ ir_iter st = S (ir_iter (snd s)).
Proof. intros solve A Ab b [x st]. simpl. auto. Qed.
Print Assumptions C43_residual.

Lemma vsub_add_r b c d : length c = length b -> length d = length b -> vsub b (vadd c d) = vsub (vsub b c) d.
Proof. intros H1 H2. apply vec_eq_dot; [rewrite !vsub_length, vadd_length; lia|]. intros z. vring. Qed.

(** C43: error decay, from any starting point. *)
Theorem C43_contraction : forall solve A Ab (b : vec) n q (x0 : vec), is_linear n A -> length b = n -> length x0 = n -> 0 <= q ->
  reduces n A q (solve (match Ab with None => A | Some f => f end)) ->
  forall k, let '(x, st) := ir_after solve A Ab b x0 (S k) in
    length x = n /\ ir_error st = Fin (norm2 (vsub b (A x))) /\
    norm2 (vsub b (A x)) <= q ^ k * (q * norm2 b + norm2 (A x0)).
Proof.
  intros solve A Ab b n q x0 HL Hb Hx Hq HR. destruct HL as (Hl & Ha & _).
  set (sol := solve _) in HR.
  induction k as [|k IH].
  - unfold ir_after. simpl. fold sol. destruct (HR b x0 Hb Hx) as [L1 H1].
    assert (L2 : length (vadd x0 (sol b x0)) = n) by (apply vadd_length_eq; assumption).
    split; [exact L2|]. split; [reflexivity|].
    rewrite Ha by assumption.
    replace (vsub b (vadd (A x0) (A (sol b x0)))) with (vadd (vsub b (A (sol b x0))) (smul (-(1)) (A x0))).
    2:{ apply vec_eq_dot; [rewrite vadd_length, !vsub_length, vadd_length, smul_length, !Hl by assumption; unfold vec in *; lia|]. intros z. vring. }
    assert (T := norm2_triangle (vsub b (A (sol b x0))) (smul (-(1)) (A x0))). rewrite norm2_smul, Rabs_Ropp, Rabs_R1 in T. lra.
  - unfold ir_after in *. change (Nat.iter (S (S k)) ?f ?x) with (f (Nat.iter (S k) f x)).
    assert (Hi : ir_init (snd (Nat.iter (S k) (ir_update solve A Ab b) (x0, ir_init_state b x0))) = vzero n /\
                 ir_target (snd (Nat.iter (S k) (ir_update solve A Ab b) (x0, ir_init_state b x0))) =
                 vsub b (A (fst (Nat.iter (S k) (ir_update solve A Ab b) (x0, ir_init_state b x0))))).
    { change (Nat.iter (S k) ?f ?x) with (f (Nat.iter k f x)). destruct (Nat.iter k _ _) as [y sy]. simpl. unfold ir_init_params. rewrite Hb. auto. }
    destruct (Nat.iter (S k) (ir_update solve A Ab b) (x0, ir_init_state b x0)) as [y sy]. simpl in Hi. destruct Hi as [Hi Ht].
    destruct IH as (Ly & _ & IH). simpl. fold sol. rewrite Hi, Ht.
    assert (Lt : length (vsub b (A y)) = n) by (rewrite vsub_length, Hl by assumption; unfold vec in *; lia).
    destruct (HR _ (vzero n) Lt (vzero_length n)) as [L1 H1].
    split; [apply vadd_length_eq; assumption|]. split; [reflexivity|]. rewrite Ha by assumption.
    rewrite vsub_add_r by (rewrite Hl by assumption; unfold vec in *; lia).
    apply Rle_trans with (1 := H1). apply Rle_trans with (q * (q ^ k * (q * norm2 b + norm2 (A x0)))); [apply Rmult_le_compat_l; assumption|]. 
    rewrite <- Rmult_assoc. apply Rle_refl.
Qed.
Print Assumptions C43_contraction.

(** From the default (zero) start the error after k updates is at most q^k |b|. *)
Theorem C43_contraction_zero : forall solve A Ab b n q, is_linear n A -> length b = n -> 0 <= q ->
  reduces n A q (solve (match Ab with None => A | Some f => f end)) ->
  forall k, (1 <= k)%nat -> let '(x, st) := ir_after solve A Ab b (ir_init_params b) k in
    ir_error st = Fin (norm2 (vsub b (A x))) /\ norm2 (vsub b (A x)) <= q ^ k * norm2 b.
Proof.
  intros solve A Ab b n q HL Hb Hq HR [|k] Hk; [lia|].
  assert (H := C43_contraction solve A Ab b n q (vzero n) HL Hb (vzero_length n) Hq HR k).
  unfold ir_init_params. rewrite Hb. destruct (ir_after _ _ _ _ _ _) as [x st]. destruct H as (_ & H1 & H2).
  split; [exact H1|]. rewrite (linear_zero n A HL) in H2.
  assert (E0 : norm2 (vzero n) = 0) by (apply norm2_zero_iff; rewrite vzero_length; reflexivity). rewrite E0 in H2. simpl. lra.
Qed.
Print Assumptions C43_contraction_zero.

(** C43: run makes between 1 and maxiter updates, stops with error <= tol or at maxiter, and meets
    the tolerance whenever q^maxiter |b| does. *)
Theorem C43_run : forall solve A Ab b n q tol maxiter, is_linear n A -> length b = n -> 0 <= q <= 1 -> (0 < maxiter)%nat ->
  reduces n A q (solve (match Ab with None => A | Some f => f end)) ->
  exists k, (1 <= k <= maxiter)%nat /\
    let '(x, st) := ir_run solve A Ab b tol maxiter None in
    ir_iter st = k /\ (x, st) = ir_after solve A Ab b (ir_init_params b) k /\
    ir_error st = Fin (norm2 (vsub b (A x))) /\
    (norm2 (vsub b (A x)) <= tol \/ k = maxiter) /\
    (q ^ maxiter * norm2 b <= tol -> norm2 (vsub b (A x)) <= tol).
Proof.
  intros solve A Ab b n q tol maxiter HL Hb Hq Hm HR. unfold ir_run. cbv zeta.
  destruct (run_loop_spec maxiter (fun s => xgtb (ir_error (snd s)) tol) (ir_update solve A Ab b)
             (ir_init_params b, ir_init_state b (ir_init_params b)) Hm) as (k & Hk & E & _ & Hstop).
  exists k. split; [exact Hk|]. rewrite E.
  assert (H := C43_contraction_zero solve A Ab b n q HL Hb ltac:(lra) HR k ltac:(lia)). unfold ir_after in *.
  assert (Hit : ir_iter (snd (Nat.iter k (ir_update solve A Ab b) (ir_init_params b, ir_init_state b (ir_init_params b)))) = k).
  { clear. induction k as [|k IH]; [reflexivity|]. simpl. destruct (Nat.iter k _ _) as [y sy]. simpl in *. congruence. }
  destruct (Nat.iter k _ _) as [x st]. destruct H as [H1 H2]. simpl in Hit, Hstop.
  split; [exact Hit|]. split; [reflexivity|]. split; [exact H1|].
  assert (HD : norm2 (vsub b (A x)) <= tol \/ k = maxiter).
  { destruct Hstop as [|Hs]; [right; assumption|left]. rewrite H1 in Hs. simpl in Hs.
    destruct (Rlt_dec tol (norm2 (vsub b (A x)))) as [|Hn]; [discriminate|]. lra. }
  split; [exact HD|]. intros Hq'. destruct HD as [|Ek]; [assumption|]. rewrite Ek in H2. exact (Rle_trans _ _ _ H2 Hq').
Qed.
Print Assumptions C43_run.

(** C43: the regularised inner solve (the default) is such a solver for strongly monotone A: an
    exact solve of (A + ridge I) x = r leaves a fraction ridge / (lam + ridge) of the residual. *)
Theorem C43_ridge : forall n A lam ridge solve, is_linear n A -> 0 < lam -> 0 <= ridge ->
  (forall x, length x = n -> lam * sqnorm x <= dot x (A x)) ->
  (forall r i, length r = n -> length i = n -> solves_ridge A (Some ridge) r (solve r i)) ->
  reduces n A (ridge / (lam + ridge)) solve /\ 0 <= ridge / (lam + ridge) < 1.
Proof.
  intros n A lam ridge solve HL Hlam Hr Hm HS.
  assert (Hpos : 0 < lam + ridge) by lra.
  split.
  2:{ split; [apply Rmult_le_pos; [lra|]; left; apply Rinv_0_lt_compat; lra|]. apply (Rmult_lt_reg_r (lam + ridge)); [lra|]. unfold Rdiv. rewrite Rmult_assoc, Rinv_l by lra. lra. }
  intros r i Lr Li. destruct (HS r i Lr Li) as [L1 E]. rewrite Lr in L1. split; [exact L1|]. set (y := solve r i) in *.
  destruct HL as (Hl & _). assert (LA := Hl y L1).
  replace (vsub r (A y)) with (smul ridge y).
  2:{ rewrite <- E. apply vec_eq_dot; [rewrite smul_length, vsub_length, vadd_length, smul_length; unfold vec in *; lia|]. intros z. vring. }
  rewrite norm2_smul, Rabs_pos_eq by exact Hr.
  assert (H1 : (lam + ridge) * (norm2 y * norm2 y) <= norm2 r * norm2 y).
  { apply Rle_trans with (dot r y); [|apply dot_le_norm]. rewrite <- E, dot_vadd_l, dot_smul_l, norm2_sq. specialize (Hm y L1). unfold sqnorm in Hm.
    rewrite (dot_comm (A y)). lra. }
  assert (H0 := norm2_nonneg y).
  assert (H2 : (lam + ridge) * norm2 y <= norm2 r).
  { destruct (Req_EM_T (norm2 y) 0) as [E0|E0]; [rewrite E0; assert (Hn := norm2_nonneg r); lra|].
    apply (Rmult_le_reg_r (norm2 y)); [lra|]. lra. }
  apply (Rmult_le_reg_l (lam + ridge)); [lra|].
  replace ((lam + ridge) * (ridge / (lam + ridge) * norm2 r)) with (ridge * norm2 r) by (field; lra).
  apply Rle_trans with (ridge * ((lam + ridge) * norm2 y)); [lra|]. apply Rmult_le_compat_l; assumption.
Qed.
Print Assumptions C43_ridge.

(** An exact solver of A solves the system in one update from zero. *)
Theorem C43_exact : forall solve A b n, is_linear n A -> length b = n ->
  (forall r i, length r = n -> length i = n -> length (solve A r i) = n /\ A (solve A r i) = r) ->
  let '(x, st) := ir_after solve A None b (ir_init_params b) 1 in A x = b /\ ir_error st = Fin 0.
Proof.
  intros solve A b n HL Hb HS. unfold ir_after. simpl. unfold ir_init_params. rewrite Hb.
  destruct (HS b (vzero n) Hb (vzero_length n)) as [L1 E1].
  assert (E : vadd (vzero n) (solve A b (vzero n)) = solve A b (vzero n)) by (apply vadd_vzero_l; unfold vec in *; lia). rewrite E, E1. split; [reflexivity|].
  f_equal. apply norm2_zero_iff. apply vec_eq_dot; [rewrite vzero_length; reflexivity|]. intros z. rewrite dot_vzero_l. vring.
Qed.
Print Assumptions C43_exact.

(** C43, where the code falls short: init_params is documented as a warm start, but the first
    residual handed to the solver is b, not b - A init_params.  With an exact solver the first
    update returns init_params + A^-1 b, whose error is |A init_params|: a perfect warm start ends
    up as wrong as the zero vector. *)
Theorem C43_warm_start_refuted : forall solve A b x0 n, is_linear n A -> length b = n -> length x0 = n ->
  (forall r i, length r = n -> length i = n -> length (solve A r i) = n /\ A (solve A r i) = r) ->
  A x0 = b -> forall tol,
  let '(x, st) := ir_run solve A None b tol 1 (Some x0) in
  ir_error st = Fin (norm2 b) /\ A x = vadd b b.
Proof.
  intros solve A b x0 n HL Hb Hx HS E0 tol. unfold ir_run. simpl. destruct (HS b x0 Hb Hx) as [L1 E1].
  destruct HL as (_ & Ha & _). assert (E : A (vadd x0 (solve A b x0)) = vadd b b) by (rewrite Ha by assumption; congruence).
  split; [|exact E]. rewrite E. f_equal. transitivity (norm2 (smul (-(1)) b)).
  - f_equal. apply vec_eq_dot; [rewrite smul_length, vsub_length, vadd_length; lia|]. intros z. vring.
  - rewrite norm2_smul, Rabs_Ropp, Rabs_R1. ring.
Qed.
Print Assumptions C43_warm_start_refuted.

(** Instances: A = 2 I, exact solves by elimination, and regularised ones with ridge 1 (factor 1/3). *)
Definition ex_A (x : vec) : vec := mvec [[2; 0]; [0; 2]] x.
Lemma ex_A_linear : is_linear 2 ex_A. Proof. apply matrix_linear. split; [reflexivity|repeat constructor]. Qed.
Example C43_example :
  (forall r i, length r = 2%nat -> length i = 2%nat -> length (gauss_krylov ex_A r (Some i)) = 2%nat /\ ex_A (gauss_krylov ex_A r (Some i)) = r) /\
  reduces 2 ex_A (1 / 3) (fun r i => gauss_krylov (with_ridge ex_A (Some 1)) r (Some i)) /\
  ex_A [1; 2] = [2; 4].
Proof.
  assert (HL := ex_A_linear).
  assert (HM : forall x, length x = 2%nat -> 2 * sqnorm x <= dot x (ex_A x)).
  { intros [|x0 [|x1 [|]]]; try discriminate. intros _. unfold ex_A, mvec, sqnorm, dot. simpl. lra. }
  split; [|split].
  - intros r i Hr Hi. apply (C42_example_regular 2%nat); auto. intros [|x0 [|x1 [|]]]; try discriminate. intros _.
    unfold ex_A, mvec, dot, vadd, smul, vzero. simpl. intros E. injection E; intros. f_equal; [lra|f_equal; lra].
  - replace (1 / 3) with (1 / (2 + 1)) by lra. apply C43_ridge; auto; try lra. intros r i Hr Hi.
    destruct (C42_krylov gauss_krylov gauss_krylov gauss_krylov 2%nat ex_A r (Some 1) (Some i) HL Hr Hi) as (_ & H & _).
    apply H; [exact C42_example_regular|]. apply C42_ridge_regular; [exact HL| |lra]. intros x Hx. specialize (HM x Hx). assert (H0 := sqnorm_nonneg x). lra.
  - unfold ex_A, mvec, dot. simpl. f_equal; [lra|f_equal; lra].
Qed.
