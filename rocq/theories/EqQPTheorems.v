(** Theorems for C33 (eq_qp.py) and the affine-set part of C09. *)
From Coq Require Import Reals List Lra Lia Bool Arith.
From Verif Require Import Prelude Vec Mat LinAlg LinSolve LinSolveProofs LinSolveTheorems IterRefine IterRefineTheorems Kkt KktTheorems EqQP EqQPProofs.
Import ListNotations.
Open Scope R_scope.

Section Problem.
Variables (n m : nat) (Q : mat) (c : vec) (A : mat) (b : vec).
Hypothesis HP : eqqp_problem n m Q c A b.
Let HQ := eq_Q _ _ _ _ _ _ HP.
Let HA := eq_A _ _ _ _ _ _ HP.
Let Hc := eq_c _ _ _ _ _ _ HP.
Let Hb := eq_b _ _ _ _ _ _ HP.
Lemma T w : length (tvec n A w) = n. Proof. apply (tvec_length m), HA. Qed.
Lemma MA w : length (mvec A w) = m. Proof. rewrite mvec_length. apply HA. Qed.
Lemma MQ w : length (mvec Q w) = n. Proof. rewrite mvec_length. apply HQ. Qed.
Lemma qp_expand x d : length x = n -> length d = n ->
  qp_value Q c (vadd x d) = qp_value Q c x + dot (vadd (mvec Q x) c) d + 1 / 2 * dot d (mvec Q d).
Proof.
  intros Hx Hd. unfold qp_value. rewrite mvec_vadd. autorewrite with vec.
  rewrite (dot_comm (mvec Q x) d), (sym_dot n Q x d HQ (eq_sym _ _ _ _ _ _ HP) Hx Hd). field.
Qed.
Lemma kkt_dot x y d : kkt_system n Q c A b x y -> dot (vadd (mvec Q x) c) d = - dot y (mvec A d).
Proof.
  intros (_ & _ & E & _). assert (D : dot (vadd (vadd (mvec Q x) (tvec n A y)) c) d = 0) by (rewrite E; apply dot_vzero_l).
  rewrite !dot_vadd_l, dot_tvec in *. lra.
Qed.
Lemma kkt_min x y : kkt_system n Q c A b x y -> eqqp_solution n Q c A b x.
Proof.
  intros HK. pose proof HK as (Hx & Hy & E1 & E2). split; [exact Hx|]. split; [exact E2|]. intros z Hz Ez.
  set (d := vsub z x). assert (Ld : length d = n) by (unfold d; rewrite vsub_length; unfold vec in *; lia).
  assert (Ezx : z = vadd x d). { apply vec_eq_dot; [rewrite vadd_length; unfold vec in *; lia|]. intros w. unfold d. vring. }
  rewrite Ezx, qp_expand by assumption. rewrite (kkt_dot x y d HK).
  assert (Ed : mvec A d = vzero m). { unfold d. rewrite mvec_vsub, Ez, E2. apply vec_eq_dot; [rewrite vsub_length, vzero_length; unfold vec in *; lia|]. intros w. autorewrite with vec. ring. }
  rewrite Ed, dot_vzero_r. assert (P := eq_psd _ _ _ _ _ _ HP d Ld). lra.
Qed.
Lemma min_kkt x : eqqp_solution n Q c A b x -> exists y, kkt_system n Q c A b x y.
Proof.
  intros (Hx & E & Hmin). set (g := vadd (mvec Q x) c). assert (Lg : length g = n) by (unfold g; rewrite vadd_length, MQ; unfold vec in *; lia).
  destruct (kernel_complement m n A (smul (-1) g) HA) as (y & Ly & Ey); [rewrite smul_length; exact Lg| |].
  - intros d Hd Ed. assert (G : forall t, 0 <= t * dot g d + t * t * (1 / 2 * dot d (mvec Q d))).
    { intros t. assert (Lz : length (vadd x (smul t d)) = n) by (apply vadd_length_eq; [exact Hx|rewrite smul_length; exact Hd]).
      specialize (Hmin _ Lz). rewrite qp_expand in Hmin by (rewrite ?smul_length; assumption). fold g in Hmin.
      rewrite mvec_vadd, mvec_smul, E, Ed in Hmin. 
      assert (Z : vadd b (smul t (vzero m)) = b). { apply vec_eq_dot; [rewrite vadd_length, smul_length, vzero_length; unfold vec in *; lia|]. intros w. autorewrite with vec. ring. }
      specialize (Hmin Z). rewrite mvec_smul in Hmin. autorewrite with vec in Hmin. lra. }
    rewrite dot_smul_l. set (a := dot g d) in *. set (q := 1 / 2 * dot d (mvec Q d)) in *.
    assert (Hq : 0 <= q) by (unfold q; assert (P := eq_psd _ _ _ _ _ _ HP d Hd); lra).
    assert (P := G (- a / (q + 1))).
    assert (Ea : - a / (q + 1) * a + - a / (q + 1) * (- a / (q + 1)) * q = - (a * a) * (1 / ((q + 1) * (q + 1)))) by (field; lra).
    rewrite Ea in P. assert (Hinv : 0 < 1 / ((q + 1) * (q + 1))) by (apply Rdiv_lt_0_compat; nra).
    assert (Haa : a * a <= 0). { destruct (Rle_lt_dec (a * a) 0) as [|Hlt]; [assumption|]. exfalso. assert (0 < a * a * (1 / ((q + 1) * (q + 1)))) by (apply Rmult_lt_0_compat; assumption). lra. }
    nra.
  - exists y. split; [exact Hx|]. split; [unfold vec in *; lia|]. split; [|exact E]. rewrite Ey.
    apply vec_eq_dot; [rewrite !vadd_length, smul_length, vzero_length, MQ; unfold vec in *; lia|]. intros w. unfold g. autorewrite with vec. ring.
Qed.
Lemma kkt_stack x y : length x = n -> length y = m ->
  (kkt_matvec n A (mvec Q) (x ++ y) = kkt_target b c <-> kkt_system n Q c A b x y).
Proof.
  intros Hx Hy. rewrite kkt_matvec_app by exact Hx. unfold kkt_target. split.
  - intros E. apply app_inj in E; [|rewrite vadd_length, T, MQ, smul_length; unfold vec in *; lia]. destruct E as [E1 E2].
    split; [exact Hx|]. split; [unfold vec in *; lia|]. split; [|exact E2]. rewrite E1.
    apply vec_eq_dot; [rewrite vadd_length, smul_length, vzero_length; unfold vec in *; lia|]. intros w. autorewrite with vec. ring.
  - intros (_ & _ & E1 & E2). rewrite E2. f_equal. 
    apply vec_eq_dot; [rewrite vadd_length, T, MQ, smul_length; unfold vec in *; lia|]. intros w.
    assert (D : dot (vadd (vadd (mvec Q x) (tvec n A y)) c) w = 0) by (rewrite E1; apply dot_vzero_l). autorewrite with vec in *. lra.
Qed.
Lemma target_len : length (kkt_target b c) = (n + m)%nat.
Proof. unfold kkt_target. rewrite app_length, smul_length. unfold vec in *. lia. Qed.
Lemma kkt_regular : independent_rows n m A -> definite_on_kernel n m Q A -> regular_op (n + m) (kkt_matvec n A (mvec Q)) None.
Proof.
  intros HI HD u Hu E. assert (HL := kkt_linear n m (mvec Q) A (matrix_linear n Q HQ) HA).
  rewrite smul_0, vadd_vzero_r in E by (rewrite (proj1 HL) by exact Hu; unfold vec in *; lia).
  destruct (split_vec n m u Hu) as (x & y & -> & L1 & L2).
  rewrite kkt_matvec_app, vzero_app in E by exact L1. apply app_inj in E; [|rewrite vadd_length, T, MQ, vzero_length; lia]. destruct E as [E1 E2].
  assert (D : dot x (mvec Q x) = 0).
  { assert (D : dot x (vadd (mvec Q x) (tvec n A y)) = 0) by (rewrite E1; apply dot_vzero_r). rewrite dot_vadd_r, dot_tvec_r, E2, dot_vzero_l in D. lra. }
  assert (Zx : x = vzero n). { destruct (list_eq_dec Req_EM_T x (vzero n)) as [|Hne]; [assumption|]. specialize (HD x L1 E2 Hne). lra. }
  assert (Zy : y = vzero m). { apply HI; [exact L2|]. rewrite <- E1, Zx, mvec_vzero. rewrite vadd_vzero_l; [reflexivity|]. rewrite T. destruct HQ. unfold mat, vec in *; lia. }
  rewrite Zx, Zy, vzero_app. reflexivity.
Qed.
End Problem.

(** C33: the optimality residual vanishes exactly at the solutions of the KKT system. *)
Theorem C33_optimality : forall n m Q c A b x y, eqqp_problem n m Q c A b -> length x = n -> length y = m ->
  (all_zero (eqqp_optimality n A b (ExplicitQ Q c) x y) <-> kkt_system n Q c A b x y).
Proof.
  intros n m Q c A b x y HP Hx Hy. unfold eqqp_optimality, all_zero, kkt_optimality. simpl.
  assert (ES : tvec n Q x = mvec Q x) by (apply tvec_sym; [apply HP|apply HP|exact Hx]). rewrite ES.
  assert (EH : smul (1 / 2) (vadd (mvec Q x) (mvec Q x)) = mvec Q x).
  { apply vec_eq_dot; [rewrite smul_length, vadd_length; lia|]. intros w. autorewrite with vec. field. }
  rewrite EH. assert (LQ := MQ n m Q c A b HP x). assert (LA := MA n m Q c A b HP x). assert (LT := T n m Q c A b HP y).
  assert (Lc := eq_c _ _ _ _ _ _ HP). assert (Lb := eq_b _ _ _ _ _ _ HP). split.
  - intros (H1 & H2 & _). split; [exact Hx|]. split; [unfold vec in *; lia|]. split.
    + apply vec_ext; [rewrite !vadd_length, vzero_length; unfold vec in *; lia|]. intros i _. specialize (H1 i). rewrite !nth_vadd, nth_vzero in *. lra.
    + apply vec_ext; [unfold vec in *; lia|]. intros i _. specialize (H2 i). rewrite nth_vsub in H2. lra.
  - intros (_ & _ & E1 & E2). split; [|split].
    + intros i. assert (D := f_equal (fun v => nth i v 0) E1). cbv beta in D. rewrite !nth_vadd, nth_vzero in *. lra.
    + intros i. rewrite nth_vsub, E2. ring.
    + intros [|i]; reflexivity.
Qed.
Print Assumptions C33_optimality.
(** C33: and its value is the gradient of the Lagrangian, for the residual sign A x - b. *)
Theorem C33_residual : forall n m Q c A b x y, eqqp_problem n m Q c A b -> length x = n -> length y = m ->
  eqqp_optimality n A b (ExplicitQ Q c) x y =
  {| primal := vadd (vadd (mvec Q x) c) (tvec n A y); dual_eq := Some (vsub (mvec A x) b); dual_ineq := None |}.
Proof.
  intros n m Q c A b x y HP Hx Hy. unfold eqqp_optimality, kkt_optimality. simpl.
  assert (ES : tvec n Q x = mvec Q x) by (apply tvec_sym; [apply HP|apply HP|exact Hx]). rewrite ES.
  assert (EH : smul (1 / 2) (vadd (mvec Q x) (mvec Q x)) = mvec Q x).
  { apply vec_eq_dot; [rewrite smul_length, vadd_length; lia|]. intros w. autorewrite with vec. field. }
  rewrite EH. reflexivity.
Qed.
Print Assumptions C33_residual.

(** C33: KKT points are exactly the minimisers over {x | Ax = b} with their multipliers. *)
Theorem C33_kkt_iff_minimiser : forall n m Q c A b x, eqqp_problem n m Q c A b ->
  (eqqp_solution n Q c A b x <-> exists y, kkt_system n Q c A b x y).
Proof.
  intros n m Q c A b x HP. split; [apply (min_kkt n m); exact HP|]. intros [y Hy]. apply (kkt_min n m Q c A b HP x y Hy).
Qed.
Print Assumptions C33_kkt_iff_minimiser.

(** C33: run returns a KKT point as soon as the linear solver solves the system it is given. *)
Theorem C33_run : forall solve n m Q c A b tol k init flat, eqqp_problem n m Q c A b ->
  solved_by solve (kkt_matvec n A (mvec Q)) (kkt_target b c) (match init with None => None | Some (p, d) => Some (p ++ d) end) ->
  exists x y, eqqp_run solve n A b (ExplicitQ Q c) 0 tol k init flat = Ok (x, y) /\
    kkt_system n Q c A b x y /\ eqqp_solution n Q c A b x /\ all_zero (eqqp_optimality n A b (ExplicitQ Q c) x y).
Proof.
  intros solve n m Q c A b tol k init flat HP [HL HE]. unfold eqqp_run, extract_Qc. cbv zeta. destruct (Req_EM_T 0 0) as [_|Hc]; [|contradiction Hc; reflexivity].
  set (sol := solve _ _ _) in *. rewrite (target_len n m Q c A b HP) in HL. destruct (split_len n m sol HL) as [L1 L2].
  exists (firstn n sol), (skipn n sol). split; [reflexivity|].
  assert (HK : kkt_system n Q c A b (firstn n sol) (skipn n sol)) by (apply (kkt_stack n m Q c A b HP); [exact L1|exact L2|rewrite firstn_skipn; exact HE]).
  split; [exact HK|]. split; [apply (kkt_min n m Q c A b HP _ _ HK)|]. apply (C33_optimality n m); assumption.
Qed.
Print Assumptions C33_run.

(** C33: in particular for every exact solver of regular systems, when the rows of A are
    independent and Q is definite on the kernel of A; the solution is then unique. *)
Theorem C33_run_regular : forall solve n m Q c A b tol k init flat, eqqp_problem n m Q c A b ->
  independent_rows n m A -> definite_on_kernel n m Q A -> exact_on_regular solve ->
  match init with None => True | Some (p, d) => length p = n /\ length d = m end ->
  exists x y, eqqp_run solve n A b (ExplicitQ Q c) 0 tol k init flat = Ok (x, y) /\ kkt_system n Q c A b x y /\
    eqqp_solution n Q c A b x /\ forall x' y', kkt_system n Q c A b x' y' -> x' = x /\ y' = y.
Proof.
  intros solve n m Q c A b tol k init flat HP HI HD HS Hin.
  assert (HL := kkt_linear n m (mvec Q) A (matrix_linear n Q (eq_Q _ _ _ _ _ _ HP)) (eq_A _ _ _ _ _ _ HP)).
  assert (HR := kkt_regular n m Q c A b HP HI HD).
  set (i := match init with None => None | Some (p, d) => Some (p ++ d) end).
  assert (Hi : match i with Some i => length i = (n + m)%nat | None => True end).
  { unfold i. destruct init as [[p d]|]; [|exact I]. rewrite app_length. destruct Hin. unfold vec in *; lia. }
  destruct (HS (n + m)%nat _ (kkt_target b c) i HL HR (target_len n m Q c A b HP) Hi) as [S1 S2].
  destruct (C33_run solve n m Q c A b tol k init flat HP) as (x & y & E & HK & HM & _).
  { split; [|exact S2]. rewrite (target_len n m Q c A b HP). exact S1. }
  exists x, y. split; [exact E|]. split; [exact HK|]. split; [exact HM|]. intros x' y' HK'.
  pose proof HK as (Lx & Ly & _). pose proof HK' as (Lx' & Ly' & _). rewrite (eq_b _ _ _ _ _ _ HP) in Ly, Ly'.
  apply (kkt_stack n m Q c A b HP x y Lx Ly) in HK. apply (kkt_stack n m Q c A b HP x' y' Lx' Ly') in HK'.
  assert (EU : x' ++ y' = x ++ y).
  { apply (C42_unique (n + m) (kkt_matvec n A (mvec Q)) None (kkt_target b c)); auto; [apply (target_len n m Q c A b HP)| |].
    - split; [rewrite app_length, (target_len n m Q c A b HP); unfold vec in *; lia|]. rewrite smul_0, vadd_vzero_r; [exact HK'|]. rewrite HK', (target_len n m Q c A b HP), app_length. unfold vec in *; lia.
    - split; [rewrite app_length, (target_len n m Q c A b HP); unfold vec in *; lia|]. rewrite smul_0, vadd_vzero_r; [exact HK|]. rewrite HK, (target_len n m Q c A b HP), app_length. unfold vec in *; lia. }
  apply app_inj in EU; [exact EU|congruence].
Qed.
Print Assumptions C33_run_regular.

(** C33: the regularised system of the refinement is never singular (also for redundant
    constraints and semidefinite Q). *)
Theorem C33_quasidefinite : forall n m Q c A b ridge, eqqp_problem n m Q c A b -> 0 < ridge ->
  regular_op (n + m) (kkt_matvec_reg n A (mvec Q) ridge) None.
Proof.
  intros n m Q c A b r HP Hr u Hu E. assert (HQ := eq_Q _ _ _ _ _ _ HP). assert (HA := eq_A _ _ _ _ _ _ HP).
  assert (HL := kkt_reg_linear n m (mvec Q) A (matrix_linear n Q HQ) HA r).
  rewrite smul_0, vadd_vzero_r in E by (rewrite (proj1 HL) by exact Hu; unfold vec in *; lia).
  destruct (split_vec n m u Hu) as (x & y & -> & L1 & L2).
  rewrite (kkt_reg_app n m), vzero_app in E by (try exact L1; try exact L2; try exact HA; apply matrix_linear, HQ).
  apply app_inj in E; [|rewrite !vadd_length, smul_length, (T n m Q c A b HP), (MQ n m Q c A b HP), vzero_length; unfold vec in *; lia]. destruct E as [E1 E2].
  assert (D1 : dot x (vadd (vadd (mvec Q x) (tvec n A y)) (smul r x)) = 0) by (rewrite E1; apply dot_vzero_r).
  assert (D2 : dot (vadd (mvec A x) (smul (- r) y)) y = 0) by (rewrite E2; apply dot_vzero_l).
  autorewrite with vec in D1, D2. rewrite dot_tvec_r in D1. assert (P := eq_psd _ _ _ _ _ _ HP x L1).
  assert (N1 := sqnorm_nonneg x). assert (N2 := sqnorm_nonneg y). unfold sqnorm in *.
  assert (Zx : dot x x = 0) by nra. assert (Zy : dot y y = 0) by nra.
  rewrite (sqnorm_zero_vec n x L1 Zx), (sqnorm_zero_vec m y L2 Zy), vzero_app. reflexivity.
Qed.
Print Assumptions C33_quasidefinite.

(** C33: with refine_regularization > 0 and exact inner solves, every refinement step multiplies the
    KKT residual by at most q = ridge / sqrt(sigma^2 + ridge^2), where sigma is any lower bound on
    the singular values of the KKT matrix (sigma = 0 is one: the residual never grows), so the
    returned point satisfies the KKT conditions up to tol or up to q^refine_maxiter |(c, b)|. *)
Lemma reg_reduces n m Q c A b ridge sigma solve : eqqp_problem n m Q c A b -> 0 < ridge -> 0 <= sigma -> exact_on_regular solve ->
  (forall u, length u = (n + m)%nat -> sigma * norm2 u <= norm2 (kkt_matvec n A (mvec Q) u)) ->
  reduces (n + m) (kkt_matvec n A (mvec Q)) (ridge / sqrt (sigma * sigma + ridge * ridge))
    (fun r i => solve (kkt_matvec_reg n A (mvec Q) ridge) r (Some i)).
Proof.
  intros HP Hr Hs HS Hsig r i Lr Li. assert (HQ := eq_Q _ _ _ _ _ _ HP). assert (HA := eq_A _ _ _ _ _ _ HP).
  assert (HQL := matrix_linear n Q HQ).
  assert (HL := kkt_reg_linear n m (mvec Q) A HQL HA ridge).
  destruct (HS (n + m)%nat _ r (Some i) HL (C33_quasidefinite n m Q c A b ridge HP Hr) Lr Li) as [L E]. split; [exact L|].
  set (u := solve _ _ _) in *. specialize (Hsig u L). assert (HL0 := kkt_linear n m (mvec Q) A HQL HA).
  clearbody u. destruct (split_vec n m u L) as (x & y & -> & L1 & L2).
  rewrite (kkt_reg_app n m) in E by assumption. rewrite kkt_matvec_app in * by assumption.
  assert (LT := T n m Q c A b HP y). assert (LA := MA n m Q c A b HP x). assert (LQ := MQ n m Q c A b HP x).
  set (p := vadd (mvec Q x) (tvec n A y)) in *. assert (Lp : length p = n) by (unfold p; rewrite vadd_length; unfold vec in *; lia).
  set (q := mvec A x) in *.
  assert (Er : vsub r (p ++ q) = smul ridge x ++ smul (- ridge) y).
  { rewrite <- E, vsub_app by (rewrite vadd_length, smul_length; unfold vec in *; lia). f_equal.
    - apply vec_eq_dot; [rewrite vsub_length, vadd_length, smul_length; unfold vec in *; lia|]. intros w. vring.
    - apply vec_eq_dot; [rewrite vsub_length, vadd_length, smul_length; unfold vec in *; lia|]. intros w. vring. }
  rewrite Er.
  assert (Nxy : norm2 (x ++ y) * norm2 (x ++ y) = dot x x + dot y y) by (rewrite norm2_sq; apply dot_app; reflexivity).
  assert (N1 : norm2 (smul ridge x ++ smul (- ridge) y) = ridge * norm2 (x ++ y)).
  { unfold norm2. rewrite !dot_app by reflexivity. autorewrite with vec.
    replace (ridge * (ridge * dot x x) + - ridge * (- ridge * dot y y)) with ((ridge * ridge) * (dot x x + dot y y)) by ring.
    rewrite sqrt_mult_alt by nra. rewrite sqrt_square by lra. reflexivity. }
  rewrite N1. set (N := norm2 (x ++ y)) in *. assert (HN : 0 <= N) by apply norm2_nonneg.
  assert (Hd : 0 < sigma * sigma + ridge * ridge) by nra.
  assert (Hsq : 0 < sqrt (sigma * sigma + ridge * ridge)) by (apply sqrt_lt_R0; exact Hd).
  assert (K : sqrt (sigma * sigma + ridge * ridge) * N <= norm2 r).
  { apply Rsqr_incr_0_var; [|apply norm2_nonneg]. unfold Rsqr.
    replace (sqrt (sigma * sigma + ridge * ridge) * N * (sqrt (sigma * sigma + ridge * ridge) * N)) with ((sqrt (sigma * sigma + ridge * ridge) * sqrt (sigma * sigma + ridge * ridge)) * (N * N)) by ring.
    rewrite sqrt_sqrt by lra. rewrite norm2_sq, <- E, dot_app by reflexivity.
    assert (S0 : sigma * N * (sigma * N) <= norm2 (p ++ q) * norm2 (p ++ q)) by (apply Rmult_le_compat; try exact Hsig; apply Rmult_le_pos; assumption).
    rewrite norm2_sq, dot_app in S0 by reflexivity.
    autorewrite with vec. 
    assert (X : dot p x - dot q y = dot x (mvec Q x)).
    { unfold p, q. rewrite dot_vadd_l, dot_tvec, (dot_comm y), (dot_comm _ x). ring. }
    assert (P := eq_psd _ _ _ _ _ _ HP x L1). rewrite (dot_comm x p), (dot_comm y q). nra. }
  apply (Rmult_le_reg_l (sqrt (sigma * sigma + ridge * ridge))); [exact Hsq|].
  replace (sqrt (sigma * sigma + ridge * ridge) * (ridge / sqrt (sigma * sigma + ridge * ridge) * norm2 r)) with (ridge * norm2 r) by (field; lra).
  apply Rle_trans with (ridge * (sqrt (sigma * sigma + ridge * ridge) * N)); [right; ring|]. apply Rmult_le_compat_l; lra.
Qed.
Theorem C33_refined : forall solve n m Q c A b ridge sigma tol k flat, eqqp_problem n m Q c A b -> 0 < ridge -> 0 <= sigma ->
  exact_on_regular solve -> (0 < k)%nat ->
  (forall u, length u = (n + m)%nat -> sigma * norm2 u <= norm2 (kkt_matvec n A (mvec Q) u)) ->
  let q := ridge / sqrt (sigma * sigma + ridge * ridge) in
  0 <= q <= 1 /\ (0 < sigma -> q < 1) /\
  exists x y, eqqp_run solve n A b (ExplicitQ Q c) ridge tol k None flat = Ok (x, y) /\ length x = n /\ length y = m /\
    let res := norm2 (vadd (vadd (mvec Q x) (tvec n A y)) c ++ vsub (mvec A x) b) in
    (res <= tol \/ res <= q ^ k * norm2 (c ++ b)).
Proof.
  intros solve n m Q c A b ridge sigma tol k flat HP Hr Hs HS Hk Hsig q.
  assert (Hd : 0 < sigma * sigma + ridge * ridge) by nra.
  assert (Hsq : 0 < sqrt (sigma * sigma + ridge * ridge)) by (apply sqrt_lt_R0; exact Hd).
  assert (Hge : ridge <= sqrt (sigma * sigma + ridge * ridge)).
  { rewrite <- (sqrt_square ridge) at 1 by lra. apply sqrt_le_1_alt. nra. }
  assert (Hq : 0 <= q <= 1).
  { unfold q. split; [apply Rmult_le_pos; [lra|]; left; apply Rinv_0_lt_compat; exact Hsq|]. apply (Rmult_le_reg_r (sqrt (sigma * sigma + ridge * ridge))); [exact Hsq|]. unfold Rdiv. rewrite Rmult_assoc, Rinv_l by lra. lra. }
  split; [exact Hq|]. split.
  { intros Hs'. unfold q. apply (Rmult_lt_reg_r (sqrt (sigma * sigma + ridge * ridge))); [exact Hsq|]. unfold Rdiv. rewrite Rmult_assoc, Rinv_l by lra. rewrite Rmult_1_r, Rmult_1_l.
    rewrite <- (sqrt_square ridge) at 1 by lra. apply sqrt_lt_1_alt. nra. }
  assert (HQ := eq_Q _ _ _ _ _ _ HP). assert (HA := eq_A _ _ _ _ _ _ HP). assert (HQL := matrix_linear n Q HQ).
  assert (HL := kkt_linear n m (mvec Q) A HQL HA). assert (Lt := target_len n m Q c A b HP).
  destruct (C43_run (fun f r i => solve f r (Some i)) (kkt_matvec n A (mvec Q)) (Some (kkt_matvec_reg n A (mvec Q) ridge)) (kkt_target b c) (n + m) q tol k HL Lt Hq Hk
     (reg_reduces n m Q c A b ridge sigma solve HP Hr Hs HS Hsig)) as (j & Hj & HRun).
  unfold eqqp_run, extract_Qc. cbv zeta. destruct (Req_EM_T ridge 0) as [E0|_]; [lra|].
  destruct (ir_run _ _ _ _ _ _ _) as [u st] eqn:ER. destruct HRun as (Hit & Haft & Herr & Hor & _). simpl.
  assert (Hcz := C43_contraction_zero (fun f r i => solve f r (Some i)) (kkt_matvec n A (mvec Q)) (Some (kkt_matvec_reg n A (mvec Q) ridge)) (kkt_target b c) (n + m) q HL Lt ltac:(lra)
     (reg_reduces n m Q c A b ridge sigma solve HP Hr Hs HS Hsig) j ltac:(lia)). rewrite <- Haft in Hcz. destruct Hcz as [_ Hcz].
  assert (Hlen : length u = (n + m)%nat).
  { destruct j as [|j]; [lia|]. assert (HC := C43_contraction (fun f r i => solve f r (Some i)) (kkt_matvec n A (mvec Q)) (Some (kkt_matvec_reg n A (mvec Q) ridge)) (kkt_target b c) (n + m) q (vzero (n + m)) HL Lt (vzero_length _) ltac:(lra)
     (reg_reduces n m Q c A b ridge sigma solve HP Hr Hs HS Hsig) j). unfold ir_init_params in Haft. rewrite Lt in Haft. rewrite <- Haft in HC. apply HC. }
  destruct (split_len n m u Hlen) as [L1 L2]. exists (firstn n u), (skipn n u). split; [reflexivity|]. split; [exact L1|]. split; [exact L2|].
  rewrite <- (firstn_skipn n u) in Hor, Hcz. set (x := firstn n u) in *. set (y := skipn n u) in *.
  rewrite kkt_matvec_app in Hor, Hcz by exact L1.
  assert (LT := T n m Q c A b HP y). assert (LA := MA n m Q c A b HP x). assert (LQ := MQ n m Q c A b HP x).
  assert (Lc := eq_c _ _ _ _ _ _ HP). assert (Lb := eq_b _ _ _ _ _ _ HP).
  assert (Eres : norm2 (vsub (kkt_target b c) (vadd (mvec Q x) (tvec n A y) ++ mvec A x)) = norm2 (vadd (vadd (mvec Q x) (tvec n A y)) c ++ vsub (mvec A x) b)).
  { unfold kkt_target. rewrite vsub_app by (rewrite smul_length, vadd_length; unfold vec in *; lia).
    transitivity (norm2 (smul (-1) (vadd (vadd (mvec Q x) (tvec n A y)) c ++ vsub (mvec A x) b))).
    - f_equal. rewrite smul_app. f_equal.
      + apply vec_eq_dot; [rewrite smul_length, vsub_length, !vadd_length, smul_length; unfold vec in *; lia|]. intros w. vring.
      + apply vec_eq_dot; [rewrite smul_length, !vsub_length; unfold vec in *; lia|]. intros w. vring.
    - rewrite norm2_smul. replace (Rabs (-1)) with 1; [ring|]. change (-1) with (- (1)). rewrite Rabs_Ropp, Rabs_R1. reflexivity. }
  assert (Et : norm2 (kkt_target b c) = norm2 (c ++ b)).
  { unfold norm2, kkt_target. f_equal. rewrite !dot_app by reflexivity. autorewrite with vec. ring. }
  rewrite Eres in Hor, Hcz. rewrite Et in Hcz.
  destruct Hor as [Hor|Ejk]; [left; exact Hor|right]. rewrite <- Ejk. exact Hcz.
Qed.
Print Assumptions C33_refined.

(** C33: the [fun] interface.  For a quadratic fun the extracted data are (Q, c), and run returns
    the KKT point of that problem. *)
Theorem C33_fun : forall solve n m Q c A b value g tol k p d, eqqp_problem n m Q c A b -> is_quadratic n value g Q c ->
  independent_rows n m A -> definite_on_kernel n m Q A -> exact_on_regular solve -> length p = n -> length d = m ->
  exists x y, eqqp_run solve n A b (QuadFun value g) 0 tol k (Some (p, d)) true = Ok (x, y) /\ kkt_system n Q c A b x y /\
    mvec A x = b /\ (forall z, length z = n -> mvec A z = b -> value x <= value z) /\
    all_zero (eqqp_optimality n A b (QuadFun value g) x y).
Proof.
  intros solve n m Q c A b value g tol k p d HP (cste & Hv & Hg) HI HD HS Hp Hd.
  assert (HQ := eq_Q _ _ _ _ _ _ HP). assert (HA := eq_A _ _ _ _ _ _ HP). assert (Lc := eq_c _ _ _ _ _ _ HP). assert (Lb := eq_b _ _ _ _ _ _ HP).
  assert (E0 : g (vzero n) = c). { rewrite Hg by apply vzero_length. rewrite mvec_vzero, vadd_vzero_l; [reflexivity|]. rewrite (proj1 HQ). unfold vec in *; lia. }
  unfold eqqp_run, extract_Qc. rewrite Hp, E0. cbv zeta. destruct (Req_EM_T 0 0) as [_|Hc]; [|contradiction Hc; reflexivity].
  set (Qf := fun x => vsub (g x) c).
  assert (EQ : forall x, length x = n -> Qf x = mvec Q x).
  { intros x Hx. unfold Qf. rewrite Hg by exact Hx. assert (LQ := MQ n m Q c A b HP x). apply vec_eq_dot; [rewrite vsub_length, vadd_length; unfold vec in *; lia|]. intros w. vring. }
  assert (EK : forall u, length u = (n + m)%nat -> kkt_matvec n A Qf u = kkt_matvec n A (mvec Q) u).
  { intros u Hu. unfold kkt_matvec. rewrite EQ by apply (split_len n m u Hu). reflexivity. }
  assert (HQL : is_linear n Qf).
  { destruct (matrix_linear n Q HQ) as (I1 & I2 & I3). split; [intros x Hx; rewrite EQ by exact Hx; auto|]. split.
    - intros x z Hx Hz. rewrite !EQ by (try assumption; apply vadd_length_eq; assumption). auto.
    - intros a x Hx. rewrite !EQ by (rewrite ?smul_length; assumption). auto. }
  assert (HL := kkt_linear n m Qf A HQL HA).
  assert (HR : regular_op (n + m) (kkt_matvec n A Qf) None).
  { intros u Hu E. rewrite EK in E by exact Hu. exact (kkt_regular n m Q c A b HP HI HD u Hu E). }
  destruct (HS (n + m)%nat _ (kkt_target b c) (Some (p ++ d)) HL HR (target_len n m Q c A b HP)) as [S1 S2]; [rewrite app_length; unfold vec in *; lia|].
  set (sol := solve _ _ _) in *. rewrite EK in S2 by exact S1. destruct (split_len n m sol S1) as [L1 L2].
  exists (firstn n sol), (skipn n sol). split; [reflexivity|].
  assert (HK : kkt_system n Q c A b (firstn n sol) (skipn n sol)) by (apply (kkt_stack n m Q c A b HP); [exact L1|exact L2|rewrite firstn_skipn; exact S2]).
  split; [exact HK|]. destruct (kkt_min n m Q c A b HP _ _ HK) as (_ & M1 & M2). split; [exact M1|]. split.
  - intros z Hz Ez. rewrite !Hv by assumption. specialize (M2 z Hz Ez). lra.
  - unfold eqqp_optimality, all_zero, kkt_optimality. simpl. rewrite Hg by exact L1. destruct HK as (_ & _ & K1 & K2). split; [|split].
    + intros i. assert (D := f_equal (fun v => nth i v 0) K1). cbv beta in D. rewrite !nth_vadd, nth_vzero in *. lra.
    + intros i. rewrite nth_vsub, K2. ring.
    + intros [|i]; reflexivity.
Qed.
Print Assumptions C33_fun.

(** C33: the error cases: fun needs init_params, and excludes matvec_Q. *)
Theorem C33_errors : forall solve n A b value g reg tol k flat,
  eqqp_run solve n A b (QuadFun value g) reg tol k None flat = Err ValueError /\
  eqqp_construct true true = Err ValueError /\ (forall f q, (f && q)%bool = false -> eqqp_construct f q = Ok tt).
Proof. intros. split; [reflexivity|]. split; [reflexivity|]. intros f q H. unfold eqqp_construct. rewrite H. reflexivity. Qed.
Print Assumptions C33_errors.
(** C33, where the code falls short (1): "supports pytrees and quadratic functions" -- but not both:
    with [fun], variables held in a container always fail. *)
Theorem C33_fun_pytree_refuted : forall solve n A b value g reg tol k init,
  eqqp_run solve n A b (QuadFun value g) reg tol k (Some init) false = Err TypeError.
Proof. intros. destruct init. reflexivity. Qed.
Print Assumptions C33_fun_pytree_refuted.
(** (2): a non-symmetric Q.  The objective 0.5 <x,Qx> + <c,x> is still a convex quadratic, but run
    solves the system with Q itself: for Q = [[1,1],[0,1]] the point (1, 0) solves the system it
    hands to the linear solver on x1 = 1, is not a minimiser, and has a non-zero optimality residual. *)
Theorem C33_nonsymmetric_refuted :
  let Q := [[1; 1]; [0; 1]] in let c := [0; 0] in let A := [[1; 0]] in let b := [1] in
  pos_def 2 Q /\ regular_op 3 (kkt_matvec 2 A (mvec Q)) None /\
  forall solve tol k flat, exact_on_regular solve ->
  exists x y, eqqp_run solve 2 A b (ExplicitQ Q c) 0 tol k None flat = Ok (x, y) /\
    ~ eqqp_solution 2 Q c A b x /\ ~ all_zero (eqqp_optimality 2 A b (ExplicitQ Q c) x y).
Proof.
  intros Q c A b.
  assert (HR : regular_op 3 (kkt_matvec 2 A (mvec Q)) None).
  { intros [|x0 [|x1 [|y [|]]]]; try discriminate. intros _. unfold kkt_matvec, tvec, mvec, vadd, smul, vzero, Q, A; simpl. intros E. injection E; intros E3 E2 E1.
    assert (x0 = 0) by lra. assert (x1 = 0) by lra. assert (y = 0) by lra. subst. reflexivity. }
  split; [|split; [exact HR|]].
  - intros [|x0 [|x1 [|]]]; try discriminate. intros _ Hne. unfold Q, mvec; simpl.
    assert (~ (x0 = 0 /\ x1 = 0)) by (intros [-> ->]; apply Hne; reflexivity).
    assert (P1 := Rle_0_sqr x0). assert (P2 := Rle_0_sqr x1). assert (P3 := Rle_0_sqr (x0 + x1)). unfold Rsqr in *.
    destruct (Req_EM_T x0 0) as [E0|E0].
    + assert (x1 <> 0) by tauto. assert (0 < x1 * x1) by nra. nra.
    + assert (0 < x0 * x0) by nra. nra.
  - intros solve tol k flat HS.
    assert (HQ : mat_shape 2 2 Q) by (split; [reflexivity|repeat constructor]). assert (HA : mat_shape 1 2 A) by (split; [reflexivity|repeat constructor]).
    assert (HL := kkt_linear 2 1 (mvec Q) A (matrix_linear 2 Q HQ) HA).
    destruct (HS 3%nat _ (kkt_target b c) None HL HR eq_refl I) as [S1 S2].
    unfold eqqp_run, extract_Qc. cbv zeta. destruct (Req_EM_T 0 0) as [_|Hc]; [|contradiction Hc; reflexivity].
    set (sol := solve _ _ _) in *. clearbody sol. destruct sol as [|x0 [|x1 [|y [|]]]]; try discriminate.
    unfold kkt_matvec, kkt_target, tvec, mvec, vadd, smul, Q, A, b, c in S2; simpl in S2. injection S2; intros E3 E2 E1.
    assert (x0 = 1) by lra. assert (x1 = 0) by lra. subst. exists [1; 0], [y]. split; [reflexivity|]. split.
    + intros (_ & _ & H). specialize (H [1; -1/2] eq_refl). unfold qp_value, mvec, Q, c, A, b in H; simpl in H.
      assert (H0 : [1 * 1 + (0 * (-1 / 2) + 0)] = [1]) by (f_equal; lra). specialize (H H0). lra.
    + intros (H & _). specialize (H 1%nat). unfold eqqp_optimality, kkt_optimality, tvec, mvec, Q, A, c in H; simpl in H. lra.
Qed.
Print Assumptions C33_nonsymmetric_refuted.

(** C09: projection_affine_set is the Euclidean projection onto {z | Az = b}, whenever the linear
    solver solves its KKT system; it does so for every exact solver when A has independent rows. *)
Lemma eye_problem n m A b x : mat_shape m n A -> length b = m -> length x = n ->
  eqqp_problem n m (eye n) (smul (-1) x) A b.
Proof.
  intros HA Hb Hx. assert (HE := eye_shape n). split; auto; [| |rewrite smul_length; exact Hx].
  - apply (symmetric_adjoint n _ HE). intros u v Hu Hv. rewrite !mvec_eye by assumption. reflexivity.
  - intros v Hv. rewrite mvec_eye by exact Hv. apply dot_self_nonneg.
Qed.
Theorem C09_affine_set_solved : forall solve n m A b x, mat_shape m n A -> length b = m -> length x = n ->
  solved_by solve (kkt_matvec n A (mvec (eye n))) (kkt_target b (smul (-1) x)) None ->
  exists p, projection_affine_set solve n A b x = Ok p /\ is_projection (fun z => length z = n /\ mvec A z = b) x p.
Proof.
  intros solve n m A b x HA Hb Hx HS. assert (HP := eye_problem n m A b x HA Hb Hx).
  destruct (C33_run solve n m _ _ A b (1 / 100000) 10 None true HP HS) as (p & y & E & HK & (Lp & Ep & Hmin) & _).
  exists p. split.
  { unfold projection_affine_set. match goal with |- match ?e with _ => _ end = _ => assert (EE : e = Ok (p, y)) by exact E; rewrite EE; reflexivity end. }
  assert (EV : forall z, length z = n -> dist2 x z = 2 * qp_value (eye n) (smul (-1) x) z + sqnorm x).
  { intros z Hz. unfold qp_value. rewrite mvec_eye by exact Hz. unfold dist2, sqnorm. autorewrite with vec. rewrite (dot_comm z x). field. }
  assert (EX : forall z, length z = n -> mvec A z = b -> dist2 x z = dist2 x p + dist2 z p).
  { intros z Hz Ez. set (d := vsub z p). assert (Ld : length d = n) by (unfold d; rewrite vsub_length; unfold vec in *; lia).
    assert (Ezp : z = vadd p d). { apply vec_eq_dot; [rewrite vadd_length; unfold vec in *; lia|]. intros w. unfold d. vring. }
    rewrite !EV by assumption. rewrite Ezp at 1. rewrite (qp_expand n m _ _ A b HP) by assumption. rewrite (kkt_dot n (eye n) _ A b p y d HK).
    assert (Ed : mvec A d = vzero m). { unfold d. rewrite mvec_vsub, Ez, Ep. apply vec_eq_dot; [rewrite vsub_length, vzero_length; unfold vec in *; lia|]. intros w. autorewrite with vec. ring. }
    rewrite Ed, dot_vzero_r, mvec_eye by exact Ld. unfold dist2, sqnorm. fold d. field. }
  split; [split; assumption|]. split.
  - intros q [Hq Eq]. rewrite (EX q Hq Eq). assert (N := sqnorm_nonneg (vsub q p)). unfold dist2 in *. lra.
  - intros q [Hq Eq] Hle. rewrite (EX q Hq Eq) in Hle. apply dist2_zero; [unfold vec in *; lia|]. assert (N := sqnorm_nonneg (vsub q p)). unfold dist2 in *. lra.
Qed.
Print Assumptions C09_affine_set_solved.
Theorem C09_affine_set : forall solve n m A b x, mat_shape m n A -> length b = m -> length x = n ->
  independent_rows n m A -> exact_on_regular solve ->
  exists p, projection_affine_set solve n A b x = Ok p /\ is_projection (fun z => length z = n /\ mvec A z = b) x p.
Proof.
  intros solve n m A b x HA Hb Hx HI HS. assert (HP := eye_problem n m A b x HA Hb Hx).
  apply (C09_affine_set_solved solve n m); auto.
  assert (HD : definite_on_kernel n m (eye n) A).
  { intros z Hz _ Hne. rewrite mvec_eye by exact Hz. assert (N := dot_self_nonneg z). destruct (Req_EM_T (dot z z) 0) as [E|E]; [contradiction Hne; apply sqnorm_zero_vec; assumption|lra]. }
  assert (HL := kkt_linear n m (mvec (eye n)) A (matrix_linear n _ (eye_shape n)) HA).
  destruct (HS (n + m)%nat _ (kkt_target b (smul (-1) x)) None HL (kkt_regular n m _ _ A b HP HI HD) (target_len n m _ _ A b HP) I) as [S1 S2].
  split; [|exact S2]. rewrite (target_len n m _ _ A b HP). exact S1.
Qed.
Print Assumptions C09_affine_set.

(** Instance: Q = I, one constraint x1 + x2 = 2. *)
Example C33_example : eqqp_problem 2 1 (eye 2) [0; 0] [[1; 1]] [2] /\ independent_rows 2 1 [[1; 1]] /\
  definite_on_kernel 2 1 (eye 2) [[1; 1]] /\ kkt_system 2 (eye 2) [0; 0] [[1; 1]] [2] [1; 1] [-1] /\ exact_on_regular gauss_krylov.
Proof.
  split; [|split; [|split; [|split]]].
  - split; [apply eye_shape| | |split; [reflexivity|repeat constructor]|reflexivity|reflexivity].
    + apply (symmetric_adjoint 2 _ (eye_shape 2)). intros u v Hu Hv. rewrite !mvec_eye by assumption. reflexivity.
    + intros v Hv. rewrite mvec_eye by exact Hv. apply dot_self_nonneg.
  - intros [|y [|]]; try discriminate. intros _ E. unfold tvec, vadd, smul, vzero in E; simpl in E. injection E; intros. unfold vzero; simpl. f_equal. lra.
  - intros z Hz _ Hne. rewrite mvec_eye by exact Hz. assert (N := dot_self_nonneg z). destruct (Req_EM_T (dot z z) 0) as [E|E]; [contradiction Hne; apply sqnorm_zero_vec; assumption|lra].
  - split; [reflexivity|]. split; [reflexivity|]. split; [|unfold mvec; simpl; f_equal; lra]. rewrite mvec_eye by reflexivity. unfold tvec, vadd, smul, vzero; simpl. f_equal; [lra|f_equal; lra].
  - exact C42_example_regular.
Qed.
