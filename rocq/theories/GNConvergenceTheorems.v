(** C72: Gauss-Newton near a solution: quadratic convergence without residual, linear convergence
    with a small residual, divergence with a large one. *)
From Coq Require Import Reals List Lra Lia Bool Arith.
From Verif Require Import Prelude Vec Mat LinAlg LinSolve LinSolveProofs LinSolveTheorems Run FixedPoint FixedPointTheorems GaussNewton GaussNewtonTheorems GNConvergence GNConvergenceProofs.
Import ListNotations.
Open Scope R_scope.

(** One update: the new distance to the solution is at most L/(2s) d^2 + L |r*|/s^2 d. *)
Theorem C72_step : forall cg m n res jac xs rho s L (x : vec) st, exact_on_positive cg -> gn_problem m n res jac xs rho s L -> near n xs rho x ->
  let x' := fst (gn_update cg n res jac (x, st)) in let d := norm2 (vsub x xs) in
  length x' = n /\ norm2 (vsub x' xs) <= L / (2 * s) * d ^ 2 + L * norm2 (res xs) / (s * s) * d.
Proof.
  intros cg m n res jac xs rho s L x st HE HP Hx x' d. destruct (gn_step_bound m n res jac xs rho s L HP cg x st HE Hx) as (L' & _ & B). split; [exact L'|].
  eapply Rle_trans; [exact B|]. unfold gn_rate. fold d. right. ring.
Qed.
Print Assumptions C72_step.
(** Without residual at the solution: quadratic convergence from every point with L d0 < 2 s. *)
Theorem C72_quadratic : forall cg m n res jac xs rho s L (x0 : vec) k, exact_on_positive cg -> gn_problem m n res jac xs rho s L -> near n xs rho x0 ->
  res xs = vzero m -> L / (2 * s) * norm2 (vsub x0 xs) < 1 ->
  L / (2 * s) * norm2 (vsub (gn_iterate cg n res jac x0 k) xs) <= (L / (2 * s) * norm2 (vsub x0 xs)) ^ (2 ^ k).
Proof.
  intros cg m n res jac xs rho s L x0 k HE HP H0 HZ Hq.
  assert (Z : norm2 (res xs) = 0) by (rewrite HZ; apply norm2_zero_iff; rewrite vzero_length; reflexivity).
  assert (Hr : gn_rate s L (norm2 (res xs)) (norm2 (vsub x0 xs)) < 1) by (unfold gn_rate; rewrite Z; unfold Rdiv in *; rewrite Rmult_0_r, Rmult_0_l; lra).
  pose proof (gp_L _ _ _ _ _ _ _ _ HP) as PL. pose proof (gp_s _ _ _ _ _ _ _ _ HP) as Ps.
  assert (Pc : 0 <= L / (2 * s)) by (apply Rmult_le_pos; [lra|left; apply Rinv_0_lt_compat; lra]).
  induction k as [|k IH]; [change (2 ^ 0)%nat with 1%nat; rewrite pow_1; right; reflexivity|].
  destruct (gn_decay m n res jac xs rho s L HP cg x0 k HE H0 Hr) as (N & _).
  set (sk := Nat.iter k (gn_update cg n res jac) (x0, gn_init_state n res jac x0)).
  assert (Es : gn_iterate cg n res jac x0 (S k) = fst (gn_update cg n res jac (gn_iterate cg n res jac x0 k, snd sk))).
  { unfold gn_iterate. simpl Nat.iter. f_equal. f_equal. unfold sk. destruct (Nat.iter k _ _); reflexivity. }
  destruct (C72_step cg m n res jac xs rho s L _ (snd sk) HE HP N) as (_ & B). rewrite <- Es, Z in B.
  set (dk := norm2 (vsub (gn_iterate cg n res jac x0 k) xs)) in *. pose proof (norm2_nonneg (vsub (gn_iterate cg n res jac x0 k) xs)) as Pk. fold dk in Pk.
  set (c := L / (2 * s)) in *. replace (2 ^ S k)%nat with (2 ^ k + 2 ^ k)%nat by (simpl; lia). rewrite pow_add.
  apply Rle_trans with ((c * dk) * (c * dk)).
  - apply Rle_trans with (c * (c * dk ^ 2)); [apply Rmult_le_compat_l; [exact Pc|]|right; ring]. eapply Rle_trans; [exact B|]. right. unfold Rdiv. ring.
  - apply Rmult_le_compat; try exact IH; apply Rmult_le_pos; assumption.
Qed.
Print Assumptions C72_quadratic.
(** With a residual: linear convergence at rate q = L d0/(2s) + L |r*|/s^2 when q < 1. *)
Theorem C72_linear : forall cg m n res jac xs rho s L (x0 : vec) k, exact_on_positive cg -> gn_problem m n res jac xs rho s L -> near n xs rho x0 ->
  let q := gn_rate s L (norm2 (res xs)) (norm2 (vsub x0 xs)) in q < 1 ->
  norm2 (vsub (gn_iterate cg n res jac x0 k) xs) <= q ^ k * norm2 (vsub x0 xs).
Proof. intros cg m n res jac xs rho s L x0 k HE HP H0 q Hq. apply (gn_decay m n res jac xs rho s L HP cg x0 k HE H0 Hq). Qed.
Print Assumptions C72_linear.
(** The solution is the only stationary point at distance d with gn_rate < 1. *)
Theorem C72_unique : forall m n res jac xs rho s L (y : vec), gn_problem m n res jac xs rho s L -> near n xs rho y ->
  gn_rate s L (norm2 (res xs)) (norm2 (vsub y xs)) < 1 -> gn_optimality n res jac y = vzero n -> y = xs.
Proof.
  intros m n res jac xs rho s L y HP Hy Hq HG. set (cg := gauss_krylov). pose proof C42_example_positive as HE. fold cg in HE.
  set (st := gn_init_state n res jac y).
  destruct (gn_step_bound m n res jac xs rho s L HP cg y st HE Hy) as (_ & _ & B).
  pose proof (stationary_error cg m n res jac y st HE (gp_shapes _ _ _ _ _ _ _ _ HP) (proj1 Hy) (near_rank m n res jac xs rho s L HP y Hy) HG) as E.
  pose proof (C46_stationary cg m n res jac y st HE (gp_shapes _ _ _ _ _ _ _ _ HP) (proj1 Hy) (near_rank m n res jac xs rho s L HP y Hy)) as C.
  destruct (gn_update cg n res jac (y, st)) as [y' st']. cbn [fst snd] in *. rewrite (proj2 C E) in B.
  pose proof (norm2_nonneg (vsub y xs)) as P. set (q := gn_rate s L (norm2 (res xs)) (norm2 (vsub y xs))) in *.
  assert (N : norm2 (vsub y xs) = 0). { destruct (Req_dec (norm2 (vsub y xs)) 0); [assumption|]. exfalso. assert (q * norm2 (vsub y xs) < 1 * norm2 (vsub y xs)) by (apply Rmult_lt_compat_r; lra). lra. }
  apply norm2_zero_iff in N. pose proof (gp_len _ _ _ _ _ _ _ _ HP) as Ls. apply vec_ext; [destruct Hy; unfold vec in *; lia|]. intros i Hi.
  assert (E0 : nth i (vsub y xs) 0 = 0) by (rewrite N; apply nth_vzero). rewrite nth_vsub in E0. lra.
Qed.
Print Assumptions C72_unique.
(** run(): with a linear rate q < 1 the run reaches its tolerance after at most N updates as soon as
    (1 + q) q^(N-1) d0 <= tol, and the returned point is within q/(1-q) tol of the solution. *)
Theorem C72_run : forall cg m n res jac xs rho s L (x0 : vec) tol maxiter N, exact_on_positive cg -> gn_problem m n res jac xs rho s L -> near n xs rho x0 ->
  let q := gn_rate s L (norm2 (res xs)) (norm2 (vsub x0 xs)) in q < 1 ->
  (1 <= N <= maxiter)%nat -> (1 + q) * q ^ (N - 1) * norm2 (vsub x0 xs) <= tol ->
  let '(x, st) := gn_run cg n res jac tol maxiter x0 in
  (1 <= gn_iter st <= N)%nat /\ (exists e, gn_error st = Fin e /\ e <= tol) /\ norm2 (vsub x xs) <= q / (1 - q) * tol.
Proof.
  intros cg m n res jac xs rho s L x0 tol maxiter N HE HP H0 q Hq HN Htol. unfold gn_run.
  set (ini := (x0, gn_init_state n res jac x0)). set (it := fun k => Nat.iter k (gn_update cg n res jac) ini).
  pose proof (gp_len _ _ _ _ _ _ _ _ HP) as Ls.
  pose proof (norm2_nonneg (vsub x0 xs)) as P0. pose proof (gn_rate_nonneg m n res jac xs rho s L HP (norm2 (res xs)) _ (norm2_nonneg _) P0) as Pq. fold q in Pq.
  assert (Hit : forall k, gn_iter (snd (it k)) = k).
  { induction k as [|k IH]; [reflexivity|]. unfold it in *. simpl Nat.iter. destruct (Nat.iter k _ _) as [y st]. cbn [snd] in IH. rewrite <- IH at 1. reflexivity. }
  assert (Hk : forall k, let d := norm2 (vsub (fst (it k)) xs) in let d' := norm2 (vsub (fst (it (S k))) xs) in
    d <= q ^ k * norm2 (vsub x0 xs) /\ d' <= q * d /\ exists e, gn_error (snd (it (S k))) = Fin e /\ e <= d + d' /\ d <= e + d').
  { intros k d d'. destruct (gn_decay m n res jac xs rho s L HP cg x0 k HE H0 Hq) as (Nk & Dk & Mk). change (gn_iterate cg n res jac x0 k) with (fst (it k)) in *. fold d in Dk, Mk.
    assert (Es : it (S k) = gn_update cg n res jac (fst (it k), snd (it k))) by (unfold it; simpl Nat.iter; f_equal; destruct (Nat.iter k _ _); reflexivity).
    destruct (gn_step_bound m n res jac xs rho s L HP cg (fst (it k)) (snd (it k)) HE Nk) as (L' & E & B). rewrite <- Es in L', E, B. fold d d' in B.
    split; [exact Dk|]. assert (Pd : 0 <= d) by apply norm2_nonneg. pose proof (gn_rate_mono m n res jac xs rho s L HP (norm2 (res xs)) d (norm2 (vsub x0 xs)) (conj Pd Mk)) as Rm. fold q in Rm.
    split; [eapply Rle_trans; [exact B|apply Rmult_le_compat_r; assumption]|]. eexists. split; [exact E|].
    set (y := fst (it k)) in *. set (y' := fst (it (S k))) in *. pose proof (proj1 Nk) as Ly. split.
    - replace (vsub y y') with (vadd (vsub y xs) (vsub xs y')). { eapply Rle_trans; [apply norm2_triangle|]. unfold d, d'. rewrite (norm_sub_comm xs y') by (unfold vec in *; lia). right. reflexivity. }
      apply vec_ext; [rewrite vadd_length, !vsub_length; unfold vec in *; lia|]. intros i Hi. rewrite nth_vadd, !nth_vsub. ring.
    - unfold d, d'. replace (vsub y xs) with (vadd (vsub y y') (vsub y' xs)). { apply norm2_triangle. }
      apply vec_ext; [rewrite vadd_length, !vsub_length; unfold vec in *; lia|]. intros i Hi. rewrite nth_vadd, !nth_vsub. ring. }
  assert (Hend : forall j, (N <= j)%nat -> exists e, gn_error (snd (it j)) = Fin e /\ e <= tol).
  { intros [|j] Hj; [lia|]. destruct (Hk j) as (D & D' & e & E & E1 & _). exists e. split; [exact E|]. eapply Rle_trans; [exact E1|].
    set (d := norm2 (vsub (fst (it j)) xs)) in *. apply Rle_trans with ((1 + q) * d); [lra|]. eapply Rle_trans; [|exact Htol]. rewrite Rmult_assoc. apply Rmult_le_compat_l; [lra|].
    eapply Rle_trans; [exact D|]. apply Rmult_le_compat_r; [exact P0|]. replace j with ((N - 1) + (j - (N - 1)))%nat by lia. rewrite pow_add.
    rewrite <- (Rmult_1_r (q ^ (N - 1))) at 2. apply Rmult_le_compat_l; [apply pow_le; exact Pq|]. rewrite <- (pow1 (j - (N - 1))). apply pow_incr. lra. }
  destruct (run_loop_spec maxiter (fun s => xgtb (gn_error (snd s)) tol) (gn_update cg n res jac) ini ltac:(lia)) as (k & Hk1 & E & Hc & Hs). rewrite E. fold (it k).
  assert (HkN : (k <= N)%nat).
  { apply Nat.nlt_ge. intros C. specialize (Hc N ltac:(lia)). cbv beta in Hc. fold (it N) in Hc. destruct (Hend N (Nat.le_refl _)) as (e & Ee & He). rewrite Ee in Hc. cbn [xgtb] in Hc. destruct (Rlt_dec tol e); [lra|discriminate]. }
  assert (He : exists e, gn_error (snd (it k)) = Fin e /\ e <= tol).
  { destruct Hs as [->|Hs]; [apply Hend; lia|]. fold (it k) in Hs. destruct k as [|k]; [lia|]. destruct (Hk k) as (_ & _ & e & Ee & _). exists e. split; [exact Ee|]. rewrite Ee in Hs. cbn [xgtb] in Hs. destruct (Rlt_dec tol e); [discriminate|lra]. }
  pose proof (Hit k) as Ik. destruct k as [|k]; [lia|]. destruct (Hk k) as (_ & D' & e' & Ee' & _ & E2). destruct He as (e & Ee & He).
  destruct (it (S k)) as [x st]. cbn [fst snd] in *. split; [lia|]. split; [exists e; auto|]. rewrite Ee in Ee'. injection Ee' as <-.
  set (d := norm2 (vsub (fst (it k)) xs)) in *. set (d' := norm2 (vsub x xs)) in *.
  assert (D1 : (1 - q) * d <= tol) by lra. apply Rmult_le_reg_l with (1 - q); [lra|]. replace ((1 - q) * (q / (1 - q) * tol)) with (q * tol) by (field; lra).
  apply Rle_trans with ((1 - q) * (q * d)); [apply Rmult_le_compat_l; lra|]. replace ((1 - q) * (q * d)) with (q * ((1 - q) * d)) by ring. apply Rmult_le_compat_l; assumption.
Qed.
Print Assumptions C72_run.

(** With a large residual the solver is repelled by the solution.  For the residuals (x + 1, -2x^2 + x - 1),
    whose sum of squares is a strongly convex function with minimiser 0 and whose Jacobian has full
    rank everywhere, every update from 0 < |x| <= 1/20 moves at least 3/2 times as far from the
    minimiser, so every run from such a point leaves this neighbourhood. *)
Lemma hard_step cg a st : exact_on_positive cg -> fst (gn_update cg 1 hard_res hard_jac ([a], st)) = [- a * (2 + a - 4 * a * a) / (1 - 4 * a + 8 * a * a)].
Proof.
  intros HE. assert (HS : residual_shapes 2 1 hard_res hard_jac).
  { intros x Hx. split; [reflexivity|]. split; [reflexivity|]. repeat constructor. }
  assert (HR : full_column_rank 2 1 (hard_jac [a])).
  { split; [apply (HS [a] eq_refl)|]. intros [|v [|]] Hv; try discriminate. cbn. intros E. injection E as E _. replace v with 0 by lra. reflexivity. }
  destruct (gn_step cg 2 1 hard_res hard_jac [a] st HE HS eq_refl HR) as (d & Ld & Ed & E). apply (eq_trans (f_equal fst E)). clear E. destruct d as [|d [|]]; try discriminate. cbn [fst].
  cbn in Ed. injection Ed as Ed. assert (P : 0 < 1 - 4 * a + 8 * a * a) by (pose proof (Rle_0_sqr (4 * a - 1)) as Q; unfold Rsqr in Q; lra).
  cbn. f_equal. apply Rmult_eq_reg_r with (2 * (1 - 4 * a + 8 * a * a)); [|lra]. field_simplify; [|lra]. lra.
Qed.
Theorem C72_large_residual_refuted : forall cg, exact_on_positive cg ->
  (forall a, cost hard_res [a] - cost hard_res [0] = 2 * a ^ 4 - 2 * a ^ 3 + 3 * a ^ 2 /\ (a <> 0 -> cost hard_res [0] < cost hard_res [a])) /\
  (forall x, length x = 1%nat -> full_column_rank 2 1 (hard_jac x)) /\ is_jacobian 2 1 hard_res hard_jac /\
  (forall a st, 0 < Rabs a <= 1 / 20 -> exists b, fst (gn_update cg 1 hard_res hard_jac ([a], st)) = [b] /\ 3 / 2 * Rabs a <= Rabs b) /\
  (forall a, a <> 0 -> exists k b, gn_iterate cg 1 hard_res hard_jac [a] k = [b] /\ 1 / 20 < Rabs b).
Proof.
  intros cg HE.
  assert (HF : forall a, cost hard_res [a] - cost hard_res [0] = 2 * a ^ 4 - 2 * a ^ 3 + 3 * a ^ 2) by (intros a; unfold cost, sqnorm, hard_res; cbn; field).
  assert (HS : forall a st, 0 < Rabs a <= 1 / 20 -> exists b, fst (gn_update cg 1 hard_res hard_jac ([a], st)) = [b] /\ 3 / 2 * Rabs a <= Rabs b).
  { intros a st Ha. rewrite hard_step by exact HE. eexists. split; [reflexivity|].
    assert (B : -1 / 20 <= a <= 1 / 20). { destruct Ha as [_ Ha]. pose proof (Rle_abs a). pose proof (Rle_abs (- a)) as A2. rewrite Rabs_Ropp in A2. lra. }
    assert (Q2 : 0 <= a * a <= 1 / 400) by (split; [apply Rle_0_sqr|]; nra).
    assert (P : 0 < 1 - 4 * a + 8 * a * a) by lra. unfold Rdiv at 2. rewrite !Rabs_mult, Rabs_Ropp, Rabs_inv, (Rabs_pos_eq (1 - 4 * a + 8 * a * a)), (Rabs_pos_eq (2 + a - 4 * a * a)) by lra.
    rewrite Rmult_assoc, (Rmult_comm (3 / 2)). apply Rmult_le_compat_l; [lra|]. apply Rmult_le_reg_r with (1 - 4 * a + 8 * a * a); [exact P|]. replace ((2 + a - 4 * a * a) * / (1 - 4 * a + 8 * a * a) * (1 - 4 * a + 8 * a * a)) with (2 + a - 4 * a * a) by (field; lra). lra. }
  split; [|split; [|split; [|split; [exact HS|]]]].
  - intros a. split; [apply HF|]. intros Ha. pose proof (HF a) as E. assert (P : 0 < a * a) by (apply Rsqr_pos_lt; exact Ha).
    assert (0 < 2 * a ^ 4 - 2 * a ^ 3 + 3 * a ^ 2). { replace (2 * a ^ 4 - 2 * a ^ 3 + 3 * a ^ 2) with (a * a * (2 * (a - 1 / 2) * (a - 1 / 2) + 5 / 2)) by field. apply Rmult_lt_0_compat; [exact P|]. pose proof (Rle_0_sqr (a - 1 / 2)) as Q. unfold Rsqr in Q. lra. } lra.
  - intros x Hx. split; [split; [reflexivity|repeat constructor]|]. intros [|v [|]] Hv; try discriminate. cbn. intros E. injection E as E _. replace v with 0 by lra. reflexivity.
  - intros [|a [|]] [|v [|]] [|w1 [|w2 [|]]] t Hx Hv Hw; try discriminate. unfold hard_res, hard_jac. cbn.
    apply (poly2_deriv _ (w1 * (a + 1) + w2 * (-2 * a * a + a - 1)) (w1 * v + w2 * (-4 * a * v + v)) (w2 * (-2 * v * v))); [intros u; ring|ring].
  - intros a Ha. destruct (Rlt_le_dec (1 / 20) (Rabs a)) as [C|C]; [exists 0%nat, a; split; [reflexivity|exact C]|].
    assert (Pa : 0 < Rabs a) by (apply Rabs_pos_lt; exact Ha).
    assert (G : forall k, (exists j b, gn_iterate cg 1 hard_res hard_jac [a] j = [b] /\ 1 / 20 < Rabs b) \/ exists b, gn_iterate cg 1 hard_res hard_jac [a] k = [b] /\ (3 / 2) ^ k * Rabs a <= Rabs b).
    { induction k as [|k [IH|(b & E & B)]]; [right; exists a; split; [reflexivity|simpl; lra]|left; exact IH|].
      destruct (Rlt_le_dec (1 / 20) (Rabs b)) as [C2|C2]; [left; exists k, b; auto|]. right.
      assert (Pb : 0 < Rabs b) by (assert (0 < (3 / 2) ^ k * Rabs a) by (apply Rmult_lt_0_compat; [apply pow_lt; lra|exact Pa]); lra).
      set (sk := Nat.iter k (gn_update cg 1 hard_res hard_jac) ([a], gn_init_state 1 hard_res hard_jac [a])) in *.
      destruct (HS b (snd sk) (conj Pb C2)) as (c & Ec & Bc). exists c. split.
      - rewrite <- Ec, <- E. unfold gn_iterate. simpl Nat.iter. change (gn_update cg 1 hard_res hard_jac sk = gn_update cg 1 hard_res hard_jac (fst sk, snd sk)) || (change (fst (gn_update cg 1 hard_res hard_jac sk) = fst (gn_update cg 1 hard_res hard_jac (fst sk, snd sk)))). destruct sk; reflexivity.
      - simpl pow. eapply Rle_trans; [|exact Bc]. rewrite Rmult_assoc. apply Rmult_le_compat_l; lra. }
    destruct (Pow_x_infinity (3 / 2) ltac:(rewrite Rabs_pos_eq; lra) (1 / Rabs a)) as [K HK]. specialize (HK K (Nat.le_refl _)). rewrite Rabs_pos_eq in HK by (apply pow_le; lra).
    destruct (G K) as [G'|(b & E & B)]; [exact G'|]. exists K, b. split; [exact E|].
    assert (1 <= (3 / 2) ^ K * Rabs a). { apply Rmult_le_reg_r with (/ Rabs a); [apply Rinv_0_lt_compat; exact Pa|]. rewrite Rmult_assoc, Rinv_r by lra. unfold Rdiv in HK. lra. } lra.
Qed.
Print Assumptions C72_large_residual_refuted.

(** Hypotheses met by r(x) = (x + x^2/4, x), solution 0, rho = 1, s = 1, L = 1/2: zero residual and
    rate 1/4 from every point within 1. *)
Example C72_example : let res := fun x : vec => [nth 0 x 0 + nth 0 x 0 * nth 0 x 0 / 4; nth 0 x 0] in let jac := fun x : vec => [[1 + nth 0 x 0 / 2]; [1]] in
  gn_problem 2 1 res jac [0] 1 1 (1 / 2) /\ res [0] = vzero 2 /\ near 1 [0] 1 [1] /\ exact_on_positive gauss_krylov /\
  gn_rate 1 (1 / 2) (norm2 (res [0])) (norm2 (vsub [1] [0])) = 1 / 4.
Proof.
  intros res jac. assert (N1 : forall a, norm2 [a] = Rabs a). { intros a. unfold norm2. cbn. rewrite Rplus_0_r. apply sqrt_Rsqr_abs. }
  assert (Z : res [0] = vzero 2) by (unfold res; cbn; f_equal; field).
  assert (NZ : norm2 (res [0]) = 0) by (rewrite Z; apply norm2_zero_iff; reflexivity).
  split; [|split; [exact Z|split; [split; [reflexivity|]|split; [exact C42_example_positive|]]]].
  - split; try lra; try reflexivity.
    + intros x Hx. split; [reflexivity|]. split; [reflexivity|repeat constructor].
    + intros [|a [|]] [|v [|]] [|w1 [|w2 [|]]] t Hx Hv Hw; try discriminate. unfold res, jac. cbn.
      apply (poly2_deriv _ (w1 * (a + a * a / 4) + w2 * a) (w1 * (v + a * v / 2) + w2 * v) (w1 * (v * v / 4))); [intros u; field|field].
    + intros [|a [|]] [|v [|]] [Hx _] Hv; try discriminate. rewrite Rmult_1_l, N1. unfold jac. cbn. unfold norm2. rewrite <- sqrt_Rsqr_abs. apply sqrt_le_1_alt. unfold Rsqr. cbn.
      pose proof (Rle_0_sqr ((1 + a / 2) * v + 0)) as Q. unfold Rsqr in Q. lra.
    + intros [|a [|]] [|b [|]] [|v [|]] [Hx _] [Hy _] Hv; try discriminate. unfold jac. cbn. rewrite !N1. unfold norm2. cbn.
      rewrite <- Rabs_pos_eq with (x := 1 / 2) by lra. rewrite <- !Rabs_mult, <- sqrt_Rsqr_abs. apply sqrt_le_1_alt. unfold Rsqr. right. field.
    + unfold gn_optimality, jt_op. rewrite Z. cbn. f_equal. ring.
  - cbn. rewrite N1. replace (1 - 0) with 1 by ring. rewrite Rabs_R1. lra.
  - unfold gn_rate. rewrite NZ. cbn. rewrite N1. replace (1 - 0) with 1 by ring. rewrite Rabs_R1. field.
Qed.
