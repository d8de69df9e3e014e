(** C78: duality of multiclass linear support vector machines, for every data set. *)
From Coq Require Import Reals List Lra Lia Bool Arith.
From Verif Require Import Prelude Vec Mat Proj ProjProofs SimplexTheorems Loss Objective SparseSimplex ProxGrad BlockCD Prox.
From Verif Require Import SparseSimplexProofs ObjectiveProofs ObjectiveTheorems LossProofs BoxSection BoxSectionProofs BlockCDProofs BlockCDTheorems CDConvergenceProofs.
From Verif Require QuasiNewtonProofs.
From Verif Require Import SvmDual SvmDualProofs.
Import ListNotations.
Open Scope R_scope.

(** Every dual point bounds the training problem from below: for any weights W and any feasible
    beta, the negated dual objective is at most the primal objective at W, with the squared
    distance from W to the weights recovered from beta to spare. *)
Theorem C78_weak_duality : forall N p k l2reg X y W beta,
  mat_shape N p X -> length y = N -> 0 < l2reg -> mat_shape p k W -> svm_feasible N k beta ->
  - svm_dual p k l2reg X y beta + l2reg / 2 * fdist2 W (svm_weights p k l2reg X y beta)
    <= svm_primal k l2reg X y W.
Proof.
  intros N p k l2reg X y W beta HX Hy Hr HW Hb.
  pose proof (gap_identity N p k l2reg X y HX Hy Hr W beta HW Hb) as E.
  pose proof (slack_nonneg N p k X y HX Hy N y (mmul k X W) beta Hy (mmul_shape N k p X W HX HW) Hb) as H0.
  unfold fdist2. lra.
Qed.
Print Assumptions C78_weak_duality.

(** A minimiser of the dual objective over the product of simplices yields a solution of the
    training problem, with no gap between the two objectives. *)
Theorem C78_strong_duality : forall N p k l2reg X y beta,
  mat_shape N p X -> length y = N -> 0 < l2reg -> (0 < k)%nat -> svm_dual_optimal N p k l2reg X y beta ->
  svm_primal k l2reg X y (svm_weights p k l2reg X y beta) = - svm_dual p k l2reg X y beta /\
  svm_primal_optimal p k l2reg X y (svm_weights p k l2reg X y beta).
Proof.
  intros N p k l2reg X y beta HX Hy Hr Hk Ho. pose proof (proj1 Ho) as Hb.
  pose proof (optimal_gap N p k l2reg X y HX Hy Hr beta Hk Ho) as E0.
  pose proof (gap_at_weights N p k l2reg X y HX Hy Hr beta Hb) as E1.
  assert (E : svm_primal k l2reg X y (svm_weights p k l2reg X y beta) = - svm_dual p k l2reg X y beta) by lra.
  split; [exact E|]. split.
  - apply (weights_shape N); auto. apply feasible_shape. exact Hb.
  - intros V HV. pose proof (C78_weak_duality N p k l2reg X y V beta HX Hy Hr HV Hb) as H.
    pose proof (mdot_self_nonneg (msub V (svm_weights p k l2reg X y beta))) as Hq. unfold fdist2 in H.
    assert (0 <= l2reg / 2 * mdot (msub V (svm_weights p k l2reg X y beta)) (msub V (svm_weights p k l2reg X y beta))) by (apply Rmult_le_pos; lra).
    lra.
Qed.
Print Assumptions C78_strong_duality.

(** Feasible dual parameters are optimal exactly when the duality gap at the weights recovered
    from them is zero. *)
Theorem C78_gap_zero : forall N p k l2reg X y beta,
  mat_shape N p X -> length y = N -> 0 < l2reg -> (0 < k)%nat -> svm_feasible N k beta ->
  svm_dual_optimal N p k l2reg X y beta <->
  svm_primal k l2reg X y (svm_weights p k l2reg X y beta) + svm_dual p k l2reg X y beta = 0.
Proof.
  intros N p k l2reg X y beta HX Hy Hr Hk Hb. split.
  - intros Ho. destruct (C78_strong_duality N p k l2reg X y beta HX Hy Hr Hk Ho) as [E _]. lra.
  - intros E. split; [exact Hb|]. intros gamma Hg.
    pose proof (C78_weak_duality N p k l2reg X y _ gamma HX Hy Hr (weights_shape N p k l2reg X y HX Hy beta (feasible_shape _ _ _ Hb)) Hg) as H.
    set (W := svm_weights p k l2reg X y beta) in *.
    pose proof (mdot_self_nonneg (msub W (svm_weights p k l2reg X y gamma))) as Hq. unfold fdist2 in H.
    assert (0 <= l2reg / 2 * mdot (msub W (svm_weights p k l2reg X y gamma)) (msub W (svm_weights p k l2reg X y gamma))) by (apply Rmult_le_pos; lra).
    lra.
Qed.
Print Assumptions C78_gap_zero.

(** The duality gap, a computable number, certifies feasible dual parameters: it is non-negative,
    it bounds the excess of both objectives, and the recovered weights are within
    sqrt(2 gap / l2reg) of every solution of the training problem. *)
Theorem C78_certificate : forall N p k l2reg X y beta W,
  mat_shape N p X -> length y = N -> 0 < l2reg -> svm_feasible N k beta -> svm_primal_optimal p k l2reg X y W ->
  let Wb := svm_weights p k l2reg X y beta in
  let gap := svm_primal k l2reg X y Wb + svm_dual p k l2reg X y beta in
  0 <= gap /\
  svm_primal k l2reg X y Wb <= svm_primal k l2reg X y W + gap /\
  (forall gamma, svm_feasible N k gamma -> svm_dual p k l2reg X y beta <= svm_dual p k l2reg X y gamma + gap) /\
  fdist2 W Wb <= 2 * gap / l2reg.
Proof.
  intros N p k l2reg X y beta W HX Hy Hr Hb [HW Ho] Wb gap.
  assert (HWb : mat_shape p k Wb) by (apply (weights_shape N); auto; apply feasible_shape; exact Hb).
  assert (Hnn : forall A, 0 <= l2reg / 2 * fdist2 A Wb) by (intros A; apply Rmult_le_pos; [lra|apply mdot_self_nonneg]).
  pose proof (C78_weak_duality N p k l2reg X y W beta HX Hy Hr HW Hb) as H1. fold Wb in H1.
  pose proof (C78_weak_duality N p k l2reg X y Wb beta HX Hy Hr HWb Hb) as H2. fold Wb in H2.
  pose proof (Ho Wb HWb) as H3. pose proof (Hnn W) as N1. pose proof (Hnn Wb) as N2. unfold gap.
  split; [lra|]. split; [lra|]. split.
  - intros gamma Hg. pose proof (C78_weak_duality N p k l2reg X y Wb gamma HX Hy Hr HWb Hg) as H4.
    assert (0 <= l2reg / 2 * fdist2 Wb (svm_weights p k l2reg X y gamma)) by (apply Rmult_le_pos; [lra|apply mdot_self_nonneg]). lra.
  - apply (Rmult_le_reg_l (l2reg / 2)); [lra|]. fold gap. replace (l2reg / 2 * (2 * gap / l2reg)) with gap by (field; lra). unfold gap. lra.
Qed.
Print Assumptions C78_certificate.

(** Block coordinate descent on the dual, with the projection onto the simplex as block prox, as
    in the test and the example: when l2reg >= 1 and no sample is zero the problem is well
    posed, the optimality function vanishes exactly at the dual solutions, and if a sweep
    reports error 0 then the weights recovered from its result solve the training problem. *)
Theorem C78_block_cd : forall N p k l2reg X y beta0 t beta st beta' st',
  mat_shape N p X -> length y = N -> 1 <= l2reg -> (0 < k)%nat ->
  (forall i, (i < N)%nat -> nth i X [] <> vzero p) ->
  let f := multiclass_linear_svm_dual p k l2reg X (binarized k y) in
  let prox := fun v s => make_prox_from_projection projection_simplex v 1 s in
  mat_shape N k beta0 ->
  Nat.iter t (bcd_update k f prox) (Some (beta0, bcd_init k f beta0)) = Some (beta, st) ->
  bcd_update k f prox (Some (beta, st)) = Some (beta', st') ->
  svm_feasible N k beta' /\
  (all_zero (bcd_optimality_fun k f prox beta') <-> svm_dual_optimal N p k l2reg X y beta') /\
  (bcd_error st' = Fin 0 ->
     svm_primal k l2reg X y (svm_weights p k l2reg X y beta') = - svm_dual p k l2reg X y beta' /\
     svm_primal_optimal p k l2reg X y (svm_weights p k l2reg X y beta')).
Proof.
  intros N p k l2reg X y beta0 t beta st beta' st' HX Hy Hr Hk HX0 f prox Hb0 E0 E1.
  pose proof (binarized_shape N k y Hy) as HY.
  destruct (C32_svm_dual N p k l2reg X (binarized k y) HX HY ltac:(lra)) as (Hconv & _ & Hval). fold f in Hconv, Hval. specialize (Hval Hr).
  destruct (svm_shapes N p k l2reg X (binarized k y) HX HY) as [S1 S2]. fold f in S1, S2.
  assert (HP : bcd_problem p N k f (simplex k 1) (fun _ => 0) prox).
  { split; [|split; [|split; [exact Hval|split]]].
    - split; [exact S1|]. split; [|split; [exact S2|]].
      + intros P HPs. unfold f. simpl. apply msmul_shape', msub_shape'; [exact HPs|]. apply (mmul_shape p k N); [apply mtrans_shape; apply HX|exact HY].
      + unfold f. simpl. unfold lo_column_sq_norms. rewrite map_length, seq_length. apply HX.
    - intros i Hi. unfold f. rewrite (svm_col N p k l2reg X _ HX i Hi).
      apply (QuasiNewtonProofs.sqnorm_pos p); [apply (nth_shape N p X i HX Hi)|apply HX0, Hi].
    - split; [intros x Hx; apply Hx|]. intros x z a (x1 & x2 & x3) (z1 & z2 & z3) Ha. split; [|lra]. split; [|split].
      + rewrite vadd_length, !smul_length, x1, z1. apply Nat.max_id.
      + intros i Hi. rewrite nth_vadd, !nth_smul. specialize (x2 i Hi). specialize (z2 i Hi).
        apply Rplus_le_le_0_compat; apply Rmult_le_pos; lra.
      + transitivity ((1 - a) * vsum x + a * vsum z); [|rewrite x3, z3; ring].
        assert (E : length x = length z) by congruence. clear -E. revert z E.
        induction x as [|u x IH]; intros [|w z] E; simpl in *; try lia; [ring|]. rewrite IH by lia. ring.
    - intros v s Hv Hs. unfold in_dim in Hv. assert (Hne : v <> []) by (intros C; rewrite C in Hv; simpl in Hv; lia).
      pose proof (C06_simplex v 1 Hne ltac:(lra)) as (P1 & P2 & P3). rewrite Hv in *.
      unfold prox, make_prox_from_projection. split; [exact P1|]. intros z Hz. apply Rplus_le_compat_l. unfold Rdiv.
      apply Rmult_le_compat_r; [left; apply Rinv_0_lt_compat; lra|]. rewrite (dist2_comm _ v), (dist2_comm z v). apply P2. exact Hz. }
  destruct (C31_step p N k f (simplex k 1) (fun _ => 0) prox beta0 t HP Hb0) as (x & s1 & x' & s1' & F1 & F2 & _ & F4 & F5 & _).
  rewrite E0 in F1. injection F1 as <- <-. rewrite E1 in F2. injection F2 as <- <-.
  assert (Hf : svm_feasible N k beta') by (split; [apply F4|exact F5]).
  assert (Hobj : forall Z, bcd_objective k f (fun _ => 0) Z = svm_dual p k l2reg X y Z).
  { intros Z. unfold bcd_objective, svm_dual. fold f. assert (vsum (map (fun _ : vec => 0) Z) = 0) as -> by (clear; induction Z as [|z Z IH]; simpl; [reflexivity|rewrite IH; ring]). ring. }
  assert (Hmin : forall Z, bcd_minimiser N k f (simplex k 1) (fun _ => 0) Z <-> svm_dual_optimal N p k l2reg X y Z).
  { intros Z. split.
    - intros (M1 & M2 & M3). split; [split; [apply M1|exact M2]|]. intros G HG. rewrite <- !Hobj. apply M3; [apply feasible_shape; exact HG|apply HG].
    - intros (M1 & M2). split; [apply feasible_shape; exact M1|]. split; [apply M1|]. intros G HG HG'. rewrite !Hobj. apply M2. split; [apply HG|exact HG']. }
  split; [exact Hf|]. split.
  - rewrite <- Hmin. apply (C31_optimality p N k f (simplex k 1) (fun _ => 0) prox beta' HP Hconv F4).
  - intros Ez. destruct (C31_error_zero p N k f (simplex k 1) (fun _ => 0) prox beta0 t beta st beta' st' HP Hb0 E0 E1 Ez) as [_ Hm].
    apply (C78_strong_duality N); auto; [lra|]. apply Hmin. apply Hm. exact Hconv.
Qed.
Print Assumptions C78_block_cd.

(** How far from optimal, from the residual of the optimality function alone: at feasible dual
    parameters the duality gap, hence the excess of the training objective at the recovered
    weights, is at most the sum over the samples of |r_i| (|g_i| + sqrt 2), where r_i is the
    i-th row of the solver's optimality function and g_i the gradient in block i. *)
Theorem C78_residual : forall N p k l2reg X y beta W,
  mat_shape N p X -> length y = N -> 0 < l2reg -> (0 < k)%nat -> svm_feasible N k beta -> mat_shape p k W ->
  let f := multiclass_linear_svm_dual p k l2reg X (binarized k y) in
  let prox := fun v s => make_prox_from_projection projection_simplex v 1 s in
  let bound := vsum (map (fun i => norm2 (nth i (bcd_optimality_fun k f prox beta) [])
                                   * (norm2 (full_grad_block k f beta i) + sqrt 2)) (seq 0 N)) in
  svm_primal k l2reg X y (svm_weights p k l2reg X y beta) + svm_dual p k l2reg X y beta <= bound /\
  svm_primal k l2reg X y (svm_weights p k l2reg X y beta) <= svm_primal k l2reg X y W + bound.
Proof.
  intros N p k l2reg X y beta W HX Hy Hr Hk Hb HW f prox bound. pose proof (feasible_shape _ _ _ Hb) as SB.
  assert (H : svm_primal k l2reg X y (svm_weights p k l2reg X y beta) + svm_dual p k l2reg X y beta <= bound).
  { rewrite (gap_at_weights N p k l2reg X y HX Hy Hr beta Hb).
    pose proof (weights_shape N p k l2reg X y HX Hy beta SB) as HWb.
    assert (HS : mat_shape N k (mmul k X (svm_weights p k l2reg X y beta))) by (apply (mmul_shape N k p); assumption).
    rewrite (slack_seq k N y _ beta Hy (shape_length _ _ _ HS) (proj1 Hb)).
    unfold bound. apply vsum_map_le. intros i Hi. apply in_seq in Hi.
    pose proof (grad_is_scores N p k l2reg X y HX Hy beta i SB ltac:(lia)) as Eg. fold f in Eg.
    assert (Er : nth i (bcd_optimality_fun k f prox beta) [] = vsub (projection_simplex (vsub (nth i beta []) (full_grad_block k f beta i)) 1) (nth i beta [])).
    { unfold bcd_optimality_fun, msub. rewrite vsub_as_vadd.
      assert (Hn : forall A B, length A = length B -> (i < length A)%nat -> nth i (madd A (msmul (-1) B)) [] = vadd (nth i A []) (smul (-1) (nth i B []))).
      { clear. intros A B. revert i B. induction A as [|a A IH]; intros [|i] [|b B] E Hi; simpl in *; try lia; [reflexivity|]. apply IH; lia. }
      rewrite Hn.
      - f_equal. unfold bcd_fixed_point_fun. rewrite (proj1 Hb).
        match goal with |- nth i (map ?g _) _ = _ => rewrite (nth_indep _ [] (g 0%nat)) by (rewrite map_length, seq_length; lia); rewrite (map_nth g) end.
        rewrite seq_nth by lia. reflexivity.
      - unfold bcd_fixed_point_fun. rewrite map_length, seq_length. reflexivity.
      - unfold bcd_fixed_point_fun. rewrite map_length, seq_length, (proj1 Hb). lia. }
    rewrite Er. apply (residual_row k _ _ _ Hk).
    - apply (proj1 (Forall_forall _ _) (proj2 Hb)). apply nth_In. rewrite (proj1 Hb). lia.
    - unfold hscores. rewrite hinge_len. apply (nth_shape N k _ i HS). lia.
    - exact Eg. }
  split; [exact H|].
  pose proof (C78_weak_duality N p k l2reg X y W beta HX Hy Hr HW Hb) as H1.
  assert (0 <= l2reg / 2 * fdist2 W (svm_weights p k l2reg X y beta)) by (apply Rmult_le_pos; [lra|apply mdot_self_nonneg]).
  lra.
Qed.
Print Assumptions C78_residual.

(** Two samples of two classes: x_0 = 1 with label 0 and x_1 = -1 with label 1, l2reg = 8.
    The dual solution gives mass 1 to the wrong class, and W = (1/4, -1/4). *)
Example C78_example :
  let X := [[1]; [-1]] in let y := [0%nat; 1%nat] in let beta := [[0; 1]; [1; 0]] in
  mat_shape 2 1 X /\ length y = 2%nat /\ 0 < 8 /\ svm_feasible 2 2 beta /\
  svm_weights 1 2 8 X y beta = [[/ 4; - / 4]] /\
  svm_dual_optimal 2 1 2 8 X y beta /\
  svm_primal 2 8 X y (svm_weights 1 2 8 X y beta) = 3 / 2 /\
  (forall i, (i < 2)%nat -> nth i X [] <> vzero 1).
Proof.
  intros X y beta.
  assert (HX : mat_shape 2 1 X) by (split; [reflexivity|repeat constructor]).
  assert (Hb : svm_feasible 2 2 beta).
  { split; [reflexivity|]. constructor; [|constructor; [|constructor]]; (split; [reflexivity|split; [|simpl; lra]]); intros [|[|i]] Hi; simpl; lra || lia. }
  assert (EW : svm_weights 1 2 8 X y beta = [[/ 4; - / 4]]).
  { unfold svm_weights, X, y, beta, binarized, one_hot, mtrans, mmul, msub, msmul. simpl. f_equal. f_equal; [lra|f_equal; lra]. }
  assert (EP : svm_primal 2 8 X y (svm_weights 1 2 8 X y beta) = 3 / 2).
  { rewrite EW. unfold svm_primal, X, y, mmul, multiclass_hinge_loss, one_hot. simpl.
    repeat match goal with |- context [Rmax ?a ?b] => unfold Rmax at 1; destruct (Rle_dec a b) end; lra. }
  assert (ED : svm_dual 1 2 8 X y beta = - (3 / 2)).
  { unfold svm_dual, comp_call, lo_matvec, X, y, beta, binarized, one_hot, mtrans, mmul, msub, msmul. simpl. lra. }
  split; [exact HX|]. split; [reflexivity|]. split; [lra|]. split; [exact Hb|]. split; [exact EW|]. split; [|split; [exact EP|]].
  - apply (C78_gap_zero 2 1 2 8 X y beta HX eq_refl ltac:(lra) ltac:(lia) Hb). rewrite EP, ED. lra.
  - intros [|[|i]] Hi; [| |lia]; unfold X, vzero; simpl; intros E; injection E; lra.
Qed.
