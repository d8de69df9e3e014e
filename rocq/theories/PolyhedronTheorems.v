(** C09: projection_polyhedron; example for C37. *)
From Coq Require Import Reals List ZArith Lra Lia Bool Arith.
From Verif Require Import Prelude Vec Mat QuasiNewtonProofs XArith Loop Run Osqp OsqpProofs OsqpConverge OsqpTheorems OsqpInfeasTheorems OsqpConvert OsqpConvertTheorems.
Import ListNotations.
Open Scope R_scope.

Lemma poly_problem m k n A (b : vec) G (h x : vec) : mat_shape m n A -> length b = m -> mat_shape k n G -> length h = k -> length x = n -> (0 < m)%nat -> (0 < k)%nat -> (0 < n)%nat ->
  osqp_problem n (eye n) (smul (-1) x) (Some (A, b)) (Some (G, h)).
Proof.
  intros HA Lb HG Lh Lx Hm Hk Hn. constructor; cbn [rows rhs]; rewrite ?Lb, ?Lh; try assumption.
  - apply eye_shape.
  - apply eye_sym.
  - intros v Lv. rewrite mvec_eye by exact Lv. apply dot_self_nonneg.
  - rewrite smul_length. exact Lx.
  - split; [exact HA|intros _; exact Hm].
  - split; [exact HG|intros _; exact Hk].
  - left. discriminate.
Qed.
(** the multipliers certify the projection *)
Theorem C09_polyhedron_kkt : forall m k n A (b : vec) G (h x : vec) P ye yi, mat_shape m n A -> length b = m -> mat_shape k n G -> length h = k -> length x = n -> (0 < m)%nat -> (0 < k)%nat -> (0 < n)%nat ->
  osqp_kkt n (eye n) (smul (-1) x) (Some (A, b)) (Some (G, h)) P ye yi ->
  is_projection (fun q => length q = n /\ mvec A q = b /\ forall i, (i < k)%nat -> nth i (mvec G q) 0 <= nth i h 0) x P.
Proof.
  intros m k n A b G h x P ye yi HA Lb HG Lh Lx Hm Hk Hn HK. assert (HP := poly_problem m k n A b G h x HA Lb HG Lh Lx Hm Hk Hn).
  assert (HK' := HK). destruct HK' as (LP & L1 & L2 & HF & HS & HC). cbn [rows rhs] in *.
  assert (FK := proj2 (form_kkt n (eye n) (smul (-1) x) _ _ HP P ye yi L1 L2) HK). destruct FK as (_ & _ & FN & FS). cbn [f_A f_l f_u rows rhs] in FN, FS.
  assert (FF := form_feasible n (eye n) (smul (-1) x) _ _ HP). cbn [f_A f_l f_u rows rhs] in FF. unfold osqp_feasible in FF, HF. cbn [rows rhs] in FF, HF. rewrite Lh in FF, HF.
  assert (HAG : mat_shape (m + k) n (A ++ G)) by (split; [rewrite app_length, (proj1 HA), (proj1 HG); reflexivity|apply Forall_app; split; [apply HA|apply HG]]).
  apply (var_ineq_projection _ x P n); [intros q (Lq & _); exact Lq|]. split; [split; [exact LP|exact HF]|].
  - intros q (Lq & Hq). assert (K := proj2 FN (mvec (A ++ G) q) (proj2 (FF q) Hq)). rewrite dot_vsub_r in K.
    assert (E := f_equal (fun v => dot v (vsub q P)) FS). cbv beta in E. rewrite dot_vzero_l, mvec_eye in E by exact LP.
    rewrite dot_vadd_l, dot_vadd_l, dot_smul_l, dot_tvec, mvec_vsub, !dot_vsub_r in E. rewrite dot_vsub_l, !dot_vsub_r. lra.
Qed.
Print Assumptions C09_polyhedron_kkt.

Lemma dot_ge_abs v w t : (forall i, (i < length v)%nat -> Rabs (nth i v 0) <= t) -> 0 <= t -> length v = length w -> - (t * norm1 w) <= dot v w.
Proof. intros H1 H2 H3. assert (K := dot_bound v w t H1 H2 H3). assert (K2 := Rle_abs (- dot v w)). rewrite Rabs_Ropp in K2. lra. Qed.
Lemma ineq_terms (h : vec) : forall (y a b : vec) t, length y = length h -> length a = length h -> length b = length h -> 0 <= t ->
  (forall i, (i < length h)%nat -> 0 <= nth i y 0 /\ (0 < nth i y 0 -> - t <= nth i a 0 - nth i b 0)) -> - (t * norm1 y) <= dot y (vsub a b).
Proof.
  induction h as [|h0 h IH]; intros [|y0 y] [|a0 a] [|b0 b] t L1 L2 L3 Ht H; try discriminate; [unfold norm1; simpl; lra|].
  assert (K := IH y a b t ltac:(simpl in *; lia) ltac:(simpl in *; lia) ltac:(simpl in *; lia) Ht (fun i Hi => H (S i) ltac:(simpl; lia))). destruct (H 0%nat ltac:(simpl; lia)) as [H1 H2]. cbn [nth] in H1, H2.
  unfold norm1 in *. cbn [map vsub dot]. change (vsum (Rabs y0 :: map Rabs y)) with (Rabs y0 + vsum (map Rabs y)). rewrite (Rabs_right y0) by lra.
  assert (y0 = 0 \/ 0 < y0) as [->|Hy] by lra; [lra|]. specialize (H2 Hy). assert (0 <= y0 * (a0 - b0 + t)) by (apply Rmult_le_pos; lra). lra.
Qed.
(** When the solver stops with status SOLVED (tol = 1e-3), the value returned violates no constraint by
    more than tol and its distance to the projection P is bounded by tol and the size of the multipliers. *)
Theorem C09_polyhedron : forall m k n A (b : vec) G (h x : vec) eps_div lin_solve check sol st,
  mat_shape m n A -> length b = m -> mat_shape k n G -> length h = k -> length x = n -> (0 < m)%nat -> (0 < k)%nat -> (0 < n)%nat -> (forall M r p b, length (lin_solve M r p b) = n) ->
  osqp_run n (eye n) (smul (-1) x) eps_div lin_solve (polyhedron_config check true) None (Some (A, b)) (Some (G, h)) = Ok (sol, st) -> o_status st = SOLVED ->
  exists y ye yi, projection_polyhedron eps_div lin_solve x A b G h check = Ok (fin y) /\ length y = n /\
    (forall i, (i < m)%nat -> Rabs (nth i (mvec A y) 0 - nth i b 0) <= 1 / 1000) /\ (forall i, (i < k)%nat -> nth i (mvec G y) 0 <= nth i h 0 + 1 / 1000) /\
    forall P yes yis, osqp_kkt n (eye n) (smul (-1) x) (Some (A, b)) (Some (G, h)) P yes yis ->
      dist2 y P <= 1 / 1000 * (norm1 (vsub y P) + norm1 ye + norm1 yi + norm1 yes + norm1 yis).
Proof.
  intros m k n A b G h x eps_div lin_solve check sol st HA Lb HG Lh Lx Hm Hk Hn HL E Hs. assert (HP := poly_problem m k n A b G h x HA Lb HG Lh Lx Hm Hk Hn).
  destruct (C37_solved n (eye n) (smul (-1) x) _ _ eps_div lin_solve (polyhedron_config check true) None sol st HP HL) as (y & ye & yi & E1 & _ & _ & Ly & L1 & L2 & R1 & R2 & R3 & _); try assumption; [simpl; lra|exact I|].
  cbn [rows rhs] in *. change (osqp_tol (polyhedron_config check true)) with (1 / 1000) in *. rewrite L1, Lb in R1. rewrite L2, Lh in R2.
  exists y, ye, yi. split. { unfold projection_polyhedron. cbv zeta. rewrite Lx.
 rewrite E, Hs, andb_false_r, E1. reflexivity. }
  split; [exact Ly|]. split; [exact R1|]. split; [intros i Hi; apply R2; exact Hi|].
  intros P yes yis (LP & K1 & K2 & [F1 F2] & S & C). cbn [rows rhs] in *. rewrite Lh in F2. rewrite K2, Lh in C.
  set (t := 1 / 1000) in *. assert (Ht : 0 <= t) by (unfold t; lra). set (d := vsub y P). assert (Ld : length d = n) by (apply vsub_length_eq; assumption).
  assert (LAy : length (mvec A y) = m) by (rewrite mvec_length; apply HA). assert (LGy : length (mvec G y) = k) by (rewrite mvec_length; apply HG). assert (LGP : length (mvec G P) = k) by (rewrite mvec_length; apply HG).
  set (s := vadd (vadd (mvec (eye n) y) (smul (-1) x)) (vadd (tvec n A ye) (tvec n G yi))) in *.
  assert (Ls : length s = n) by (unfold s; rewrite !vadd_length, mvec_length, smul_length, (tvec_length m), (tvec_length k), (proj1 (eye_shape n)) by assumption; unfold vec in *; lia).
  assert (Ss : dot s d <= t * norm1 d) by (eapply Rle_trans; [apply Rle_abs|]; apply dot_bound; [rewrite Ls; exact R3|exact Ht|congruence]).
  assert (E2 := f_equal (fun v => dot v d) S). cbv beta in E2. rewrite dot_vzero_l, mvec_eye, !dot_vadd_l, dot_smul_l, !dot_tvec in E2 by exact LP.
  unfold s in Ss. rewrite mvec_eye, !dot_vadd_l, dot_smul_l, !dot_tvec in Ss by exact Ly.
  assert (Ea : mvec A d = vsub (mvec A y) b) by (unfold d; rewrite mvec_vsub, F1; reflexivity). assert (Eg : mvec G d = vsub (mvec G y) (mvec G P)) by (unfold d; apply mvec_vsub). rewrite Ea, Eg in Ss, E2.
  assert (Rv : forall i, (i < length (vsub (mvec A y) b))%nat -> Rabs (nth i (vsub (mvec A y) b) 0) <= t) by (intros i; rewrite vsub_length, nth_vsub; intros Hi; apply R1; unfold vec in *; lia).
  assert (Lv : length (vsub (mvec A y) b) = m) by (apply vsub_length_eq; assumption).
  assert (T1 := dot_ge_abs _ ye t Rv Ht ltac:(unfold vec in *; lia)). assert (T2 := dot_bound _ yes t Rv Ht ltac:(unfold vec in *; lia)). assert (T2' := Rle_abs (dot (vsub (mvec A y) b) yes)).
  rewrite (dot_comm ye) in Ss. rewrite (dot_comm yes) in E2.
  assert (T3 := ineq_terms h yi (mvec G y) (mvec G P) t ltac:(unfold vec in *; lia) ltac:(unfold vec in *; lia) ltac:(unfold vec in *; lia) Ht).
  assert (T4 := ineq_terms h yis (mvec G P) (mvec G y) t ltac:(unfold vec in *; lia) ltac:(unfold vec in *; lia) ltac:(unfold vec in *; lia) Ht).
  lapply T3; [clear T3; intros T3|]. 2:{ intros i Hi. rewrite Lh in Hi. destruct (R2 i Hi) as (_ & Y1 & Y2). split; [exact Y1|]. intros Y3. specialize (Y2 Y3). specialize (F2 i Hi). lra. }
  lapply T4; [clear T4; intros T4|]. 2:{ intros i Hi. rewrite Lh in Hi. destruct (C i Hi) as (Y1 & Y2). destruct (R2 i Hi) as (Y0 & _). split; [exact Y1|]. intros Y3. assert (nth i h 0 - nth i (mvec G P) 0 = 0) by (apply Rmult_integral in Y2; lra). lra. }
  assert (E4 : dot yis (vsub (mvec G P) (mvec G y)) = - dot yis (vsub (mvec G y) (mvec G P))) by (rewrite !dot_vsub_r; ring). rewrite E4 in T4.
  assert (ED : dist2 y P = dot y d - dot P d) by (unfold dist2, sqnorm; fold d; unfold d at 1; rewrite dot_vsub_l; reflexivity). rewrite ED. lra.
Qed.
Print Assumptions C09_polyhedron.

(** The default check_feasible=True rejects non-empty polyhedra: projecting the origin onto any polyhedron
    that contains it raises "The polyhedron is empty.", while check_feasible=False returns it. *)
Theorem C09_polyhedron_refuted : forall m k n A G (h : vec) eps_div lin_solve,
  mat_shape m n A -> mat_shape k n G -> length h = k -> (0 < m)%nat -> (0 < k)%nat -> (0 < n)%nat -> (forall i, (i < k)%nat -> 0 <= nth i h 0) ->
  (forall M, mat_shape (m + k) n M -> lin_exact n (eye n) M (1 / 1000000) (lin_solve M)) ->
  is_projection (fun q => length q = n /\ mvec A q = vzero m /\ forall i, (i < k)%nat -> nth i (mvec G q) 0 <= nth i h 0) (vzero n) (vzero n) /\
  projection_polyhedron eps_div lin_solve (vzero n) A (vzero m) G h false = Ok (fin (vzero n)) /\
  projection_polyhedron eps_div lin_solve (vzero n) A (vzero m) G h true = Err ValueError.
Proof.
  intros m k n A G h eps_div lin_solve HA HG Lh Hm Hk Hn Hh HE.
  assert (HP := poly_problem m k n A (vzero m) G h (vzero n) HA (vzero_length m) HG Lh (vzero_length n) Hm Hk Hn).
  assert (Z : smul (-1) (vzero n) = vzero n) by (apply vec_ext; [rewrite smul_length; reflexivity|intros i _; rewrite nth_smul, nth_vzero; ring]).
  assert (HK : osqp_kkt n (eye n) (smul (-1) (vzero n)) (Some (A, vzero m)) (Some (G, h)) (vzero n) (vzero m) (vzero k)).
  { unfold osqp_kkt, osqp_feasible. cbn [rows rhs]. rewrite !vzero_length, Z, mvec_eye, (mvec_zero m n A HA), (mvec_zero k n G HG) by apply vzero_length. rewrite (tvec_vzero n A m), (tvec_vzero n G k) by (apply HA || apply HG).
    repeat split; try (symmetry; exact Lh); try assumption.
    - intros i Hi. rewrite nth_vzero. apply Hh. congruence.
    - apply vec_ext; [rewrite !vadd_length, !vzero_length; lia|]. intros i _. rewrite !nth_vadd by (rewrite ?vadd_length, ?vzero_length; lia). rewrite !nth_vzero. ring.
    - rewrite nth_vzero. lra.
    - rewrite !nth_vzero. ring.
 }
  split; [apply (C09_polyhedron_kkt m k n A (vzero m) G h (vzero n) (vzero n) (vzero m) (vzero k)); try assumption; apply vzero_length|].
  assert (LA : mat_shape (m + k) n (A ++ G)) by (split; [rewrite app_length, (proj1 HA), (proj1 HG); reflexivity|apply Forall_app; split; [apply HA|apply HG]]).
  assert (GO : forall c, good_options (polyhedron_config c true)) by (intros c; unfold good_options; simpl; repeat split; lra || lia).
  assert (ST : forall cfg, osqp_run n (eye n) (smul (-1) (vzero n)) eps_div lin_solve cfg None (Some (A, vzero m)) (Some (G, h)) =
    osqp_run n (eye n) (smul (-1) (vzero n)) eps_div lin_solve cfg (Some {| q_primal := fin (vzero n); q_dual_eq := present (Some (A, vzero m)) (fin (vzero m)); q_dual_ineq := present (Some (G, h)) (fin (vzero k)) |}) (Some (A, vzero m)) (Some (G, h))).
  { intros cfg. rewrite (start_default n _ _ _ _ eps_div lin_solve cfg HP). cbn [rhs]. rewrite vzero_length, Lh, !fin_zero. reflexivity. }
  unfold projection_polyhedron. cbv zeta. rewrite vzero_length, !ST. split.
  - destruct (C37_fixed_point n (eye n) (smul (-1) (vzero n)) _ _ eps_div lin_solve (polyhedron_config false true) (vzero n) (vzero m) (vzero k) HP (HE _ LA) eq_refl (GO false) ltac:(simpl; lia) HK) as (st & E & _).
    rewrite E. reflexivity.
  - destruct (xsplit n _ _ _ _ (fin (vzero m)) (fin (vzero k)) HP ltac:(cbn [rhs]; apply fin_length) ltac:(cbn [rhs]; rewrite fin_length, vzero_length; congruence)) as [T T2].
    assert (FP := form_problem n _ _ _ _ HP). cbn [f_A f_l f_u] in FP.
    assert (FK := proj2 (form_kkt n _ _ _ _ HP (vzero n) (vzero m) (vzero k) ltac:(reflexivity) ltac:(cbn [rhs]; rewrite vzero_length; congruence)) HK). cbn [f_A f_l f_u] in FK.
    assert (W := C36_warm_start_refuted _ n _ _ _ _ _ eps_div (lin_solve (A ++ G)) (polyhedron_config true true) (full_kkt (fin (vzero n)) (xmvec (finm (A ++ G)) (fin (vzero n))) (fin (vzero m) ++ fin (vzero k))) (vzero n) (vzero m ++ vzero k) FP (HE _ LA) eq_refl (GO true) ltac:(simpl; lia) FK eq_refl).
    cbn [bz by_ full_kkt] in W. specialize (W ltac:(apply xmvec_fin) ltac:(apply fin_app')). change (osqp_jit (polyhedron_config true true)) with true in W. cbv iota in W. destruct W as (st' & E & Es).
    unfold osqp_run. rewrite T2. cbn [f_A f_l f_u rows rhs]. unfold box_run. cbn [rows rhs] in E. rewrite E, Es. reflexivity.
Qed.
Print Assumptions C09_polyhedron_refuted.

(** Beside C37 and C09: x1 + x2 = 1, x1 <= 1/4, projecting (1, 1): the solution is (1/4, 3/4). *)
Definition px_A : mat := [[1; 1]].
Definition px_G : mat := [[1; 0]].
Example C37_example : osqp_problem 2 (eye 2) [-1; -1] (Some (px_A, [1])) (Some (px_G, [1 / 4])) /\
  osqp_kkt 2 (eye 2) [-1; -1] (Some (px_A, [1])) (Some (px_G, [1 / 4])) [1 / 4; 3 / 4] [1 / 4] [1 / 2] /\
  exists st, osqp_run 2 (eye 2) [-1; -1] (1 / 1000000) (fun M => gauss_lin 2 (eye 2) M (1 / 1000000)) (polyhedron_config false true)
    (Some {| q_primal := fin [1 / 4; 3 / 4]; q_dual_eq := Some (fin [1 / 4]); q_dual_ineq := Some (fin [1 / 2]) |}) (Some (px_A, [1])) (Some (px_G, [1 / 4])) =
    Ok ({| q_primal := fin [1 / 4; 3 / 4]; q_dual_eq := Some (fin [1 / 4]); q_dual_ineq := Some (fin [1 / 2]) |}, st) /\ o_status st = SOLVED.
Proof.
  assert (HP : osqp_problem 2 (eye 2) [-1; -1] (Some (px_A, [1])) (Some (px_G, [1 / 4]))).
  { replace [-1; -1] with (smul (-1) [1; 1]) by (simpl; vcons; try reflexivity; lra). apply (poly_problem 1 1); try reflexivity; try lia; split; try reflexivity; repeat constructor. }
  assert (HK : osqp_kkt 2 (eye 2) [-1; -1] (Some (px_A, [1])) (Some (px_G, [1 / 4])) [1 / 4; 3 / 4] [1 / 4] [1 / 2]).
  { unfold osqp_kkt, osqp_feasible. cbn [rows rhs]. rewrite mvec_eye by reflexivity. unfold px_A, px_G, vzero. repeat split; try reflexivity.
    - simpl. vcons; try reflexivity; lra.
    - intros [|i] Hi; [simpl; lra|simpl in Hi; lia].
    - simpl. vcons; try reflexivity; lra.
    - destruct i; [simpl; lra|simpl in *; lia].
    - destruct i; [simpl; lra|simpl in *; lia]. }
  split; [exact HP|]. split; [exact HK|].
  assert (GL : lin_exact 2 (eye 2) (px_A ++ px_G) (1 / 1000000) (gauss_lin 2 (eye 2) (px_A ++ px_G) (1 / 1000000))) by (apply (gauss_lin_exact _ 2 (eye 2) [-1; -1] _ _ _ _ (form_problem 2 (eye 2) [-1; -1] _ _ HP)); lra).
  destruct (C37_fixed_point 2 (eye 2) [-1; -1] _ _ (1 / 1000000) (fun M => gauss_lin 2 (eye 2) M (1 / 1000000)) (polyhedron_config false true) _ _ _ HP GL eq_refl ltac:(unfold good_options; simpl; repeat split; lra || lia) ltac:(simpl; lia) HK) as (st & E & Es & _).
  exists st. split; [exact E|exact Es].
Qed.
