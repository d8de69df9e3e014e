(** Theorems for C83: what l2_optimality_error of the quadratic programming solvers says about its argument. *)
From Coq Require Import Reals List Bool Arith ZArith Lra Lia.
From Verif Require Import Prelude Vec Mat XArith Kkt KktTheorems EqQP EqQPProofs EqQPTheorems LinAlg Osqp OsqpProofs OsqpTheorems OsqpConvert OsqpConvertTheorems LinOp OsqpOptimalityTheorems QpError QpErrorProofs.
Import ListNotations.
Open Scope R_scope.

(** EqualityConstrainedQP: the error is the norm of the residual of the KKT system; it is 0 exactly at the KKT points, and x
    minimises the objective over A x = b exactly when some y makes it 0. *)
Theorem C83_eqqp : forall n m Q c A b x y, eqqp_problem n m Q c A b -> length x = n -> length y = m ->
  eqqp_l2_error n A b (ExplicitQ Q c) x y = sqrt (sqnorm (vadd (vadd (mvec Q x) c) (tvec n A y)) + sqnorm (vsub (mvec A x) b)) /\
  (eqqp_l2_error n A b (ExplicitQ Q c) x y = 0 <-> EqQP.kkt_system n Q c A b x y) /\
  (eqqp_solution n Q c A b x <-> exists y', length y' = m /\ eqqp_l2_error n A b (ExplicitQ Q c) x y' = 0).
Proof.
  intros n m Q c A b x y HP Hx Hy.
  assert (Z : forall y', length y' = m -> (eqqp_l2_error n A b (ExplicitQ Q c) x y' = 0 <-> EqQP.kkt_system n Q c A b x y')).
  { intros y' Hy'. unfold eqqp_l2_error. rewrite l2_zero. apply (C33_optimality n m); assumption. }
  split; [|split; [apply Z; exact Hy|]].
  - unfold eqqp_l2_error, kkt_l2_norm. rewrite (C33_residual n m) by assumption. cbn [primal dual_eq dual_ineq ovec]. unfold norm2. rewrite app_nil_r, sq_app. reflexivity.
  - rewrite (C33_kkt_iff_minimiser n m) by exact HP. split.
    + intros [y' K]. assert (L : length y' = m) by (destruct K as (_ & L & _); rewrite L; apply HP). exists y'. split; [exact L|]. apply Z; assumption.
    + intros (y' & L & K). exists y'. apply Z; assumption.
Qed.
Print Assumptions C83_eqqp.

(** The error bounds the distance to the solution and to its multipliers. *)
Theorem C83_eqqp_distance : forall n m Q c A b mu M s x y xs ys, eqqp_problem n m Q c A b -> 0 < mu -> 0 <= M -> 0 < s ->
  strongly_convex_matrix n mu Q -> bounded_matrix n M Q -> rows_bounded_below n m s A ->
  length x = n -> length y = m -> EqQP.kkt_system n Q c A b xs ys ->
  let e := eqqp_l2_error n A b (ExplicitQ Q c) x y in let K := eqqp_primal_constant mu M s in
  norm2 (vsub x xs) <= K * e /\ norm2 (vsub y ys) <= (1 + M * K) / s * e.
Proof.
  intros n m Q c A b mu M s x y xs ys HP Hmu HM Hs HQ HB HA Hx Hy (Lxs & Lys & E1 & E2) e K.
  destruct (C83_eqqp n m Q c A b x y HP Hx Hy) as (Ee & _). fold e in Ee.
  set (r1 := vadd (vadd (mvec Q x) c) (tvec n A y)) in *. set (r2 := vsub (mvec A x) b) in *.
  assert (Lb := eq_b _ _ _ _ _ _ HP). assert (Lc := eq_c _ _ _ _ _ _ HP). assert (HA' := eq_A _ _ _ _ _ _ HP). assert (HQ' := eq_Q _ _ _ _ _ _ HP).
  set (dx := vsub x xs). set (dy := vsub y ys).
  assert (Ldx : length dx = n) by (unfold dx; rewrite vsub_length; unfold vec in *; lia). assert (Ldy : length dy = m) by (unfold dy; rewrite vsub_length; unfold vec in *; lia).
  assert (LQ : forall v, length (mvec Q v) = n) by (intros v; rewrite mvec_length; apply HQ'). assert (LT : forall v, length (tvec n A v) = n) by (intros v; apply (tvec_length m); exact HA').
  assert (R1 : r1 = vadd (mvec Q dx) (tvec n A dy)).
  { apply vec_eq_dot; [unfold r1; rewrite !vadd_length, !LQ, !LT; lia|]. intros w. unfold r1. rewrite !dot_vadd_l, !dot_tvec.
    assert (D := f_equal (fun v => dot v w) E1). cbv beta in D. rewrite !dot_vadd_l, dot_tvec, dot_vzero_l in D.
    unfold dx, dy. rewrite (mvec_vsub Q x xs), !dot_vsub_l. lra. }
  assert (R2 : r2 = mvec A dx). { unfold r2, dx. rewrite mvec_vsub, E2. reflexivity. }
  assert (He0 : 0 <= e) by (rewrite Ee; apply sqrt_pos).
  assert (S2 : e * e = sqnorm r1 + sqnorm r2) by (rewrite Ee; apply sqrt_sqrt; assert (P1 := sqnorm_nonneg r1); assert (P2 := sqnorm_nonneg r2); lra).
  assert (N1 : norm2 r1 <= e) by (apply norm2_le_sq; [exact He0|]; rewrite S2; assert (P2 := sqnorm_nonneg r2); unfold sqnorm in *; lra).
  assert (N2 : norm2 r2 <= e) by (apply norm2_le_sq; [exact He0|]; rewrite S2; assert (P2 := sqnorm_nonneg r1); unfold sqnorm in *; lra).
  set (d := norm2 dx). assert (Hd : 0 <= d) by apply norm2_nonneg. assert (Dd : d * d = dot dx dx) by apply norm2_sq.
  assert (Dy : norm2 dy <= (e + M * d) / s).
  { apply Rmult_le_reg_l with s; [exact Hs|]. replace (s * ((e + M * d) / s)) with (e + M * d) by (field; lra). eapply Rle_trans; [apply HA; exact Ldy|].
    assert (Et : tvec n A dy = vadd r1 (smul (-1) (mvec Q dx))). { apply vec_eq_dot; [rewrite R1, !vadd_length, smul_length, !LQ, !LT; lia|]. intros w. rewrite R1, !dot_vadd_l, dot_smul_l. ring. }
    rewrite Et. eapply Rle_trans; [apply norm2_triangle|]. rewrite norm2_smul, Rabs_left by lra. assert (B := HB dx Ldx). fold d in B. lra. }
  assert (Q1 : mu * (d * d) <= d * e + norm2 dy * e).
  { rewrite Dd. eapply Rle_trans; [apply HQ; exact Ldx|].
    assert (Eq : dot dx (mvec Q dx) = dot dx r1 - dot dy r2). { rewrite R1, R2, dot_vadd_r, (dot_comm dx (tvec n A dy)), dot_tvec. ring. }
    rewrite Eq. assert (C1 := dot_abs_le_norm dx r1). assert (C2 := dot_abs_le_norm dy r2). fold d in C1.
    assert (B1 := Rle_abs (dot dx r1)). assert (B2 : - dot dy r2 <= Rabs (dot dy r2)) by (rewrite <- Rabs_Ropp; apply Rle_abs).
    assert (M1 : d * norm2 r1 <= d * e) by (apply Rmult_le_compat_l; assumption). assert (M2 : norm2 dy * norm2 r2 <= norm2 dy * e) by (apply Rmult_le_compat_l; [apply norm2_nonneg|assumption]). lra. }
  set (k := 1 + M / s). assert (Hk : 0 <= k) by (unfold k; assert (0 <= M / s) by (apply Rmult_le_pos; [exact HM|left; apply Rinv_0_lt_compat; exact Hs]); lra).
  assert (Q2 : mu * (d * d) <= d * e * k + e * e / s).
  { eapply Rle_trans; [exact Q1|]. assert (M3 : norm2 dy * e <= (e + M * d) / s * e) by (apply Rmult_le_compat_r; assumption). replace (d * e * k + e * e / s) with (d * e + (e + M * d) / s * e) by (unfold k; field; lra). lra. }
  assert (Q3 : d * d <= e * e * (k * k / (mu * mu) + 2 / (mu * s))).
  { assert (G : 0 <= (mu * d - k * e) * (mu * d - k * e)) by apply Rle_0_sqr.
    apply Rmult_le_reg_l with (mu * mu); [apply Rmult_lt_0_compat; exact Hmu|].
    replace (mu * mu * (e * e * (k * k / (mu * mu) + 2 / (mu * s)))) with (k * k * (e * e) + 2 * mu * (e * e / s)) by (field; lra).
    assert (Q4 : mu * (mu * (d * d)) <= mu * (d * e * k + e * e / s)) by (apply Rmult_le_compat_l; [lra|exact Q2]). lra. }
  assert (HK0 : 0 <= K) by apply sqrt_pos.
  assert (KK : K * K = k * k / (mu * mu) + 2 / (mu * s)).
  { unfold K, eqqp_primal_constant. fold k. apply sqrt_sqrt. assert (0 <= k * k / (mu * mu)) by (apply Rmult_le_pos; [apply Rmult_le_pos; assumption|left; apply Rinv_0_lt_compat, Rmult_lt_0_compat; exact Hmu]). assert (0 < 2 / (mu * s)) by (apply Rdiv_lt_0_compat; [lra|apply Rmult_lt_0_compat; assumption]). lra. }
  assert (G1 : d <= K * e). { apply norm2_le_sq; [apply Rmult_le_pos; assumption|]. rewrite <- Dd. replace (K * e * (K * e)) with (e * e * (K * K)) by ring. rewrite KK. exact Q3. }
  split; [exact G1|]. eapply Rle_trans; [exact Dy|]. apply Rmult_le_reg_l with s; [exact Hs|]. replace (s * ((e + M * d) / s)) with (e + M * d) by (field; lra). replace (s * ((1 + M * K) / s * e)) with (e + M * (K * e)) by (field; lra).
  assert (M * d <= M * (K * e)) by (apply Rmult_le_compat_l; assumption). lra.
Qed.
Print Assumptions C83_eqqp_distance.

Lemma inf_le v e t : is_inf_norm v e -> e <= t -> forall i, (i < length v)%nat -> nth i v 0 * nth i v 0 <= t * t.
Proof. intros [H _] Ht i Hi. assert (K := H i Hi). rewrite <- (Rabs_pos_eq (nth i v 0 * nth i v 0)) by apply Rle_0_sqr. rewrite Rabs_mult. apply Rmult_le_compat; try apply Rabs_pos; lra. Qed.

(** BoxOSQP: when run stops with status SOLVED, the error of the parameters it returns is at most sqrt(n + m) tol: the two
    residuals are within tol, and the other parts of the KKT residual are exactly 0. *)
Theorem C83_box_solved : forall m n Q c A l u eps_div lin_solve cfg p p' st',
  qp_problem m n Q c A l u -> (forall r p b, length (lin_solve r p b) = n) -> 0 < rho_start cfg /\ 0 < rho_min cfg /\ rho_min cfg <= rho_max cfg ->
  length (bx p) = n -> length (bz p) = m -> length (by_ p) = m -> 0 <= osqp_tol cfg ->
  box_run_from n Q c A l u eps_div lin_solve cfg p = Ok (p', st') -> o_status st' = SOLVED ->
  exists x z y mu phi, bx p' = fin x /\ bz p' = fin z /\ by_ p' = fin y /\ bmu p' = fin mu /\ bphi p' = fin phi /\
    box_l2_error n m Q c A l u x z y mu phi <= sqrt (INR (n + m)) * osqp_tol cfg.
Proof.
  intros m n Q c A l u eps_div lin_solve cfg p p' st' HP HL Hrho Lx Lz Ly Ht H Hs.
  destruct (run_solved m n Q c A l u eps_div lin_solve cfg HP HL Hrho p p' st' (conj Lx (conj Lz Ly)) H Hs) as (x & z & y & e & f & -> & Lx' & HI & HN & He & Hf & He' & Hf' & Er).
  assert (Lz' : length z = m) by (destruct HI as [L _]; rewrite L; apply HP). assert (Ly' : length y = m) by (destruct HN as [L _]; congruence).
  exists x, z, y, (map (fun t => Rmax t 0) y), (map (fun t => Rmax (- t) 0) y).
  change (bmu (full_kkt (fin x) (fin z) (fin y))) with (bmu (full_kkt [] [] (fin y))). change (bphi (full_kkt (fin x) (fin z) (fin y))) with (bphi (full_kkt [] [] (fin y))).
  rewrite mu_fin, phi_fin. cbn [full_kkt bx bz by_]. repeat (split; [reflexivity|]).
  set (mu := map (fun t => Rmax t 0) y). set (phi := map (fun t => Rmax (- t) 0) y).
  assert (K := box_square n m Q c A l u HP x z y mu phi Lx' Lz' Ly' ltac:(unfold mu; rewrite map_length; exact Ly') ltac:(unfold phi; rewrite map_length; exact Ly')).
  set (E := box_l2_error _ _ _ _ _ _ _ _ _ _ _ _) in *.
  (* y is normal to the box at z: coordinate by coordinate *)
  assert (Mv : forall i t, (i < m)%nat -> lower_ok (nth i l NaN) t -> upper_ok (nth i u NaN) t -> nth i y 0 * (t - nth i z 0) <= 0).
  { intros i t Hi T1 T2. destruct HN as [_ HN]. destruct HI as [Lf HI'].
    set (w := vadd z (smul (t - nth i z 0) (unit_vec m i))).
    assert (Nw : forall j, (j < m)%nat -> nth j w 0 = if Nat.eq_dec i j then t else nth j z 0). { intros j Hj. unfold w. rewrite nth_vadd, nth_smul, nth_unit_vec by exact Hj. destruct (Nat.eq_dec i j) as [->|]; ring. }
    assert (Hw : in_box l u w). { split; [unfold w; rewrite vadd_length, smul_length, unit_vec_length; unfold vec in *; lia|]. intros j Hj. rewrite (qp_l _ _ _ _ _ _ _ HP) in Hj. rewrite Nw by exact Hj. destruct (Nat.eq_dec i j) as [<-|]; [split; assumption|]. apply HI'. rewrite (qp_l _ _ _ _ _ _ _ HP). exact Hj. }
    assert (K' := HN w Hw). assert (Ew : vsub w z = smul (t - nth i z 0) (unit_vec m i)). { unfold w. apply vec_ext; [rewrite vsub_length, vadd_length, !smul_length, unit_vec_length; unfold vec in *; lia|]. intros j _. rewrite nth_vsub, nth_vadd. ring. }
    rewrite Ew, dot_smul_r, dot_comm, dot_unit_vec in K' by assumption. lra. }
  assert (Es : ssum (fun i => let ui := match nth i u NaN with Fin b => nth i mu 0 | _ => 0 end in let li := match nth i l NaN with Fin a => nth i phi 0 | _ => 0 end in
    Rsqr (- nth i y 0 + (ui - li)) + Rsqr (nth i (mvec A x) 0 - nth i z 0) +
    Rsqr (match nth i u NaN with Fin b => nth i mu 0 * (nth i z 0 - b) | _ => 0 end) + Rsqr (match nth i l NaN with Fin a => nth i phi 0 * (a - nth i z 0) | _ => 0 end)) m <= INR m * (osqp_tol cfg * osqp_tol cfg)).
  { rewrite <- ssum_const. apply ssum_le. intros i Hi. cbv zeta. unfold mu, phi. rewrite !nth_map0 by (unfold Rmax; destruct (Rle_dec _ _); lra).
    assert (P : Rsqr (nth i (mvec A x) 0 - nth i z 0) <= osqp_tol cfg * osqp_tol cfg).
    { assert (Q1 := inf_le _ _ _ He He' i). rewrite nth_vsub in Q1. apply Q1. rewrite vsub_length, mvec_length, (proj1 (qp_A _ _ _ _ _ _ _ HP)). lia. }
    set (tt := osqp_tol cfg * osqp_tol cfg) in *. set (pr := Rsqr (nth i (mvec A x) 0 - nth i z 0)) in *. clearbody tt pr. assert (Mi := fun t => Mv i t Hi). destruct HI as [_ HI]. destruct (HI i) as [Z1 Z2]; [rewrite (qp_l _ _ _ _ _ _ _ HP); exact Hi|].
    clear K He Hf HN HI Mv. set (yi := nth i y 0) in *. set (zi := nth i z 0) in *. clearbody yi zi.
    destruct (nth i l NaN) as [a| | |], (nth i u NaN) as [b| | |]; cbn in Z1, Z2, Mi; try contradiction.
    - assert (K1 := Mi a ltac:(lra) ltac:(lra)). assert (K2 := Mi b ltac:(lra) ltac:(lra)).
      assert (T1 : Rmax yi 0 * (zi - b) = 0) by (unfold Rmax; destruct (Rle_dec yi 0); nra). assert (T2 : Rmax (- yi) 0 * (a - zi) = 0) by (unfold Rmax; destruct (Rle_dec (- yi) 0); nra).
      assert (T3 : - yi + (Rmax yi 0 - Rmax (- yi) 0) = 0) by (unfold Rmax; destruct (Rle_dec yi 0), (Rle_dec (- yi) 0); lra). rewrite T1, T2, T3, !Rsqr_0. lra.
    - assert (K1 := Mi a ltac:(lra) I). assert (K2 := Mi (zi + 1) ltac:(lra) I). assert (yi <= 0) by nra.
      assert (T2 : Rmax (- yi) 0 * (a - zi) = 0) by (unfold Rmax; destruct (Rle_dec (- yi) 0); nra). assert (T3 : - yi + (0 - Rmax (- yi) 0) = 0) by (unfold Rmax; destruct (Rle_dec (- yi) 0); lra). rewrite T2, T3, !Rsqr_0. lra.
    - assert (K1 := Mi b I ltac:(lra)). assert (K2 := Mi (zi - 1) I ltac:(lra)). assert (0 <= yi) by nra.
      assert (T1 : Rmax yi 0 * (zi - b) = 0) by (unfold Rmax; destruct (Rle_dec yi 0); nra). assert (T3 : - yi + (Rmax yi 0 - 0) = 0) by (unfold Rmax; destruct (Rle_dec yi 0); lra). rewrite T1, T3, !Rsqr_0. lra.
    - assert (K1 := Mi (zi + 1) I I). assert (K2 := Mi (zi - 1) I I). replace yi with 0 by lra. replace (- 0 + (0 - 0)) with 0 by ring. rewrite !Rsqr_0. lra. }
  assert (Ed : dot (vadd (vadd (mvec Q x) c) (tvec n A y)) (vadd (vadd (mvec Q x) c) (tvec n A y)) <= INR n * (osqp_tol cfg * osqp_tol cfg)).
  { assert (Ld : length (vadd (vadd (mvec Q x) c) (tvec n A y)) = n) by (rewrite !vadd_length, mvec_length, (tvec_length m n A y (qp_A _ _ _ _ _ _ _ HP)), (qp_c _ _ _ _ _ _ _ HP), (proj1 (qp_Q _ _ _ _ _ _ _ HP)); lia).
    rewrite (sq_sum _ n Ld). rewrite <- ssum_const. apply ssum_le. intros i Hi. apply (inf_le _ _ _ Hf Hf'). rewrite Ld. exact Hi. }
  assert (E0 : 0 <= E) by apply norm2_nonneg.
  apply Rsqr_incr_0_var; [|apply Rmult_le_pos; [apply sqrt_pos|exact Ht]]. unfold Rsqr. rewrite <- K. replace (sqrt (INR (n + m)) * osqp_tol cfg * (sqrt (INR (n + m)) * osqp_tol cfg)) with (sqrt (INR (n + m)) * sqrt (INR (n + m)) * (osqp_tol cfg * osqp_tol cfg)) by ring.
  rewrite sqrt_sqrt by apply pos_INR. rewrite plus_INR. lra.
Qed.
Print Assumptions C83_box_solved.

(** OSQP: the error is the norm of the stationarity residual, the negative parts of the multipliers of the inequalities, and the
    products of each multiplier with its constraint. *)
Theorem C83_osqp_value : forall n Q c eq ineq x ye yi, osqp_problem n Q c eq ineq -> length x = n -> length ye = length (rhs eq) -> length yi = length (rhs ineq) ->
  osqp_l2_error n Q c (osqp_point eq ineq x ye yi) eq ineq = Ok (norm2 (osqp_residuals n Q c eq ineq x ye yi)).
Proof. exact osqp_value. Qed.
Print Assumptions C83_osqp_value.

(** It is 0 at every KKT point; and a feasible point where it is 0 is a KKT point. *)
Theorem C83_osqp_zero : forall n Q c eq ineq x ye yi, osqp_problem n Q c eq ineq -> length x = n -> length ye = length (rhs eq) -> length yi = length (rhs ineq) ->
  (osqp_l2_error n Q c (osqp_point eq ineq x ye yi) eq ineq = Ok 0 /\ osqp_feasible eq ineq x <-> osqp_kkt n Q c eq ineq x ye yi).
Proof.
  intros n Q c eq ineq x ye yi HP Lx L1 L2. rewrite (osqp_value n Q c eq ineq x ye yi HP Lx L1 L2).
  assert (HA := proj1 (op_eq _ _ _ _ _ HP)). assert (HG := proj1 (op_ineq _ _ _ _ _ HP)).
  assert (Ls : length (vadd (vadd (mvec Q x) c) (vadd (tvec n (rows eq) ye) (tvec n (rows ineq) yi))) = n).
  { rewrite !vadd_length, mvec_length, (tvec_length _ n _ ye HA), (tvec_length _ n _ yi HG), (op_c _ _ _ _ _ HP), (proj1 (op_Q _ _ _ _ _ HP)). lia. }
  assert (Z : norm2 (osqp_residuals n Q c eq ineq x ye yi) = 0 <-> vadd (vadd (mvec Q x) c) (vadd (tvec n (rows eq) ye) (tvec n (rows ineq) yi)) = vzero n /\
    (forall i, Rmin (nth i yi 0) 0 = 0) /\ (forall i, nth i ye 0 * (nth i (mvec (rows eq) x) 0 - nth i (rhs eq) 0) = 0) /\ (forall i, Rmax (nth i yi 0) 0 * (nth i (mvec (rows ineq) x) 0 - nth i (rhs ineq) 0) = 0)).
  { rewrite norm2_zero_nth. unfold osqp_residuals. rewrite !app_zero.
    assert (Q1 : (forall i, nth i (vadd (vadd (mvec Q x) c) (vadd (tvec n (rows eq) ye) (tvec n (rows ineq) yi))) 0 = 0) <-> vadd (vadd (mvec Q x) c) (vadd (tvec n (rows eq) ye) (tvec n (rows ineq) yi)) = vzero n).
    { rewrite <- norm2_zero_nth, norm2_zero_iff, Ls. reflexivity. }
    assert (Q2 : (forall i, nth i (map (fun t => Rmin t 0) yi) 0 = 0) <-> forall i, Rmin (nth i yi 0) 0 = 0) by (split; intros H i; specialize (H i); [rewrite nth_map0 in H by (unfold Rmin; destruct (Rle_dec _ _); lra); exact H|rewrite nth_map0 by (unfold Rmin; destruct (Rle_dec _ _); lra); exact H]).
    assert (Q3 : (forall i, nth i (hmul ye (vsub (mvec (rows eq) x) (rhs eq))) 0 = 0) <-> forall i, nth i ye 0 * (nth i (mvec (rows eq) x) 0 - nth i (rhs eq) 0) = 0) by (split; intros H i; specialize (H i); [rewrite nth_hmul, nth_vsub in H; exact H|rewrite nth_hmul, nth_vsub; exact H]).
    assert (Q4 : (forall i, nth i (hmul (map (fun t => Rmax t 0) yi) (vsub (mvec (rows ineq) x) (rhs ineq))) 0 = 0) <-> forall i, Rmax (nth i yi 0) 0 * (nth i (mvec (rows ineq) x) 0 - nth i (rhs ineq) 0) = 0) by (split; intros H i; specialize (H i); [rewrite nth_hmul, nth_map0, nth_vsub in H by (unfold Rmax; destruct (Rle_dec _ _); lra); exact H|rewrite nth_hmul, nth_map0, nth_vsub by (unfold Rmax; destruct (Rle_dec _ _); lra); exact H]).
    rewrite Q1, Q2, Q3, Q4. reflexivity. }
  split.
  - intros [H F]. injection H as H. apply Z in H. destruct H as (H1 & H2 & H3 & H4). repeat (split; [assumption|]). intros i Hi. assert (K2 := H2 i). assert (K4 := H4 i). unfold Rmin in K2. destruct (Rle_dec (nth i yi 0) 0); [replace (nth i yi 0) with 0 by lra; split; lra|]. rewrite Rmax_left in K4 by lra. split; lra.
  - intros (_ & _ & _ & F & S & H). split; [|exact F]. f_equal. apply Z. split; [exact S|].
    assert (H' : forall i, 0 <= nth i yi 0 /\ nth i yi 0 * (nth i (rhs ineq) 0 - nth i (mvec (rows ineq) x) 0) = 0).
    { intros i. destruct (Nat.lt_ge_cases i (length yi)) as [L|L]; [apply H; exact L|]. rewrite (nth_overflow yi) by exact L. lra. }
    split; [intros i; apply Rmin_right, H'|]. split; [intros i; rewrite (proj1 F); ring|]. intros i. destruct (H' i) as [K1 K2]. rewrite Rmax_left by exact K1. lra.
Qed.
Print Assumptions C83_osqp_zero.

(** After a run that ends with status SOLVED, the error of the returned parameters is at most tol sqrt(n + |dual|^2). *)
Theorem C83_osqp_solved : forall n Q c eq ineq eps_div lin_solve cfg init p st,
  osqp_problem n Q c eq ineq -> (forall M r p b, length (lin_solve M r p b) = n) -> 0 < rho_start cfg /\ 0 < rho_min cfg /\ rho_min cfg <= rho_max cfg -> init_ok n eq ineq init -> 0 <= osqp_tol cfg ->
  osqp_run n Q c eps_div lin_solve cfg init eq ineq = Ok (p, st) -> o_status st = SOLVED ->
  exists x ye yi e, p = osqp_point eq ineq x ye yi /\ osqp_l2_error n Q c p eq ineq = Ok e /\ e <= osqp_tol cfg * sqrt (INR n + sqnorm ye + sqnorm yi).
Proof.
  intros n Q c eq ineq eps_div lin_solve cfg init p st HP HL Hrho HI Ht H Hs.
  destruct (C37_solved n Q c eq ineq eps_div lin_solve cfg init p st HP HL Hrho HI H Hs) as (x & ye & yi & E1 & E2 & E3 & Lx & L1 & L2 & He & Hi & Hst & _).
  assert (Ep : p = osqp_point eq ineq x ye yi) by (destruct p; cbn in *; unfold osqp_point; congruence).
  exists x, ye, yi, (norm2 (osqp_residuals n Q c eq ineq x ye yi)). split; [exact Ep|]. split; [rewrite Ep; apply osqp_value; assumption|].
  assert (HA := proj1 (op_eq _ _ _ _ _ HP)). assert (HG := proj1 (op_ineq _ _ _ _ _ HP)).
  assert (Ls : length (vadd (vadd (mvec Q x) c) (vadd (tvec n (rows eq) ye) (tvec n (rows ineq) yi))) = n).
  { rewrite !vadd_length, mvec_length, (tvec_length _ n _ ye HA), (tvec_length _ n _ yi HG), (op_c _ _ _ _ _ HP), (proj1 (op_Q _ _ _ _ _ HP)). lia. }
  set (t := osqp_tol cfg) in *. assert (S1 := sqnorm_nonneg ye). assert (S2 := sqnorm_nonneg yi). assert (S3 := pos_INR n).
  assert (SqA : forall a s, Rabs a <= s -> a * a <= s * s). { intros a s K. rewrite <- (Rabs_pos_eq (a * a)) by apply Rle_0_sqr. rewrite Rabs_mult. apply Rmult_le_compat; try apply Rabs_pos; exact K. }
  apply norm2_le_sq; [apply Rmult_le_pos; [exact Ht|apply sqrt_pos]|].
  replace (t * sqrt (INR n + sqnorm ye + sqnorm yi) * (t * sqrt (INR n + sqnorm ye + sqnorm yi))) with (t * t * (sqrt (INR n + sqnorm ye + sqnorm yi) * sqrt (INR n + sqnorm ye + sqnorm yi))) by ring.
  rewrite sqrt_sqrt by lra. unfold osqp_residuals. rewrite !sq_app.
  rewrite (sq_sum _ n Ls). rewrite (sq_sum (map (fun s => Rmin s 0) yi) (length yi)) by apply map_length.
  rewrite (sq_sum (hmul ye _) (length ye)) by (rewrite hmul_length, vsub_length, mvec_length, (proj1 HA); lia).
  rewrite (sq_sum (hmul (map (fun s => Rmax s 0) yi) _) (length yi)) by (rewrite hmul_length, vsub_length, mvec_length, map_length, (proj1 HG); lia).
  unfold sqnorm. rewrite (sq_sum ye (length ye) eq_refl), (sq_sum yi (length yi) eq_refl).
  match goal with |- ?a + (?b + (?c' + ?d)) <= _ => assert (A1 : a <= INR n * (t * t)); [|assert (A2 : b <= INR (length yi) * 0); [|assert (A3 : c' <= t * t * ssum (fun i => nth i ye 0 * nth i ye 0) (length ye)); [|assert (A4 : d <= t * t * ssum (fun i => nth i yi 0 * nth i yi 0) (length yi)); [|lra]]]] end.
  - rewrite <- ssum_const. apply ssum_le. intros i Hi'. apply SqA, Hst, Hi'.
  - rewrite <- ssum_const. apply ssum_le. intros i Hi'. rewrite nth_map0 by (unfold Rmin; destruct (Rle_dec _ _); lra). rewrite Rmin_right by apply (Hi i Hi'). lra.
  - rewrite <- ssum_scal. apply ssum_le. intros i Hi'. rewrite nth_hmul, nth_vsub. assert (K := SqA _ _ (He i Hi')). set (r := nth i (mvec (rows eq) x) 0 - nth i (rhs eq) 0) in *.
    replace (nth i ye 0 * r * (nth i ye 0 * r)) with (r * r * (nth i ye 0 * nth i ye 0)) by ring. apply Rmult_le_compat_r; [apply Rle_0_sqr|exact K].
  - rewrite <- ssum_scal. apply ssum_le. intros i Hi'. rewrite nth_hmul, nth_map0, nth_vsub by (unfold Rmax; destruct (Rle_dec _ _); lra). destruct (Hi i Hi') as (K1 & K2 & K3). rewrite Rmax_left by exact K2.
    set (r := nth i (mvec (rows ineq) x) 0 - nth i (rhs ineq) 0) in *. replace (nth i yi 0 * r * (nth i yi 0 * r)) with (r * r * (nth i yi 0 * nth i yi 0)) by ring.
    destruct (Rle_lt_or_eq_dec _ _ K2) as [K4|K4]; [|rewrite <- K4; lra]. apply Rmult_le_compat_r; [apply Rle_0_sqr|]. apply SqA. specialize (K3 K4). apply Rabs_le. unfold r. lra.
Qed.
Print Assumptions C83_osqp_solved.

(** Against "the L2 norm of the KKT residuals": without feasibility a zero error says nothing.  At every unconstrained minimiser,
    with zero multipliers, OSQP reports 0 however far A x is from b and G x above h; EqualityConstrainedQP reports |A x - b|. *)
Theorem C83_osqp_infeasible_refuted :
  (forall n Q c eq ineq x, osqp_problem n Q c eq ineq -> length x = n -> vadd (mvec Q x) c = vzero n ->
     osqp_l2_error n Q c (osqp_point eq ineq x (vzero (length (rhs eq))) (vzero (length (rhs ineq)))) eq ineq = Ok 0) /\
  (forall n m Q c A b x, eqqp_problem n m Q c A b -> length x = n -> vadd (mvec Q x) c = vzero n ->
     eqqp_l2_error n A b (ExplicitQ Q c) x (vzero m) = norm2 (vsub (mvec A x) b)) /\
  (exists Q c A b x, osqp_problem 1 Q c (Some (A, b)) None /\ length x = 1%nat /\ vadd (mvec Q x) c = vzero 1 /\ mvec A x <> b /\
     osqp_l2_error 1 Q c (osqp_point (Some (A, b)) None x (vzero 1) []) (Some (A, b)) None = Ok 0).
Proof.
  assert (G : forall n Q c eq ineq x, osqp_problem n Q c eq ineq -> length x = n -> vadd (mvec Q x) c = vzero n ->
     osqp_l2_error n Q c (osqp_point eq ineq x (vzero (length (rhs eq))) (vzero (length (rhs ineq)))) eq ineq = Ok 0).
  { intros n Q c eq ineq x HP Lx H. rewrite osqp_value by (try assumption; apply vzero_length). f_equal. apply norm2_zero_nth. unfold osqp_residuals. rewrite !app_zero.
    assert (M0 : Rmin 0 0 = 0) by (apply Rmin_left; lra). assert (M1 : Rmax 0 0 = 0) by (apply Rmax_left; lra).
    assert (T : forall k j M i, mat_shape k n M -> nth i (tvec n M (vzero j)) 0 = 0).
    { intros k j M i HM. assert (E : tvec n M (vzero j) = vzero n) by (apply vec_eq_dot; [rewrite (tvec_length k n M _ HM), vzero_length; reflexivity|]; intros w; rewrite dot_tvec, !dot_vzero_l; reflexivity). rewrite E. apply nth_vzero. }
    assert (HA := proj1 (op_eq _ _ _ _ _ HP)). assert (HG := proj1 (op_ineq _ _ _ _ _ HP)).
    repeat split; intros i.
    - rewrite !(nth_vadd (vadd _ _)), !(nth_vadd (tvec _ _ _)), (T _ _ _ _ HA), (T _ _ _ _ HG), H, nth_vzero. ring.
    - rewrite nth_map0, nth_vzero by exact M0. exact M0.
    - rewrite nth_hmul, nth_vzero. ring.
    - rewrite nth_hmul, nth_map0, nth_vzero, M1 by exact M1. ring. }
  split; [exact G|]. split.
  - intros n m Q c A b x HP Lx H. destruct (C83_eqqp n m Q c A b x (vzero m) HP Lx (vzero_length m)) as (E & _). rewrite E. unfold norm2. f_equal. unfold sqnorm.
    assert (T : tvec n A (vzero m) = vzero n). { apply vec_eq_dot; [rewrite (tvec_length m n A _ (eq_A _ _ _ _ _ _ HP)), vzero_length; reflexivity|]. intros w. rewrite dot_tvec, !dot_vzero_l. reflexivity. }
    rewrite T, H, dot_vadd_l, !dot_vzero_l. ring.
  - exists [[1]], [0], [[1]], [1], [0]. assert (HP : osqp_problem 1 [[1]] [0] (Some ([[1]], [1])) None).
    { assert (S1 : mat_shape 1 1 [[1]]) by (repeat constructor). constructor; cbn [rows rhs]; try exact S1; try reflexivity; try lia.
      - intros i j Hi Hj. assert (i = 0%nat) by lia. assert (j = 0%nat) by lia. subst. reflexivity.
      - intros [|a [|]] L; try discriminate. cbn. assert (K := Rle_0_sqr a). unfold Rsqr in K. lra.
      - split; [exact S1|intros _; cbn; lia].
      - split; [split; [reflexivity|constructor]|intros E; contradiction E; reflexivity].
      - left. discriminate. }
    assert (E0 : vadd (mvec [[1]] [0]) [0] = vzero 1) by (cbn; unfold vzero; cbn; f_equal; ring).
    split; [exact HP|]. split; [reflexivity|]. split; [exact E0|]. split; [cbn; intros E; injection E as E; lra|]. exact (G 1%nat [[1]] [0] (Some ([[1]], [1])) None [0] HP eq_refl E0).
Qed.
Print Assumptions C83_osqp_infeasible_refuted.

(** 1/2 |x|^2 over x1 + x2 = 2 satisfies the hypotheses of C83_eqqp_distance with mu = M = s = 1; for 1/2 x^2 over x <= -1 the
    solution x = -1 with multiplier 1 has error 0, and the error of (0, 1) is sqrt 2. *)
Example C83_example :
  eqqp_problem 2 1 (eye 2) [0; 0] [[1; 1]] [2] /\ strongly_convex_matrix 2 1 (eye 2) /\ bounded_matrix 2 1 (eye 2) /\ rows_bounded_below 2 1 1 [[1; 1]] /\
  EqQP.kkt_system 2 (eye 2) [0; 0] [[1; 1]] [2] [1; 1] [-1] /\
  osqp_problem 1 [[1]] [0] None (Some ([[1]], [-1])) /\ osqp_kkt 1 [[1]] [0] None (Some ([[1]], [-1])) [-1] [] [1] /\
  osqp_l2_error 1 [[1]] [0] (osqp_point None (Some ([[1]], [-1])) [-1] [] [1]) None (Some ([[1]], [-1])) = Ok 0 /\
  osqp_l2_error 1 [[1]] [0] (osqp_point None (Some ([[1]], [-1])) [0] [] [1]) None (Some ([[1]], [-1])) = Ok (sqrt 2).
Proof.
  destruct C33_example as (E1 & _ & _ & E2 & _).
  assert (HP : osqp_problem 1 [[1]] [0] None (Some ([[1]], [-1]))).
  { assert (S1 : mat_shape 1 1 [[1]]) by (repeat constructor). constructor; cbn [rows rhs]; try exact S1; try reflexivity; try lia.
    - intros i j Hi Hj. assert (i = 0%nat) by lia. assert (j = 0%nat) by lia. subst. reflexivity.
    - intros [|a [|]] L; try discriminate. cbn. assert (K := Rle_0_sqr a). unfold Rsqr in K. lra.
    - split; [split; [reflexivity|constructor]|intros E; contradiction E; reflexivity].
    - split; [exact S1|intros _; cbn; lia].
    - right. discriminate. }
  assert (HK : osqp_kkt 1 [[1]] [0] None (Some ([[1]], [-1])) [-1] [] [1]).
  { split; [reflexivity|]. split; [reflexivity|]. split; [reflexivity|]. split; [split; [reflexivity|]|split].
    - intros [|i] Hi; cbn in *; [lra|lia].
    - unfold vzero. cbn. f_equal. ring.
    - intros [|i] Hi; cbn in *; [split; lra|lia]. }
  split; [exact E1|]. split; [intros v Hv; rewrite mvec_eye by exact Hv; lra|]. split; [intros v Hv; rewrite mvec_eye by exact Hv; lra|].
  split.
  { intros [|w [|]] L; try discriminate. rewrite Rmult_1_l. unfold norm2. apply sqrt_le_1_alt. cbn. assert (K := Rle_0_sqr w). unfold Rsqr in K. lra. }
  split; [exact E2|]. split; [exact HP|]. split; [exact HK|]. split; [apply (C83_osqp_zero 1 [[1]] [0] None (Some ([[1]], [-1])) [-1] [] [1] HP); try reflexivity; exact HK|].
  rewrite osqp_value by (try exact HP; reflexivity). f_equal. unfold norm2. f_equal. unfold osqp_residuals. cbn. unfold Rmin, Rmax. destruct (Rle_dec 1 0); lra.
Qed.
