(** Theorems for C57: the optimality function of BoxOSQP. *)
From Coq Require Import Reals List Bool Arith Lra Lia.
From Verif Require Import Prelude Vec Mat EqQPProofs LinAlg XArith Kkt KktTheorems Osqp OsqpTheorems OsqpConvert LinOp.
Import ListNotations.
Open Scope R_scope.

Lemma nth_map_seq {A} (f : nat -> A) m i d : (i < m)%nat -> nth i (map f (seq 0 m)) d = f i.
Proof. intros H. rewrite (nth_indep _ d (f 0%nat)) by (rewrite map_length, seq_length; exact H). rewrite map_nth, seq_nth by exact H. reflexivity. Qed.
Lemma nth_map_lt (f : R -> R) (v : vec) i : (i < length v)%nat -> nth i (map f v) 0 = f (nth i v 0).
Proof. intros H. rewrite (nth_indep _ 0 (f 0)) by (rewrite map_length; exact H). apply map_nth. Qed.
Definition msk (m : nat) (b : xvec) (w : vec) : vec := map (fun i => if bounded (nth i b NaN) then nth i w 0 else 0) (seq 0 m).
Lemma msk_length m b w : length (msk m b w) = m. Proof. unfold msk. rewrite map_length, seq_length. reflexivity. Qed.
Lemma nth_msk m b w i : (i < m)%nat -> nth i (msk m b w) 0 = if bounded (nth i b NaN) then nth i w 0 else 0.
Proof. intros H. unfold msk. apply (nth_map_seq (fun i => if bounded (nth i b NaN) then nth i w 0 else 0)). exact H. Qed.
Lemma dot_sum x y : length x = length y -> dot x y = vsum (map (fun i => nth i x 0 * nth i y 0) (seq 0 (length x))).
Proof.
  revert y. induction x as [|a x IH]; intros [|b y] L; try discriminate; [reflexivity|]. cbn [length seq map dot nth]. unfold vsum in *. cbn [fold_right]. f_equal. rewrite IH by (cbn in L; lia). rewrite <- seq_shift, map_map. reflexivity.
Qed.
Lemma msk_adjoint m b w v : length w = m -> length v = m -> dot (msk m b w) v = dot w (msk m b v).
Proof.
  intros Lw Lv. rewrite !dot_sum by (rewrite ?msk_length; congruence). rewrite msk_length, Lw. f_equal. apply map_ext_in. intros i Hi. apply in_seq in Hi. rewrite !nth_msk by lia. destruct (bounded _); ring.
Qed.

Lemma split_vec n m (v : vec) : length v = (n + m)%nat -> exists a b, v = a ++ b /\ length a = n /\ length b = m.
Proof. intros L. exists (firstn n v), (skipn n v). split; [symmetry; apply firstn_skipn|]. rewrite firstn_length, skipn_length. lia. Qed.
Lemma firstn_app_eq n (a b : vec) : length a = n -> firstn n (a ++ b) = a.
Proof. intros La. rewrite firstn_app, La, Nat.sub_diag. cbn. rewrite app_nil_r. apply firstn_all2. lia. Qed.
Lemma skipn_app_eq n (a b : vec) : length a = n -> skipn n (a ++ b) = b.
Proof. intros La. rewrite skipn_app, La, Nat.sub_diag. cbn. rewrite skipn_all2 by lia. reflexivity. Qed.

Section Box.
Variables (n m : nat) (Q : mat) (c : vec) (A : mat) (l u : xvec).
Hypothesis HQ : mat_shape n n Q.
Hypothesis Lc : length c = n.
Hypothesis HA : mat_shape m n A.
Hypothesis Ll : length l = m.
Hypothesis Lu : length u = m.
Let p := box_kkt_problem n m Q c A l u.

Lemma nth_bounded (b : xvec) i : length b = m -> (i < m)%nat -> nth i (map bounded b) false = bounded (nth i b NaN).
Proof. intros Lb Hi. change false with (bounded NaN). apply map_nth. Qed.
Lemma eq_jac_shape x : mat_shape m (n + m) (eq_jac p x).
Proof.
  split; [cbn; rewrite map_length, seq_length; reflexivity|]. cbn. apply Forall_forall. intros r Hr. apply in_map_iff in Hr. destruct Hr as (i & <- & Hi). apply in_seq in Hi. rewrite app_length, smul_length, unit_vec_length. f_equal. apply (row_length m n); [exact HA|lia].
Qed.
Lemma mask_shape s b : mat_shape m (n + m) (mask_rows n m s b).
Proof.
  split; [unfold mask_rows; rewrite map_length, seq_length; reflexivity|]. apply Forall_forall. intros r Hr. apply in_map_iff in Hr. destruct Hr as (i & <- & Hi). rewrite app_length, vzero_length, smul_length, unit_vec_length. reflexivity.
Qed.
Lemma ineq_jac_shape x : mat_shape (m + m) (n + m) (ineq_jac p x).
Proof. destruct (mask_shape 1 (map bounded u)) as [A1 A2]. destruct (mask_shape (-1) (map bounded l)) as [B1 B2]. split; [cbn; rewrite app_length, A1, B1; reflexivity|]. cbn. apply Forall_app. auto. Qed.
Lemma eq_jac_mvec x a b : length a = n -> length b = m -> mvec (eq_jac p x) (a ++ b) = vsub (mvec A a) b.
Proof.
  intros La Lb. apply vec_ext; [rewrite mvec_length, vsub_length, mvec_length, (proj1 (eq_jac_shape x)), (proj1 HA); lia|]. rewrite mvec_length, (proj1 (eq_jac_shape x)). intros i Hi.
  rewrite nth_mvec. cbn. rewrite (nth_map_seq (fun i => nth i A [] ++ smul (-1) (unit_vec m i))) by exact Hi. rewrite dot_app by (rewrite La; apply (row_length m n); assumption). rewrite dot_smul_l, dot_unit_vec by assumption. rewrite nth_vsub, nth_mvec. ring.
Qed.
Lemma mask_mvec s bb a b : length bb = m -> length a = n -> length b = m -> mvec (mask_rows n m s (map bounded bb)) (a ++ b) = smul s (msk m bb b).
Proof.
  intros Lbb La Lb. apply vec_ext; [rewrite mvec_length, smul_length, msk_length; apply mask_shape|]. rewrite mvec_length, (proj1 (mask_shape s (map bounded bb))). intros i Hi.
  rewrite nth_mvec. unfold mask_rows. rewrite (nth_map_seq (fun i => vzero n ++ smul (if nth i (map bounded bb) false then s else 0) (unit_vec m i))) by exact Hi. rewrite dot_app by (rewrite La; apply vzero_length). rewrite dot_vzero_l, dot_smul_l, dot_unit_vec by assumption. rewrite nth_smul, nth_msk by exact Hi. rewrite nth_bounded by assumption. destruct (bounded _); ring.
Qed.
Lemma mvec_app (M N : mat) v : mvec (M ++ N) v = mvec M v ++ mvec N v. Proof. unfold mvec. apply map_app. Qed.
Lemma ineq_jac_mvec x a b : length a = n -> length b = m -> mvec (ineq_jac p x) (a ++ b) = msk m u b ++ smul (-1) (msk m l b).
Proof. intros La Lb. unfold p. cbn [ineq_jac box_kkt_problem]. rewrite mvec_app. rewrite !mask_mvec by assumption. f_equal. apply vec_ext; [rewrite smul_length; reflexivity|]. intros i _. rewrite nth_smul. ring. Qed.
(** the stationarity part, in blocks *)
Lemma stationarity_blocks x z y mu phi : length x = n -> length z = m -> length y = m -> length mu = m -> length phi = m ->
  primal (box_optimality n m Q c A l u x z y mu phi) =
    vadd (vadd (smul (1 / 2) (vadd (mvec Q x) (tvec n Q x))) c) (tvec n A y) ++ vadd (smul (-1) y) (vsub (msk m u mu) (msk m l phi)).
Proof.
  intros Lx Lz Ly Lm Lp. unfold box_optimality, kkt_optimality. fold p. cbn [primal dual_eq dual_ineq].
  assert (LtQ := tvec_length n n Q x HQ). assert (LtA := tvec_length m n A y HA). assert (LQx : length (mvec Q x) = n) by (rewrite mvec_length; apply HQ).
  assert (Lg : length (vadd (smul (1 / 2) (vadd (mvec Q x) (tvec n Q x))) c) = n) by (rewrite vadd_length, smul_length, vadd_length, LQx, LtQ, Lc; lia).
  assert (Eg : obj_grad p (x ++ z) = vadd (smul (1 / 2) (vadd (mvec Q x) (tvec n Q x))) c ++ vzero m) by (cbn; rewrite firstn_app_eq by exact Lx; reflexivity).
  assert (T1 := tvec_length m (n + m) _ y (eq_jac_shape (x ++ z))). assert (T2 := tvec_length (m + m) (n + m) _ (mu ++ phi) (ineq_jac_shape (x ++ z))).
  rewrite Eg. set (g := vadd (smul (1 / 2) (vadd (mvec Q x) (tvec n Q x))) c) in *.
  apply vec_eq_dot_len.
  - rewrite !vadd_length, T1, T2, !app_length, !vadd_length, Lg, LtA, vzero_length, smul_length, vsub_length, !msk_length, Ly. lia.
  - intros w Lw. rewrite !vadd_length, T1, T2, !app_length, Lg, vzero_length in Lw. destruct (split_vec n m w ltac:(lia)) as (a & b & -> & La & Lb).
    rewrite !dot_vadd_l, !dot_tvec, eq_jac_mvec, ineq_jac_mvec by assumption. rewrite !dot_app by (rewrite ?vadd_length, ?msk_length; lia). rewrite dot_vzero_l, !dot_vadd_l, dot_vsub_r, dot_tvec, !dot_smul_l, dot_smul_r, dot_vsub_l, !msk_adjoint by assumption. ring.
Qed.
End Box.

(** The derivatives used are those of the objective 1/2 x'Qx + c'x (for any Q) and of the constraint functions A x - z,
    z - u and l - z, the last two being constant 0 where the bound is infinite. *)
Theorem C57_box_derivatives : forall n m Q c A l u x z v w, mat_shape n n Q -> length c = n -> mat_shape m n A -> length l = m -> length u = m ->
  length x = n -> length z = m -> length v = n -> length w = m -> let p := box_kkt_problem n m Q c A l u in
  gradient_at (n + m) (fun q => qp_objective Q c (firstn n q)) (x ++ z) (obj_grad p (x ++ z)) /\
  eq_fun p (x ++ z) = vsub (mvec A x) z /\ eq_fun p (vadd (x ++ z) (v ++ w)) = vadd (eq_fun p (x ++ z)) (mvec (eq_jac p (x ++ z)) (v ++ w)) /\
  ineq_fun p (vadd (x ++ z) (v ++ w)) = vadd (ineq_fun p (x ++ z)) (mvec (ineq_jac p (x ++ z)) (v ++ w)) /\
  (forall i, (i < m)%nat -> nth i (ineq_fun p (x ++ z)) 0 = match nth i u NaN with Fin b => nth i z 0 - b | _ => 0 end /\
     nth (m + i) (ineq_fun p (x ++ z)) 0 = match nth i l NaN with Fin a => a - nth i z 0 | _ => 0 end).
Proof.
  intros n m Q c A l u x z v w HQ Lc HA Ll Lu Lx Lz Lv Lw p.
  assert (Ev : forall t, vadd (x ++ z) (smul t (v ++ w)) = vadd x (smul t v) ++ vadd z (smul t w)).
  { intros t. apply vec_ext; [rewrite vadd_length, smul_length, !app_length, !vadd_length, !smul_length; lia|]. intros i _. rewrite nth_vadd, nth_smul.
    destruct (Nat.lt_ge_cases i n) as [H|H]; [rewrite !app_nth1 by (rewrite ?vadd_length, ?smul_length; lia); rewrite nth_vadd, nth_smul; reflexivity|].
    rewrite !app_nth2 by (rewrite ?vadd_length, ?smul_length; lia). rewrite vadd_length, smul_length, Lx, Lv, Nat.max_id, nth_vadd, nth_smul. reflexivity. }
  assert (Ev1 : vadd (x ++ z) (v ++ w) = vadd x v ++ vadd z w).
  { assert (E := Ev 1). assert (S1 : forall a : vec, smul 1 a = a) by (intros a; apply vec_ext; [apply smul_length|]; intros i _; rewrite nth_smul; ring). rewrite !S1 in E. exact E. }
  assert (Lxv : length (vadd x v) = n) by (rewrite vadd_length; lia).
  split; [|split; [|split; [|split]]].
  - split.
    + cbn. rewrite app_length, vadd_length, smul_length, vadd_length, mvec_length, (tvec_length n), vzero_length by exact HQ. rewrite (proj1 HQ). lia.
    + intros d Ld. destruct (split_vec n m d Ld) as (a & b & -> & La & Lb). cbn [obj_grad p box_kkt_problem]. unfold p. cbn [obj_grad box_kkt_problem]. cbv zeta. rewrite (firstn_app_eq n x z Lx).
      assert (Lg : length (vadd (smul (1 / 2) (vadd (mvec Q x) (tvec n Q x))) c) = n) by (rewrite vadd_length, smul_length, vadd_length, mvec_length, (tvec_length n), (proj1 HQ) by exact HQ; lia).
      rewrite dot_app by congruence. rewrite dot_vzero_l, Rplus_0_r, dot_vadd_l, dot_smul_l, dot_vadd_l, dot_tvec.
      set (e := qp_objective Q c x). set (b1 := 1 / 2 * (dot (mvec Q x) a + dot x (mvec Q a)) + dot c a). set (q2 := 1 / 2 * dot a (mvec Q a)).
      assert (E : forall t, qp_objective Q c (firstn n (vadd (x ++ z) (smul t (a ++ b)))) = e + b1 * t + q2 * (t * t)).
      { intros t. assert (Ev' : vadd (x ++ z) (smul t (a ++ b)) = vadd x (smul t a) ++ vadd z (smul t b)).
        { apply vec_ext; [rewrite vadd_length, smul_length, !app_length, !vadd_length, !smul_length; lia|]. intros i _. rewrite nth_vadd, nth_smul.
          destruct (Nat.lt_ge_cases i n) as [H|H]; [rewrite !app_nth1 by (rewrite ?vadd_length, ?smul_length; lia); rewrite nth_vadd, nth_smul; reflexivity|].
          rewrite !app_nth2 by (rewrite ?vadd_length, ?smul_length; lia). rewrite vadd_length, smul_length, Lx, La, Nat.max_id, nth_vadd, nth_smul. reflexivity. }
        rewrite Ev', firstn_app_eq by (rewrite vadd_length, smul_length; lia). unfold qp_objective, e, b1, q2, qp_objective. rewrite mvec_vadd, mvec_smul, !dot_vadd_l, !dot_vadd_r, !dot_smul_l, !dot_smul_r. rewrite (dot_comm (mvec Q x) a). field. }
      intros eps He. assert (Hq : 0 < eps / (Rabs q2 + 1)) by (apply Rdiv_lt_0_compat; [exact He|assert (K := Rabs_pos q2); lra]). exists (mkposreal _ Hq). intros h Hh Hlt. cbn [pos] in Hlt. rewrite !E, Rplus_0_l. 
      replace ((e + b1 * h + q2 * (h * h) - (e + b1 * 0 + q2 * (0 * 0))) / h - b1) with (q2 * h) by (field; exact Hh). rewrite Rabs_mult. assert (K := Rabs_pos q2). assert (K2 := Rabs_pos h).
      apply Rle_lt_trans with ((Rabs q2 + 1) * Rabs h); [nra|]. apply (Rmult_lt_compat_l (Rabs q2 + 1)) in Hlt; [|lra]. replace ((Rabs q2 + 1) * (eps / (Rabs q2 + 1))) with eps in Hlt by (field; lra). exact Hlt.
  - unfold p. cbn [eq_fun box_kkt_problem]. rewrite firstn_app_eq, skipn_app_eq by exact Lx. reflexivity.
  - unfold p. rewrite (eq_jac_mvec n m Q c A l u Lc HA Ll Lu) by assumption. rewrite Ev1. cbn [eq_fun box_kkt_problem]. rewrite !firstn_app_eq, !skipn_app_eq by assumption. rewrite mvec_vadd. apply vec_ext; [rewrite ?vsub_length, ?vadd_length, ?vsub_length, ?mvec_length; lia|]. intros i _. rewrite ?nth_vsub, ?nth_vadd, ?nth_vsub. ring.
  - unfold p. rewrite (ineq_jac_mvec n m Q c A l u Ll Lu) by assumption. rewrite Ev1. cbn [ineq_fun box_kkt_problem]. cbv zeta. rewrite !skipn_app_eq by assumption.
    apply vec_ext; [rewrite !vadd_length, !app_length, !map_length, seq_length, smul_length, !msk_length; lia|]. rewrite app_length, !map_length, seq_length. intros i Hi. rewrite nth_vadd.
    destruct (Nat.lt_ge_cases i m) as [H|H].
    + rewrite !app_nth1 by (rewrite ?map_length, ?seq_length, ?msk_length; exact H). rewrite !nth_map_seq, nth_msk by exact H. rewrite nth_vadd. destruct (bounded _); ring.
    + rewrite !app_nth2 by (rewrite ?map_length, ?seq_length, ?msk_length; lia). rewrite !map_length, seq_length, msk_length. rewrite !nth_map_seq by lia. rewrite nth_smul, nth_msk by lia. rewrite nth_vadd. destruct (bounded _); ring.
  - intros i Hi. unfold p. cbn [ineq_fun box_kkt_problem]. cbv zeta. rewrite skipn_app_eq by exact Lx. split.
    + rewrite app_nth1 by (rewrite map_length, seq_length; exact Hi). rewrite nth_map_seq by exact Hi. destruct (nth i u NaN); reflexivity.
    + rewrite app_nth2 by (rewrite map_length, seq_length; lia). rewrite map_length, seq_length. replace (m + i - m)%nat with i by lia. rewrite nth_map_seq by exact Hi. destruct (nth i l NaN); reflexivity.
Qed.
Print Assumptions C57_box_derivatives.

(** The optimality function vanishes exactly at the stationary points: Q x + c + A'y = 0, A x = z, y = mu - phi without the
    multipliers of infinite bounds, and complementary slackness. *)
Theorem C57_box_zero_iff : forall m n Q c A l u x z y mu phi, qp_problem m n Q c A l u ->
  length x = n -> length z = m -> length y = m -> length mu = m -> length phi = m ->
  (all_zero (box_optimality n m Q c A l u x z y mu phi) <->
   vadd (vadd (mvec Q x) c) (tvec n A y) = vzero n /\ mvec A x = z /\
   forall i, (i < m)%nat ->
     nth i y 0 = (match nth i u NaN with Fin _ => nth i mu 0 | _ => 0 end) - (match nth i l NaN with Fin _ => nth i phi 0 | _ => 0 end) /\
     match nth i u NaN with Fin b => nth i mu 0 * (nth i z 0 - b) = 0 | _ => True end /\
     match nth i l NaN with Fin a => nth i phi 0 * (a - nth i z 0) = 0 | _ => True end).
Proof.
  intros m n Q c A l u x z y mu phi HP Lx Lz Ly Lm Lp. destruct HP as [HQ HS _ Lc HA Ll Lu _ _].
  assert (LtA := tvec_length m n A y HA). assert (LQx : length (mvec Q x) = n) by (rewrite mvec_length; apply HQ).
  assert (Es : vadd (smul (1 / 2) (vadd (mvec Q x) (tvec n Q x))) c = vadd (mvec Q x) c).
  { rewrite (tvec_sym n Q x HQ HS Lx). apply vec_ext; [rewrite !vadd_length, smul_length, vadd_length; lia|]. intros i _. rewrite !nth_vadd, nth_smul, nth_vadd. lra. }
  assert (Hprim := stationarity_blocks n m Q c A l u HQ Lc HA Ll Lu x z y mu phi Lx Lz Ly Lm Lp). rewrite Es in Hprim.
  destruct (C57_box_derivatives n m Q c A l u x z x z HQ Lc HA Ll Lu Lx Lz Lx Lz) as (_ & Ee & _ & _ & Ei).
  unfold all_zero. rewrite Hprim. unfold box_optimality. rewrite eq_part, ineq_part. cbn [dual_eq dual_ineq primal ovec]. rewrite Ee.
  assert (L1 : length (vadd (vadd (mvec Q x) c) (tvec n A y)) = n) by (rewrite !vadd_length; lia).
  assert (Hst : (forall i, nth i (vadd (vadd (mvec Q x) c) (tvec n A y) ++ vadd (smul (-1) y) (vsub (msk m u mu) (msk m l phi))) 0 = 0) <->
    vadd (vadd (mvec Q x) c) (tvec n A y) = vzero n /\ forall i, (i < m)%nat -> nth i y 0 = (match nth i u NaN with Fin _ => nth i mu 0 | _ => 0 end) - (match nth i l NaN with Fin _ => nth i phi 0 | _ => 0 end)).
  { assert (Hy : forall i, (i < m)%nat -> nth i (vadd (smul (-1) y) (vsub (msk m u mu) (msk m l phi))) 0 = - nth i y 0 + ((match nth i u NaN with Fin _ => nth i mu 0 | _ => 0 end) - (match nth i l NaN with Fin _ => nth i phi 0 | _ => 0 end))).
    { intros i Hi. rewrite nth_vadd, nth_smul, nth_vsub, !nth_msk by exact Hi. destruct (nth i u NaN), (nth i l NaN); cbn [bounded]; ring. }
    split.
    - intros H. split; [apply vec_ext; [rewrite vzero_length; exact L1|]; intros i Hi; rewrite nth_vzero; assert (K := H i); rewrite app_nth1 in K by exact Hi; exact K|]. intros i Hi. assert (K := H (n + i)%nat). rewrite app_nth2 in K by lia. rewrite L1 in K. replace (n + i - n)%nat with i in K by lia. rewrite Hy in K by exact Hi. lra.
    - intros [H1 H2] i. destruct (Nat.lt_ge_cases i n) as [H|H]; [rewrite app_nth1 by lia; rewrite H1; apply nth_vzero|]. rewrite app_nth2 by lia. rewrite L1. destruct (Nat.lt_ge_cases (i - n) m) as [H'|H']; [rewrite Hy by exact H'; rewrite (H2 _ H'); ring|]. apply nth_overflow. rewrite vadd_length, smul_length, vsub_length, !msk_length. lia. }
  rewrite Hst.
  assert (Heq : (forall i, nth i (vsub (mvec A x) z) 0 = 0) <-> mvec A x = z).
  { split; [intros H; apply vec_ext; [rewrite mvec_length, (proj1 HA); congruence|]; intros i _; assert (K := H i); rewrite nth_vsub in K; lra|intros <- i; rewrite nth_vsub; ring]. }
  rewrite Heq.
  assert (Lin : length (ineq_fun (box_kkt_problem n m Q c A l u) (x ++ z)) = (m + m)%nat) by (cbn; rewrite app_length, !map_length, seq_length; reflexivity).
  assert (Hin : (forall i, nth i (hmul (ineq_fun (box_kkt_problem n m Q c A l u) (x ++ z)) (mu ++ phi)) 0 = 0) <->
    forall i, (i < m)%nat -> match nth i u NaN with Fin b => nth i mu 0 * (nth i z 0 - b) = 0 | _ => True end /\ match nth i l NaN with Fin a => nth i phi 0 * (a - nth i z 0) = 0 | _ => True end).
  { split.
    - intros H i Hi. destruct (Ei i Hi) as [E1 E2]. assert (K1 := H i). assert (K2 := H (m + i)%nat). rewrite nth_hmul, E1, app_nth1 in K1 by lia. rewrite nth_hmul, E2, app_nth2 in K2 by lia. rewrite Lm in K2. replace (m + i - m)%nat with i in K2 by lia. split; [destruct (nth i u NaN); auto; lra|destruct (nth i l NaN); auto; lra].
    - intros H i. rewrite nth_hmul. destruct (Nat.lt_ge_cases i m) as [Hi|Hi].
      + destruct (Ei i Hi) as [E1 _]. rewrite E1, app_nth1 by lia. destruct (H i Hi) as [K _]. destruct (nth i u NaN); lra.
      + destruct (Nat.lt_ge_cases (i - m) m) as [Hi'|Hi'].
        * destruct (Ei (i - m)%nat Hi') as [_ E2]. replace (m + (i - m))%nat with i in E2 by lia. rewrite E2, app_nth2 by lia. rewrite Lm. destruct (H (i - m)%nat Hi') as [_ K]. destruct (nth (i - m) l NaN); lra.
        * rewrite (nth_overflow (ineq_fun _ _)) by lia. ring. }
  rewrite Hin. split.
  - intros ([H1 H2] & H3 & H4). split; [exact H1|]. split; [exact H3|]. intros i Hi. split; [apply H2; exact Hi|apply H4; exact Hi].
  - intros (H1 & H3 & H4). split; [split; [exact H1|intros i Hi; apply (H4 i Hi)]|]. split; [exact H3|]. intros i Hi. apply (H4 i Hi).
Qed.
Print Assumptions C57_box_zero_iff.

(** A zero in the box with non-negative multipliers is a primal-dual solution. *)
Theorem C57_box_zero_solves : forall m n Q c A l u x z y mu phi, qp_problem m n Q c A l u ->
  length x = n -> length z = m -> length y = m -> length mu = m -> length phi = m -> in_box l u z -> (forall i, 0 <= nth i mu 0) -> (forall i, 0 <= nth i phi 0) ->
  all_zero (box_optimality n m Q c A l u x z y mu phi) -> qp_kkt n Q c A l u x y /\ qp_solution n Q c A l u x.
Proof.
  intros m n Q c A l u x z y mu phi HP Lx Lz Ly Lm Lp HI Hmu Hphi H. apply (C57_box_zero_iff m n Q c A l u x z y mu phi HP Lx Lz Ly Lm Lp) in H. destruct H as (H1 & H2 & H3).
  assert (HN : normal_to_box l u y z).
  { split; [congruence|]. intros w [Lw HW]. rewrite dot_sum by (rewrite vsub_length; unfold vec in *; rewrite (qp_l _ _ _ _ _ _ _ HP) in Lw; lia).
    assert (G : forall i, (i < m)%nat -> nth i y 0 * nth i (vsub w z) 0 <= 0).
    { intros i Hi. rewrite nth_vsub. destruct (H3 i Hi) as (E1 & E2 & E3). assert (Hil : (i < length l)%nat) by (rewrite (qp_l _ _ _ _ _ _ _ HP); exact Hi). destruct (HW i Hil) as [W1 W2]. destruct HI as [_ HI]. destruct (HI i Hil) as [Z1 Z2]. assert (M := Hmu i). assert (P := Hphi i). rewrite E1. clear E1.
      destruct (nth i u NaN) as [b| | |], (nth i l NaN) as [a| | |]; cbn in W1, W2, Z1, Z2; try contradiction.
      - assert (nth i mu 0 * nth i z 0 = nth i mu 0 * b) by lra. assert (nth i phi 0 * nth i z 0 = nth i phi 0 * a) by lra. assert (nth i mu 0 * (b - nth i w 0) >= 0) by (apply Rle_ge, Rmult_le_pos; lra). assert (nth i phi 0 * (nth i w 0 - a) >= 0) by (apply Rle_ge, Rmult_le_pos; lra). lra.
      - assert (nth i mu 0 * nth i z 0 = nth i mu 0 * b) by lra. assert (nth i mu 0 * (b - nth i w 0) >= 0) by (apply Rle_ge, Rmult_le_pos; lra). lra.
      - assert (nth i phi 0 * nth i z 0 = nth i phi 0 * a) by lra. assert (nth i phi 0 * (nth i w 0 - a) >= 0) by (apply Rle_ge, Rmult_le_pos; lra). lra.
      - lra. }
    rewrite Ly. assert (GS : forall is, (forall i, In i is -> (i < m)%nat) -> vsum (map (fun i => nth i y 0 * nth i (vsub w z) 0) is) <= 0).
    { intros is. induction is as [|i is IH]; intros His; [unfold vsum; cbn; lra|]. unfold vsum in *. cbn [map fold_right]. assert (K1 := G i (His i (or_introl eq_refl))). assert (K2 := IH (fun j Hj => His j (or_intror Hj))). lra. }
    apply GS. intros i Hi. apply in_seq in Hi. lia. }
  destruct (C35_optimal m n Q c A l u x z y HP Lx HI HN) as [K1 K2]; [|exact H1|split; assumption].
  rewrite H2. apply vec_ext; [rewrite vsub_length, vzero_length; lia|]. intros i _. rewrite nth_vsub, nth_vzero. ring.
Qed.
Print Assumptions C57_box_zero_solves.

(** Conversely the optimality function vanishes at every primal-dual solution completed as the solver completes it (z = A x,
    mu and phi from the signs of y: full_kkt in Osqp.v), so at the limits of C35_converges. *)
Theorem C57_box_solution_zero : forall m n Q c A l u x y mu phi, qp_problem m n Q c A l u -> qp_kkt n Q c A l u x y ->
  bmu (full_kkt (fin x) (fin (mvec A x)) (fin y)) = fin mu -> bphi (full_kkt (fin x) (fin (mvec A x)) (fin y)) = fin phi ->
  all_zero (box_optimality n m Q c A l u x (mvec A x) y mu phi).
Proof.
  intros m n Q c A l u x y mu phi HP (Lx & HF & HN & H1) Em Ep.
  assert (LA : length A = m) by apply (qp_A _ _ _ _ _ _ _ HP).
  assert (Lz : length (mvec A x) = m) by (rewrite mvec_length; exact LA). assert (Ly : length y = m) by (destruct HN as [L _]; unfold vec in *; congruence).
  assert (Fi : forall a b, fin a = fin b -> a = b). { intros a. induction a as [|t a IH]; intros [|s b] E; try discriminate; [reflexivity|]. injection E as -> E. f_equal. apply IH. exact E. }
  assert (Em' : mu = map (fun t => if Rle_dec 0 t then t else 0) y). { symmetry. apply Fi. rewrite <- Em. cbn [bmu full_kkt]. unfold fin. rewrite !map_map. apply map_ext. intros t. cbn [xle]. destruct (Rle_dec 0 t); reflexivity. }
  assert (Ep' : phi = map (fun t => if Rle_dec t 0 then - t else 0) y).
  { symmetry. apply Fi. rewrite <- Ep. cbn [bphi full_kkt]. unfold fin. rewrite !map_map. apply map_ext. intros t. cbn [xopp]. unfold xrelu. cbn. unfold Rmax. destruct (Rle_dec t 0); destruct (Rle_dec (- t) 0); f_equal; lra. }
  assert (Lm : length mu = m) by (rewrite Em', map_length; exact Ly). assert (Lp : length phi = m) by (rewrite Ep', map_length; exact Ly).
  apply (C57_box_zero_iff m n Q c A l u x (mvec A x) y mu phi HP Lx Lz Ly Lm Lp). split; [exact H1|]. split; [reflexivity|]. intros i Hi.
  assert (Mi : nth i mu 0 = if Rle_dec 0 (nth i y 0) then nth i y 0 else 0). { rewrite Em'. apply (nth_map_lt (fun t => if Rle_dec 0 t then t else 0)). lia. }
  assert (Pi : nth i phi 0 = if Rle_dec (nth i y 0) 0 then - nth i y 0 else 0). { rewrite Ep'. apply (nth_map_lt (fun t => if Rle_dec t 0 then - t else 0)). lia. }
  (* move coordinate i alone *)
  assert (Mv : forall t, lower_ok (nth i l NaN) t -> upper_ok (nth i u NaN) t -> nth i y 0 * (t - nth i (mvec A x) 0) <= 0).
  { intros t T1 T2. destruct HN as [_ HN]. destruct HF as [Lf HF].
    set (w := vadd (mvec A x) (smul (t - nth i (mvec A x) 0) (unit_vec m i))).
    assert (Nw : forall j, (j < m)%nat -> nth j w 0 = if Nat.eq_dec i j then t else nth j (mvec A x) 0). { intros j Hj. unfold w. rewrite nth_vadd, nth_smul, nth_unit_vec by exact Hj. destruct (Nat.eq_dec i j) as [->|]; ring. }
    assert (Hw : in_box l u w). { split; [unfold w; rewrite vadd_length, smul_length, unit_vec_length; unfold vec in *; lia|]. intros j Hj. rewrite (qp_l _ _ _ _ _ _ _ HP) in Hj. rewrite Nw by exact Hj. destruct (Nat.eq_dec i j) as [<-|]; [split; assumption|]. apply HF. rewrite (qp_l _ _ _ _ _ _ _ HP). exact Hj. }
    assert (K := HN w Hw). assert (Ew : vsub w (mvec A x) = smul (t - nth i (mvec A x) 0) (unit_vec m i)). { unfold w. apply vec_ext; [rewrite vsub_length, vadd_length, !smul_length, unit_vec_length; unfold vec in *; lia|]. intros j _. rewrite nth_vsub, nth_vadd. ring. }
    rewrite Ew, dot_smul_r, dot_comm, dot_unit_vec in K by assumption. lra. }
  destruct HF as [Lf HF]. destruct (HF i) as [Z1 Z2]; [rewrite (qp_l _ _ _ _ _ _ _ HP); exact Hi|]. assert (Bx := qp_box _ _ _ _ _ _ _ HP i Hi). clear H1 HN HF. set (zi := nth i (mvec A x) 0) in *. set (yi := nth i y 0) in *. clearbody zi yi. rewrite Mi, Pi. clear Mi Pi Em Ep Em' Ep'.
  destruct (nth i l NaN) as [a| | |], (nth i u NaN) as [b| | |]; cbn in Z1, Z2, Mv; try contradiction.
  - assert (K1 := Mv a ltac:(lra) ltac:(lra)). assert (K2 := Mv b ltac:(lra) ltac:(lra)). destruct (Rle_dec 0 yi), (Rle_dec yi 0); (split; [lra|]); split; try lra; try nra.
  - assert (K1 := Mv a ltac:(lra) I). assert (K2 := Mv (zi + 1) ltac:(lra) I). destruct (Rle_dec yi 0); (split; [lra|]); split; try exact I; try lra; try nra.
  - assert (K1 := Mv b I ltac:(lra)). assert (K2 := Mv (zi - 1) I ltac:(lra)). destruct (Rle_dec 0 yi); (split; [lra|]); split; try exact I; try lra; try nra.
  - assert (K1 := Mv (zi + 1) I I). assert (K2 := Mv (zi - 1) I I). split; [lra|]. split; exact I.
Qed.
Print Assumptions C57_box_solution_zero.

(** Against the API: with fun, a function of x alone, the optimality function (hence l2_optimality_error and implicit
    differentiation) calls it on the pair (x, z); a function that only accepts arrays raises, although the algorithm can call it. *)
Theorem C57_fun_refuted : exists f : arg -> result R, (forall x z, exists r, box_algorithm_objective f x z = Ok r) /\ forall x z, box_optimality_objective f x z = Err TypeError.
Proof. exists (fun a => match a with AArray x => Ok (1 / 2 * dot x x) | APair _ _ => Err TypeError end). split; [intros x z; eexists; reflexivity|reflexivity]. Qed.
Print Assumptions C57_fun_refuted.
