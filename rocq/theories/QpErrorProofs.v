(** Lemmas for C83. *)
From Coq Require Import Reals List Bool Arith ZArith Lra Lia.
From Verif Require Import Prelude Vec Mat XArith Kkt KktTheorems EqQP EqQPProofs LinAlg Osqp OsqpTheorems OsqpConvert OsqpConvertTheorems LinOp OsqpOptimalityTheorems QpError.
Import ListNotations.
Open Scope R_scope.

Lemma norm2_zero_nth v : norm2 v = 0 <-> forall i, nth i v 0 = 0.
Proof.
  rewrite norm2_zero_iff. split.
  - intros E i. rewrite E. apply nth_vzero.
  - intros H. apply vec_ext; [rewrite vzero_length; reflexivity|]. intros i _. rewrite nth_vzero. apply H.
Qed.
Lemma app_zero (a b : vec) : (forall i, nth i (a ++ b) 0 = 0) <-> (forall i, nth i a 0 = 0) /\ forall i, nth i b 0 = 0.
Proof.
  split.
  - intros H. split; intros i.
    + destruct (Nat.lt_ge_cases i (length a)) as [L|L]; [rewrite <- (app_nth1 a b 0 L); apply H|apply nth_overflow; exact L].
    + assert (K := H (length a + i)%nat). rewrite app_nth2 in K by lia. replace (length a + i - length a)%nat with i in K by lia. exact K.
  - intros [H1 H2] i. destruct (Nat.lt_ge_cases i (length a)) as [L|L]; [rewrite app_nth1 by exact L; apply H1|rewrite app_nth2 by exact L; apply H2].
Qed.
Lemma l2_zero s : kkt_l2_norm s = 0 <-> all_zero s.
Proof. unfold kkt_l2_norm, all_zero. rewrite norm2_zero_nth, !app_zero. tauto. Qed.
Lemma sq_app (a b : vec) : dot (a ++ b) (a ++ b) = dot a a + dot b b. Proof. apply Vec.dot_app. reflexivity. Qed.
Definition ssum (f : nat -> R) (m : nat) : R := vsum (map f (seq 0 m)).
Lemma vsum_cons a v : vsum (a :: v) = a + vsum v. Proof. reflexivity. Qed.
Lemma ssum_gen_add (f g : nat -> R) (is : list nat) : vsum (map (fun i => f i + g i) is) = vsum (map f is) + vsum (map g is).
Proof. induction is as [|i is IH]; [unfold vsum; cbn; lra|]. cbn [map]. rewrite !vsum_cons, IH. lra. Qed.
Lemma ssum_add f g m : ssum (fun i => f i + g i) m = ssum f m + ssum g m. Proof. apply ssum_gen_add. Qed.
Lemma ssum_ext f g m : (forall i, (i < m)%nat -> f i = g i) -> ssum f m = ssum g m.
Proof. intros H. unfold ssum. f_equal. apply map_ext_in. intros i Hi. apply in_seq in Hi. apply H. lia. Qed.
Lemma vsum_app a b : vsum (a ++ b) = vsum a + vsum b.
Proof. induction a as [|t a IH]; [unfold vsum; cbn; lra|]. cbn [app]. rewrite !vsum_cons, IH. lra. Qed.
Lemma ssum_split f a b : ssum f (a + b) = ssum f a + ssum (fun i => f (a + i)%nat) b.
Proof.
  unfold ssum. rewrite seq_app, map_app, vsum_app. f_equal. cbn [plus]. f_equal. rewrite <- (map_map (fun i => (a + i)%nat) f). f_equal.
  assert (G : forall c, seq (a + c) b = map (fun i => (a + i)%nat) (seq c b)); [|rewrite <- (G 0%nat), Nat.add_0_r; reflexivity].
  clear. induction b as [|b IH]; intros c; [reflexivity|]. cbn [seq map]. f_equal. rewrite <- IH. f_equal. lia.
Qed.
Lemma ssum_le f g m : (forall i, (i < m)%nat -> f i <= g i) -> ssum f m <= ssum g m.
Proof.
  intros H. unfold ssum. assert (G : forall is, (forall i, In i is -> (i < m)%nat) -> vsum (map f is) <= vsum (map g is)).
  { induction is as [|i is IH]; intros L; [unfold vsum; cbn; lra|]. cbn [map]. rewrite !vsum_cons. assert (K1 := H i (L i (or_introl eq_refl))). assert (K2 := IH (fun j Hj => L j (or_intror Hj))). lra. }
  apply G. intros i Hi. apply in_seq in Hi. lia.
Qed.
Lemma ssum_const a m : ssum (fun _ => a) m = INR m * a.
Proof. unfold ssum. assert (G : forall k, vsum (map (fun _ => a) (seq k m)) = INR m * a); [|apply G]. induction m as [|m IH]; intros k; [unfold vsum; cbn; lra|]. cbn [seq map]. rewrite vsum_cons, IH, S_INR. lra. Qed.
Lemma ssum_scal a f m : ssum (fun i => a * f i) m = a * ssum f m.
Proof. unfold ssum. induction (seq 0 m) as [|i is IH]; [unfold vsum; cbn; lra|]. cbn [map]. rewrite !vsum_cons, IH. lra. Qed.
Lemma sq_sum v m : length v = m -> dot v v = ssum (fun i => nth i v 0 * nth i v 0) m.
Proof. intros <-. apply dot_sum. reflexivity. Qed.

Section Box.
Variables (n m : nat) (Q : mat) (c : vec) (A : mat) (l u : xvec).
Hypothesis HP : qp_problem m n Q c A l u.
(** the error of BoxOSQP, term by term *)
Lemma box_square x z y mu phi : length x = n -> length z = m -> length y = m -> length mu = m -> length phi = m ->
  dot (vadd (vadd (mvec Q x) c) (tvec n A y)) (vadd (vadd (mvec Q x) c) (tvec n A y)) +
  ssum (fun i => let ui := match nth i u NaN with Fin b => nth i mu 0 | _ => 0 end in let li := match nth i l NaN with Fin a => nth i phi 0 | _ => 0 end in
    Rsqr (- nth i y 0 + (ui - li)) + Rsqr (nth i (mvec A x) 0 - nth i z 0) +
    Rsqr (match nth i u NaN with Fin b => nth i mu 0 * (nth i z 0 - b) | _ => 0 end) + Rsqr (match nth i l NaN with Fin a => nth i phi 0 * (a - nth i z 0) | _ => 0 end)) m =
  box_l2_error n m Q c A l u x z y mu phi * box_l2_error n m Q c A l u x z y mu phi.
Proof.
  intros Lx Lz Ly Lm Lp. destruct HP as [HQ HS _ Lc HA Ll Lu _ _]. unfold box_l2_error, kkt_l2_norm. rewrite norm2_sq, !sq_app.
  rewrite (stationarity_blocks n m Q c A l u HQ Lc HA Ll Lu x z y mu phi Lx Lz Ly Lm Lp).
  assert (LtA := tvec_length m n A y HA). assert (LQx : length (mvec Q x) = n) by (rewrite mvec_length; apply HQ).
  assert (Es : vadd (smul (1 / 2) (vadd (mvec Q x) (tvec n Q x))) c = vadd (mvec Q x) c).
  { rewrite (tvec_sym n Q x HQ HS Lx). apply vec_ext; [rewrite !vadd_length, smul_length, vadd_length; lia|]. intros i _. rewrite !nth_vadd, nth_smul, nth_vadd. lra. }
  rewrite Es, sq_app. clear Es.
  destruct (C57_box_derivatives n m Q c A l u x z x z HQ Lc HA Ll Lu Lx Lz Lx Lz) as (_ & Ee & _ & _ & Ei).
  unfold box_optimality. rewrite eq_part, ineq_part. cbn [dual_eq dual_ineq primal ovec]. rewrite Ee.
  assert (Lin : length (ineq_fun (box_kkt_problem n m Q c A l u) (x ++ z)) = (m + m)%nat) by (cbn; rewrite app_length, !map_length, seq_length; reflexivity).
  rewrite (sq_sum (vadd (smul (-1) y) (vsub (msk m u mu) (msk m l phi))) m) by (rewrite vadd_length, smul_length, vsub_length, !msk_length; lia).
  rewrite (sq_sum (vsub (mvec A x) z) m) by (rewrite vsub_length, mvec_length, (proj1 HA); lia).
  rewrite (sq_sum (hmul _ _) (m + m)) by (rewrite hmul_length, Lin, app_length; lia).
  rewrite ssum_split. set (S1 := ssum _ m). set (S2 := ssum _ m). set (S3 := ssum _ m). set (S4 := ssum _ m). set (S5 := ssum _ m).
  assert (E : S1 = S2 + S3 + (S4 + S5)); [|unfold vec in *; rewrite E; ring]. unfold S1, S2, S3, S4, S5. rewrite <- !ssum_add. apply ssum_ext. intros i Hi. unfold Rsqr.
  rewrite nth_vadd, nth_smul, !nth_vsub, !nth_msk by exact Hi. rewrite !nth_hmul, app_nth1, app_nth2 by lia. rewrite (proj1 (Ei i Hi)), (proj2 (Ei i Hi)). rewrite Lm. replace (m + i - m)%nat with i by lia.
  destruct (nth i u NaN), (nth i l NaN); cbn [bounded]; ring.
Qed.
End Box.

Lemma reals_fin v : reals (fin v) = v.
Proof. unfold reals, fin. rewrite map_map. rewrite <- (map_id v) at 2. apply map_ext. reflexivity. Qed.
Lemma phi_fin y : bphi (full_kkt [] [] (fin y)) = fin (map (fun t => Rmax (- t) 0) y).
Proof. cbn [full_kkt bphi]. unfold fin. rewrite !map_map. apply map_ext. intros t. reflexivity. Qed.
Lemma nth_map0 (f : R -> R) v i : f 0 = 0 -> nth i (map f v) 0 = f (nth i v 0).
Proof. intros H. transitivity (nth i (map f v) (f 0)); [f_equal; symmetry; exact H|]. apply map_nth. Qed.
Lemma nth_fin_lt v i d : (i < length v)%nat -> nth i (fin v) d = Fin (nth i v 0).
Proof. intros H. rewrite (nth_indep _ d (Fin 0)) by (rewrite fin_length; exact H). apply nth_fin. Qed.
Lemma nth_ninfs_lt (v : vec) i d : (i < length v)%nat -> nth i (ninfs v) d = NInf.
Proof. intros H. rewrite (nth_indep _ d NInf) by (rewrite map_length; exact H). apply nth_ninfs. Qed.

(** OSQP's error is the norm of [osqp_residuals] *)
Lemma osqp_value n Q c eq ineq x ye yi : osqp_problem n Q c eq ineq -> length x = n -> length ye = length (rhs eq) -> length yi = length (rhs ineq) ->
  osqp_l2_error n Q c (osqp_point eq ineq x ye yi) eq ineq = Ok (norm2 (osqp_residuals n Q c eq ineq x ye yi)).
Proof.
  intros HP Lx L1 L2. unfold osqp_l2_error.
  destruct (transform (Some (osqp_point eq ineq x ye yi)) eq ineq) as [[[bp f] sz]|e] eqn:T.
  2:{ exfalso. destruct (C37_round_trip n Q c eq ineq x ye yi HP L1 L2) as (bp & f & sz & T' & _). unfold osqp_point in T. rewrite T in T'. discriminate. }
  destruct (C37_same_problem n Q c eq ineq _ _ f sz HP T) as (FP & _).
  destruct (transform_ok n Q c eq ineq HP _ bp f sz T) as [Ef _].
  assert (Eb : bp = Some (full_kkt (fin x) (fin (mvec (f_A f) x)) (fin (ye ++ yi)))).
  { unfold osqp_point in T. rewrite Ef. cbn [f_A]. clear FP Ef. destruct eq as [[A b]|], ineq as [[G h]|]; cbn [transform present rows rhs q_dual_eq q_dual_ineq q_primal app] in *; try discriminate; injection T as <- _ _.
    - rewrite xmvec_fin, fin_app'. reflexivity.
    - destruct yi; [|discriminate]. rewrite !app_nil_r, xmvec_fin. reflexivity.
    - destruct ye; [|discriminate]. rewrite xmvec_fin. reflexivity. }
  rewrite Eb. set (m := length (rhs eq)) in *. set (k := length (rhs ineq)) in *. rewrite (qp_l _ _ _ _ _ _ _ FP).
  change (bmu (full_kkt (fin x) (fin (mvec (f_A f) x)) (fin (ye ++ yi)))) with (bmu (full_kkt [] [] (fin (ye ++ yi)))). change (bphi (full_kkt (fin x) (fin (mvec (f_A f) x)) (fin (ye ++ yi)))) with (bphi (full_kkt [] [] (fin (ye ++ yi)))).
  rewrite mu_fin, phi_fin. cbn [full_kkt bx bz by_]. rewrite !reals_fin.
  set (y := ye ++ yi). set (mu := map (fun t => Rmax t 0) y). set (phi := map (fun t => Rmax (- t) 0) y).
  assert (Ly : length y = (m + k)%nat) by (unfold y; rewrite app_length; lia).
  assert (LA : length (mvec (f_A f) x) = (m + k)%nat) by (rewrite mvec_length; apply (qp_A _ _ _ _ _ _ _ FP)).
  assert (K := box_square n (m + k) Q c (f_A f) (f_l f) (f_u f) FP x (mvec (f_A f) x) y mu phi Lx LA Ly ltac:(unfold mu; rewrite map_length; exact Ly) ltac:(unfold phi; rewrite map_length; exact Ly)).
  set (E := box_l2_error _ _ _ _ _ _ _ _ _ _ _ _) in *. f_equal.
  assert (HA := proj1 (op_eq _ _ _ _ _ HP)). assert (HG := proj1 (op_ineq _ _ _ _ _ HP)). fold m in HA. fold k in HG.
  assert (Lax : length (mvec (rows eq) x) = m) by (rewrite mvec_length; apply HA). assert (Lgx : length (mvec (rows ineq) x) = k) by (rewrite mvec_length; apply HG).
  unfold norm2. f_equal. replace (dot [E] [E]) with (E * E) by (cbn; ring). rewrite <- K. clear K E.
  unfold osqp_residuals. rewrite !sq_app.
  assert (Et : tvec n (f_A f) y = vadd (tvec n (rows eq) ye) (tvec n (rows ineq) yi)) by (rewrite Ef; cbn [f_A]; unfold y; apply (tvec_app m k); assumption).
  rewrite Et. f_equal. rewrite ssum_split.
  rewrite (sq_sum (map (fun t => Rmin t 0) yi) k) by (rewrite map_length; exact L2).
  rewrite (sq_sum (hmul ye _) m) by (rewrite hmul_length, vsub_length, Lax; fold m; lia).
  rewrite (sq_sum (hmul (map (fun t => Rmax t 0) yi) _) k) by (rewrite hmul_length, vsub_length, map_length, Lgx; fold k; lia).
  set (S1 := ssum _ m). set (S2 := ssum _ k). set (S3 := ssum _ k). set (S4 := ssum _ m). set (S5 := ssum _ k).
  assert (A1 : S1 = S4).
  { apply ssum_ext. intros i Hi. rewrite Ef. cbn [f_l f_u f_A]. rewrite !mvec_app. unfold mu, phi. rewrite !nth_map0 by (unfold Rmax; destruct (Rle_dec _ _); lra). unfold y. rewrite !app_nth1 by (rewrite ?fin_length; fold m; lia). rewrite !nth_fin_lt by exact Hi. cbv zeta. rewrite nth_hmul, nth_vsub. unfold Rsqr.
    set (t := nth i ye 0). set (s := nth i (mvec (rows eq) x) 0). set (b := nth i (rhs eq) 0). unfold Rmax. destruct (Rle_dec t 0), (Rle_dec (- t) 0); try ring; [replace t with 0 by lra; ring|lra]. }
  assert (A2 : S2 = S3 + S5).
  { unfold S2, S3, S5. rewrite <- ssum_add. apply ssum_ext. intros i Hi. rewrite Ef. cbn [f_l f_u f_A]. rewrite !mvec_app. unfold mu, phi. rewrite !nth_map0 by (unfold Rmin, Rmax; destruct (Rle_dec _ _); lra). unfold y. rewrite !app_nth2 by (rewrite ?fin_length; unfold vec in *; fold m; lia). rewrite ?fin_length. replace (m + i - length ye)%nat with i by lia. replace (m + i - length (mvec (rows eq) x))%nat with i by lia. fold m. replace (m + i - m)%nat with i by lia.
    rewrite nth_fin_lt, nth_ninfs_lt by exact Hi. cbv zeta. rewrite nth_hmul, nth_map0, nth_vsub by (unfold Rmax; destruct (Rle_dec _ _); lra). unfold Rsqr.
    set (t := nth i yi 0). set (s := nth i (mvec (rows ineq) x) 0). set (b := nth i (rhs ineq) 0). unfold Rmax, Rmin. destruct (Rle_dec t 0); ring. }
  rewrite A1, A2. ring.
Qed.
