(** Bounds of the eigenvalues of the L-BFGS-B matrix. *)
From Coq Require Import String.
From Coq Require Import Reals List Lra Lia Bool Arith Psatz.
From Verif Require Import Prelude Base Vec Mat XArith LinAlg Loss LossProofs QuasiNewton QuasiNewtonProofs Convergence ConvergenceProofs.
From Verif Require Import Lbfgsb LbfgsbHess LbfgsbConvergence.
Import ListNotations.
Open Scope R_scope.

Lemma sumn_prefix h i a : (i <= h)%nat -> sumn i a = sumn h (fun j => if Nat.ltb j i then a j else 0).
Proof.
  intros Hi. induction h as [|h IH]; [replace i with 0%nat by lia; reflexivity|].
  destruct (Nat.eq_dec i (S h)) as [->|N].
  - apply sumn_ext. intros j Hj. replace (Nat.ltb j (S h)) with true by (symmetry; apply Nat.ltb_lt; exact Hj). reflexivity.
  - rewrite IH by lia. rewrite sumn_S. replace (Nat.ltb h i) with false by (symmetry; apply Nat.ltb_ge; lia). ring.
Qed.
Lemma sumn_le n f g : (forall i, (i < n)%nat -> f i <= g i) -> sumn n f <= sumn n g.
Proof. intros H. induction n as [|n IH]; [apply Rle_refl|]. rewrite !sumn_S. assert (f n <= g n) by (apply H; lia). assert (sumn n f <= sumn n g) by (apply IH; intros; apply H; lia). lra. Qed.
Lemma sumn_const n c : sumn n (fun _ => c) = INR n * c.
Proof. induction n as [|n IH]; [rewrite sumn_0; cbn; ring|]. rewrite sumn_S, IH, S_INR. ring. Qed.

Lemma hess_inverse_pos mu L theta m : 0 < mu <= L -> 0 < theta -> 0 < hess_inverse mu L theta m.
Proof.
  intros H T. induction m as [|m IH]; cbn [hess_inverse]; [apply Rinv_0_lt_compat, T|].
  assert (0 < L / mu) by (apply Rdiv_lt_0_compat; lra). assert (0 < 2 / mu) by (apply Rdiv_lt_0_compat; lra).
  assert (0 < 2 * (L / mu) * hess_inverse mu L theta m) by (apply Rmult_lt_0_compat; [lra|exact IH]). lra.
Qed.

Section Bounds.
Variables (n h k : nat) (theta mu L : R) (sh yh : list vec).
Hypothesis G : good_history n h k theta sh yh.
Hypothesis HmL : 0 < mu <= L.
Let s := s_at sh. Let y := y_at yh.
Hypothesis PB : forall i, (i < h)%nat -> (i < k)%nat -> mu * dot (s i) (s i) <= dot (s i) (y i) /\ dot (y i) (y i) <= L * dot (s i) (y i).
Variable solve : mat -> vec -> vec.
Hypothesis SOL : exact_solver solve.
Let T : 0 < theta := gh_theta _ _ _ _ _ _ G.

Section Sys.
Variables (z q : vec).
Hypothesis Hz : length z = n.
Hypothesis Hq : length q = (2 * h)%nat.
Hypothesis E : mvec (m_inv h k theta sh yh) q = wz theta sh yh z.
Let u := vsub z (sq2 n h sh q).
Let q1 i := nth i q 0. Let q2 i := nth (h + i) q 0.
Let cv := curv k sh yh q.
Let En := theta * dot z z - dot (wz theta sh yh z) q.

Lemma En_eq : En = theta * dot u u + sumn h cv.
Proof. apply (bzz n h k theta sh yh G z q Hq E). Qed.
Lemma En_lin : En = theta * dot z u - sumn h (fun i => dot (y i) z * q1 i).
Proof.
  assert (W2 : sumn h (fun i => nth (h + i) (wz theta sh yh z) 0 * nth (h + i) q 0) = theta * dot (sq2 n h sh q) z).
  { rewrite (sq2_dot n h k theta sh yh G), <- sumn_scal. apply sumn_ext. intros i Hi. rewrite (wz2 n h k theta sh yh G) by exact Hi. ring. }
  assert (W : dot (wz theta sh yh z) q = sumn h (fun i => nth i (wz theta sh yh z) 0 * nth i q 0) + sumn h (fun i => nth (h + i) (wz theta sh yh z) 0 * nth (h + i) q 0)).
  { rewrite (app_tab (wz theta sh yh z) h) at 1 by apply (wz_length n h k theta sh yh G). rewrite (app_tab q h) at 1 by exact Hq. rewrite dot_app by (rewrite !tab_length; reflexivity).
    rewrite !(dot_sumn h) by apply tab_length. f_equal; apply sumn_ext; intros i Hi; rewrite !nth_tab by exact Hi; reflexivity. }
  assert (W1 : sumn h (fun i => nth i (wz theta sh yh z) 0 * nth i q 0) = sumn h (fun i => dot (y i) z * q1 i)).
  { apply sumn_ext. intros i Hi. rewrite (wz1 n h k theta sh yh G) by exact Hi. reflexivity. }
  unfold En, u. rewrite W, W1, W2, dot_vsub_r. rewrite (dot_comm z (sq2 n h sh q)). ring.
Qed.
Lemma cv_used i : (i < h)%nat -> (i < k)%nat -> cv i = dot (s i) (y i) * q1 i ^ 2.
Proof. intros Hi Ki. unfold cv, curv. replace (Nat.ltb i k) with true by (symmetry; apply Nat.ltb_lt; exact Ki). reflexivity. Qed.

Lemma En_upper : En <= (theta + INR h * L) * dot z z.
Proof.
  assert (A1 : theta * dot z u <= / 2 * (theta * dot z z) + / 2 * (theta * dot u u)).
  { assert (P := dot_self_nonneg (vsub z u)). rewrite dot_vsub_l, !dot_vsub_r, (dot_comm u z) in P. nra. }
  assert (A2 : - sumn h (fun i => dot (y i) z * q1 i) <= / 2 * (INR h * (L * dot z z)) + / 2 * sumn h cv).
  { rewrite <- (sumn_const h (L * dot z z)), <- !sumn_scal. replace (- sumn h (fun i => dot (y i) z * q1 i)) with (sumn h (fun i => -1 * (dot (y i) z * q1 i))) by (rewrite sumn_scal; ring).
    rewrite <- sumn_plus. apply sumn_le. intros i Hi. pose proof (dot_self_nonneg z) as Z0. destruct (Nat.lt_ge_cases i k) as [C|C].
    - rewrite (cv_used i Hi C). destruct (PB i Hi C) as [_ P]. assert (U := gh_used _ _ _ _ _ _ G i Hi C). fold (s i) (y i) in U.
      pose proof (cauchy_schwarz_sq (y i) z) as CS. set (a := dot (y i) z) in *. set (c := dot (s i) (y i)) in *. set (b := q1 i) in *. set (zz := dot z z) in *.
      assert (H1 : a * a <= c * (L * zz)) by (apply Rle_trans with (dot (y i) (y i) * zz); [exact CS|]; replace (c * (L * zz)) with (L * c * zz) by ring; apply Rmult_le_compat_r; assumption).
      apply (Rmult_le_reg_l (2 * c)); [lra|]. assert (0 <= (a + c * b) * (a + c * b)) by apply Rle_0_sqr. nra.
    - destruct (unused_zero n h k theta sh yh G z q Hq E i Hi C) as [Q1 _]. unfold q1. rewrite Q1. assert (N := curv_nonneg n h k theta sh yh G q i Hi). fold cv in N.
      assert (0 <= L * dot z z) by (apply Rmult_le_pos; lra). nra. }
  rewrite En_eq in *. pose proof En_lin as EL. rewrite En_eq in EL. lra.
Qed.

(** z rebuilt from u, one pair at a time *)
Fixpoint zr (i : nat) : vec := match i with O => u | S j => vadd (zr j) (smul (q2 j) (s j)) end.
Lemma zr_dot i w : dot (zr i) w = dot u w + sumn i (fun j => q2 j * dot (s j) w).
Proof. induction i as [|i IH]; cbn [zr]; [rewrite sumn_0; ring|]. rewrite dot_vadd_l, dot_smul_l, IH, sumn_S. ring. Qed.
Lemma zr_end w : dot (zr h) w = dot z w.
Proof. rewrite zr_dot. unfold u. rewrite dot_vsub_l, (sq2_dot n h k theta sh yh G). unfold q2, s. ring. Qed.
Lemma zr_row i : (i < h)%nat -> (i < k)%nat -> dot (y i) (zr (S i)) = - dot (s i) (y i) * q1 i.
Proof.
  intros Hi Ki. assert (R1 := row1 h k theta sh yh q i Hq Hi). rewrite E, (wz1 n h k theta sh yh G) in R1 by exact Hi. destruct (dg_used h k theta sh yh i Hi Ki) as [D _]. rewrite D in R1.
  rewrite dot_comm, zr_dot. unfold u. rewrite dot_vsub_l, (sq2_dot n h k theta sh yh G). rewrite (sumn_prefix h (S i)) by lia.
  rewrite (dot_comm z). fold (y i) in R1 |- *. fold (s i) in R1 |- *.
  assert (X : sumn h (fun j => nth (h + j) q 0 * dot (s_at sh j) (y i)) =
    sumn h (fun j => if Nat.ltb j (S i) then q2 j * dot (s j) (y i) else 0) + sumn h (fun j => (if Nat.ltb i j then dot (s_at sh j) (y_at yh i) else 0) * nth (h + j) q 0)).
  { rewrite <- sumn_plus. apply sumn_ext. intros j Hj. unfold q2, s, y. destruct (Nat.ltb_spec j (S i)), (Nat.ltb_spec i j); try lia; ring. }
  rewrite X. unfold q1. unfold y, s in *. lra.
Qed.
Lemma zr_step i : (i < h)%nat -> dot (zr (S i)) (zr (S i)) <= 2 * (L / mu) * dot (zr i) (zr i) + 2 / mu * cv i.
Proof.
  intros Hi. pose proof (dot_self_nonneg (zr i)) as A0. assert (K1 : 1 <= L / mu) by (apply (Rmult_le_reg_r mu); [lra|]; unfold Rdiv; rewrite Rmult_assoc, Rinv_l by lra; lra).
  destruct (Nat.lt_ge_cases i k) as [C|C].
  - rewrite (cv_used i Hi C). destruct (PB i Hi C) as [P1 P2]. assert (U := gh_used _ _ _ _ _ _ G i Hi C). fold (s i) (y i) in U.
    pose proof (zr_row i Hi C) as Rw. cbn [zr] in Rw |- *. rewrite dot_vadd_r, dot_smul_r, (dot_comm (y i) (s i)) in Rw.
    set (a := zr i) in *. set (al := q2 i) in *. set (c := dot (s i) (y i)) in *. set (b := q1 i) in *.
    assert (Ea : al = - b - dot (y i) a / c) by (apply (Rmult_eq_reg_r c); [|lra]; unfold Rdiv; rewrite Rmult_minus_distr_r, (Rmult_assoc _ (/ c)), Rinv_l by lra; lra).
    set (pa := vsub a (smul (dot (y i) a / c) (s i))).
    assert (X : dot (vadd a (smul al (s i))) (vadd a (smul al (s i))) <= 2 * dot pa pa + 2 * (b * b * dot (s i) (s i))).
    { assert (N := dot_self_nonneg (vadd pa (smul b (s i)))). unfold pa in *. rewrite Ea.
      autorewrite with vec in *. rewrite !(dot_comm (s i) a) in *. set (r := dot (y i) a / c) in *. set (as_ := dot a (s i)) in *. set (ss := dot (s i) (s i)) in *. set (aa := dot a a) in *. nra. }
    assert (Y : dot pa pa <= L / mu * dot a a).
    { unfold pa. autorewrite with vec. rewrite (dot_comm (s i) a). pose proof (gram3 (y i) (s i) a) as G3. rewrite (dot_comm (y i) (s i)), (dot_comm (s i) a) in G3. fold c in G3.
      set (ya := dot (y i) a) in *. set (as_ := dot a (s i)) in *. set (ss := dot (s i) (s i)) in *. set (yy := dot (y i) (y i)) in *. set (aa := dot a a) in *.
      assert (S0 : 0 <= ss) by apply dot_self_nonneg. assert (Y0 : 0 <= yy) by apply dot_self_nonneg.
      assert (H1 : mu * (yy * ss) <= L * (c * c)).
      { apply Rle_trans with (yy * c). { replace (mu * (yy * ss)) with (yy * (mu * ss)) by ring. apply Rmult_le_compat_l; assumption. }
        replace (L * (c * c)) with (L * c * c) by ring. apply Rmult_le_compat_r; lra. }
      apply (Rmult_le_reg_l (c * c)); [nra|]. apply (Rmult_le_reg_l mu); [lra|].
      replace (mu * (c * c * (L / mu * aa))) with (L * (c * c) * aa) by (field; lra).
      apply Rle_trans with (mu * (yy * ss) * aa); [|apply Rmult_le_compat_r; assumption].
      replace (mu * (yy * ss) * aa) with (mu * (yy * ss * aa)) by ring. apply Rmult_le_compat_l; [lra|].
      eapply Rle_trans; [|exact G3]. apply Req_le. field. lra. }
    assert (Z1 : b * b * dot (s i) (s i) <= / mu * (c * b ^ 2)).
    { apply (Rmult_le_reg_l mu); [lra|]. replace (mu * (/ mu * (c * b ^ 2))) with (c * b ^ 2) by (field; lra).
      replace (mu * (b * b * dot (s i) (s i))) with (b * b * (mu * dot (s i) (s i))) by ring. replace (c * b ^ 2) with (b * b * c) by ring. apply Rmult_le_compat_l; [nra|exact P1]. }
    unfold Rdiv at 2. lra.
  - destruct (unused_zero n h k theta sh yh G z q Hq E i Hi C) as [_ Q2]. cbn [zr]. unfold q2. rewrite Q2.
    assert (N := curv_nonneg n h k theta sh yh G q i Hi). fold cv in N. autorewrite with vec.
    assert (0 <= 2 / mu * cv i) by (apply Rmult_le_pos; [apply Rlt_le, Rdiv_lt_0_compat; lra|exact N]). nra.
Qed.
Lemma zr_bound i : (i <= h)%nat -> dot (zr i) (zr i) <= hess_inverse mu L theta i * (theta * dot u u + sumn i cv).
Proof.
  induction i as [|i IH]; intros Hi.
  - cbn [zr hess_inverse]. rewrite sumn_0, Rplus_0_r, <- Rmult_assoc, Rinv_l by lra. lra.
  - specialize (IH ltac:(lia)). eapply Rle_trans; [apply zr_step; lia|]. cbn [hess_inverse]. rewrite sumn_S.
    assert (Cp := hess_inverse_pos mu L theta i HmL T). assert (N := curv_nonneg n h k theta sh yh G q i ltac:(lia)). fold cv in N.
    assert (S0 : 0 <= sumn i cv) by (apply sumn_nonneg; intros j Hj; apply (curv_nonneg n h k theta sh yh G q j); lia).
    assert (U0 : 0 <= theta * dot u u) by (apply Rmult_le_pos; [lra|apply dot_self_nonneg]).
    assert (K0 : 0 < L / mu) by (apply Rdiv_lt_0_compat; lra). assert (M0 : 0 < 2 / mu) by (apply Rdiv_lt_0_compat; lra).
    set (C := hess_inverse mu L theta i) in *. set (Ei := theta * dot u u + sumn i cv) in *. assert (E0 : 0 <= Ei) by (unfold Ei; lra).
    replace (theta * dot u u + (sumn i cv + cv i)) with (Ei + cv i) by (unfold Ei; ring).
    assert (A : 2 * (L / mu) * dot (zr i) (zr i) <= 2 * (L / mu) * (C * Ei)) by (apply Rmult_le_compat_l; lra).
    assert (B1 : 0 <= 2 * (L / mu) * C * cv i) by (repeat apply Rmult_le_pos; lra). assert (B2 : 0 <= 2 / mu * Ei) by (apply Rmult_le_pos; lra).
    replace ((2 * (L / mu) * C + 2 / mu) * (Ei + cv i)) with (2 * (L / mu) * (C * Ei) + 2 * (L / mu) * C * cv i + 2 / mu * Ei + 2 / mu * cv i) by ring. lra.
Qed.
Lemma En_lower : dot z z <= hess_inverse mu L theta h * En.
Proof.
  assert (X : dot (zr h) (zr h) = dot z z) by (rewrite zr_end, dot_comm, zr_end; reflexivity).
  rewrite <- X, En_eq. apply zr_bound. lia.
Qed.
End Sys.

Lemma b_bounds z : length z = n -> let b := bform theta (w_flat theta sh yh n) (linalg_inv solve (2 * h) (m_inv h k theta sh yh)) z z in
  dot z z <= hess_inverse mu L theta h * b /\ b <= (theta + INR h * L) * dot z z.
Proof.
  intros Hz b. assert (Eb : b = theta * dot z z - dot (wz theta sh yh z) (mvec (minv h k theta sh yh solve) (wz theta sh yh z))).
  { unfold b, bform. change (linalg_inv solve (2 * h) (m_inv h k theta sh yh)) with (minv h k theta sh yh solve). change (w_flat theta sh yh n) with (wmat n theta sh yh).
    rewrite minv_len, (wmat_tvec n h k theta sh yh G) by exact Hz. reflexivity. }
  destruct (minv_spec n h k theta sh yh G solve SOL (wz theta sh yh z) (wz_length n h k theta sh yh G z)) as [L1 E1].
  rewrite Eb. split; [apply (En_lower z _ Hz L1 E1)|apply (En_upper z _ L1 E1)].
Qed.
End Bounds.
