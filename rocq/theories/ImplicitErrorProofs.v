(** Lemmas for C70. *)
From Coq Require Import Reals List Lra Lia Bool Arith.
From Verif Require Import Prelude Vec Mat LinAlg LinSolve LinSolveProofs LinSolveTheorems EqQPProofs ImplicitDiff ImplicitDiffProofs ImplicitDiffTheorems FixedPoint FixedPointTheorems ImplicitError.
Import ListNotations.
Open Scope R_scope.

Lemma norm_vzero n : norm2 (vzero n) = 0.
Proof. apply norm2_zero_iff. rewrite vzero_length. reflexivity. Qed.
Lemma norm_neg (x : vec) : norm2 (smul (-1) x) = norm2 x.
Proof. rewrite norm2_smul. replace (-1) with (-(1)) by ring. rewrite Rabs_Ropp, Rabs_R1. ring. Qed.
Lemma norm_sub (x y : vec) : norm2 (vsub x y) <= norm2 x + norm2 y.
Proof. rewrite vsub_as_vadd. eapply Rle_trans; [apply norm2_triangle|]. rewrite norm_neg. lra. Qed.
Lemma norm_zero_vec n (x : vec) : length x = n -> norm2 x <= 0 -> x = vzero n.
Proof. intros L H. rewrite <- L. apply norm2_zero_iff. pose proof (norm2_nonneg x). lra. Qed.

Lemma expands_nonsingular n a M : mat_shape n n M -> 0 < a -> expands n a (mvec M) -> nonsingular n M.
Proof.
  intros HM Ha HE. split; [exact HM|]. intros v Hv E. pose proof (HE v Hv) as B. rewrite E, norm_vzero in B.
  apply norm_zero_vec; [exact Hv|]. pose proof (norm2_nonneg v).
  apply Rmult_le_reg_l with a; [exact Ha|]. lra.
Qed.
(** the transpose of a square matrix expands as much *)
Lemma expands_transpose n a M : mat_shape n n M -> 0 < a -> expands n a (mvec M) -> expands n a (tvec n M).
Proof.
  intros HM Ha HE u Hu. destruct (gauss_exact n M u (expands_nonsingular n a M HM Ha HE) Hu) as [L E].
  set (x := gauss_solve M u) in *. pose proof (HE x L) as B. rewrite E in B.
  assert (D : dot u u = dot (tvec n M u) x) by (rewrite (dot_tvec n) by assumption; rewrite E; reflexivity).
  pose proof (dot_le_norm (tvec n M u) x) as C. rewrite <- D, <- norm2_sq in C.
  pose proof (norm2_nonneg u) as Pu. pose proof (norm2_nonneg x) as Px. pose proof (norm2_nonneg (tvec n M u)) as Pt.
  destruct (Rle_lt_or_eq_dec 0 (norm2 u) Pu) as [Hp|Hz]; [|rewrite <- Hz; lra].
  apply Rmult_le_reg_r with (norm2 u); [exact Hp|].
  apply Rle_trans with (a * (norm2 (tvec n M u) * norm2 x)); [rewrite Rmult_assoc; apply Rmult_le_compat_l; lra|].
  replace (a * (norm2 (tvec n M u) * norm2 x)) with (norm2 (tvec n M u) * (a * norm2 x)) by ring.
  apply Rmult_le_compat_l; assumption.
Qed.
Lemma bounded_transpose n B M : mat_shape n n M -> bounded n B (mvec M) -> bounded n B (tvec n M).
Proof.
  intros HM HB u Hu. set (t := tvec n M u). assert (Lt : length t = n) by (apply (tvec_length n); exact HM).
  assert (D : dot t t = dot u (mvec M t)) by (unfold t at 1; apply (dot_tvec n); assumption).
  pose proof (dot_le_norm u (mvec M t)) as C. rewrite <- D, <- norm2_sq in C. pose proof (HB t Lt) as Bt.
  pose proof (norm2_nonneg u) as Pu. pose proof (norm2_nonneg t) as Pt.
  destruct (Rle_lt_or_eq_dec 0 (norm2 t) Pt) as [Hp|Hz].
  - apply Rmult_le_reg_r with (norm2 t); [exact Hp|]. eapply Rle_trans; [exact C|].
    replace (B * norm2 u * norm2 t) with (norm2 u * (B * norm2 t)) by ring. apply Rmult_le_compat_l; assumption.
  - rewrite <- Hz. pose proof (HB u Hu) as Bu. pose proof (norm2_nonneg (mvec M u)). lra.
Qed.

Lemma root_vjp_shape solve n A B ps w : jac_ok n ps B -> args_ok ps (root_vjp solve n A B ps w).
Proof.
  intros HB. unfold root_vjp, args_ok. set (u := solve (tvec n A) (smul (-1) w)). clearbody u.
  induction HB as [|p M qs D HM HF IH]; [constructor|]. cbn [combine map fst snd]. constructor; [apply (tvec_length n); exact HM|exact IH].
Qed.
(** ** Error of the derivative *)
Section Err.
Variables (n : nat) (ps : list nat) (A As : mat) (B Bs : list mat) (v : list vec) (Js : vec) (a e1 e2 : R).
Hypothesis HA : mat_shape n n A.
Hypothesis HAs : mat_shape n n As.
Hypothesis HB : jac_ok n ps B.
Hypothesis HBs : jac_ok n ps Bs.
Hypothesis Hv : args_ok ps v.
Hypothesis Ha : 0 < a.
Hypothesis HE : expands n a (mvec A).
Hypothesis HJs : root_derivative n As Bs v Js.
Hypothesis H1 : norm2 (vsub (mvec A Js) (mvec As Js)) <= e1.
Hypothesis H2 : norm2 (vsub (jvp_args n B v) (jvp_args n Bs v)) <= e2.
Lemma derivative_error J : length J = n -> a * norm2 (vsub J Js) <= e1 + e2 + norm2 (vadd (mvec A J) (jvp_args n B v)).
Proof.
  intros LJ. destruct HJs as [LJs EJs].
  eapply Rle_trans; [apply HE; apply vsub_length_eq; assumption|].
  assert (LA : forall w, length (mvec A w) = n) by (intros; rewrite mvec_length; apply HA).
  assert (LAs : forall w, length (mvec As w) = n) by (intros; rewrite mvec_length; apply HAs).
  assert (LB := jvp_args_length n ps B v HB). assert (LBs := jvp_args_length n ps Bs v HBs).
  assert (E : mvec A (vsub J Js) = vsub (vadd (mvec A J) (jvp_args n B v)) (vadd (vsub (mvec A Js) (mvec As Js)) (vsub (jvp_args n B v) (jvp_args n Bs v)))).
  { rewrite mvec_vsub. apply vec_eq_dot.
    - rewrite ?vsub_length, ?vadd_length, ?vsub_length, ?LA, ?LAs. unfold vec in *. lia.
    - intros z. assert (Ez : dot (vadd (mvec As Js) (jvp_args n Bs v)) z = 0) by (rewrite EJs; apply dot_vzero_l).
      autorewrite with vec in *. lra. }
  rewrite E. eapply Rle_trans; [apply norm_sub|]. pose proof (norm2_triangle (vsub (mvec A Js) (mvec As Js)) (vsub (jvp_args n B v) (jvp_args n Bs v))). lra.
Qed.
Lemma jvp_error solve delta : approx_solves solve n (mvec A) delta ->
  exists J, root_jvp solve n A B v = Ok J /\ length J = n /\ a * norm2 (vsub J Js) <= e1 + e2 + delta * norm2 (jvp_args n B v).
Proof.
  intros HS. unfold root_jvp.
  assert (E : length B = length v) by (rewrite <- (Forall2_length HB); apply (Forall2_length Hv)).
  destruct (Nat.eq_dec _ _) as [_|C]; [|contradiction]. rewrite jvp_args_smul.
  assert (Lj := jvp_args_length n ps B v HB).
  destruct (HS (smul (-1) (jvp_args n B v)) ltac:(rewrite smul_length; exact Lj)) as [L Bd]. rewrite norm_neg in Bd.
  eexists. split; [reflexivity|]. split; [exact L|]. eapply Rle_trans; [apply derivative_error; exact L|].
  apply Rplus_le_compat_l. eapply Rle_trans; [|exact Bd]. right. f_equal. apply vec_eq_dot.
  - rewrite vadd_length, vsub_length, smul_length. reflexivity.
  - intros z. autorewrite with vec. ring.
Qed.
Lemma vjp_error solve delta w : approx_solves solve n (tvec n A) delta -> 0 <= delta -> length w = n ->
  args_ok ps (root_vjp solve n A B ps w) /\
  a * Rabs (total_dot (root_vjp solve n A B ps w) v - dot w Js) <= (e1 + e2 + delta * norm2 (jvp_args n B v)) * norm2 w.
Proof.
  intros HS Hd Hw. split.
  - apply root_vjp_shape. exact HB.
  - assert (HN := expands_nonsingular n a A HA Ha HE). assert (Lj := jvp_args_length n ps B v HB).
    destruct (gauss_exact n A (smul (-1) (jvp_args n B v)) HN ltac:(rewrite smul_length; exact Lj)) as [L E].
    set (J := gauss_solve A (smul (-1) (jvp_args n B v))) in *.
    unfold root_vjp. set (u := solve (tvec n A) (smul (-1) w)).
    destruct (HS (smul (-1) w) ltac:(rewrite smul_length; exact Hw)) as [Lu Eu]. fold u in Lu, Eu. rewrite norm_neg in Eu.
    rewrite <- (dot_jvp_args n ps B v u HB) by (rewrite <- (Forall2_length HB); apply (Forall2_length Hv)).
    set (r := vsub (tvec n A u) (smul (-1) w)) in *.
    assert (Ed : dot u (jvp_args n B v) - dot w Js = dot w (vsub J Js) - dot r J).
    { assert (E1 : dot u (mvec A J) = - dot u (jvp_args n B v)) by (rewrite E; autorewrite with vec; ring).
      assert (E2 : dot (tvec n A u) J = dot u (mvec A J)) by (apply (dot_tvec n); assumption).
      unfold r. autorewrite with vec. rewrite E2. lra. }
    rewrite Ed.
    assert (B1 : a * norm2 (vsub J Js) <= e1 + e2).
    { eapply Rle_trans; [apply derivative_error; exact L|]. right.
      assert (Z : vadd (mvec A J) (jvp_args n B v) = vzero n).
      { rewrite E. apply vec_eq_dot; [rewrite vadd_length, smul_length, vzero_length; unfold vec in *; lia|]. intros z. autorewrite with vec. ring. }
      rewrite Z, norm_vzero. ring. }
    assert (B2 : a * norm2 J <= norm2 (jvp_args n B v)).
    { pose proof (HE J L) as B2. rewrite E, norm_neg in B2. exact B2. }
    pose proof (dot_abs_le_norm w (vsub J Js)) as C1. pose proof (dot_abs_le_norm r J) as C2.
    pose proof (norm2_nonneg w) as Pw. pose proof (norm2_nonneg J) as PJ. pose proof (norm2_nonneg r) as Pr.
    assert (T : Rabs (dot w (vsub J Js) - dot r J) <= norm2 w * norm2 (vsub J Js) + delta * norm2 w * norm2 J).
    { unfold Rminus. eapply Rle_trans; [apply Rabs_triang|]. rewrite Rabs_Ropp.
      assert (norm2 r * norm2 J <= delta * norm2 w * norm2 J) by (apply Rmult_le_compat_r; assumption). lra. }
    apply Rle_trans with (a * (norm2 w * norm2 (vsub J Js) + delta * norm2 w * norm2 J)); [apply Rmult_le_compat_l; lra|].
    replace (a * (norm2 w * norm2 (vsub J Js) + delta * norm2 w * norm2 J)) with (norm2 w * (a * norm2 (vsub J Js)) + delta * norm2 w * (a * norm2 J)) by ring.
    replace ((e1 + e2 + delta * norm2 (jvp_args n B v)) * norm2 w) with (norm2 w * (e1 + e2) + delta * norm2 w * norm2 (jvp_args n B v)) by ring.
    apply Rplus_le_compat; [apply Rmult_le_compat_l; assumption|]. apply Rmult_le_compat_l; [apply Rmult_le_pos; assumption|exact B2].
Qed.
End Err.

(** ** Expansion from the function *)
Lemma args_sub_self ps args : args_ok ps args -> norm2 (concat (args_sub args args)) = 0 /\ forall n D2, jac_ok n ps D2 -> jvp_args n D2 (args_sub args args) = vzero n.
Proof.
  intros H. split.
  - assert (E : exists k, concat (args_sub args args) = vzero k).
    { clear H. induction args as [|a l [k IH]]; [exists 0%nat; reflexivity|]. exists (length a + k)%nat. unfold args_sub in *. cbn [combine map fst snd concat].
      rewrite IH, vsub_self. unfold vzero. symmetry. apply repeat_app. }
    destruct E as [k ->]. apply norm_vzero.
  - intros n D2 HD. revert args H. induction HD as [|p M qs Ds HM HF IH]; intros args H; inversion H; subst; [reflexivity|].
    unfold args_sub, jvp_args in *. cbn [combine map fst snd fold_right]. etransitivity; [apply f_equal; apply IH; assumption|].
    rewrite vsub_self. apply vec_eq_dot.
    + rewrite vadd_length, mvec_length, !vzero_length, (proj1 HM). apply Nat.max_id.
    + intros z. rewrite dot_vadd_l. assert (Z : mvec M (vzero (length y)) = vzero n).
      { transitivity (mvec M (smul 0 (vzero (length y)))); [f_equal; apply vec_ext; rewrite ?smul_length, ?vzero_length; [reflexivity|]; intros i Hi; rewrite nth_smul, nth_vzero; ring|].
        rewrite mvec_smul. apply vec_ext; rewrite ?smul_length, ?vzero_length, ?mvec_length, ?(proj1 HM); [reflexivity|]. intros i Hi. rewrite nth_smul, nth_vzero. ring. }
      rewrite Z. rewrite dot_vzero_l. ring.
Qed.
(** along a direction, with the arguments fixed *)
Lemma frechet_line n ps F x args D1 D2 w eps : frechet n ps F x args D1 D2 -> length x = n -> args_ok ps args -> jac_ok n ps D2 -> mat_shape n n D1 -> length w = n ->
  length (F x args) = n -> 0 < eps ->
  exists t, 0 < t /\ forall y, y = vadd x (smul t w) -> length (F y args) = n -> norm2 (vsub (vsub (F y args) (F x args)) (smul t (mvec D1 w))) <= eps * t * norm2 w.
Proof.
  intros HF Hx Ha HD HM Hw LF He. destruct (HF eps He) as (dl & Hdl & H). destruct (args_sub_self ps args Ha) as [Z1 Z2].
  pose proof (norm2_nonneg w) as Pw. set (t := dl / (norm2 w + 1)). assert (Ht : 0 < t) by (apply Rdiv_lt_0_compat; lra).
  exists t. split; [exact Ht|]. intros y Ey Ly.
  assert (Es : vsub y x = smul t w).
  { rewrite Ey. apply vec_ext; [rewrite vsub_length, vadd_length, !smul_length; unfold vec in *; lia|]. intros i Hi. rewrite nth_vsub, nth_vadd, nth_smul. ring. }
  assert (En : norm2 (vsub y x) = t * norm2 w) by (rewrite Es, norm2_smul, Rabs_pos_eq by lra; reflexivity).
  assert (Lt : t * norm2 w < dl).
  { apply Rlt_le_trans with (t * (norm2 w + 1)); [apply Rmult_lt_compat_l; lra|]. unfold t. right. field. lra. }
  assert (Lyn : length y = n) by (rewrite Ey, vadd_length, smul_length; unfold vec in *; lia).
  specialize (H y args Lyn Ha ltac:(rewrite En; exact Lt) ltac:(rewrite Z1; exact Hdl)). rewrite En, Z1, Es, (Z2 n D2 HD), mvec_smul in H.
  eapply Rle_trans; [|eapply Rle_trans; [exact H|right; ring]]. right. f_equal.
  apply vec_eq_dot; [rewrite ?vsub_length, ?vadd_length, ?smul_length, ?vzero_length, ?mvec_length, ?(proj1 HM); unfold vec in *; lia|].
  intros z. autorewrite with vec. ring.
Qed.
Lemma expands_limit n a D1 : (forall eps, 0 < eps -> forall w, length w = n -> (a - eps) * norm2 w <= norm2 (mvec D1 w)) -> expands n a (mvec D1).
Proof.
  intros H w Hw. apply Rnot_lt_le. intros C. pose proof (norm2_nonneg w) as Pw.
  assert (Hp : 0 < norm2 w).
  { destruct (Rle_lt_or_eq_dec 0 (norm2 w) Pw) as [|E]; [assumption|]. rewrite <- E in C. pose proof (norm2_nonneg (mvec D1 w)). lra. }
  set (e := (a * norm2 w - norm2 (mvec D1 w)) / (2 * norm2 w)). assert (He : 0 < e) by (apply Rdiv_lt_0_compat; lra).
  pose proof (H e He w Hw) as B. assert (E : e * norm2 w = (a * norm2 w - norm2 (mvec D1 w)) / 2) by (unfold e; field; lra). lra.
Qed.
Lemma expands_of_frechet n ps F x args D1 D2 a : (forall y, length y = n -> length (F y args) = n) ->
  (forall y z, length y = n -> length z = n -> a * vdist y z <= vdist (F y args) (F z args)) ->
  frechet n ps F x args D1 D2 -> length x = n -> args_ok ps args -> jac_ok n ps D2 -> mat_shape n n D1 -> expands n a (mvec D1).
Proof.
  intros LF Hm HF Hx Ha HD HM. apply expands_limit. intros eps He w Hw.
  destruct (frechet_line n ps F x args D1 D2 w eps HF Hx Ha HD HM Hw (LF x Hx) He) as (t & Ht & H).
  set (y := vadd x (smul t w)) in *. assert (Ly : length y = n) by (unfold y; rewrite vadd_length, smul_length; unfold vec in *; lia).
  specialize (H y eq_refl (LF y Ly)). pose proof (Hm y x Ly Hx) as B. unfold vdist in B.
  assert (Es : vsub y x = smul t w).
  { unfold y. apply vec_ext; [rewrite vsub_length, vadd_length, !smul_length; unfold vec in *; lia|]. intros i Hi. rewrite nth_vsub, nth_vadd, nth_smul. ring. }
  rewrite Es, norm2_smul, Rabs_pos_eq in B by lra.
  assert (T : norm2 (vsub (F y args) (F x args)) <= norm2 (vsub (vsub (F y args) (F x args)) (smul t (mvec D1 w))) + t * norm2 (mvec D1 w)).
  { rewrite <- (Rabs_pos_eq t) at 2 by lra. rewrite <- norm2_smul. eapply Rle_trans; [|apply norm2_triangle]. right. f_equal.
    assert (L1 := LF y Ly). assert (L2 := LF x Hx).
    apply vec_eq_dot; [rewrite ?vadd_length, ?vsub_length, ?smul_length, ?mvec_length, ?(proj1 HM); unfold vec in *; lia|]. intros z. autorewrite with vec. ring. }
  apply Rmult_le_reg_l with t; [exact Ht|]. lra.
Qed.

(** ** A linear solver for the exact derivative *)
Definition dense_solve (n : nat) (f : vec -> vec) (b : vec) : vec := gauss_solve (materialize_array f n) b.
Lemma dense_solves n f : is_linear n f -> (forall x, length x = n -> f x = vzero n -> x = vzero n) -> solves_with (dense_solve n) n f.
Proof.
  intros HL HK b Hb. unfold dense_solve. destruct (gauss_exact n _ b (materialize_nonsingular n f HL HK) Hb) as [L E].
  split; [exact L|]. rewrite <- (materialize_mvec n f HL _ L). exact E.
Qed.
