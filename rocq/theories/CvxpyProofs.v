(** Proofs for C61: differentiation of vector functions of several arguments, quadratic programs. *)
From Coq Require Import String.
From Coq Require Import Reals List Lra Lia Bool Arith Permutation.
From Verif Require Import Prelude Vec Mat LinAlg LinSolve LinSolveProofs Kkt EqQP ImplicitDiff ImplicitDiffProofs ImplicitRun ImplicitRunProofs Cvxpy.
Import ListNotations.
Open Scope R_scope.

(** ** Norms *)
Lemma norm2_app x y : norm2 (x ++ y) <= norm2 x + norm2 y.
Proof.
  apply Rle_sq_le; [assert (A := norm2_nonneg x); assert (B := norm2_nonneg y); lra|]. rewrite norm2_sq, dot_app by reflexivity.
  assert (A := norm2_nonneg x); assert (B := norm2_nonneg y). assert (C := norm2_sq x). assert (D := norm2_sq y). nra.
Qed.
Lemma norm2_app_l x y : norm2 x <= norm2 (x ++ y).
Proof. apply Rle_sq_le; [apply norm2_nonneg|]. rewrite !norm2_sq, dot_app by reflexivity. assert (A := dot_self_nonneg y). lra. Qed.
Lemma norm2_app_r x y : norm2 y <= norm2 (x ++ y).
Proof. apply Rle_sq_le; [apply norm2_nonneg|]. rewrite !norm2_sq, dot_app by reflexivity. assert (A := dot_self_nonneg x). lra. Qed.
Lemma norm2_firstn k x : norm2 (firstn k x) <= norm2 x.
Proof. rewrite <- (firstn_skipn k x) at 2. apply norm2_app_l. Qed.
Lemma norm2_skipn k x : norm2 (skipn k x) <= norm2 x.
Proof. rewrite <- (firstn_skipn k x) at 2. apply norm2_app_r. Qed.
Lemma norm2_vsub x y : norm2 (vsub x y) <= norm2 x + norm2 y.
Proof. rewrite vsub_as_vadd. eapply Rle_trans; [apply norm2_triangle|]. rewrite norm2_smul, Rabs_left by lra. lra. Qed.
Lemma norm2_nil : norm2 [] = 0.
Proof. unfold norm2. cbn. apply sqrt_0. Qed.
Lemma norm2_vzero n : norm2 (vzero n) = 0.
Proof. apply norm2_zero_iff. rewrite vzero_length. reflexivity. Qed.
Lemma norm2_nth_concat b : forall d : list vec, norm2 (nth b d []) <= norm2 (concat d).
Proof.
  induction b as [|b IH]; intros [|v d]; cbn [nth concat]; rewrite ?norm2_nil; try apply Rle_refl; [apply norm2_app_l|].
  eapply Rle_trans; [apply IH|apply norm2_app_r].
Qed.
Lemma skipn_vadd k : forall x y, skipn k (vadd x y) = vadd (skipn k x) (skipn k y).
Proof. induction k as [|k IH]; intros [|a x] [|b y]; cbn; try reflexivity; [destruct (skipn k x); reflexivity|apply IH]. Qed.
Lemma firstn_vadd k : forall x y, firstn k (vadd x y) = vadd (firstn k x) (firstn k y).
Proof. induction k as [|k IH]; intros [|a x] [|b y]; cbn; try reflexivity. f_equal. apply IH. Qed.
Lemma skipn_smul k a : forall x, skipn k (smul a x) = smul a (skipn k x).
Proof. induction k as [|k IH]; intros [|b x]; cbn; try reflexivity. apply IH. Qed.
Lemma firstn_smul k a : forall x, firstn k (smul a x) = smul a (firstn k x).
Proof. induction k as [|k IH]; intros [|b x]; cbn; try reflexivity. f_equal. apply IH. Qed.
Lemma app_vadd a : forall b c d, length a = length b -> vadd (a ++ c) (b ++ d) = vadd a b ++ vadd c d.
Proof. induction a as [|x a IH]; intros [|y b] c d H; try discriminate; [reflexivity|]. cbn. f_equal. apply IH. injection H as H. exact H. Qed.
Lemma app_smul t a b : smul t (a ++ b) = smul t a ++ smul t b.
Proof. apply map_app. Qed.

(** ** Matrices from their entries *)
Lemma rows_of_shape m n : forall v, length v = (m * n)%nat -> mat_shape m n (rows_of m n v).
Proof.
  induction m as [|m IH]; intros v H; [split; [reflexivity|constructor]|]. cbn [rows_of]. destruct (IH (skipn n v)) as [A B]; [rewrite skipn_length; unfold vec in *; lia|].
  split; [cbn; f_equal; exact A|]. constructor; [rewrite firstn_length; unfold vec in *; lia|exact B].
Qed.
Lemma rows_of_flat m n M : mat_shape m n M -> rows_of m n (concat M) = M.
Proof.
  intros [<- H]. induction H as [|r M Hr HM IH]; [reflexivity|]. cbn [length rows_of concat].
  assert (E : forall X, firstn n (r ++ X) = r) by (intros X; rewrite <- Hr, firstn_app, Nat.sub_diag, firstn_all; cbn; apply app_nil_r).
  assert (E2 : forall X, skipn n (r ++ X) = X) by (intros X; rewrite <- Hr, skipn_app, Nat.sub_diag, skipn_all; reflexivity).
  rewrite E, E2, IH. reflexivity.
Qed.
Lemma mvec_rows_vadd m n : forall M M' v, mvec (rows_of m n (vadd M M')) v = vadd (mvec (rows_of m n M) v) (mvec (rows_of m n M') v).
Proof. induction m as [|m IH]; intros M M' v; [reflexivity|]. cbn [rows_of mvec map vadd]. rewrite firstn_vadd, skipn_vadd, dot_vadd_l. f_equal. apply IH. Qed.
Lemma mvec_rows_smul m n a : forall M v, mvec (rows_of m n (smul a M)) v = smul a (mvec (rows_of m n M) v).
Proof. induction m as [|m IH]; intros M v; [reflexivity|]. cbn [rows_of mvec map smul]. rewrite firstn_smul, skipn_smul, dot_smul_l. f_equal. apply IH. Qed.
Lemma mvec_rows_norm m n : forall M v, norm2 (mvec (rows_of m n M) v) <= norm2 M * norm2 v.
Proof.
  intros M v. apply Rle_sq_le; [apply Rmult_le_pos; apply norm2_nonneg|]. rewrite norm2_sq.
  replace (norm2 M * norm2 v * (norm2 M * norm2 v)) with ((norm2 M * norm2 M) * (norm2 v * norm2 v)) by ring. rewrite !norm2_sq.
  revert M. induction m as [|m IH]; intros M; [cbn; apply Rmult_le_pos; apply dot_self_nonneg|]. cbn [rows_of mvec map dot].
  specialize (IH (skipn n M)). assert (C := cauchy_schwarz_sq (firstn n M) v).
  assert (E : dot M M = dot (firstn n M) (firstn n M) + dot (skipn n M) (skipn n M)) by (rewrite <- dot_app, firstn_skipn by reflexivity; reflexivity).
  rewrite E. fold (mvec (rows_of m n (skipn n M)) v). lra.
Qed.
Lemma tvec_rows_length m n M y : length M = (m * n)%nat -> length (tvec n (rows_of m n M) y) = n.
Proof. intros H. apply (tvec_length m). apply rows_of_shape. exact H. Qed.
Lemma tvec_rows_vadd m n M M' v : length M = (m * n)%nat -> length M' = (m * n)%nat ->
  tvec n (rows_of m n (vadd M M')) v = vadd (tvec n (rows_of m n M) v) (tvec n (rows_of m n M') v).
Proof.
  intros H H'. apply vec_eq_dot.
  - rewrite vadd_length, !tvec_rows_length; try assumption; [lia|]. rewrite vadd_length. unfold vec in *. lia.
  - intros w. rewrite dot_vadd_l, !dot_tvec, mvec_rows_vadd, dot_vadd_r. reflexivity.
Qed.
Lemma tvec_rows_smul m n a M v : length M = (m * n)%nat -> tvec n (rows_of m n (smul a M)) v = smul a (tvec n (rows_of m n M) v).
Proof.
  intros H. apply vec_eq_dot.
  - rewrite smul_length, !tvec_rows_length; try assumption; [reflexivity|]. rewrite smul_length. exact H.
  - intros w. rewrite dot_smul_l, !dot_tvec, mvec_rows_smul, dot_smul_r. reflexivity.
Qed.
Lemma tvec_rows_norm m n M y : norm2 (tvec n (rows_of m n M) y) <= norm2 M * norm2 y.
Proof.
  set (t := tvec n (rows_of m n M) y). destruct (Req_EM_T (norm2 t) 0) as [E|E]; [rewrite E; apply Rmult_le_pos; apply norm2_nonneg|].
  assert (P := norm2_nonneg t). assert (E1 : norm2 t * norm2 t <= norm2 M * norm2 y * norm2 t).
  { rewrite norm2_sq. unfold t at 1. rewrite dot_tvec. eapply Rle_trans; [apply dot_le_norm|]. assert (B := mvec_rows_norm m n M t). assert (Py := norm2_nonneg y). nra. }
  apply Rmult_le_reg_r with (norm2 t); lra.
Qed.
Lemma hmul_norm : forall a b, norm2 (hmul a b) <= norm2 a * norm2 b.
Proof.
  intros a b. apply Rle_sq_le; [apply Rmult_le_pos; apply norm2_nonneg|]. rewrite norm2_sq.
  replace (norm2 a * norm2 b * (norm2 a * norm2 b)) with ((norm2 a * norm2 a) * (norm2 b * norm2 b)) by ring. rewrite !norm2_sq.
  revert b. induction a as [|x a IH]; intros [|y b]; cbn [hmul dot]; try lra; try (apply Rmult_le_pos; [|lra]; assert (A := dot_self_nonneg a); nra).
  specialize (IH b). assert (A := dot_self_nonneg a). assert (B := dot_self_nonneg b). assert (X := Rle_0_sqr x). assert (Y := Rle_0_sqr y). unfold Rsqr in *.
  assert (0 <= x * x * dot b b) by (apply Rmult_le_pos; lra). assert (0 <= dot a a * (y * y)) by (apply Rmult_le_pos; lra). nra.
Qed.
Lemma hmul_vadd_l a b c : length a = length b -> hmul (vadd a b) c = vadd (hmul a c) (hmul b c).
Proof. intros H. apply vec_ext; [rewrite hmul_length, !vadd_length, !hmul_length; unfold vec in *; lia|]. intros i _. rewrite nth_hmul, !nth_vadd, !nth_hmul. ring. Qed.
Lemma hmul_vadd_r a b c : length b = length c -> hmul a (vadd b c) = vadd (hmul a b) (hmul a c).
Proof. intros H. apply vec_ext; [rewrite hmul_length, !vadd_length, !hmul_length; unfold vec in *; lia|]. intros i _. rewrite nth_hmul, !nth_vadd, !nth_hmul. ring. Qed.
Lemma hmul_smul_l t a b : hmul (smul t a) b = smul t (hmul a b).
Proof. apply vec_ext; [rewrite hmul_length, !smul_length, hmul_length; reflexivity|]. intros i _. rewrite nth_hmul, !nth_smul, nth_hmul. ring. Qed.
Lemma hmul_smul_r t a b : hmul a (smul t b) = smul t (hmul a b).
Proof. apply vec_ext; [rewrite hmul_length, !smul_length, hmul_length; reflexivity|]. intros i _. rewrite nth_hmul, !nth_smul, nth_hmul. ring. Qed.

(** ** Arguments *)
Definition args_add (a b : list vec) : list vec := args_move a 1 b.
Definition args_smul (t : R) (a : list vec) : list vec := map (smul t) a.
Lemma args_add_ok ps a b : args_ok ps a -> args_ok ps b -> args_ok ps (args_add a b).
Proof. apply args_move_ok. Qed.
Lemma args_smul_ok ps t a : args_ok ps a -> args_ok ps (args_smul t a).
Proof. intros H. unfold args_smul. induction H; constructor; [rewrite smul_length; assumption|assumption]. Qed.
Lemma args_sub_ok ps a b : args_ok ps a -> args_ok ps b -> args_ok ps (args_sub a b).
Proof. intros H. revert b. induction H as [|p x ps a Hx Ha IH]; intros b Hb; inversion Hb as [|? y ? b' Hy Hb']; subst; [constructor|]. unfold args_sub. cbn. constructor; [rewrite vsub_length; unfold vec in *; lia|apply IH; exact Hb']. Qed.
Lemma args_zero_ok ps : args_ok ps (args_zero ps).
Proof. induction ps; constructor; [apply vzero_length|exact IHps]. Qed.
Lemma args_ok_nth ps a b : args_ok ps a -> length (nth b a []) = nth b ps 0%nat.
Proof. intros H. revert b. induction H; intros [|b]; cbn; try reflexivity; [assumption|apply IHForall2]. Qed.
Lemma nth_args_add ps a b i : args_ok ps a -> args_ok ps b -> nth i (args_add a b) [] = vadd (nth i a []) (nth i b []).
Proof.
  intros Ha Hb. unfold args_add. rewrite nth_args_move by (apply Forall2_length in Ha; apply Forall2_length in Hb; lia). rewrite smul_1. reflexivity.
Qed.
Lemma nth_args_smul t a i : nth i (args_smul t a) [] = smul t (nth i a []).
Proof. unfold args_smul. change (@nil R) with (smul t []) at 1. apply map_nth. Qed.
Lemma args_sub_add ps a b : args_ok ps a -> args_ok ps b -> a = args_add b (args_sub a b).
Proof.
  intros H. revert b. induction H as [|p x ps a Hx Ha IH]; intros b Hb; inversion Hb as [|? y ? b' Hy Hb']; subst; [reflexivity|]. unfold args_add, args_sub, args_move in *. cbn [combine map fst snd]. f_equal; [|apply IH; exact Hb'].
  rewrite smul_1, vsub_vadd_cancel by congruence. reflexivity.
Qed.

(** ** Differentiability *)
Section Calc.
Variables (n : nat) (ps : list nat) (x0 : vec) (th0 : list vec).
Hypothesis Hx0 : length x0 = n.
Hypothesis Hth0 : args_ok ps th0.
Definition size (dx : vec) (dth : list vec) : R := norm2 dx + norm2 (concat dth).
Lemma size_nonneg dx dth : 0 <= size dx dth.
Proof. unfold size. assert (A := norm2_nonneg dx). assert (B := norm2_nonneg (concat dth)). lra. Qed.
Definition vfun : Type := vec -> list vec -> vec.
Record linear_map (q : nat) (L : vfun) : Prop := {
  lm_length : forall x th, length x = n -> args_ok ps th -> length (L x th) = q;
  lm_add : forall x th x' th', length x = n -> args_ok ps th -> length x' = n -> args_ok ps th' -> L (vadd x x') (args_add th th') = vadd (L x th) (L x' th');
  lm_smul : forall t x th, length x = n -> args_ok ps th -> L (smul t x) (args_smul t th) = smul t (L x th);
  lm_bound : exists C, 0 <= C /\ forall x th, length x = n -> args_ok ps th -> norm2 (L x th) <= C * size x th }.
Record diff (q : nat) (f L : vfun) : Prop := {
  d_length : forall x th, length x = n -> args_ok ps th -> length (f x th) = q;
  d_linear : linear_map q L;
  d_deriv : forall eps, 0 < eps -> exists delta, 0 < delta /\ forall x th, length x = n -> args_ok ps th ->
    size (vsub x x0) (args_sub th th0) < delta ->
    norm2 (vsub (f x th) (vadd (f x0 th0) (L (vsub x x0) (args_sub th th0)))) <= eps * size (vsub x x0) (args_sub th th0) }.
Ltac dlen := rewrite ?vsub_length, ?vadd_length, ?smul_length, ?app_length, ?hmul_length, ?mvec_length, ?vzero_length; unfold vec in *; lia.

Lemma diff_linear q L : linear_map q L -> diff q L L.
Proof.
  intros H. constructor; [apply H|exact H|]. intros eps He. exists 1. split; [lra|]. intros x th Hx Hth _.
  assert (E : L x th = vadd (L x0 th0) (L (vsub x x0) (args_sub th th0))).
  { rewrite <- (lm_add q L H) by (try assumption; try (apply args_sub_ok; assumption); dlen). rewrite vsub_vadd_cancel, <- (args_sub_add ps) by (try assumption; unfold vec in *; lia). reflexivity. }
  rewrite <- E, vsub_self, norm2_vzero. apply Rmult_le_pos; [lra|apply size_nonneg].
Qed.
Lemma linear_add q L L' : linear_map q L -> linear_map q L' -> linear_map q (fun x th => vadd (L x th) (L' x th)).
Proof.
  intros [A1 A2 A3 (C & HC & A4)] [B1 B2 B3 (D & HD & B4)]. constructor.
  - intros. rewrite vadd_length, A1, B1 by assumption. apply Nat.max_id.
  - intros. rewrite A2, B2 by assumption. apply vec_eq_dot; [rewrite !vadd_length; lia|]. intros w. vring.
  - intros. rewrite A3, B3 by assumption. apply vec_eq_dot; [rewrite !smul_length, !vadd_length, !smul_length; lia|]. intros w. vring.
  - exists (C + D). split; [lra|]. intros x th Hx Hth. eapply Rle_trans; [apply norm2_triangle|]. specialize (A4 x th Hx Hth). specialize (B4 x th Hx Hth). lra.
Qed.
Lemma linear_smul q a L : linear_map q L -> linear_map q (fun x th => smul a (L x th)).
Proof.
  intros [A1 A2 A3 (C & HC & A4)]. constructor.
  - intros. rewrite smul_length, A1 by assumption. reflexivity.
  - intros. rewrite A2 by assumption. apply vec_eq_dot; [rewrite !smul_length, !vadd_length, !smul_length; lia|]. intros w. vring.
  - intros. rewrite A3 by assumption. apply vec_eq_dot; [rewrite !smul_length; lia|]. intros w. vring.
  - exists (Rabs a * C). split; [apply Rmult_le_pos; [apply Rabs_pos|exact HC]|]. intros x th Hx Hth. rewrite norm2_smul, Rmult_assoc. apply Rmult_le_compat_l; [apply Rabs_pos|auto].
Qed.
Lemma linear_app q r L L' : linear_map q L -> linear_map r L' -> linear_map (q + r) (fun x th => L x th ++ L' x th).
Proof.
  intros [A1 A2 A3 (C & HC & A4)] [B1 B2 B3 (D & HD & B4)]. constructor.
  - intros. rewrite app_length, A1, B1 by assumption. reflexivity.
  - intros. rewrite A2, B2 by assumption. rewrite app_vadd; [reflexivity|]. rewrite !A1 by assumption. reflexivity.
  - intros. rewrite A3, B3, app_smul by assumption. reflexivity.
  - exists (C + D). split; [lra|]. intros x th Hx Hth. eapply Rle_trans; [apply norm2_app|]. specialize (A4 x th Hx Hth). specialize (B4 x th Hx Hth). lra.
Qed.
Lemma diff_add q f L g L' : diff q f L -> diff q g L' -> diff q (fun x th => vadd (f x th) (g x th)) (fun x th => vadd (L x th) (L' x th)).
Proof.
  intros [A1 A2 A3] [B1 B2 B3]. constructor; [|apply linear_add; assumption|].
  - intros. rewrite vadd_length, A1, B1 by assumption. apply Nat.max_id.
  - intros eps He. destruct (A3 (eps / 2)) as (d1 & Hd1 & A4); [lra|]. destruct (B3 (eps / 2)) as (d2 & Hd2 & B4); [lra|]. exists (Rmin d1 d2). split; [apply Rmin_glb_lt; assumption|].
    intros x th Hx Hth Hs. assert (S1 := Rmin_l d1 d2). assert (S2 := Rmin_r d1 d2). specialize (A4 x th Hx Hth ltac:(lra)). specialize (B4 x th Hx Hth ltac:(lra)).
    set (dx := vsub x x0) in *. set (dth := args_sub th th0) in *.
    match goal with |- norm2 ?v <= _ => replace v with (vadd (vsub (f x th) (vadd (f x0 th0) (L dx dth))) (vsub (g x th) (vadd (g x0 th0) (L' dx dth)))) end.
    + eapply Rle_trans; [apply norm2_triangle|]. lra.
    + apply vec_eq_dot; [rewrite !vadd_length, !vsub_length, !vadd_length; lia|]. intros w. vring.
Qed.
Lemma diff_smul q a f L : diff q f L -> diff q (fun x th => smul a (f x th)) (fun x th => smul a (L x th)).
Proof.
  intros [A1 A2 A3]. constructor; [|apply linear_smul; assumption|].
  - intros. rewrite smul_length, A1 by assumption. reflexivity.
  - intros eps He. destruct (A3 (eps / (Rabs a + 1))) as (d1 & Hd1 & A4); [apply Rdiv_lt_0_compat; [lra|assert (P := Rabs_pos a); lra]|]. exists d1. split; [exact Hd1|].
    intros x th Hx Hth Hs. specialize (A4 x th Hx Hth Hs). set (dx := vsub x x0) in *. set (dth := args_sub th th0) in *.
    match goal with |- norm2 ?v <= _ => replace v with (smul a (vsub (f x th) (vadd (f x0 th0) (L dx dth)))) end.
    + rewrite norm2_smul. assert (P := Rabs_pos a). assert (Sz := size_nonneg dx dth). set (nn := norm2 _) in *.
      apply Rle_trans with (Rabs a * (eps / (Rabs a + 1) * size dx dth)); [apply Rmult_le_compat_l; assumption|].
      replace (Rabs a * (eps / (Rabs a + 1) * size dx dth)) with ((Rabs a / (Rabs a + 1)) * (eps * size dx dth)) by (field; lra).
      assert (Q : Rabs a / (Rabs a + 1) <= 1) by (apply Rmult_le_reg_r with (Rabs a + 1); [lra|]; unfold Rdiv; rewrite Rmult_assoc, Rinv_l by lra; lra).
      assert (Z : 0 <= eps * size dx dth) by (apply Rmult_le_pos; lra). nra.
    + apply vec_eq_dot; [rewrite !smul_length, !vsub_length, !vadd_length, !smul_length; lia|]. intros w. vring.
Qed.
Lemma diff_app q r f L g L' : diff q f L -> diff r g L' -> diff (q + r) (fun x th => f x th ++ g x th) (fun x th => L x th ++ L' x th).
Proof.
  intros [A1 A2 A3] [B1 B2 B3]. constructor; [|apply linear_app; assumption|].
  - intros. rewrite app_length, A1, B1 by assumption. reflexivity.
  - intros eps He. destruct (A3 (eps / 2)) as (d1 & Hd1 & A4); [lra|]. destruct (B3 (eps / 2)) as (d2 & Hd2 & B4); [lra|]. exists (Rmin d1 d2). split; [apply Rmin_glb_lt; assumption|].
    intros x th Hx Hth Hs. assert (S1 := Rmin_l d1 d2). assert (S2 := Rmin_r d1 d2). specialize (A4 x th Hx Hth ltac:(lra)). specialize (B4 x th Hx Hth ltac:(lra)).
    set (dx := vsub x x0) in *. set (dth := args_sub th th0) in *.
    assert (Ldx : length dx = n) by (unfold dx; dlen). assert (Ldth : args_ok ps dth) by (apply args_sub_ok; assumption).
    rewrite app_vadd by (rewrite A1, (lm_length q L A2) by assumption; reflexivity).
    assert (Es : forall a b c d, length a = length b -> vsub (a ++ c) (b ++ d) = vsub a b ++ vsub c d).
    { intros a b c d E. rewrite !vsub_as_vadd, app_smul, app_vadd by (rewrite smul_length; exact E). reflexivity. }
    rewrite Es by (rewrite A1, vadd_length, A1, (lm_length q L A2) by assumption; lia).
    eapply Rle_trans; [apply norm2_app|]. lra.
Qed.

(** a bounded bilinear operation *)
Record bilinear (p q r : nat) (B : vec -> vec -> vec) : Prop := {
  b_length : forall a b, length a = p -> length b = q -> length (B a b) = r;
  b_add_l : forall a a' b, length a = p -> length a' = p -> length b = q -> B (vadd a a') b = vadd (B a b) (B a' b);
  b_add_r : forall a b b', length a = p -> length b = q -> length b' = q -> B a (vadd b b') = vadd (B a b) (B a b');
  b_smul_l : forall t a b, length a = p -> length b = q -> B (smul t a) b = smul t (B a b);
  b_smul_r : forall t a b, length a = p -> length b = q -> B a (smul t b) = smul t (B a b);
  b_norm : forall a b, length a = p -> length b = q -> norm2 (B a b) <= norm2 a * norm2 b }.
Lemma diff_bilinear p q r B f L g L' : bilinear p q r B -> diff p f L -> diff q g L' ->
  diff r (fun x th => B (f x th) (g x th)) (fun x th => vadd (B (L x th) (g x0 th0)) (B (f x0 th0) (L' x th))).
Proof.
  intros HB Df Dg. pose proof Df as [A1 A2 A3]. pose proof Dg as [B1 B2 B3]. set (f0 := f x0 th0). set (g0 := g x0 th0).
  assert (Lf0 : length f0 = p) by (apply A1; assumption). assert (Lg0 : length g0 = q) by (apply B1; assumption).
  constructor.
  - intros x th Hx Hth. apply (b_length p q); auto.
  - apply linear_add; destruct A2 as [C1 C2 C3 (C & HC & C4)]; destruct B2 as [D1 D2 D3 (D & HD & D4)].
    + constructor.
      * intros. apply (b_length p q); auto.
      * intros. rewrite C2 by assumption. apply (b_add_l p q r); auto.
      * intros. rewrite C3 by assumption. apply (b_smul_l p q r); auto.
      * exists (C * norm2 g0). split; [apply Rmult_le_pos; [exact HC|apply norm2_nonneg]|]. intros x th Hx Hth. eapply Rle_trans; [apply (b_norm p q r); auto|].
        specialize (C4 x th Hx Hth). assert (P := norm2_nonneg g0). nra.
    + constructor.
      * intros. apply (b_length p q); auto.
      * intros. rewrite D2 by assumption. apply (b_add_r p q r); auto.
      * intros. rewrite D3 by assumption. apply (b_smul_r p q r); auto.
      * exists (norm2 f0 * D). split; [apply Rmult_le_pos; [apply norm2_nonneg|exact HD]|]. intros x th Hx Hth. eapply Rle_trans; [apply (b_norm p q r); auto|].
        specialize (D4 x th Hx Hth). assert (P := norm2_nonneg f0). nra.
  - destruct (lm_bound p L A2) as (C & HC & C4). destruct (lm_bound q L' B2) as (D & HD & D4).
    intros eps He. assert (Pf := norm2_nonneg f0). assert (Pg := norm2_nonneg g0).
    set (K := norm2 f0 + norm2 g0 + 1). set (M := (C + 1) * (D + 1)). assert (HK : 1 <= K) by (unfold K; lra). assert (HM : 1 <= M) by (unfold M; nra).
    set (e1 := Rmin 1 (eps / (2 * K))). assert (He1 : 0 < e1) by (apply Rmin_glb_lt; [lra|apply Rdiv_lt_0_compat; lra]).
    assert (He1' : e1 * K <= eps / 2).
    { apply Rle_trans with (eps / (2 * K) * K); [apply Rmult_le_compat_r; [lra|apply Rmin_r]|]. right. field. lra. }
    destruct (A3 e1 He1) as (d1 & Hd1 & A4). destruct (B3 e1 He1) as (d2 & Hd2 & B4). set (d3 := eps / (2 * M)). assert (Hd3 : 0 < d3) by (apply Rdiv_lt_0_compat; lra).
    exists (Rmin d3 (Rmin d1 d2)). split; [repeat apply Rmin_glb_lt; assumption|].
    intros x th Hx Hth Hs. assert (S0 := Rmin_l d3 (Rmin d1 d2)). assert (S0' := Rmin_r d3 (Rmin d1 d2)). assert (S1 := Rmin_l d1 d2). assert (S2 := Rmin_r d1 d2).
    specialize (A4 x th Hx Hth ltac:(lra)). specialize (B4 x th Hx Hth ltac:(lra)).
    set (dx := vsub x x0) in *. set (dth := args_sub th th0) in *. assert (Sz := size_nonneg dx dth). set (s := size dx dth) in *.
    assert (Ldx : length dx = n) by (unfold dx; dlen). assert (Ldth : args_ok ps dth) by (apply args_sub_ok; assumption).
    specialize (C4 dx dth Ldx Ldth). specialize (D4 dx dth Ldx Ldth). fold s in C4, D4. fold f0 in A4. fold g0 in B4.
    set (lf := L dx dth) in *. set (lg := L' dx dth) in *. set (fx := f x th) in *. set (gx := g x th) in *.
    assert (Llf : length lf = p) by (apply (lm_length p L A2); assumption). assert (Llg : length lg = q) by (apply (lm_length q L' B2); assumption).
    assert (Lfx : length fx = p) by (apply A1; assumption). assert (Lgx : length gx = q) by (apply B1; assumption).
    set (rf := vsub fx (vadd f0 lf)) in *. set (rg := vsub gx (vadd g0 lg)) in *.
    assert (Lrf : length rf = p) by (unfold rf; dlen). assert (Lrg : length rg = q) by (unfold rg; dlen).
    assert (Ef : fx = vadd f0 (vadd lf rf)) by (apply vec_eq_dot; [dlen|]; intros w; unfold rf; vring).
    assert (Eg : gx = vadd g0 (vadd lg rg)) by (apply vec_eq_dot; [dlen|]; intros w; unfold rg; vring).
    set (df := vadd lf rf) in *. set (dg := vadd lg rg) in *. assert (Ldf : length df = p) by (unfold df; dlen). assert (Ldg : length dg = q) by (unfold dg; dlen).
    assert (Lb : forall a b, length a = p -> length b = q -> length (B a b) = r) by (apply (b_length p q r); exact HB).
    match goal with |- norm2 ?v <= _ => replace v with (vadd (vadd (B rf g0) (B f0 rg)) (B df dg)) end.
    + assert (Ndf : norm2 df <= (C + 1) * s). { unfold df. eapply Rle_trans; [apply norm2_triangle|]. assert (Q : e1 <= 1) by apply Rmin_l. assert (Q' : e1 * s <= 1 * s) by (apply Rmult_le_compat_r; lra). lra. }
      assert (Ndg : norm2 dg <= (D + 1) * s). { unfold dg. eapply Rle_trans; [apply norm2_triangle|]. assert (Q : e1 <= 1) by apply Rmin_l. assert (Q' : e1 * s <= 1 * s) by (apply Rmult_le_compat_r; lra). lra. }
      assert (N1 : norm2 (B rf g0) <= e1 * s * norm2 g0) by (eapply Rle_trans; [apply (b_norm p q r); auto|]; apply Rmult_le_compat_r; assumption).
      assert (N2 : norm2 (B f0 rg) <= norm2 f0 * (e1 * s)) by (eapply Rle_trans; [apply (b_norm p q r); auto|]; apply Rmult_le_compat_l; assumption).
      assert (N3 : norm2 (B df dg) <= M * s * s).
      { eapply Rle_trans; [apply (b_norm p q r); auto|]. replace (M * s * s) with (((C + 1) * s) * ((D + 1) * s)) by (unfold M; ring). apply Rmult_le_compat; try assumption; apply norm2_nonneg. }
      assert (N4 : M * s * s <= eps / 2 * s).
      { apply Rmult_le_compat_r; [exact Sz|]. apply Rle_trans with (M * d3); [apply Rmult_le_compat_l; lra|]. right. unfold d3. field. lra. }
      assert (N5 : e1 * s * norm2 g0 + norm2 f0 * (e1 * s) <= eps / 2 * s).
      { replace (e1 * s * norm2 g0 + norm2 f0 * (e1 * s)) with ((e1 * (norm2 f0 + norm2 g0)) * s) by ring. apply Rmult_le_compat_r; [exact Sz|].
        apply Rle_trans with (e1 * K); [|exact He1']. apply Rmult_le_compat_l; unfold K; lra. }
      eapply Rle_trans; [apply norm2_triangle|]. assert (T := norm2_triangle (B rf g0) (B f0 rg)). lra.
    + cbv beta. fold f0 g0 lf lg. rewrite Ef, Eg.
      assert (E1 : B (vadd f0 df) (vadd g0 dg) = vadd (vadd (B f0 g0) (B f0 dg)) (vadd (B df g0) (B df dg))).
      { rewrite (b_add_l p q r B HB) by (try assumption; dlen). rewrite !(b_add_r p q r B HB) by assumption. reflexivity. }
      assert (Ea : B df g0 = vadd (B lf g0) (B rf g0)) by (apply (b_add_l p q r B HB); assumption).
      assert (Eb : B f0 dg = vadd (B f0 lg) (B f0 rg)) by (apply (b_add_r p q r B HB); assumption). rewrite E1, Ea, Eb.
      apply vec_eq_dot; [rewrite !vsub_length, !vadd_length, !Lb by assumption; lia|]. intros w. vring.
Qed.
Lemma diff_ext q f f' L L' : diff q f L -> (forall x th, length x = n -> args_ok ps th -> f x th = f' x th) -> (forall x th, length x = n -> args_ok ps th -> L x th = L' x th) -> diff q f' L'.
Proof.
  intros [A1 [A2 A3 A4 (C & HC & A5)] A6] E1 E2. constructor.
  - intros. rewrite <- E1 by assumption. auto.
  - constructor.
    + intros. rewrite <- E2 by assumption. auto.
    + intros. rewrite <- !E2 by (try assumption; try (apply args_add_ok; assumption); dlen). auto.
    + intros. rewrite <- !E2 by (try assumption; try (apply args_smul_ok; assumption); dlen). auto.
    + exists C. split; [exact HC|]. intros. rewrite <- E2 by assumption. auto.
  - intros eps He. destruct (A6 eps He) as (d & Hd & A7). exists d. split; [exact Hd|]. intros x th Hx Hth Hs. rewrite <- !E1, <- E2 by (try assumption; try (apply args_sub_ok; assumption); dlen). auto.
Qed.
End Calc.

(** ** Matrices of linear maps *)
Lemma firstn_S_nth k : forall x : vec, (k < length x)%nat -> firstn (S k) x = firstn k x ++ [nth k x 0].
Proof. induction k as [|k IH]; intros [|a x] H; cbn [length] in H; try lia; [reflexivity|]. change (firstn (S (S k)) (a :: x)) with (a :: firstn (S k) x). rewrite IH by lia. reflexivity. Qed.
Section Columns.
Variables (q p : nat) (f : vec -> vec).
Hypothesis Hlen : forall x, length x = p -> length (f x) = q.
Hypothesis Hadd : forall x y, length x = p -> length y = p -> f (vadd x y) = vadd (f x) (f y).
Hypothesis Hsmul : forall a x, length x = p -> f (smul a x) = smul a (f x).
Definition imgs (k : nat) : mat := map (fun j => f (unit_vec p j)) (seq 0 k).
Lemma imgs_shape k : mat_shape k q (imgs k).
Proof. split; [unfold imgs; rewrite map_length, seq_length; reflexivity|]. apply Forall_forall. intros r Hr. apply in_map_iff in Hr. destruct Hr as (j & <- & _). apply Hlen, unit_vec_length. Qed.
Lemma columns_shape : mat_shape q p (columns q p f).
Proof. apply mtrans_shape. apply imgs_shape. Qed.
Lemma f_vzero : f (vzero p) = vzero q.
Proof.
  assert (E : vzero p = smul 0 (vzero p)) by (apply vec_ext; [rewrite smul_length; reflexivity|]; intros i _; rewrite nth_smul, nth_vzero; ring).
  rewrite E, Hsmul by apply vzero_length. apply vec_ext; [rewrite smul_length, Hlen, vzero_length by apply vzero_length; reflexivity|]. intros i _. rewrite nth_smul, nth_vzero. ring.
Qed.
Lemma tvec_snoc (C : mat) k (x : vec) a c : length C = k -> length x = k -> (forall r, In r C -> length r = q) -> length c = q ->
  tvec q (C ++ [c]) (x ++ [a]) = vadd (tvec q C x) (smul a c).
Proof.
  intros HC Hx HCr Hc. assert (S1 : mat_shape k q C) by (split; [exact HC|apply Forall_forall; exact HCr]).
  assert (S2 : mat_shape (k + 1) q (C ++ [c])) by (split; [rewrite app_length; cbn; lia|apply Forall_app; split; [exact (proj2 S1)|constructor; [exact Hc|constructor]]]).
  apply vec_eq_dot; [rewrite (tvec_length _ _ _ _ S2), vadd_length, (tvec_length _ _ _ _ S1), smul_length, Hc; lia|].
  intros w. rewrite dot_vadd_l, dot_smul_l, !dot_tvec. unfold mvec. rewrite map_app, dot_app by (rewrite map_length; unfold vec in *; lia). cbn [map dot]. ring.
Qed.
Lemma imgs_comb k : (k <= p)%nat -> forall x, length x = p -> (forall i, (k <= i < p)%nat -> nth i x 0 = 0) -> f x = tvec q (imgs k) (firstn k x).
Proof.
  induction k as [|k IH]; intros Hk x Hx Hz.
  - assert (E : x = vzero p). { apply vec_ext; [rewrite vzero_length; exact Hx|]. intros i Hi. rewrite nth_vzero. apply Hz. lia. }
    rewrite E, f_vzero. reflexivity.
  - set (y := vsub x (smul (nth k x 0) (unit_vec p k))).
    assert (Ly : length y = p) by (unfold y; rewrite vsub_length, smul_length, unit_vec_length; lia).
    assert (Ny : forall i, (i < p)%nat -> nth i y 0 = if Nat.eq_dec k i then 0 else nth i x 0).
    { intros i Hi. unfold y. rewrite nth_vsub, nth_smul, nth_unit_vec by exact Hi. destruct (Nat.eq_dec k i) as [->|]; ring. }
    assert (Ex : x = vadd y (smul (nth k x 0) (unit_vec p k))).
    { apply vec_ext; [rewrite vadd_length, smul_length, unit_vec_length; lia|]. intros i Hi. rewrite nth_vadd, nth_smul, Ny, nth_unit_vec by lia.
      destruct (Nat.eq_dec k i) as [->|]; ring. }
    rewrite Ex at 1. rewrite Hadd, Hsmul by (rewrite ?smul_length, ?unit_vec_length; assumption || reflexivity).
    rewrite (IH ltac:(lia) y Ly).
    2:{ intros i Hi. rewrite Ny by lia. destruct (Nat.eq_dec k i); [reflexivity|apply Hz; lia]. }
    unfold imgs at 2. rewrite seq_S, map_app. cbn [map plus]. fold (imgs k).
    assert (F1 : firstn (S k) x = firstn k x ++ [nth k x 0]) by (apply firstn_S_nth; unfold vec in *; lia).
    rewrite F1, (tvec_snoc (imgs k) k); [|exact (proj1 (imgs_shape k))|rewrite firstn_length; unfold vec in *; lia|intros r Hr; exact (proj1 (Forall_forall _ _) (proj2 (imgs_shape k)) r Hr)|apply Hlen, unit_vec_length].
    f_equal. f_equal. apply vec_ext; [rewrite !firstn_length; unfold vec in *; lia|]. intros i Hi. rewrite firstn_length in Hi.
    assert (Nf : forall v : vec, nth i (firstn k v) 0 = if Nat.ltb i k then nth i v 0 else 0).
    { intros v. destruct (Nat.ltb_spec i k) as [L|L]; [|apply nth_overflow; rewrite firstn_length; unfold vec in *; lia]. rewrite <- (firstn_skipn k v) at 2. destruct (Nat.ltb_spec i (length v)) as [Q|Q];
      [rewrite app_nth1 by (rewrite firstn_length; unfold vec in *; lia); reflexivity|rewrite !nth_overflow; try reflexivity; rewrite ?firstn_length, ?app_length, ?firstn_length, ?skipn_length; unfold vec in *; lia]. }
    rewrite !Nf, Ny by (unfold vec in *; lia). destruct (Nat.ltb_spec i k); [|reflexivity]. destruct (Nat.eq_dec k i); [lia|reflexivity].
Qed.
Lemma columns_mvec x : length x = p -> mvec (columns q p f) x = f x.
Proof.
  intros Hx. rewrite (imgs_comb p ltac:(lia) x Hx ltac:(intros; lia)), firstn_all2 by (unfold vec in *; lia).
  apply (mvec_mtrans p q); [apply imgs_shape|exact Hx].
Qed.
End Columns.
Section Partials.
Variables (n q : nat) (ps : list nat) (L : vfun).
Hypothesis HL : linear_map n ps q L.
Lemma vadd_vzero2 k : vadd (vzero k) (vzero k) = vzero k.
Proof. apply vec_ext; [rewrite vadd_length, vzero_length; lia|]. intros i _. rewrite nth_vadd, nth_vzero. ring. Qed.
Lemma smul_vzero' a k : smul a (vzero k) = vzero k.
Proof. apply vec_ext; [rewrite smul_length; reflexivity|]. intros i _. rewrite nth_smul, nth_vzero. ring. Qed.
Lemma vadd_vzero_r' x k : length x = k -> vadd x (vzero k) = x.
Proof. intros H. apply vec_ext; [rewrite vadd_length, vzero_length; unfold vec in *; lia|]. intros i _. rewrite nth_vadd, nth_vzero. ring. Qed.
Lemma vadd_vzero_l' x k : length x = k -> vadd (vzero k) x = x.
Proof. intros H. apply vec_ext; [rewrite vadd_length, vzero_length; unfold vec in *; lia|]. intros i _. rewrite nth_vadd, nth_vzero. ring. Qed.
Lemma args_add_zero_l rs d : args_ok rs d -> args_add (args_zero rs) d = d.
Proof. intros H. unfold args_add, args_move, args_zero. induction H as [|p v rs d Hv Hd IH]; [reflexivity|]. cbn [map combine fst snd]. rewrite IH, smul_1, vadd_vzero_l' by exact Hv. reflexivity. Qed.
Lemma args_add_zero_r rs d : args_ok rs d -> args_add d (args_zero rs) = d.
Proof. intros H. unfold args_add, args_move, args_zero. induction H as [|p v rs d Hv Hd IH]; [reflexivity|]. cbn [map combine fst snd]. rewrite IH, smul_1, vadd_vzero_r' by exact Hv. reflexivity. Qed.
Lemma args_smul_zero a rs : args_smul a (args_zero rs) = args_zero rs.
Proof. unfold args_smul, args_zero. rewrite map_map. apply map_ext. intros k. apply smul_vzero'. Qed.
Lemma args_add_app a b c d : length a = length b -> args_add (a ++ c) (b ++ d) = args_add a b ++ args_add c d.
Proof. unfold args_add, args_move. revert b. induction a as [|x a IH]; intros [|y b] H; try discriminate; [reflexivity|]. cbn [app combine map]. rewrite IH by (injection H as H; exact H). reflexivity. Qed.
Lemma args_add_cons a b c d : args_add (a :: c) (b :: d) = vadd a b :: args_add c d.
Proof. unfold args_add, args_move. cbn [combine map fst snd]. rewrite smul_1. reflexivity. Qed.
Lemma args_single_split rs p rs' d : args_single (rs ++ p :: rs') (length rs) d = args_zero rs ++ d :: args_zero rs'.
Proof.
  unfold args_single, args_zero. rewrite map_app. cbn [map]. rewrite firstn_app, map_length, Nat.sub_diag, firstn_all2 by (rewrite map_length; lia). cbn [firstn]. rewrite app_nil_r. f_equal. f_equal.
  rewrite skipn_app, map_length, skipn_all2 by (rewrite map_length; lia). replace (S (length rs) - length rs)%nat with 1%nat by lia. reflexivity.
Qed.
Lemma split_at b : (b < length ps)%nat -> exists rs p rs', ps = rs ++ p :: rs' /\ length rs = b /\ nth b ps 0%nat = p.
Proof.
  intros H. destruct (nth_split ps 0%nat H) as (rs & rs' & E & Hl). exists rs, (nth b ps 0%nat), rs'. auto.
Qed.
Lemma args_single_ok b d : (b < length ps)%nat -> length d = nth b ps 0%nat -> args_ok ps (args_single ps b d).
Proof.
  intros H Hd. destruct (split_at b H) as (rs & p & rs' & E & <- & N). rewrite N in Hd. rewrite E at 2. rewrite args_single_split. rewrite E.
  apply Forall2_app; [apply args_zero_ok|constructor; [exact Hd|apply args_zero_ok]].
Qed.
Lemma args_single_add b d d' : (b < length ps)%nat -> args_single ps b (vadd d d') = args_add (args_single ps b d) (args_single ps b d').
Proof.
  intros H. destruct (split_at b H) as (rs & p & rs' & E & <- & N). rewrite E, !args_single_split, args_add_app, args_add_cons by reflexivity.
  rewrite !args_add_zero_r by apply args_zero_ok. reflexivity.
Qed.
Lemma args_single_smul b a d : (b < length ps)%nat -> args_single ps b (smul a d) = args_smul a (args_single ps b d).
Proof.
  intros H. destruct (split_at b H) as (rs & p & rs' & E & <- & N). rewrite E, !args_single_split. unfold args_smul. rewrite map_app. cbn [map].
  fold (args_smul a (args_zero rs)) (args_smul a (args_zero rs')). rewrite !args_smul_zero. reflexivity.
Qed.
Definition part1 (d : vec) : vec := L d (args_zero ps).
Definition part2 (b : nat) (d : vec) : vec := L (vzero n) (args_single ps b d).
Lemma part1_mvec d : length d = n -> mvec (columns q n part1) d = part1 d.
Proof.
  apply columns_mvec; unfold part1.
  - intros x Hx. apply (lm_length n ps q L HL); [exact Hx|apply args_zero_ok].
  - intros x y Hx Hy. rewrite <- (lm_add n ps q L HL) by (assumption || apply args_zero_ok). rewrite args_add_zero_l by apply args_zero_ok. reflexivity.
  - intros a x Hx. rewrite <- (lm_smul n ps q L HL) by (assumption || apply args_zero_ok). rewrite args_smul_zero. reflexivity.
Qed.
Lemma part2_length b d : (b < length ps)%nat -> length d = nth b ps 0%nat -> length (part2 b d) = q.
Proof. intros Hb Hd. apply (lm_length n ps q L HL); [apply vzero_length|apply args_single_ok; assumption]. Qed.
Lemma part2_mvec b d : (b < length ps)%nat -> length d = nth b ps 0%nat -> mvec (columns q (nth b ps 0%nat) (part2 b)) d = part2 b d.
Proof.
  intros Hb. apply columns_mvec.
  - intros x Hx. apply part2_length; assumption.
  - intros x y Hx Hy. unfold part2. rewrite args_single_add by exact Hb. rewrite <- (lm_add n ps q L HL) by (apply vzero_length || apply args_single_ok; assumption). rewrite vadd_vzero2. reflexivity.
  - intros a x Hx. unfold part2. rewrite args_single_smul by exact Hb. rewrite <- (lm_smul n ps q L HL) by (apply vzero_length || apply args_single_ok; assumption). rewrite smul_vzero'. reflexivity.
Qed.
Definition parts2 : list mat := map (fun b => columns q (nth b ps 0%nat) (part2 b)) (seq 0 (length ps)).
Lemma L_zero : L (vzero n) (args_zero ps) = vzero q.
Proof. assert (E := part1_mvec (vzero n) (vzero_length n)). unfold part1 in E at 2. rewrite <- E. rewrite mvec_vzero. f_equal. apply columns_shape. intros x Hx. apply (lm_length n ps q L HL); [exact Hx|apply args_zero_ok]. Qed.
Lemma parts2_sum : forall rs' rs d, ps = rs ++ rs' -> args_ok rs' d ->
  L (vzero n) (args_zero rs ++ d) = jvp_args q (map (fun b => columns q (nth b ps 0%nat) (part2 b)) (seq (length rs) (length rs'))) d.
Proof.
  induction rs' as [|p rs' IH]; intros rs d E Hd; inversion Hd as [|? v ? d' Hv Hd']; subst d.
  - rewrite app_nil_r in *. subst rs. cbn. apply L_zero.
  - subst x. cbn [length seq map]. unfold jvp_args. cbn [combine fold_right fst snd]. fold (jvp_args q).
    assert (Hb : (length rs < length ps)%nat) by (rewrite E, app_length; cbn; lia).
    assert (Np : nth (length rs) ps 0%nat = p) by (rewrite E, app_nth2, Nat.sub_diag by lia; reflexivity).
    rewrite part2_mvec by (rewrite ?Np; assumption).
    assert (Ez : args_zero rs ++ v :: d' = args_add (args_single ps (length rs) v) (args_zero (rs ++ [p]) ++ d')).
    { assert (Ez' : args_zero (rs ++ [p]) ++ d' = args_zero rs ++ vzero p :: d') by (unfold args_zero; rewrite map_app, <- app_assoc; reflexivity).
      rewrite E, args_single_split, Ez'.
      rewrite args_add_app, args_add_cons by reflexivity. rewrite !args_add_zero_l, vadd_vzero_r' by (assumption || apply args_zero_ok). reflexivity. }
    specialize (IH (rs ++ [p]) d' ltac:(rewrite <- app_assoc; exact E) Hd'). rewrite app_length in IH. cbn [length] in IH. rewrite Nat.add_1_r in IH.
    unfold jvp_args in IH. rewrite <- IH. unfold part2.
    rewrite <- (lm_add n ps q L HL); try apply vzero_length; try (apply args_single_ok; [assumption|rewrite Np; assumption]).
    + rewrite vadd_vzero2, <- Ez. reflexivity.
    + rewrite E. replace (rs ++ p :: rs') with ((rs ++ [p]) ++ rs') by (rewrite <- app_assoc; reflexivity). apply Forall2_app; [apply args_zero_ok|exact Hd'].
Qed.
Lemma lin_partials dx dth : length dx = n -> args_ok ps dth -> L dx dth = vadd (mvec (columns q n part1) dx) (jvp_args q parts2 dth).
Proof.
  intros Hx Hth. rewrite part1_mvec by exact Hx. unfold parts2. assert (E := parts2_sum ps [] dth eq_refl Hth). cbn [app args_zero map length] in E. rewrite <- E. unfold part1.
  rewrite <- (lm_add n ps q L HL) by (try assumption; apply vzero_length || apply args_zero_ok). rewrite vadd_vzero_r', args_add_zero_l by assumption. reflexivity.
Qed.
Lemma parts2_jac : jac_ok q ps parts2.
Proof.
  assert (G : forall rs' rs, ps = rs ++ rs' -> jac_ok q rs' (map (fun b => columns q (nth b ps 0%nat) (part2 b)) (seq (length rs) (length rs')))).
  { induction rs' as [|p rs' IH]; intros rs E; [constructor|]. cbn [length seq map]. constructor.
    - assert (Np : nth (length rs) ps 0%nat = p) by (rewrite E, app_nth2, Nat.sub_diag by lia; reflexivity). rewrite Np. apply columns_shape. intros x Hx. apply part2_length; [rewrite E, app_length; cbn; lia|congruence].
    - specialize (IH (rs ++ [p]) ltac:(rewrite <- app_assoc; exact E)). rewrite app_length in IH. cbn [length] in IH. rewrite Nat.add_1_r in IH. exact IH. }
  exact (G ps [] eq_refl).
Qed.
Lemma diff_frechet f x0 th0 : length x0 = n -> args_ok ps th0 -> diff n ps x0 th0 q f L -> q = n -> frechet n ps f x0 th0 (columns q n part1) parts2.
Proof.
  intros Hx0 Hth0 [A1 A2 A3] Hq eps He. destruct (A3 eps He) as (d & Hd & A4). exists (d / 2). split; [lra|]. intros x th Hx Hth S1 S2.
  replace (jvp_args n) with (jvp_args q) by (rewrite Hq; reflexivity). rewrite <- lin_partials by (try (apply args_sub_ok; assumption); rewrite vsub_length; unfold vec in *; lia). apply A4; try assumption. unfold size. lra.
Qed.
End Partials.
(** ** The optimality function of a quadratic program *)
Lemma diff_sub n ps x0 th0 (Hx0 : length x0 = n) (Hth0 : args_ok ps th0) q f L g L' : diff n ps x0 th0 q f L -> diff n ps x0 th0 q g L' ->
  diff n ps x0 th0 q (fun x th => vsub (f x th) (g x th)) (fun x th => vsub (L x th) (L' x th)).
Proof.
  intros A B. eapply diff_ext; [exact Hx0|exact Hth0|apply (diff_add n ps x0 th0 Hx0 q f L (fun x th => smul (-1) (g x th)) (fun x th => smul (-1) (L' x th))); [exact A|apply diff_smul; [exact Hx0|exact B]]| |];
  intros x th _ _; cbv beta; symmetry; apply vsub_as_vadd.
Qed.
Lemma bil_mvec r n : bilinear (r * n) n r (fun M v => mvec (rows_of r n M) v).
Proof.
  constructor.
  - intros a b Ha _. rewrite mvec_length. apply (rows_of_shape r n a Ha).
  - intros. apply mvec_rows_vadd.
  - intros. apply mvec_vadd.
  - intros. apply mvec_rows_smul.
  - intros. apply mvec_smul.
  - intros. apply mvec_rows_norm.
Qed.
Lemma tvec_add_r r n M v w : mat_shape r n M -> tvec n M (vadd v w) = vadd (tvec n M v) (tvec n M w).
Proof. intros H. apply vec_eq_dot; [rewrite vadd_length, !(tvec_length r n M) by exact H; lia|]. intros u. rewrite dot_vadd_l, !dot_tvec, dot_vadd_l. reflexivity. Qed.
Lemma tvec_smul_r r n M a v : mat_shape r n M -> tvec n M (smul a v) = smul a (tvec n M v).
Proof. intros H. apply vec_eq_dot; [rewrite smul_length, !(tvec_length r n M) by exact H; lia|]. intros u. rewrite dot_smul_l, !dot_tvec, dot_smul_l. reflexivity. Qed.
Lemma bil_tvec r n : bilinear (r * n) r n (fun M v => tvec n (rows_of r n M) v).
Proof.
  constructor.
  - intros a b Ha _. apply tvec_rows_length. exact Ha.
  - intros. apply tvec_rows_vadd; assumption.
  - intros a b b' Ha _ _. apply (tvec_add_r r). apply rows_of_shape. exact Ha.
  - intros. apply tvec_rows_smul. assumption.
  - intros t a b Ha _. apply (tvec_smul_r r). apply rows_of_shape. exact Ha.
  - intros. apply tvec_rows_norm.
Qed.
Lemma bil_hmul k : bilinear k k k hmul.
Proof.
  constructor.
  - intros a b Ha Hb. rewrite hmul_length. unfold vec in *. lia.
  - intros. apply hmul_vadd_l. congruence.
  - intros. apply hmul_vadd_r. congruence.
  - intros. apply hmul_smul_l.
  - intros. apply hmul_smul_r.
  - intros. apply hmul_norm.
Qed.
Definition qp_sizes (n m k : nat) (ps : list nat) : Prop := nth 0 ps 0%nat = (n * n + n)%nat /\ nth 1 ps 0%nat = (m * n + m)%nat /\ nth 2 ps 0%nat = (k * n + k)%nat.
Section QP.
Variables (n m k : nat) (ps : list nat) (x0 : vec) (th0 : list vec).
Let N : nat := (n + m + k)%nat.
Hypothesis Hps : qp_sizes n m k ps.
Hypothesis Hx0 : length x0 = N.
Hypothesis Hth0 : args_ok ps th0.
Notation lin := (linear_map N ps).
Lemma lin_p : lin n (fun x _ => firstn n x).
Proof.
  constructor.
  - intros x th Hx _. rewrite firstn_length. unfold N, vec in *. lia.
  - intros. apply firstn_vadd.
  - intros. apply firstn_smul.
  - exists 1. split; [lra|]. intros x th _ _. unfold size. assert (A := norm2_firstn n x). assert (B := norm2_nonneg (concat th)). lra.
Qed.
Lemma lin_y : lin m (fun x _ => firstn m (skipn n x)).
Proof.
  constructor.
  - intros x th Hx _. rewrite firstn_length, skipn_length. unfold N, vec in *. lia.
  - intros. rewrite skipn_vadd. apply firstn_vadd.
  - intros. rewrite skipn_smul. apply firstn_smul.
  - exists 1. split; [lra|]. intros x th _ _. unfold size. assert (A := norm2_firstn m (skipn n x)). assert (A' := norm2_skipn n x). assert (B := norm2_nonneg (concat th)). lra.
Qed.
Lemma lin_z : lin k (fun x _ => skipn (n + m) x).
Proof.
  constructor.
  - intros x th Hx _. rewrite skipn_length. unfold N, vec in *. lia.
  - intros. apply skipn_vadd.
  - intros. apply skipn_smul.
  - exists 1. split; [lra|]. intros x th _ _. unfold size. assert (A := norm2_skipn (n + m) x). assert (B := norm2_nonneg (concat th)). lra.
Qed.
Lemma lin_mat b r : nth b ps 0%nat = (r * n + r)%nat -> lin (r * n) (fun _ th => firstn (r * n) (nth b th [])).
Proof.
  intros Hb. constructor.
  - intros x th _ Hth. rewrite firstn_length. assert (E := args_ok_nth ps th b Hth). unfold vec in *. lia.
  - intros x th x' th' _ H _ H'. rewrite (nth_args_add ps) by assumption. apply firstn_vadd.
  - intros. rewrite nth_args_smul. apply firstn_smul.
  - exists 1. split; [lra|]. intros x th _ _. unfold size. assert (A := norm2_firstn (r * n) (nth b th [])). assert (A' := norm2_nth_concat b th). assert (B := norm2_nonneg x). lra.
Qed.
Lemma lin_vec b r : nth b ps 0%nat = (r * n + r)%nat -> lin r (fun _ th => skipn (r * n) (nth b th [])).
Proof.
  intros Hb. constructor.
  - intros x th _ Hth. rewrite skipn_length. assert (E := args_ok_nth ps th b Hth). unfold vec in *. lia.
  - intros x th x' th' _ H _ H'. rewrite (nth_args_add ps) by assumption. apply skipn_vadd.
  - intros. rewrite nth_args_smul. apply skipn_smul.
  - exists 1. split; [lra|]. intros x th _ _. unfold size. assert (A := norm2_skipn (r * n) (nth b th [])). assert (A' := norm2_nth_concat b th). assert (B := norm2_nonneg x). lra.
Qed.
Definition qp_G (x : vec) (th : list vec) : vec :=
  let p := firstn n x in let y := firstn m (skipn n x) in let z := skipn (n + m) x in
  vadd (vadd (vadd (smul (1 / 2) (vadd (mvec (th_mat 0 n n th) p) (tvec n (th_mat 0 n n th) p))) (th_vec 0 n n th)) (tvec n (th_mat 1 m n th) y)) (tvec n (th_mat 2 k n th) z) ++
  vsub (mvec (th_mat 1 m n th) p) (th_vec 1 m n th) ++
  hmul (vsub (mvec (th_mat 2 k n th) p) (th_vec 2 k n th)) z.
Lemma qp_diff : diff N ps x0 th0 (n + (m + k)) qp_G (qp_linear n m k x0 th0).
Proof.
  destruct Hps as (P0 & P1 & P2).
  assert (Dp := diff_linear N ps x0 th0 Hx0 Hth0 _ _ lin_p). assert (Dy := diff_linear N ps x0 th0 Hx0 Hth0 _ _ lin_y). assert (Dz := diff_linear N ps x0 th0 Hx0 Hth0 _ _ lin_z).
  assert (DQ := diff_linear N ps x0 th0 Hx0 Hth0 _ _ (lin_mat 0 n P0)). assert (Dc := diff_linear N ps x0 th0 Hx0 Hth0 _ _ (lin_vec 0 n P0)).
  assert (DA := diff_linear N ps x0 th0 Hx0 Hth0 _ _ (lin_mat 1 m P1)). assert (Db := diff_linear N ps x0 th0 Hx0 Hth0 _ _ (lin_vec 1 m P1)).
  assert (DG := diff_linear N ps x0 th0 Hx0 Hth0 _ _ (lin_mat 2 k P2)). assert (Dh := diff_linear N ps x0 th0 Hx0 Hth0 _ _ (lin_vec 2 k P2)).
  apply (diff_app N ps x0 th0 Hx0 Hth0 n (m + k)); [|apply (diff_app N ps x0 th0 Hx0 Hth0 m k)].
  - apply (diff_add N ps x0 th0 Hx0 n); [apply (diff_add N ps x0 th0 Hx0 n); [apply (diff_add N ps x0 th0 Hx0 n)|]|].
    + apply (diff_smul N ps x0 th0 Hx0 n (1 / 2)). apply (diff_add N ps x0 th0 Hx0 n).
      * exact (diff_bilinear N ps x0 th0 Hx0 Hth0 _ _ _ _ _ _ _ _ (bil_mvec n n) DQ Dp).
      * exact (diff_bilinear N ps x0 th0 Hx0 Hth0 _ _ _ _ _ _ _ _ (bil_tvec n n) DQ Dp).
    + exact Dc.
    + exact (diff_bilinear N ps x0 th0 Hx0 Hth0 _ _ _ _ _ _ _ _ (bil_tvec m n) DA Dy).
    + exact (diff_bilinear N ps x0 th0 Hx0 Hth0 _ _ _ _ _ _ _ _ (bil_tvec k n) DG Dz).
  - apply (diff_sub N ps x0 th0 Hx0 Hth0 m); [|exact Db]. exact (diff_bilinear N ps x0 th0 Hx0 Hth0 _ _ _ _ _ _ _ _ (bil_mvec m n) DA Dp).
  - refine (diff_bilinear N ps x0 th0 Hx0 Hth0 _ _ _ _ _ _ _ _ (bil_hmul k) _ Dz).
    apply (diff_sub N ps x0 th0 Hx0 Hth0 k); [|exact Dh]. exact (diff_bilinear N ps x0 th0 Hx0 Hth0 _ _ _ _ _ _ _ _ (bil_mvec k n) DG Dp).
Qed.
End QP.

(** ** Flat data *)
Lemma concat_length m n M : mat_shape m n M -> length (concat M) = (m * n)%nat.
Proof. intros [<- H]. induction H as [|r M Hr HM IH]; [reflexivity|]. cbn [concat length]. rewrite app_length, IH, Hr. reflexivity. Qed.
Lemma firstn_cat (a b : vec) r : length a = r -> firstn r (a ++ b) = a.
Proof. intros <-. rewrite firstn_app, Nat.sub_diag, firstn_all, firstn_O. apply app_nil_r. Qed.
Lemma skipn_cat (a b : vec) r : length a = r -> skipn r (a ++ b) = b.
Proof. intros <-. rewrite skipn_app, Nat.sub_diag, skipn_all. reflexivity. Qed.
Lemma flat_mat_eq (o : option pair2) n : shaped o -> match o with Some (M, v) => a_rows M = length v /\ a_cols M = n | None => True end ->
  rows_of (sz (osize o)) n (firstn (sz (osize o) * n) (pair_flat o)) = opt_mat o /\ skipn (sz (osize o) * n) (pair_flat o) = opt_vec o /\
  length (pair_flat o) = (sz (osize o) * n + sz (osize o))%nat /\ mat_shape (sz (osize o)) n (opt_mat o) /\ length (opt_vec o) = sz (osize o).
Proof.
  destruct o as [[M v]|]; cbn [shaped osize sz pair_flat opt_mat opt_vec].
  - intros H [E1 E2]. rewrite E1, E2 in H. unfold flat_mat. assert (L := concat_length _ _ _ H).
    rewrite firstn_cat, skipn_cat, app_length, L, rows_of_flat by assumption. split; [reflexivity|]. split; [reflexivity|]. split; [reflexivity|]. split; [exact H|reflexivity].
  - intros _ _. split; [reflexivity|]. split; [reflexivity|]. split; [reflexivity|]. split; [split; [reflexivity|constructor]|reflexivity].
Qed.
Lemma obj_flat_eq (obj : pair2) n : shaped (Some obj) -> a_rows (fst obj) = n -> a_cols (fst obj) = n -> length (snd obj) = n ->
  rows_of n n (firstn (n * n) (pair_flat (Some obj))) = a_mat (fst obj) /\ skipn (n * n) (pair_flat (Some obj)) = snd obj /\ length (pair_flat (Some obj)) = (n * n + n)%nat /\ mat_shape n n (a_mat (fst obj)).
Proof.
  destruct obj as [Q c]. cbn [fst snd]. intros H E1 E2 E3. destruct (flat_mat_eq (Some (Q, c)) n H) as (A & B & C & D & _); [split; congruence|].
  cbn [osize sz opt_mat opt_vec] in *. rewrite E3 in *. auto.
Qed.
Lemma tvec_nil n v : tvec n [] v = vzero n.
Proof. destruct v; reflexivity. Qed.
Lemma qp_F_G n m k ps x th : qp_sizes n (sz m) (sz k) ps -> args_ok ps th -> length x = (n + sz m + sz k)%nat -> qp_F n m k x th = qp_G n (sz m) (sz k) x th.
Proof.
  intros (P0 & P1 & P2) Hth Hx. unfold qp_F, qp_G, kkt_flat, kkt_optimality, kkt_unflat, th_problem, qp_problem.
  assert (L0 := args_ok_nth ps th 0 Hth). assert (L1 := args_ok_nth ps th 1 Hth). assert (L2 := args_ok_nth ps th 2 Hth). rewrite P0 in L0. rewrite P1 in L1. rewrite P2 in L2.
  assert (S0 : mat_shape n n (th_mat 0 n n th)) by (apply rows_of_shape; rewrite firstn_length; unfold vec in *; lia).
  assert (Lc : length (th_vec 0 n n th) = n) by (unfold th_vec; rewrite skipn_length; unfold vec in *; lia).
  assert (Lp : length (firstn n x) = n) by (rewrite firstn_length; unfold vec in *; lia).
  assert (Lg : length (vadd (smul (1 / 2) (vadd (mvec (th_mat 0 n n th) (firstn n x)) (tvec n (th_mat 0 n n th) (firstn n x)))) (th_vec 0 n n th)) = n).
  { rewrite vadd_length, smul_length, vadd_length, mvec_length, (tvec_length _ _ _ _ S0), (proj1 S0). unfold vec in *. lia. }
  assert (Lb : m = None -> th_vec 1 (sz m) n th = []) by (intros ->; cbn in *; unfold th_vec; destruct (nth 1 th []); [reflexivity|discriminate]).
  assert (Lh : k = None -> th_vec 2 (sz k) n th = []) by (intros ->; cbn in *; unfold th_vec; destruct (nth 2 th []); [reflexivity|discriminate]).
  assert (M1 : th_mat 1 0 n th = []) by reflexivity. assert (M2 : th_mat 2 0 n th = []) by reflexivity.
  destruct m as [m|], k as [k|]; cbn [primal dual_eq dual_ineq obj_grad eq_fun eq_jac ineq_fun ineq_jac ovec sz] in *.
  - reflexivity.
  - rewrite (Lh eq_refl), M2, tvec_nil. cbn [mvec map vsub hmul]. rewrite (vadd_vzero_r' _ n); [reflexivity|].
    assert (S1 : mat_shape m n (th_mat 1 m n th)) by (apply rows_of_shape; rewrite firstn_length; unfold vec in *; lia). rewrite vadd_length, Lg, (tvec_length _ _ _ _ S1). lia.
  - rewrite (Lb eq_refl), M1, tvec_nil. cbn [mvec map vsub app]. rewrite (vadd_vzero_r' _ n); [reflexivity|exact Lg].
  - rewrite (Lh eq_refl), (Lb eq_refl), M1, M2, !tvec_nil. cbn [mvec map vsub app hmul]. rewrite !(vadd_vzero_r' _ n); [reflexivity|exact Lg|rewrite (vadd_vzero_r' _ n); exact Lg].
Qed.
Lemma bil_zero_l p q r B b : bilinear p q r B -> length b = q -> B (vzero p) b = vzero r.
Proof.
  intros H Hb. rewrite <- (smul_vzero' 0 p). rewrite (b_smul_l p q r B H) by (apply vzero_length || exact Hb).
  apply vec_ext; [rewrite smul_length, (b_length p q r B H), vzero_length by (apply vzero_length || exact Hb); reflexivity|]. intros i _. rewrite nth_smul, nth_vzero. ring.
Qed.
Lemma nth_args_zero b : forall ps, nth b (args_zero ps) [] = vzero (nth b ps 0%nat).
Proof. induction b as [|b IH]; intros [|p ps]; try reflexivity. apply IH. Qed.
Lemma firstn_vzero r q : (r <= q)%nat -> firstn r (vzero q) = vzero r.
Proof. intros H. apply vec_ext; [rewrite firstn_length, !vzero_length; lia|]. intros i Hi. rewrite nth_vzero. rewrite firstn_length, vzero_length in Hi. 
  assert (E := f_equal (fun l => nth i l 0) (firstn_skipn r (vzero q))). cbv beta in E. rewrite app_nth1, nth_vzero in E by (rewrite firstn_length, vzero_length; lia). exact E. Qed.
Lemma skipn_vzero r q : skipn r (vzero q) = vzero (q - r).
Proof. revert q. induction r as [|r IH]; intros q; [cbn; rewrite Nat.sub_0_r; reflexivity|]. destruct q; [reflexivity|]. apply IH. Qed.
Lemma app_zero (a b : vec) r s : length a = r -> a ++ b = vzero (r + s) -> a = vzero r /\ b = vzero s.
Proof.
  intros Ha E. assert (E1 := f_equal (firstn r) E). assert (E2 := f_equal (skipn r) E). rewrite firstn_cat, firstn_vzero in E1 by (exact Ha || lia). rewrite skipn_cat, skipn_vzero in E2 by exact Ha.
  split; [exact E1|]. rewrite E2. f_equal. lia.
Qed.
Lemma dot_zero_coords : forall a b : vec, (forall i, (i < length a)%nat -> nth i a 0 * nth i b 0 = 0) -> dot a b = 0.
Proof.
  induction a as [|x a IH]; intros [|y b] H; cbn; try reflexivity. assert (H0 := H 0%nat ltac:(cbn; lia)). cbn in H0. rewrite H0, IH; [ring|]. intros i Hi. apply (H (S i)). cbn. lia.
Qed.
Section Jac.
Variables (n m k : nat) (ps : list nat) (x0 : vec) (th0 : list vec).
Let N : nat := (n + m + k)%nat.
Hypothesis Hps : qp_sizes n m k ps.
Hypothesis Hx0 : length x0 = N.
Hypothesis Hth0 : args_ok ps th0.
Definition jac1 (dx : vec) : vec :=
  let z := skipn (n + m) x0 in let dp := firstn n dx in let dy := firstn m (skipn n dx) in let dz := skipn (n + m) dx in
  let Q := th_mat 0 n n th0 in let A := th_mat 1 m n th0 in let G := th_mat 2 k n th0 in let h := th_vec 2 k n th0 in
  vadd (vadd (smul (1 / 2) (vadd (mvec Q dp) (tvec n Q dp))) (tvec n A dy)) (tvec n G dz) ++
  mvec A dp ++ vadd (hmul (mvec G dp) z) (hmul (vsub (mvec G (firstn n x0)) h) dz).
Lemma shapes0 : mat_shape n n (th_mat 0 n n th0) /\ mat_shape m n (th_mat 1 m n th0) /\ mat_shape k n (th_mat 2 k n th0) /\ length (th_vec 2 k n th0) = k.
Proof.
  destruct Hps as (P0 & P1 & P2). assert (L0 := args_ok_nth ps th0 0 Hth0). assert (L1 := args_ok_nth ps th0 1 Hth0). assert (L2 := args_ok_nth ps th0 2 Hth0).
  split; [|split; [|split]]; try (apply rows_of_shape; rewrite firstn_length; unfold vec in *; lia). unfold th_vec. rewrite skipn_length. unfold vec in *. lia.
Qed.
Lemma qp_linear_x dx : length dx = N -> qp_linear n m k x0 th0 dx (args_zero ps) = jac1 dx.
Proof.
  intros Hdx. destruct Hps as (P0 & P1 & P2). destruct shapes0 as (S0 & S1 & S2 & Lh). unfold qp_linear, jac1.
  set (p := firstn n x0). set (y := firstn m (skipn n x0)). set (z := skipn (n + m) x0). set (dp := firstn n dx). set (dy := firstn m (skipn n dx)). set (dz := skipn (n + m) dx).
  assert (Lp : length p = n) by (unfold p; rewrite firstn_length; unfold N, vec in *; lia).
  assert (Ly : length y = m) by (unfold y; rewrite firstn_length, skipn_length; unfold N, vec in *; lia).
  assert (Lz : length z = k) by (unfold z; rewrite skipn_length; unfold N, vec in *; lia).
  assert (Ldp : length dp = n) by (unfold dp; rewrite firstn_length; unfold N, vec in *; lia).
  assert (Em : forall b r, nth b ps 0%nat = (r * n + r)%nat -> th_mat b r n (args_zero ps) = rows_of r n (vzero (r * n))).
  { intros b r Hb. unfold th_mat. rewrite nth_args_zero, Hb, firstn_vzero by lia. reflexivity. }
  assert (Ev : forall b r, nth b ps 0%nat = (r * n + r)%nat -> th_vec b r n (args_zero ps) = vzero r).
  { intros b r Hb. unfold th_vec. rewrite nth_args_zero, Hb, skipn_vzero. f_equal. lia. }
  assert (Z1 : forall r v, length v = n -> mvec (rows_of r n (vzero (r * n))) v = vzero r) by (intros r v Hv; apply (bil_zero_l _ _ _ _ _ (bil_mvec r n) Hv)).
  assert (Z2 : forall r v, length v = r -> tvec n (rows_of r n (vzero (r * n))) v = vzero n) by (intros r v Hv; apply (bil_zero_l _ _ _ _ _ (bil_tvec r n) Hv)).
  cbv zeta. rewrite (Em 0%nat n P0), (Em 1%nat m P1), (Em 2%nat k P2), (Ev 0%nat n P0), (Ev 1%nat m P1), (Ev 2%nat k P2), !Z1, !Z2 by assumption.
  assert (LQ : length (mvec (th_mat 0 n n th0) dp) = n) by (rewrite mvec_length; apply S0). assert (LA : length (mvec (th_mat 1 m n th0) dp) = m) by (rewrite mvec_length; apply S1).
  assert (LG : length (mvec (th_mat 2 k n th0) dp) = k) by (rewrite mvec_length; apply S2).
  rewrite !vadd_vzero_l' by (assumption || (eapply tvec_length; eassumption)).
  assert (Zs : forall v r, length v = r -> vsub v (vzero r) = v). { intros v r Hv. apply vec_ext; [rewrite vsub_length, vzero_length; unfold vec in *; lia|]. intros i _. rewrite nth_vsub, nth_vzero. ring. }
  rewrite !Zs by assumption. rewrite (vadd_vzero_r' (smul _ _) n); [reflexivity|]. rewrite smul_length, vadd_length, LQ, (tvec_length _ _ _ _ S0). lia.
Qed.
Lemma jac_linear : linear_map N ps (n + (m + k)) (qp_linear n m k x0 th0).
Proof. apply (qp_diff n m k ps x0 th0 Hps Hx0 Hth0). Qed.
Notation D1 := (columns (n + m + k) (n + m + k) (fun d => qp_linear n m k x0 th0 d (args_zero ps))).
Lemma D1_mvec d : length d = N -> mvec D1 d = jac1 d.
Proof.
  intros Hd. rewrite <- qp_linear_x by exact Hd. rewrite <- Nat.add_assoc at 1. exact (part1_mvec N (n + (m + k)) ps _ jac_linear d Hd).
Qed.
Lemma D1_shape : mat_shape N N D1.
Proof. apply columns_shape. intros x Hx. unfold N. rewrite <- Nat.add_assoc. apply (lm_length _ _ _ _ jac_linear); [exact Hx|apply args_zero_ok]. Qed.
Notation Q0 := (th_mat 0 n n th0). Notation A0 := (th_mat 1 m n th0). Notation G0 := (th_mat 2 k n th0). Notation h0 := (th_vec 2 k n th0).
Hypothesis Hslack : forall i, (nth i (mvec G0 (firstn n x0)) 0 - nth i h0 0) * nth i (skipn (n + m) x0) 0 = 0.
Lemma D1_nonsingular : qp_regular n m k Q0 A0 G0 h0 (firstn n x0) (firstn m (skipn n x0)) (skipn (n + m) x0) -> nonsingular N D1.
Proof.
  intros (H1 & H2 & H3). split; [exact D1_shape|]. intros d Hd E. rewrite D1_mvec in E by exact Hd. destruct shapes0 as (S0 & S1 & S2 & Lh).
  unfold jac1 in E. set (p := firstn n x0) in *. set (z := skipn (n + m) x0) in *. set (dp := firstn n d) in *. set (dy := firstn m (skipn n d)) in *. set (dz := skipn (n + m) d) in *.
  assert (Lz : length z = k) by (unfold z; rewrite skipn_length; unfold N, vec in *; lia).
  assert (Ldp : length dp = n) by (unfold dp; rewrite firstn_length; unfold N, vec in *; lia).
  assert (Ldy : length dy = m) by (unfold dy; rewrite firstn_length, skipn_length; unfold N, vec in *; lia).
  assert (Ldz : length dz = k) by (unfold dz; rewrite skipn_length; unfold N, vec in *; lia).
  assert (LQ : length (mvec Q0 dp) = n) by (rewrite mvec_length; apply S0). assert (LA : length (mvec A0 dp) = m) by (rewrite mvec_length; apply S1). assert (LG : length (mvec G0 dp) = k) by (rewrite mvec_length; apply S2).
  assert (Lt : forall v, length (tvec n Q0 v) = n /\ length (tvec n A0 v) = n /\ length (tvec n G0 v) = n) by (intros v; split; [|split]; eapply tvec_length; eassumption).
  unfold N in E. rewrite <- Nat.add_assoc in E. apply app_zero in E; [|rewrite !vadd_length, smul_length, vadd_length, LQ, (proj1 (Lt dp)), (proj1 (proj2 (Lt dy))), (proj2 (proj2 (Lt dz))); lia].
  destruct E as [E1 E]. apply app_zero in E; [|exact LA]. destruct E as [E2 E3].
  assert (E3' : forall i, nth i (mvec G0 dp) 0 * nth i z 0 + (nth i (mvec G0 p) 0 - nth i h0 0) * nth i dz 0 = 0).
  { intros i. assert (X := f_equal (fun v => nth i v 0) E3). cbv beta in X. rewrite nth_vadd, !nth_hmul, nth_vsub, nth_vzero in X. exact X. }
  assert (K1 : forall i, (i < k)%nat -> nth i z 0 <> 0 -> nth i (mvec G0 dp) 0 = 0).
  { intros i Hi Hz. assert (X := E3' i). assert (Y := Hslack i). fold p z in Y. apply Rmult_integral in Y. destruct Y as [Y|Y]; [|contradiction]. rewrite Y in X.
    assert (W : nth i (mvec G0 dp) 0 * nth i z 0 = 0) by lra. apply Rmult_integral in W. destruct W; [assumption|contradiction]. }
  assert (K2 : forall i, (i < k)%nat -> nth i (mvec G0 p) 0 <> nth i h0 0 -> nth i dz 0 = 0).
  { intros i Hi Hz. assert (X := E3' i). assert (Y := Hslack i). fold p z in Y. apply Rmult_integral in Y. destruct Y as [Y|Y]; [exfalso; apply Hz; lra|]. rewrite Y in X.
    assert (W : (nth i (mvec G0 p) 0 - nth i h0 0) * nth i dz 0 = 0) by lra. apply Rmult_integral in W. destruct W; [exfalso; apply Hz; lra|assumption]. }
  assert (Kd : dot dp (mvec Q0 dp) = 0).
  { assert (X := f_equal (fun v => dot v dp) E1). cbv beta in X. rewrite !dot_vadd_l, dot_smul_l, dot_vadd_l, !dot_tvec, E2 in X. rewrite dot_vzero_l, dot_vzero_r, (dot_comm (mvec Q0 dp) dp) in X.
    rewrite (dot_zero_coords dz (mvec G0 dp)) in X; [lra|]. intros i Hi. destruct (H3 i) as [Z|Z]; [unfold vec in *; lia|rewrite K1 by (assumption || unfold vec in *; lia); ring|rewrite K2 by (assumption || unfold vec in *; lia); ring]. }
  assert (Edp : dp = vzero n).
  { destruct (list_eq_dec Req_EM_T dp (vzero n)) as [W|W]; [exact W|]. exfalso. assert (X := H1 dp Ldp W E2 K1). lra. }
  assert (Eyz : dy = vzero m /\ dz = vzero k).
  { apply H2; try assumption. rewrite Edp in E1. apply vec_ext; [rewrite vadd_length, (proj1 (proj2 (Lt dy))), (proj2 (proj2 (Lt dz))), vzero_length; lia|]. intros i _.
    assert (X := f_equal (fun v => nth i v 0) E1). cbv beta in X. rewrite !nth_vadd, nth_smul, nth_vadd, nth_vzero in X. rewrite mvec_vzero, nth_vzero in X.
    assert (Zt : tvec n Q0 (vzero n) = vzero n). { rewrite <- (smul_vzero' 0 n) at 1. rewrite (tvec_smul_r n) by exact S0. apply vec_ext; [rewrite smul_length, (proj1 (Lt (vzero n))), vzero_length; reflexivity|]. intros j _. rewrite nth_smul, nth_vzero. ring. }
    rewrite Zt, nth_vzero in X. rewrite nth_vadd, nth_vzero. lra. }
  destruct Eyz as [Edy Edz]. rewrite <- (firstn_skipn n d). fold dp. rewrite <- (firstn_skipn m (skipn n d)). fold dy.
  assert (Esk : skipn m (skipn n d) = dz) by (unfold dz; clear; revert d; induction n as [|n' IH]; intros d; [reflexivity|]; destruct d; [destruct m; reflexivity|]; apply IH). rewrite Esk, Edp, Edy, Edz.
  unfold N, vzero. rewrite <- !repeat_app. f_equal. lia.
Qed.
End Jac.

(** ** From data to flat arguments *)
Definition carries (th : list vec) (obj : pair2) (eq ineq : option pair2) : Prop := nth 0 th [] = pair_flat (Some obj) /\ nth 1 th [] = pair_flat eq /\ nth 2 th [] = pair_flat ineq.
Lemma kkt_flat_length n eq ineq s : kkt_fits n eq ineq s -> length (kkt_flat s) = (n + sz (osize eq) + sz (osize ineq))%nat /\ length (ovec (dual_eq s)) = sz (osize eq) /\ length (ovec (dual_ineq s)) = sz (osize ineq).
Proof.
  intros (H1 & H2 & H3). assert (A : length (ovec (dual_eq s)) = sz (osize eq)) by (destruct eq as [[]|], (dual_eq s); cbn in *; (assumption || contradiction || reflexivity)).
  assert (B : length (ovec (dual_ineq s)) = sz (osize ineq)) by (destruct ineq as [[]|], (dual_ineq s); cbn in *; (assumption || contradiction || reflexivity)).
  split; [|split; assumption]. unfold kkt_flat. rewrite !app_length, A, B. unfold vec in *. lia.
Qed.
Lemma skipn_skipn' (a b : nat) : forall l : vec, skipn a (skipn b l) = skipn (b + a) l.
Proof. induction b as [|b IH]; intros l; [reflexivity|]. destruct l; [destruct a; reflexivity|]. apply IH. Qed.
Lemma kkt_flat_parts n eq ineq s : kkt_fits n eq ineq s ->
  firstn n (kkt_flat s) = primal s /\ firstn (sz (osize eq)) (skipn n (kkt_flat s)) = ovec (dual_eq s) /\ skipn (n + sz (osize eq)) (kkt_flat s) = ovec (dual_ineq s).
Proof.
  intros H. destruct (kkt_flat_length n eq ineq s H) as (_ & A & B). destruct H as (H1 & _ & _). unfold kkt_flat.
  rewrite <- skipn_skipn', (skipn_cat _ _ n), (firstn_cat _ _ n), firstn_cat, skipn_cat by assumption. auto.
Qed.
Lemma kkt_unflat_flat n eq ineq s : kkt_fits n eq ineq s -> kkt_unflat n (osize eq) (osize ineq) (kkt_flat s) = s.
Proof.
  intros H. destruct (kkt_flat_parts n eq ineq s H) as (A & B & C). destruct H as (H1 & H2 & H3). unfold kkt_unflat. destruct s as [p y z]. cbn [primal dual_eq dual_ineq] in *.
  rewrite A. destruct eq as [[]|], y, ineq as [[]|], z; cbn [osize sz ovec] in *; try contradiction; rewrite ?B, ?C; reflexivity.
Qed.
Lemma data_sizes n obj eq ineq : data_ok n obj eq ineq ->
  rows_of n n (firstn (n * n) (pair_flat (Some obj))) = a_mat (fst obj) /\ skipn (n * n) (pair_flat (Some obj)) = snd obj /\ length (pair_flat (Some obj)) = (n * n + n)%nat /\ mat_shape n n (a_mat (fst obj)) /\ length (snd obj) = n.
Proof. intros ((E1 & E2 & E3 & _) & S0 & _). destruct (obj_flat_eq obj n S0 E1 E2 E3) as (A & B & C & D). auto. Qed.
Lemma data_eq_sizes n obj eq ineq : data_ok n obj eq ineq ->
  (rows_of (sz (osize eq)) n (firstn (sz (osize eq) * n) (pair_flat eq)) = opt_mat eq /\ skipn (sz (osize eq) * n) (pair_flat eq) = opt_vec eq /\
   length (pair_flat eq) = (sz (osize eq) * n + sz (osize eq))%nat /\ mat_shape (sz (osize eq)) n (opt_mat eq) /\ length (opt_vec eq) = sz (osize eq)) /\
  (rows_of (sz (osize ineq)) n (firstn (sz (osize ineq) * n) (pair_flat ineq)) = opt_mat ineq /\ skipn (sz (osize ineq) * n) (pair_flat ineq) = opt_vec ineq /\
   length (pair_flat ineq) = (sz (osize ineq) * n + sz (osize ineq))%nat /\ mat_shape (sz (osize ineq)) n (opt_mat ineq) /\ length (opt_vec ineq) = sz (osize ineq)).
Proof. intros ((_ & _ & _ & E4 & E5) & _ & S1 & S2). split; apply flat_mat_eq; assumption. Qed.
Lemma qp_F_data n obj eq ineq s th : data_ok n obj eq ineq -> kkt_fits n eq ineq s -> carries th obj eq ineq ->
  qp_F n (osize eq) (osize ineq) (kkt_flat s) th = kkt_flat (cvxpy_optimality_fun s obj eq ineq).
Proof.
  intros HD HK (C0 & C1 & C2). destruct (data_sizes n obj eq ineq HD) as (A1 & A2 & A3 & A4 & A5). destruct (data_eq_sizes n obj eq ineq HD) as ((B1 & B2 & _) & (D1 & D2 & _)).
  unfold qp_F, cvxpy_optimality_fun. rewrite (kkt_unflat_flat n eq ineq s HK), A5. unfold th_problem, th_mat, th_vec. rewrite C0, C1, C2, A1, A2, B1, B2, D1, D2. reflexivity.
Qed.
Lemma nth_all_zero (v : vec) : (forall i, nth i v 0 = 0) <-> v = vzero (length v).
Proof. split; [intros H; apply vec_ext; [rewrite vzero_length; reflexivity|]; intros i _; rewrite nth_vzero; apply H|intros -> i; apply nth_vzero]. Qed.
Lemma all_zero_flat s : all_zero s <-> kkt_flat s = vzero (length (kkt_flat s)).
Proof.
  unfold all_zero, kkt_flat. rewrite !nth_all_zero. split.
  - intros (A & B & C). rewrite A, B, C. rewrite !app_length, !vzero_length. unfold vzero. rewrite <- !repeat_app. reflexivity.
  - intros H. rewrite !app_length in H. apply app_zero in H; [|reflexivity]. destruct H as [H1 H]. apply app_zero in H; [|reflexivity]. destruct H. auto.
Qed.
Lemma carries_sizes n obj eq ineq th : data_ok n obj eq ineq -> carries th obj eq ineq -> qp_sizes n (sz (osize eq)) (sz (osize ineq)) (map (@length R) th).
Proof.
  intros HD (C0 & C1 & C2). destruct (data_sizes n obj eq ineq HD) as (_ & _ & A3 & _). destruct (data_eq_sizes n obj eq ineq HD) as ((_ & _ & B3 & _) & (_ & _ & D3 & _)).
  assert (E : forall b, nth b (map (@length R) th) 0%nat = length (nth b th [])) by (intros b; change 0%nat with (length (@nil R)); apply map_nth).
  unfold qp_sizes. rewrite !E, C0, C1, C2. auto.
Qed.
Lemma args_ok_self th : args_ok (map (@length R) th) th.
Proof. induction th as [|a l IH]; constructor; [reflexivity|exact IH]. Qed.
Lemma qp_jac_arity n m k : jac_arity (qp_jac n m k).
Proof. intros x a. unfold qp_jac. cbn [snd]. rewrite map_length, seq_length. reflexivity. Qed.
Lemma carried n obj eq ineq th : data_ok n obj eq ineq -> carries th obj eq ineq ->
  th_mat 0 n n th = a_mat (fst obj) /\ th_mat 1 (sz (osize eq)) n th = opt_mat eq /\ th_mat 2 (sz (osize ineq)) n th = opt_mat ineq /\ th_vec 2 (sz (osize ineq)) n th = opt_vec ineq.
Proof.
  intros HD (C0 & C1 & C2). destruct (data_sizes n obj eq ineq HD) as (A1 & _). destruct (data_eq_sizes n obj eq ineq HD) as ((B1 & _) & (D1 & D2 & _)). unfold th_mat, th_vec. rewrite C0, C1, C2. auto.
Qed.
Lemma zero_slack n obj eq ineq s i : data_ok n obj eq ineq -> kkt_zero n obj eq ineq s -> (nth i (mvec (opt_mat ineq) (primal s)) 0 - nth i (opt_vec ineq) 0) * nth i (ovec (dual_ineq s)) 0 = 0.
Proof.
  intros HD ((H1 & H2 & H3) & HZ). destruct HZ as (_ & _ & Z). unfold cvxpy_optimality_fun, kkt_optimality in Z. destruct (dual_ineq s) as [z|] eqn:E; [|cbn; destruct i; ring].
  specialize (Z i). destruct (dual_eq s); cbn [dual_ineq ovec] in Z; cbn [ineq_fun qp_problem] in Z; rewrite nth_hmul, nth_vsub in Z; exact Z.
Qed.
Lemma qp_regular_root n obj eq ineq s th solve : let N := (n + sz (osize eq) + sz (osize ineq))%nat in
  data_ok n obj eq ineq -> carries th obj eq ineq -> kkt_zero n obj eq ineq s -> regular_at n obj eq ineq s -> solves_regular solve N ->
  regular_root (qp_F n (osize eq) (osize ineq)) (qp_jac n (osize eq) (osize ineq)) solve N (kkt_flat s) th.
Proof.
  intros N HD HC HZ HR HS. destruct HZ as [HK HZ]. assert (Hsz := carries_sizes n obj eq ineq th HD HC). assert (Hth := args_ok_self th). set (ps := map (@length R) th) in *.
  destruct (kkt_flat_length n eq ineq s HK) as (Lf & _). destruct (carried n obj eq ineq th HD HC) as (E0 & E1 & E2 & E3). destruct (kkt_flat_parts n eq ineq s HK) as (P1 & P2 & P3).
  assert (Dd := qp_diff n _ _ ps (kkt_flat s) th Hsz Lf Hth). set (m := sz (osize eq)) in *. set (k := sz (osize ineq)) in *.
  assert (EFG : forall y a, length y = N -> args_ok ps a -> qp_F n (osize eq) (osize ineq) y a = qp_G n m k y a) by (intros y a Hy Ha; apply (qp_F_G n (osize eq) (osize ineq) ps); assumption).
  assert (EN : (n + (m + k) = N)%nat) by (unfold N; lia).
  assert (HN : nonsingular N (columns N N (fun d => qp_linear n m k (kkt_flat s) th d (args_zero ps)))).
  { apply (D1_nonsingular n m k ps (kkt_flat s) th Hsz Lf Hth); rewrite ?E0, ?E1, ?E2, ?E3, ?P1, ?P2, ?P3.
    - intros i. apply (zero_slack n obj eq ineq s i HD). split; assumption.
    - exact HR. }
  assert (ED2 : snd (qp_jac n (osize eq) (osize ineq) (kkt_flat s) th) = parts2 N (n + (m + k)) ps (qp_linear n m k (kkt_flat s) th)).
  { unfold qp_jac, parts2, part2. cbn [snd]. fold ps m k. rewrite EN. unfold N at 1. replace (length ps) with (length th) by (unfold ps; rewrite map_length; reflexivity). reflexivity. }
  assert (ED1 : fst (qp_jac n (osize eq) (osize ineq) (kkt_flat s) th) = columns (n + (m + k)) N (part1 ps (qp_linear n m k (kkt_flat s) th))).
  { unfold qp_jac, part1. cbn [fst]. fold ps m k. rewrite EN. reflexivity. }
  assert (HL := jac_linear n m k ps (kkt_flat s) th Hsz Lf Hth).
  unfold regular_root. fold ps. split; [exact Lf|]. split; [|split; [|split; [|split; [|split]]]].
  - intros y a Hy Ha. rewrite EFG by assumption. rewrite <- EN. apply (d_length _ _ _ _ _ _ _ Dd); assumption.
  - rewrite (qp_F_data n obj eq ineq s th HD HK HC). assert (LF := d_length _ _ _ _ _ _ _ Dd (kkt_flat s) th Lf Hth). rewrite <- EFG in LF by assumption. rewrite (qp_F_data n obj eq ineq s th HD HK HC) in LF.
    apply all_zero_flat in HZ. rewrite HZ, LF, EN. reflexivity.
  - rewrite ED1, ED2. assert (Fr := diff_frechet N (n + (m + k)) ps _ HL (qp_G n m k) (kkt_flat s) th Lf Hth Dd EN).
    intros eps He. destruct (Fr eps He) as (d & Hd & Fr'). exists d. split; [exact Hd|]. intros x a Hx Ha S1 S2. rewrite !EFG by assumption. apply Fr'; assumption.
  - exact HN.
  - rewrite ED2. assert (J := parts2_jac N (n + (m + k)) ps _ HL). rewrite EN in J at 1. exact J.
  - apply HS. exact HN.
Qed.

(** ** Binding *)
Section AllPos.
Context {V : Type}.
Lemma all_pos_kw (ps : list (param V)) : forall (kw : list (string * V)) b, Forall (fun p => p_kind p = PosOrKw) ps -> bind_kw ps kw = Ok b ->
  length (ba_args (apply_defaults b)) = length ps /\ ba_kwargs false (apply_defaults b) = [].
Proof.
  induction ps as [|p ps IH]; intros kw b HF H; cbn in H.
  - destruct kw; [|discriminate]. injection H as <-. split; reflexivity.
  - inversion HF as [|? ? Hp HF']; subst. rewrite Hp in H. destruct (lookup (p_name p) kw) as [v|] eqn:El.
    + destruct (bind_kw ps (remove_key (p_name p) kw)) as [r|] eqn:Er; [|discriminate]. injection H as <-. destruct (IH _ _ HF' Er) as [A B].
      cbn [apply_defaults map]. fold (apply_defaults r). cbn [ba_args ba_kwargs]. rewrite Hp. cbn [length]. rewrite A, B. auto.
    + destruct (p_default p) as [d|] eqn:Ed; [|discriminate]. destruct (bind_kw ps kw) as [r|] eqn:Er; [|discriminate]. injection H as <-. destruct (IH _ _ HF' Er) as [A B].
      cbn [apply_defaults map]. fold (apply_defaults r). rewrite Ed. cbn [ba_args ba_kwargs]. rewrite Hp. cbn [length]. rewrite A, B. auto.
Qed.
Lemma all_pos (ps : list (param V)) : forall (args : list V) (kw : list (string * V)) b, Forall (fun p => p_kind p = PosOrKw) ps -> bind ps args kw = Ok b ->
  length (ba_args (apply_defaults b)) = length ps /\ ba_kwargs false (apply_defaults b) = [].
Proof.
  induction ps as [|p ps IH]; intros args kw b HF H.
  - destruct args; [exact (all_pos_kw _ _ _ HF H)|discriminate].
  - destruct args as [|a args]; [exact (all_pos_kw _ _ _ HF H)|]. inversion HF as [|? ? Hp HF']; subst. cbn [bind] in H. rewrite Hp in H. destruct (lookup (p_name p) kw); [discriminate|].
    destruct (bind ps args kw) as [r|] eqn:Er; [|discriminate]. injection H as <-. destruct (IH _ _ _ HF' Er) as [A B].
    cbn [apply_defaults map]. fold (apply_defaults r). cbn [ba_args ba_kwargs]. rewrite Hp. cbn [length]. rewrite A, B. auto.
Qed.
Lemma all_pos_bind (ps : list (param V)) args kw a k : Forall (fun p => p_kind p = PosOrKw) ps -> signature_bind ps args kw = Ok (a, k) -> length a = length ps /\ k = [].
Proof. intros HF H. unfold signature_bind in H. destruct (bind ps args kw) as [b|] eqn:E; [|discriminate]. injection H as <- <-. exact (all_pos _ _ _ _ HF E). Qed.
Lemma bind_full {D} (ps : list (param D)) : forall a : list V, Forall (fun p => p_kind p = PosOrKw) ps -> length a = length ps ->
  exists b, bind ps a [] = Ok b /\ ba_args b = a /\ ba_kwargs false b = [].
Proof.
  induction ps as [|p ps IH]; intros [|x a] HF H; try discriminate.
  - exists []. auto.
  - inversion HF as [|? ? Hp HF']; subst. destruct (IH a HF' ltac:(injection H as H; exact H)) as (b & E1 & E2 & E3). exists ((p, One x) :: b).
    cbn [bind]. rewrite Hp. cbn [lookup]. rewrite E1. cbn [ba_args ba_kwargs]. rewrite Hp, E2, E3. auto.
Qed.
End AllPos.
