From Coq Require Import Reals List Lra Lia Bool Arith.
From Verif Require Import Prelude Vec Mat LinAlg LinSolve.
Import ListNotations.
Open Scope R_scope.

Definition rval (r : option R) : R := match r with Some r => r | None => 0 end.
Lemma with_ridge_eq n f r x : is_linear n f -> length x = n -> with_ridge f r x = vadd (f x) (smul (rval r) x).
Proof.
  intros (Hl & _) Hx. destruct r as [r|]; [reflexivity|]. simpl. rewrite smul_0, vadd_vzero_r; [reflexivity|]. rewrite Hl by exact Hx. lia.
Qed.
Lemma with_ridge_linear n f r : is_linear n f -> is_linear n (with_ridge f r).
Proof.
  intros HL. pose proof HL as (Hl & Ha & Hs). split; [|split].
  - intros x Hx. rewrite (with_ridge_eq n) by assumption. rewrite vadd_length, smul_length, Hl by exact Hx. lia.
  - intros x y Hx Hy. rewrite !(with_ridge_eq n) by (try assumption; apply vadd_length_eq; assumption). rewrite Ha by assumption.
    assert (L1 := Hl x Hx). assert (L2 := Hl y Hy).
    apply vec_eq_dot; [rewrite !vadd_length, !smul_length, !vadd_length; lia|]. intros z. vring.
  - intros a x Hx. rewrite !(with_ridge_eq n) by (try assumption; rewrite smul_length; assumption). rewrite Hs by assumption.
    assert (L1 := Hl x Hx). apply vec_eq_dot; [rewrite !smul_length, !vadd_length, !smul_length; lia|]. intros z. vring.
Qed.

(** ** Materialisation *)
Lemma linear_zero n f : is_linear n f -> f (vzero n) = vzero n.
Proof.
  intros (Hl & _ & Hs). specialize (Hs 0 (vzero n) (vzero_length n)). rewrite !smul_0, Hl in Hs by apply vzero_length.
  rewrite vzero_length in Hs. exact Hs.
Qed.
Lemma mtrans_entry n (M : mat) i j : (i < n)%nat -> (j < length M)%nat -> entry (mtrans n M) i j = entry M j i.
Proof.
  intros Hi Hj. unfold entry, mtrans. 
  rewrite (nth_indep _ [] (map (fun r => nth 0 r 0) M)) by (rewrite map_length, seq_length; exact Hi).
  rewrite (map_nth (fun j => map (fun r => nth j r 0) M) (seq 0 n) 0%nat i). rewrite seq_nth by exact Hi. simpl.
  rewrite (nth_indep _ 0 (nth i [] 0)) by (rewrite map_length; exact Hj). rewrite (map_nth (fun r => nth i r 0) M [] j). reflexivity.
Qed.
Section Mat.
Variables (n : nat) (f : vec -> vec).
Hypothesis HL : is_linear n f.
Let C := map (fun j => f (unit_vec n j)) (seq 0 n).
Lemma C_shape : mat_shape n n C.
Proof.
  unfold C. split; [rewrite map_length, seq_length; reflexivity|]. apply Forall_map, Forall_forall. intros j _. apply (proj1 HL), unit_vec_length.
Qed.
Lemma materialize_shape : mat_shape n n (materialize_array f n).
Proof. apply mtrans_shape. apply C_shape. Qed.
(** f x is the combination of the images of the unit vectors *)
Lemma linear_comb k : (k <= n)%nat -> forall x, length x = n -> (forall i, (k <= i < n)%nat -> nth i x 0 = 0) ->
  f x = tvec n (firstn k C) (firstn k x).
Proof.
  induction k as [|k IH]; intros Hk x Hx Hz.
  - simpl. assert (E : x = vzero n). { apply vec_ext; [rewrite vzero_length; exact Hx|]. intros i Hi. rewrite nth_vzero. apply Hz. lia. }
    rewrite E. apply (linear_zero n f HL).
  - set (y := vsub x (smul (nth k x 0) (unit_vec n k))).
    assert (Ly : length y = n) by (unfold y; rewrite vsub_length, smul_length, unit_vec_length; lia).
    assert (Ny : forall i, (i < n)%nat -> nth i y 0 = if Nat.eq_dec k i then 0 else nth i x 0).
    { intros i Hi. unfold y. rewrite nth_vsub, nth_smul, nth_unit_vec by exact Hi. destruct (Nat.eq_dec k i) as [->|]; ring. }
    assert (Ex : x = vadd y (smul (nth k x 0) (unit_vec n k))).
    { apply vec_ext; [rewrite vadd_length, smul_length, unit_vec_length; lia|]. intros i Hi. rewrite nth_vadd, nth_smul, Ny, nth_unit_vec by lia.
      destruct (Nat.eq_dec k i) as [->|]; ring. }
    rewrite Ex at 1. destruct HL as (Hl & Ha & Hs). rewrite Ha by (rewrite ?smul_length, ?unit_vec_length; auto). rewrite Hs by apply unit_vec_length.
    rewrite (IH ltac:(lia) y Ly).
    2:{ intros i Hi. rewrite Ny by lia. destruct (Nat.eq_dec k i); [reflexivity|]. apply Hz. lia. }
    assert (Ef : firstn k y = firstn k x).
    { apply (nth_ext _ _ 0 0); [rewrite !firstn_length; unfold vec in *; lia|]. intros i Hi. rewrite firstn_length in Hi.
      rewrite <- (firstn_skipn k x) in Ny.
      assert (Hik : (i < k)%nat) by lia. 
      assert (Hny : nth i y 0 = nth i x 0). { rewrite Ny by lia. rewrite (firstn_skipn k x). destruct (Nat.eq_dec k i); [lia|reflexivity]. }
      transitivity (nth i y 0).
      - rewrite <- (firstn_skipn k y) at 2. rewrite app_nth1; [reflexivity|]. rewrite firstn_length. lia.
      - rewrite Hny. rewrite <- (firstn_skipn k x) at 1. rewrite app_nth1; [reflexivity|]. rewrite firstn_length. unfold vec in *; lia. }
    rewrite Ef.
    assert (HC : length C = n) by apply C_shape.
    assert (E1 : firstn (S k) C = firstn k C ++ [f (unit_vec n k)]).
    { unfold C. rewrite !firstn_map. change [f (unit_vec n k)] with (map (fun j => f (unit_vec n j)) [k]). rewrite <- map_app. f_equal.
      assert (Es : seq 0 n = seq 0 k ++ k :: seq (S k) (n - S k)).
      { replace n with (k + S (n - S k))%nat at 1 by lia. rewrite seq_app. reflexivity. }
      rewrite Es, !firstn_app, !seq_length, (firstn_all2 (n := k)), (firstn_all2 (n := S k)) by (rewrite seq_length; lia).
      replace (S k - k)%nat with 1%nat by lia. rewrite Nat.sub_diag. simpl. rewrite app_nil_r. reflexivity. }
    assert (E2 : firstn (S k) x = firstn k x ++ [nth k x 0]).
    { clear -Hk Hx. revert n x Hk Hx. induction k as [|k IH]; intros n x Hk Hx; destruct x as [|a x]; simpl in *; try lia; [reflexivity|].
      f_equal. apply (IH (n - 1)%nat); lia. }
    rewrite E1, E2.
    assert (HT : forall (M : mat) (w : vec) (r : vec) (a : R), length M = length w -> Forall (fun r => length r = n) M -> length r = n ->
      tvec n (M ++ [r]) (w ++ [a]) = vadd (tvec n M w) (smul a r)).
    { clear. induction M as [|r0 M IH]; intros [|a0 w] r a Hl HF Hr; try discriminate.
      - simpl. apply vadd_comm.
      - simpl. inversion HF; subst. rewrite IH by (simpl in *; auto; lia). apply vadd_assoc. }
    rewrite HT; [reflexivity| | |apply Hl, unit_vec_length].
    + rewrite !firstn_length. unfold vec in *; lia.
    + apply Forall_forall. intros r Hr. assert (HF := proj2 C_shape). rewrite Forall_forall in HF. apply HF.
      rewrite <- (firstn_skipn k C). apply in_or_app. left. exact Hr.
Qed.
Lemma materialize_mvec x : length x = n -> mvec (materialize_array f n) x = f x.
Proof.
  intros Hx. rewrite (linear_comb n ltac:(lia) x Hx ltac:(intros; lia)).
  assert (HC := C_shape). rewrite !firstn_all2 by (rewrite ?(proj1 HC); unfold vec in *; lia).
  unfold materialize_array. fold C. apply (mvec_mtrans n n); [exact HC|exact Hx].
Qed.
Lemma materialize_nonsingular : (forall x, length x = n -> f x = vzero n -> x = vzero n) -> nonsingular n (materialize_array f n).
Proof.
  intros H. split; [apply materialize_shape|]. intros v Hv E. rewrite materialize_mvec in E by exact Hv. apply H; assumption.
Qed.
End Mat.
Lemma rval_eq r : match r with Some r => r | None => 0 end = rval r.
Proof. reflexivity. Qed.
Lemma regular_kernel n f r : is_linear n f -> regular_op n f r ->
  forall x, length x = n -> with_ridge f r x = vzero n -> x = vzero n.
Proof. intros HL HR x Hx E. apply HR; [exact Hx|]. rewrite (with_ridge_eq n) in E by assumption. exact E. Qed.
Lemma positive_regular n f r : is_linear n f -> positive_op n f r -> regular_op n f r.
Proof.
  intros HL [_ HP] x Hx E. destruct (list_eq_dec Req_EM_T x (vzero n)) as [|Hne]; [assumption|]. exfalso.
  specialize (HP x Hx Hne). rewrite rval_eq in HP, E. assert (E2 : dot x (vadd (f x) (smul (rval r) x)) = 0) by (rewrite E; apply dot_vzero_r).
  rewrite dot_vadd_r, dot_smul_r in E2. lra.
Qed.
Lemma with_ridge_positive n f r : is_linear n f -> positive_op n f r -> positive_op n (with_ridge f r) None.
Proof.
  intros HL [HS HP]. split.
  - intros x y Hx Hy. rewrite !(with_ridge_eq n) by assumption. rewrite dot_vadd_l, dot_vadd_r, dot_smul_l, dot_smul_r, HS by assumption. reflexivity.
  - intros x Hx Hne. rewrite (with_ridge_eq n) by assumption. rewrite dot_vadd_r, dot_smul_r. specialize (HP x Hx Hne). rewrite rval_eq in HP. lra.
Qed.
Lemma with_ridge_regular n f r : is_linear n f -> regular_op n f r -> regular_op n (with_ridge f r) None.
Proof.
  intros HL HR x Hx E. apply (regular_kernel n f r HL HR x Hx). rewrite smul_0, vadd_vzero_r in E; [exact E|].
  rewrite (proj1 (with_ridge_linear n f r HL)) by exact Hx. unfold vec in *; lia.
Qed.
Lemma solve_spec n f r b x : is_linear n f -> length b = n -> length x = n ->
  with_ridge f r x = b -> solves_ridge f r b x.
Proof. intros HL Hb Hx E. split; [lia|]. rewrite (with_ridge_eq n) in E by assumption. exact E. Qed.

Lemma matrix_linear n M : mat_shape n n M -> is_linear n (mvec M).
Proof.
  intros HM. split; [intros x Hx; rewrite mvec_length; apply HM|]. split.
  - intros x y Hx Hy. apply mvec_vadd.
  - intros a x Hx. apply mvec_smul.
Qed.
Lemma mvec_length_n m n M x : mat_shape m n M -> length (mvec M x) = m.
Proof. intros H. rewrite mvec_length. apply H. Qed.
Lemma normal_linear m n A : mat_shape m n A -> is_linear n (normal_matvec n A).
Proof.
  intros HA. unfold normal_matvec. split; [intros; apply (tvec_length m); exact HA|]. split.
  - intros x y Hx Hy. rewrite mvec_vadd. apply (tvec_vadd m); exact HA.
  - intros a x Hx. rewrite mvec_smul. apply (tvec_smul m); exact HA.
Qed.
Lemma dot_normal n A x y : dot (normal_matvec n A x) y = dot (mvec A x) (mvec A y).
Proof. unfold normal_matvec. rewrite dot_tvec. reflexivity. Qed.
Lemma sqnorm_zero_vec n x : length x = n -> dot x x = 0 -> x = vzero n.
Proof. intros <- H. apply dot_self_zero, H. Qed.
