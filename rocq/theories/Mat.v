(** Matrices of reals as lists of rows. *)
From Coq Require Import Reals List Lra Lia Bool Arith.
From Verif Require Import Vec.
Import ListNotations.
Open Scope R_scope.

Definition mat := list vec.
Definition mat_shape (m n : nat) (M : mat) : Prop := length M = m /\ Forall (fun r => length r = n) M.
Definition entry (M : mat) (i j : nat) : R := nth j (nth i M []) 0.

(** M v *)
Definition mvec (M : mat) (v : vec) : vec := map (fun r => dot r v) M.
(** M^T y, for M with n columns *)
Fixpoint tvec (n : nat) (M : mat) (y : vec) : vec :=
  match M, y with
  | r :: M', a :: y' => vadd (smul a r) (tvec n M' y')
  | _, _ => vzero n
  end.
(** A B, for B with n columns, and A B^T *)
Definition mmul (n : nat) (A B : mat) : mat := map (tvec n B) A.
Definition mmul_t (A B : mat) : mat := map (mvec B) A.
Definition mtrans (n : nat) (M : mat) : mat := map (fun j => map (fun r => nth j r 0) M) (seq 0 n).
(** i-th unit vector, identity, outer product *)
Definition unit_vec (n i : nat) : vec := map (fun j => if Nat.eq_dec i j then 1 else 0) (seq 0 n).
Definition eye (n : nat) : mat := map (unit_vec n) (seq 0 n).
Definition outer (x y : vec) : mat := map (fun a => smul a y) x.
Fixpoint madd (A B : mat) : mat :=
  match A, B with a :: A', b :: B' => vadd a b :: madd A' B' | _, _ => [] end.
Definition msmul (a : R) (A : mat) : mat := map (smul a) A.
Definition msub (A B : mat) : mat := madd A (msmul (-1) B).

Definition symmetric (n : nat) (M : mat) : Prop :=
  forall i j, (i < n)%nat -> (j < n)%nat -> entry M i j = entry M j i.
Definition pos_def (n : nat) (M : mat) : Prop :=
  forall v, length v = n -> v <> vzero n -> 0 < dot v (mvec M v).
Definition pos_semidef (n : nat) (M : mat) : Prop :=
  forall v, length v = n -> 0 <= dot v (mvec M v).

(** ** Extensionality through inner products *)
Lemma vec_eq_dot_len u v : length u = length v -> (forall w, length w = length u -> dot u w = dot v w) -> u = v.
Proof.
  intros Hl H. apply dist2_zero; [exact Hl|]. unfold dist2, sqnorm. rewrite dot_vsub_l, H; [ring|].
  rewrite vsub_length. lia.
Qed.
Lemma vec_eq_dot u v : length u = length v -> (forall w, dot u w = dot v w) -> u = v.
Proof. intros Hl H. apply vec_eq_dot_len; auto. Qed.
Ltac veq := apply vec_eq_dot; [|intros ?w; autorewrite with vec; try ring].

(** ** Lengths and shapes *)
Lemma mvec_length M v : length (mvec M v) = length M.
Proof. apply map_length. Qed.
Lemma tvec_length m n M y : mat_shape m n M -> length (tvec n M y) = n.
Proof.
  intros [_ H]. revert y. induction M as [|r M IH]; intros [|a y]; simpl; try apply vzero_length.
  inversion H; subst. rewrite vadd_length, smul_length, IH by assumption. lia.
Qed.
Lemma unit_vec_length n i : length (unit_vec n i) = n.
Proof. unfold unit_vec. rewrite map_length, seq_length. reflexivity. Qed.
Lemma eye_shape n : mat_shape n n (eye n).
Proof.
  unfold eye. split; [rewrite map_length, seq_length; reflexivity|]. apply Forall_forall. intros r H.
  apply in_map_iff in H. destruct H as (i & <- & _). apply unit_vec_length.
Qed.
Lemma outer_shape x y : mat_shape (length x) (length y) (outer x y).
Proof.
  unfold outer. split; [apply map_length|]. apply Forall_forall. intros r H.
  apply in_map_iff in H. destruct H as (i & <- & _). apply smul_length.
Qed.
Lemma msmul_shape m n a A : mat_shape m n A -> mat_shape m n (msmul a A).
Proof.
  intros [H1 H2]. unfold msmul. split; [rewrite map_length; exact H1|]. apply Forall_forall. intros r H.
  apply in_map_iff in H. destruct H as (i & <- & Hi). rewrite smul_length. rewrite Forall_forall in H2. auto.
Qed.
Lemma madd_shape m n A B : mat_shape m n A -> mat_shape m n B -> mat_shape m n (madd A B).
Proof.
  intros [H1 H2] [H3 H4]. revert m B H1 H3 H4. induction A as [|a A IH]; intros m [|b B] H1 H3 H4; simpl in *; subst.
  - split; [reflexivity|constructor].
  - split; [reflexivity|constructor].
  - discriminate.
  - injection H3 as H3. inversion H2; inversion H4; subst.
    destruct (IH ltac:(assumption) (length A) B eq_refl H3 ltac:(assumption)) as [I1 I2].
    split; [simpl; congruence|]. constructor; [|exact I2]. rewrite vadd_length. lia.
Qed.
Lemma msub_shape m n A B : mat_shape m n A -> mat_shape m n B -> mat_shape m n (msub A B).
Proof. intros. unfold msub. apply madd_shape; [assumption|apply msmul_shape; assumption]. Qed.
Lemma mmul_shape m n k A B : mat_shape m k A -> mat_shape k n B -> mat_shape m n (mmul n A B).
Proof.
  intros [H1 _] HB. unfold mmul. split; [rewrite map_length; exact H1|]. apply Forall_forall. intros r H.
  apply in_map_iff in H. destruct H as (i & <- & Hi). apply (tvec_length k); exact HB.
Qed.
Lemma mmul_t_shape m n A B : length A = m -> length B = n -> mat_shape m n (mmul_t A B).
Proof.
  intros H1 HB. unfold mmul_t. split; [rewrite map_length; exact H1|]. apply Forall_forall. intros r H.
  apply in_map_iff in H. destruct H as (i & <- & Hi). rewrite mvec_length. exact HB.
Qed.
Lemma mtrans_shape m n M : length M = m -> mat_shape n m (mtrans n M).
Proof.
  intros H. unfold mtrans. split; [rewrite map_length, seq_length; reflexivity|]. apply Forall_forall. intros r Hr.
  apply in_map_iff in Hr. destruct Hr as (i & <- & Hi). rewrite map_length. exact H.
Qed.

(** ** Linearity and adjointness *)
Lemma mvec_vadd M x y : mvec M (vadd x y) = vadd (mvec M x) (mvec M y).
Proof. induction M as [|r M IH]; simpl; [reflexivity|]. rewrite IH, dot_vadd_r. reflexivity. Qed.
Lemma mvec_vsub M x y : mvec M (vsub x y) = vsub (mvec M x) (mvec M y).
Proof. induction M as [|r M IH]; simpl; [reflexivity|]. rewrite IH, dot_vsub_r. reflexivity. Qed.
Lemma mvec_smul M a x : mvec M (smul a x) = smul a (mvec M x).
Proof. induction M as [|r M IH]; simpl; [reflexivity|]. rewrite IH, dot_smul_r. reflexivity. Qed.
Lemma mvec_vzero M n : mvec M (vzero n) = vzero (length M).
Proof. induction M as [|r M IH]; simpl; [reflexivity|]. rewrite IH, dot_vzero_r. reflexivity. Qed.
Lemma dot_mvec n M x y : dot (mvec M x) y = dot x (tvec n M y).
Proof.
  revert y. induction M as [|r M IH]; intros [|a y]; simpl; rewrite ?dot_vzero_r; try reflexivity.
  rewrite IH, dot_vadd_r, dot_smul_r, (dot_comm r x). ring.
Qed.
Lemma dot_tvec n M x y : dot (tvec n M y) x = dot y (mvec M x).
Proof. rewrite (dot_comm y), (dot_mvec n). apply dot_comm. Qed.
Lemma dot_tvec_r n M x y : dot x (tvec n M y) = dot (mvec M x) y.
Proof. symmetry. apply dot_mvec. Qed.

Lemma tvec_vadd m n M x y : mat_shape m n M -> tvec n M (vadd x y) = vadd (tvec n M x) (tvec n M y).
Proof.
  intros H. pose proof (tvec_length m n M) as L. apply vec_eq_dot.
  - rewrite vadd_length, !L by assumption. lia.
  - intros w. rewrite dot_tvec, !dot_vadd_l, !dot_tvec. ring.
Qed.
Lemma tvec_vsub m n M x y : mat_shape m n M -> tvec n M (vsub x y) = vsub (tvec n M x) (tvec n M y).
Proof.
  intros H. pose proof (tvec_length m n M) as L. apply vec_eq_dot.
  - rewrite vsub_length, !L by assumption. lia.
  - intros w. rewrite dot_tvec, !dot_vsub_l, !dot_tvec. ring.
Qed.
Lemma tvec_smul m n M a x : mat_shape m n M -> tvec n M (smul a x) = smul a (tvec n M x).
Proof.
  intros H. pose proof (tvec_length m n M) as L. apply vec_eq_dot.
  - rewrite smul_length, !L by assumption. lia.
  - intros w. rewrite dot_tvec, !dot_smul_l, !dot_tvec. ring.
Qed.
Lemma tvec_vzero n M k : Forall (fun r => length r = n) M -> tvec n M (vzero k) = vzero n.
Proof.
  intros H. apply vec_eq_dot.
  - rewrite (tvec_length (length M)) by (split; [reflexivity|exact H]). rewrite vzero_length. reflexivity.
  - intros w. rewrite dot_tvec, !dot_vzero_l. reflexivity.
Qed.

(** ** Units *)
Lemma nth_unit_vec n i j : (j < n)%nat -> nth j (unit_vec n i) 0 = if Nat.eq_dec i j then 1 else 0.
Proof.
  intros H. unfold unit_vec. rewrite (nth_indep _ 0 ((fun j => if Nat.eq_dec i j then 1 else 0) 0%nat)) by (rewrite map_length, seq_length; exact H).
  rewrite (map_nth (fun j => if Nat.eq_dec i j then 1 else 0)), seq_nth by exact H. reflexivity.
Qed.
Lemma dot_unit_aux v : forall a i, 
  dot (map (fun j => if Nat.eq_dec i j then 1 else 0) (seq a (length v))) v =
  if andb (a <=? i)%nat (i <? a + length v)%nat then nth (i - a) v 0 else 0.
Proof.
  induction v as [|b v IH]; intros a i; simpl.
  - destruct (a <=? i)%nat eqn:E1; simpl; [|reflexivity]. destruct (i <? a + 0)%nat eqn:E2; [|reflexivity].
    apply Nat.leb_le in E1. apply Nat.ltb_lt in E2. lia.
  - rewrite IH. destruct (Nat.eq_dec i a) as [->|Hne].
    + assert (E1 : (a <=? a)%nat = true) by (apply Nat.leb_le; lia).
      assert (E2 : (S a <=? a)%nat = false) by (apply Nat.leb_gt; lia).
      assert (E3 : (a <? a + S (length v))%nat = true) by (apply Nat.ltb_lt; lia).
      rewrite E1, E2, E3, Nat.sub_diag. simpl. ring.
    + destruct (S a <=? i)%nat eqn:E1.
      * apply Nat.leb_le in E1. assert (E2 : (a <=? i)%nat = true) by (apply Nat.leb_le; lia). rewrite E2. simpl.
        replace (i <? S (a + length v))%nat with (i <? a + S (length v))%nat by (rewrite Nat.add_succ_r; reflexivity).
        destruct (i <? a + S (length v))%nat; [|ring].
        destruct (i - a)%nat as [|k] eqn:Ek; [lia|]. replace (i - S a)%nat with k by lia. ring.
      * apply Nat.leb_gt in E1. assert (E2 : (a <=? i)%nat = false) by (apply Nat.leb_gt; lia). rewrite E2. simpl. ring.
Qed.
Lemma dot_unit_vec n i v : length v = n -> (i < n)%nat -> dot (unit_vec n i) v = nth i v 0.
Proof.
  intros <- H. unfold unit_vec. rewrite dot_unit_aux. simpl.
  assert (E : (i <? length v)%nat = true) by (apply Nat.ltb_lt; exact H). rewrite E, Nat.sub_0_r. reflexivity.
Qed.
Lemma mvec_eye n v : length v = n -> mvec (eye n) v = v.
Proof.
  intros H. apply vec_ext; [rewrite mvec_length; unfold eye; rewrite map_length, seq_length; auto|].
  intros i Hi. unfold mvec, eye. rewrite map_map. rewrite mvec_length in Hi. unfold eye in Hi.
  rewrite map_length, seq_length in Hi.
  rewrite (nth_indep _ 0 ((fun j => dot (unit_vec n j) v) 0%nat)) by (rewrite map_length, seq_length; exact Hi).
  rewrite (map_nth (fun j => dot (unit_vec n j) v)), seq_nth by exact Hi. apply dot_unit_vec; assumption.
Qed.
Lemma mvec_outer x y v : mvec (outer x y) v = smul (dot y v) x.
Proof.
  induction x as [|a x IH]; [reflexivity|]. cbn [outer mvec map smul]. rewrite dot_smul_l. f_equal; [ring|exact IH].
Qed.
Lemma mvec_msmul a M v : mvec (msmul a M) v = smul a (mvec M v).
Proof. induction M as [|r M IH]; [reflexivity|]. cbn [msmul mvec map]. rewrite dot_smul_l. cbn [smul map]. f_equal. exact IH. Qed.
Lemma mvec_madd A B v : length A = length B -> mvec (madd A B) v = vadd (mvec A v) (mvec B v).
Proof.
  revert B. induction A as [|a A IH]; intros [|b B] H; try discriminate; simpl; [reflexivity|].
  injection H as H. rewrite IH by exact H. rewrite dot_vadd_l. reflexivity.
Qed.
Lemma mvec_msub A B v : length A = length B -> mvec (msub A B) v = vsub (mvec A v) (mvec B v).
Proof.
  intros H. unfold msub. rewrite mvec_madd by (unfold msmul; rewrite map_length; exact H).
  rewrite mvec_msmul. rewrite vsub_as_vadd. reflexivity.
Qed.
Lemma mvec_mmul n A B v : mvec (mmul n A B) v = mvec A (mvec B v).
Proof. unfold mmul, mvec at 1 2. rewrite map_map. apply map_ext. intros r. apply dot_tvec. Qed.
Lemma mvec_mmul_t n A B v : mvec (mmul_t A B) v = mvec A (tvec n B v).
Proof. unfold mmul_t, mvec at 1 3. rewrite map_map. apply map_ext. intros r. apply dot_mvec. Qed.
Lemma tvec_cons n r M a y : tvec n (r :: M) (a :: y) = vadd (smul a r) (tvec n M y).
Proof. reflexivity. Qed.

Lemma nth_mvec M v i : nth i (mvec M v) 0 = dot (nth i M []) v.
Proof.
  destruct (Nat.lt_ge_cases i (length M)) as [H|H].
  - unfold mvec. rewrite (nth_indep _ 0 (dot [] v)) by (rewrite map_length; exact H).
    apply (map_nth (fun r => dot r v)).
  - rewrite !nth_overflow by (rewrite ?mvec_length; exact H). reflexivity.
Qed.
Lemma row_length m n M i : mat_shape m n M -> (i < m)%nat -> length (nth i M []) = n.
Proof. intros [H1 H2] Hi. rewrite Forall_forall in H2. apply H2, nth_In. lia. Qed.

Lemma mvec_unit m n M i j : mat_shape m n M -> (i < m)%nat -> (j < n)%nat ->
  nth i (mvec M (unit_vec n j)) 0 = entry M i j.
Proof.
  intros H Hi Hj. rewrite nth_mvec, dot_comm. unfold entry.
  apply dot_unit_vec; [apply (row_length m n M i H Hi)|exact Hj].
Qed.
Lemma entry_dot m n M i j : mat_shape m n M -> (i < m)%nat -> (j < n)%nat ->
  entry M i j = dot (unit_vec m i) (mvec M (unit_vec n j)).
Proof.
  intros H Hi Hj. rewrite dot_unit_vec; [symmetry; apply (mvec_unit m n M i j H Hi Hj)|rewrite mvec_length; apply H|exact Hi].
Qed.

(** Symmetry is self-adjointness. *)
Lemma nth_tvec m n M y j : mat_shape m n M -> (j < n)%nat ->
  nth j (tvec n M y) 0 = dot y (mvec M (unit_vec n j)).
Proof.
  intros H Hj. rewrite <- (dot_unit_vec n j) by (auto using (tvec_length m n M y H)).
  rewrite dot_comm, dot_tvec. reflexivity.
Qed.
Lemma symmetric_adjoint n M : mat_shape n n M ->
  (symmetric n M <-> forall x y, length x = n -> length y = n -> dot (mvec M x) y = dot x (mvec M y)).
Proof.
  intros HM. split.
  - intros Hs x y Hx Hy. rewrite (dot_mvec n). f_equal.
    apply vec_ext; [rewrite (tvec_length n n M y HM), mvec_length; symmetry; apply HM|].
    intros j Hj. rewrite (tvec_length n n M y HM) in Hj.
    rewrite (nth_tvec n n M y j HM Hj), nth_mvec, dot_comm. f_equal.
    apply vec_ext; [rewrite mvec_length, (row_length n n M j HM Hj); apply HM|].
    intros i Hi. rewrite mvec_length in Hi. destruct HM as [HM1 HM2]. rewrite HM1 in Hi.
    rewrite (mvec_unit n n M i j (conj HM1 HM2) Hi Hj). apply Hs; assumption.
  - intros Ha i j Hi Hj. rewrite !(entry_dot n n M) by assumption.
    rewrite <- Ha by apply unit_vec_length. apply dot_comm.
Qed.
Lemma sym_dot n M x y : mat_shape n n M -> symmetric n M -> length x = n -> length y = n ->
  dot x (mvec M y) = dot y (mvec M x).
Proof.
  intros H Hs Hx Hy. rewrite <- (proj1 (symmetric_adjoint n M H) Hs x y Hx Hy). apply dot_comm.
Qed.
Lemma tvec_sym n M x : mat_shape n n M -> symmetric n M -> length x = n -> tvec n M x = mvec M x.
Proof.
  intros H Hs Hx. apply vec_ext; [rewrite (tvec_length n n M x H), mvec_length; symmetry; apply H|].
  intros j Hj. rewrite (tvec_length n n M x H) in Hj.
  rewrite (nth_tvec n n M x j H Hj), <- (proj1 (symmetric_adjoint n M H) Hs x _ Hx (unit_vec_length n j)).
  rewrite dot_comm. apply dot_unit_vec; [rewrite mvec_length; apply H|exact Hj].
Qed.
Lemma mvec_mtrans m n M y : mat_shape m n M -> length y = m -> mvec (mtrans n M) y = tvec n M y.
Proof.
  intros H Hy. apply vec_ext.
  - rewrite mvec_length, (tvec_length m n M y H). apply mtrans_shape with (m := m). apply H.
  - intros j Hj. rewrite mvec_length in Hj. unfold mtrans in Hj. rewrite map_length, seq_length in Hj.
    rewrite nth_mvec, (nth_tvec m n M y j H Hj), dot_comm. f_equal.
    unfold mtrans. rewrite (nth_indep _ [] ((fun j => map (fun r => nth j r 0) M) 0%nat)) by (rewrite map_length, seq_length; exact Hj).
    rewrite (map_nth (fun j => map (fun r => nth j r 0) M)), seq_nth by exact Hj. simpl.
    unfold mvec. apply map_ext_in. intros r Hr. rewrite dot_comm. symmetry. apply dot_unit_vec; [|exact Hj].
    destruct H as [_ H]. rewrite Forall_forall in H. auto.
Qed.
#[export] Hint Resolve eye_shape outer_shape msmul_shape madd_shape msub_shape : mshape.
