(** Product of the pivots (the determinant) of a symmetric positive definite matrix, by Schur
    complements, and its rank-one updates.  Matrices are functions of two indices here. *)
From Coq Require Import Reals List Lra Lia Arith Psatz.
From Verif Require Import Prelude Vec Mat.
Import ListNotations.
Open Scope R_scope.

Fixpoint fsum (n : nat) (f : nat -> R) : R := match n with O => 0 | S k => f O + fsum k (fun i => f (S i)) end.
Definition fmat := nat -> nat -> R.
Definition schur (B : fmat) : fmat := fun i j => B (S i) (S j) - B (S i) O * B O (S j) / B O O.
Fixpoint pivots (n : nat) (B : fmat) : R := match n with O => 1 | S k => B O O * pivots k (schur B) end.
Fixpoint pivots_pos (n : nat) (B : fmat) : Prop := match n with O => True | S k => 0 < B O O /\ pivots_pos k (schur B) end.
Definition ftrace (n : nat) (B : fmat) : R := fsum n (fun i => B i i).
Definition fquad (n : nat) (B : fmat) (v : nat -> R) : R := fsum n (fun i => v i * fsum n (fun j => B i j * v j)).
Definition fpd (n : nat) (B : fmat) : Prop := forall v, (exists i, (i < n)%nat /\ v i <> 0) -> 0 < fquad n B v.
Definition fsym (B : fmat) : Prop := forall i j, B i j = B j i.

Lemma fsum_ext n : forall f g, (forall i, (i < n)%nat -> f i = g i) -> fsum n f = fsum n g.
Proof. induction n as [|n IH]; intros f g H; [reflexivity|]. simpl. rewrite (H O) by lia. f_equal. apply IH. intros i Hi. apply H. lia. Qed.
Lemma fsum_plus n : forall f g, fsum n (fun i => f i + g i) = fsum n f + fsum n g.
Proof. induction n as [|n IH]; intros f g; simpl; [ring|]. rewrite IH. ring. Qed.
Lemma fsum_scal n : forall a f, fsum n (fun i => a * f i) = a * fsum n f.
Proof. induction n as [|n IH]; intros a f; simpl; [ring|]. rewrite IH. ring. Qed.
Lemma fsum_le n : forall f g, (forall i, (i < n)%nat -> f i <= g i) -> fsum n f <= fsum n g.
Proof. induction n as [|n IH]; intros f g H; simpl; [lra|]. apply Rplus_le_compat; [apply H; lia|apply IH; intros i Hi; apply H; lia]. Qed.
Lemma fsum_zero n : fsum n (fun _ => 0) = 0.
Proof. induction n as [|n IH]; simpl; [reflexivity|rewrite IH; ring]. Qed.
Lemma fsum_nonneg n f : (forall i, (i < n)%nat -> 0 <= f i) -> 0 <= fsum n f.
Proof. intros H. rewrite <- (fsum_zero n). apply fsum_le. exact H. Qed.

Lemma schur_ext A B : (forall i j, A i j = B i j) -> forall i j, schur A i j = schur B i j.
Proof. intros H i j. unfold schur. rewrite !H. reflexivity. Qed.
Lemma pivots_ext n : forall A B, (forall i j, A i j = B i j) -> pivots n A = pivots n B.
Proof. induction n as [|n IH]; intros A B H; [reflexivity|]. simpl. rewrite (H O O). f_equal. apply IH. apply schur_ext. exact H. Qed.
Lemma pivots_pos_ext n : forall A B, (forall i j, A i j = B i j) -> pivots_pos n A -> pivots_pos n B.
Proof. induction n as [|n IH]; intros A B H; [auto|]. simpl. rewrite (H O O). intros [P Q]. split; [exact P|]. apply (IH (schur A)); [apply schur_ext; exact H|exact Q]. Qed.
Lemma schur_sym B : fsym B -> fsym (schur B).
Proof. intros H i j. unfold schur. rewrite (H (S i) (S j)), (H (S i) O), (H O (S j)). unfold Rdiv. ring. Qed.

(** Determinant of a rank-one update. *)
Lemma pivots_rank1 n : forall B sigma v z, fsym B -> pivots_pos n B -> pivots_pos n (fun i j => B i j + sigma * (v i * v j)) ->
  (forall i, fsum n (fun j => B i j * z j) = v i) ->
  pivots n (fun i j => B i j + sigma * (v i * v j)) = pivots n B * (1 + sigma * fsum n (fun i => v i * z i)).
Proof.
  induction n as [|n IH]; intros B sigma v z Hs HP HP' Hz; [simpl; ring|].
  simpl in HP. destruct HP as [Hb HP]. simpl in HP'. destruct HP' as [Hb' HP']. cbn [pivots].
  set (b := B O O) in *. set (b' := b + sigma * (v O * v O)) in *.
  set (w := fun i => v (S i) - v O / b * B (S i) O). set (z' := fun i => z (S i)).
  assert (E : forall i j, schur (fun i j => B i j + sigma * (v i * v j)) i j = schur B i j + sigma * b / b' * (w i * w j)).
  { intros i j. unfold schur, w. fold b. fold b'. rewrite (Hs O (S j)). assert (Db' : b' = b + sigma * (v O * v O)) by reflexivity. rewrite Db'. field.
    rewrite <- Db'. split; lra. }
  assert (C0 : fsum n (fun j => B O (S j) * z' j) = v O - b * z O).
  { pose proof (Hz O) as Z0. simpl in Z0. fold b in Z0. unfold z'. lra. }
  assert (Z' : forall i, fsum n (fun j => schur B i j * z' j) = w i).
  { intros i. pose proof (Hz (S i)) as Zi. simpl in Zi.
    rewrite (fsum_ext n _ (fun j => B (S i) (S j) * z' j + (- (B (S i) O / b)) * (B O (S j) * z' j))).
    - rewrite fsum_plus, fsum_scal, C0. unfold w. unfold z'. unfold z' in C0. replace (fsum n (fun i0 => B (S i) (S i0) * z (S i0))) with (v (S i) - B (S i) O * z O) by lra. field. lra.
    - intros j _. unfold schur. fold b. field. lra. }
  rewrite (pivots_ext n _ _ E). rewrite (IH (schur B) (sigma * b / b') w z' (schur_sym B Hs) HP (pivots_pos_ext n _ _ E HP') Z').
  assert (V : fsum n (fun i => w i * z' i) = fsum n (fun i => v (S i) * z' i) - v O / b * (v O - b * z O)).
  { rewrite (fsum_ext n _ (fun i => v (S i) * z' i + (- (v O / b)) * (B O (S i) * z' i))).
    - rewrite fsum_plus, fsum_scal, C0. ring.
    - intros i _. unfold w. rewrite (Hs O (S i)). ring. }
  rewrite V. change (fsum (S n) (fun i => v i * z i)) with (v O * z O + fsum n (fun i => v (S i) * z' i)).
  assert (Db' : b' = b + sigma * (v O * v O)) by reflexivity. set (T := fsum n (fun i => v (S i) * z' i)). set (P := pivots n (schur B)).
  replace (b' * (P * (1 + sigma * b / b' * (T - v O / b * (v O - b * z O))))) with (P * (b' + sigma * b * (T - v O / b * (v O - b * z O)))) by (field; lra).
  rewrite Db'. field. lra.
Qed.

(** A positive definite matrix has positive pivots. *)
Lemma fquad_S n B v : fsym B -> B O O <> 0 ->
  fquad (S n) B v = B O O * (v O + fsum n (fun j => B O (S j) * v (S j)) / B O O) ^ 2 + fquad n (schur B) (fun i => v (S i)).
Proof.
  intros Hs Hb. unfold fquad. simpl fsum. set (b := B O O) in *. set (c := fsum n (fun i => B O (S i) * v (S i))).
  assert (A : fsum n (fun i => v (S i) * (B (S i) O * v O + fsum n (fun j => B (S i) (S j) * v (S j)))) =
              v O * c + fsum n (fun i => v (S i) * fsum n (fun j => B (S i) (S j) * v (S j)))).
  { unfold c. rewrite <- fsum_scal, <- fsum_plus. apply fsum_ext. intros i _. rewrite (Hs O (S i)). ring. }
  rewrite A.
  assert (Q : fsum n (fun i => v (S i) * fsum n (fun j => schur B i j * v (S j))) =
              fsum n (fun i => v (S i) * fsum n (fun j => B (S i) (S j) * v (S j))) - c * c / b).
  { replace (- (c * c / b)) with (- (c / b) * c) by (field; exact Hb).
    rewrite (fsum_ext n _ (fun i => v (S i) * fsum n (fun j => B (S i) (S j) * v (S j)) + (- (c / b)) * (B O (S i) * v (S i)))).
    - rewrite fsum_plus, fsum_scal. fold c. field. exact Hb.
    - intros i _. rewrite (fsum_ext n _ (fun j => B (S i) (S j) * v (S j) + (- (B (S i) O / b)) * (B O (S j) * v (S j)))).
      + rewrite fsum_plus, fsum_scal. fold c. rewrite (Hs O (S i)). field. exact Hb.
      + intros j _. unfold schur. fold b. field. exact Hb. }
  rewrite Q. field. exact Hb.
Qed.
Lemma fsum_single n i f : (i < n)%nat -> (forall j, (j < n)%nat -> j <> i -> f j = 0) -> fsum n f = f i.
Proof.
  revert i f. induction n as [|n IH]; intros i f Hi H; [lia|]. simpl. destruct i as [|i].
  - rewrite (fsum_ext n _ (fun _ => 0)); [rewrite fsum_zero; ring|]. intros j Hj. apply H; lia.
  - rewrite (H O) by lia. rewrite (IH i (fun j => f (S j))); [ring|lia|]. intros j Hj Hn. apply H; lia.
Qed.
Lemma fpd_head n B : fpd (S n) B -> 0 < B O O.
Proof.
  intros H. set (e := fun i => match i with O => 1 | S _ => 0 end).
  assert (P : 0 < fquad (S n) B e) by (apply H; exists O; split; [lia|simpl; lra]).
  assert (A : forall i, fsum (S n) (fun j => B i j * e j) = B i O).
  { intros i. rewrite (fsum_single (S n) O); [simpl; ring|lia|]. intros [|j] _ Hj; [congruence|]. unfold e. ring. }
  unfold fquad in P. rewrite (fsum_ext (S n) _ (fun i => e i * B i O)) in P by (intros i _; rewrite A; reflexivity).
  rewrite (fsum_single (S n) O) in P; [simpl in P; lra|lia|]. intros [|j] _ Hj; [congruence|]. unfold e. ring.
Qed.
Lemma schur_pd n B : fsym B -> fpd (S n) B -> fpd n (schur B).
Proof.
  intros Hs H v (i & Hi & Hv). pose proof (fpd_head n B H) as Hb.
  set (u := fun i => match i with O => - (fsum n (fun j => B O (S j) * v j) / B O O) | S j => v j end).
  assert (P : 0 < fquad (S n) B u) by (apply H; exists (S i); split; [lia|exact Hv]).
  rewrite fquad_S in P by (exact Hs || lra). simpl (u O) in P. unfold u in P. cbv beta iota in P.
  match type of P with 0 < _ * (- ?q + ?q) ^ 2 + _ => replace (- q + q) with 0 in P by ring end.
  rewrite pow_i, Rmult_0_r, Rplus_0_l in P by lia. exact P.
Qed.
Lemma fpd_pivots n : forall B, fsym B -> fpd n B -> pivots_pos n B.
Proof.
  induction n as [|n IH]; intros B Hs H; [exact I|]. split; [apply (fpd_head n B H)|]. apply IH; [apply schur_sym; exact Hs|apply schur_pd; assumption].
Qed.
Lemma pivots_positive n : forall B, pivots_pos n B -> 0 < pivots n B.
Proof. induction n as [|n IH]; intros B; simpl; [lra|]. intros [P Q]. apply Rmult_lt_0_compat; auto. Qed.
Lemma pivots_pos_diag n : forall B, fsym B -> pivots_pos n B -> forall i, (i < n)%nat -> 0 < B i i.
Proof.
  induction n as [|n IH]; intros B Hs HP i Hi; [lia|]. destruct HP as [Hb HP]. destruct i as [|i]; [exact Hb|].
  pose proof (IH (schur B) (schur_sym B Hs) HP i ltac:(lia)) as Q. unfold schur in Q. rewrite (Hs O (S i)) in Q.
  assert (0 <= B (S i) O * B (S i) O / B O O) by (apply Rmult_le_pos; [apply Rle_0_sqr|left; apply Rinv_0_lt_compat; exact Hb]). lra.
Qed.
Lemma pivots_trace n : forall B, fsym B -> pivots_pos n B -> 0 <= ftrace n B /\ pivots n B <= ftrace n B ^ n.
Proof.
  induction n as [|n IH]; intros B Hs HP; [unfold ftrace; simpl; lra|].
  pose proof HP as [Hb HP1]. destruct (IH (schur B) (schur_sym B Hs) HP1) as [T0 T1].
  pose proof (pivots_positive n _ HP1) as P0.
  assert (Tn : 0 <= fsum n (fun i => B (S i) (S i))).
  { apply fsum_nonneg. intros i Hi. left. apply (pivots_pos_diag (S n) B Hs HP (S i)). lia. }
  assert (Te : ftrace (S n) B = B O O + fsum n (fun i => B (S i) (S i))) by reflexivity.
  assert (Ts : ftrace n (schur B) <= fsum n (fun i => B (S i) (S i))).
  { unfold ftrace. apply fsum_le. intros i _. unfold schur. rewrite (Hs O (S i)).
    assert (0 <= B (S i) O * B (S i) O / B O O) by (apply Rmult_le_pos; [apply Rle_0_sqr|left; apply Rinv_0_lt_compat; exact Hb]). lra. }
  split; [lra|]. cbn [pivots]. change (ftrace (S n) B ^ S n) with (ftrace (S n) B * ftrace (S n) B ^ n).
  apply Rmult_le_compat; [lra|lra|lra|]. eapply Rle_trans; [exact T1|]. apply pow_incr. lra.
Qed.
Lemma pivots_eye n : forall B, (forall i j, B i j = if Nat.eq_dec i j then (if lt_dec i n then 1 else 0) else 0) -> pivots n B = 1 /\ pivots_pos n B.
Proof.
  induction n as [|n IH]; intros B H; [simpl; auto|]. cbn [pivots pivots_pos].
  assert (B0 : B O O = 1) by (rewrite H; simpl; destruct (lt_dec 0 (S n)); [reflexivity|lia]).
  destruct (IH (schur B)) as [A1 A2].
  { intros i j. unfold schur. rewrite !H. destruct (Nat.eq_dec (S i) (S j)), (Nat.eq_dec i j), (Nat.eq_dec (S i) 0), (Nat.eq_dec 0 (S j)); try lia; unfold Rdiv;
    destruct (lt_dec (S i) (S n)), (lt_dec i n); try lia; ring. }
  rewrite A1, B0. split; [ring|]. split; [lra|exact A2].
Qed.
