(** A verified QR factorisation (Gram-Schmidt): shows that the assumptions made about
    jax.scipy.linalg.qr can be met.  Not a model of any code in the repository. *)
From Coq Require Import Reals List Lra Lia Bool Arith.
From Verif Require Import Prelude Vec Mat LinAlg LinSolveProofs Prox.
Import ListNotations.
Open Scope R_scope.

(** cols are the columns of the matrix; the result is the columns of q and the rows of r *)
Fixpoint gs (k : nat) (cols : list vec) : list vec * mat :=
  match cols with
  | [] => ([], [])
  | c :: cs =>
      let '(qs, T) := gs k cs in
      let w := mvec qs c in
      let e := vsub c (tvec k qs w) in
      (smul (/ norm2 e) e :: qs, (norm2 e :: vzero (length cs)) :: map (fun p => fst p :: snd p) (combine w T))
  end.
Definition independent_cols (k : nat) (cols : list vec) : Prop :=
  Forall (fun c => length c = k) cols /\ forall v, length v = length cols -> tvec k cols v = vzero k -> v = vzero (length cols).
Definition orthonormal (qs : list vec) : Prop := forall v, length v = length qs -> mvec qs (tvec (length (nth 0 qs [])) qs v) = v.

Lemma tvec_lin k cs v w : mat_shape (length cs) k cs -> tvec k cs (vadd v w) = vadd (tvec k cs v) (tvec k cs w).
Proof. intros H. apply (tvec_vadd (length cs)). exact H. Qed.
Lemma combine_mvec (w : vec) (T : mat) a v : length w = length T ->
  mvec (map (fun p => fst p :: snd p) (combine w T)) (a :: v) = vadd (smul a w) (mvec T v).
Proof.
  revert T. induction w as [|u w IH]; intros [|t T] H; try discriminate; [reflexivity|]. cbn. f_equal; [ring|]. apply IH. simpl in H. lia.
Qed.
Lemma gs_spec k cols : independent_cols k cols -> let '(qs, T) := gs k cols in let n := length cols in
  mat_shape n k qs /\ mat_shape n n T /\
  (forall v, length v = n -> mvec qs (tvec k qs v) = v) /\
  (forall v, length v = n -> tvec k cols v = tvec k qs (mvec T v)).
Proof.
  induction cols as [|c cs IH]; intros [HF HI].
  - cbn. split; [split; [reflexivity|constructor]|]. split; [split; [reflexivity|constructor]|]. split; intros [|]; intros; try discriminate; reflexivity.
  - cbn [gs]. inversion HF as [|? ? Hc HF']; subst. set (n := length cs) in *. set (k := length c) in *.
    assert (Hcs : mat_shape n k cs) by (split; [reflexivity|exact HF']).
    assert (HI' : independent_cols k cs).
    { split; [exact HF'|]. intros v Hv E. assert (E' : 0 :: v = vzero (S n)).
      { apply HI; [simpl; unfold vec in *; lia|]. rewrite tvec_cons, E. apply vec_eq_dot; [rewrite vadd_length, smul_length, !vzero_length; unfold vec in *; lia|]. intros z. autorewrite with vec. ring. }
      injection E' as E'. exact E'. }
    specialize (IH HI'). destruct (gs k cs) as [qs T]. cbv zeta in *. fold n in IH. destruct IH as (Hqs & HT & Ho & HA).
    set (w := mvec qs c). set (e := vsub c (tvec k qs w)). assert (Lw : length w = n) by (unfold w; rewrite mvec_length; apply Hqs).
    assert (Le : length e = k) by (unfold e; rewrite vsub_length, (tvec_length n) by exact Hqs; unfold k; lia).
    assert (HTn : nonsingular n T).
    { split; [exact HT|]. intros v Hv E. apply HI'; [exact Hv|]. fold n. rewrite HA by exact Hv. rewrite E.
      apply vec_eq_dot; [rewrite (tvec_length n), vzero_length by exact Hqs; reflexivity|]. intros z. rewrite (dot_tvec k), !dot_vzero_l by exact Hqs. reflexivity. }
    assert (Pe : 0 < norm2 e).
    { destruct (Rle_lt_or_eq_dec 0 (norm2 e) (norm2_nonneg e)) as [|E]; [assumption|]. exfalso. symmetry in E. apply norm2_zero_iff in E. rewrite Le in E.
      destruct (gauss_exact n T w HTn Lw) as [Ls Es]. set (s := gauss_solve T w) in *.
      assert (E1 : 1 :: smul (-1) s = vzero (S n)).
      { apply HI; [simpl; rewrite smul_length; unfold vec in *; lia|]. rewrite tvec_cons, (tvec_smul n) by exact Hcs. rewrite HA by exact Ls. rewrite Es.
        apply vec_eq_dot; [rewrite vadd_length, !smul_length, (tvec_length n), vzero_length by exact Hqs; fold k; lia|]. intros z.
        assert (D : dot e z = 0) by (rewrite E; apply dot_vzero_l). unfold e in D. autorewrite with vec in *. lra. }
      injection E1 as E1 _. lra. }
    assert (Eq : forall z, length z = n -> mvec qs (tvec k qs z) = z) by exact Ho.
    assert (Oe : mvec qs e = vzero n).
    { unfold e. rewrite mvec_vsub. fold w. rewrite Eq by exact Lw. apply vec_eq_dot; [rewrite vsub_length, vzero_length; unfold vec in *; lia|]. intros z. autorewrite with vec. ring. }
    set (q0 := smul (/ norm2 e) e). assert (Lq : length q0 = k) by (unfold q0; rewrite smul_length; exact Le).
    assert (Q0 : dot q0 q0 = 1). { unfold q0. rewrite dot_smul_l, dot_smul_r. assert (N := norm2_sq e). unfold sqnorm in N. rewrite <- N. field. lra. }
    assert (Oq : mvec qs q0 = vzero n).
    { unfold q0. rewrite mvec_smul, Oe. apply vec_eq_dot; [rewrite smul_length; reflexivity|]. intros z. autorewrite with vec. ring. }
    assert (Hqs' : mat_shape (S n) k (q0 :: qs)) by (split; [simpl; f_equal; apply Hqs|constructor; [exact Lq|apply Hqs]]).
    cbn [length]. fold n. split; [exact Hqs'|]. split; [|split].
    + split; [simpl; rewrite map_length, combine_length, Lw, (proj1 HT); lia|]. constructor; [simpl; rewrite vzero_length; reflexivity|].
      apply Forall_forall. intros row Hrow. apply in_map_iff in Hrow. destruct Hrow as ([u t] & <- & Hin). apply in_combine_r in Hin. simpl. f_equal. destruct HT as [_ HT2]. rewrite Forall_forall in HT2. apply HT2. exact Hin.
    + intros [|a v] Hv; [discriminate|]. simpl in Hv. injection Hv as Hv. rewrite tvec_cons. cbn [mvec map]. fold (mvec qs (vadd (smul a q0) (tvec k qs v))).
      rewrite mvec_vadd, mvec_smul, Oq, Eq by exact Hv. f_equal.
      * rewrite dot_vadd_r, dot_smul_r, Q0. rewrite (dot_comm q0), (dot_tvec k) by exact Hqs. rewrite Oq, dot_vzero_r. ring.
      * apply vec_eq_dot; [rewrite vadd_length, smul_length, vzero_length; unfold vec in *; lia|]. intros z. autorewrite with vec. ring.
    + intros [|a v] Hv; [discriminate|]. simpl in Hv. injection Hv as Hv. rewrite tvec_cons, HA by exact Hv.
      change (mvec ((norm2 e :: vzero n) :: map (fun p => fst p :: snd p) (combine w T)) (a :: v)) with (dot (norm2 e :: vzero n) (a :: v) :: mvec (map (fun p => fst p :: snd p) (combine w T)) (a :: v)).
      rewrite combine_mvec by (rewrite Lw; symmetry; apply HT). rewrite tvec_cons. cbn [dot]. rewrite dot_vzero_l.
      rewrite (tvec_vadd n), (tvec_smul n) by exact Hqs.
      apply vec_eq_dot; [rewrite !vadd_length, !smul_length, !(tvec_length n) by exact Hqs; unfold vec in *; lia|]. intros z. unfold q0, e. autorewrite with vec. fold e. field. lra.
Qed.
(** The QR factorisation of a k x n matrix given by rows *)
Definition gs_qr (n : nat) (A : mat) : mat * mat :=
  let '(qs, T) := gs (length A) (mtrans n A) in (mtrans (length A) qs, T).
Lemma tvec_mtrans n k qs y : mat_shape n k qs -> length y = k -> tvec n (mtrans k qs) y = mvec qs y.
Proof.
  intros H Hy. assert (HT := mtrans_shape n k qs (proj1 H)). apply vec_eq_dot_len; [rewrite (tvec_length k), mvec_length by exact HT; symmetry; apply H|].
  intros w Hw. rewrite (tvec_length k) in Hw by exact HT. rewrite (dot_tvec n) by exact HT. rewrite (mvec_mtrans n k) by assumption.
  rewrite dot_comm, (dot_tvec k) by exact H. apply dot_comm.
Qed.
Theorem gs_qr_exact n k A : mat_shape k n A -> (forall v, length v = n -> mvec A v = vzero k -> v = vzero n) ->
  let '(q, rr) := gs_qr n A in mat_shape k n q /\ mat_shape n n rr /\ (forall v, length v = n -> tvec n q (mvec q v) = v) /\
    (forall v, length v = n -> mvec A v = mvec q (mvec rr v)) /\ nonsingular n rr.
Proof.
  intros HA HI. unfold gs_qr. assert (Lk : length A = k) by apply HA. rewrite Lk. assert (HT := mtrans_shape k n A Lk).
  assert (EA : forall v, length v = n -> mvec A v = tvec k (mtrans n A) v) by (intros v Hv; symmetry; apply tvec_mtrans; [exact HA|exact Hv]).
  assert (HC : independent_cols k (mtrans n A)).
  { split; [apply HT|]. rewrite (proj1 HT). intros v Hv E. apply HI; [exact Hv|]. rewrite EA by exact Hv. exact E. }
  assert (G := gs_spec k (mtrans n A) HC). destruct (gs k (mtrans n A)) as [qs T]. cbv zeta in G. rewrite (proj1 HT) in G. destruct G as (G1 & G2 & G3 & G4).
  assert (Eq : forall v, length v = n -> mvec (mtrans k qs) v = tvec k qs v) by (intros v Hv; apply (mvec_mtrans n k); assumption).
  split; [apply (mtrans_shape n k); apply G1|]. split; [exact G2|]. split; [|split].
  - intros v Hv. rewrite Eq by exact Hv. rewrite tvec_mtrans; [|exact G1|apply (tvec_length n); exact G1]. apply G3. exact Hv.
  - intros v Hv. rewrite EA, G4 by exact Hv. symmetry. apply Eq. rewrite mvec_length. apply G2.
  - split; [exact G2|]. intros v Hv E. apply HI; [exact Hv|]. rewrite EA, G4, E by exact Hv. apply vec_eq_dot; [rewrite (tvec_length n), vzero_length by exact G1; reflexivity|].
    intros z. rewrite (dot_tvec k), !dot_vzero_l by exact G1. reflexivity.
Qed.
Print Assumptions gs_qr_exact.
