From Coq Require Import List ZArith Bool Lia.
From Verif Require Import Prelude Loop.

Lemma iter_shift {V} (f : V -> V) n x : Nat.iter n f (f x) = f (Nat.iter n f x).
Proof. induction n as [|n IH]; simpl; congruence. Qed.

Section LoopProofs.
Context {V : Type}.
Variable cond : V -> bool.
Variable body : V -> V.

Lemma stops_at_unique init n k k' :
  stops_at cond body init n k -> stops_at cond body init n k' -> k = k'.
Proof.
  intros (Hle & Hlt & Hend) (Hle' & Hlt' & Hend').
  destruct (Nat.lt_trichotomy k k') as [H|[H|H]]; [|assumption|].
  - destruct Hend as [->|Hf]; [lia|]. rewrite (Hlt' k H) in Hf. discriminate.
  - destruct Hend' as [->|Hf]; [lia|]. rewrite (Hlt k' H) in Hf. discriminate.
Qed.

Lemma stops_at_step init n k :
  cond init = true -> stops_at cond body (body init) n k ->
  stops_at cond body init (S n) (S k).
Proof.
  intros Hc (Hle & Hlt & Hend). split; [lia|split].
  - intros j Hj. destruct j as [|j]; [exact Hc|].
    simpl. rewrite <- iter_shift. apply Hlt. lia.
  - destruct Hend as [->|Hf]; [left; reflexivity|].
    right. simpl. rewrite <- iter_shift. exact Hf.
Qed.

Lemma python_for_spec n : forall init,
  exists k, stops_at cond body init n k /\ python_for cond body n init = Nat.iter k body init.
Proof.
  induction n as [|n IH]; intros init; simpl.
  - exists O. split; [|reflexivity]. split; [lia|split; [intros; lia|left; reflexivity]].
  - destruct (cond init) eqn:Hc.
    + destruct (IH (body init)) as (k & Hk & He). exists (S k). split.
      * apply stops_at_step; assumption.
      * rewrite He. simpl. apply iter_shift.
    + exists O. split; [|reflexivity]. split; [lia|split; [intros; lia|right; exact Hc]].
Qed.

Lemma scan_false n v : scan cond body n (v, false) = (v, false).
Proof. induction n as [|n IH]; simpl; auto. Qed.

Lemma scan_python n : forall init,
  fst (scan cond body n (init, cond init)) = python_for cond body n init.
Proof.
  induction n as [|n IH]; intros init; [reflexivity|].
  cbn [scan python_for scan_step]. destruct (cond init).
  - apply IH.
  - rewrite scan_false. reflexivity.
Qed.

Lemma lax_while_det {S} (c : S -> bool) b s s1 s2 :
  lax_while c b s s1 -> lax_while c b s s2 -> s1 = s2.
Proof.
  intros H1. revert s2. induction H1 as [s Hf|s s1 Ht H1 IH]; intros s2 H2.
  - inversion H2; subst; congruence.
  - inversion H2; subst; [congruence|]. apply IH. assumption.
Qed.

Lemma lax_python maxiter : forall n it init,
  (n = Z.to_nat (maxiter - it)) ->
  exists it', lax_while (lax_cond cond maxiter) (lax_body body) (it, init)
                (it', python_for cond body n init).
Proof.
  induction n as [|n IH]; intros it init Hn; simpl.
  - exists it. apply lax_stop. simpl.
    replace (it <=? maxiter - 1)%Z with false; [apply andb_false_r|].
    symmetry. apply Z.leb_gt. lia.
  - destruct (cond init) eqn:Hc.
    + destruct (IH (it + 1)%Z (body init)) as (it' & H); [lia|].
      exists it'. apply lax_step; [|exact H]. simpl. rewrite Hc. simpl. apply Z.leb_le. lia.
    + exists it. apply lax_stop. simpl. rewrite Hc. reflexivity.
Qed.

(** The value every back-end computes. *)
Definition loop_value (init : V) (maxiter : Z) : V :=
  python_for cond body (Z.to_nat maxiter) init.

Lemma while_loop_lax_iff init maxiter r :
  while_loop_lax cond body init maxiter r <-> r = Ok (loop_value init maxiter).
Proof.
  destruct (lax_python maxiter (Z.to_nat maxiter) 0%Z init) as (it & H); [f_equal; lia|].
  split.
  - intros (it' & v & Hv & ->). pose proof (lax_while_det _ _ _ _ _ H Hv) as E.
    inversion E. reflexivity.
  - intros ->. exists it, (loop_value init maxiter). split; [exact H|reflexivity].
Qed.

Lemma while_loop_iff init maxiter unroll jit r :
  while_loop cond body init maxiter unroll jit r <->
  (r = if negb unroll && negb jit then Err ValueError
       else if unroll && jit && (maxiter <? 0)%Z then Err Unspecified
       else Ok (loop_value init maxiter)).
Proof.
  unfold while_loop. destruct unroll, jit; simpl.
  - unfold while_loop_scan. destruct (maxiter <? 0)%Z; [reflexivity|].
    rewrite scan_python. reflexivity.
  - reflexivity.
  - apply while_loop_lax_iff.
  - reflexivity.
Qed.

Lemma while_loop_spec init maxiter unroll jit :
  (unroll || jit = true) -> (0 <= maxiter)%Z ->
  exists k, stops_at cond body init (Z.to_nat maxiter) k /\
    forall r, while_loop cond body init maxiter unroll jit r <-> r = Ok (Nat.iter k body init).
Proof.
  intros Huj Hm. destruct (python_for_spec (Z.to_nat maxiter) init) as (k & Hk & He).
  exists k. split; [exact Hk|]. intros r. rewrite while_loop_iff.
  replace (maxiter <? 0)%Z with false by (symmetry; apply Z.ltb_ge; lia).
  destruct unroll, jit; simpl in *; try discriminate; unfold loop_value; rewrite He; reflexivity.
Qed.
End LoopProofs.
