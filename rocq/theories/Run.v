(** The run loop as a function.  By C01 all back-ends of [loop.while_loop] compute
    [python_for]; by C02 [run] is one update followed by that loop with maxiter-1
    iterations, or the initial step when maxiter = 0. *)
From Coq Require Import List Arith Lia Bool ZArith.
From Verif Require Import Loop.

(** base.py:296-332 [_run] for a solver whose step (params, state) is one value. *)
Definition run_loop {V : Type} (maxiter : nat) (cond : V -> bool) (update : V -> V) (init : V) : V :=
  match maxiter with
  | O => init
  | S n => python_for cond update n (update init)
  end.

Lemma python_for_spec {V} (cond : V -> bool) update n (v : V) :
  exists k, (k <= n)%nat /\ python_for cond update n v = Nat.iter k update v /\
    (forall j, (j < k)%nat -> cond (Nat.iter j update v) = true) /\
    (k = n \/ cond (Nat.iter k update v) = false).
Proof.
  revert v; induction n as [|n IH]; intros v; simpl.
  - exists 0%nat. simpl. repeat split; auto; lia.
  - destruct (cond v) eqn:E.
    + destruct (IH (update v)) as (k & Hk & Er & Hc & Hs). exists (S k).
      assert (Hsh : forall j, Nat.iter j update (update v) = Nat.iter (S j) update v).
      { clear. induction j; simpl; [reflexivity|]. rewrite IHj. reflexivity. }
      split; [lia|]. split; [rewrite Er; apply Hsh|]. split.
      * intros [|j] Hj; [exact E|]. rewrite <- Hsh. apply Hc. lia.
      * destruct Hs as [->|Hs]; [left; reflexivity|right]. rewrite <- Hsh. exact Hs.
    + exists 0%nat. simpl. repeat split; auto; lia.
Qed.

(** [run_loop] performs k updates, 1 <= k <= maxiter; it goes on as long as the
    condition holds and stops as soon as it does not. *)
Lemma run_loop_spec {V} maxiter cond update (init : V) : (0 < maxiter)%nat ->
  exists k, (1 <= k <= maxiter)%nat /\ run_loop maxiter cond update init = Nat.iter k update init /\
    (forall j, (1 <= j < k)%nat -> cond (Nat.iter j update init) = true) /\
    (k = maxiter \/ cond (Nat.iter k update init) = false).
Proof.
  destruct maxiter as [|n]; [lia|]. intros _. simpl.
  destruct (python_for_spec cond update n (update init)) as (k & Hk & Er & Hc & Hs).
  assert (Hsh : forall j, Nat.iter j update (update init) = Nat.iter (S j) update init).
  { clear. induction j; simpl; [reflexivity|]. rewrite IHj. reflexivity. }
  exists (S k). split; [lia|]. split; [rewrite Er; apply Hsh|]. split.
  - intros [|j] Hj; [lia|]. rewrite <- Hsh. apply Hc. lia.
  - destruct Hs as [->|Hs]; [left; reflexivity|right]. rewrite <- Hsh. exact Hs.
Qed.

(** Any invariant of the update holds of the result. *)
Lemma run_loop_inv {V} (P : V -> Prop) maxiter cond update (init : V) :
  P init -> (forall v, P v -> P (update v)) -> P (run_loop maxiter cond update init).
Proof.
  intros H0 Hu. destruct maxiter as [|n]; [exact H0|].
  destruct (run_loop_spec (S n) cond update init ltac:(lia)) as (k & _ & -> & _).
  clear -H0 Hu. induction k; simpl; auto.
Qed.
