(** C01: the three loop back-ends. *)
From Coq Require Import List ZArith Bool Lia.
From Verif Require Import Prelude Loop LoopProofs.

(** Every accepted flag combination (scan, Python, lax.while_loop) has exactly one
    result: the value after [k] body applications, where [k] is where "while cond,
    at most maxiter times" ends; [k] does not depend on the back-end. *)
Theorem C01_backends_agree :
  forall (V : Type) (cond : V -> bool) (body : V -> V) (init : V) (maxiter : Z),
    (0 <= maxiter)%Z ->
    exists k, stops_at cond body init (Z.to_nat maxiter) k /\
      (forall k', stops_at cond body init (Z.to_nat maxiter) k' -> k' = k) /\
      forall unroll jit r, unroll || jit = true ->
        (while_loop cond body init maxiter unroll jit r <-> r = Ok (Nat.iter k body init)).
Proof.
  intros V cond body init maxiter Hm.
  destruct (while_loop_spec cond body init maxiter true true eq_refl Hm) as (k & Hk & _).
  exists k. split; [exact Hk|]. split.
  - intros k' Hk'. exact (stops_at_unique cond body init _ _ _ Hk' Hk).
  - intros u j r Huj.
    destruct (while_loop_spec cond body init maxiter u j Huj Hm) as (k' & Hk' & Hr).
    rewrite (stops_at_unique cond body init _ _ _ Hk Hk'). exact (Hr r).
Qed.
Print Assumptions C01_backends_agree.

(** unroll=False with jit=False is rejected, whatever the loop. *)
Theorem C01_rejected_combination :
  forall (V : Type) (cond : V -> bool) (body : V -> V) (init : V) (maxiter : Z) (r : result V),
    while_loop cond body init maxiter false false r <-> r = Err ValueError.
Proof. intros. reflexivity. Qed.
Print Assumptions C01_rejected_combination.

(** With a negative bound the Python and lax back-ends return the initial value. *)
Theorem C01_negative_bound :
  forall (V : Type) (cond : V -> bool) (body : V -> V) (init : V) (maxiter : Z) (unroll jit : bool) r,
    (maxiter < 0)%Z -> xorb unroll jit = true ->
    (while_loop cond body init maxiter unroll jit r <-> r = Ok init).
Proof.
  intros V cond body init maxiter u j r Hm Hx. rewrite while_loop_iff.
  unfold loop_value. replace (Z.to_nat maxiter) with O by lia.
  destruct u, j; simpl in *; try discriminate; reflexivity.
Qed.
Print Assumptions C01_negative_bound.

(** Non-vacuity: a loop that stops before the bound, on all three back-ends. *)
Example C01_example :
  stops_at (fun n : nat => Nat.ltb n 3) S 0 10 3 /\
  while_loop (fun n : nat => Nat.ltb n 3) S 0 10%Z true true (Ok 3) /\
  while_loop (fun n : nat => Nat.ltb n 3) S 0 10%Z true false (Ok 3) /\
  while_loop (fun n : nat => Nat.ltb n 3) S 0 10%Z false true (Ok 3).
Proof.
  split; [|split; [|split]].
  - split; [lia|split; [|right; reflexivity]].
    intros j Hj. do 3 (destruct j as [|j]; [reflexivity|]). lia.
  - reflexivity.
  - reflexivity.
  - apply while_loop_lax_iff. reflexivity.
Qed.
