(** [jax.lax.while_loop] without an iteration bound: fuel, [None] when exhausted. *)
From Coq Require Import List Arith Lia Bool.

Fixpoint while_fuel {V : Type} (fuel : nat) (cond : V -> bool) (body : V -> option V) (v : V) : option V :=
  if cond v then
    match fuel with
    | O => None
    | S n => match body v with Some v' => while_fuel n cond body v' | None => None end
    end
  else Some v.

(** An invariant of the body holds of every result, at which the condition is false. *)
Lemma while_inv {V} (P : V -> Prop) cond (body : V -> option V) :
  (forall v v', P v -> cond v = true -> body v = Some v' -> P v') ->
  forall fuel v r, P v -> while_fuel fuel cond body v = Some r -> P r /\ cond r = false.
Proof.
  intros Hb. induction fuel as [|n IH]; intros v r Hv; simpl; destruct (cond v) eqn:E.
  - discriminate.
  - intros H. injection H as <-. auto.
  - destruct (body v) as [v'|] eqn:Eb; [|discriminate]. intros H. apply (IH v'); eauto.
  - intros H. injection H as <-. auto.
Qed.

Lemma while_more {V} cond (body body' : V -> option V) :
  (forall v r, body v = Some r -> body' v = Some r) ->
  forall fuel fuel' v r, (fuel <= fuel')%nat -> while_fuel fuel cond body v = Some r ->
    while_fuel fuel' cond body' v = Some r.
Proof.
  intros Hb. induction fuel as [|n IH]; intros fuel' v r Hle; simpl.
  - destruct (cond v) eqn:E; [discriminate|]. intros H. destruct fuel'; simpl; rewrite E; exact H.
  - destruct fuel' as [|m]; [lia|]. simpl. destruct (cond v); [|auto].
    destruct (body v) as [v'|] eqn:Eb; [|discriminate]. rewrite (Hb _ _ Eb). apply IH. lia.
Qed.

Lemma while_step {V} n cond (body : V -> option V) v v' :
  cond v = true -> body v = Some v' -> while_fuel (S n) cond body v = while_fuel n cond body v'.
Proof. intros H1 H2. simpl. rewrite H1, H2. reflexivity. Qed.
Lemma while_stop {V} n cond (body : V -> option V) v : cond v = false -> while_fuel n cond body v = Some v.
Proof. intros H. destruct n; simpl; rewrite H; reflexivity. Qed.
