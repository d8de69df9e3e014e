(** Model of jaxopt/_src/loop.py. *)
From Coq Require Import List ZArith Bool.
From Verif Require Import Prelude.
Local Open Scope Z_scope.

Section Loop.
Context {V : Type}.
Variable cond_fun : V -> bool.
Variable body_fun : V -> V.

(** loop.py:28-31 [_fun] (with [_iter], 23-26): one scan step; once the carried
    condition is false the step is a no-op that carries [False]. *)
Definition scan_step (tup : V * bool) : V * bool :=
  let '(val, cond) := tup in
  if cond then (let next_val := body_fun val in (next_val, cond_fun next_val))
  else (val, false).

(** lax.scan with [xs=None] and a non-negative length: exactly [n] steps. *)
Fixpoint scan (n : nat) (tup : V * bool) : V * bool :=
  match n with
  | O => tup
  | S n' => scan n' (scan_step tup)
  end.

(** loop.py:21-34 [_while_loop_scan].  A negative scan length is outside the
    documented domain of lax.scan: it is kept apart as [Unspecified]. *)
Definition while_loop_scan (init_val : V) (max_iter : Z) : result V :=
  if max_iter <? 0 then Err Unspecified
  else Ok (fst (scan (Z.to_nat max_iter) (init_val, cond_fun init_val))).

(** loop.py:40-45: body of [for _ in range(maxiter)] with its [break]. *)
Fixpoint python_for (n : nat) (val : V) : V :=
  match n with
  | O => val
  | S n' => if cond_fun val then python_for n' (body_fun val) else val
  end.

(** loop.py:37-46 [_while_loop_python]; [range] of a negative number is empty. *)
Definition while_loop_python (init_val : V) (maxiter : Z) : result V :=
  Ok (python_for (Z.to_nat maxiter) init_val).

(** Big-step semantics of jax.lax.while_loop(cond, body, init): the loop ends in
    the first state in which the condition is false (it may fail to end, in
    which case no final state is related). *)
Inductive lax_while {S : Type} (c : S -> bool) (b : S -> S) : S -> S -> Prop :=
| lax_stop : forall s, c s = false -> lax_while c b s s
| lax_step : forall s s', c s = true -> lax_while c b (b s) s' -> lax_while c b s s'.

(** loop.py:51-53 [_cond_fun] and 55-58 [_body_fun]. *)
Definition lax_cond (maxiter : Z) (iv : Z * V) : bool :=
  let '(it, val) := iv in cond_fun val && (it <=? maxiter - 1).
Definition lax_body (iv : Z * V) : Z * V :=
  let '(it, val) := iv in (it + 1, body_fun val).

(** loop.py:49-60 [_while_loop_lax]. *)
Definition while_loop_lax (init_val : V) (maxiter : Z) (r : result V) : Prop :=
  exists it v, lax_while (lax_cond maxiter) lax_body (0, init_val) (it, v) /\ r = Ok v.

(** loop.py:63-82 [while_loop]; jax.jit is semantically the identity. *)
Definition while_loop (init_val : V) (maxiter : Z) (unroll jit : bool)
    (r : result V) : Prop :=
  if unroll then
    if jit then r = while_loop_scan init_val maxiter
    else r = while_loop_python init_val maxiter
  else
    if jit then while_loop_lax init_val maxiter r
    else r = Err ValueError.

End Loop.

(** ** Specification, independent of the code *)

(** [stops_at cond body init n k]: starting from [init], [k] applications of
    [body] is where a loop "while cond, at most n times" ends. *)
Definition stops_at {V} (cond : V -> bool) (body : V -> V) (init : V) (n k : nat) : Prop :=
  (k <= n)%nat /\
  (forall j, (j < k)%nat -> cond (Nat.iter j body init) = true) /\
  (k = n \/ cond (Nat.iter k body init) = false).
