(** Model of jaxopt/_src/base.py: the generic run loop, the stochastic run loop
    and the normalisation of user objectives. *)
From Coq Require Import Reals List ZArith Bool.
From Verif Require Import Prelude Loop.
Import ListNotations.

(** ** IterativeSolver *)

(** base.py:256-262 [_get_unroll_option]; [implicit_diff] is True when the
    attribute is absent. *)
Inductive unroll_option := UnrollAuto | UnrollIs (b : bool).
Definition get_unroll_option (unroll : unroll_option) (implicit_diff jit : bool) : bool :=
  match unroll with
  | UnrollAuto => negb implicit_diff || negb jit
  | UnrollIs b => b
  end.

Section Run.
(** [P]: parameters; [L]: array leaves of a solver state; [A]: extra arguments.
    A state is its list of leaves, a leaf being an array or [None]
    (base.py:330-332: "state attributes can sometimes be None"). *)
Context {P L A : Type}.
Definition state : Type := list (option L).

(** [init_params] is a pytree of parameters or an [OptStep] (base.py:291). *)
Inductive init_arg := Plain (p : P) | FromStep (p : P) (s : state).
Definition arg_params (i : init_arg) : P :=
  match i with Plain p => p | FromStep p _ => p end.

Record solver := {
  init_state : init_arg -> A -> state;
  update : init_arg -> state -> A -> P * state;
  cond_fun : P -> state -> bool   (* [_cond_fun]: continue? *)
}.

Variable sv : solver.

(** base.py:365-368 [_where] on one leaf. *)
Definition where_leaf (c : bool) (x y : option L) : option L :=
  match x, y with
  | None, _ => y
  | _, None => x
  | Some a, Some b => Some (if c then a else b)
  end.

(** base.py:330-332: tree_map of [_where] over the state leaves. *)
Definition where_state (c : bool) (s t : state) : state :=
  map (fun xy => where_leaf c (fst xy) (snd xy)) (combine s t).

(** base.py:283-285 [_body_fun] and 264-266 [_cond_fun] on the carried pair. *)
Definition body (args : A) (ps : P * state) : P * state :=
  update sv (Plain (fst ps)) (snd ps) args.
Definition cond (ps : P * state) : bool := cond_fun sv (fst ps) (snd ps).

(** base.py:296-332 [_run] (with 290-294 [_make_zero_step]): the result is a
    relation because the lax back-end is. *)
Definition run (init_params : init_arg) (args : A) (maxiter : Z)
    (unroll : unroll_option) (implicit_diff jit : bool) (r : result (P * state)) : Prop :=
  let s0 := init_state sv init_params args in
  let zero_step := (arg_params init_params, s0) in
  let opt_step := update sv init_params s0 args in
  exists many,
    while_loop cond (body args) opt_step (maxiter - 1)
      (get_unroll_option unroll implicit_diff jit) jit many /\
    r = match many with
        | Err e => Err e
        | Ok m => Ok (if (maxiter =? 0)%Z then fst zero_step else fst m,
                      where_state (maxiter =? 0)%Z (snd zero_step) (snd m))
        end.

(** ** Specification of [run]. *)

(** The solver trajectory: k = 1 is the first update, applied to the caller's
    argument; later updates are applied to plain parameters. *)
Fixpoint trajectory (i : init_arg) (args : A) (k : nat) : P * state :=
  match k with
  | O => (arg_params i, init_state sv i args)
  | S O => update sv i (init_state sv i args) args
  | S (S _ as k') => let '(p, s) := trajectory i args k' in update sv (Plain p) s args
  end.
End Run.
Arguments solver : clear implicits.
Arguments init_arg : clear implicits.
Arguments state : clear implicits.

(** base.py:264-266 [_cond_fun]: [state.error > self.tol]. *)
Definition default_cond {P L} (error : state L -> xnum) (tol : R) (p : P) (s : state L) : bool :=
  xgtb (error s) tol.

(** ** StochasticSolver.run_iterator *)

Section RunIterator.
(** A Python iterator: its [n]-th element, or exhaustion. [D]: data batches. *)
Context {P St A D : Type}.
Variable init_state : P -> A -> D -> St.
Variable update : P -> St -> A -> D -> P * St.
Variable src : nat -> option D.

(** base.py:407-409: [for data in islice(iterator, 0, maxiter)], starting at
    position [pos]; returns the final iterator position too. *)
Fixpoint islice_loop (n pos : nat) (args : A) (ps : P * St) : (P * St) * nat :=
  match n with
  | O => (ps, pos)
  | S n' =>
      match src pos with
      | None => (ps, pos)
      | Some d => islice_loop n' (1 + pos) args (update (fst ps) (snd ps) args d)
      end
  end.

(** base.py:385-411 [run_iterator]; [next] on an exhausted iterator raises
    StopIteration, [islice] with a negative stop raises ValueError. *)
Definition run_iterator (init_params : P) (args : A) (maxiter : Z) : result ((P * St) * nat) :=
  match src 0 with
  | None => Err StopIteration
  | Some d0 =>
      let st := init_state init_params args d0 in
      if (maxiter <? 0)%Z then Err ValueError
      else Ok (islice_loop (Z.to_nat maxiter) 1 args (init_params, st))
  end.
End RunIterator.

(** ** Objective normalisation *)

Section MakeFuns.
(** [I]: call arguments, [V]: values, [G]: gradients, [X]: aux payloads. *)
Context {I V G X : Type}.

(** jax.value_and_grad as an oracle: it pairs a function with its gradient. *)
Variable gradient : (I -> V) -> I -> G.
Definition jax_value_and_grad (f : I -> V) (i : I) : V * G := (f i, gradient f i).
Definition jax_value_and_grad_aux {Y} (f : I -> V * Y) (i : I) : (V * Y) * G :=
  (f i, gradient (fun j => fst (f j)) i).

(** The ways a user may supply an objective: (value_and_grad, has_aux). *)
Inductive user_fun :=
| VGTrue (fun_ : I -> V * G)                            (* True, False *)
| VGTrueAux (fun_ : I -> (V * X) * G)                   (* True, True *)
| VGFalse (fun_ : I -> V)                               (* False, False *)
| VGFalseAux (fun_ : I -> V * X)                        (* False, True *)
| VGCall (fun_ : I -> V) (vg : I -> V * G)              (* Callable, False *)
| VGCallAux (fun_ : I -> V * X) (vg : I -> (V * X) * G). (* Callable, True *)

(** base.py:60-65 [_add_aux_to_value_and_grad] (aux=None). *)
Definition add_aux_to_value_and_grad (vg : I -> V * G) (i : I) : (V * option X) * G :=
  let '(v, g) := vg i in ((v, None), g).
(** base.py:68-72 [_add_aux_to_fun]. *)
Definition add_aux_to_fun (f : I -> V) (i : I) : V * option X := (f i, None).
(** Python does not distinguish [aux] from [Some aux]; the model injects it. *)
Definition inj_fun (f : I -> V * X) (i : I) : V * option X := let '(v, a) := f i in (v, Some a).
Definition inj_vg (f : I -> (V * X) * G) (i : I) : (V * option X) * G :=
  let '((v, a), g) := f i in ((v, Some a), g).

(** base.py:75-86 [_split_value_and_grad_with_aux]. *)
Definition split_value_and_grad_with_aux {Y} (vg : I -> (V * Y) * G) :
    (I -> V * Y) * (I -> G * Y) :=
  (fun i => let '((v, aux), _) := vg i in (v, aux),
   fun i => let '((_, aux), g) := vg i in (g, aux)).

(** base.py:143-192 [_make_funs_with_aux]. *)
Definition make_funs_with_aux (u : user_fun) :
    (I -> V * option X) * (I -> G * option X) * (I -> (V * option X) * G) :=
  match u with
  | VGTrue f =>
      let vg := add_aux_to_value_and_grad f in
      let '(fn, gr) := split_value_and_grad_with_aux vg in (fn, gr, vg)
  | VGTrueAux f =>
      let vg := inj_vg f in
      let '(fn, gr) := split_value_and_grad_with_aux vg in (fn, gr, vg)
  | VGFalse f =>
      let fn := add_aux_to_fun f in
      let vg := jax_value_and_grad_aux fn in
      let '(_, gr) := split_value_and_grad_with_aux vg in (fn, gr, vg)
  | VGFalseAux f =>
      let fn := inj_fun f in
      let vg := jax_value_and_grad_aux fn in
      let '(_, gr) := split_value_and_grad_with_aux vg in (fn, gr, vg)
  | VGCall f vg0 =>
      let fn := add_aux_to_fun f in
      let vg := add_aux_to_value_and_grad vg0 in
      let '(_, gr) := split_value_and_grad_with_aux vg in (fn, gr, vg)
  | VGCallAux f vg0 =>
      let fn := inj_fun f in
      let vg := inj_vg vg0 in
      let '(_, gr) := split_value_and_grad_with_aux vg in (fn, gr, vg)
  end.

(** base.py:89-104 [_remove_aux_from_value_and_grad]. *)
Definition remove_aux_from_value_and_grad {Y} (vg : I -> (V * Y) * G) :
    (I -> V) * (I -> G) * (I -> V * G) :=
  (fun i => let '((v, aux), g) := vg i in v,
   fun i => let '((_, aux), g) := vg i in g,
   fun i => let '((v, aux), g) := vg i in (v, g)).

(** base.py:107-140 [_make_funs_without_aux]. *)
Definition make_funs_without_aux (u : user_fun) :
    (I -> V) * (I -> G) * (I -> V * G) :=
  match u with
  | VGTrueAux f => remove_aux_from_value_and_grad f
  | VGTrue f => remove_aux_from_value_and_grad (add_aux_to_value_and_grad f)
  | VGFalseAux f => remove_aux_from_value_and_grad (jax_value_and_grad_aux f)
  | VGFalse f =>
      let vg := jax_value_and_grad f in (f, (fun i => snd (vg i)), vg)
  | VGCallAux f vg0 =>
      let '(_, gr, vg) := remove_aux_from_value_and_grad vg0 in
      ((fun i => fst (f i)), gr, vg)
  | VGCall f vg0 => (f, (fun i => snd (vg0 i)), vg0)
  end.

(** ** Specification: what the user's objective means. *)
Definition user_value (u : user_fun) (i : I) : V :=
  match u with
  | VGTrue f => fst (f i)
  | VGTrueAux f => fst (fst (f i))
  | VGFalse f => f i
  | VGFalseAux f => fst (f i)
  | VGCall f _ => f i
  | VGCallAux f _ => fst (f i)
  end.
Definition user_grad (u : user_fun) (i : I) : G :=
  match u with
  | VGTrue f => snd (f i)
  | VGTrueAux f => snd (f i)
  | VGFalse f => gradient f i
  | VGFalseAux f => gradient (fun j => fst (f j)) i
  | VGCall _ vg => snd (vg i)
  | VGCallAux _ vg => snd (vg i)
  end.
Definition user_aux (u : user_fun) (i : I) : option X :=
  match u with
  | VGTrue _ | VGFalse _ | VGCall _ _ => None
  | VGTrueAux f => Some (snd (fst (f i)))
  | VGFalseAux f => Some (snd (f i))
  | VGCallAux f _ => Some (snd (f i))
  end.
(** The contract on a separately supplied value_and_grad: it agrees with [fun]. *)
Definition user_consistent (u : user_fun) : Prop :=
  match u with
  | VGCall f vg => forall i, fst (vg i) = f i
  | VGCallAux f vg => forall i, fst (vg i) = f i
  | _ => True
  end.
End MakeFuns.
Arguments user_fun : clear implicits.
