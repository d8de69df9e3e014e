(** Model of the auxiliary outputs of ProximalGradient, GradientDescent and ProjectedGradient ([has_aux]), of the
    selection between the initial and the final step at the end of IterativeSolver._run, and of the options that
    ProjectedGradient hands to its inner solver. *)
From Coq Require Import String.
From Coq Require Import Reals List ZArith Lra Lia Bool Arith.
From Verif Require Import Prelude Vec Loop Run Base Pytree ProxGrad.
Import ListNotations.
Open Scope R_scope.

(** ** Python values *)
Definition none : ptree := Node "None"%string [].
Definition is_none (t : ptree) : bool := match t with Node k [] => String.eqb k "None" | _ => false end.
Definition py_pair (a b : ptree) : ptree := Node "tuple"%string [a; b].
(** the statement [a, b = v]: tuples and lists of length 2; dictionaries and arrays are not modelled *)
Definition unpack2 (v : ptree) : result (ptree * ptree) :=
  match v with
  | Node k cs =>
      if (String.eqb k "tuple" || String.eqb k "list")%bool then match cs with [a; b] => Ok (a, b) | _ => Err ValueError end
      else if is_none v then Err TypeError else Err Unspecified
  | Leaf _ => Err Unspecified
  end.

(** ** The end of a run *)
(** the tree as seen by tree_map with [is_leaf = lambda x: x is None] (base.py:332) *)
Fixpoint opt_leaves (t : ptree) : tree (option (arr R)) :=
  match t with
  | Leaf a => Leaf (Some a)
  | Node k cs => if is_none t then Leaf None else Node k (map opt_leaves cs)
  end.
(** unflattening with subtrees in place of leaves *)
Fixpoint join (t : tree ptree) : ptree := match t with Leaf u => u | Node k cs => Node k (map join cs) end.
(** base.py:365-368 [_where] on a leaf of the initial step and the corresponding part of the final step *)
Definition where_sub (c : bool) (x : option (arr R)) (y : ptree) : result ptree :=
  match x with
  | None => Ok y
  | Some a =>
      if is_none y then Ok (Leaf a)
      else match y with
           | Leaf b => match bin_op (fun s t => if c then s else t) a b with Ok w => Ok (Leaf w) | Err e => Err e end
           | Node _ _ => Err TypeError   (* jnp.where on a container *)
           end
  end.
(** base.py:330-332 *)
Definition where_step (c : bool) (zero_step many_step : ptree) : result ptree :=
  match tree_map2 (where_sub c) (opt_leaves zero_step) many_step with Ok t => Ok (join t) | Err e => Err e end.

(** ** ProximalGradient *)
Definition arr_of (v : vec) : ptree := Leaf (mk_arr [length v] v).
Definition scalar_of (v : R) : ptree := Leaf (mk_arr [] [v]).
Notation objective := (user_fun vec R vec ptree).
(** the Python value returned by a call of the user's [fun] *)
Definition raw_call (u : objective) (x : vec) : ptree :=
  match u with
  | VGTrue f => let '(v, g) := f x in py_pair (scalar_of v) (arr_of g)
  | VGTrueAux f => let '((v, a), g) := f x in py_pair (py_pair (scalar_of v) a) (arr_of g)
  | VGFalse f | VGCall f _ => scalar_of (f x)
  | VGFalseAux f | VGCallAux f _ => let '(v, a) := f x in py_pair (scalar_of v) a
  end.
Definition has_aux (u : objective) : bool :=
  match u with VGTrueAux _ | VGFalseAux _ | VGCallAux _ _ => true | _ => false end.
(** the [aux] stored in a state: None when there is none *)
Definition aux_tree (a : option ptree) : ptree := match a with Some t => t | None => none end.

Section PG.
Variable cfg : pg_config.
(** jax.grad *)
Variable gradient : (vec -> R) -> vec -> vec.
Variable u : objective.
Variable prox : vec -> R -> vec.
Let vg := snd (make_funs_with_aux gradient u).
Let fn := fst (fst (make_funs_with_aux gradient u)).
(** proximal_gradient.py:330-334: [fun_without_aux] of the line search; 247, 264: value and gradient *)
Definition pg_f (x : vec) : R := fst (fn x).
Definition pg_g (x : vec) : vec := snd (vg x).

(** proximal_gradient.py:181-184, the [aux] of [init_state] *)
Definition pg_init_aux (x0 : vec) : result ptree :=
  if has_aux u then match unpack2 (raw_call u x0) with Ok (_, a) => Ok a | Err e => Err e end else Ok none.
(** proximal_gradient.py:247-248 and 264-265: the point at which the objective is evaluated by [update] *)
Definition eval_point (step : vec * pg_state) : vec :=
  if acceleration cfg then match pg_velocity (snd step) with Some y => y | None => fst step end else fst step.
(** proximal_gradient.py:243-285 [_update], [_update_accel], with [aux] *)
Definition pg_update_aux (step : (vec * pg_state) * ptree) : (vec * pg_state) * ptree :=
  (pg_update cfg pg_f pg_g prox (fst step), aux_tree (snd (fst (vg (eval_point (fst step)))))).
(** base.py:296-332 [_run]: first update unrolled, loop, selection.  The selection is the identity on the other
    fields of the state (see [pg_run]). *)
Definition pg_run_aux (x0 : vec) : result ((vec * pg_state) * ptree) :=
  match pg_init_aux x0 with
  | Err e => Err e
  | Ok a0 =>
      let zero_step := (x0, pg_init cfg x0) in
      let many_step := python_for (fun st => xgtb (pg_error (snd (fst st))) (pg_tol cfg)) pg_update_aux (pg_maxiter cfg - 1) (pg_update_aux (zero_step, a0)) in
      match where_step (pg_maxiter cfg =? 0)%nat a0 (snd many_step) with
      | Err e => Err e
      | Ok a => Ok (if (pg_maxiter cfg =? 0)%nat then zero_step else fst many_step, a)
      end
  end.
End PG.

(** ** ProjectedGradient *)
(** the constructor options of ProximalGradient (proximal_gradient.py:145-162) besides fun and prox, and those of
    ProjectedGradient (projected_gradient.py:76-94) besides fun and projection *)
Record pg_options (S : Type) := {
  o_value_and_grad : bool; o_has_aux : bool; o_stepsize : stepsize_option; o_maxiter : nat; o_maxls : nat; o_tol : R;
  o_acceleration : bool; o_decrease_factor : R; o_verbose : bool; o_implicit_diff : bool; o_implicit_diff_solve : option S;
  o_jit : bool; o_unroll : unroll_option }.
Arguments o_value_and_grad {S}. Arguments o_has_aux {S}. Arguments o_stepsize {S}. Arguments o_maxiter {S}. Arguments o_maxls {S}. Arguments o_tol {S}.
Arguments o_acceleration {S}. Arguments o_decrease_factor {S}. Arguments o_verbose {S}. Arguments o_implicit_diff {S}. Arguments o_implicit_diff_solve {S}.
Arguments o_jit {S}. Arguments o_unroll {S}.
(** projected_gradient.py:148-161: the options of the inner solver; implicit_diff_solve keeps its default None *)
Definition projg_inner {S} (o : pg_options S) : pg_options S := {|
  o_value_and_grad := o_value_and_grad o; o_has_aux := o_has_aux o; o_stepsize := o_stepsize o; o_maxiter := o_maxiter o;
  o_maxls := o_maxls o; o_tol := o_tol o; o_acceleration := o_acceleration o; o_decrease_factor := o_decrease_factor o;
  o_verbose := o_verbose o; o_implicit_diff := o_implicit_diff o; o_implicit_diff_solve := None; o_jit := o_jit o; o_unroll := o_unroll o |}.
(** implicit_diff.py:282-283, 258 and base.py:351-354: the linear solver used when differentiating [run] *)
Definition diff_solver {S} (normal_cg : S) (o : pg_options S) : S :=
  match o_implicit_diff_solve o with Some s => s | None => normal_cg end.
Definition pg_config_of {S} (eps : R) (o : pg_options S) : pg_config := {|
  pg_stepsize := o_stepsize o; pg_maxiter := o_maxiter o; pg_maxls := o_maxls o; pg_tol := o_tol o;
  acceleration := o_acceleration o; pg_decrease := o_decrease_factor o; pg_eps := eps |}.
(** projected_gradient.py:131-137 [run]: the inner solver's *)
Definition projg_run {S} (eps : R) (gradient : (vec -> R) -> vec -> vec) (u : objective) (projection : vec -> vec) (o : pg_options S) (x0 : vec) :=
  pg_run_aux (pg_config_of eps (projg_inner o)) gradient u (projg_prox projection) x0.

(** ** Specification *)
(** [y] can take the place of [x] in a loop state: the same containers and shapes, and anything where [x] has None *)
Inductive keeps : ptree -> ptree -> Prop :=
| keeps_none (y : ptree) : keeps none y
| keeps_leaf (a b : arr R) : shape a = shape b -> length (data a) = length (data b) -> keeps (Leaf a) (Leaf b)
| keeps_node k cs cs' : Forall2 keeps cs cs' -> keeps (Node k cs) (Node k cs').
(** no None inside *)
Inductive no_none : ptree -> Prop :=
| nn_leaf a : no_none (Leaf a)
| nn_node k cs : is_none (Node k cs) = false -> Forall no_none cs -> no_none (Node k cs).
(** the objective is handed to the solver with value_and_grad = False *)
Definition value_only (u : objective) : Prop := match u with VGFalse _ | VGFalseAux _ => True | _ => False end.
