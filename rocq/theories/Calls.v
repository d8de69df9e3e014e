(** The evaluation counters of the solver states, next to a record of the calls the code makes to the user's function.
    Every traced definition runs the model of the other files and writes down the calls of the lines it cites. *)
From Coq Require Import String.
From Coq Require Import Reals List Bool Arith.
From Verif Require Import Prelude Vec Mat XArith Base Run Backtracking Zoom QuasiNewton NonlinearCG ComplexLS.
From Verif Require FixedPoint Anderson.
Import ListNotations.
Local Open Scope R_scope.

(** ** Specification *)
(** The three functions made by base.py:143-192 [_make_funs_with_aux]: the value at a point, the gradient at a point
    (which goes through the value), or both. *)
Inductive call := CallValue (z : vec) | CallGrad (z : vec) | CallBoth (z : vec).
Definition call_point (c : call) : vec := match c with CallValue z | CallGrad z | CallBoth z => z end.
(** Every call evaluates the function. *)
Definition fun_evals (log : list call) : nat := length log.
(** Calls that evaluate the gradient.  [both]: the user's [fun] returns value and gradient (value_and_grad=True), so
    that asking for the value alone computes the gradient too (base.py:75-86). *)
Definition is_grad (both : bool) (c : call) : bool := match c with CallValue _ => both | _ => true end.
Definition grad_evals (both : bool) (log : list call) : nat := length (filter (is_grad both) log).
(** The two functions answer this call alike. *)
Definition same_answer {X G} (f f' : vec -> X) (gradf gradf' : vec -> G) (c : call) : Prop :=
  match c with CallValue z => f z = f' z | CallGrad z => gradf z = gradf' z | CallBoth z => f z = f' z /\ gradf z = gradf' z end.
(** n updates of a solver without counters *)
Fixpoint steps_after {S} (upd : vec * S -> result (vec * S)) (n : nat) (s : vec * S) : result (vec * S) :=
  match n with O => Ok s | Datatypes.S n' => match steps_after upd n' s with Ok s' => upd s' | Err e => Err e end end.

(** ** Runs with their calls *)
Section Traced.
Context {V : Type}.
Variables (cond : V -> bool) (update : V -> V) (calls : V -> list call).
Definition traced_update (p : V * list call) : V * list call := (update (fst p), snd p ++ calls (fst p)).
(** base.py:296-332 [_run] *)
Definition traced_run (maxiter : nat) (init : V * list call) : V * list call :=
  run_loop maxiter (fun p => cond (fst p)) traced_update init.
End Traced.

(** ** Backtracking line search *)
Section Backtracking.
Variables (cfg : bt_config) (f : vec -> xnum) (gradf : vec -> vec).
(** backtracking_linesearch.py:129-134: the point is evaluated when value or gradient is missing *)
Definition bt_init_calls (given : bool) (params : vec) : list call := if given then [] else [CallBoth params].
(** backtracking_linesearch.py:195-211 (the trial) and 258-267 (the final gradient) *)
Definition bt_calls (params d : vec) (step : R * bt_state) : list call :=
  let new_params := vadd params (smul (Rmin (max_stepsize cfg) (fst step)) d) in
  let st' := snd (bt_update cfg f gradf params d step) in
  match condition cfg with
  | Armijo | Goldstein => CallValue new_params :: (if done st' || failed st' then [CallGrad new_params] else [])
  | StrongWolfe | Wolfe => [CallBoth new_params]
  end.
Definition bt_run_traced (given : bool) (init_stepsize : R) (params : vec) (value : R) (grad : vec) (direction : option vec)
  : (R * bt_state) * list call :=
  let d := match direction with Some d => d | None => smul (-1) grad end in
  traced_run (fun st => xgtb (error (snd st)) (tol cfg)) (bt_update cfg f gradf params d) (bt_calls params d) (maxiter cfg)
    ((init_stepsize, bt_init given params value grad), bt_init_calls given params).
End Backtracking.

(** ** Zoom line search *)
Section Zoom.
Context {G : Type}.
Variables (cfg : zoom_config) (f : vec -> xnum) (gradf : vec -> G) (vdot : G -> vec -> xnum).
(** zoom_linesearch.py:684: the auxiliary output is asked for again.  [aux_is_none]: the function's own auxiliary output is None. *)
Definition asks_aux (given has_aux aux_is_none : bool) : bool := has_aux && (given || aux_is_none).
(** zoom_linesearch.py:668-687 with the rest of [init_state]: both counters go up by one at 686-687 *)
Definition zoom_init_aux (given has_aux aux_is_none : bool) (params : vec) (value : R) (grad : G) (slope : R) (d : vec) : zstate G :=
  let st := zoom_init given params value grad slope d in
  if asks_aux given has_aux aux_is_none then add_evals 1 st else st.
(** zoom_linesearch.py:673-675 and 685 *)
Definition zoom_init_calls (given has_aux aux_is_none : bool) (params : vec) : list call :=
  (if given then [] else [CallBoth params]) ++ (if asks_aux given has_aux aux_is_none then [CallValue params] else []).
(** zoom_linesearch.py:342-347 or 531-536 (the trial), and 299-304 when the search has failed *)
Definition zoom_calls (step : R * zstate G) : list call :=
  let '(s', st') := trial_step cfg f gradf vdot step in
  CallBoth (line_point (snd step) s') ::
  (if z_failed st' then [CallBoth (z_params (snd (zoom_update cfg f gradf vdot step)))] else []).
Definition zoom_run_traced (given has_aux aux_is_none : bool) (init_stepsize : R) (params : vec) (value : R) (grad : G) (slope : R) (d : vec)
  : (R * zstate G) * list call :=
  traced_run zoom_cond (zoom_update cfg f gradf vdot) zoom_calls (zmaxiter cfg)
    ((init_stepsize, zoom_init_aux given has_aux aux_is_none params value grad slope d), zoom_init_calls given has_aux aux_is_none params).
End Zoom.

(** ** The solvers with a line search *)
Record counts := { n_fun : nat; n_grad : nat }.
Definition add_counts (a b : counts) : counts := {| n_fun := n_fun a + n_fun b; n_grad := n_grad a + n_grad b |}.
(** A line search as the solvers see it, with the counters of its final state and the calls it has made *)
Definition counted_ls := R -> vec -> R -> vec -> vec -> ls_out * counts * list call.
Definition plain (ls : counted_ls) : line_search := fun s0 x v g d => fst (fst (ls s0 x v g d)).
(** bfgs.py:295-305 [_setup_linesearch(..., has_aux=True)]: value and gradient are given to the search (bfgs.py:211-219). *)
Definition bt_counted (bcfg : bt_config) (f : vec -> R) (gradf : vec -> vec) : counted_ls := fun s0 x v g d =>
  let '((s, st), log) := bt_run_traced bcfg (fun z => Fin (f z)) gradf true s0 x v g (Some d) in
  ({| ls_step := s; ls_params := st_params st; ls_value := match st_value st with Fin r => r | _ => 0 end; ls_grad := st_grad st; ls_failed := failed st |},
   {| n_fun := num_fun_eval st; n_grad := num_grad_eval st |}, log).
Definition zoom_counted (zcfg : zoom_config) (f : vec -> R) (gradf : vec -> vec) : counted_ls := fun s0 x v g d =>
  let '((s, st), log) := zoom_run_traced zcfg (fun z => Fin (f z)) gradf rdot true true false s0 x v g (dot g d) d in
  ({| ls_step := s; ls_params := z_params st; ls_value := finite_or 0 (z_value st); ls_grad := z_grad st; ls_failed := z_failed st |},
   {| n_fun := z_num_fun st; n_grad := z_num_grad st |}, log).

Section Solvers.
Variables (f : vec -> R) (gradf : vec -> vec) (ls : counted_ls).
(** params and state, the two counters of the state, and the calls made so far *)
Record counted (S : Type) := { k_step : vec * S; k_counts : counts; k_log : list call }.
Arguments k_step {S}. Arguments k_counts {S}. Arguments k_log {S}.
(** bfgs.py:161, 173-174; lbfgs.py:284, 291-292; nonlinear_cg.py:154, 170-171 *)
Definition counted_init {S} (params : vec) (st : S) : counted S :=
  {| k_step := (params, st); k_counts := {| n_fun := 1; n_grad := 1 |}; k_log := [CallBoth params] |}.
(** bfgs.py:202-238, lbfgs.py:333-374: what one step adds *)
Definition step_calls (cfg : qn_config) (params : vec) (value : R) (grad d : vec) (prev_stepsize : R) (iter_num : nat) : counts * list call :=
  if use_linesearch cfg then
    match init_stepsize (qn_linesearch_init cfg) (qn_max_stepsize cfg) (qn_min_stepsize cfg) (qn_increase_factor cfg) prev_stepsize with
    | Err _ => ({| n_fun := 0; n_grad := 0 |}, [])
    | Ok s0 => let '(_, c, log) := ls s0 params value grad d in (c, log)
    end
  else ({| n_fun := 1; n_grad := 1 |}, [CallBoth (vadd params (smul (fixed_step cfg iter_num) d))]).
Definition add_step {S} (k : counted S) (r : result (vec * S)) (c : counts * list call) : result (counted S) :=
  match r with
  | Err e => Err e
  | Ok s => Ok {| k_step := s; k_counts := add_counts (k_counts k) (fst c); k_log := k_log k ++ snd c |}
  end.
(** bfgs.py:178-275 *)
Definition bfgs_counted (cfg : qn_config) (k : counted bfgs_state) : result (counted bfgs_state) :=
  let '(params, st) := k_step k in
  add_step k (bfgs_update f gradf (plain ls) cfg (params, st))
    (step_calls cfg params (QuasiNewton.b_value st) (b_grad st) (bfgs_direction st) (b_stepsize st) (b_iter st)).
(** lbfgs.py:295-417 *)
Definition lbfgs_counted (cfg : qn_config) (k : counted lbfgs_state) : result (counted lbfgs_state) :=
  let '(params, st) := k_step k in
  add_step k (lbfgs_update f gradf (plain ls) cfg (params, st))
    (step_calls cfg params (l_value st) (l_grad st) (lbfgs_direction cfg st) (l_stepsize st) (l_iter st)).
(** nonlinear_cg.py:175-283 *)
Definition ncg_counted (cfg : ncg_config) (k : counted ncg_state) : result (counted ncg_state) :=
  let '(params, st) := k_step k in
  let d := match (match c_linesearch cfg with
                  | LsName s => if string_dec s "backtracking"%string then None else Some (c_direction st)
                  | LsInstance _ => Some (c_direction st) end) with None => smul (-1) (c_grad st) | Some d => d end in
  add_step k (ncg_update (plain ls) cfg (params, st))
    match init_stepsize (c_linesearch_init cfg) (c_max_stepsize cfg) (c_min_stepsize cfg) (c_increase_factor cfg) (c_stepsize st) with
    | Err _ => ({| n_fun := 0; n_grad := 0 |}, [])
    | Ok s0 => let '(_, c, log) := ls s0 params (c_value st) (c_grad st) d in (c, log)
    end.
(** k updates *)
Fixpoint counted_after {S} (upd : counted S -> result (counted S)) (n : nat) (k : counted S) : result (counted S) :=
  match n with O => Ok k | Datatypes.S n' => match counted_after upd n' k with Ok k' => upd k' | Err e => Err e end end.
End Solvers.
Arguments k_step {S}. Arguments k_counts {S}. Arguments k_log {S}.

(** ** Solvers without line search *)
(** fixed_point_iteration.py:112 *)
Definition fp_calls {X} (s : vec * FixedPoint.fp_state X) : list call := [CallValue (fst s)].
Definition fp_run_traced {X} (u : FixedPoint.fp_user X) (tol : R) (maxiter : nat) (init : vec) :=
  traced_run (fun s => xgtb (FixedPoint.fp_error (snd s)) tol) (FixedPoint.fp_update u) fp_calls maxiter ((init, FixedPoint.fp_init_state), []).
(** anderson.py:182 and 227; [solve] is the linear solver called at anderson.py:35-44 *)
Definition anderson_calls {A} (solve : mat -> vec -> vec) (cfg : Anderson.anderson_config) (s : vec * Anderson.anderson_state A) : list call :=
  [CallValue (Anderson.extrapolate solve cfg (fst s) (snd s))].
Definition anderson_run_traced {A} (solve : mat -> vec -> vec) (T : vec -> vec * A) (cfg : Anderson.anderson_config) (x : vec) :=
  traced_run (fun s => xgtb (Anderson.an_error (snd s)) (Anderson.an_tol cfg)) (Anderson.anderson_update solve T cfg) (anderson_calls solve cfg)
    (Anderson.an_maxiter cfg) ((x, Anderson.anderson_init T cfg x), [CallValue x]).
