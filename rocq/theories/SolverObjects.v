(** Construction of the solver objects that use a line search (BFGS, LBFGS, LBFGSB, NonlinearCG), and
    histories of attribute changes, updates and runs of one object: which options a run uses. *)
From Coq Require Import String.
From Coq Require Import Reals List Bool Arith.
From Verif Require Import Prelude Vec Mat Loop Base Run Zoom QuasiNewton Convergence.
Import ListNotations.
Local Open Scope string_scope.
Open Scope R_scope.
Open Scope list_scope.

Section Objects.
(** Instances of IterativeLineSearch given by the user. *)
Context {I : Type}.
(** The dataclass fields (bfgs.py:119-145, lbfgs.py:207-240, lbfgsb.py:275-313, nonlinear_cg.py:114-138).
    [a_cfg] holds those that update(), init_state() and the loop read; [a_condition] and
    [a_decrease_factor] say whether these deprecated arguments are given; [a_verbose] is int(verbose). *)
Record attrs := {
  a_cfg : qn_config; a_maxiter : nat; a_jit : bool; a_unroll : unroll_option; a_implicit_diff : bool;
  a_linesearch : ls_arg I; a_maxls : nat; a_verbose : nat; a_condition : bool; a_decrease_factor : bool
}.
Definition a_tol (a : attrs) : R := qn_tol (a_cfg a).
Definition a_max_stepsize (a : attrs) : R := qn_max_stepsize (a_cfg a).
(** base.py:256-262 on the current attributes *)
Definition unrolls (a : attrs) : bool := get_unroll_option (a_unroll a) (a_implicit_diff a) (a_jit a).

Inductive warning := ConditionDeprecated | DecreaseFactorDeprecated.
(** The line search object kept by the solver, with its jit, unroll and verbose options (None for a
    given instance, which is used as it is). *)
Record built := { bt_ls : ls_solver I; bt_ls_options : option (bool * bool * nat); bt_update_jitted : bool }.
(** bfgs.py:285-314, lbfgs.py:432-463, lbfgsb.py:592-631, nonlinear_cg.py:296-326 [__post_init__], with
    base.py:360-362 and linesearch_util.py:24-78 (the functions and the reference signature are not
    here: see Base.v and Signature.v). *)
Definition post_init (a : attrs) : result (built * list warning) :=
  match setup_linesearch (a_linesearch a) (a_maxls a) (a_max_stepsize a) with
  | Err e => Err e
  | Ok ls => Ok ({| bt_ls := ls;
                    bt_ls_options := match a_linesearch a with LsName _ => Some (a_jit a, unrolls a, (a_verbose a - 1)%nat) | LsInstance _ => None end;
                    bt_update_jitted := a_jit a |},
                 (if a_condition a then [ConditionDeprecated] else []) ++ (if a_decrease_factor a then [DecreaseFactorDeprecated] else []))
  end.

(** A solver object: its attributes, what __post_init__ built, and what jax.jit has cached for it.
    jax.jit calls a Python function once for every combination of its static arguments and of the
    shapes, dtypes and structure of the others (a "signature", here a number); that call reads the
    attributes, later calls do not.  [ob_updates]: for the jitted update (base.py:362), the attributes
    it read for each signature.  [ob_scans]: for the jitted scan (loop.py:76-79, static arguments: the
    two methods of this object, and maxiter), the tolerance that cond_fun read. *)
Record solver_object := {
  ob_attrs : attrs; ob_built : built;
  ob_updates : list (nat * attrs); ob_scans : list ((nat * nat) * R)
}.
Definition new (a : attrs) : result (solver_object * list warning) :=
  match post_init a with
  | Err e => Err e
  | Ok (b, w) => Ok ({| ob_attrs := a; ob_built := b; ob_updates := []; ob_scans := [] |}, w)
  end.
Definition set_attrs (m : attrs -> attrs) (o : solver_object) : solver_object :=
  {| ob_attrs := m (ob_attrs o); ob_built := ob_built o; ob_updates := ob_updates o; ob_scans := ob_scans o |}.
Fixpoint lookup {K V} (eqb : K -> K -> bool) (k : K) (l : list (K * V)) : option V :=
  match l with [] => None | (k', v) :: l' => if eqb k k' then Some v else lookup eqb k l' end.
Definition key_eqb (p q : nat * nat) : bool := Nat.eqb (fst p) (fst q) && Nat.eqb (snd p) (snd q).
(** The attributes a call of self.update with signature [g] works with, and the object afterwards. *)
Definition call_update (g : nat) (o : solver_object) : attrs * solver_object :=
  if bt_update_jitted (ob_built o) then
    match lookup Nat.eqb g (ob_updates o) with
    | Some a => (a, o)
    | None => (ob_attrs o, {| ob_attrs := ob_attrs o; ob_built := ob_built o; ob_updates := (g, ob_attrs o) :: ob_updates o; ob_scans := ob_scans o |})
    end
  else (ob_attrs o, o).
(** What a run uses: the iteration limit and the tolerance of the loop, the options read by
    init_state, those read by update, and the line search. *)
Record run_options := { ro_maxiter : nat; ro_tol : R; ro_init : qn_config; ro_update : qn_config; ro_linesearch : ls_solver I }.
(** base.py:296-332 [_run] and loop.py:63-82 [while_loop], as far as the choice of options goes; [g]
    is the signature of the calls of update in this run. *)
Definition run_view (g : nat) (o : solver_object) : result run_options * solver_object :=
  let init := a_cfg (ob_attrs o) in
  let '(u, o1) := call_update g o in
  let a := ob_attrs o1 in
  let opts tol := {| ro_maxiter := a_maxiter a; ro_tol := tol; ro_init := init; ro_update := a_cfg u; ro_linesearch := bt_ls (ob_built o1) |} in
  if unrolls a then
    if a_jit a then
      match lookup key_eqb (a_maxiter a, g) (ob_scans o1) with
      | Some tol => (Ok (opts tol), o1)
      | None => (Ok (opts (a_tol a)),
                 {| ob_attrs := a; ob_built := ob_built o1; ob_updates := ob_updates o1; ob_scans := ((a_maxiter a, g), a_tol a) :: ob_scans o1 |})
      end
    else (Ok (opts (a_tol a)), o1)
  else if a_jit a then (Ok (opts (a_tol a)), o1)
  else (Err ValueError, o1).

(** ** Histories *)
Inductive event := SetAttrs (m : attrs -> attrs) | CallUpdate (g : nat) | CallRun (g : nat).
Definition happen (o : solver_object) (e : event) : solver_object :=
  match e with SetAttrs m => set_attrs m o | CallUpdate g => snd (call_update g o) | CallRun g => snd (run_view g o) end.
Definition after (o : solver_object) (h : list event) : solver_object := fold_left happen h o.

(** BFGS.run of an object: the loop of Convergence.v ([bfgs_solve]) with the options of the run.
    [ls_sem]: what a line search object computes. *)
Variable ls_sem : ls_solver I -> line_search.
Definition object_run (f : vec -> R) (gradf : vec -> vec) (g : nat) (o : solver_object) (x0 : vec) : result (vec * bfgs_state) :=
  match fst (run_view g o) with
  | Err e => Err e
  | Ok r => run_result (ro_maxiter r) (fun step => xgtb (b_error (snd step)) (ro_tol r))
              (bfgs_update f gradf (ls_sem (ro_linesearch r)) (ro_update r)) (x0, bfgs_init f gradf (ro_init r) x0)
  end.

(** ** Specification *)
(** The current attributes after a history. *)
Fixpoint current (a : attrs) (h : list event) : attrs :=
  match h with [] => a | SetAttrs m :: h' => current (m a) h' | _ :: h' => current a h' end.
(** The attributes at the first call of update or run with signature [g]; the current ones if there
    was none. *)
Fixpoint at_first_call (g : nat) (a : attrs) (h : list event) : attrs :=
  match h with
  | [] => a
  | SetAttrs m :: h' => at_first_call g (m a) h'
  | CallUpdate g' :: h' | CallRun g' :: h' => if Nat.eqb g g' then a else at_first_call g a h'
  end.
(** The attributes at the first unrolled run with limit [m] and signature [g]; the current ones if
    there was none. *)
Fixpoint at_first_scan (m g : nat) (a : attrs) (h : list event) : attrs :=
  match h with
  | [] => a
  | SetAttrs s :: h' => at_first_scan m g (s a) h'
  | CallUpdate _ :: h' => at_first_scan m g a h'
  | CallRun g' :: h' => if Nat.eqb m (a_maxiter a) && Nat.eqb g g' && unrolls a then a else at_first_scan m g a h'
  end.
(** A history during which the jit attribute keeps its value. *)
Definition keeps_jit (h : list event) : Prop := forall m, In (SetAttrs m) h -> forall a, a_jit (m a) = a_jit a.
(** No call with signature [g]. *)
Definition unused (g : nat) (h : list event) : Prop := ~ In (CallUpdate g) h /\ ~ In (CallRun g) h.
(** The options a new solver with these attributes would use. *)
Definition own_options (a : attrs) (ls : ls_solver I) : run_options :=
  {| ro_maxiter := a_maxiter a; ro_tol := a_tol a; ro_init := a_cfg a; ro_update := a_cfg a; ro_linesearch := ls |}.
Definition runnable (a : attrs) : bool := unrolls a || a_jit a.
(** Setting one attribute. *)
Definition with_maxls (k : nat) (a : attrs) : attrs :=
  {| a_cfg := a_cfg a; a_maxiter := a_maxiter a; a_jit := a_jit a; a_unroll := a_unroll a; a_implicit_diff := a_implicit_diff a;
     a_linesearch := a_linesearch a; a_maxls := k; a_verbose := a_verbose a; a_condition := a_condition a; a_decrease_factor := a_decrease_factor a |}.
Definition with_cfg (c : qn_config) (a : attrs) : attrs :=
  {| a_cfg := c; a_maxiter := a_maxiter a; a_jit := a_jit a; a_unroll := a_unroll a; a_implicit_diff := a_implicit_diff a;
     a_linesearch := a_linesearch a; a_maxls := a_maxls a; a_verbose := a_verbose a; a_condition := a_condition a; a_decrease_factor := a_decrease_factor a |}.
Definition with_maxiter (k : nat) (a : attrs) : attrs :=
  {| a_cfg := a_cfg a; a_maxiter := k; a_jit := a_jit a; a_unroll := a_unroll a; a_implicit_diff := a_implicit_diff a;
     a_linesearch := a_linesearch a; a_maxls := a_maxls a; a_verbose := a_verbose a; a_condition := a_condition a; a_decrease_factor := a_decrease_factor a |}.
Definition with_linesearch (l : ls_arg I) (a : attrs) : attrs :=
  {| a_cfg := a_cfg a; a_maxiter := a_maxiter a; a_jit := a_jit a; a_unroll := a_unroll a; a_implicit_diff := a_implicit_diff a;
     a_linesearch := l; a_maxls := a_maxls a; a_verbose := a_verbose a; a_condition := a_condition a; a_decrease_factor := a_decrease_factor a |}.
End Objects.
Arguments attrs : clear implicits.
Arguments event : clear implicits.
Arguments solver_object : clear implicits.
Arguments built : clear implicits.
Arguments run_options : clear implicits.
