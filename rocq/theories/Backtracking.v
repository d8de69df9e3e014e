(** Model of jaxopt/_src/backtracking_linesearch.py. *)
From Coq Require Import Reals List Bool Lra.
From Verif Require Import Prelude Vec Loop Run.
Import ListNotations.
Open Scope R_scope.

(** Arithmetic of possibly non-finite function values with finite numbers. *)
Definition xsub (x : xnum) (r : R) : xnum := match x with Fin v => Fin (v - r) | y => y end.
Definition rsub (r : R) (x : xnum) : xnum :=
  match x with Fin v => Fin (r - v) | PInf => NInf | NInf => PInf | NaN => NaN end.
(** [jnp.where(jnp.isnan(d), jnp.inf, d)] then [jnp.maximum(., 0.0)] *)
Definition clean_error (d : xnum) : xnum :=
  match d with Fin v => Fin (Rmax v 0) | PInf => PInf | NInf => Fin 0 | NaN => PInf end.
(** [jnp.maximum] of two cleaned errors *)
Definition xmaximum (a b : xnum) : xnum :=
  match a, b with Fin u, Fin v => Fin (Rmax u v) | _, _ => PInf end.

Inductive ls_condition := Armijo | Goldstein | StrongWolfe | Wolfe.

(** backtracking_linesearch.py:84-95: the dataclass fields. *)
Record bt_config := {
  condition : ls_condition;
  c1 : R; c2 : R; decrease_factor : R; max_stepsize : R; tol : R; maxiter : nat
}.

(** backtracking_linesearch.py:34-47 [BacktrackingLineSearchState] ([aux] omitted). *)
Record bt_state := {
  iter_num : nat; st_params : vec; st_value : xnum; st_grad : vec;
  value_init : R; grad_init : vec; error : xnum; done : bool; failed : bool;
  num_fun_eval : nat; num_grad_eval : nat
}.

Section Backtracking.
Variable cfg : bt_config.
(** The objective may return NaN or infinities; its gradient is finite. *)
Variable f : vec -> xnum.
Variable gradf : vec -> vec.

(** backtracking_linesearch.py:101-149 [init_state] with [value] and [grad] given;
    when they are None they are recomputed, adding one to both counters ([given]). *)
Definition bt_init (given : bool) (params : vec) (value : R) (grad : vec) : bt_state :=
  {| iter_num := 0; st_params := params; st_value := Fin value; st_grad := grad;
     value_init := value; grad_init := grad; error := PInf; done := false; failed := false;
     num_fun_eval := if given then 0 else 1; num_grad_eval := if given then 0 else 1 |}.

(** backtracking_linesearch.py:151-285 [update] *)
Definition bt_update (params descent_direction : vec) (step : R * bt_state) : R * bt_state :=
  let '(stepsize, state) := step in
  let stepsize := Rmin (max_stepsize cfg) stepsize in
  let value := value_init state in
  let grad := grad_init state in
  let slope := dot grad descent_direction in
  let new_params := vadd params (smul stepsize descent_direction) in
  let value_only := match condition cfg with Armijo | Goldstein => true | _ => false end in
  let new_value := f new_params in
  let new_grad := if value_only then grad else gradf new_params in
  let new_slope := if value_only then slope else dot new_grad descent_direction in
  let num_grad := if value_only then num_grad_eval state else S (num_grad_eval state) in
  let error_cond1 := clean_error (xsub new_value (value + c1 cfg * stepsize * slope)) in
  let error :=
    match condition cfg with
    | Armijo => error_cond1
    | StrongWolfe =>
        xmaximum error_cond1 (clean_error (Fin (Rabs new_slope - c2 cfg * Rabs slope)))
    | Wolfe => xmaximum error_cond1 (clean_error (Fin (c2 cfg * slope - new_slope)))
    | Goldstein =>
        xmaximum error_cond1
          (clean_error (rsub (value + (1 - c1 cfg) * stepsize * slope) new_value))
    end in
  let done := done state || xleb error (tol cfg) in
  let failed := failed state || (Nat.eqb (iter_num state + 1) (maxiter cfg) && negb done) in
  let new_stepsize := if done || failed then stepsize else stepsize * decrease_factor cfg in
  let extra := if (value_only && (done || failed))%bool then 1%nat else 0%nat in
  let new_grad := if value_only then (if done || failed then gradf new_params else grad) else new_grad in
  (new_stepsize,
   {| iter_num := iter_num state + 1; st_params := new_params; st_value := new_value; st_grad := new_grad;
      value_init := value_init state; grad_init := grad_init state;
      error := error; done := done; failed := failed;
      num_fun_eval := num_fun_eval state + 1 + extra; num_grad_eval := num_grad + extra |}).

(** base.py:482-492 [run]; the direction defaults to minus the gradient. *)
Definition bt_run (given : bool) (init_stepsize : R) (params : vec) (value : R) (grad : vec)
    (direction : option vec) : R * bt_state :=
  let d := match direction with Some d => d | None => smul (-1) grad end in
  run_loop (maxiter cfg) (fun st => xgtb (error (snd st)) (tol cfg)) (bt_update params d)
    (init_stepsize, bt_init given params value grad).

(** ** Specification *)
(** [v <= b] for a function value that may be non-finite. *)
Definition xle_bound (v : xnum) (b : R) : Prop :=
  match v with Fin r => r <= b | NInf => True | _ => False end.
Definition xge_bound (v : xnum) (b : R) : Prop :=
  match v with Fin r => b <= r | PInf => True | _ => False end.
(** The chosen line-search condition at step [s], each inequality up to [tol]. *)
Definition condition_holds (x d g : vec) (fx s : R) : Prop :=
  let z := vadd x (smul s d) in
  let sl := dot g d in
  xle_bound (f z) (fx + c1 cfg * s * sl + tol cfg) /\
  match condition cfg with
  | Armijo => True
  | StrongWolfe => Rabs (dot (gradf z) d) <= c2 cfg * Rabs sl + tol cfg
  | Wolfe => c2 cfg * sl - tol cfg <= dot (gradf z) d
  | Goldstein => xge_bound (f z) (fx + (1 - c1 cfg) * s * sl - tol cfg)
  end.
End Backtracking.
