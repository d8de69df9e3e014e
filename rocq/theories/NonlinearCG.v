(** Model of nonlinear_cg.py (real parameters flattened to a vector; aux and the evaluation
    counters omitted). *)
From Coq Require Import String.
From Coq Require Import Reals List Lra Lia Bool Arith.
From Verif Require Import Prelude Vec Mat Zoom Run QuasiNewton.
Import ListNotations.
Local Open Scope string_scope.
Open Scope R_scope.

(** nonlinear_cg.py:35-49 [NonlinearCGState] *)
Record ncg_state := { c_iter : nat; c_stepsize : R; c_error : xnum; c_value : R; c_grad : vec; c_direction : vec }.
Record ncg_config := {
  c_method : string; c_linesearch : ls_arg unit; c_linesearch_init : string;
  c_increase_factor : R; c_max_stepsize : R; c_min_stepsize : R; c_tol : R
}.
(** nonlinear_cg.py:193 *)
Definition ncg_eps : R := 1 / 1000000.
(** jnp.where(t >= eps, t, eps) *)
Definition clamp_below (t : R) : R := if Rleb ncg_eps t then t else ncg_eps.
(** jax.nn.relu *)
Definition relu (t : R) : R := Rmax t 0.
(** nonlinear_cg.py:230-253: new_beta *)
Definition ncg_beta (method : string) (grad new_grad descent_direction : vec) : result R :=
  if string_dec method "polak-ribiere" then
    let gTg := clamp_below (dot grad grad) in
    Ok (relu (dot (vsub new_grad grad) new_grad / gTg))
  else if string_dec method "fletcher-reeves" then
    let gTg := clamp_below (dot grad grad) in
    Ok (relu (dot new_grad new_grad / gTg))
  else if string_dec method "hestenes-stiefel" then
    let grad_diff := vsub new_grad grad in
    let dTg := clamp_below (dot grad_diff descent_direction) in
    Ok (relu (dot grad_diff new_grad / dTg))
  else Err ValueError.
Section NCG.
Variable f : vec -> R.
Variable gradf : vec -> vec.
(** self.run_ls: the line search with the descent direction to use; a missing descent direction is
    replaced by minus the gradient (backtracking_linesearch.py:186-187 and alike) *)
Variable run_ls : line_search.
Variable cfg : ncg_config.
Definition run_ls_opt (s0 : R) (params : vec) (value : R) (grad : vec) (d : option vec) : ls_out :=
  run_ls s0 params value grad (match d with None => smul (-1) grad | Some d => d end).
(** nonlinear_cg.py:140-173 [init_state] *)
Definition ncg_init (params : vec) : ncg_state :=
  {| c_iter := 0; c_stepsize := c_max_stepsize cfg; c_error := PInf; c_value := f params; c_grad := gradf params;
     c_direction := smul (-1) (gradf params) |}.
(** nonlinear_cg.py:175-283 [update] *)
Definition ncg_update (step : vec * ncg_state) : result (vec * ncg_state) :=
  let '(params, state) := step in
  let value := c_value state in
  let grad := c_grad state in
  let descent_direction := c_direction state in
  let ls_descent_direction :=
    match c_linesearch cfg with
    | LsName s => if string_dec s "backtracking" then None else Some descent_direction
    | LsInstance _ => Some descent_direction
    end in
  match init_stepsize (c_linesearch_init cfg) (c_max_stepsize cfg) (c_min_stepsize cfg) (c_increase_factor cfg) (c_stepsize state) with
  | Err e => Err e
  | Ok s0 =>
      let o := run_ls_opt s0 params value grad ls_descent_direction in
      let new_grad := ls_grad o in
      match ncg_beta (c_method cfg) grad new_grad descent_direction with
      | Err e => Err e
      | Ok new_beta =>
          let new_descent_direction := vadd (smul (-1) new_grad) (smul new_beta descent_direction) in
          let error := norm2 grad in
          Ok (ls_params o,
              {| c_iter := S (c_iter state); c_stepsize := ls_step o; c_error := Fin error; c_value := ls_value o; c_grad := new_grad;
                 c_direction := new_descent_direction |})
      end
  end.
(** k updates from init_state *)
Fixpoint ncg_after (k : nat) (x0 : vec) : result (vec * ncg_state) :=
  match k with
  | O => Ok (x0, ncg_init x0)
  | S k' => match ncg_after k' x0 with Ok s => ncg_update s | Err e => Err e end
  end.
(** base.py:264-266, 296-332 [_run]: stops when error <= tol *)
Fixpoint ncg_loop (fuel : nat) (s : vec * ncg_state) : result (vec * ncg_state) :=
  match fuel with
  | O => Ok s
  | S fuel' => if xgtb (c_error (snd s)) (c_tol cfg) then
                 match ncg_update s with Ok s' => ncg_loop fuel' s' | Err e => Err e end
               else Ok s
  end.
Definition ncg_run (maxiter : nat) (x0 : vec) : result (vec * ncg_state) :=
  match maxiter with
  | O => Ok (x0, ncg_init x0)
  | S m => match ncg_update (x0, ncg_init x0) with Ok s => ncg_loop m s | Err e => Err e end
  end.
End NCG.

(** ** Specification *)
(** The formulae of Nocedal and Wright, without the numerical safeguard *)
Definition beta_PR (g g' : vec) : R := dot g' (vsub g' g) / dot g g.
Definition beta_FR (g g' : vec) : R := dot g' g' / dot g g.
Definition beta_HS (g g' d : vec) : R := dot g' (vsub g' g) / dot (vsub g' g) d.
Definition known_method (m : string) : Prop := m = "polak-ribiere" \/ m = "fletcher-reeves" \/ m = "hestenes-stiefel".
Definition known_init (s : string) : Prop := s = "max" \/ s = "current" \/ s = "increase".
(** A strictly convex quadratic f(x) = 1/2 <x, Q x> - <b, x>: its gradient, and its exact line
    search *)
Definition quad_grad (Q : mat) (b : vec) (x : vec) : vec := vsub (mvec Q x) b.
Definition exact_on_quadratic (Q : mat) (b : vec) (ls : line_search) : Prop :=
  forall s0 x v g d, let o := ls s0 x v g d in
    let a := - dot (quad_grad Q b x) d / dot d (mvec Q d) in
    ls_params o = vadd x (smul a d) /\ ls_grad o = quad_grad Q b (ls_params o).
