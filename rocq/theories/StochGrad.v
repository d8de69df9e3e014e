(** Models of jaxopt/_src/polyak_sgd.py and jaxopt/_src/armijo_sgd.py.  The batch objective
    and its gradient are arguments of each update; [pre_update], auxiliary outputs, dtypes,
    evaluation counters and logging are not modelled. *)
From Coq Require Import Reals List Bool Lra.
From Verif Require Import Prelude Vec Loop Run Zoom.
Import ListNotations.
Open Scope R_scope.

(** IEEE division of finite numbers. *)
Definition xdiv (a b : R) : xnum :=
  if Req_EM_T b 0 then
    (if Rlt_dec 0 a then PInf else if Rlt_dec a 0 then NInf else NaN)
  else Fin (a / b).
(** jnp.minimum with a finite right argument. *)
Definition xmin_fin (x : xnum) (b : R) : xnum :=
  match x with Fin a => Fin (Rmin a b) | PInf => Fin b | NInf => NInf | NaN => NaN end.

(** ** PolyakSGD *)
Inductive sps_variant := SPS_max | SPS_plus.
(** polyak_sgd.py:140-159, the fields that matter here. *)
Record polyak_config := {
  fun_min : R; variant : sps_variant; ps_max_stepsize : R; ps_delta : R; ps_momentum : R;
  ps_eps : R (* jnp.finfo(dtype).eps *)
}.
(** polyak_sgd.py:36-46 *)
Record polyak_state := {
  ps_iter : nat; ps_error : xnum; ps_value : xnum; ps_stepsize : xnum; ps_velocity : option vec
}.

(** polyak_sgd.py:161-190 [init_state] *)
Definition polyak_init (cfg : polyak_config) (init_params : vec) : polyak_state :=
  {| ps_iter := 0; ps_error := PInf; ps_value := PInf; ps_stepsize := Fin 1;
     ps_velocity := if Req_EM_T (ps_momentum cfg) 0 then None else Some (vzero (length init_params)) |}.

(** polyak_sgd.py:214-229: the step size. *)
Definition polyak_stepsize (cfg : polyak_config) (value grad_sqnorm : R) : xnum :=
  match variant cfg with
  | SPS_max => xmin_fin (xdiv (value - fun_min cfg) (grad_sqnorm + ps_delta cfg)) (ps_max_stepsize cfg)
  | SPS_plus => if Rleb grad_sqnorm (ps_eps cfg) then Fin 0
                else match xdiv (value - fun_min cfg) grad_sqnorm with
                     | Fin a => Fin (Rmax a 0) | PInf => PInf | NInf => Fin 0 | NaN => NaN end
  end.

(** polyak_sgd.py:198-260 [update] on the batch objective [f] with gradient [gradf].
    A non-finite step only arises when the gradient is 0 and multiplies it, so that the new
    parameters are NaN: [None]. *)
Definition polyak_update (cfg : polyak_config) (f : vec -> R) (gradf : vec -> vec)
    (params : vec) (state : polyak_state) : option vec * polyak_state :=
  let value := f params in
  let grad := gradf params in
  let grad_sqnorm := sqnorm grad in
  let stepsize := polyak_stepsize cfg value grad_sqnorm in
  let mk p v := (p, {| ps_iter := ps_iter state + 1; ps_error := Fin (sqrt grad_sqnorm);
                       ps_value := Fin value; ps_stepsize := stepsize; ps_velocity := v |}) in
  match stepsize with
  | Fin s =>
      if Req_EM_T (ps_momentum cfg) 0 then mk (Some (vadd params (smul (- s) grad))) None
      else
        let v := match ps_velocity state with Some v => v | None => vzero (length params) end in
        let new_velocity := vsub (smul (ps_momentum cfg) v) (smul s grad) in
        mk (Some (vadd params new_velocity)) (Some new_velocity)
  | _ => mk None None
  end.

(** Successive updates on a sequence of batches; stops at NaN parameters. *)
Fixpoint polyak_iterate (cfg : polyak_config) (fs : nat -> vec -> R) (gs : nat -> vec -> vec)
    (x0 : vec) (k : nat) : option vec * polyak_state :=
  match k with
  | O => (Some x0, polyak_init cfg x0)
  | S j => match polyak_iterate cfg fs gs x0 j with
           | (Some x, st) => polyak_update cfg (fs j) (gs j) x st
           | r => r
           end
  end.

(** ** ArmijoSGD *)
(** armijo_sgd.py:39-41 *)
Definition wolfe_cond_violated (eps stepsize coef f_cur f_next grad_sqnorm : R) : bool :=
  Rltb (f_cur - f_next + eps) (stepsize * coef * grad_sqnorm).
(** armijo_sgd.py:44-45 *)
Definition curvature_cond_violated (stepsize coef f_cur f_next grad_sqnorm : R) : bool :=
  Rltb f_next (f_cur - stepsize * (1 - coef) * grad_sqnorm).

Inductive reset_option := Increase | Goldstein | Conservative.
(** armijo_sgd.py:211-234; [_coef] is set in armijo_sgd.py:350. *)
Record armijo_config := {
  aggressiveness : R; decrease_factor : R; increase_factor : R; reset : reset_option;
  ar_momentum : R; ar_max_stepsize : R; ar_maxls : nat; ar_eps : R
}.
Definition ar_coef (cfg : armijo_config) : R := 1 - aggressiveness cfg.

Section ArmijoLS.
Variable cfg : armijo_config.
Variable f : vec -> R.
Variable goldstein : bool.
Variable params : vec.
Variable f_cur : R.
Variable grad : vec.
Let grad_sqnorm := sqnorm grad.

(** armijo_sgd.py:82-88 [update_stepsize] *)
Definition update_stepsize (stepsize factor : R) : R * vec * R :=
  let stepsize := stepsize * factor in
  let stepsize := Rmin stepsize (ar_max_stepsize cfg) in
  let next_params := vadd params (smul (- stepsize) grad) in
  (stepsize, next_params, f next_params).

(** armijo_sgd.py:90-108 [body_fun] *)
Definition armijo_body (t : R * vec * R * bool) : R * vec * R * bool :=
  let '(stepsize, next_params, f_next, _) := t in
  let violated := wolfe_cond_violated (ar_eps cfg) stepsize (ar_coef cfg) f_cur f_next grad_sqnorm in
  let '(stepsize, next_params, f_next) :=
    if violated then update_stepsize stepsize (decrease_factor cfg) else (stepsize, next_params, f_next) in
  if goldstein then
    let goldstein_violated := curvature_cond_violated stepsize (ar_coef cfg) f_cur f_next grad_sqnorm in
    let '(stepsize, next_params, f_next) :=
      if goldstein_violated then update_stepsize stepsize (increase_factor cfg) else (stepsize, next_params, f_next) in
    (stepsize, next_params, f_next, violated || goldstein_violated)
  else (stepsize, next_params, f_next, violated).

(** armijo_sgd.py:48-115 [armijo_line_search] *)
Definition armijo_line_search (stepsize : R) : R * vec * R :=
  let next_params := vadd params (smul (- stepsize) grad) in
  let '(s, p, v, _) := python_for snd armijo_body (ar_maxls cfg) (stepsize, next_params, f next_params, true) in
  (s, p, v).
End ArmijoLS.

(** armijo_sgd.py:120-133 *)
Record armijo_state := {
  ar_iter : nat; ar_error : xnum; ar_value : xnum; ar_stepsize : R; ar_velocity : option vec
}.
(** armijo_sgd.py:236-264 [init_state] *)
Definition armijo_init (cfg : armijo_config) (init_params : vec) : armijo_state :=
  {| ar_iter := 0; ar_error := PInf; ar_value := PInf; ar_stepsize := ar_max_stepsize cfg;
     ar_velocity := if Req_EM_T (ar_momentum cfg) 0 then None else Some (vzero (length init_params)) |}.
(** armijo_sgd.py:266-273 [reset_stepsize] *)
Definition reset_stepsize (cfg : armijo_config) (stepsize : R) : R :=
  match reset cfg with
  | Goldstein => stepsize
  | Conservative => stepsize
  | Increase => Rmin (stepsize * increase_factor cfg) (ar_max_stepsize cfg)
  end.
(** armijo_sgd.py:275-328 [update] *)
Definition armijo_update (cfg : armijo_config) (f : vec -> R) (gradf : vec -> vec)
    (params : vec) (state : armijo_state) : vec * armijo_state :=
  let stepsize := reset_stepsize cfg (ar_stepsize state) in
  let f_cur := f params in
  let grad := gradf params in
  let goldstein := match reset cfg with Goldstein => true | _ => false end in
  let '(stepsize, next_params, f_next) := armijo_line_search cfg f goldstein params f_cur grad stepsize in
  let '(next_params, next_velocity) :=
    if Req_EM_T (ar_momentum cfg) 0 then (next_params, None)
    else
      let v := match ar_velocity state with Some v => v | None => vzero (length params) end in
      let next_params := vadd next_params (smul (ar_momentum cfg) v) in
      (next_params, Some (vsub next_params params)) in
  (next_params,
   {| ar_iter := ar_iter state + 1; ar_error := Fin (norm2 grad); ar_value := Fin f_next;
      ar_stepsize := stepsize; ar_velocity := next_velocity |}).
Fixpoint armijo_iterate (cfg : armijo_config) (fs : nat -> vec -> R) (gs : nat -> vec -> vec)
    (x0 : vec) (k : nat) : vec * armijo_state :=
  match k with
  | O => (x0, armijo_init cfg x0)
  | S j => let '(x, st) := armijo_iterate cfg fs gs x0 j in armijo_update cfg (fs j) (gs j) x st
  end.

(** ** Specification *)
(** Each batch objective is convex (first-order form) in dimension n. *)
Definition grad_convex (n : nat) (f : vec -> R) (gradf : vec -> vec) : Prop :=
  forall x y, length x = n -> length y = n -> f x + dot (gradf x) (vsub y x) <= f y.
Definition grad_smooth (n : nat) (L : R) (f : vec -> R) (gradf : vec -> vec) : Prop :=
  forall x y, length x = n -> length y = n -> f y <= f x + dot (gradf x) (vsub y x) + L / 2 * dist2 y x.
Definition grad_shape (n : nat) (gradf : vec -> vec) : Prop := forall x, length x = n -> length (gradf x) = n.
(** The sufficient-decrease (Armijo) condition, up to the rounding slack. *)
Definition armijo_ok (f : vec -> R) (x g : vec) (c eps s : R) : Prop :=
  f (vadd x (smul (- s) g)) <= f x - c * s * sqnorm g + eps.
(** The other Goldstein condition: the step is not too short. *)
Definition goldstein_ok (f : vec -> R) (x g : vec) (c s : R) : Prop :=
  f x - (1 - c) * s * sqnorm g <= f (vadd x (smul (- s) g)).
