(** Model of jaxopt/_src/proximal_gradient.py, gradient_descent.py and
    projected_gradient.py (fun, its gradient and prox are given; auxiliary outputs,
    dtypes and verbosity are not modelled). *)
From Coq Require Import Reals List Bool Lra.
From Verif Require Import Prelude Vec Loop Run Zoom.
Import ListNotations.
Open Scope R_scope.

(** [stepsize]: a number (<= 0: line search) or a callable of the iteration number. *)
Inductive stepsize_option := StepConst (s : R) | StepFun (s : nat -> R).

(** proximal_gradient.py:145-162, the fields that matter here. *)
Record pg_config := {
  pg_stepsize : stepsize_option; pg_maxiter : nat; pg_maxls : nat; pg_tol : R;
  acceleration : bool; pg_decrease : R;
  pg_eps : R (* jnp.finfo(dtype).eps *)
}.

(** proximal_gradient.py:84-91 [ProxGradState] ([aux] omitted). *)
Record pg_state := {
  pg_iter : nat; pg_step : R; pg_error : xnum; pg_velocity : option vec; pg_t : R
}.

Section ProxGrad.
Variable cfg : pg_config.
Variable f : vec -> R.
Variable gradf : vec -> vec.
(** [prox(params, hyperparams_prox, scaling)] with the hyper-parameters fixed. *)
Variable prox : vec -> R -> vec.

(** proximal_gradient.py:208-210 [_prox_grad] *)
Definition prox_grad (x g : vec) (stepsize : R) : vec :=
  prox (vadd x (smul (- stepsize) g)) stepsize.

(** proximal_gradient.py:59-68 [cond_fun] *)
Definition ls_cond (x : vec) (fx : R) (g : vec) (pair : vec * R) : bool :=
  let '(next_x, stepsize) := pair in
  let diff_x := vsub next_x x in
  let sqdist := sqnorm diff_x in
  let fun_decrease := stepsize * (f next_x - fx) in
  let condition := stepsize * dot diff_x g + / 2 * sqdist in
  Rltb (condition + pg_eps cfg) fun_decrease.

(** proximal_gradient.py:70-74 [body_fun] *)
Definition ls_body (x g : vec) (pair : vec * R) : vec * R :=
  let stepsize := snd pair in
  let next_stepsize := stepsize * pg_decrease cfg in
  (prox_grad x g next_stepsize, next_stepsize).

(** proximal_gradient.py:41-81 [fista_line_search] *)
Definition fista_line_search (x : vec) (fx : R) (g : vec) (stepsize : R) : vec * R :=
  python_for (ls_cond x fx g) (ls_body x g) (pg_maxls cfg) (prox_grad x g stepsize, stepsize).

(** proximal_gradient.py:164-202 [init_state] *)
Definition pg_init (init_params : vec) : pg_state :=
  {| pg_iter := 0; pg_step := 1; pg_error := PInf;
     pg_velocity := if acceleration cfg then Some init_params else None; pg_t := 1 |}.

(** proximal_gradient.py:204-206 [_error] *)
Definition pg_err (diff_x : vec) (stepsize : R) : R := norm2 diff_x / stepsize.

(** proximal_gradient.py:212-241 [_iter] *)
Definition pg_iter_step (iter_num : nat) (x : vec) (fx : R) (g : vec) (stepsize : R) : vec * R :=
  let fixed s := (prox_grad x g s, s) in
  match pg_stepsize cfg with
  | StepFun s => fixed (s iter_num)
  | StepConst s =>
      if Rleb s 0 then
        let '(next_x, next_stepsize) := fista_line_search x fx g stepsize in
        (next_x, if Rleb next_stepsize (/ 1000000) then 1 else next_stepsize / pg_decrease cfg)
      else fixed s
  end.

(** proximal_gradient.py:243-256 [_update] *)
Definition pg_update_plain (step : vec * pg_state) : vec * pg_state :=
  let '(x, state) := step in
  let '(next_x, next_stepsize) := pg_iter_step (pg_iter state) x (f x) (gradf x) (pg_step state) in
  (next_x,
   {| pg_iter := pg_iter state + 1; pg_step := next_stepsize;
      pg_error := Fin (pg_err (vsub next_x x) next_stepsize); pg_velocity := None; pg_t := 1 |}).

(** proximal_gradient.py:258-285 [_update_accel] (a missing velocity would be an error;
    [init_state] always provides it when acceleration is on). *)
Definition pg_update_accel (step : vec * pg_state) : vec * pg_state :=
  let '(x, state) := step in
  let y := match pg_velocity state with Some y => y | None => x end in
  let t := pg_t state in
  let '(next_x, next_stepsize) := pg_iter_step (pg_iter state) y (f y) (gradf y) (pg_step state) in
  let next_t := / 2 * (1 + sqrt (1 + 4 * t ^ 2)) in
  let diff_x := vsub next_x x in
  let next_y := vadd next_x (smul ((t - 1) / next_t) diff_x) in
  (next_x,
   {| pg_iter := pg_iter state + 1; pg_step := next_stepsize;
      pg_error := Fin (pg_err diff_x next_stepsize); pg_velocity := Some next_y; pg_t := next_t |}).

(** proximal_gradient.py:287-304 [update] *)
Definition pg_update (step : vec * pg_state) : vec * pg_state :=
  if acceleration cfg then pg_update_accel step else pg_update_plain step.

(** base.py:296-332 [_run]; base.py:264-266 [_cond_fun]. *)
Definition pg_run (init_params : vec) : vec * pg_state :=
  run_loop (pg_maxiter cfg) (fun st => xgtb (pg_error (snd st)) (pg_tol cfg)) pg_update
    (init_params, pg_init init_params).

(** The parameters after [k] updates. *)
Definition pg_iterate (x0 : vec) (k : nat) : vec := fst (Nat.iter k pg_update (x0, pg_init x0)).

(** proximal_gradient.py:306-313 [_fixed_point_fun], [optimality_fun] *)
Definition pg_fixed_point_fun (sol : vec) : vec := prox (vsub sol (gradf sol)) 1.
Definition pg_optimality_fun (sol : vec) : vec := vsub (pg_fixed_point_fun sol) sol.
End ProxGrad.

(** gradient_descent.py:26-101: [ProximalGradient] with [prox_none] (prox.py:27-46) and
    its own [optimality_fun]. *)
Definition gd_prox (x : vec) (_ : R) : vec := x.
Definition gd_update (cfg : pg_config) (f : vec -> R) (gradf : vec -> vec) := pg_update cfg f gradf gd_prox.
Definition gd_optimality_fun (gradf : vec -> vec) (params : vec) : vec := gradf params.
(** projected_gradient.py:143-161: [ProximalGradient] with [make_prox_from_projection]. *)
Definition projg_prox (projection : vec -> vec) (x : vec) (_ : R) : vec := projection x.
Definition projg_update (cfg : pg_config) (f : vec -> R) (gradf projection : vec -> vec) :=
  pg_update cfg f gradf (projg_prox projection).

(** ** Specification *)
(** A problem in dimension [n]: minimise f + g over the convex set [D]. *)
Section Spec.
Variable n : nat.
Variable D : vec -> Prop.
Variable f g : vec -> R.
Variable gradf : vec -> vec.
Variable prox : vec -> R -> vec.

Definition in_dim (x : vec) : Prop := length x = n.
(** f is convex with gradient [gradf]. *)
Definition convex_grad : Prop :=
  forall x y, in_dim x -> in_dim y -> f x + dot (gradf x) (vsub y x) <= f y.
(** The gradient is L-Lipschitz in the descent-lemma sense. *)
Definition smooth (L : R) : Prop :=
  forall x y, in_dim x -> in_dim y -> f y <= f x + dot (gradf x) (vsub y x) + L / 2 * dist2 y x.
(** g is convex on the convex set D of vectors of dimension n. *)
Definition convex_on : Prop :=
  (forall x, D x -> in_dim x) /\
  forall x y a, D x -> D y -> 0 <= a <= 1 ->
    D (vadd (smul (1 - a) x) (smul a y)) /\
    g (vadd (smul (1 - a) x) (smul a y)) <= (1 - a) * g x + a * g y.
(** prox(v, s) minimises g + ||. - v||^2/(2s) over D. *)
Definition prox_spec : Prop :=
  forall v s, in_dim v -> 0 < s ->
    D (prox v s) /\
    forall z, D z -> g (prox v s) + dist2 (prox v s) v / (2 * s) <= g z + dist2 z v / (2 * s).
Definition objective (x : vec) : R := f x + g x.
Definition minimiser (x : vec) : Prop := D x /\ forall z, D z -> objective x <= objective z.
End Spec.

(** The quadratic upper bound at [z], with slack eps / s. *)
Definition quad_bound (f : vec -> R) (x gx : vec) (s eps : R) (z : vec) : Prop :=
  f z <= f x + dot gx (vsub z x) + dist2 z x / (2 * s) + eps / s.
(** The step of iteration [i] when no line search is used. *)
Definition step_at (cfg : pg_config) (i : nat) : R :=
  match pg_stepsize cfg with StepConst s => s | StepFun s => s i end.
Fixpoint step_sum (cfg : pg_config) (k : nat) : R :=
  match k with O => 0 | S j => step_sum cfg j + step_at cfg j end.
(** Positive steps of at most 1/L. *)
Definition short_steps (cfg : pg_config) (L : R) : Prop :=
  forall i, 0 < step_at cfg i /\ step_at cfg i * L <= 1.
(** The line search is used. *)
Definition uses_line_search (cfg : pg_config) : Prop :=
  exists s, pg_stepsize cfg = StepConst s /\ s <= 0.
(** A composite problem with exact oracles. *)
Definition composite_problem (n : nat) (D : vec -> Prop) (f g : vec -> R) (gradf : vec -> vec)
    (prox : vec -> R -> vec) : Prop :=
  (forall x, in_dim n x -> in_dim n (gradf x)) /\ convex_grad n f gradf /\ convex_on n D g /\
  prox_spec n D g prox.
Definition no_penalty (_ : vec) : R := 0.
