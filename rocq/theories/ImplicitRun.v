(** Model of the implicit differentiation of a whole call of a solver: implicit_diff.py [_custom_root], [custom_root],
    [custom_fixed_point], base.py [IterativeSolver.run], and the reference signatures that the solvers set up (C60).
    Simplifications: an argument is one vector (the concatenation of the leaves of a pytree); the derivatives that
    jax.vjp applies at a point are given by their matrices ([jac]). *)
From Coq Require Import String.
From Coq Require Import Reals List Bool Arith Permutation.
From Verif Require Import Prelude Vec Mat LinAlg LinSolve ImplicitDiff.
Import ListNotations.
Open Scope R_scope.

Definition signature := list (param vec).

(** ** Reference signatures *)
(** What may be passed as [reference_signature]: nothing, an inspect.Signature, or a callable, which may carry an
    attribute [subfun] (CompositeLinearFunction) *)
Inductive reference := RefNone | RefSignature (s : signature) | RefCallable (own : signature) (subfun : option signature).
(** implicit_diff.py:194-201 *)
Definition resolve_reference (r : reference) (optimality_sig : signature) : signature :=
  match r with
  | RefNone => optimality_sig
  | RefSignature s => s
  | RefCallable own subfun => match subfun with Some s => s | None => own end
  end.

(** The checks of CPython's inspect.Signature(parameters): kinds in order, no parameter without default after one
    with default, no name twice. *)
Definition is_pos (p : param vec) : bool := match p_kind p with PosOrKw => true | _ => false end.
Definition has_default (p : param vec) : bool := match p_default p with Some _ => true | None => false end.
Fixpoint validate (top : nat) (seen_default : bool) (names : list string) (ps : signature) : bool :=
  match ps with
  | [] => true
  | p :: ps' =>
      let k := kind_rank (p_kind p) in
      if Nat.ltb k top then false
      else if is_pos p && negb (has_default p) && seen_default then false
      else if existsb (String.eqb (p_name p)) names then false
      else validate k (seen_default || is_pos p && has_default p) (p_name p :: names) ps'
  end.
Definition new_signature (ps : signature) : result signature := if validate 0 false [] ps then Ok ps else Err ValueError.
(** Python's list.insert(1, p) *)
Definition insert_1 (p : param vec) (ps : signature) : signature := match ps with [] => [p] | p0 :: ps' => p0 :: p :: ps' end.
(** The same five lines in five solvers: proximal_gradient.py:337-343 and block_cd.py:225-230 (hyperparams_prox),
    mirror_descent.py:222-228 (hyperparams_proj), lbfgsb.py:602-608 (bounds) *)
Definition inserted_reference (name : string) (fun_sig : signature) : result signature :=
  new_signature (insert_1 {| p_name := name; p_kind := PosOrKw; p_default := None |} fun_sig).

(** Which reference each solver class sets, and the signature of its optimality_fun *)
Inductive solver_class :=
| GradientDescent | BFGS | LBFGS | NonlinearCG | Broyden | ArmijoSGD | PolyakSGD | OptaxSolver | FixedPointIteration | AndersonAcceleration
| ProximalGradient | BlockCoordinateDescent | MirrorDescent | LBFGSB
| GaussNewton | LevenbergMarquardt | ScipyMinimize | ScipyLeastSquares
| Bisection | ProjectedGradient.
Definition mk_param (name : string) (k : pkind) : param vec := {| p_name := name; p_kind := k; p_default := None |}.
(** (params, *args, **kwargs) *)
Definition catch_all (first : string) : signature := [mk_param first PosOrKw; mk_param "args" VarPos; mk_param "kwargs" VarKw].
(** gradient_descent.py:101, bfgs.py:293, lbfgs.py:440, nonlinear_cg.py:303, broyden.py:417, armijo_sgd.py:357,
    polyak_sgd.py:281, optax_wrapper.py:174: [self.fun]; fixed_point_iteration.py:140, anderson.py:269:
    [self.fixed_point_fun].  gauss_newton.py, levenberg_marquardt.py, scipy_wrappers.py (271-277), bisection.py
    and projected_gradient.py set none; ProjectedGradient overrides [run] and delegates to its ProximalGradient, so its
    entry here only matters to AndersonWrapper.
    [own] is the signature of the function the user passed, [subfun] the one of its attribute subfun, if any. *)
Definition class_reference (c : solver_class) (own : signature) (subfun : option signature) : result reference :=
  let f := match subfun with Some s => s | None => own end in
  let inserted name := match inserted_reference name f with Ok s => Ok (RefSignature s) | Err e => Err e end in
  match c with
  | ProximalGradient => inserted "hyperparams_prox"%string
  | BlockCoordinateDescent =>   (* block_cd.py:215-217 *)
      match subfun with Some _ => inserted "hyperparams_prox"%string | None => Err AttributeError end
  | MirrorDescent => inserted "hyperparams_proj"%string
  | LBFGSB => inserted "bounds"%string
  | GaussNewton | LevenbergMarquardt | ScipyMinimize | ScipyLeastSquares | Bisection | ProjectedGradient => Ok RefNone
  | _ => Ok (RefCallable own subfun)
  end.
(** gauss_newton.py:149-152, levenberg_marquardt.py:511, scipy_wrappers.py:314, 637 (catch-all); bisection.py:63: the
    user's function; only read when there is no reference *)
Definition class_optimality_sig (c : solver_class) (own : signature) : signature :=
  match c with
  | Bisection => own
  | ScipyMinimize | ScipyLeastSquares => catch_all "sol"
  | _ => catch_all "params"
  end.
(** anderson_wrapper.py:181: the attribute of the wrapped solver *)
Definition wrapper_reference (c : solver_class) (own : signature) (subfun : option signature) : result reference :=
  match class_reference c own subfun with
  | Ok RefNone => Err AttributeError
  | r => r
  end.

(** ** custom_root *)
(** What a solver function returns, and the cotangent of that: an array, or a pair (params, state) *)
Inductive output (St : Type) := Plain (v : vec) | WithAux (v : vec) (st : St).
Arguments Plain {St}. Arguments WithAux {St}.
(** implicit_diff.py:217-220: [res[0]], [cotangent[0]] if has_aux *)
Definition main_part {St} (has_aux : bool) (o : output St) : result vec :=
  match has_aux, o with
  | true, WithAux v _ => Ok v
  | false, Plain v => Ok v
  | _, _ => Err Unspecified
  end.
(** Where a value of the flat call comes from: the i-th positional argument of the user, the keyword argument k of the
    user, or a default *)
Inductive source := FromArg (i : nat) | FromKw (k : string) | FromDefault (v : vec).
Definition source_param (p : param vec) : param source :=
  {| p_name := p_name p; p_kind := p_kind p; p_default := option_map FromDefault (p_default p) |}.
(** How autodiff follows the arguments through [_signature_bind] (implicit_diff.py:131-134): the same re-ordering *)
Definition flat_sources (solver_sig : signature) (nargs : nat) (keys : list string) : list source :=
  match signature_bind (map source_param solver_sig) (map FromArg (seq 0 nargs)) (map (fun k => (k, FromKw k)) keys) with
  | Ok (a, k) => a ++ map snd k
  | Err _ => []
  end.
Fixpoint gradient_at (here : source -> bool) (srcs : list source) (gs : list (option vec)) : option vec :=
  match srcs, gs with
  | s :: srcs', g :: gs' => if here s then g else gradient_at here srcs' gs'
  | _, _ => None
  end.
Definition is_arg (i : nat) (s : source) : bool := match s with FromArg j => Nat.eqb i j | _ => false end.
Definition is_kw (k : string) (s : source) : bool := match s with FromKw k' => String.eqb k k' | _ => false end.
(** gradients with respect to the positional and the keyword arguments; None stands for zero *)
Definition gradients : Type := list (option vec) * list (string * option vec).
Definition user_gradients (solver_sig : signature) (nargs : nat) (keys : list string) (gs : list (option vec)) : gradients :=
  let srcs := flat_sources solver_sig nargs keys in
  (map (fun i => gradient_at (is_arg i) srcs gs) (seq 0 nargs), map (fun k => (k, gradient_at (is_kw k) srcs gs)) keys).

Section CustomRoot.
Context {St Sc : Type}.   (* the auxiliary part; its cotangents *)
(** a linear solver; jax's derivatives of optimality_fun at a point *)
Definition linear_solver : Type := (vec -> vec) -> vec -> vec.
Variable default_solve : nat -> linear_solver.   (* linear_solve.solve_normal_cg at the dimension of the solution *)
Variable solver_fun : list vec -> list (string * vec) -> result (output St).
Variable jac : vec -> list vec -> mat * list mat.

(** implicit_diff.py:204-207 [solver_fun_flat] *)
Definition solver_fun_flat (keys : list string) (flat : list vec) : result (output St) :=
  let '(args, kwargs) := extract_kwargs keys flat in solver_fun args kwargs.
(** implicit_diff.py:215-244 [solver_fun_bwd] *)
Definition flat_bwd (ref_sig : signature) (solve : nat -> linear_solver) (has_aux : bool) (keys : list string)
    (res : output St) (flat : list vec) (cotangent : output Sc) : result (list (option vec)) :=
  match main_part has_aux cotangent, main_part has_aux res with
  | Ok w, Ok sol =>
      solver_fun_bwd ref_sig (fun args => root_vjp (solve (length sol)) (length sol) (fst (jac sol args)) (snd (jac sol args)) (map (@length R) args) w) keys flat
  | Err e, _ => Err e
  | _, Err e => Err e
  end.
(** A differentiable call: its value, and the map from cotangents to gradients *)
Definition call : Type := result (output St * (output Sc -> result gradients)).
(** implicit_diff.py:248-251 [wrapped_solver_fun] and, before it, 256-289 [custom_root] (solve=None: the default) *)
Definition custom_root (solver_sig optimality_sig : signature) (ref : reference) (has_aux : bool) (solve : option (nat -> linear_solver))
    (args : list vec) (kw : list (string * vec)) : call :=
  let ref_sig := resolve_reference ref optimality_sig in
  let solve := match solve with None => default_solve | Some s => s end in
  match signature_bind solver_sig args kw with
  | Err e => Err e
  | Ok (a, k) =>
      let keys := map fst k in
      let flat := a ++ map snd k in
      match solver_fun_flat keys flat with
      | Err e => Err e
      | Ok res => Ok (res, fun cotangent =>
          match flat_bwd ref_sig solve has_aux keys res flat cotangent with
          | Ok gs => Ok (user_gradients solver_sig (length args) (map fst kw) gs)
          | Err e => Err e
          end)
      end
  end.

(** base.py:296-300: the signature of the bound method [_run] *)
Definition run_sig : signature := [mk_param "init_params" PosOrKw; mk_param "args" VarPos; mk_param "kwargs" VarKw].
(** base.py:334-358 [run]; [unrolled] is autodiff through the iterations, used if implicit_diff is False.  An absent
    attribute implicit_diff counts as True.  [solver_fun] plays [_run]. *)
Definition run (unrolled : list vec -> list (string * vec) -> output Sc -> result gradients)
    (implicit_diff : option bool) (optimality_sig : signature) (ref : reference) (solve : option (nat -> linear_solver))
    (init_params : vec) (args : list vec) (kw : list (string * vec)) : call :=
  if match implicit_diff with None => true | Some b => b end then
    custom_root run_sig optimality_sig ref true solve (init_params :: args) kw
  else match solver_fun (init_params :: args) kw with
       | Ok o => Ok (o, unrolled (init_params :: args) kw)
       | Err e => Err e
       end.
End CustomRoot.

(** implicit_diff.py:318-327 [custom_fixed_point]: custom_root of T(params, args) - params with T's signature
    (optimality_fun.__wrapped__ = fixed_point_fun); [jacT] gives the derivatives of T *)
Definition custom_fixed_point {St Sc} (default_solve : nat -> linear_solver) (solver_fun : list vec -> list (string * vec) -> result (output St))
    (jacT : vec -> list vec -> mat * list mat) (solver_sig fixed_point_sig : signature) (ref : reference) (has_aux : bool)
    (solve : option (nat -> linear_solver)) (args : list vec) (kw : list (string * vec)) : @call St Sc :=
  custom_root default_solve solver_fun (fun x a => (fixed_point_D1 (length x) (fst (jacT x a)), snd (jacT x a)))
    solver_sig fixed_point_sig ref has_aux solve args kw.

(** ** Specification *)
(** The arguments optimality_fun is called with after its first: those of the solver call, defaults included, bound to
    the reference signature *)
Definition optimality_args (solver_sig ref_sig : signature) (args : list vec) (kw : list (string * vec)) : result (list vec) :=
  match signature_bind solver_sig args kw with
  | Err e => Err e
  | Ok (a, k) =>
      match bind ref_sig a k with
      | Err e => Err e
      | Ok b => match ba_kwargs false b with [] => Ok (tl (ba_args b)) | _ => Err TypeError end
      end
  end.
(** kw + t dkw, key by key *)
Definition kw_move (kw : list (string * vec)) (t : R) (dkw : list (string * vec)) : list (string * vec) :=
  combine (map fst kw) (args_move (map snd kw) t (map snd dkw)).
Definition same_lengths (xs ys : list vec) : Prop := Forall2 (fun x y : vec => length x = length y) xs ys.
(** gradients paired with directions; None is zero *)
Definition pair1 (g : option vec) (d : vec) : R := match g with Some g => dot g d | None => 0 end.
Definition pairing (gs : list (option vec)) (ds : list vec) : R := fold_right (fun gd acc => pair1 (fst gd) (snd gd) + acc) 0 (combine gs ds).
(** jax returns one Jacobian per argument *)
Definition jac_arity (jac : vec -> list vec -> mat * list mat) : Prop := forall x a, length (snd (jac x a)) = length a.
(** sol is a regular root of F(., theta), [jac] returns F's derivatives there, and [solve] solves the two systems *)
Definition regular_root (F : vec -> list vec -> vec) (jac : vec -> list vec -> mat * list mat) (solve : nat -> linear_solver) (n : nat) (sol : vec) (theta : list vec) : Prop :=
  let ps := map (@length R) theta in let D1 := fst (jac sol theta) in let D2 := snd (jac sol theta) in
  length sol = n /\ (forall y a, length y = n -> args_ok ps a -> length (F y a) = n) /\ F sol theta = vzero n /\
  frechet n ps F sol theta D1 D2 /\ nonsingular n D1 /\ jac_ok n ps D2 /\
  solves_with (solve n) n (mvec D1) /\ solves_with (solve n) n (tvec n D1).
(** x is a continuous curve of roots of F when the user's arguments move by t dargs, t dkw *)
Definition root_curve (F : vec -> list vec -> vec) (solver_sig ref_sig : signature) (args : list vec) (kw : list (string * vec))
    (dargs : list vec) (dkw : list (string * vec)) (n : nat) (sol : vec) (x : R -> vec) : Prop :=
  (forall t, length (x t) = n) /\ x 0 = sol /\ continuous_at_0 x /\
  exists r, 0 < r /\ forall t, Rabs t < r ->
    exists theta, optimality_args solver_sig ref_sig (args_move args t dargs) (kw_move kw t dkw) = Ok theta /\ F (x t) theta = vzero n.
(** directions: one for each argument, of its size *)
Definition directions (args : list vec) (kw : list (string * vec)) (dargs : list vec) (dkw : list (string * vec)) : Prop :=
  same_lengths dargs args /\ map fst dkw = map fst kw /\ same_lengths (map snd dkw) (map snd kw).

(** sol is a regular fixed point of T(., theta); [jacT] returns T's derivatives *)
Definition regular_fixed_point (T : vec -> list vec -> vec) (jacT : vec -> list vec -> mat * list mat) (solve : nat -> linear_solver) (n : nat) (sol : vec) (theta : list vec) : Prop :=
  let ps := map (@length R) theta in let J := fst (jacT sol theta) in let D2 := snd (jacT sol theta) in
  length sol = n /\ (forall y a, length y = n -> args_ok ps a -> length (T y a) = n) /\ T sol theta = sol /\
  frechet n ps T sol theta J D2 /\ mat_shape n n J /\ nonsingular n (msub J (eye n)) /\ jac_ok n ps D2 /\
  solves_with (solve n) n (mvec (msub J (eye n))) /\ solves_with (solve n) n (tvec n (msub J (eye n))).
Definition fixed_point_curve (T : vec -> list vec -> vec) (solver_sig ref_sig : signature) (args : list vec) (kw : list (string * vec))
    (dargs : list vec) (dkw : list (string * vec)) (n : nat) (sol : vec) (x : R -> vec) : Prop :=
  (forall t, length (x t) = n) /\ x 0 = sol /\ continuous_at_0 x /\
  exists r, 0 < r /\ forall t, Rabs t < r ->
    exists theta, optimality_args solver_sig ref_sig (args_move args t dargs) (kw_move kw t dkw) = Ok theta /\ T (x t) theta = x t.
(** The parameters that [run] of each solver documents, [f] being those of the user's function: the user's, with the
    hyper-parameters of the proximal operator, of the projection, or the bounds in second place *)
Definition documented_parameters (c : solver_class) (f : signature) : signature :=
  let second name := match f with [] => [mk_param name PosOrKw] | p0 :: ps => p0 :: mk_param name PosOrKw :: ps end in
  match c with
  | ProximalGradient | BlockCoordinateDescent => second "hyperparams_prox"%string
  | MirrorDescent => second "hyperparams_proj"%string
  | LBFGSB => second "bounds"%string
  | _ => f
  end.
(** the classes with neither a reference nor a usable optimality function *)
Definition catch_all_class (c : solver_class) : Prop := In c [GaussNewton; LevenbergMarquardt; ScipyMinimize; ScipyLeastSquares].
