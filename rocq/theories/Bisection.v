(** Model of jaxopt/_src/bisection.py. *)
From Coq Require Import Reals List ZArith Bool Lra.
From Verif Require Import Prelude Loop Base.
Import ListNotations.
Open Scope R_scope.

(** bisection.py:30-40 [BisectionState]; aux is modelled in [init_state_aux] only. *)
Record bis_state := {
  iter_num : nat;
  value : xnum;
  error : xnum;
  low : R;
  high : R;
  sgn : R;
  num_fun_eval : nat
}.

Section Bisection.
Variable optimality_fun : R -> R.

(** bisection.py:99-102 *)
Definition bracket_sign (lower_value upper_value : R) : R :=
  if Rlt_dec lower_value 0 then (if Rle_dec 0 upper_value then 1 else 0)
  else if Rlt_dec 0 lower_value then (if Rle_dec upper_value 0 then -1 else 0)
  else 0.

(** bisection.py:75-115 [init_state]: the state built when no error is raised. *)
Definition initial_state (lower upper : R) : bis_state :=
  {| iter_num := 0; value := PInf; error := PInf; low := lower; high := upper;
     sgn := bracket_sign (optimality_fun lower) (optimality_fun upper); num_fun_eval := 2 |}.

(** bisection.py:75-115 [init_state] *)
Definition bis_init (lower upper : R) (check_bracket : bool) : result bis_state :=
  let st := initial_state lower upper in
  if check_bracket then
    if Req_EM_T (sgn st) 0 then Err ValueError else Ok st
  else Ok st.

(** bisection.py:117-162 [update] (has_aux=False); [params] is ignored. *)
Definition bis_update (st : bis_state) : R * bis_state :=
  let params := 0.5 * (high st + low st) in
  let v := optimality_fun params in
  let err := sqrt (v * v) in
  let too_large := if Rlt_dec 0 (sgn st * v) then true else false in
  (params,
   {| iter_num := 1 + iter_num st; value := Fin v; error := Fin err;
      low := if too_large then low st else params;
      high := if too_large then params else high st;
      sgn := sgn st; num_fun_eval := 1 + num_fun_eval st |}).

(** (params, state) after k calls of [update]. *)
Fixpoint bis_iter (k : nat) (st : bis_state) : R * bis_state :=
  match k with
  | O => (0, st)
  | S k' => bis_update (snd (bis_iter k' st))
  end.

(** Bisection as a [base.IterativeSolver].  The (never None) leaves of the state
    are kept together as one leaf.  Parameters are ignored on input. *)
Definition leaf_error (s : state bis_state) : xnum :=
  match s with Some st :: _ => error st | _ => NaN end.
Definition bis_solver (lower upper tol : R) : solver R bis_state unit :=
  {| init_state := fun _ _ => [Some (initial_state lower upper)];
     update := fun _ s _ =>
       match s with
       | Some st :: _ => let '(p, st') := bis_update st in (p, [Some st'])
       | _ => (0, s)
       end;
     cond_fun := default_cond leaf_error tol |}.

(** [run] when [check_bracket] passes or is off (base.py:296-332); init_params is
    None in the code and ignored, here 0. *)
Definition bis_run (lower upper tol : R) (maxiter : Z) (check_bracket : bool)
    (unroll : unroll_option) (jit : bool) (r : result (R * state bis_state)) : Prop :=
  match bis_init lower upper check_bracket with
  | Err e => r = Err e
  | Ok _ => run (bis_solver lower upper tol) (Plain 0) tt maxiter unroll true jit r
  end.
End Bisection.

(** ** has_aux.  What [optimality_fun] returns: a number, or a pair. *)
Inductive fun_output (X : Type) := Number (r : R) | Pair (r : R) (x : X).
Arguments Number {X} r.
Arguments Pair {X} r x.

(** Python's [v < 0]: comparing a tuple with a number raises TypeError. *)
Definition py_lt0 {X} (v : fun_output X) : result bool :=
  match v with
  | Number r => Ok (if Rlt_dec r 0 then true else false)
  | Pair _ _ => Err TypeError
  end.

(** bisection.py:96-102 with the unprocessed return value of the user function:
    [init_state] calls [self.optimality_fun] directly even if has_aux is True. *)
Definition init_compares {X} (f : R -> fun_output X) (lower upper : R) : result unit :=
  match py_lt0 (f lower) with
  | Err e => Err e
  | Ok _ => Ok tt
  end.
