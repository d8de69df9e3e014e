(** Model of the construction of jaxopt/_src/scipy_wrappers.py solvers (option dictionaries, [has_aux] wrapping) and
    of the cost functions of its least-squares wrappers.  The calls into scipy.optimize itself are not modelled; the
    conversion of pytrees to NumPy arrays is in Pytree.v. *)
From Coq Require Import String Reals List Bool Lra Lia ZArith.
From Verif Require Import Prelude Vec Proj.
Import ListNotations.
Open Scope R_scope.

(** ** Robust losses *)
(** the keys of scipy_wrappers.py:581-587 [LS_RHO_FUNS] *)
Inductive ls_loss := Linear | SoftL1 | Huber | Cauchy | Arctan.
(** scipy_wrappers.py:581-587 [LS_RHO_FUNS]; the argument is the residual, ** 0.5 is sqrt (its argument is positive) *)
Definition ls_rho (l : ls_loss) (z : R) : R :=
  match l with
  | Linear => z ^ 2
  | SoftL1 => 2 * (sqrt (1 + z ^ 2) - 1)
  | Huber => if Rle_dec z 1 then z ^ 2 else 2 * z - 1
  | Cauchy => ln (1 + z ^ 2)
  | Arctan => atan (z ^ 2)
  end.
(** scipy_wrappers.py:631-635 [_cost_fun], on the residuals; for an empty residual vector the real code takes the mean
    of nothing (NaN), the model gives 0. *)
Definition ls_cost (l : ls_loss) (f_scale : R) (residuals : vec) : R :=
  let losses := map (fun r => ls_rho l (r / f_scale)) residuals in
  / 2 * (f_scale * f_scale) * (vsum losses / INR (length losses)).
(** scipy_wrappers.py:761-768 [_fixed_point_fun], [optimality_fun] of ScipyBoundedLeastSquares (and 432-439 of
    ScipyBoundedMinimize), given the gradient [g] at [sol] *)
Definition bounded_optimality_fun (sol g lower upper : vec) : vec := vsub (projection_box (vsub sol g) lower upper) sol.

(** Specification: SciPy's documented losses (scipy.optimize.least_squares, argument [loss]), applied to the squared
    residual, and the objective documented at scipy_wrappers.py:604-605 and minimised by SciPy. *)
Definition scipy_rho (l : ls_loss) (z : R) : R :=
  match l with
  | Linear => z
  | SoftL1 => 2 * (sqrt (1 + z) - 1)
  | Huber => if Rle_dec z 1 then z else 2 * sqrt z - 1
  | Cauchy => ln (1 + z)
  | Arctan => atan z
  end.
Definition scipy_cost (l : ls_loss) (f_scale : R) (residuals : vec) : R :=
  / 2 * vsum (map (fun r => f_scale * f_scale * scipy_rho l ((r / f_scale) * (r / f_scale))) residuals).
(** The residuals for which the implementation agrees with SciPy (see C52_huber): all, or for the Huber loss the scaled
    residuals that are at least -1. *)
Definition agrees (l : ls_loss) (f_scale : R) (residuals : vec) : Prop := l = Huber -> forall r, In r residuals -> -1 <= r / f_scale.
(** the derivative of the implemented loss with respect to the residual *)
Definition ls_rho' (l : ls_loss) (z : R) : R :=
  match l with
  | Linear => 2 * z
  | SoftL1 => 2 * z / sqrt (1 + z ^ 2)
  | Huber => if Rle_dec z 1 then 2 * z else 2
  | Cauchy => 2 * z / (1 + z ^ 2)
  | Arctan => 2 * z / (1 + (z ^ 2) ^ 2)
  end.

(** ** Option dictionaries *)
(** The values that appear in option dictionaries: floats, strings, integers, None, pytrees of arrays (flattened), a
    NumPy array, a dictionary. *)
Inductive pyval := VFloat (r : R) | VStr (s : string) | VInt (z : Z) | VNone | VTree (v : vec) | VArr (v : vec) | VDict (a : nat).
(** Python dictionaries (string keys, insertion order). *)
Definition dict := list (string * pyval).
Fixpoint dict_get (d : dict) (k : string) : option pyval :=
  match d with [] => None | (k', v) :: d' => if String.eqb k k' then Some v else dict_get d' k end.
Definition dict_mem (d : dict) (k : string) : bool := match dict_get d k with Some _ => true | None => false end.
Fixpoint dict_set (d : dict) (k : string) (v : pyval) : dict :=
  match d with [] => [(k, v)] | (k', v') :: d' => if String.eqb k k' then (k', v) :: d' else (k', v') :: dict_set d' k v end.
(** The store of dictionaries; an options argument or attribute is an address (a reference) or None. *)
Definition heap := list dict.
Fixpoint heap_set (h : heap) (a : nat) (d : dict) : heap :=
  match h, a with [], _ => [] | _ :: h', O => d :: h' | d0 :: h', S a' => d0 :: heap_set h' a' d end.
(** The module-level dictionary [LS_DEFAULT_OPTIONS] lives at address 0, its tr_options at address 1. *)
Definition ls_default_addr : nat := 0.
(** scipy_wrappers.py:588-597 *)
Definition ls_default_options : dict :=
  [("ftol", VFloat (1 / 100000000)); ("xtol", VFloat (1 / 100000000)); ("gtol", VFloat (1 / 100000000)); ("x_scale", VFloat 1);
   ("f_scale", VFloat 1); ("tr_solver", VNone); ("tr_options", VDict 1); ("max_nfev", VNone)]%string.
(** The store after importing the module. *)
Definition initial_heap : heap := [ls_default_options; []].

(** scipy_wrappers.py:404-408, the end of [ScipyMinimize.__post_init__] (also inherited by ScipyBoundedMinimize).
    The result is the address bound to self.options, or the exception; the store is returned in both cases. *)
Definition new_minimize (h : heap) (options : option nat) (maxiter : Z) : result nat * heap :=
  let '(a, h) := match options with None => (length h, h ++ [[]]) | Some a => (a, h) end in
  match nth_error h a with
  | None => (Err Unspecified, h)
  | Some d => if dict_mem d "maxiter"%string then (Err ValueError, h)
              else (Ok a, heap_set h a (dict_set d "maxiter"%string (VInt maxiter)))
  end.

(** scipy_wrappers.py:707-709: for k, v in LS_DEFAULT_OPTIONS.items(): if k not in self.options: ... *)
Fixpoint fill_missing (d : dict) (items : dict) : dict :=
  match items with [] => d | (k, v) :: r => fill_missing (if dict_mem d k then d else dict_set d k v) r end.
(** scipy_wrappers.py:715-717, the value stored under x_scale: unchanged if it is 'jac' or a float, otherwise
    converted.  Comparing an array with a string depends on the NumPy version; None and other strings are rejected
    by NumPy; both give [Unspecified]. *)
Definition convert_x_scale (v : pyval) : result pyval :=
  match v with
  | VFloat r => Ok (VFloat r)
  | VStr s => if String.eqb s "jac" then Ok (VStr s) else Err Unspecified
  | VInt z => Ok (VArr [IZR z])
  | VTree w => Ok (VArr w)
  | _ => Err Unspecified
  end.
Definition is_ls_loss (s : string) : bool :=
  existsb (String.eqb s) ["linear"; "soft_l1"; "huber"; "cauchy"; "arctan"]%string.
(** scipy_wrappers.py:701-721 [ScipyLeastSquares.__post_init__] (also inherited by ScipyBoundedLeastSquares) *)
Definition new_least_squares (h : heap) (options : option nat) (loss : string) : result nat * heap :=
  let '(a, h) :=
    match options with
    | None => (ls_default_addr, h)
    | Some a => match nth_error h a, nth_error h ls_default_addr with
                | Some d, Some items => (a, heap_set h a (fill_missing d items))
                | _, _ => (a, h)
                end
    end in
  match nth_error h a with
  | None => (Err Unspecified, h)
  | Some d =>
    match dict_get d "x_scale"%string with
    | None => (Err Unspecified, h)
    | Some v => match convert_x_scale v with
                | Err e => (Err e, h)
                | Ok v' => let h := heap_set h a (dict_set d "x_scale"%string v') in
                           if is_ls_loss loss then (Ok a, h) else (Err ValueError, h)
                end
    end
  end.

(** What a program can do with option dictionaries: create one, assign to a key (directly or through a solver's
    [options] attribute), construct solvers. *)
Inductive operation :=
| NewDict (d : dict) | SetItem (a : nat) (k : string) (v : pyval)
| NewMinimize (options : option nat) (maxiter : Z) | NewLeastSquares (options : option nat) (loss : string).
Definition operate (h : heap) (o : operation) : result nat * heap :=
  match o with
  | NewDict d => (Ok (length h), h ++ [d])
  | SetItem a k v => match nth_error h a with Some d => (Ok a, heap_set h a (dict_set d k v)) | None => (Err Unspecified, h) end
  | NewMinimize options maxiter => new_minimize h options maxiter
  | NewLeastSquares options loss => new_least_squares h options loss
  end.
(** The store after a sequence of operations (exceptions are caught by the program). *)
Definition execute (h : heap) (ops : list operation) : heap := fold_left (fun h o => snd (operate h o)) ops h.

(** ** [has_aux] wrapping *)
Section HasAux.
Variables (X Y A : Type).
(** What self.fun (self.optimality_fun) can be bound to: the caller's function returning a value, the caller's
    function returning a pair, or the wrapper of scipy_wrappers.py:711-712 (565-568), whose body reads the attribute
    again when it is called.  jax.jit does not change what is returned. *)
Inductive bound_fun := Plain (f : X -> Y) | WithAux (f : X -> Y * A) | FirstOfSelf.
(** Calling the attribute.  Python's recursion limit is [fuel]. *)
Inductive output := Value (y : Y) | Pair (y : Y) (a : A).
Fixpoint call (fuel : nat) (self_fun : bound_fun) (x : X) : result output :=
  match fuel with
  | O => Err RecursionError
  | S fuel' =>
    match self_fun with
    | Plain f => Ok (Value (f x))
    | WithAux f => let '(y, a) := f x in Ok (Pair y a)
    | FirstOfSelf => match call fuel' self_fun x with
                     | Ok (Pair y _) => Ok (Value y)
                     | Ok (Value _) => Err TypeError
                     | Err e => Err e
                     end
    end
  end.
(** scipy_wrappers.py:711-712, 565-568: the attribute after __post_init__ *)
Definition post_init_fun (has_aux : bool) (user : bound_fun) : bound_fun := if has_aux then FirstOfSelf else user.
End HasAux.
