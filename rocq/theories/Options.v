(** Option names: which strings the solvers accept, and when a wrong name is noticed.
    The numerical parts are the models of the other files; here the string options of the constructors are put in front of them. *)
From Coq Require Import String Ascii.
From Coq Require Import Reals List Bool Arith.
From Verif Require Import Prelude Vec Mat XArith Base Backtracking StochGrad QuasiNewton NonlinearCG Broyden LM Lbfgsb Osqp.
Import ListNotations.
Local Open Scope string_scope.

(** ** A run whose update and stopping test may raise *)
Section Run.
Context {V : Type}.
Variables (cond : V -> result bool) (update : V -> result V).
(** The loop: [for _ in range(n): if not cond: break; body] *)
Fixpoint checked_for (n : nat) (v : V) : result V :=
  match n with
  | O => Ok v
  | S n' => match cond v with
            | Err e => Err e
            | Ok false => Ok v
            | Ok true => match update v with Err e => Err e | Ok v' => checked_for n' v' end
            end
  end.
(** base.py:296-332 [_run] on loop.py:21-82 [while_loop].  The first update is always made, also for maxiter=0.  With jit the test and the
    body are traced once before anything is computed, so that an exception they raise for every value appears whatever the number of iterations;
    the tracing is modelled by a call at the value after the first update.  The three loops compute the same value (C01). *)
Definition checked_run (jit unroll : bool) (maxiter : nat) (init : V) : result V :=
  match update init with
  | Err e => Err e
  | Ok v =>
      if jit then
        match cond v, update v with
        | Err e, _ => Err e
        | _, Err e => Err e
        | Ok _, Ok _ => match checked_for (maxiter - 1) v with Err e => Err e | Ok w => Ok (if (maxiter =? 0)%nat then init else w) end
        end
      else if unroll then match checked_for (maxiter - 1) v with Err e => Err e | Ok w => Ok (if (maxiter =? 0)%nat then init else w) end
      else Err ValueError
  end.
End Run.
(** Construction, then what is done with the object. *)
Definition with_object {A B} (made : result A) (use : A -> result B) : result B := match made with Err e => Err e | Ok a => use a end.

(** ** Options given as a name *)
(** bfgs.py:277-300, lbfgs.py:404-424, lbfgsb.py:583-610, nonlinear_cg.py:293-316 [__post_init__]: the line search is made from its name; [search] is
    the search that object performs. *)
Section QuasiNewton.
Variables (search : ls_solver unit -> line_search) (maxls : nat) (f : vec -> R) (gradf : vec -> vec) (cfg : qn_config) (linesearch : string).
Definition bfgs_call (jit unroll : bool) (maxiter : nat) (x0 : vec) : result (vec * bfgs_state) :=
  with_object (setup_linesearch (LsName linesearch) maxls (qn_max_stepsize cfg)) (fun ls =>
    checked_run (fun s => Ok (xgtb (b_error (snd s)) (qn_tol cfg))) (bfgs_update f gradf (search ls) cfg) jit unroll maxiter (x0, bfgs_init f gradf cfg x0)).
(** The stopping tests of L-BFGS and L-BFGS-B also look at failed line searches; [test] is that test. *)
Definition lbfgs_call (test : vec * lbfgs_state -> bool) (jit unroll : bool) (maxiter : nat) (x0 : vec) : result (vec * lbfgs_state) :=
  with_object (setup_linesearch (LsName linesearch) maxls (qn_max_stepsize cfg)) (fun ls =>
    checked_run (fun s => Ok (test s)) (lbfgs_update f gradf (search ls) cfg) jit unroll maxiter (x0, lbfgs_init f gradf cfg x0)).
Definition lbfgsb_call (solve : mat -> vec -> vec) (eps theta0 : R) (bounds : option (xbounds * xbounds)) (jit unroll : bool) (maxiter : nat) (x0 : vec)
    : result (vec * lbfgsb_state) :=
  with_object (setup_linesearch (LsName linesearch) maxls (qn_max_stepsize cfg)) (fun ls =>
    checked_run (fun s => Ok (lbfgsb_cond cfg (snd s))) (lbfgsb_update solve eps f gradf (search ls) cfg theta0 bounds) jit unroll maxiter
      (x0, lbfgsb_init f gradf cfg theta0 x0 bounds)).
Definition ncg_call (ccfg : ncg_config) (jit unroll : bool) (maxiter : nat) (x0 : vec) : result (vec * ncg_state) :=
  with_object (setup_linesearch (c_linesearch ccfg) maxls (c_max_stepsize ccfg)) (fun ls =>
    checked_run (fun s => Ok (xgtb (c_error (snd s)) (c_tol ccfg))) (ncg_update (search ls) ccfg) jit unroll maxiter (x0, ncg_init f gradf ccfg x0)).
End QuasiNewton.

(** backtracking_linesearch.py:198, 223-252: the condition is compared inside [update] *)
Definition condition_named (s : string) : result ls_condition :=
  if string_dec s "armijo" then Ok Armijo
  else if string_dec s "strong-wolfe" then Ok StrongWolfe
  else if string_dec s "wolfe" then Ok Wolfe
  else if string_dec s "goldstein" then Ok Backtracking.Goldstein
  else Err ValueError.
Definition backtracking_call (name : string) (cfg : ls_condition -> bt_config) (f : vec -> xnum) (gradf : vec -> vec) (x d : vec) (value : R) (grad : vec)
    (jit unroll : bool) (maxiter : nat) (s0 : R) : result (R * bt_state) :=
  checked_run (fun s => match condition_named name with Err _ => Ok (xgtb (error (snd s)) 0) | Ok c => Ok (xgtb (error (snd s)) (tol (cfg c))) end)
    (fun s => with_object (condition_named name) (fun c => Ok (bt_update (cfg c) f gradf x d s))) jit unroll maxiter (s0, bt_init true x value grad).

(** polyak_sgd.py:214-227: the variant is compared inside [update]; None: the parameters became NaN *)
Definition variant_named (s : string) : result sps_variant :=
  if string_dec s "SPS_max" then Ok SPS_max else if string_dec s "SPS+" then Ok SPS_plus else Err NotImplementedErr.
Definition polyak_call (name : string) (cfg : sps_variant -> polyak_config) (f : vec -> R) (gradf : vec -> vec) (test : option vec * polyak_state -> bool)
    (jit unroll : bool) (maxiter : nat) (x0 : vec) (st0 : polyak_state) : result (option vec * polyak_state) :=
  checked_run (fun s => Ok (test s))
    (fun s => with_object (variant_named name) (fun v => Ok (match fst s with None => s | Some x => polyak_update (cfg v) f gradf x (snd s) end)))
    jit unroll maxiter (Some x0, st0).

(** armijo_sgd.py:341-350 [__post_init__] *)
Definition armijo_new (name : string) (aggressiveness : R) : result reset_option :=
  with_object (if string_dec name "increase" then Ok Increase
               else if string_dec name "goldstein" then Ok StochGrad.Goldstein
               else if string_dec name "conservative" then Ok Conservative
               else Err ValueError)
    (fun r => if Rle_dec aggressiveness 0 then Err ValueError else if Rle_dec 1 aggressiveness then Err ValueError else Ok r).

(** broyden.py:307-350: the name is compared inside [update], only if a line search is used *)
Definition broyden_searches (cfg : broyden_config) : bool := match by_cfg_stepsize cfg with StepFun _ => false | StepConst r => if Rle_dec r 0 then true else false end.
Definition broyden_call (name : string) (fun_ : tree -> tree) (ls : R -> tree -> tree -> by_ls_out) (cfg : broyden_config) (m : nat)
    (jit unroll : bool) (x0 : tree) (st0 : broyden_state) : result (option (tree * broyden_state)) :=
  checked_run (fun s => Ok (match s with Some (_, st) => broyden_cond cfg st | None => false end))
    (fun s => if (broyden_searches cfg && negb (String.eqb name "backtracking"))%bool then Err ValueError
              else Ok (match s with Some s => broyden_update fun_ ls cfg m s | None => None end))
    jit unroll (by_maxiter cfg) (Some (x0, st0)).

(** str.lower on ASCII letters *)
Definition lower_ascii (c : ascii) : ascii := let n := nat_of_ascii c in if ((65 <=? n) && (n <=? 90))%nat then ascii_of_nat (n + 32) else c.
Fixpoint lower_string (s : string) : string := match s with EmptyString => EmptyString | String c s' => String (lower_ascii c) (lower_string s') end.
Inductive osqp_linear := OsqpCG | OsqpCGJacobi | OsqpLU.
(** osqp.py:800-812 [BoxOSQP.__post_init__] *)
Definition osqp_linear_named (s : string) : result osqp_linear :=
  if string_dec (lower_string s) "cg" then Ok OsqpCG
  else if string_dec (lower_string s) "cg+jacobi" then Ok OsqpCGJacobi
  else if string_dec (lower_string s) "lu" then Ok OsqpLU
  else Err ValueError.

(** levenberg_marquardt.py:463-476 [__post_init__]: solver given as a callable (None) or as a name *)
Definition lm_solver_named (s : option string) : result lm_solver :=
  match s with
  | None => Ok SCallable
  | Some s => if string_dec s "cholesky" then Ok SCholesky else if string_dec s "lu" then Ok SLu else if string_dec s "qr" then Ok SQr
              else if string_dec s "inv" then Ok SInv else Err NotImplementedErr
  end.
(** A run with stop_criterion [lm_stop cfg], for whatever update the other options give *)
Definition lm_call (update : xvec * lm_state -> xvec * lm_state) (cfg : lm_config) (jit unroll : bool) (maxiter : nat) (x0 : xvec) (st0 : lm_state)
    : result (xvec * lm_state) :=
  checked_run (lm_cond cfg) (fun s => Ok (update s)) jit unroll maxiter (x0, st0).

(** ** Options that are "auto" or a boolean *)
Inductive auto_or := Str (s : string) | Boolean (b : bool).
(** The truth value Python gives to the option *)
Definition truthy (v : auto_or) : bool := match v with Str s => negb (String.eqb s "") | Boolean b => b end.
Definition is_auto (v : auto_or) : bool := match v with Str s => String.eqb s "auto" | Boolean _ => false end.
(** base.py:256-262 [_get_unroll_option], and the use in loop.py:66 [if unroll] *)
Definition unroll_value (v : auto_or) (implicit_diff jit : bool) : bool := if is_auto v then (negb implicit_diff || negb jit)%bool else truthy v.
(** osqp.py:814-815 and its use in osqp.py:598 [if self.check_primal_dual_infeasability] *)
Definition check_value (v : auto_or) (jit : bool) : bool := if is_auto v then negb jit else truthy v.

(** ** Specification: the documented names *)
Definition linesearch_names : list string := ["backtracking"; "zoom"; "hager-zhang"].
Definition strategy_names : list string := ["max"; "current"; "increase"].
Definition method_names : list string := ["polak-ribiere"; "fletcher-reeves"; "hestenes-stiefel"].
Definition condition_names : list string := ["armijo"; "goldstein"; "strong-wolfe"; "wolfe"].
Definition variant_names : list string := ["SPS_max"; "SPS+"].
Definition reset_names : list string := ["conservative"; "increase"; "goldstein"].
Definition lm_solver_names : list string := ["cholesky"; "lu"; "qr"; "inv"].
Definition lm_stop_names : list string := ["madsen-nielsen"; "grad-l2-norm"].
(** levenberg_marquardt.py:99-103: the names in the documentation of stop_criterion *)
Definition lm_stop_documented : list string := ["madsen-nielsen"; "grad-l2"].
(** a documented "auto or boolean" value *)
Definition documented_auto (v : auto_or) : Prop := v = Str "auto" \/ exists b, v = Boolean b.
(** [r] is an exception, not an answer *)
Definition raises {A} (r : result A) : Prop := exists e, r = Err e.
