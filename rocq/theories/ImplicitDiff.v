(** Model of implicit_diff.py: root_jvp, root_vjp (C38) and the argument binding of custom_root (C39). *)
From Coq Require Import String Reals List Lra Lia Bool Arith Permutation.
From Verif Require Import Prelude Vec Mat LinAlg LinSolve.
Import ListNotations.
Open Scope R_scope.

(** ** Derivatives of roots
    At the point (sol, args): D1 is the Jacobian of optimality_fun in its first argument, D2 the
    list of its Jacobians in the others, which is what jax.jvp and jax.vjp apply. *)
(** implicit_diff.py:87-92 [_jvp_args]: sum of the partial derivatives *)
Definition jvp_args (n : nat) (D2 : list mat) (tangents : list vec) : vec :=
  fold_right (fun Mt acc => vadd (mvec (fst Mt) (snd Mt)) acc) (vzero n) (combine D2 tangents).
(** implicit_diff.py:94-121 [root_jvp]; [solve] gets the matvec and the right-hand side *)
Definition root_jvp (solve : (vec -> vec) -> vec -> vec) (n : nat) (D1 : mat) (D2 : list mat) (tangents : list vec) : result vec :=
  if Nat.eq_dec (length D2) (length tangents) then
    let matvec := mvec D1 in
    let v := map (smul (-1)) tangents in
    let Jv := jvp_args n D2 v in
    Ok (solve matvec Jv)
  else Err ValueError.
(** implicit_diff.py:33-76 [root_vjp]; ps are the sizes of the arguments *)
Definition root_vjp (solve : (vec -> vec) -> vec -> vec) (n : nat) (D1 : mat) (D2 : list mat) (ps : list nat) (cotangent : vec) : list vec :=
  let matvec := tvec n D1 in
  let v := smul (-1) cotangent in
  let u := solve matvec v in
  map (fun pM => tvec (fst pM) (snd pM) u) (combine ps D2).
(** implicit_diff.py:318-319 [custom_fixed_point]: optimality_fun = T(params, args) - params *)
Definition fixed_point_optimality (T : vec -> list vec -> vec) (x : vec) (args : list vec) : vec := vsub (T x args) x.
Definition fixed_point_D1 (n : nat) (J1 : mat) : mat := msub J1 (eye n).

(** The default solve = linear_solve.solve_normal_cg (implicit_diff.py:37, 98), which gets a
    function; LinSolve.v models it on the matrix of that function. *)
Definition normal_cg_solver (cg : (vec -> vec) -> vec -> option vec -> vec) (n : nat) (matvec : vec -> vec) (b : vec) : vec :=
  match solve_normal_cg cg n (materialize_array matvec n) b None None with Ok x => x | Err _ => [] end.
(** *** Specification *)
Definition args_ok (ps : list nat) (args : list vec) : Prop := Forall2 (fun p (a : vec) => length a = p) ps args.
Definition jac_ok (n : nat) (ps : list nat) (D2 : list mat) : Prop := Forall2 (fun p M => mat_shape n p M) ps D2.
Definition args_sub (a b : list vec) : list vec := map (fun ab => vsub (fst ab) (snd ab)) (combine a b).
(** args + t v *)
Definition args_move (args : list vec) (t : R) (v : list vec) : list vec :=
  map (fun av => vadd (fst av) (smul t (snd av))) (combine args v).
(** F is differentiable at (sol, args), with partial Jacobians D1 and D2 *)
Definition frechet (n : nat) (ps : list nat) (F : vec -> list vec -> vec) (sol : vec) (args : list vec) (D1 : mat) (D2 : list mat) : Prop :=
  forall eps, 0 < eps -> exists delta, 0 < delta /\
    forall x args', length x = n -> args_ok ps args' ->
      norm2 (vsub x sol) < delta -> norm2 (concat (args_sub args' args)) < delta ->
      norm2 (vsub (F x args') (vadd (F sol args) (vadd (mvec D1 (vsub x sol)) (jvp_args n D2 (args_sub args' args)))))
        <= eps * (norm2 (vsub x sol) + norm2 (concat (args_sub args' args))).
(** the curve x has derivative x' at 0 *)
Definition curve_derivative (x : R -> vec) (x' : vec) : Prop :=
  forall eps, 0 < eps -> exists delta, 0 < delta /\
    forall t, Rabs t < delta -> norm2 (vsub (vsub (x t) (x 0)) (smul t x')) <= eps * Rabs t.
Definition continuous_at_0 (x : R -> vec) : Prop :=
  forall eps, 0 < eps -> exists delta, 0 < delta /\ forall t, Rabs t < delta -> norm2 (vsub (x t) (x 0)) < eps.
(** the linear solver solves the systems with this matrix *)
Definition solves_with (solve : (vec -> vec) -> vec -> vec) (n : nat) (f : vec -> vec) : Prop :=
  forall b, length b = n -> length (solve f b) = n /\ f (solve f b) = b.
Definition total_dot (xs ys : list vec) : R := fold_right (fun xy acc => dot (fst xy) (snd xy) + acc) 0 (combine xs ys).

(** ** Argument binding *)
(** inspect.Parameter; positional-only parameters are not modelled *)
Inductive pkind := PosOrKw | VarPos | KwOnly | VarKw.
Record param (V : Type) := { p_name : string; p_kind : pkind; p_default : option V }.
Arguments p_name {V}. Arguments p_kind {V}. Arguments p_default {V}.
(** what inspect.Signature.bind stores for one parameter (Absent: not in [arguments]) *)
Inductive bound (V : Type) := Absent | One (v : V) | Many (vs : list V) | Dict (kvs : list (string * V)).
Arguments Absent {V}. Arguments One {V}. Arguments Many {V}. Arguments Dict {V}.

Section Bind.
Context {V D : Type}.   (* values; defaults *)
Definition kwargs_t := list (string * V).
Fixpoint lookup (k : string) (kw : kwargs_t) : option V :=
  match kw with [] => None | (k', v) :: kw' => if string_dec k k' then Some v else lookup k kw' end.
Fixpoint remove_key (k : string) (kw : kwargs_t) : kwargs_t :=
  match kw with [] => [] | (k', v) :: kw' => if string_dec k k' then kw' else (k', v) :: remove_key k kw' end.

(** The keyword phase of CPython's inspect.Signature._bind: parameters not reached by a positional
    argument. *)
Fixpoint bind_kw (ps : list (param D)) (kw : kwargs_t) : result (list (param D * bound V)) :=
  match ps with
  | [] => match kw with [] => Ok [] | _ => Err TypeError end
  | p :: ps' =>
      match p_kind p with
      | VarPos => match bind_kw ps' kw with Ok r => Ok ((p, Absent) :: r) | Err e => Err e end
      | VarKw =>   (* collects what is left; always the last parameter *)
          match ps' with
          | [] => Ok [(p, match kw with [] => Absent | _ => Dict kw end)]
          | _ => Err ValueError
          end
      | _ =>
          match lookup (p_name p) kw with
          | Some v => match bind_kw ps' (remove_key (p_name p) kw) with Ok r => Ok ((p, One v) :: r) | Err e => Err e end
          | None => match p_default p with
                    | Some _ => match bind_kw ps' kw with Ok r => Ok ((p, Absent) :: r) | Err e => Err e end
                    | None => Err TypeError
                    end
          end
      end
  end.
(** The positional phase. *)
Fixpoint bind (ps : list (param D)) (args : list V) (kw : kwargs_t) : result (list (param D * bound V)) :=
  match args with
  | [] => bind_kw ps kw
  | a :: args' =>
      match ps with
      | [] => Err TypeError
      | p :: ps' =>
          match p_kind p with
          | VarKw | KwOnly => Err TypeError
          | VarPos => match bind_kw ps' kw with Ok r => Ok ((p, Many (a :: args')) :: r) | Err e => Err e end
          | PosOrKw =>
              match lookup (p_name p) kw with
              | Some _ => Err TypeError
              | None => match bind ps' args' kw with Ok r => Ok ((p, One a) :: r) | Err e => Err e end
              end
          end
      end
  end.
(** inspect.BoundArguments.args *)
Fixpoint ba_args (b : list (param D * bound V)) : list V :=
  match b with
  | [] => []
  | (p, x) :: b' =>
      match p_kind p with
      | VarKw | KwOnly => []
      | _ => match x with
             | Absent => []
             | One v => v :: ba_args b'
             | Many vs => vs ++ ba_args b'
             | Dict _ => []
             end
      end
  end.
(** inspect.BoundArguments.kwargs: everything after the point where [args] stops *)
Definition one_kw (p : param D) (x : bound V) : kwargs_t :=
  match x with
  | Absent => []
  | One v => [(p_name p, v)]
  | Many _ => []       (* a *args tuple is never reached here *)
  | Dict kvs => kvs
  end.
Fixpoint ba_kwargs (started : bool) (b : list (param D * bound V)) : kwargs_t :=
  match b with
  | [] => []
  | (p, x) :: b' =>
      if started then one_kw p x ++ ba_kwargs true b'
      else match p_kind p with
           | VarKw | KwOnly => one_kw p x ++ ba_kwargs true b'
           | _ => match x with
                  | Absent => ba_kwargs true b'
                  | _ => ba_kwargs false b'
                  end
           end
  end.
End Bind.

(** inspect.BoundArguments.apply_defaults *)
Definition apply_defaults {V} (b : list (param V * bound V)) : list (param V * bound V) :=
  map (fun px => let '(p, x) := px in
    match x with
    | Absent => (p, match p_kind p with
                    | VarPos => Many []
                    | VarKw => Dict []
                    | _ => match p_default p with Some v => One v | None => Absent end
                    end)
    | _ => (p, x)
    end) b.
(** implicit_diff.py:131-134 [_signature_bind] *)
Definition signature_bind {V} (sig : list (param V)) (args : list V) (kw : list (string * V)) : result (list V * list (string * V)) :=
  match bind sig args kw with
  | Ok b => let b := apply_defaults b in Ok (ba_args b, ba_kwargs false b)
  | Err e => Err e
  end.

(** implicit_diff.py:142-154: the tag (was_kwarg, ref) of an argument *)
Inductive tag := TagPos (i : nat) | TagKw (k : string).
Definition tag_args {V} (args : list V) : list (tag * V) := combine (map TagPos (seq 0 (length args))) args.
Definition tag_kwargs {V} (kw : list (string * V)) : list (string * (tag * V)) := map (fun kv => (fst kv, (TagKw (fst kv), snd kv))) kw.
(** Python list assignment src_args[ref] = x, dict assignment src_kwargs[ref] = x *)
Fixpoint list_set {T} (l : list T) (i : nat) (x : T) : list T :=
  match l, i with [], _ => [] | _ :: l', O => x :: l' | a :: l', S i' => a :: list_set l' i' x end.
Definition dict_set {T} (d : list (string * T)) (k : string) (x : T) : list (string * T) := (k, x) :: d.
(** implicit_diff.py:156-164 [map_back] *)
Definition map_back {G} (n : nat) (mapping : list tag) (out_args : list G) : list (option G) * list (string * G) :=
  fold_left (fun acc rx => let '(src_args, src_kwargs) := acc in
    match rx with
    | (TagKw k, x) => (src_args, dict_set src_kwargs k x)
    | (TagPos i, x) => (list_set src_args i (Some x), src_kwargs)
    end) (combine mapping out_args) (repeat None n, []).
(** implicit_diff.py:137-168 [_signature_bind_and_match] *)
Definition signature_bind_and_match {V D} (sig : list (param D)) (args : list V) (kw : list (string * V))
  : result (list V * list (string * V) * list tag) :=
  match bind sig (tag_args args) (tag_kwargs kw) with
  | Err e => Err e
  | Ok b =>
      let ba := ba_args b in
      let mapping := map fst ba in
      let out_args := map snd ba in
      let out_kwargs := map (fun kv => (fst kv, snd (snd kv))) (ba_kwargs false b) in
      Ok (out_args, out_kwargs, mapping)
  end.
(** implicit_diff.py:124-128 [_extract_kwargs] *)
Definition extract_kwargs {V} (keys : list string) (flat_args : list V) : list V * list (string * V) :=
  let n := (length flat_args - length keys)%nat in
  (firstn n flat_args, combine keys (skipn n flat_args)).
(** implicit_diff.py:213-243 [solver_fun_bwd].  [vjp] is root_vjp as a function of the arguments
    ba_args[1:]; None is the gradient of init_params. *)
Definition solver_fun_bwd {V G D} (ref_sig : list (param D)) (vjp : list V -> list G) (keys : list string) (flat_args : list V)
  : result (list (option G)) :=
  let '(args, kwargs) := extract_kwargs keys flat_args in
  match signature_bind_and_match ref_sig args kwargs with
  | Err e => Err e
  | Ok (out_args, out_kwargs, mapping) =>
      match out_kwargs with
      | _ :: _ => Err TypeError
      | [] =>
          let vjps := None :: map Some (vjp (tl out_args)) in
          let '(arg_vjps, kws_vjps) := map_back (length args) mapping vjps in
          let get k := match lookup k kws_vjps with Some g => g | None => None end in
          (* kws_vjps[k] is a KeyError for a missing key *)
          if forallb (fun k => match lookup k kws_vjps with Some _ => true | None => false end) (map fst kwargs) then
            Ok (map (fun o => match o with Some g => g | None => None end) arg_vjps ++ map get (map fst kwargs))
          else Err Unspecified
      end
  end.

(** implicit_diff.py:248-251 [wrapped_solver_fun], forward: what custom_vjp's flat function calls
    solver_fun with, as a function of what the user wrote. *)
Definition wrapped_call {V} (solver_sig : list (param V)) (args : list V) (kw : list (string * V)) : result (list V * list (string * V)) :=
  match signature_bind solver_sig args kw with
  | Err e => Err e
  | Ok (args, kwargs) => let keys := map fst kwargs in let vals := map snd kwargs in Ok (extract_kwargs keys (args ++ vals))
  end.
(** *** Specification *)
(** A Python signature: distinct names; PosOrKw parameters, then at most one *args, then
    keyword-only ones, then at most one **kwargs. *)
Definition kind_rank (k : pkind) : nat := match k with PosOrKw => 0 | VarPos => 1 | KwOnly => 2 | VarKw => 3 end.
Fixpoint kinds_ok (ks : list pkind) : Prop :=
  match ks with
  | [] => True
  | k :: ks' => Forall (fun k' => kind_rank k <= kind_rank k' /\ (k = VarPos -> k' <> VarPos) /\ (k = VarKw -> False))%nat ks' /\ kinds_ok ks'
  end.
Definition sig_ok {D} (sig : list (param D)) : Prop := NoDup (map p_name sig) /\ kinds_ok (map p_kind sig).
(** When a call can be differentiated: the positional arguments go to the first parameters (or
    overflow into *args), the keyword arguments are exactly the next ones in any order, and all
    other parameters may be omitted. *)
Definition optional_param {D} (p : param D) : Prop := match p_kind p with PosOrKw | KwOnly => p_default p <> None | VarPos | VarKw => True end.
Definition resolvable {D} (sig : list (param D)) (nargs : nat) (keys : list string) : Prop :=
  exists ps1 ps2 ps3, sig = ps1 ++ ps2 ++ ps3 /\ Forall (fun p => p_kind p = PosOrKw) (ps1 ++ ps2) /\
    Permutation keys (map p_name ps2) /\ Forall optional_param ps3 /\
    (length ps1 = nargs \/ (length ps1 < nargs /\ keys = [] /\ exists p ps3', ps3 = p :: ps3' /\ p_kind p = VarPos))%nat.
