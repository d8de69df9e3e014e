(** Model of jaxopt/_src/linear_operator.py and of the parts of jaxopt/_src/osqp.py built on it: the solvers of the inner
    linear system, the choice of solver, the optimality function of BoxOSQP and the matvecs of OSQP. *)
From Coq Require Import String Ascii.
From Coq Require Import Reals List Bool Arith Lra Lia.
From Verif Require Import Prelude Vec Mat LinAlg Pytree XArith Kkt LinSolve Osqp.
Import ListNotations.
Open Scope R_scope.

(** A 2-D array: its rows, and its number of columns (also known when there are no rows). *)
Record matrix := { ncols : nat; ment : mat }.
(** jnp.dot(w, x) and jnp.dot(w.T, y) for a matrix and a vector: TypeError if the contracted sizes differ *)
Definition jdot (w : matrix) (x : vec) : result vec := if Nat.eqb (length x) (ncols w) then Ok (mvec (ment w) x) else Err TypeError.
Definition jdot_t (w : matrix) (y : vec) : result vec := if Nat.eqb (length y) (length (ment w)) then Ok (tvec (ncols w) (ment w) y) else Err TypeError.
(** a function of arrays given a container raises TypeError *)
Definition on_leaf {A B C} (f : A -> B -> result C) (a : A) (t : tree B) : result C := match t with Leaf b => f a b | Node _ _ => Err TypeError end.

(** ** linear_operator.py:23-61 [DenseLinearOperator] *)
(** 38-39 *)
Definition dense_matvec (W : tree matrix) (x : tree vec) : result (tree vec) := tree_map2 (on_leaf jdot) W x.
(** 41-42 *)
Definition dense_rmatvec (W : tree matrix) (y : tree vec) : result (tree vec) := tree_map2 (on_leaf jdot_t) W y.
(** 44-45 *)
Definition dense_matvec_and_rmatvec (W : tree matrix) (x y : tree vec) : result (tree vec * tree vec) :=
  match dense_matvec W x, dense_rmatvec W y with Ok a, Ok b => Ok (a, b) | Err e, _ => Err e | _, Err e => Err e end.
(** 47-49 *)
Definition dense_normal_matvec (W : tree matrix) (x : tree vec) : result (tree vec) :=
  match dense_matvec W x with Ok y => dense_rmatvec W y | Err e => Err e end.
(** 51-53; jnp.diag *)
Definition diagonal (w : matrix) : vec := map (fun i => entry (ment w) i i) (seq 0 (Nat.min (length (ment w)) (ncols w))).
Definition dense_diag (W : tree matrix) : result (tree vec) := tree_map1 (fun w => Ok (diagonal w)) W.
(** 55-61 *)
Definition col_norms (squared : bool) (w : matrix) : vec :=
  map (fun j => let s := vsum (map (fun r => nth j r 0 * nth j r 0) (ment w)) in if squared then s else sqrt s) (seq 0 (ncols w)).
Definition dense_columns_l2_norms (squared : bool) (W : tree matrix) : result (tree vec) := tree_map1 (fun w => Ok (col_norms squared w)) W.

(** ** linear_operator.py:64-86 [FunctionalLinearOperator], one leaf.  [f] is fun with its params bound, [vjp x] the function
    returned by jax.vjp(f, x). *)
Section Functional.
Variable f : vec -> vec.
Variable vjp : vec -> vec -> vec.
Definition fun_matvec_op (x : vec) : vec := f x.
Definition fun_matvec_and_rmatvec (x y : vec) : vec * vec := (f x, vjp x y).
Definition fun_rmatvec (x y : vec) : vec := snd (fun_matvec_and_rmatvec x y).
Definition fun_normal_matvec (x : vec) : vec := vjp x (f x).
End Functional.
(** 89-93 [_make_linear_operator]: matrices without a matvec, a matvec with its parameters otherwise *)
Inductive operator := Dense (W : tree matrix) | Functional (f : vec -> vec).
Definition make_linear_operator (matvec : option (tree matrix -> vec -> vec)) (params : tree matrix) : operator :=
  match matvec with None => Dense params | Some f => Functional (f params) end.

(** ** osqp.py:179-256 [OSQPIndirectSolver] *)
(** 200-211 [_init_state_precond] *)
Definition init_state_precond (jacobi : bool) (Q A : operator) : result (option (tree vec * tree vec)) :=
  if negb jacobi then Ok None
  else match Q, A with
  | Dense Q, Dense A =>
      match dense_diag Q, dense_columns_l2_norms true A with Ok d, Ok n => Ok (Some (d, n)) | Err e, _ => Err e | _, Err e => Err e end
  | _, _ => Err ValueError
  end.
(** 213-222 [_matvec_precond]; state_precond is None when the option is off *)
Definition arr_op (op : R -> R -> R) (a b : vec) : result vec := if Nat.eqb (length a) (length b) then Ok (zip_with op a b) else Err TypeError.
Definition matvec_precond (state : option (tree vec * tree vec)) (sigma rho : R) (x : tree vec) : result (tree vec) :=
  match state with
  | None => Ok x
  | Some (pQ, pA) =>
      match tree_map2 (on_leaf (arr_op (fun a b => a + rho * b))) pQ pA with
      | Err e => Err e
      | Ok d =>
          match tree_map2 (on_leaf (fun (a : vec) (s : R) => Ok (map (fun t => t + s) a))) d (Leaf sigma) with
          | Err e => Err e
          | Ok d => match tree_map1 (fun d => Ok (map (fun t => 1 / t) d)) d with
                    | Err e => Err e
                    | Ok inv => tree_map2 (on_leaf (arr_op Rmult)) inv x
                    end
          end
      end
  end.
(** 245-248 [matvec_A]: the operator given to the indirect solver, one leaf *)
Definition indirect_matvec (Qop : vec -> vec) (normal_A : vec -> vec) (sigma rho : R) (x : vec) : vec :=
  vadd (vadd (Qop x) (smul sigma x)) (smul rho (normal_A x)).
(** 224-230: the state keeps the parameters; a new step size replaces rho only (prev_sol, params, state_precond) *)
Record indirect_state := { is_prev : tree vec; is_Q : operator; is_A : operator; is_sigma : R; is_rho : R; is_precond : option (tree vec * tree vec) }.
Definition indirect_init (jacobi : bool) (x : tree vec) (Q A : operator) (sigma rho : R) : result indirect_state :=
  match init_state_precond jacobi Q A with
  | Err e => Err e
  | Ok p => Ok {| is_prev := x; is_Q := Q; is_A := A; is_sigma := sigma; is_rho := rho; is_precond := p |}
  end.
Definition indirect_update_stepsize (s : indirect_state) (rho : R) : indirect_state :=
  {| is_prev := is_prev s; is_Q := is_Q s; is_A := is_A s; is_sigma := is_sigma s; is_rho := rho; is_precond := is_precond s |}.
(** 252: M given to the solver *)
Definition indirect_precond (s : indirect_state) (x : tree vec) : result (tree vec) := matvec_precond (is_precond s) (is_sigma s) (is_rho s) x.

(** 232-256 [run], one leaf: [solve] is linear_solve.solve_cg with its tolerances (LinSolve.v), warm-started at prev_sol, which
    the new state keeps.  Q and A^T A are given by their actions. *)
Definition indirect_run (solve : (vec -> vec) -> vec -> option vec -> vec) (Qop normal_A : vec -> vec) (sigma rho : R) (prev b : vec) : vec :=
  solve (indirect_matvec Qop normal_A sigma rho) b (Some prev).
(** 241-242: the absolute tolerance given to the solver *)
Definition indirect_atol (primal_inf dual_inf : R) : R := 15 / 100 * sqrt (primal_inf * dual_inf).

(** ** osqp.py:259-295 [OSQPLUSolver] *)
(** 266-267 *)
Definition system_matrix (Q A : matrix) (sigma rho : R) : mat :=
  madd (madd (ment Q) (msmul sigma (eye (length (ment Q))))) (msmul rho (mmul (ncols A) (mtrans (ncols A) (ment A)) (ment A))).
Section LU.
Variable factors : Type.
Variable lu_factor : mat -> factors.
Variable lu_solve : factors -> vec -> vec.
(** 266-272: the shapes must agree for the sum *)
Definition lu_factor_dense (sigma rho : R) (Q A : matrix) : result factors :=
  if (Nat.eqb (length (ment Q)) (ncols Q) && Nat.eqb (ncols A) (ncols Q))%bool then Ok (lu_factor (system_matrix Q A sigma rho)) else Err TypeError.
Definition lu_factor_pytree (Q A : tree matrix) (sigma rho : R) : result (tree factors) := tree_map2 (on_leaf (lu_factor_dense sigma rho)) Q A.
(** 274-281: (params_Q, params_A, sigma), lu_factors *)
Record lu_state := { lu_Q : tree matrix; lu_A : tree matrix; lu_sigma : R; lu_fact : tree factors }.
Definition lu_init (Q A : tree matrix) (sigma rho : R) : result lu_state :=
  match lu_factor_pytree Q A sigma rho with Ok l => Ok {| lu_Q := Q; lu_A := A; lu_sigma := sigma; lu_fact := l |} | Err e => Err e end.
Definition lu_update_stepsize (s : lu_state) (rho : R) : result lu_state :=
  match lu_factor_pytree (lu_Q s) (lu_A s) (lu_sigma s) rho with
  | Ok l => Ok {| lu_Q := lu_Q s; lu_A := lu_A s; lu_sigma := lu_sigma s; lu_fact := l |}
  | Err e => Err e
  end.
(** 283-294; lu_factors as leaves: b is a prefix of it *)
Definition lu_run (b : tree vec) (s : lu_state) : result (tree vec) :=
  tree_map2 (on_leaf (fun b l => Ok (lu_solve l b))) b (lu_fact s).
(** the same as the linear solver of the BoxOSQP model (Osqp.v), one leaf: rho and the right-hand side are extended numbers *)
Definition finite_list (b : xvec) : option vec :=
  fold_right (fun a o => match a, o with Fin r, Some v => Some (r :: v) | _, _ => None end) (Some []) b.
Definition lu_lin_solve (Q A : matrix) (sigma : R) (rho : xnum) (prev b : xvec) : xvec :=
  match rho, finite_list b with
  | Fin r, Some v =>
      match lu_init (Leaf Q) (Leaf A) sigma r with
      | Ok s => match lu_run (Leaf v) s with Ok (Leaf x) => fin x | _ => repeat NaN (length b) end
      | Err _ => repeat NaN (length b)
      end
  | _, _ => repeat NaN (length b)
  end.
End LU.

(** ** osqp.py:781-817 [BoxOSQP.__post_init__] *)
Inductive inner_solver := InnerCG (jacobi : bool) | InnerLU.
Definition lower_ascii (a : ascii) : ascii :=
  let n := nat_of_ascii a in if (Nat.leb 65 n && Nat.leb n 90)%bool then ascii_of_nat (n + 32) else a.
Fixpoint str_lower (s : string) : string :=
  match s with EmptyString => EmptyString | String a s' => String (lower_ascii a) (str_lower s') end.
(** check: None is "auto" *)
Definition box_post_init (fun_given matvec_Q_given : bool) (eq_qp_solve : string) (check : option bool) (jit : bool) : result (inner_solver * bool) :=
  if (fun_given && matvec_Q_given)%bool then Err ValueError
  else
    let s := str_lower eq_qp_solve in
    let check' := match check with Some b => b | None => negb jit end in
    if String.eqb s "cg"%string then Ok (InnerCG false, check')
    else if String.eqb s "cg+jacobi"%string then Ok (InnerCG true, check')
    else if String.eqb s "lu"%string then Ok (InnerLU, check')
    else Err ValueError.

(** osqp.py:453-461: the state of the inner solver at the start, for params_Q, params_A *)
Section Inner.
Variable factors : Type.
Variable lu_factor : mat -> factors.
Definition inner_init (k : inner_solver) (matvec_Q matvec_A : option (tree matrix -> vec -> vec)) (x : tree vec) (Q A : tree matrix) (sigma rho : R) : result (indirect_state + lu_state factors) :=
  match k with
  | InnerCG jacobi => match indirect_init jacobi x (make_linear_operator matvec_Q Q) (make_linear_operator matvec_A A) sigma rho with Ok s => Ok (inl s) | Err e => Err e end
  | InnerLU => match lu_init factors lu_factor Q A sigma rho with Ok s => Ok (inr s) | Err e => Err e end
  end.
End Inner.

(** ** osqp.py:78-121 [_make_osqp_optimality_fun], fun = None, one leaf: primal variable (x, z) as x ++ z, derivatives as JAX
    computes them (the gradient of 1/2 x'Qx is 1/2 (Q + Q')x; tree_where passes the derivative of the selected branch) *)
Definition xreal0 (a : xnum) : R := match a with Fin r => r | _ => 0 end.
Definition bounded (a : xnum) : bool := match a with Fin _ => true | _ => false end.
Definition mask_rows (n m : nat) (sgn : R) (mask : list bool) : mat :=
  map (fun i => vzero n ++ smul (if nth i mask false then sgn else 0) (unit_vec m i)) (seq 0 m).
Definition box_kkt_problem (n m : nat) (Q : mat) (c : vec) (A : mat) (l u : xvec) : kkt_problem :=
  {| obj_grad := fun p => let x := firstn n p in vadd (smul (1 / 2) (vadd (mvec Q x) (tvec n Q x))) c ++ vzero m;
     eq_fun := fun p => vsub (mvec A (firstn n p)) (skipn n p);
     eq_jac := fun _ => map (fun i => nth i A [] ++ smul (-1) (unit_vec m i)) (seq 0 m);
     ineq_fun := fun p => let z := skipn n p in
       map (fun i => if bounded (nth i u NaN) then nth i z 0 - xreal0 (nth i u NaN) else 0) (seq 0 m) ++
       map (fun i => if bounded (nth i l NaN) then xreal0 (nth i l NaN) - nth i z 0 else 0) (seq 0 m);
     ineq_jac := fun _ => mask_rows n m 1 (map bounded u) ++ mask_rows n m (-1) (map bounded l) |}.
(** the optimality function at KKTSolution((x, z), y, (mu, phi)) *)
Definition box_optimality (n m : nat) (Q : mat) (c : vec) (A : mat) (l u : xvec) (x z y mu phi : vec) : kkt_solution :=
  kkt_optimality (n + m) (box_kkt_problem n m Q c A l u) {| primal := x ++ z; dual_eq := Some y; dual_ineq := Some (mu ++ phi) |}.
(** fun given (osqp.py:103): obj_fun = fun is applied to primal_var, the pair (x, z), while the algorithm (786-796, and
    extract_Qc_from_obj) applies it to x.  [arg] is what Python passes. *)
Inductive arg := AArray (x : vec) | APair (x z : vec).
Definition box_optimality_objective (f : arg -> result R) (x z : vec) : result R := f (APair x z).
Definition box_algorithm_objective (f : arg -> result R) (x z : vec) : result R := f (AArray x).

(** ** osqp.py:824-842 [OSQP_to_BoxOSQP.transform_matvec], one leaf per block; None: no matvec, or no parameters *)
Definition matvec_A_box {P} (matvec_A matvec_G : option (P -> vec -> vec)) : option (option (P * matrix) -> option (P * matrix) -> vec -> result (list vec)) :=
  match matvec_A, matvec_G with
  | None, None => None
  | _, _ => Some (fun params_A params_G x =>
      let one (mv : option (P -> vec -> vec)) (p : option (P * matrix)) : result (list vec) :=
        match mv, p with
        | Some f, Some (q, _) => Ok [f q x]
        | Some f, None => Err Unspecified          (* the user's matvec is called on None *)
        | None, Some (_, w) => match jdot w x with Ok v => Ok [v] | Err e => Err e end
        | None, None => Ok []
        end in
      match one matvec_A params_A, one matvec_G params_G with
      | Ok a, Ok g => Ok (a ++ g) | Err e, _ => Err e | _, Err e => Err e end)
  end.

(** ** Specification *)
Definition matrix_ok (w : matrix) : Prop := mat_shape (length (ment w)) (ncols w) (ment w).
(** x in the domain of W, y in its codomain: same containers, and sizes of the leaves *)
Definition domain_of (W : tree matrix) (x : tree vec) : Prop := structure W = structure x /\ Forall2 (fun w v => length v = ncols w) (leaves W) (leaves x).
Definition codomain_of (W : tree matrix) (y : tree vec) : Prop := structure W = structure y /\ Forall2 (fun w v => length v = length (ment w)) (leaves W) (leaves y).
(** inner product of trees *)
Definition inner (s t : tree vec) : R := vsum (zip_with dot (leaves s) (leaves t)).
(** f is linear from R^n to R^m *)
Definition linear_map (n m : nat) (f : vec -> vec) : Prop :=
  (forall x, length x = n -> length (f x) = m) /\
  (forall x y, length x = n -> length y = n -> f (vadd x y) = vadd (f x) (f y)) /\ (forall a x, length x = n -> f (smul a x) = smul a (f x)).
(** vjp is the transposed derivative of f: <vjp x y, v> = d/dt <y, f (x + t v)> *)
Definition is_vjp (n m : nat) (f : vec -> vec) (vjp : vec -> vec -> vec) : Prop :=
  forall x y, length x = n -> length y = m -> length (vjp x y) = n /\
    forall v, length v = n -> derivable_pt_lim (fun t => dot y (f (vadd x (smul t v)))) 0 (dot (vjp x y) v).
(** the system of BoxOSQP on trees: leaf by leaf, Q s + sigma s + rho A'A s = b *)
Definition solves_system (Q A : tree matrix) (sigma rho : R) (s b : tree vec) : Prop :=
  exists qs nas, dense_matvec Q s = Ok qs /\ dense_normal_matvec A s = Ok nas /\ structure s = structure b /\
    zip_with vadd (zip_with vadd (leaves qs) (map (smul sigma) (leaves s))) (map (smul rho) (leaves nas)) = leaves b.
(** Q_i symmetric positive semidefinite, A_i with as many columns *)
Definition quadratic_blocks (Q A : tree matrix) : Prop :=
  structure Q = structure A /\ Forall2 (fun q a => mat_shape (ncols q) (ncols q) (ment q) /\ symmetric (ncols q) (ment q) /\ psd (ncols q) (ment q) /\
    matrix_ok a /\ ncols a = ncols q) (leaves Q) (leaves A).
(** the states after a history of step sizes *)
Definition indirect_history (s : indirect_state) (rhos : list R) : indirect_state := fold_left indirect_update_stepsize rhos s.
Definition lu_history {F} (lu_factor : mat -> F) (r : result (lu_state F)) (rhos : list R) : result (lu_state F) :=
  fold_left (fun r rho => match r with Ok s => lu_update_stepsize F lu_factor s rho | Err e => Err e end) rhos r.
(** a factorisation that solves every nonsingular system (in exact arithmetic) *)
Definition lu_exact {F} (lu_factor : mat -> F) (lu_solve : F -> vec -> vec) : Prop := exact_solver (fun M b => lu_solve (lu_factor M) b).
(** the solver as BoxOSQP calls it on extended numbers (Osqp.v): NaN for numbers that are not finite, a zero warm start if
    the previous solution is not usable *)
Definition on_finite (solve : R -> vec -> vec -> vec) (rho : xnum) (prev b : xvec) : xvec :=
  match rho, finite_list b with
  | Fin r, Some v => fin (solve r (match finite_list prev with Some p => if Nat.eqb (length p) (length v) then p else vzero (length v) | None => vzero (length v) end) v)
  | _, _ => repeat NaN (length b)
  end.
