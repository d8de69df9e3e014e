(** Model of levenberg_marquardt.py, on extended numbers (params is one 1-d array; aux omitted).
    The residual function, its derivative operators and the linear-algebra routines are parameters. *)
From Coq Require Import String.
From Coq Require Import Reals List Lra Lia Bool Arith.
From Verif Require Import Prelude Vec Mat XArith Run.
Import ListNotations.
Local Open Scope string_scope.
Open Scope R_scope.

Inductive lm_solver := SCallable | SCholesky | SLu | SQr | SInv.
Record lm_config := {
  lm_materialize : bool; lm_solver_kind : lm_solver; lm_geodesic : bool; lm_damping_parameter : R;
  lm_stop : string; lm_tol : R; lm_xtol : R; lm_gtol : R
}.
(** levenberg_marquardt.py:156: a class attribute without annotation, hence not a constructor option *)
Definition contribution_ratio_threshold : R := 3 / 4.
(** levenberg_marquardt.py:486-487 *)
Definition damping_factor_max : R := 4294967296.
Definition increase_factor_max : R := 4294967296.
(** levenberg_marquardt.py:40-54; jac and jtj are None unless materialize_jac (jt is the transpose
    of jac; the cached hess_res is replaced by evaluating the second derivative at params) *)
Record lm_state := {
  l_iter : nat; l_damping : xnum; l_increase : xnum; l_residual : xvec; l_value : xnum; l_delta : xvec; l_error : xnum; l_gradient : xvec;
  l_jac : option xmat; l_jtj : option xmat
}.

Section LM.
Variable n : nat.                                   (* params.size *)
Variable res : xvec -> xvec.                        (* self._fun *)
Variable jt_op : xvec -> xvec -> xvec.              (* levenberg_marquardt.py:517-522 [_jt_op]: jax.vjp *)
Variable jtj_op : xvec -> xvec -> xvec.             (* levenberg_marquardt.py:524-530 [_jtj_op] *)
Variable d2fvv : xvec -> xvec -> xvec.              (* levenberg_marquardt.py:537-541 [_d2fvv_op](params, v, v) *)
Variable jac_fun : xvec -> xmat.                    (* jax.jacfwd(self._fun) *)
Variable solver_fn : (xvec -> xvec) -> xvec -> xnum -> option xvec -> xvec.  (* solver(matvec, b, ridge, init) *)
Variable la_solve pos_solve la_tri : xmat -> xvec -> xvec.  (* jnp.linalg.solve, jsp.linalg.solve(assume_a='pos'), solve_triangular *)
Variable la_inv : xmat -> xmat.                     (* jnp.linalg.inv *)
Variable la_qr : xmat -> xmat * xmat.               (* jsp.linalg.qr(mode='economic') *)
Variable cfg : lm_config.

(** 0.5 * jnp.sum(jnp.square(residual)) *)
Definition half_sum_squares (r : xvec) : xnum := xmul (Fin (1 / 2)) (xdot r r).
(** levenberg_marquardt.py:532-535 [_jtj_diag_op] *)
Definition jtj_diag_op (params : xvec) : xvec :=
  map (fun i => let v := fin (unit_vec n i) in xdot v (jtj_op params v)) (seq 0 n).
(** levenberg_marquardt.py:184-233 [init_state] *)
Definition lm_init_state (init_params : xvec) : lm_state :=
  let residual := res init_params in
  let mk gradient damping jac jtj :=
    {| l_iter := 0; l_damping := damping; l_increase := Fin 2; l_residual := residual; l_value := half_sum_squares residual;
       l_delta := xvzero n; l_error := xnorm2 gradient; l_gradient := gradient; l_jac := jac; l_jtj := jtj |} in
  if lm_materialize cfg then
    let jac := jac_fun init_params in
    let jtj := xmmul n (xmtrans n jac) jac in
    let gradient := xtvec n jac residual in
    mk gradient (xmul (Fin (lm_damping_parameter cfg)) (xvmax (xdiag n jtj))) (Some jac) (Some jtj)
  else
    let gradient := jt_op init_params residual in
    mk gradient (xmul (Fin (lm_damping_parameter cfg)) (xvmax (jtj_diag_op init_params))) None None.

(** The tuple passed through update_state_using_gain_ratio *)
Record lm_tuple := { t_params : xvec; t_damping : xnum; t_increase : xnum; t_residual : xvec; t_gradient : xvec; t_jac : option xmat; t_jtj : option xmat }.
(** levenberg_marquardt.py:298-307: test * x + (1.0 - test) * y, leaf by leaf *)
Definition blend (test : bool) (x y : xnum) : xnum :=
  let t := if test then 1 else 0 in xadd (xmul (Fin t) x) (xmul (Fin (1 - t)) y).
Fixpoint blend_vec (test : bool) (x y : xvec) : xvec :=
  match x, y with a :: x', b :: y' => blend test a b :: blend_vec test x' y' | _, _ => [] end.
Fixpoint blend_mat (test : bool) (A B : xmat) : xmat :=
  match A, B with a :: A', b :: B' => blend_vec test a b :: blend_mat test A' B' | _, _ => [] end.
Definition blend_opt (test : bool) (A B : option xmat) : option xmat :=
  match A, B with Some A, Some B => Some (blend_mat test A B) | _, _ => None end.
Definition blend_tuple (test : bool) (a b : lm_tuple) : lm_tuple :=
  {| t_params := blend_vec test (t_params a) (t_params b); t_damping := blend test (t_damping a) (t_damping b); t_increase := blend test (t_increase a) (t_increase b);
     t_residual := blend_vec test (t_residual a) (t_residual b); t_gradient := blend_vec test (t_gradient a) (t_gradient b);
     t_jac := blend_opt test (t_jac a) (t_jac b); t_jtj := blend_opt test (t_jtj a) (t_jtj b) |}.
(** levenberg_marquardt.py:243-277 [gain_ratio_test_true_func] *)
Definition gain_true (gain_ratio : xnum) (t : lm_tuple) (updated_params : xvec) : lm_tuple :=
  let params := updated_params in
  let residual := res params in
  let jac := if lm_materialize cfg then Some (jac_fun params) else None in
  let jtj := match jac with Some jac => Some (xmmul n (xmtrans n jac) jac) | None => None end in
  let gradient := match jac with Some jac => xtvec n jac residual | None => jt_op params residual end in
  let c := xsub (xmul (Fin 2) gain_ratio) (Fin 1) in
  {| t_params := params; t_damping := xmul (t_damping t) (xmax (Fin (1 / 3)) (xsub (Fin 1) (xmul c (xmul c c)))); t_increase := Fin 2;
     t_residual := residual; t_gradient := gradient; t_jac := jac; t_jtj := jtj |}.
(** levenberg_marquardt.py:279-284 [gain_ratio_test_false_func] *)
Definition gain_false (t : lm_tuple) : lm_tuple :=
  {| t_params := t_params t; t_damping := xmin (xmul (t_damping t) (t_increase t)) (Fin damping_factor_max);
     t_increase := xmin (xmul (Fin 2) (t_increase t)) (Fin increase_factor_max);
     t_residual := t_residual t; t_gradient := t_gradient t; t_jac := t_jac t; t_jtj := t_jtj t |}.
(** levenberg_marquardt.py:235-309 [update_state_using_gain_ratio] *)
Definition update_gain (gain_ratio contribution_ratio_diff : xnum) (t : lm_tuple) (updated_params : xvec) : lm_tuple :=
  let test := (xgtb gain_ratio 0 && xleb contribution_ratio_diff 0)%bool in
  blend_tuple test (gain_true gain_ratio t updated_params) (gain_false t).
(** levenberg_marquardt.py:308-348 [update_state_using_delta_params] *)
Definition update_delta (loss_curr : xnum) (delta_params : xvec) (contribution_ratio_diff : xnum) (t : lm_tuple) : lm_tuple :=
  let updated_params := xvadd (t_params t) delta_params in
  let residual_next := res updated_params in
  let gain_ratio_denom := xdot (xsmul (Fin (1 / 2)) delta_params) (xvsub (xsmul (t_damping t) delta_params) (t_gradient t)) in
  let loss_next := half_sum_squares residual_next in
  let gain_ratio := xdivx (xsub loss_curr loss_next) gain_ratio_denom in
  update_gain gain_ratio contribution_ratio_diff t updated_params.
(** levenberg_marquardt.py:370-406: the linear solver of the materialised branch, as a function of
    the right-hand side in residual space (gradient = J^T r, J^T rpp) *)
Definition dense_solve (state : lm_state) (jac jtj : xmat) (r : xvec) : xvec :=
  match lm_solver_kind cfg with
  | SQr =>
      let damping_term := xmsmul (xsqrt (l_damping state)) (xeye n) in
      let aug_jac := (jac ++ damping_term)%list in
      let aug_res := (r ++ xvzero n)%list in
      let '(q, rr) := la_qr aug_jac in
      la_tri rr (xtvec n q aug_res)
  | k =>
      let jtj_corr := xmadd jtj (xmsmul (l_damping state) (xeye n)) in
      let rhs := xtvec n jac r in
      match k with
      | SLu => la_solve jtj_corr rhs
      | SInv => xmvec (la_inv jtj_corr) rhs
      | _ => pos_solve jtj_corr rhs
      end
  end.
(** levenberg_marquardt.py:542-558 [_solve_linear_eqs] and 368-419: (velocity, acceleration).  The
    materialised branch uses state.gradient = J^T state.residual; 'lu', 'inv' and 'cholesky' compute
    solve(A, J^T) @ rpp, taken here as solve(A, J^T rpp). *)
Definition lm_directions (params : xvec) (state : lm_state) : xvec * xvec :=
  match l_jac state, l_jtj state with
  | Some jac, Some jtj =>
      let velocity := dense_solve state jac jtj (l_residual state) in
      (velocity, dense_solve state jac jtj (d2fvv params velocity))
  | _, _ =>
      let matvec := jtj_op params in
      let init := match lm_solver_kind cfg with SCallable => Some (l_delta state) | _ => None end in
      let velocity := solver_fn matvec (l_gradient state) (l_damping state) init in
      (velocity, solver_fn matvec (jt_op params (d2fvv params velocity)) (l_damping state) None)
  end.
(** levenberg_marquardt.py:350-459 [update] *)
Definition lm_update (s : xvec * lm_state) : xvec * lm_state :=
  let '(params, state) := s in
  let loss_curr := l_value state in
  let '(velocity, acceleration) := lm_directions params state in
  let delta_params := if lm_geodesic cfg then xvadd velocity (xsmul (Fin (1 / 2)) acceleration) else velocity in
  let contribution_ratio_diff :=
    if lm_geodesic cfg then xsub (xdivx (xnorm2 acceleration) (xnorm2 velocity)) (Fin contribution_ratio_threshold) else Fin 0 in
  let delta_params := map xopp delta_params in
  let t := update_delta loss_curr delta_params contribution_ratio_diff
             {| t_params := params; t_damping := l_damping state; t_increase := l_increase state; t_residual := l_residual state;
                t_gradient := l_gradient state; t_jac := l_jac state; t_jtj := l_jtj state |} in
  (t_params t,
   {| l_iter := S (l_iter state); l_damping := t_damping t; l_increase := t_increase t; l_residual := t_residual t;
      l_value := half_sum_squares (t_residual t); l_delta := delta_params; l_error := xnorm2 (t_gradient t); l_gradient := t_gradient t;
      l_jac := t_jac t; l_jtj := t_jtj t |}).
(** levenberg_marquardt.py:169-182 [_cond_fun]; tree_inf_norm is the maximum modulus *)
Definition lm_cond (s : xvec * lm_state) : result bool :=
  let '(params, state) := s in
  if string_dec (lm_stop cfg) "madsen-nielsen" then
    let tree_mul_term := xmul (Fin (lm_xtol cfg)) (xsub (xnorm2 params) (Fin (lm_xtol cfg))) in
    Ok (xgtb (xvmax (map xabs (l_gradient state))) (lm_gtol cfg) && xltb tree_mul_term (xnorm2 (l_delta state)))%bool
  else if string_dec (lm_stop cfg) "grad-l2-norm" then Ok (xgtb (l_error state) (lm_tol cfg))
  else Err NotImplementedErr.
(** base.py:296-332 [_run]: one update, then while cond and iter < maxiter *)
Fixpoint lm_loop (fuel : nat) (s : xvec * lm_state) : result (xvec * lm_state) :=
  match fuel with
  | O => Ok s
  | S fuel' => match lm_cond s with Err e => Err e | Ok true => lm_loop fuel' (lm_update s) | Ok false => Ok s end
  end.
Definition lm_run (maxiter : nat) (init : xvec) : result (xvec * lm_state) :=
  match maxiter with
  | O => Ok (init, lm_init_state init)
  | S m => lm_loop m (lm_update (init, lm_init_state init))
  end.
(** levenberg_marquardt.py:512-515 [optimality_fun] *)
Definition lm_optimality (params : xvec) : xvec := jt_op params (res params).
End LM.

(** levenberg_marquardt.py:461-510 [__post_init__]: which configurations get a [_jac_fun] attribute,
    and which are refused.  [user_jac]: jac_fun was given. *)
Definition lm_post_init (solver : option lm_solver) (materialize user_jac : bool) : result (bool (* has self._jac_fun *)) :=
  match solver with
  | None => Err NotImplementedErr
  | Some k =>
      if materialize then Ok (negb user_jac)
      else match k with SQr => Err ValueError | _ => Ok user_jac end
  end.
(** the first use of self._jac_fun, in init_state *)
Definition lm_first_use (solver : option lm_solver) (materialize user_jac : bool) : result unit :=
  match lm_post_init solver materialize user_jac with
  | Err e => Err e
  | Ok has => if materialize then (if has then Ok tt else Err AttributeError) else Ok tt
  end.

(** ** Specification *)
(** sum of squares F(x) = 1/2 |r(x)|^2 *)
Definition lm_cost (r : vec -> vec) (x : vec) : R := 1 / 2 * sqnorm (r x).
Definition lm_gradient (n : nat) (r : vec -> vec) (J : vec -> mat) (x : vec) : vec := tvec n (J x) (r x).
(** s solves the damped normal equations (J^T J + mu I) s = b *)
Definition damped_solution (n : nat) (M : mat) (mu : R) (b s : vec) : Prop :=
  length s = n /\ vadd (tvec n M (mvec M s)) (smul mu s) = b.

(** The external functions, on finite arguments and in exact arithmetic: r is the residual function
    with values in R^m and Jacobian J, D2 x v its second directional derivative. *)
Record lm_functions (m n : nat) (r : vec -> vec) (J : vec -> mat) (D2 : vec -> vec -> vec)
    (res : xvec -> xvec) (jt_op jtj_op d2fvv : xvec -> xvec -> xvec) (jac_fun : xvec -> xmat) : Prop := {
  lf_shape : forall x, length x = n -> length (r x) = m /\ mat_shape m n (J x);
  lf_res : forall x, length x = n -> res (fin x) = fin (r x);
  lf_jt : forall x y, length x = n -> length y = m -> jt_op (fin x) (fin y) = fin (tvec n (J x) y);
  lf_jtj : forall x v, length x = n -> length v = n -> jtj_op (fin x) (fin v) = fin (tvec n (J x) (mvec (J x) v));
  lf_d2 : forall x v, length x = n -> length v = n -> d2fvv (fin x) (fin v) = fin (D2 x v) /\ length (D2 x v) = m;
  lf_jac : forall x, length x = n -> jac_fun (fin x) = finm (J x)
}.
(** The solvers are exact on the systems they are meant for *)
Record lm_solvers (n : nat) (solver_fn : (xvec -> xvec) -> xvec -> xnum -> option xvec -> xvec)
    (la_solve pos_solve la_tri : xmat -> xvec -> xvec) (la_inv : xmat -> xmat) (la_qr : xmat -> xmat * xmat) : Prop := {
  ls_fn : forall m M f b mu init, mat_shape m n M -> (forall v, length v = n -> f (fin v) = fin (tvec n M (mvec M v))) -> 0 < mu -> length b = n ->
    match init with None => True | Some z => exists z', z = fin z' /\ length z' = n end ->
    exists s, solver_fn f (fin b) (Fin mu) init = fin s /\ damped_solution n M mu b s;
  ls_lu : forall A b, mat_shape n n A -> pos_def n A -> length b = n -> exists s, la_solve (finm A) (fin b) = fin s /\ length s = n /\ mvec A s = b;
  ls_pos : forall A b, mat_shape n n A -> symmetric n A -> pos_def n A -> length b = n -> exists s, pos_solve (finm A) (fin b) = fin s /\ length s = n /\ mvec A s = b;
  ls_inv : forall A, mat_shape n n A -> pos_def n A -> exists B, la_inv (finm A) = finm B /\ mat_shape n n B /\ forall b, length b = n -> mvec A (mvec B b) = b;
  (* economic QR of a k x n matrix with independent columns: A = q rr, q^T q = I *)
  ls_qr : forall k A, mat_shape k n A -> (forall v, length v = n -> mvec A v = vzero k -> v = vzero n) ->
    exists q rr, la_qr (finm A) = (finm q, finm rr) /\ mat_shape k n q /\ mat_shape n n rr /\ (forall v, length v = n -> tvec n q (mvec q v) = v) /\
      (forall v, length v = n -> mvec A v = mvec q (mvec rr v)) /\
      forall b, length b = n -> exists s, la_tri (finm rr) (fin b) = fin s /\ length s = n /\ mvec rr s = b
}.
(** A state that describes the point x, with damping mu and increase factor nu *)
Record lm_at (n : nat) (r : vec -> vec) (J : vec -> mat) (cfg : lm_config) (x : vec) (mu nu : R) (st : lm_state) : Prop := {
  at_damping : l_damping st = Fin mu;
  at_increase : l_increase st = Fin nu;
  at_residual : l_residual st = fin (r x);
  at_value : l_value st = Fin (lm_cost r x);
  at_gradient : l_gradient st = fin (lm_gradient n r J x);
  at_error : l_error st = Fin (norm2 (lm_gradient n r J x));
  at_delta : exists d, l_delta st = fin d /\ length d = n;
  at_jac : l_jac st = if lm_materialize cfg then Some (finm (J x)) else None;
  at_jtj : l_jtj st = if lm_materialize cfg then Some (finm (mmul n (mtrans n (J x)) (J x))) else None
}.
