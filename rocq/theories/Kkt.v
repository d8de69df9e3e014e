(** Model of implicit_diff.make_kkt_optimality_fun. *)
From Coq Require Import Reals List Lra Lia Bool Arith.
From Verif Require Import Prelude Vec Mat.
Import ListNotations.
Open Scope R_scope.

(** base.py [KKTSolution]: None is a missing part *)
Record kkt_solution := { primal : vec; dual_eq : option vec; dual_ineq : option vec }.
(** The functions given by the user, with the derivatives jax computes: the gradient of the
    objective and the Jacobians (rows = constraints) of the constraint functions. *)
Record kkt_problem := {
  obj_grad : vec -> vec;
  eq_fun : vec -> vec;    eq_jac : vec -> mat;
  ineq_fun : vec -> vec;  ineq_jac : vec -> mat
}.
(** implicit_diff.py:349-374 [optimality_fun].  The vjp at x of lam is (Jacobian at x)^T lam. *)
Definition kkt_optimality (n : nat) (p : kkt_problem) (params : kkt_solution) : kkt_solution :=
  let x := primal params in
  let stationarity := obj_grad p x in
  let '(stationarity, primal_feasability) :=
    match dual_eq params with
    | Some lam => (vadd stationarity (tvec n (eq_jac p x) lam), Some (eq_fun p x))
    | None => (stationarity, None)
    end in
  let '(stationarity, comp_slackness) :=
    match dual_ineq params with
    | Some mu => (vadd stationarity (tvec n (ineq_jac p x) mu), Some (hmul (ineq_fun p x) mu))
    | None => (stationarity, None)
    end in
  {| primal := stationarity; dual_eq := primal_feasability; dual_ineq := comp_slackness |}.

(** ** Specification *)
Definition ovec (o : option vec) : vec := match o with Some v => v | None => [] end.
(** sizes: n variables, m equalities, k inequalities; a missing dual means no constraint of that kind *)
Definition kkt_shapes (n m k : nat) (p : kkt_problem) : Prop :=
  forall x, length x = n -> length (obj_grad p x) = n /\
    length (eq_fun p x) = m /\ mat_shape m n (eq_jac p x) /\ length (ineq_fun p x) = k /\ mat_shape k n (ineq_jac p x).
(** A missing dual variable goes with no constraints of that kind. *)
Definition dual_ok (k : nat) (o : option vec) : Prop := match o with Some v => length v = k | None => k = 0%nat end.
Definition all_zero (s : kkt_solution) : Prop :=
  (forall i, nth i (primal s) 0 = 0) /\ (forall i, nth i (ovec (dual_eq s)) 0 = 0) /\ (forall i, nth i (ovec (dual_ineq s)) 0 = 0).
Definition feasible (p : kkt_problem) (x : vec) : Prop :=
  (forall i, nth i (eq_fun p x) 0 = 0) /\ (forall i, nth i (ineq_fun p x) 0 <= 0).
(** The four KKT conditions, with coordinates written out: grad_j f + sum_i lam_i d_j e_i +
    sum_i mu_i d_j g_i = 0. *)
Definition partials (J : mat) (w : vec) (j : nat) : R := dot w (map (fun r => nth j r 0) J).
Definition is_kkt_point (n : nat) (p : kkt_problem) (x lam mu : vec) : Prop :=
  (forall j, (j < n)%nat -> nth j (obj_grad p x) 0 + partials (eq_jac p x) lam j + partials (ineq_jac p x) mu j = 0) /\
  feasible p x /\
  (forall i, 0 <= nth i mu 0) /\
  (forall i, nth i mu 0 * nth i (ineq_fun p x) 0 = 0).
(** A convex problem: f convex with gradient obj_grad, equalities affine, inequalities convex. *)
Definition convex_problem (n : nat) (f : vec -> R) (p : kkt_problem) : Prop :=
  forall x y, length x = n -> length y = n ->
    f x + dot (obj_grad p x) (vsub y x) <= f y /\
    (forall i, nth i (eq_fun p y) 0 = nth i (eq_fun p x) 0 + dot (nth i (eq_jac p x) []) (vsub y x)) /\
    (forall i, nth i (ineq_fun p x) 0 + dot (nth i (ineq_jac p x) []) (vsub y x) <= nth i (ineq_fun p y) 0).
