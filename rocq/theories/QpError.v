(** l2_optimality_error of the quadratic programming solvers EqualityConstrainedQP, BoxOSQP and OSQP. *)
From Coq Require Import Reals List Bool Arith ZArith Lra Lia.
From Verif Require Import Prelude Vec Mat XArith Kkt EqQP Osqp OsqpConvert LinOp.
Import ListNotations.
Open Scope R_scope.

(** tree_util.py:138-145 [tree_l2_norm] of the KKTSolution that an optimality function returns: None has no leaf *)
Definition kkt_l2_norm (s : kkt_solution) : R := norm2 (primal s ++ ovec (dual_eq s) ++ ovec (dual_ineq s)).
(** eq_qp.py:272-280 [EqualityConstrainedQP.l2_optimality_error] *)
Definition eqqp_l2_error (n : nat) (A : mat) (b : vec) (obj : eqqp_obj) (x y : vec) : R := kkt_l2_norm (eqqp_optimality n A b obj x y).
(** osqp.py:771-779 [BoxOSQP.l2_optimality_error] at KKTSolution((x, z), y, (mu, phi)) *)
Definition box_l2_error (n m : nat) (Q : mat) (c : vec) (A : mat) (l u : xvec) (x z y mu phi : vec) : R := kkt_l2_norm (box_optimality n m Q c A l u x z y mu phi).
(** osqp.py:1081-1096 [OSQP.l2_optimality_error]: the parameters are converted (with z = A_box x and the full multipliers), and
    tree_l2_norm is applied once more to the number that BoxOSQP returns.  Simplification: finite parameters; a NaN or an
    infinite number is read as 0. *)
Definition reals (v : xvec) : vec := map xreal0 v.
Definition osqp_l2_error (n : nat) (Q : mat) (c : vec) (params : osqp_params) (eq ineq : block) : result R :=
  match transform (Some params) eq ineq with
  | Err e => Err e
  | Ok (None, _, _) => Err Unspecified
  | Ok (Some p, f, _) => Ok (norm2 [box_l2_error n (length (f_l f)) Q c (f_A f) (f_l f) (f_u f) (reals (bx p)) (reals (bz p)) (reals (by_ p)) (reals (bmu p)) (reals (bphi p))])
  end.

(** ** Specification *)
(** finite parameters of OSQP; the multipliers of an absent block are None *)
Definition osqp_point (eq ineq : block) (x ye yi : vec) : osqp_params :=
  {| q_primal := fin x; q_dual_eq := present eq (fin ye); q_dual_ineq := present ineq (fin yi) |}.
(** stationarity, negative parts of the multipliers of the inequalities, and the products multiplier * constraint, for the
    equalities too *)
Definition osqp_residuals (n : nat) (Q : mat) (c : vec) (eq ineq : block) (x ye yi : vec) : vec :=
  vadd (vadd (mvec Q x) c) (vadd (tvec n (rows eq) ye) (tvec n (rows ineq) yi)) ++ map (fun t => Rmin t 0) yi ++
  hmul ye (vsub (mvec (rows eq) x) (rhs eq)) ++ hmul (map (fun t => Rmax t 0) yi) (vsub (mvec (rows ineq) x) (rhs ineq)).
(** the numbers that measure the conditioning of an equality-constrained problem *)
Definition strongly_convex_matrix (n : nat) (mu : R) (Q : mat) : Prop := forall v, length v = n -> mu * dot v v <= dot v (mvec Q v).
Definition bounded_matrix (n : nat) (M : R) (Q : mat) : Prop := forall v, length v = n -> norm2 (mvec Q v) <= M * norm2 v.
Definition rows_bounded_below (n m : nat) (s : R) (A : mat) : Prop := forall w, length w = m -> s * norm2 w <= norm2 (tvec n A w).
Definition eqqp_primal_constant (mu M s : R) : R := sqrt ((1 + M / s) * (1 + M / s) / (mu * mu) + 2 / (mu * s)).
