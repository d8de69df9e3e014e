(** Convergence of the coordinate descent solvers on convex problems without strong convexity:
    specification.  The models are CDQP.v (cd_qp.py:68-125) and BlockCD.v (block_cd.py:107-176). *)
From Coq Require Import Reals List Lra Lia Bool Arith.
From Verif Require Import Prelude Vec Mat Loss Run CDQP Objective BlockCD OptError CDConvergence.
Import ListNotations.
Open Scope R_scope.

(** Feasible parameters no worse than x0 are within sqrt R2 of Z. *)
Definition bcd_level_radius (n k : nat) (f : composite) (D : vec -> Prop) (r : vec -> R) (x0 Z : mat) (R2 : R) : Prop :=
  forall X, mat_shape n k X -> blocks_in D X -> bcd_objective k f r X <= bcd_objective k f r x0 -> fdist2 Z X <= R2.
(** Any two feasible parameters no worse than x0 are within sqrt R2 of each other. *)
Definition bcd_level_diameter (n k : nat) (f : composite) (D : vec -> Prop) (r : vec -> R) (x0 : mat) (R2 : R) : Prop :=
  forall Z, mat_shape n k Z -> blocks_in D Z -> bcd_objective k f r Z <= bcd_objective k f r x0 -> bcd_level_radius n k f D r x0 Z R2.
(** The constants of the 1/t rates: h and Lmax bound the column-wise constants (resp. the diagonal
    of Q), Lf is a Lipschitz constant of the block gradients and M bounds the entries of Q. *)
Definition bcd_rate_const (n : nat) (h Lmax Lf R2 : R) : R := 4 * (Lmax * Lmax + INR n * (Lf * Lf)) / h * R2.
Definition cdqp_rate_const (n : nat) (h M : R) (l u : vec) : R :=
  2 * INR n * (M * M) / h * (norm1 (vsub u l) * norm1 (vsub u l)).
