(** Convergence of broyden.py (model in Broyden.v): specification. *)
From Coq Require Import Reals List Lra Lia Bool Arith.
From Verif Require Import Prelude Vec Mat Loss Broyden.
Import ListNotations.
Open Scope R_scope.

(** M behaves like the Jacobian of F at its zero xs: inside the ball of radius rho around xs,
    F(y) - F(x) differs from M (y - x) by at most L/2 (|x - xs| + |y - xs|) |y - x|.  This is what
    an L-Lipschitz Jacobian with value M at xs gives; L = 0 for affine functions. *)
Definition jacobian_near (n : nat) (F : vec -> vec) (M : mat) (xstar : vec) (rho L : R) : Prop :=
  (forall x, length x = n -> length (F x) = n) /\ mat_shape n n M /\ length xstar = n /\ F xstar = vzero n /\ 0 <= L /\
  forall x y, length x = n -> length y = n -> norm2 (vsub x xstar) <= rho -> norm2 (vsub y xstar) <= rho ->
    norm2 (vsub (vsub (F y) (F x)) (mvec M (vsub y x)))
    <= L / 2 * (norm2 (vsub x xstar) + norm2 (vsub y xstar)) * norm2 (vsub y x).
(** M stretches every vector by at least a, and the initial approximation I / gamma is within
    delta of it. *)
Definition bounded_below (n : nat) (M : mat) (a : R) : Prop :=
  forall v, length v = n -> a * norm2 v <= norm2 (mvec M v).
Definition start_within (n : nat) (M : mat) (gamma delta : R) : Prop :=
  forall v, length v = n -> norm2 (vsub (smul (/ gamma) v) (mvec M v)) <= delta * norm2 v.
(** The error of the Jacobian approximations along a run started at distance e, when the distance
    shrinks by the factor r at every step: the initial error and what the curvature adds. *)
Definition jacobian_error (delta L r e : R) : R := delta + L * (1 + r) * e / (2 * (1 - r)).
(** The factor r is achieved from distance e. *)
Definition broyden_basin (a delta L r e : R) : Prop :=
  0 < r < 1 /\ jacobian_error delta L r e < a /\
  jacobian_error delta L r e + L / 2 * (1 + r) * e <= r * (a - jacobian_error delta L r e).
(** Squared Frobenius norm of I / gamma - M. *)
Definition start_error_sq (n : nat) (M : mat) (gamma : R) : R :=
  vsum (map (fun j => sqnorm (vsub (smul (/ gamma) (unit_vec n j)) (mvec M (unit_vec n j)))) (seq 0 n)).
