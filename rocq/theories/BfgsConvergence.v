(** Global convergence of BFGS: the vocabulary of the statements (the model is in QuasiNewton.v
    and Convergence.v). *)
From Coq Require Import Reals List.
From Verif Require Import Prelude Vec Mat QuasiNewton Convergence.
Import ListNotations.
Open Scope R_scope.

(** The step [t] along [d] from [x] decreases [f] sufficiently (Armijo) and is not too short:
    Wolfe's curvature condition holds, or the step is at least [tmin], or the previous trial
    [t / df] of a backtracking search was rejected. *)
Definition sufficient_step (c1 c2 tmin df : R) (f : vec -> R) (gradf : vec -> vec) (x d : vec) (t : R) : Prop :=
  0 < t /\ f (vadd x (smul t d)) <= f x + c1 * t * dot (gradf x) d /\
  (c2 * dot (gradf x) d <= dot (gradf (vadd x (smul t d))) d \/ tmin <= t \/
   f x + c1 * (t / df) * dot (gradf x) d < f (vadd x (smul (t / df) d))).

(** Factor by which the gap to the minimum decreases, on average, in one iteration, for a problem
    with [n] variables. *)
Definition bfgs_progress (mu L c1 c2 tmin df : R) : R := Rmin (1 - c2) (Rmin (tmin * mu) (2 * mu * df * (1 - c1) / L)).
Definition bfgs_rate (n : nat) (mu L c1 c2 tmin df : R) : R :=
  exp (- (2 * mu * c1 * bfgs_progress mu L c1 c2 tmin df / (1 + INR n + L) ^ 2 * exp (- (INR n * (INR n + L))))).
