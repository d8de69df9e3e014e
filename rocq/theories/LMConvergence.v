(** Specification for C73: convergence of levenberg_marquardt.py.  The program is LM.v
    ([lm_update], [lm_run]); this file only states the problem. *)
From Coq Require Import Reals List Lra Lia Bool Arith.
From Verif Require Import Prelude Vec Mat XArith Run LM.
Import ListNotations.
Open Scope R_scope.

(** On the points whose objective is at most F0, the objective lies below a quadratic of curvature
    2 C and the Jacobian has norm at most B. *)
Record lm_smooth (n : nat) (r : vec -> vec) (J : vec -> mat) (F0 C B : R) : Prop := {
  sm_C : 0 < C; sm_B : 0 <= B;
  sm_model : forall x d, length x = n -> length d = n -> lm_cost r x <= F0 ->
    lm_cost r (vadd x d) <= lm_cost r x + dot (lm_gradient n r J x) d + C * sqnorm d;
  sm_jac : forall x v, length x = n -> length v = n -> lm_cost r x <= F0 -> norm2 (mvec (J x) v) <= B * norm2 v
}.
(** the largest damping that occurs when the initial damping is mu0 *)
Definition damping_bound (mu0 : R) : R := Rmax mu0 (2 * damping_factor_max).
(** decrease of the objective guaranteed by a well-predicted step at gradient norm >= tol *)
Definition lm_decrease (mu0 B tol : R) : R := tol * tol / (8 * (B * B + damping_bound mu0)).

(** An S-shaped scalar residual in small units: r(x) = u / sqrt(1 + u^2) with u = 10^6 x. *)
Definition sig_u (x : vec) : R := 1000000 * nth 0 x 0.
Definition sig_r (x : vec) : vec := [sig_u x / sqrt (1 + sig_u x * sig_u x)].
Definition sig_J (x : vec) : mat := [[1000000 / ((1 + sig_u x * sig_u x) * sqrt (1 + sig_u x * sig_u x))]].
