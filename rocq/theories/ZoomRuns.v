(** Specification for C76: BFGS and L-BFGS with their default (zoom) line search on quadratics.
    The programs are QuasiNewton.v, Convergence.v (the runs) and Zoom.v; [zoom_ls] in Lbfgsb.v. *)
From Coq Require Import String.
From Coq Require Import Reals List Bool Lra.
From Verif Require Import Prelude Vec Mat Backtracking Zoom QuasiNewton Convergence ZoomSuccess.
Import ListNotations.
Open Scope R_scope.

(** f(x) = x.Qx / 2 - b.x and its gradient Qx - b *)
Definition quadratic (Q : mat) (b x : vec) : R := 1 / 2 * dot x (mvec Q x) - dot b x.
Definition quadratic_grad (Q : mat) (b x : vec) : vec := vsub (mvec Q x) b.
(** The bracket length that the search always works above (bracket_floor of C75), for a direction -H g
    when the eigenvalues of H are at most hi. *)
Definition accept_length (zcfg : zoom_config) (L hi : R) : R := Rmin (zc2 zcfg) (2 * (zc2 zcfg - zc1 zcfg)) / (L * hi).
(** The smallest step that the search returns or starts from. *)
Definition step_floor (zcfg : zoom_config) (cfg : qn_config) (L hi : R) : R :=
  Rmin (wolfe_floor (zc2 zcfg) L hi) (Rmin (zmax zcfg) (qn_max_stepsize cfg)).
(** J growths of the smallest initial step exceed the largest step; Z reductions bring the largest step
    below the accept length; maxiter of the search (maxls) leaves room for both, and interval_threshold
    does not end it earlier. *)
Definition zoom_fits (zcfg : zoom_config) (cfg : qn_config) (L hi : R) (J Z : nat) : Prop :=
  zmax zcfg <= step_floor zcfg cfg L hi * increase_factor zcfg ^ J /\
  zmax zcfg * zoom_factor zcfg ^ Z <= accept_length zcfg L hi /\
  interval_threshold zcfg <= accept_length zcfg L hi /\ (J + Z + 2 <= zmaxiter zcfg)%nat.

(** The default options of LBFGS (lbfgs.py:210-232) and of its zoom search (zoom_linesearch.py:235-245,
    with maxls and max_stepsize from LBFGS). *)
Definition zoom_defaults : zoom_config :=
  {| zc1 := 1 / 10000; zc2 := 9 / 10; zc3 := 1 / 1000000; rel_tol_cubic := 2 / 10; rel_tol_quad := 1 / 10;
     interval_threshold := 1 / 1000000; increase_factor := 2; ztol := 0; zmaxiter := 30; max_stepsize_arg := Some 1 |}.
Definition lbfgs_defaults : qn_config :=
  {| qn_stepsize := StepConst 0; qn_linesearch_init := "increase"; qn_increase_factor := 3 / 2; qn_max_stepsize := 1; qn_min_stepsize := 1 / 1000000;
     qn_tol := 1 / 1000; qn_stop_if_linesearch_fails := false; qn_history_size := 10; qn_use_gamma := true |}.

(** A strongly convex function of one variable with a Lipschitz derivative and a large minimum, for the
    counterexample. *)
Definition kink_f (x : vec) : R := let a := nth 0 x 0 in 1000000 + (if Rle_dec 0 a then 3 / 2 * (a * a) else 3 / 5 * (a * a)).
Definition kink_g (x : vec) : vec := let a := nth 0 x 0 in [if Rle_dec 0 a then 3 * a else 6 / 5 * a].
