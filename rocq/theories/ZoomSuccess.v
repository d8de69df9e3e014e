(** Specification for C75: the zoom line search succeeds on smooth functions.  The program is Zoom.v. *)
From Coq Require Import Reals List Bool Lra.
From Verif Require Import Prelude Vec Loop Run Backtracking Zoom.
Import ListNotations.
Open Scope R_scope.

(** phi has the derivative dphi on [0, T], and dphi is Lipschitz there with constant L. *)
Definition smooth_line (T L : R) (phi dphi : R -> R) : Prop :=
  (forall t, 0 <= t <= T -> derivable_pt_lim phi t (dphi t)) /\
  (forall a b, 0 <= a <= T -> 0 <= b <= T -> Rabs (dphi a - dphi b) <= L * Rabs (a - b)).
(** convexity: the derivative does not decrease *)
Definition convex_line (T : R) (dphi : R -> R) : Prop :=
  forall a b, 0 <= a -> a <= b -> b <= T -> dphi a <= dphi b.
(** The Armijo and curvature constants: 0 < c1 < c2 < 1, c1 <= 1/2. *)
Definition wolfe_constants (cfg : zoom_config) : Prop :=
  0 < zc1 cfg <= / 2 /\ zc1 cfg < zc2 cfg < 1 /\ 0 <= zc3 cfg.
(** every bracket that the search works on is longer than this *)
Definition bracket_floor (cfg : zoom_config) (L slope : R) : R :=
  Rmin (zc2 cfg) (2 * (zc2 cfg - zc1 cfg)) * Rabs slope / L.
(** a bound on the steps tried: max_stepsize, or, for convex functions bounded below by m,
    the initial step or increase_factor * (phi 0 - m) / (c2 |slope|) *)
Definition step_bound (cfg : zoom_config) (phi dphi : R -> R) (s0 B : R) : Prop :=
  zmax cfg <= B \/
  (convex_line (zmax cfg) dphi /\ exists m, (forall t, 0 <= t <= zmax cfg -> m <= phi t) /\
     s0 <= B /\ increase_factor cfg * ((phi 0 - m) / (zc2 cfg * Rabs (dphi 0))) <= B).
(** the factor by which a zoom iteration shrinks the bracket at least *)
Definition zoom_factor (cfg : zoom_config) : R := 1 - Rmin (Rmin (rel_tol_cubic cfg) (rel_tol_quad cfg)) (1 / 2).
(** the objective along the line is phi, with slope dphi, on the steps up to max_stepsize *)
Definition along_line {G : Type} (cfg : zoom_config) (f : vec -> xnum) (gradf : vec -> G) (vdot : G -> vec -> xnum)
    (x d : vec) (phi dphi : R -> R) : Prop :=
  forall t, 0 <= t <= zmax cfg -> f (vadd x (smul t d)) = Fin (phi t) /\ vdot (gradf (vadd x (smul t d))) d = Fin (dphi t).
(** strong Wolfe conditions on real functions, Armijo part exact or approximate *)
Definition strong_wolfe (cfg : zoom_config) (phi dphi : R -> R) (s tol : R) : Prop :=
  (phi s <= phi 0 + zc1 cfg * s * dphi 0 + tol \/
   (phi s <= phi 0 + zc3 cfg * Rabs (phi 0) + tol /\ dphi s <= (2 * zc1 cfg - 1) * dphi 0 + tol)) /\
  Rabs (dphi s) <= zc2 cfg * Rabs (dphi 0) + tol.

(** the same options with another maxiter (called maxls by the solvers) *)
Definition with_maxiter (cfg : zoom_config) (k : nat) : zoom_config :=
  {| zc1 := zc1 cfg; zc2 := zc2 cfg; zc3 := zc3 cfg; rel_tol_cubic := rel_tol_cubic cfg; rel_tol_quad := rel_tol_quad cfg;
     interval_threshold := interval_threshold cfg; increase_factor := increase_factor cfg; ztol := ztol cfg; zmaxiter := k;
     max_stepsize_arg := max_stepsize_arg cfg |}.
(** real-valued objectives on vectors *)
Definition real_fun (f : vec -> R) (z : vec) : xnum := Fin (f z).
Definition real_dot (g d : vec) : xnum := Fin (dot g d).

(** A smooth function of one variable (in u = 1 - t) and its derivative, and options with
    c2 < 1 - 2 c1 and interpolation switched off, for the counterexample. *)
Definition trap_phi (t : R) : R := let u := 1 - t in
  - (38 / 100) * u - 1 / 5 * u ^ 2 + 5273 / 10 * u ^ 9 - 1050 * u ^ 10 + 13082 / 25 * u ^ 11.
Definition trap_dphi (t : R) : R := let u := 1 - t in
  38 / 100 + 2 / 5 * u - 47457 / 10 * u ^ 8 + 10500 * u ^ 9 - 143902 / 25 * u ^ 10.
Definition trap_cfg (k : nat) : zoom_config :=
  {| zc1 := 3 / 10; zc2 := 35 / 100; zc3 := 0; rel_tol_cubic := 1 / 2; rel_tol_quad := 1 / 2; interval_threshold := 0;
     increase_factor := 2; ztol := 0; zmaxiter := k; max_stepsize_arg := Some 1 |}.
Definition trap_f (z : vec) : R := trap_phi (nth 0 z 0).
Definition trap_g (z : vec) : vec := [trap_dphi (nth 0 z 0)].
