(** Global convergence of L-BFGS-B: the [run] of LBFGSB and the vocabulary of the statements.  The updates are those of Lbfgsb.v. *)
From Coq Require Import String.
From Coq Require Import Reals List Lra Lia Bool Arith.
From Verif Require Import Prelude Base Vec Mat XArith LinAlg Loss Backtracking Zoom Run QuasiNewton Convergence ZoomSuccess ZoomRuns Lbfgsb.
Import ListNotations.
Open Scope R_scope.

(** ** Model *)
(** LBFGSB(...).run(x0, bounds): base.py:296-332 with lbfgsb.py:311-316 (the stopping test), 318-376 and 378-570. *)
Definition lbfgsb_solve solve eps (f : vec -> R) (gradf : vec -> vec) (ls : line_search) (cfg : qn_config) (theta0 : R)
    (bounds : option (xbounds * xbounds)) (maxiter : nat) (x0 : vec) : result (vec * lbfgsb_state) :=
  run_result maxiter (fun step => lbfgsb_cond cfg (snd step)) (lbfgsb_update solve eps f gradf ls cfg theta0 bounds)
    (x0, lbfgsb_init f gradf cfg theta0 x0 bounds).

(** ** Specification *)
(** The slope of f at x towards the projected gradient step, P(x - g) - x, with the sign changed. *)
Definition projected_slope (lower upper : xbounds) (x g : vec) : R := - dot g (vsub (path x g lower upper 1) x).
(** The range of theta along a run, and bounds of the eigenvalues of B with [m] pairs of memory. *)
Definition theta_low (mu theta0 : R) : R := Rmin 1 mu * theta0.
Definition theta_high (L theta0 : R) : R := Rmax 1 L * theta0.
Definition hess_upper (L theta : R) (m : nat) : R := theta + INR m * L.
Fixpoint hess_inverse (mu L theta : R) (m : nat) : R :=
  match m with O => / theta | S j => 2 * (L / mu) * hess_inverse mu L theta j + 2 / mu end.
(** No comparison with eps is decided by rounding, and no two coordinates reach a bound at the same time: gradient entries are
    zero or large compared with eps, breakpoints are zero or larger than eps, and distinct. *)
Definition clear_point (eps C : R) (lower upper : xbounds) (x g : vec) : Prop :=
  (forall i, (i < length g)%nat -> nth i g 0 = 0 \/ (eps <= Rabs (nth i g 0) /\ C * eps <= nth i g 0 * nth i g 0)) /\
  clear_breaks eps x g lower upper /\ distinct_breaks x g lower upper.
(** The factor by which the gap decreases in one iteration with steps above [floor], when B <= M. *)
Definition box_gap_factor (mu c1 floor M : R) : R := 1 - c1 * floor / (2 * (M + 1) * (1 + / (2 * mu))).
(** z minimises f over the box. *)
Definition box_minimiser (lower upper : xbounds) (n : nat) (f : vec -> R) (z : vec) : Prop :=
  length z = n /\ in_bounds lower upper z /\ forall y, length y = n -> in_bounds lower upper y -> f z <= f y.
(** The data of the theorems: a strongly convex smooth objective, an exact linear solver, options with a line search that starts from
    positive steps, bounds (the default, None, is no bound at all) and a feasible starting point. *)
Definition lbfgsb_setting (n : nat) (mu L : R) (f : vec -> R) (gradf : vec -> vec) (solve : mat -> vec -> vec) (eps theta0 : R)
    (cfg : qn_config) (bounds : option (xbounds * xbounds)) (lower upper : xbounds) (x0 : vec) : Prop :=
  strongly_convex_smooth n mu L f gradf /\ exact_solver solve /\ 0 < eps /\ 0 < theta0 /\ (0 < qn_history_size cfg)%nat /\
  bounds_or_default n bounds = (lower, upper) /\ use_linesearch cfg = true /\ positive_starts cfg /\
  length x0 = n /\ in_bounds lower upper x0.
(** What a successful run returns after k iterations: a feasible point with projected gradient below the tolerance, and whose value
    and distance to the minimiser z are controlled by gap. *)
Definition box_answer (n : nat) (mu tol gap : R) (f : vec -> R) (gradf : vec -> vec) (lower upper : xbounds) (z : vec) (k : nat)
    (step : vec * lbfgsb_state) : Prop :=
  let '(x, st) := step in
  length x = n /\ in_bounds lower upper x /\ lb_iter st = k /\ lb_failed st = false /\
  (exists e, lb_error st = Fin e /\ get_error x (gradf x) lower upper = Fin e /\ 0 <= e <= tol) /\
  f x - f z <= gap /\ mu / 2 * dist2 x z <= gap.
(** No coordinate is bounded: bounds None, or infinite bounds. *)
Definition no_bounds (lower upper : xbounds) : Prop := forall i, lo lower i = NInf /\ up upper i = PInf.
