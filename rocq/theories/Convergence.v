(** Global convergence of the quasi-Newton solvers: the [run] of BFGS and L-BFGS, and the
    vocabulary of the statements.  The updates are those of QuasiNewton.v. *)
From Coq Require Import String.
From Coq Require Import Reals List Lra Lia Bool Arith.
From Verif Require Import Prelude Vec Mat Zoom Loss Backtracking Run QuasiNewton.
Import ListNotations.
Open Scope R_scope.

(** ** Model *)
(** base.py:296-332 [_run], for an update that can raise: the exception ends the run.  (With
    maxiter = 0 the code also performs, and discards, one update.) *)
Definition run_result {A : Type} (maxiter : nat) (cond : A -> bool) (update : A -> result A) (init : A) : result A :=
  run_loop maxiter (fun r => match r with Ok a => cond a | Err _ => false end)
    (fun r => match r with Ok a => update a | Err e => Err e end) (Ok init).

(** LBFGS(...).run(x0): base.py:296-332 with lbfgs.py:242-246, 262-293 and 295-417. *)
Definition lbfgs_solve (f : vec -> R) (gradf : vec -> vec) (ls : line_search) (cfg : qn_config)
    (maxiter : nat) (x0 : vec) : result (vec * lbfgs_state) :=
  run_result maxiter (fun step => lbfgs_cond cfg (snd step)) (lbfgs_update f gradf ls cfg) (x0, lbfgs_init f gradf cfg x0).

(** BFGS(...).run(x0): base.py:296-332 with base.py:264-266 (BFGS does not override
    [_cond_fun]), bfgs.py:147-176 and 178-275. *)
Definition bfgs_solve (f : vec -> R) (gradf : vec -> vec) (ls : line_search) (cfg : qn_config)
    (maxiter : nat) (x0 : vec) : result (vec * bfgs_state) :=
  run_result maxiter (fun step => xgtb (b_error (snd step)) (qn_tol cfg)) (bfgs_update f gradf ls cfg) (x0, bfgs_init f gradf cfg x0).

(** ** Specification *)
(** [f] is strongly convex (constant mu) with an L-Lipschitz gradient, in first-order form. *)
Definition strongly_convex_smooth (n : nat) (mu L : R) (f : vec -> R) (gradf : vec -> vec) : Prop :=
  0 < mu <= L /\ grad_dim n gradf /\
  forall x z, length x = n -> length z = n ->
    f x + dot (gradf x) (vsub z x) + mu / 2 * dist2 z x <= f z <= f x + dot (gradf x) (vsub z x) + L / 2 * dist2 z x.

(** The step [t] along [d] from [x] decreases [f] sufficiently (Armijo) and is not too short:
    either Wolfe's curvature condition holds or the step is at least [tmin]. *)
Definition efficient_step (c1 c2 tmin : R) (f : vec -> R) (gradf : vec -> vec) (x d : vec) (t : R) : Prop :=
  let z := vadd x (smul t d) in
  0 < t /\ f z <= f x + c1 * t * dot (gradf x) d /\ (c2 * dot (gradf x) d <= dot (gradf z) d \/ tmin <= t).

(** A search that, from a positive initial step, returns a point of the line with its value and
    its gradient. *)
Definition ls_consistent_pos (f : vec -> R) (gradf : vec -> vec) (ls : line_search) : Prop :=
  forall s0 x v g d, 0 < s0 -> let o := ls s0 x v g d in
    ls_params o = vadd x (smul (ls_step o) d) /\ ls_value o = f (ls_params o) /\ ls_grad o = gradf (ls_params o).

(** Bounds of the eigenvalues of the L-BFGS matrix with [m] pairs of memory. *)
Definition eig_lower (L : R) (m : nat) : R := / (Rmax 1 L + INR m * L).
Fixpoint eig_upper (mu L : R) (m : nat) : R :=
  match m with O => Rmax 1 (/ mu) | S j => L / mu * eig_upper mu L j + / mu end.
Definition eig_bounds (n : nat) (lo hi : R) (H : mat) : Prop :=
  forall v, length v = n -> lo * dot v v <= dot v (mvec H v) <= hi * dot v v.

(** The smallest step that Wolfe's curvature condition lets through, when the largest eigenvalue
    is [hi]; and the factor by which the gap decreases in one iteration with steps above [floor]. *)
Definition wolfe_floor (c2 L hi : R) : R := (1 - c2) / (L * hi).
Definition gap_factor (mu c1 floor lo : R) : R := 1 - 2 * mu * c1 * floor * lo.
(** The smallest step that Armijo backtracking can return: the largest trial step or one
    decrease below the threshold under which every step is accepted. *)
Definition armijo_floor (c1 df smax L hi : R) : R := Rmin smax (df * (2 * (1 - c1) / (L * hi))).
