(** Model of projection_box_section (jaxopt/_src/projection.py:408-461). *)
From Coq Require Import Reals List ZArith Bool Lra.
From Verif Require Import Prelude Loop Base Vec Proj Prox Bisection.
Import ListNotations.
Open Scope R_scope.

(** jnp.min / jnp.max of a non-empty vector (0 on the empty one, which JAX rejects). *)
Definition vmin (l : vec) : R := match l with [] => 0 | a :: l' => fold_right Rmin a l' end.
Definition vmax (l : vec) : R := match l with [] => 0 | a :: l' => fold_right Rmax a l' end.

(** projection.py:413 and 461: clip(w * tau + x, alpha, beta) *)
Definition section_point (x alpha beta w : vec) (tau : R) : vec :=
  projection_box (vadd (smul tau w) x) alpha beta.

(** projection.py:408-414 [_optimality_fun_proj_box_sec] *)
Definition section_fun (x alpha beta w : vec) (c : R) (tau : R) : R :=
  dot w (section_point x alpha beta w tau) - c.

(** projection.py:419-420 *)
Definition section_lower (x alpha w : vec) : R := vmin (map2 Rdiv (vsub alpha x) w).
Definition section_upper (x beta w : vec) : R := vmax (map2 Rdiv (vsub beta x) w).

(** Defaults of Bisection (bisection.py:66-72): maxiter 30, tol 1e-5, jit, auto unroll. *)
Definition bisection_tol : R := / 100000.
Definition bisection_maxiter : Z := 30.

(** projection.py:417-461 [_root_proj_box_sec] and [projection_box_section] *)
Definition projection_box_section (x alpha beta w : vec) (c : R) (check_feasible : bool)
    (r : result vec) : Prop :=
  if check_feasible && (if Rlt_dec c (dot w alpha) then true else false) then r = Err ValueError
  else if check_feasible && (if Rlt_dec (dot w beta) c then true else false) then r = Err ValueError
  else exists res,
    bis_run (section_fun x alpha beta w c) (section_lower x alpha w) (section_upper x beta w)
      bisection_tol bisection_maxiter false UnrollAuto true res /\
    r = match res with
        | Err e => Err e
        | Ok (tau, _) => Ok (section_point x alpha beta w tau)
        end.

(** Specification: the box section. *)
Definition box_section (alpha beta w : vec) (c : R) (q : vec) : Prop :=
  box alpha beta q /\ dot w q = c.
