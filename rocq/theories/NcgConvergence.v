(** Convergence of NonlinearCG: the vocabulary of the statements (the model is in NonlinearCG.v). *)
From Coq Require Import String.
From Coq Require Import Reals List.
From Verif Require Import Prelude Vec Mat Zoom Run QuasiNewton NonlinearCG.
Import ListNotations.
Local Open Scope string_scope.
Open Scope R_scope.

(** The gradient is L-Lipschitz (no convexity). *)
Definition lipschitz_gradient (n : nat) (L : R) (gradf : vec -> vec) : Prop :=
  0 < L /\ grad_dim n gradf /\
  forall x z, length x = n -> length z = n ->
    dot (vsub (gradf z) (gradf x)) (vsub (gradf z) (gradf x)) <= L * L * dist2 z x.

(** The strong Wolfe conditions for the step [t] along [d] from [x]. *)
Definition strong_wolfe (c1 c2 : R) (f : vec -> R) (gradf : vec -> vec) (x d : vec) (t : R) : Prop :=
  let z := vadd x (smul t d) in
  0 < t /\ f z <= f x + c1 * t * dot (gradf x) d /\ Rabs (dot (gradf z) d) <= c2 * Rabs (dot (gradf x) d).

(** The iterates of the solver. *)
Definition ncg_seq (f : vec -> R) (gradf : vec -> vec) (ls : line_search) (cfg : ncg_config)
    (xs : nat -> vec) (sts : nat -> ncg_state) (K : nat) : Prop :=
  forall k, (k <= K)%nat -> ncg_after f gradf ls cfg k (xs O) = Ok (xs k, sts k).

(** The direction that update() searches: the conjugate direction, except with
    linesearch="backtracking" (see C47_backtracking_refuted). *)
Definition searched_direction (cfg : ncg_config) (st : ncg_state) : vec :=
  match c_linesearch cfg with
  | LsName s => if string_dec s "backtracking" then smul (-1) (c_grad st) else c_direction st
  | LsInstance _ => c_direction st
  end.

(** A line search that always finds a step meeting the strong Wolfe conditions along a descent
    direction. *)
Definition strong_wolfe_search (n : nat) (c1 c2 : R) (f : vec -> R) (gradf : vec -> vec) (ls : line_search) : Prop :=
  forall s0 x d, 0 < s0 -> length x = n -> length d = n -> dot (gradf x) d < 0 ->
    strong_wolfe c1 c2 f gradf x d (ls_step (ls s0 x (f x) (gradf x) d)).

Fixpoint sum_below (K : nat) (u : nat -> R) : R := match K with O => 0 | S k => sum_below k u + u k end.

(** Constant of the bound for Fletcher-Reeves. *)
Definition fr_constant (L c1 c2 : R) : R :=
  c1 * (1 - c2) * ((1 - 2 * c2) / (1 - c2)) ^ 2 / (L * ((1 + c2) / (1 - c2))).

(** The defaults of NonlinearCG (nonlinear_cg.py:114-136, zoom_linesearch.py:231-249). *)
Definition default_zoom : zoom_config :=
  {| zc1 := 1 / 10000; zc2 := 9 / 10; zc3 := 1 / 1000000; rel_tol_cubic := 2 / 10; rel_tol_quad := 1 / 10;
     interval_threshold := 1 / 1000000; increase_factor := 2; ztol := 0; zmaxiter := 30; max_stepsize_arg := Some 1 |}.
Definition default_ncg (method : string) : ncg_config :=
  {| c_method := method; c_linesearch := LsName "zoom"; c_linesearch_init := "increase"; c_increase_factor := 6 / 5; c_max_stepsize := 1; c_min_stepsize := 1 / 1000000; c_tol := 1 / 1000 |}.
(** A line search used for a counterexample: step 1/10 from a point at or above 1, step 1 below. *)
Definition ladder_ls (f : vec -> R) (gradf : vec -> vec) : line_search := fun s0 x v g d =>
  let t := if Rleb 1 (nth 0 x 0) then 1 / 10 else 1 in
  let p := vadd x (smul t d) in {| ls_step := t; ls_params := p; ls_value := f p; ls_grad := gradf p; ls_failed := false |}.
