(** Model of iterative_refinement.py. *)
From Coq Require Import Reals List Lra Lia Bool Arith.
From Verif Require Import Prelude Vec Mat LinSolve Run.
Import ListNotations.
Open Scope R_scope.

(** iterative_refinement.py:40-58 [IterativeRefinementState] (evaluation counters omitted: they are
    iter_num) *)
Record ir_state := { ir_iter : nat; ir_error : xnum; ir_target : vec; ir_init : vec }.

Section IterRefine.
(** [A] is matvec_A(A); [A_bar_opt] is matvec_A_bar(A_bar), None if the constructor got no
    matvec_A_bar.  [solve] takes the operator, the right-hand side and its warm start. *)
Variable solve : (vec -> vec) -> vec -> vec -> vec.
Variable A : vec -> vec.
Variable A_bar_opt : option (vec -> vec).
Variable b : vec.

(** iterative_refinement.py:122-135 *)
Definition ir_init_state (init_params : vec) : ir_state :=
  {| ir_iter := 0; ir_error := PInf; ir_target := b; ir_init := init_params |}.
(** iterative_refinement.py:137-141 *)
Definition ir_init_params : vec := vzero (length b).
(** iterative_refinement.py:143-180 [update] *)
Definition ir_update (s : vec * ir_state) : vec * ir_state :=
  let '(params, state) := s in
  let A_bar := match A_bar_opt with None => A | Some f => f end in
  let residual_sol := solve A_bar (ir_target state) (ir_init state) in
  let params := vadd params residual_sol in
  let target_residuals := vsub b (A params) in
  let error := norm2 target_residuals in
  (params, {| ir_iter := S (ir_iter state); ir_error := Fin error; ir_target := target_residuals; ir_init := ir_init_params |}).
(** iterative_refinement.py:178-196 [run], base.py:264-266 [_cond_fun] *)
Definition ir_run (tol : R) (maxiter : nat) (init_params : option vec) : vec * ir_state :=
  let init := match init_params with None => ir_init_params | Some i => i end in
  run_loop maxiter (fun s => xgtb (ir_error (snd s)) tol) ir_update (init, ir_init_state init).
(** iterative_refinement.py:198-205 [optimality_fun], 212-218 *)
Definition ir_optimality (params : vec) : vec := vsub b (A params).
End IterRefine.
(** iterative_refinement.py:228-253 [solve_iterative_refinement] *)
Definition solve_iterative_refinement (solve : (vec -> vec) -> vec -> vec -> vec) (matvec : vec -> vec) (b : vec)
    (init : option vec) (maxiter : nat) (tol : R) : vec :=
  fst (ir_run solve matvec None b tol maxiter init).

(** ** Specification *)
(** Whatever the right-hand side r, the solve (of A_bar x = r) leaves a residual A-residual of at
    most q |r|. *)
Definition reduces (n : nat) (A : vec -> vec) (q : R) (solve : vec -> vec -> vec) : Prop :=
  forall r i, length r = n -> length i = n ->
    length (solve r i) = n /\ norm2 (vsub r (A (solve r i))) <= q * norm2 r.
(** k updates of a fresh run *)
Definition ir_after solve A A_bar b x0 k := Nat.iter k (ir_update solve A A_bar b) (x0, ir_init_state b x0).
