(** Model of osqp.BoxOSQP on extended numbers: ADMM step, step-size update, termination and
    infeasibility tests, run.  One leaf per pytree; params_obj = (Q, c), params_eq = A dense. *)
From Coq Require Import Reals List Lra Lia Bool Arith.
From Verif Require Import Prelude Vec Mat XArith Loop Run.
Import ListNotations.
Open Scope R_scope.

(** osqp.py:429-432 status codes *)
Inductive osqp_status := UNSOLVED | SOLVED | DUAL_INFEASIBLE | PRIMAL_INFEASIBLE.
(** osqp.py:408-423: the attributes used by the algorithm; [check] is check_primal_dual_infeasability
    after __post_init__ ("auto" becomes not jit, osqp.py:814-815) *)
Record osqp_config := {
  check_infeas : bool; sigma : R; momentum : R; rho_start : R; rho_min : R; rho_max : R; step_freq : nat;
  primal_tol : R; dual_tol : R; osqp_maxiter : nat; osqp_tol : R; term_freq : nat; osqp_jit : bool
}.
(** osqp.py:408-428: the defaults, as a function of jit (check_primal_dual_infeasability = "auto") *)
Definition default_osqp (jit : bool) : osqp_config :=
  {| check_infeas := negb jit; sigma := 1 / 1000000; momentum := 16 / 10; rho_start := 1 / 10; rho_min := 1 / 1000000; rho_max := 1000000; step_freq := 10;
     primal_tol := 1 / 1000; dual_tol := 1 / 1000; osqp_maxiter := 4000; osqp_tol := 1 / 1000; term_freq := 5; osqp_jit := jit |}.
(** base.KKTSolution((x, z), y, (mu, phi)) *)
Record box_params := { bx : xvec; bz : xvec; by_ : xvec; bmu : xvec; bphi : xvec }.
(** osqp.py:151, 224-230, 256, 278-284: state of the linear solver: last solution (indirect solver) and the rho_bar of
    the system (for 'lu': of the factorised matrix) *)
Record lin_state := { ss_prev : xvec; ss_rho : xnum }.
(** osqp.py:132-151 [BoxOSQPState] *)
Record box_state := {
  o_iter : nat; o_error : xnum; o_status : osqp_status; o_pres : xvec; o_dres : xvec; o_rho : xnum; o_lin : lin_state
}.

(** tree_util.py:185 [tree_inf_norm] (non-empty arrays) *)
Definition xinf_norm (v : xvec) : xnum := xvmax (map xabs v).
(** jnp.clip: minimum(maximum(x, lower), upper) *)
Definition xclip (x lower upper : xnum) : xnum := xmin (xmax x lower) upper.
(** osqp.py:46-48 [projection_box] *)
Fixpoint box_clip (x l u : xvec) : xvec :=
  match x, l, u with a :: x', b :: l', c :: u' => xclip a b c :: box_clip x' l' u' | _, _, _ => [] end.
(** jax.nn.relu *)
Definition xrelu (x : xnum) : xnum := xmax x (Fin 0).
(** li == -inf, ui == inf *)
Definition is_ninf (x : xnum) : bool := match x with NInf => true | _ => false end.
Definition is_pinf (x : xnum) : bool := match x with PInf => true | _ => false end.
(** osqp.py:497-515 [_get_full_KKT_solution] *)
Definition full_kkt (x z y : xvec) : box_params :=
  {| bx := x; bz := z; by_ := y;
     bmu := map (fun yi => if xle (Fin 0) yi then yi else Fin 0) y;
     bphi := map (fun yi => xrelu (xopp yi)) y |}.

Section Box.
Variable n : nat.                   (* number of primal variables *)
Variable Q : mat.                   (* params_Q: matvec_Q is the dense operator *)
Variable c : vec.
Variable A : mat.                   (* params_eq *)
Variable l u : xvec.                (* params_ineq; entries may be infinite *)
Variable eps_div : R.               (* jnp.finfo(dtype).eps *)
(** osqp.py:231-256 [OSQPIndirectSolver.run], 281-292 [OSQPLUSolver.run]: solves
    (Q + sigma I + rho A^T A) x = b, given rho, the previous solution and b *)
Variable lin_solve : xnum -> xvec -> xvec -> xvec.
Variable cfg : osqp_config.
Notation Qop := (xmvec (finm Q)).
Notation Aop := (xmvec (finm A)).
Notation ATop := (xtvec n (finm A)).

(** osqp.py:529-534 [_compute_residuals] *)
Definition residuals (x z y : xvec) : xvec * xvec := (xvsub (Aop x) z, xvadd (xvadd (Qop x) (fin c)) (ATop y)).
(** osqp.py:434-469 [init_state] *)
Definition box_init_state (p : box_params) : box_state :=
  let '(pr, dr) := residuals (bx p) (bz p) (by_ p) in
  {| o_iter := 0; o_error := PInf; o_status := UNSOLVED; o_pres := pr; o_dres := dr; o_rho := Fin (rho_start cfg);
     o_lin := {| ss_prev := bx p; ss_rho := Fin (rho_start cfg) |} |}.
(** osqp.py:471-495 [init_params]; no init_x: zeros like c *)
Definition box_init_params (init_x : option xvec) : box_params :=
  let x := match init_x with Some x => x | None => xvzero n end in
  let z := box_clip (Aop x) l u in
  let y := xvzero (length z) in
  {| bx := x; bz := z; by_ := y; bmu := y; bphi := y |}.
(** osqp.py:517-527 [_update_stepsize] *)
Definition new_rho (rho_bar : xnum) (pres dres x y : xvec) : xnum :=
  let primal_coef := xdivx (xinf_norm pres) (xinf_norm (Aop x)) in
  let max_inf := xmax (xinf_norm (Qop x)) (xmax (xinf_norm (ATop y)) (xinf_norm (fin c))) in
  let dual_coef := xdivx (xinf_norm dres) max_inf in
  let coef := xsqrt (xdivx primal_coef (xadd dual_coef (Fin eps_div))) in
  xclip (xmul rho_bar coef) (Fin (rho_min cfg)) (Fin (rho_max cfg)).
Definition update_stepsize (rho_bar : xnum) (ss : lin_state) (pres dres x y : xvec) : xnum * lin_state :=
  let rho_bar := new_rho rho_bar pres dres x y in
  (rho_bar, {| ss_prev := ss_prev ss; ss_rho := rho_bar |}).
(** osqp.py:536-542 [_compute_error] *)
Definition compute_error (pres dres : xvec) : xnum * osqp_status :=
  let criterion := xmax (xinf_norm pres) (xinf_norm dres) in
  (criterion, if xle criterion (Fin (osqp_tol cfg)) then SOLVED else UNSOLVED).
(** osqp.py:544-568 [_check_dual_infeasability] *)
Fixpoint certif_box (adx l u : xvec) (criterion : xnum) : bool :=
  match adx, l, u with
  | a :: adx', li :: l', ui :: u' =>
      (xle (if is_ninf li then NInf else xopp criterion) a && xle a (if is_pinf ui then PInf else criterion) && certif_box adx' l' u' criterion)%bool
  | _, _, _ => true
  end.
Definition check_dual (es : xnum * osqp_status) (dx adx : xvec) : xnum * osqp_status :=
  let criterion := xmul (Fin (dual_tol cfg)) (xinf_norm dx) in
  let certif_Q := xinf_norm (Qop dx) in
  let certif_c := xdot (fin c) dx in
  if (xle certif_Q criterion && xle certif_c criterion && certif_box adx l u criterion)%bool
  then (Fin 0, DUAL_INFEASIBLE) else es.
(** osqp.py:570-588 [_check_primal_infeasability] *)
Definition check_primal (es : xnum * osqp_status) (dy atdy : xvec) : xnum * osqp_status :=
  let criterion := xmul (Fin (primal_tol cfg)) (xinf_norm dy) in
  let certif_A := xinf_norm atdy in
  let bounded_l := map (fun li => if is_ninf li then Fin 0 else li) l in
  let bounded_u := map (fun ui => if is_pinf ui then Fin 0 else ui) u in
  let dy_plus := map xrelu dy in
  let dy_minus := map (fun d => xopp (xrelu (xopp d))) dy in
  let certif_lu := xadd (xdot bounded_l dy_minus) (xdot bounded_u dy_plus) in
  if (xle certif_A criterion && xle certif_lu criterion)%bool then (Fin 0, PRIMAL_INFEASIBLE) else es.
(** osqp.py:590-605 [_check_infeasability], [_check_termination_conditions] *)
Definition check_termination (pres dres : xvec) (old new : box_params) : xnum * osqp_status :=
  let es := compute_error pres dres in
  if check_infeas cfg then
    let dx := xvsub (bx new) (bx old) in
    let dy := xvsub (by_ new) (by_ old) in
    check_primal (check_dual es dx (Aop dx)) dy (ATop dy)
  else es.
(** osqp.py:607-632 [_solve_linear_system] *)
Definition linear_rhs (x z y : xvec) (rho_bar : xnum) : xvec :=
  let bxq := xvsub (xsmul (Fin (sigma cfg)) x) (fin c) in
  let byz := xvadd y (xsmul (xopp rho_bar) z) in
  xvsub bxq (ATop byz).
(** osqp.py:634-663 [_admm_step] *)
Definition admm_step (p : box_params) (rho_bar : xnum) (ss : lin_state) : xvec * xvec * xvec * lin_state :=
  let x := bx p in let z := bz p in let y := by_ p in
  let x_bar := lin_solve (ss_rho ss) (ss_prev ss) (linear_rhs x z y rho_bar) in
  let z_bar := Aop x_bar in
  let x_next := xvadd x (xsmul (Fin (momentum cfg)) (xvsub x_bar x)) in
  let z_momentum := xvadd z (xsmul (Fin (momentum cfg)) (xvsub z_bar z)) in
  let z_step := xsmul (xdivx (Fin 1) rho_bar) y in
  let z_free := xvadd z_momentum z_step in
  let z_next := box_clip z_free l u in
  let y_step := xvsub z_momentum z_next in
  let y_next := xvadd y (xsmul rho_bar y_step) in
  (x_next, z_next, y_next, {| ss_prev := x_bar; ss_rho := ss_rho ss |}).
(** osqp.py:665-742 [update] *)
Definition box_update (s : box_params * box_state) : result (box_params * box_state) :=
  let '(p, st) := s in
  let rho_bar := o_rho st in
  let '(x, z, y, ss) := admm_step p rho_bar (o_lin st) in
  let '(pres, dres) := residuals x z y in
  let '(rho', ss') := if Nat.eqb (Nat.modulo (o_iter st) (step_freq cfg)) 0 then update_stepsize rho_bar ss pres dres x y else (rho_bar, ss) in
  let sol := full_kkt x z y in
  let '(error, status) := if Nat.eqb (Nat.modulo (o_iter st) (term_freq cfg)) 0 then check_termination pres dres p sol else (o_error st, o_status st) in
  if (negb (osqp_jit cfg) && match status with PRIMAL_INFEASIBLE | DUAL_INFEASIBLE => true | _ => false end)%bool then Err ValueError
  else Ok (sol, {| o_iter := S (o_iter st); o_error := error; o_status := status; o_pres := pres; o_dres := dres; o_rho := rho'; o_lin := ss' |}).
(** base.py:296-332 [_run]; an exception ends the loop *)
Definition box_step (r : result (box_params * box_state)) : result (box_params * box_state) :=
  match r with Ok s => box_update s | Err e => Err e end.
Definition box_cond (r : result (box_params * box_state)) : bool :=
  match r with Ok (_, st) => xgtb (o_error st) (osqp_tol cfg) | Err _ => false end.
Definition box_run_from (p : box_params) : result (box_params * box_state) :=
  run_loop (osqp_maxiter cfg) box_cond box_step (Ok (p, box_init_state p)).
(** osqp.py:744-769 [run] *)
Definition box_run (init : option box_params) : result (box_params * box_state) :=
  box_run_from (match init with Some p => p | None => box_init_params None end).
End Box.

(** ** Specification: the quadratic program  min 1/2 x'Qx + c'x  s.t.  l <= A x <= u *)
Definition lower_ok (li : xnum) (t : R) : Prop := match li with NInf => True | Fin a => a <= t | _ => False end.
Definition upper_ok (ui : xnum) (t : R) : Prop := match ui with PInf => True | Fin a => t <= a | _ => False end.
Definition in_box (l u : xvec) (z : vec) : Prop :=
  length z = length l /\ forall i, (i < length l)%nat -> lower_ok (nth i l NaN) (nth i z 0) /\ upper_ok (nth i u NaN) (nth i z 0).
(** y is normal to the box at z *)
Definition normal_to_box (l u : xvec) (y z : vec) : Prop :=
  length y = length z /\ forall w, in_box l u w -> dot y (vsub w z) <= 0.
Definition qp_objective (Q : mat) (c x : vec) : R := 1 / 2 * dot x (mvec Q x) + dot c x.
Definition qp_feasible (A : mat) (l u : xvec) (x : vec) : Prop := in_box l u (mvec A x).
Definition qp_solution (n : nat) (Q : mat) (c : vec) (A : mat) (l u : xvec) (x : vec) : Prop :=
  length x = n /\ qp_feasible A l u x /\ forall w, length w = n -> qp_feasible A l u w -> qp_objective Q c x <= qp_objective Q c w.
(** primal and dual solution *)
Definition qp_kkt (n : nat) (Q : mat) (c : vec) (A : mat) (l u : xvec) (x y : vec) : Prop :=
  length x = n /\ qp_feasible A l u x /\ normal_to_box l u y (mvec A x) /\ vadd (vadd (mvec Q x) c) (tvec n A y) = vzero n.
(** a well-formed convex problem with n variables and m constraints, l_i <= u_i *)
Definition psd (n : nat) (Q : mat) : Prop := forall v, length v = n -> 0 <= dot v (mvec Q v).
Record qp_problem (m n : nat) (Q : mat) (c : vec) (A : mat) (l u : xvec) : Prop := {
  qp_Q : mat_shape n n Q; qp_sym : symmetric n Q; qp_psd : psd n Q; qp_c : length c = n; qp_A : mat_shape m n A;
  qp_l : length l = m; qp_u : length u = m; qp_pos : (0 < n)%nat /\ (0 < m)%nat;
  qp_box : forall i, (i < m)%nat -> match nth i l NaN, nth i u NaN with NInf, PInf | NInf, Fin _ | Fin _, PInf => True | Fin a, Fin b => a <= b | _, _ => False end
}.
(** the inner solver is exact: it solves (Q + sigma I + rho A^T A) s = b whatever the warm start *)
Definition lin_exact (n : nat) (Q A : mat) (sig : R) (lin_solve : xnum -> xvec -> xvec -> xvec) : Prop :=
  forall rho prev b, 0 < rho -> length b = n -> exists s, lin_solve (Fin rho) prev (fin b) = fin s /\ length s = n /\
    vadd (vadd (mvec Q s) (smul sig s)) (smul rho (tvec n A (mvec A s))) = b.
(** maximum modulus *)
Definition is_inf_norm (v : vec) (e : R) : Prop := (forall i, (i < length v)%nat -> Rabs (nth i v 0) <= e) /\ exists i, (i < length v)%nat /\ e = Rabs (nth i v 0).
(** the same options with another iteration budget and another period of step-size updates *)
Definition with_budget (cfg : osqp_config) (maxiter freq : nat) : osqp_config :=
  {| check_infeas := check_infeas cfg; sigma := sigma cfg; momentum := momentum cfg; rho_start := rho_start cfg; rho_min := rho_min cfg; rho_max := rho_max cfg;
     step_freq := freq; primal_tol := primal_tol cfg; dual_tol := dual_tol cfg; osqp_maxiter := maxiter; osqp_tol := osqp_tol cfg; term_freq := term_freq cfg; osqp_jit := osqp_jit cfg |}.
(** the same options with another value of jit *)
Definition with_jit (cfg : osqp_config) (jit : bool) : osqp_config :=
  {| check_infeas := check_infeas cfg; sigma := sigma cfg; momentum := momentum cfg; rho_start := rho_start cfg; rho_min := rho_min cfg; rho_max := rho_max cfg;
     step_freq := step_freq cfg; primal_tol := primal_tol cfg; dual_tol := dual_tol cfg; osqp_maxiter := osqp_maxiter cfg; osqp_tol := osqp_tol cfg; term_freq := term_freq cfg; osqp_jit := jit |}.
(** admissible options: the documented ranges *)
Definition good_options (cfg : osqp_config) : Prop :=
  0 < sigma cfg /\ 0 < momentum cfg < 2 /\ 0 < rho_start cfg /\ 0 < rho_min cfg /\ rho_min cfg <= rho_max cfg /\ 0 < osqp_tol cfg /\ (0 < term_freq cfg)%nat /\ (0 < step_freq cfg)%nat.
(** finite parameters of the right sizes *)
Definition finite_params (m n : nat) (p : box_params) (x z y : vec) : Prop :=
  bx p = fin x /\ bz p = fin z /\ by_ p = fin y /\ length x = n /\ length z = m /\ length y = m.
(** ** Infeasibility certificates *)
(** sum over i of u_i max(d_i, 0) + l_i min(d_i, 0), infinite bounds contributing nothing *)
Fixpoint bound_sum (l u : xvec) (d : vec) : R :=
  match l, u, d with
  | li :: l', ui :: u', t :: d' =>
      (match ui with Fin b => b * Rmax t 0 | _ => 0 end) + (match li with Fin a => a * - Rmax (- t) 0 | _ => 0 end) + bound_sum l' u' d'
  | _, _, _ => 0
  end.
(** d uses no infinite bound: d_i <= 0 where u_i = inf, d_i >= 0 where l_i = -inf *)
Definition supported (l u : xvec) (d : vec) : Prop :=
  forall i, (i < length l)%nat -> (nth i u NaN = PInf -> nth i d 0 <= 0) /\ (nth i l NaN = NInf -> 0 <= nth i d 0).
(** approximate certificate that no x has l <= A x <= u *)
Definition primal_certificate (n : nat) (A : mat) (l u : xvec) (eps : R) (dy : vec) : Prop :=
  exists e, is_inf_norm dy e /\ (forall j, (j < n)%nat -> Rabs (nth j (tvec n A dy) 0) <= eps * e) /\ bound_sum l u dy <= eps * e.
(** approximate certificate that the objective is unbounded along dx *)
Definition dual_certificate (Q : mat) (c : vec) (A : mat) (l u : xvec) (eps : R) (dx : vec) : Prop :=
  exists e, is_inf_norm dx e /\ (forall j, (j < length c)%nat -> Rabs (nth j (mvec Q dx) 0) <= eps * e) /\ dot c dx <= eps * e /\
    forall i, (i < length l)%nat -> (nth i l NaN <> NInf -> - (eps * e) <= nth i (mvec A dx) 0) /\ (nth i u NaN <> PInf -> nth i (mvec A dx) 0 <= eps * e).
Definition norm1 (v : vec) : R := vsum (map Rabs v).
(** all entries NaN *)
Definition all_nan (v : xvec) : Prop := v = repeat NaN (length v).
