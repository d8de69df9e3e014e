(** Model of osqp.OSQP_to_BoxOSQP, osqp.OSQP and of the [fun] mode of BoxOSQP. *)
From Coq Require Import Reals List ZArith Lra Lia Bool Arith.
From Verif Require Import Prelude Vec Mat XArith Loop Run Osqp.
Import ListNotations.
Open Scope R_scope.

(** base.KKTSolution(primal, dual_eq, dual_ineq) of OSQP: None for an absent block *)
Record osqp_params := { q_primal : xvec; q_dual_eq : option xvec; q_dual_ineq : option xvec }.
(** params_eq = (A, b) or None; params_ineq = (G, h) or None *)
Notation block := (option (mat * vec)).
Definition rows (o : block) : mat := match o with Some (M, _) => M | None => [] end.
Definition rhs (o : block) : vec := match o with Some (_, b) => b | None => [] end.
(** the box problem: A_box, l, u *)
Record box_form := { f_A : mat; f_l : xvec; f_u : xvec }.
(** osqp.py:871-890: [eq_size] and [ineq_neg_size] *)
Definition sizes := (option Z * option Z)%type.

(** osqp.py:848-905 [transform], matvec_A_box = None: the rows are concatenated.  A dual variable that
    is None although its constraints are present makes the concatenation fail: [Unspecified]. *)
Definition transform (params : option osqp_params) (eq ineq : block) : result (option box_params * box_form * sizes) :=
  match eq, ineq with
  | None, None => Err ValueError
  | _, _ =>
      let eq_size := match eq with Some (_, b) => Some (Z.of_nat (length b)) | None => None end in
      let ineq_neg_size := match ineq with Some (_, h) => Some (- Z.of_nat (length h))%Z | None => None end in
      let l := (match eq with Some (_, b) => fin b | None => [] end) ++ (match ineq with Some (_, h) => map (fun _ => xmul NInf (Fin 1)) h | None => [] end) in
      let u := (match eq with Some (_, b) => fin b | None => [] end) ++ (match ineq with Some (_, h) => fin h | None => [] end) in
      let A_box := rows eq ++ rows ineq in
      let form := {| f_A := A_box; f_l := l; f_u := u |} in
      match params with
      | None => Ok (None, form, (eq_size, ineq_neg_size))
      | Some p =>
          let ye := match eq with Some _ => q_dual_eq p | None => Some [] end in
          let yi := match ineq with Some _ => q_dual_ineq p | None => Some [] end in
          match ye, yi with
          | Some ye, Some yi =>
              let z := xmvec (finm A_box) (q_primal p) in
              Ok (Some (full_kkt (q_primal p) z (ye ++ yi)), form, (eq_size, ineq_neg_size))
          | _, _ => Err Unspecified
          end
      end
  end.
(** Python slices leaf[:s] for s > 0, and leaf[s:] for s <= 0 *)
Definition slice_from (leaf : xvec) (s : Z) : xvec :=
  if (s <? 0)%Z then skipn (length leaf - Z.to_nat (- s)) leaf else skipn (Z.to_nat s) leaf.
(** osqp.py:907-913 [_pytree_split] *)
Definition pytree_split (leaf : xvec) (slice : option Z) : option xvec :=
  match slice with
  | None => None
  | Some s => Some (if (s >? 0)%Z then firstn (Z.to_nat s) leaf else slice_from leaf s)
  end.
(** osqp.py:915-932 [inverse_transform], matvec_A_box = None *)
Definition inverse_transform (sz : sizes) (sol : box_params) : osqp_params :=
  let '(eq_size, ineq_neg_size) := sz in
  {| q_primal := bx sol; q_dual_eq := pytree_split (by_ sol) eq_size; q_dual_ineq := pytree_split (bmu sol) ineq_neg_size |}.
(** the same with matvec_A or matvec_G given: the dual variables of the box problem are lists of one
    or two blocks; [box_dual_eq[0]] and [box_mu[-1]] *)
Definition inverse_transform_blocks (sz : sizes) (x : xvec) (y mu : list xvec) : osqp_params :=
  let '(eq_size, ineq_neg_size) := sz in
  {| q_primal := x; q_dual_eq := pytree_split (hd [] y) eq_size; q_dual_ineq := pytree_split (last mu []) ineq_neg_size |}.

Section Run.
Variable n : nat.
Variable Q : mat.
Variable c : vec.
Variable eps_div : R.
Variable lin_solve : mat -> xnum -> xvec -> xvec -> xvec.  (* for a given A_box *)
Variable cfg : osqp_config.
(** osqp.py:1027-1043 [OSQP.init_params] *)
Definition osqp_init_params (init_x : option xvec) (eq ineq : block) : result osqp_params :=
  match transform None eq ineq with
  | Err e => Err e
  | Ok (_, f, sz) => Ok (inverse_transform sz (box_init_params n (f_A f) (f_l f) (f_u f) init_x))
  end.
(** osqp.py:1045-1079 [OSQP.run] *)
Definition osqp_run (init : option osqp_params) (eq ineq : block) : result (osqp_params * box_state) :=
  match (match init with Some p => Ok p | None => osqp_init_params None eq ineq end) with
  | Err e => Err e
  | Ok p0 =>
      match transform (Some p0) eq ineq with
      | Err e => Err e
      | Ok (bp, f, sz) =>
          match box_run n Q c (f_A f) (f_l f) (f_u f) eps_div (lin_solve (f_A f)) cfg bp with
          | Err e => Err e
          | Ok (sol, st) => Ok (inverse_transform sz sol, st)
          end
      end
  end.
End Run.

(** projection.py:398-406: [OSQP(matvec_Q=identity, check_primal_dual_infeasability=check_feasible)],
    other options default (jit=True) *)
Definition polyhedron_config (check_feasible : bool) (jit : bool) : osqp_config :=
  let d := default_osqp jit in
  {| check_infeas := check_feasible; sigma := sigma d; momentum := momentum d; rho_start := rho_start d; rho_min := rho_min d; rho_max := rho_max d; step_freq := step_freq d;
     primal_tol := primal_tol d; dual_tol := dual_tol d; osqp_maxiter := osqp_maxiter d; osqp_tol := osqp_tol d; term_freq := term_freq d; osqp_jit := osqp_jit d |}.
(** projection.py:377-405 [projection_polyhedron] *)
Definition projection_polyhedron (eps_div : R) (lin_solve : mat -> xnum -> xvec -> xvec -> xvec) (x : vec) (A : mat) (b : vec) (G : mat) (h : vec) (check_feasible : bool) : result xvec :=
  let n := length x in
  match osqp_run n (eye n) (smul (-1) x) eps_div lin_solve (polyhedron_config check_feasible true) None (Some (A, b)) (Some (G, h)) with
  | Err e => Err e
  | Ok (sol, st) =>
      if (check_feasible && match o_status st with PRIMAL_INFEASIBLE | DUAL_INFEASIBLE => true | _ => false end)%bool then Err ValueError
      else Ok (q_primal sol)
  end.

(** osqp.py:50-75 [extract_Qc_from_obj], fun given; [grad f] is jax.grad *)
Definition extract_c (grad : (vec -> R) -> vec -> vec) (n : nat) (f : vec -> R) : vec := grad f (vzero n).
(** osqp.py:786-796 [matvec_Q] of the fun mode *)
Definition fun_matvec (grad : (vec -> R) -> vec -> vec) (f : vec -> R) (c x : vec) : vec :=
  grad (fun xx => f xx - dot c xx) x.

(** ** Specification *)
(** A x = b and G x <= h, absent blocks imposing nothing *)
Definition osqp_feasible (eq ineq : block) (x : vec) : Prop :=
  mvec (rows eq) x = rhs eq /\ forall i, (i < length (rhs ineq))%nat -> nth i (mvec (rows ineq) x) 0 <= nth i (rhs ineq) 0.
(** the KKT conditions of min 1/2 x'Qx + c'x s.t. A x = b, G x <= h *)
Definition osqp_kkt (n : nat) (Q : mat) (c : vec) (eq ineq : block) (x ye yi : vec) : Prop :=
  length x = n /\ length ye = length (rhs eq) /\ length yi = length (rhs ineq) /\ osqp_feasible eq ineq x /\
  vadd (vadd (mvec Q x) c) (vadd (tvec n (rows eq) ye) (tvec n (rows ineq) yi)) = vzero n /\
  forall i, (i < length yi)%nat -> 0 <= nth i yi 0 /\ nth i yi 0 * (nth i (rhs ineq) 0 - nth i (mvec (rows ineq) x) 0) = 0.
(** well-formed problems: every block present has at least one row *)
Record osqp_problem (n : nat) (Q : mat) (c : vec) (eq ineq : block) : Prop := {
  op_Q : mat_shape n n Q; op_sym : symmetric n Q; op_psd : psd n Q; op_c : length c = n; op_n : (0 < n)%nat;
  op_eq : mat_shape (length (rhs eq)) n (rows eq) /\ (eq <> None -> (0 < length (rhs eq))%nat);
  op_ineq : mat_shape (length (rhs ineq)) n (rows ineq) /\ (ineq <> None -> (0 < length (rhs ineq))%nat);
  op_some : eq <> None \/ ineq <> None
}.
(** the duals of a block, None when it is absent *)
Definition present (o : block) (y : xvec) : option xvec := match o with Some _ => Some y | None => None end.
(** g is the gradient of f at x: the vector of directional derivatives *)
Definition gradient_at (n : nat) (f : vec -> R) (x g : vec) : Prop :=
  length g = n /\ forall v, length v = n -> derivable_pt_lim (fun t => f (vadd x (smul t v))) 0 (dot g v).
(** user-supplied initial parameters of the right sizes (any numbers, NaN included) *)
Definition init_ok (n : nat) (eq ineq : block) (init : option osqp_params) : Prop :=
  match init with
  | None => True
  | Some p => exists x ye yi, p = {| q_primal := x; q_dual_eq := present eq ye; q_dual_ineq := present ineq yi |} /\
      length x = n /\ length ye = length (rhs eq) /\ length yi = length (rhs ineq)
  end.
