(** Model of cvxpy_wrapper.py (CvxpyQP) and of the implicit differentiation of the quadratic programs CvxpyQP and
    EqualityConstrainedQP (C61). *)
From Coq Require Import String.
From Coq Require Import Reals List Lra Lia Bool Arith.
From Verif Require Import Prelude Vec Mat LinAlg LinSolve Kkt EqQP ImplicitDiff ImplicitRun.
Import ListNotations.
Open Scope R_scope.

(** ** CvxpyQP *)
(** a two-dimensional array with its shape *)
Record array2 := { a_rows : nat; a_cols : nat; a_mat : mat }.
(** (Q, c), (A, b), (G, h); the second is a one-dimensional array *)
Definition pair2 : Type := array2 * vec.
(** cvxpy_wrapper.py:27-49 [_check_params]: the checks in order *)
Definition check (c : bool) : result unit := if c then Err ValueError else Ok tt.
Definition seqr (a b : result unit) : result unit := match a with Ok _ => b | e => e end.
Definition check_params (params_obj params_eq params_ineq : option pair2) : result unit :=
  match params_obj with
  | None => Err ValueError
  | Some (Q, c) =>
      seqr (check (negb (Nat.eqb (a_rows Q) (a_cols Q))))
     (seqr (check (negb (Nat.eqb (a_cols Q) (length c))))
     (seqr (match params_eq with
            | None => Ok tt
            | Some (A, b) => seqr (check (negb (Nat.eqb (a_rows A) (length b)))) (check (negb (Nat.eqb (a_cols A) (a_cols Q))))
            end)
           (match params_ineq with
            | None => Ok tt
            | Some (G, h) => seqr (check (negb (Nat.eqb (a_rows G) (length h)))) (check (negb (Nat.eqb (a_cols G) (a_cols Q))))
            end)))
  end.

(** What CVXPY is given and what it answers: minimise 0.5 x^T Q x + c^T x over n variables under the constraints; a
    status, the value of x and the dual value of each constraint (None when CVXPY has none) *)
Inductive cvx_constraint := CEq (A : mat) (b : vec) | CLe (G : mat) (h : vec).
Record cvx_problem := { cp_n : nat; cp_Q : mat; cp_c : vec; cp_constraints : list cvx_constraint }.
(** CVXPY's statuses (cvxpy/settings.py), except solver_error, for which solve() raises *)
Inductive cvx_status := Optimal | OptimalInaccurate | Infeasible | InfeasibleInaccurate | Unbounded | UnboundedInaccurate | InfeasibleOrUnbounded | UserLimit.
Record cvx_answer := { cv_status : cvx_status; cv_x : option vec; cv_duals : list (option vec) }.

Section CvxpyQP.
(** pb.solve with the chosen solver; CVXPY raises its own errors, for instance for an indefinite Q *)
Variable cvx : string -> cvx_problem -> result cvx_answer.
(** jnp.array(None): NaN or an exception, depending on the version of JAX *)
Variable array_of_none : result vec.
Definition jnp_array (v : option vec) : result vec := match v with Some v => Ok v | None => array_of_none end.
(** Python's l[0], l[-1] *)
Definition first_of {T} (l : list T) : result T := match l with [] => Err IndexError | x :: _ => Ok x end.
Definition last_of {T} (l : list T) : result T := first_of (rev l).
Definition bindr {T U} (r : result T) (f : T -> result U) : result U := match r with Ok x => f x | Err e => Err e end.
(** cvxpy_wrapper.py:98-153 [run], without the decorator *)
Definition cvxpy_run (solver : string) (params_obj params_eq params_ineq : option pair2) : result kkt_solution :=
  bindr (check_params params_obj params_eq params_ineq) (fun _ =>
  match params_obj with
  | None => Err ValueError
  | Some (Q, c) =>
      let constraints :=
        match params_eq with Some (A, b) => [CEq (a_mat A) b] | None => [] end ++
        match params_ineq with Some (G, h) => [CLe (a_mat G) h] | None => [] end in
      bindr (cvx solver {| cp_n := length c; cp_Q := a_mat Q; cp_c := c; cp_constraints := constraints |}) (fun pb =>
      match cv_status pb with
      | Infeasible | Unbounded => Err ValueError
      | _ =>
          bindr (match params_eq with None => Ok None | Some _ => bindr (first_of (cv_duals pb)) (fun d => bindr (jnp_array d) (fun v => Ok (Some v))) end) (fun dual_eq =>
          bindr (match params_ineq with None => Ok None | Some _ => bindr (last_of (cv_duals pb)) (fun d => bindr (jnp_array d) (fun v => Ok (Some v))) end) (fun dual_ineq =>
          bindr (jnp_array (cv_x pb)) (fun x => Ok {| primal := x; dual_eq := dual_eq; dual_ineq := dual_ineq |})))
      end)
  end).
End CvxpyQP.

(** cvxpy_wrapper.py:52-78 [_make_cvxpy_qp_optimality_fun]: the functions given to make_kkt_optimality_fun.  jax.grad
    of 0.5 <x, Q x> + <x, c> is 0.5 (Q + Q^T) x + c. *)
Definition qp_problem (n : nat) (Q : mat) (c : vec) (A : mat) (b : vec) (G : mat) (h : vec) : kkt_problem :=
  {| obj_grad := fun x => vadd (smul (1 / 2) (vadd (mvec Q x) (tvec n Q x))) c;
     eq_fun := fun x => vsub (mvec A x) b; eq_jac := fun _ => A;
     ineq_fun := fun x => vsub (mvec G x) h; ineq_jac := fun _ => G |}.
(** A missing pair is never read: its dual variable is None. *)
Definition opt_mat (o : option pair2) : mat := match o with Some (M, _) => a_mat M | None => [] end.
Definition opt_vec (o : option pair2) : vec := match o with Some (_, v) => v | None => [] end.
Definition cvxpy_optimality_fun (params : kkt_solution) (params_obj : pair2) (params_eq params_ineq : option pair2) : kkt_solution :=
  kkt_optimality (length (snd params_obj))
    (qp_problem (length (snd params_obj)) (a_mat (fst params_obj)) (snd params_obj) (opt_mat params_eq) (opt_vec params_eq) (opt_mat params_ineq) (opt_vec params_ineq)) params.
(** the concatenation of the leaves of a KKTSolution *)
Definition kkt_flat (s : kkt_solution) : vec := primal s ++ ovec (dual_eq s) ++ ovec (dual_ineq s).
(** cvxpy_wrapper.py:155-164 [l2_optimality_error] *)
Definition cvxpy_l2_error (params : kkt_solution) (params_obj : pair2) (params_eq params_ineq : option pair2) : R :=
  norm2 (kkt_flat (cvxpy_optimality_fun params params_obj params_eq params_ineq)).

(** ** Implicit differentiation of a quadratic program
    Arguments are flattened: (Q, c) is the concatenation of the rows of Q and of c, None has no leaf.  The shapes n (variables),
    m (equalities) and k (inequalities; None for a missing pair) are static. *)
Fixpoint rows_of (m n : nat) (v : vec) : mat := match m with O => [] | S m' => firstn n v :: rows_of m' n (skipn n v) end.
Definition flat_mat (M : mat) : vec := concat M.
Definition sz (o : option nat) : nat := match o with Some m => m | None => 0%nat end.
(** the three pairs in the arguments params_obj, params_eq, params_ineq *)
Definition th_mat (b r n : nat) (th : list vec) : mat := rows_of r n (firstn (r * n) (nth b th [])).
Definition th_vec (b r n : nat) (th : list vec) : vec := skipn (r * n) (nth b th []).
Definition th_problem (n : nat) (m k : option nat) (th : list vec) : kkt_problem :=
  qp_problem n (th_mat 0 n n th) (th_vec 0 n n th) (th_mat 1 (sz m) n th) (th_vec 1 (sz m) n th) (th_mat 2 (sz k) n th) (th_vec 2 (sz k) n th).
Definition kkt_unflat (n : nat) (m k : option nat) (x : vec) : kkt_solution :=
  {| primal := firstn n x;
     dual_eq := match m with Some m => Some (firstn m (skipn n x)) | None => None end;
     dual_ineq := match k with Some _ => Some (skipn (n + sz m) x) | None => None end |}.
(** the optimality function on flat arguments: cvxpy_wrapper.py:52-78; eq_qp.py:65-102 with k = None and two arguments *)
Definition qp_F (n : nat) (m k : option nat) (x : vec) (th : list vec) : vec :=
  kkt_flat (kkt_optimality n (th_problem n m k th) (kkt_unflat n m k x)).
(** Its derivative at (x, th) in the direction (dx, dth), by the product rule *)
Definition qp_linear (n m k : nat) (x : vec) (th : list vec) (dx : vec) (dth : list vec) : vec :=
  let p := firstn n x in let y := firstn m (skipn n x) in let z := skipn (n + m) x in
  let dp := firstn n dx in let dy := firstn m (skipn n dx) in let dz := skipn (n + m) dx in
  let Q := th_mat 0 n n th in let A := th_mat 1 m n th in let G := th_mat 2 k n th in let h := th_vec 2 k n th in
  let dQ := th_mat 0 n n dth in let dc := th_vec 0 n n dth in let dA := th_mat 1 m n dth in let db := th_vec 1 m n dth in
  let dG := th_mat 2 k n dth in let dh := th_vec 2 k n dth in
  vadd (vadd (vadd (smul (1 / 2) (vadd (vadd (mvec dQ p) (mvec Q dp)) (vadd (tvec n dQ p) (tvec n Q dp)))) dc)
             (vadd (tvec n dA y) (tvec n A dy)))
       (vadd (tvec n dG z) (tvec n G dz)) ++
  vsub (vadd (mvec dA p) (mvec A dp)) db ++
  vadd (hmul (vsub (vadd (mvec dG p) (mvec G dp)) dh) z) (hmul (vsub (mvec G p) h) dz).
(** the matrix with these images of the unit vectors as columns: what jax's derivatives apply *)
Definition columns (q p : nat) (f : vec -> vec) : mat := mtrans q (map (fun j => f (unit_vec p j)) (seq 0 p)).
Definition args_zero (ps : list nat) : list vec := map vzero ps.
Definition args_single (ps : list nat) (b : nat) (d : vec) : list vec := firstn b (args_zero ps) ++ d :: skipn (S b) (args_zero ps).
Definition qp_jac (n : nat) (m k : option nat) (x : vec) (th : list vec) : mat * list mat :=
  let q := (n + sz m + sz k)%nat in let ps := map (@length R) th in
  let L := qp_linear n (sz m) (sz k) x th in
  (columns q q (fun d => L d (args_zero ps)), map (fun b => columns q (nth b ps 0%nat) (fun d => L (vzero q) (args_single ps b d))) (seq 0 (length th))).

(** cvxpy_wrapper.py:98-102 and 351 of implicit_diff.py: signatures of run and of optimality_fun; None is [] *)
Definition cvxpy_run_sig : signature :=
  [mk_param "init_params" PosOrKw; mk_param "params_obj" PosOrKw;
   {| p_name := "params_eq"; p_kind := PosOrKw; p_default := Some [] |}; {| p_name := "params_ineq"; p_kind := PosOrKw; p_default := Some [] |}].
Definition cvxpy_optimality_sig : signature :=
  [mk_param "params" PosOrKw; mk_param "params_obj" PosOrKw; mk_param "params_eq" PosOrKw; mk_param "params_ineq" PosOrKw].
(** the arguments of run from flat ones *)
Definition obj_of (n : nat) (v : vec) : option pair2 := Some ({| a_rows := n; a_cols := n; a_mat := rows_of n n (firstn (n * n) v) |}, skipn (n * n) v).
Definition pair_of (n : nat) (m : option nat) (v : vec) : option pair2 :=
  match m with Some m => Some ({| a_rows := m; a_cols := n; a_mat := rows_of m n (firstn (m * n) v) |}, skipn (m * n) v) | None => None end.
(** cvxpy_wrapper.py:166-173 [__post_init__]: the decorated run *)
Definition cvxpy_call {Sc} (default_solve : nat -> linear_solver) cvx array_of_none (n : nat) (m k : option nat) (solver : string) (solve : option (nat -> linear_solver))
    (args : list vec) (kw : list (string * vec)) : @call unit Sc :=
  custom_root default_solve
    (fun a kw' => match a, kw' with
       | [_; o; e; i], [] => match cvxpy_run cvx array_of_none solver (obj_of n o) (pair_of n m e) (pair_of n k i) with Ok s => Ok (WithAux (kkt_flat s) tt) | Err e => Err e end
       | _, _ => Err TypeError
       end)
    (qp_jac n m k) cvxpy_run_sig cvxpy_optimality_sig RefNone true solve args kw.

(** eq_qp.py:210-215, 99-100, 282-312: EqualityConstrainedQP with explicit matrices, on flat data; init_params is
    None or (primal, dual_eq) *)
Definition eqqp_run_sig : signature :=
  [{| p_name := "init_params"; p_kind := PosOrKw; p_default := Some [] |}; {| p_name := "params_obj"; p_kind := PosOrKw; p_default := Some [] |};
   {| p_name := "params_eq"; p_kind := PosOrKw; p_default := Some [] |}].
Definition eqqp_optimality_sig : signature := [mk_param "params" PosOrKw; mk_param "params_obj" PosOrKw; mk_param "params_eq" PosOrKw].
Definition eqqp_flat_run (lin : (vec -> vec) -> vec -> option vec -> vec) (reg tol : R) (refine_maxiter n m : nat) (i o e : vec) : result vec :=
  match eqqp_run lin n (rows_of m n (firstn (m * n) e)) (skipn (m * n) e) (ExplicitQ (rows_of n n (firstn (n * n) o)) (skipn (n * n) o)) reg tol refine_maxiter
          (match i with [] => None | _ => Some (firstn n i, skipn n i) end) true with
  | Ok (x, y) => Ok (x ++ y)
  | Err e => Err e
  end.
Definition eqqp_call {Sc} (default_solve : nat -> linear_solver) (lin : (vec -> vec) -> vec -> option vec -> vec) (reg tol : R) (refine_maxiter n m : nat) (solve : option (nat -> linear_solver))
    (args : list vec) (kw : list (string * vec)) : @call unit Sc :=
  custom_root default_solve
    (fun a kw' => match a, kw' with
       | [i; o; e], [] => match eqqp_flat_run lin reg tol refine_maxiter n m i o e with Ok s => Ok (WithAux s tt) | Err e => Err e end
       | _, _ => Err TypeError
       end)
    (qp_jac n (Some m) None) eqqp_run_sig eqqp_optimality_sig RefNone true solve args kw.

(** ** Specification *)
(** The arrays have the shapes they say, and the shapes fit *)
Definition shaped (o : option pair2) : Prop := match o with Some (M, _) => mat_shape (a_rows M) (a_cols M) (a_mat M) | None => True end.
Definition shapes_fit (n : nat) (obj : pair2) (eq ineq : option pair2) : Prop :=
  a_rows (fst obj) = n /\ a_cols (fst obj) = n /\ length (snd obj) = n /\
  match eq with Some (A, b) => a_rows A = length b /\ a_cols A = n | None => True end /\
  match ineq with Some (G, h) => a_rows G = length h /\ a_cols G = n | None => True end.
(** x satisfies the constraints *)
Definition qp_feasible (eq ineq : option pair2) (x : vec) : Prop :=
  match eq with Some (A, b) => mvec (a_mat A) x = b | None => True end /\
  match ineq with Some (G, h) => forall i, (i < length h)%nat -> nth i (mvec (a_mat G) x) 0 <= nth i h 0 | None => True end.
(** x is a global solution *)
Definition qp_solution (n : nat) (obj : pair2) (eq ineq : option pair2) (x : vec) : Prop :=
  length x = n /\ qp_feasible eq ineq x /\
  forall y, length y = n -> qp_feasible eq ineq y -> qp_value (a_mat (fst obj)) (snd obj) x <= qp_value (a_mat (fst obj)) (snd obj) y.
Definition has_solution (n : nat) (obj : pair2) (eq ineq : option pair2) : Prop := exists x, qp_solution n obj eq ineq x.
(** CVXPY's contract, stated for its own problems.  One dual value per constraint; for status optimal the KKT
    conditions hold, with the Lagrangian f + <y, A x - b> + <z, G x - h>; infeasible and unbounded are true. *)
Definition con_ok (n : nat) (x : vec) (con : cvx_constraint) (d : vec) : Prop :=
  match con with
  | CEq A b => length d = length b /\ mvec A x = b
  | CLe G h => length d = length h /\ forall i, (i < length h)%nat -> nth i (mvec G x) 0 <= nth i h 0 /\ 0 <= nth i d 0 /\ nth i d 0 * (nth i (mvec G x) 0 - nth i h 0) = 0
  end.
Definition con_grad (n : nat) (con : cvx_constraint) (d : vec) : vec := match con with CEq A _ | CLe A _ => tvec n A d end.
Definition con_feasible (x : vec) (con : cvx_constraint) : Prop :=
  match con with CEq A b => mvec A x = b | CLe G h => forall i, (i < length h)%nat -> nth i (mvec G x) 0 <= nth i h 0 end.
Definition cvx_kkt (p : cvx_problem) (x : vec) (duals : list vec) : Prop :=
  length x = cp_n p /\ Forall2 (con_ok (cp_n p) x) (cp_constraints p) duals /\
  vadd (mvec (cp_Q p) x) (vadd (cp_c p) (fold_right vadd (vzero (cp_n p)) (map (fun cd => con_grad (cp_n p) (fst cd) (snd cd)) (combine (cp_constraints p) duals)))) = vzero (cp_n p).
Definition cvx_problem_ok (p : cvx_problem) : Prop := mat_shape (cp_n p) (cp_n p) (cp_Q p) /\ symmetric (cp_n p) (cp_Q p) /\ pos_semidef (cp_n p) (cp_Q p) /\ length (cp_c p) = cp_n p.
Definition cvx_answer_ok (p : cvx_problem) (a : cvx_answer) : Prop :=
  match cv_status a with
  | Optimal => exists x duals, cv_x a = Some x /\ cv_duals a = map Some duals /\ cvx_kkt p x duals
  | Infeasible => forall x, length x = cp_n p -> ~ Forall (con_feasible x) (cp_constraints p)
  | Unbounded => forall v, exists x, length x = cp_n p /\ Forall (con_feasible x) (cp_constraints p) /\ qp_value (cp_Q p) (cp_c p) x < v
  | _ => True
  end.
(** values are None for the other infeasible and unbounded statuses *)
Definition cvx_none (a : cvx_answer) : Prop := cv_x a = None /\ Forall (eq None) (cv_duals a).

(** Regularity of a KKT point (p, y, z): second-order condition, independent gradients of the active constraints,
    strict complementarity *)
Definition qp_regular (n m k : nat) (Q A G : mat) (h p y z : vec) : Prop :=
  (forall d, length d = n -> d <> vzero n -> mvec A d = vzero m -> (forall i, (i < k)%nat -> nth i z 0 <> 0 -> nth i (mvec G d) 0 = 0) -> 0 < dot d (mvec Q d)) /\
  (forall u v, length u = m -> length v = k -> (forall i, (i < k)%nat -> nth i (mvec G p) 0 <> nth i h 0 -> nth i v 0 = 0) ->
     vadd (tvec n A u) (tvec n G v) = vzero n -> u = vzero m /\ v = vzero k) /\
  (forall i, (i < k)%nat -> nth i z 0 <> 0 \/ nth i (mvec G p) 0 <> nth i h 0).

(** The parts of s go with the constraints that are present *)
Definition kkt_fits (n : nat) (eq ineq : option pair2) (s : kkt_solution) : Prop :=
  let fits c d := match c, d with Some (_, b), Some y => length y = length b | None, None => True | _, _ => False end in
  length (primal s) = n /\ fits eq (dual_eq s) /\ fits ineq (dual_ineq s).
(** what CVXPY is to solve *)
Definition qp_of (n : nat) (obj : pair2) (eq ineq : option pair2) : cvx_problem :=
  {| cp_n := n; cp_Q := a_mat (fst obj); cp_c := snd obj;
     cp_constraints := match eq, ineq with
                       | Some (A, b), Some (G, h) => [CEq (a_mat A) b; CLe (a_mat G) h]
                       | Some (A, b), None => [CEq (a_mat A) b]
                       | None, Some (G, h) => [CLe (a_mat G) h]
                       | None, None => []
                       end |}.
(** a pair of arrays as one vector; the number of constraints *)
Definition pair_flat (o : option pair2) : vec := match o with Some (M, v) => flat_mat (a_mat M) ++ v | None => [] end.
Definition osize (o : option pair2) : option nat := match o with Some (_, v) => Some (length v) | None => None end.
(** A call of run with these data, each passed by position, by keyword or left to its default *)
Definition passes (run_sig : signature) (args : list vec) (kw : list (string * vec)) (init : vec) (data : list (option pair2)) : Prop :=
  signature_bind run_sig args kw = Ok (init :: map pair_flat data, []).
Definition data_ok (n : nat) (obj : pair2) (eq ineq : option pair2) : Prop :=
  shapes_fit n obj eq ineq /\ shaped (Some obj) /\ shaped eq /\ shaped ineq.
(** zeros of the optimality conditions *)
Definition kkt_zero (n : nat) (obj : pair2) (eq ineq : option pair2) (s : kkt_solution) : Prop :=
  kkt_fits n eq ineq s /\ all_zero (cvxpy_optimality_fun s obj eq ineq).
Definition regular_at (n : nat) (obj : pair2) (eq ineq : option pair2) (s : kkt_solution) : Prop :=
  qp_regular n (sz (osize eq)) (sz (osize ineq)) (a_mat (fst obj)) (opt_mat eq) (opt_mat ineq) (opt_vec ineq) (primal s) (ovec (dual_eq s)) (ovec (dual_ineq s)).
(** sol(t): a continuous curve of such zeros while the arguments of the call move *)
Definition kkt_curve (run_sig : signature) (data_of : pair2 -> option pair2 -> option pair2 -> list (option pair2)) (n : nat) (eq ineq : option pair2)
    (args : list vec) (kw : list (string * vec)) (dargs : list vec) (dkw : list (string * vec)) (s : kkt_solution) (sol : R -> kkt_solution) : Prop :=
  sol 0 = s /\ continuous_at_0 (fun t => kkt_flat (sol t)) /\ (forall t, kkt_fits n eq ineq (sol t)) /\
  exists r, 0 < r /\ forall t, Rabs t < r -> exists init obj' eq' ineq',
    passes run_sig (args_move args t dargs) (kw_move kw t dkw) init (data_of obj' eq' ineq') /\
    data_ok n obj' eq' ineq' /\ osize eq' = osize eq /\ osize ineq' = osize ineq /\ kkt_zero n obj' eq' ineq' (sol t).
Definition cvxpy_data (obj : pair2) (eq ineq : option pair2) : list (option pair2) := [Some obj; eq; ineq].
Definition eqqp_data (obj : pair2) (eq ineq : option pair2) : list (option pair2) := [Some obj; eq].
(** the linear solver solves every nonsingular system *)
Definition solves_regular (solve : nat -> linear_solver) (N : nat) : Prop :=
  forall D, nonsingular N D -> solves_with (solve N) N (mvec D) /\ solves_with (solve N) N (tvec N D).
