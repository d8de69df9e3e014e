(** Model of eq_qp.py (EqualityConstrainedQP) and of projection_affine_set.
    The pair (primal, dual_eq) is the concatenation of its two arrays. *)
From Coq Require Import Reals List Lra Lia Bool Arith.
From Verif Require Import Prelude Vec Mat LinAlg LinSolve IterRefine Kkt.
Import ListNotations.
Open Scope R_scope.

(** The objective: params_obj = (Q, c) for the default matvec_Q (a custom linear matvec_Q is its
    matrix Q), or a function with its gradient. *)
Inductive eqqp_obj :=
| ExplicitQ (Q : mat) (c : vec)
| QuadFun (value : vec -> R) (grad : vec -> vec).

(** eq_qp.py:282-315 [__post_init__]: [fun] and [matvec_Q] exclude each other *)
Definition eqqp_construct (fun_given matvec_Q_given : bool) : result unit :=
  if (fun_given && matvec_Q_given)%bool then Err ValueError else Ok tt.

(** eq_qp.py:38-62 [extract_Qc_from_obj] with the operator of eq_qp.py:289-297, where
    Q x = grad (fun - <c,.>) (x).  [c*xx] in that line multiplies containers, a TypeError, when the
    variables are not a single array. *)
Definition extract_Qc (obj : eqqp_obj) (init : option (vec * vec)) (single_array : bool) : result ((vec -> vec) * vec) :=
  match obj with
  | ExplicitQ Q c => Ok (mvec Q, c)
  | QuadFun _ g =>
      match init with
      | None => Err ValueError
      | Some (p, _) =>
          let c := g (vzero (length p)) in
          if single_array then Ok (fun x => vsub (g x) c, c) else Err TypeError
      end
  end.

Section EqQP.
Variable solve : (vec -> vec) -> vec -> option vec -> vec.   (* the linear solver, with its warm start *)
Variables (n : nat) (A : mat) (b : vec).

(** eq_qp.py:243-246 [matvec] *)
Definition kkt_matvec (Q : vec -> vec) (u : vec) : vec :=
  let p := firstn n u in let d := skipn n u in
  vadd (Q p) (tvec n A d) ++ mvec A p.
(** eq_qp.py:194-199 [matvec_regularized_qp] *)
Definition kkt_matvec_reg (Q : vec -> vec) (ridge : R) (u : vec) : vec :=
  let s := kkt_matvec Q u in
  vadd (firstn n s) (smul ridge (firstn n u)) ++ vadd (skipn n s) (smul (- ridge) (skipn n u)).
(** eq_qp.py:248 *)
Definition kkt_target (c : vec) : vec := smul (-1) c ++ b.
(** eq_qp.py:157-208 [_refined_solve], 210-270 [run] *)
Definition eqqp_run (obj : eqqp_obj) (reg tol : R) (refine_maxiter : nat) (init : option (vec * vec)) (single_array : bool)
  : result (vec * vec) :=
  match extract_Qc obj init single_array with
  | Err e => Err e
  | Ok (Q, c) =>
      let matvec := kkt_matvec Q in
      let target := kkt_target c in
      let init := match init with None => None | Some (p, d) => Some (p ++ d) end in
      let sol :=
        if Req_EM_T reg 0 then solve matvec target init
        else fst (ir_run (fun f r i => solve f r (Some i)) matvec (Some (kkt_matvec_reg Q reg)) target tol refine_maxiter init) in
      Ok (firstn n sol, skipn n sol)
  end.

(** eq_qp.py:65-102 [_make_eq_qp_optimality_fun]: for explicit Q, jax.grad differentiates
    0.5 <x, Q x> + <x, c>, which gives 0.5 (Q + Q^T) x + c. *)
Definition eqqp_kkt_problem (obj : eqqp_obj) : kkt_problem :=
  {| obj_grad := match obj with
                 | ExplicitQ Q c => fun x => vadd (smul (1 / 2) (vadd (mvec Q x) (tvec n Q x))) c
                 | QuadFun _ g => g
                 end;
     eq_fun := fun x => vsub (mvec A x) b; eq_jac := fun _ => A;
     ineq_fun := fun _ => []; ineq_jac := fun _ => [] |}.
Definition eqqp_optimality (obj : eqqp_obj) (x y : vec) : kkt_solution :=
  kkt_optimality n (eqqp_kkt_problem obj) {| primal := x; dual_eq := Some y; dual_ineq := None |}.
End EqQP.

(** projection.py:352-374 [projection_affine_set] *)
Definition projection_affine_set solve (n : nat) (A : mat) (b x : vec) : result vec :=
  match eqqp_run solve n A b (ExplicitQ (eye n) (smul (-1) x)) 0 (1 / 100000) 10 None true with
  | Ok (p, _) => Ok p
  | Err e => Err e
  end.

(** ** Specification *)
Definition qp_value (Q : mat) (c x : vec) : R := 1 / 2 * dot x (mvec Q x) + dot c x.
Definition kkt_system (n : nat) (Q : mat) (c : vec) (A : mat) (b x y : vec) : Prop :=
  length x = n /\ length y = length b /\
  vadd (vadd (mvec Q x) (tvec n A y)) c = vzero n /\ mvec A x = b.
(** x minimises the objective over { x | A x = b } *)
Definition eqqp_solution (n : nat) (Q : mat) (c : vec) (A : mat) (b x : vec) : Prop :=
  length x = n /\ mvec A x = b /\
  forall z, length z = n -> mvec A z = b -> qp_value Q c x <= qp_value Q c z.
Record eqqp_problem (n m : nat) (Q : mat) (c : vec) (A : mat) (b : vec) : Prop := {
  eq_Q : mat_shape n n Q; eq_sym : symmetric n Q; eq_psd : pos_semidef n Q;
  eq_A : mat_shape m n A; eq_c : length c = n; eq_b : length b = m }.
(** the standard conditions for a unique solution: independent rows, Q definite on the kernel of A *)
Definition independent_rows (n m : nat) (A : mat) : Prop :=
  forall y, length y = m -> tvec n A y = vzero n -> y = vzero m.
Definition definite_on_kernel (n m : nat) (Q A : mat) : Prop :=
  forall x, length x = n -> mvec A x = vzero m -> x <> vzero n -> 0 < dot x (mvec Q x).
(** the linear solver returns a solution of this system *)
Definition solved_by (solve : (vec -> vec) -> vec -> option vec -> vec) (f : vec -> vec) (t : vec) (i : option vec) : Prop :=
  length (solve f t i) = length t /\ f (solve f t i) = t.
(** [fun] is the quadratic with data (Q, c), and g its gradient *)
Definition is_quadratic (n : nat) (value : vec -> R) (g : vec -> vec) (Q : mat) (c : vec) : Prop :=
  exists cste, (forall x, length x = n -> value x = qp_value Q c x + cste) /\
    (forall x, length x = n -> g x = vadd (mvec Q x) c).
