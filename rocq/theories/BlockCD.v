(** Model of block_cd.py. *)
From Coq Require Import Reals List Lra Lia Bool Arith.
From Verif Require Import Prelude Vec Mat Prox Loss Run ProxGrad CDQP Objective.
Import ListNotations.
Open Scope R_scope.

(** Floating-point arithmetic with an infinite step size: 1 / L, s * a, a - b. *)
Definition xrecip (L : R) : xnum := if Req_EM_T L 0 then PInf else Fin (1 / L).
Definition xscale (s : xnum) (a : R) : xnum :=
  match s with
  | Fin r => Fin (r * a)
  | NaN => NaN
  | PInf => if Rlt_dec 0 a then PInf else if Rlt_dec a 0 then NInf else NaN
  | NInf => if Rlt_dec 0 a then NInf else if Rlt_dec a 0 then PInf else NaN
  end.
Definition xsubr (a : R) (b : xnum) : xnum :=
  match b with Fin r => Fin (a - r) | PInf => NInf | NInf => PInf | NaN => NaN end.
(** A vector of numbers is finite. *)
Fixpoint all_finite (v : list xnum) : option vec :=
  match v with
  | [] => Some []
  | Fin r :: v' => match all_finite v' with Some w => Some (r :: w) | None => None end
  | _ :: _ => None
  end.

Section BlockCD.
Variable k : nat.          (* columns of the parameters *)
Variable f : composite.
(** [block_prox(x[j], hyperparams_prox, scaling)] with the hyper-parameters fixed *)
Variable block_prox : vec -> R -> vec.

(** block_cd.py:34-43 [BlockCDState] (evaluation counters omitted) *)
Record bcd_state := { bcd_iter : nat; predictions : mat; bcd_subfun_g : mat; bcd_error : xnum }.

(** block_cd.py:98-108 [init_state] *)
Definition bcd_init (init_params : mat) : bcd_state :=
  let predictions := lo_matvec k (linop f) init_params in
  {| bcd_iter := 0; predictions := predictions; bcd_subfun_g := grad_subfun f predictions;
     bcd_error := PInf |}.

(** x[i] - stepsizes[i] * g_i *)
Definition block_point (L : R) (x_i g_i : vec) : list xnum :=
  map2 (fun a g => xsubr a (xscale (xrecip L) g)) x_i g_i.

(** block_cd.py:133-151 [body_fun].  [None]: the argument of the prox is not finite, and the
    parameters are lost (what the prox makes of infinities and NaN is not modelled). *)
Definition bcd_body (i : nat) (tup : option (mat * mat * mat * R)) : option (mat * mat * mat * R) :=
  match tup with
  | None => None
  | Some (x, subfun_g, predictions, sqerror_sum) =>
      let x_i_old := nth i x [] in
      let g := lo_rmatvec_element k (linop f) subfun_g i in
      let g_i := match linear_term f with Some b => vadd g (nth i b []) | None => g end in
      let L := nth i (columnwise f) 0 in
      match all_finite (block_point L x_i_old g_i) with
      | None => None
      | Some v =>
          let x_i_new := block_prox v (1 / L) in
          let diff_i := vsub x_i_new x_i_old in
          let predictions := lo_update_matvec (linop f) predictions diff_i i in
          Some (set_nth x i x_i_new, grad_subfun f predictions, predictions, sqerror_sum + sqnorm diff_i)
      end
  end.

(** block_cd.py:110-172 [update]; [None] means that the parameters are not finite. *)
Definition bcd_update (step : option (mat * bcd_state)) : option (mat * bcd_state) :=
  match step with
  | None => None
  | Some (params, st) =>
      match fori (length params) bcd_body (Some (params, bcd_subfun_g st, predictions st, 0)) with
      | None => None
      | Some (params', g, p, sq) =>
          Some (params', {| bcd_iter := S (bcd_iter st); predictions := p; bcd_subfun_g := g; bcd_error := Fin (sqrt sq) |})
      end
  end.

(** base.py:296-332 [_run] *)
Definition bcd_run (maxiter : nat) (tol : R) (x0 : mat) : option (mat * bcd_state) :=
  run_loop maxiter (fun s => match s with Some (_, st) => xgtb (bcd_error st) tol | None => false end)
    bcd_update (Some (x0, bcd_init x0)).

(** block_cd.py:174-176 [_fixed_point_fun], 178-211 [optimality_fun]; the gradient of [fun] is
    the chain rule, [full_grad_block] of Objective.v. *)
Definition bcd_fixed_point_fun (params : mat) : mat :=
  map (fun i => block_prox (vsub (nth i params []) (full_grad_block k f params i)) 1) (seq 0 (length params)).
Definition bcd_optimality_fun (params : mat) : mat := msub (bcd_fixed_point_fun params) params.
End BlockCD.

(** ** Specification *)
(** The composite objective with the same penalty on every block. *)
Definition bcd_objective (k : nat) (f : composite) (r : vec -> R) (X : mat) : R :=
  comp_call k f X + vsum (map r X).
Definition blocks_in (D : vec -> Prop) (X : mat) : Prop := Forall D X.
Definition bcd_minimiser (n k : nat) (f : composite) (D : vec -> Prop) (r : vec -> R) (X : mat) : Prop :=
  mat_shape n k X /\ blocks_in D X /\
  forall Z, mat_shape n k Z -> blocks_in D Z -> bcd_objective k f r X <= bcd_objective k f r Z.
(** Shapes: [f] acts on n x k parameters through an m x n operator. *)
Definition bcd_shapes (m n k : nat) (f : composite) : Prop :=
  mat_shape m n (linop f) /\
  (forall P, mat_shape m k P -> mat_shape m k (grad_subfun f P)) /\
  (forall b, linear_term f = Some b -> mat_shape n k b) /\
  length (columnwise f) = n.

(** A well-posed problem: positive advertised constants that do bound the curvature, and a
    block prox that is the proximal operator of the convex penalty [r] on [D]. *)
Definition bcd_problem (m n k : nat) (f : composite) (D : vec -> Prop) (r : vec -> R) (block_prox : vec -> R -> vec) : Prop :=
  bcd_shapes m n k f /\ (forall i, (i < n)%nat -> 0 < nth i (columnwise f) 0) /\
  columnwise_valid n k f (columnwise f) /\ convex_on k D r /\ prox_spec k D r block_prox.
(** Squared Frobenius distance. *)
Definition fdist2 (X Y : mat) : R := mdot (msub X Y) (msub X Y).
(** All entries are 0. *)
Definition all_zero (X : mat) : Prop := Forall (Forall (fun a => a = 0)) X.
