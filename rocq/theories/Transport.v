(** Model of the optimal-transport projections of jaxopt/_src/projection.py:464-850.  A matrix of shape
    (size_a, size_b) is stored by columns (the code maps over axis 1 and transposes the result): [size_b] vectors of
    length [size_a].  The inner solver is a parameter. *)
From Coq Require Import Reals List Bool Lra Lia.
From Verif Require Import Prelude Vec XArith Proj Loss.
Import ListNotations.
Open Scope R_scope.

Fixpoint zipw {A B C} (f : A -> B -> C) (l : list A) (l' : list B) : list C :=
  match l, l' with a :: l, b :: l' => f a b :: zipw f l l' | _, _ => [] end.

(** projection.py:464-471 [_max_l2] *)
Definition max_l2 (x : vec) (marginal_b gamma : R) : R :=
  let scale := gamma * marginal_b in
  let x_scale := map (fun a => a / scale) x in
  let p := projection_simplex x_scale 1 in
  dot x p - / 2 * scale * dot p p.
(** jax.grad(_max_l2): p is under stop_gradient, so the derivative of <x, p> - const is p *)
Definition max_l2_grad (x : vec) (marginal_b gamma : R) : vec :=
  let scale := gamma * marginal_b in projection_simplex (map (fun a => a / scale) x) 1.
(** projection.py:474-475 [_max_ent] and its gradient *)
Definition max_ent (x : vec) (marginal_b gamma : R) : R := gamma * logsumexp (map (fun a => a / gamma) x) - gamma * ln marginal_b.
Definition max_ent_grad (x : vec) (marginal_b gamma : R) : vec := softmax (map (fun a => a / gamma) x).
(** projection.py:485-489 [_delta_l2] and its gradient *)
Definition delta_l2 (x : vec) (gamma : R) : R := / 2 / gamma * dot (map relu x) (map relu x).
Definition delta_l2_grad (x : vec) (gamma : R) : vec := map (fun a => relu a / gamma) x.
(** projection.py:492-495 [_delta_ent] and its gradient *)
Definition delta_ent (x : vec) (gamma : R) : R := gamma * vsum (map (fun a => exp (a / gamma - 1)) x).
Definition delta_ent_grad (x : vec) (gamma : R) : vec := map (fun a => exp (a / gamma - 1)) x.

(** The two regularisations: squared l2 norm, negative entropy. *)
Inductive regulariser := RL2 | REnt.
Definition max_reg (r : regulariser) := match r with RL2 => max_l2 | REnt => max_ent end.
Definition max_reg_grad (r : regulariser) := match r with RL2 => max_l2_grad | REnt => max_ent_grad end.
Definition delta_reg (r : regulariser) := match r with RL2 => delta_l2 | REnt => delta_ent end.
Definition delta_reg_grad (r : regulariser) := match r with RL2 => delta_l2_grad | REnt => delta_ent_grad end.

Section Dual.
Variables (r : regulariser) (gamma : R) (cost : list vec) (marginals_a marginals_b : vec).
(** projection.py:504-512 [_make_semi_dual] *)
Definition semi_dual (alpha : vec) : R :=
  vsum (zipw (fun c b => b * max_reg r (vsub alpha c) b gamma) cost marginals_b) - dot alpha marginals_a.
(** projection.py:593-595, the plan for dual potentials alpha *)
Definition semi_dual_plan (alpha : vec) : list vec :=
  zipw (fun c b => smul b (max_reg_grad r (vsub alpha c) b gamma)) cost marginals_b.
(** projection.py:515-539 [_make_dual] *)
Definition dual (ab : vec * vec) : R :=
  let '(alpha, beta) := ab in
  vsum (zipw (fun c be => delta_reg r (vsub (map (fun t => t + be) alpha) c) gamma) cost beta)
  - dot alpha marginals_a - dot beta marginals_b.
(** projection.py:652-657, the plan for dual potentials (alpha, beta) *)
Definition dual_plan (ab : vec * vec) : list vec :=
  let '(alpha, beta) := ab in
  zipw (fun c be => delta_reg_grad r (vsub (map (fun t => t + be) alpha) c) gamma) cost beta.
End Dual.

Section Solve.
(** make_solver(fun).run(init).params, for the two parameter types *)
Variables (solver : (vec -> R) -> vec -> vec) (solver2 : (vec * vec -> R) -> vec * vec -> vec * vec).
(** projection.py:542-597 [_regularized_transport_semi_dual] (marginals are vectors by type) *)
Definition regularized_transport_semi_dual (r : regulariser) (gamma : R) (size_a : nat) (cost : list vec) (a b : vec) : result (list vec) :=
  if (Nat.eqb size_a (length a) && Nat.eqb (length cost) (length b))%bool then
    let alpha := solver (semi_dual r gamma cost a b) (vzero size_a) in
    Ok (semi_dual_plan r gamma cost b alpha)
  else Err ValueError.
(** projection.py:600-657 [_regularized_transport_dual] *)
Definition regularized_transport_dual (r : regulariser) (gamma : R) (size_a : nat) (cost : list vec) (a b : vec) : result (list vec) :=
  if (Nat.eqb size_a (length a) && Nat.eqb (length cost) (length b))%bool then
    let ab := solver2 (dual r gamma cost a b) (vzero size_a, vzero (length cost)) in
    Ok (dual_plan r gamma cost ab)
  else Err ValueError.
(** projection.py:660-725 [projection_transport] (r = RL2), 728-794 [kl_projection_transport] (r = REnt) *)
Definition projection_transport (r : regulariser) (size_a : nat) (sim : list vec) (a b : vec) (use_semi_dual : bool) : result (list vec) :=
  let cost := map (smul (-1)) sim in
  if use_semi_dual then regularized_transport_semi_dual r 1 size_a cost a b else regularized_transport_dual r 1 size_a cost a b.
(** projection.py:797-822 [projection_birkhoff], 825-850 [kl_projection_birkhoff] *)
Definition projection_birkhoff (r : regulariser) (size_a : nat) (sim : list vec) (use_semi_dual : bool) : result (list vec) :=
  projection_transport r size_a sim (vones size_a) (vones (length sim)) use_semi_dual.
End Solve.

(** projection.py:474-475, 507-511 in extended numbers: the entropic semi-dual objective, where log(0) = -inf. *)
Definition xlog (a : R) : xnum := if Rlt_dec 0 a then Fin (ln a) else if Req_EM_T a 0 then NInf else NaN.
Definition semi_dual_ent_x (gamma : R) (cost : list vec) (a b alpha : vec) : xnum :=
  xsub (fold_right xadd (Fin 0) (zipw (fun c bj => xmul (Fin bj)
         (xsub (Fin (gamma * logsumexp (map (fun t => t / gamma) (vsub alpha c)))) (xmul (Fin gamma) (xlog bj)))) cost b))
       (Fin (dot alpha a)).

(** ** Specification *)
Definition matrix (m : nat) (C : list vec) : Prop := forall c, In c C -> length c = m.
(** P 1 *)
Definition row_sums (m : nat) (P : list vec) : vec := fold_right vadd (vzero m) P.
(** P^T 1 *)
Definition col_sums (P : list vec) : vec := map vsum P.
Definition nonneg_matrix (m : nat) (P : list vec) : Prop := matrix m P /\ forall c, In c P -> forall i, (i < m)%nat -> 0 <= nth i c 0.
(** The transportation polytope: P >= 0, P 1 = a, P^T 1 = b. *)
Definition polytope (m : nat) (a b : vec) (P : list vec) : Prop := nonneg_matrix m P /\ row_sums m P = a /\ col_sums P = b.
(** <P, Q>, ||P - Q||^2 *)
Definition mdot (P Q : list vec) : R := vsum (zipw dot P Q).
Definition mdist2 (P Q : list vec) : R := vsum (zipw dist2 P Q).
(** gamma/2 ||P||^2 or gamma <P, log P> *)
Definition omega (r : regulariser) (gamma : R) (P : list vec) : R :=
  match r with RL2 => gamma / 2 * mdot P P | REnt => gamma * vsum (map shannon P) end.
(** The regularised transport problem: minimise <P, C> + omega(P) over the polytope. *)
Definition primal (r : regulariser) (gamma : R) (C P : list vec) : R := mdot C P + omega r gamma P.
(** KL(P, exp(S)) = sum P log P - P S - P + exp(S) *)
Definition kl_to_exp (S P : list vec) : R :=
  vsum (map shannon P) - mdot S P - vsum (col_sums P) + vsum (map (fun s => vsum (map exp s)) S).
(** What the projections are documented to minimise: ||P - S||^2, or KL(P, exp(S)). *)
Definition projection_cost (r : regulariser) (S P : list vec) : R := match r with RL2 => mdist2 P S | REnt => kl_to_exp S P end.
(** An exact minimiser over vectors of length m (pairs of vectors). *)
Definition exact_min (m : nat) (f : vec -> R) (x : vec) : Prop := length x = m /\ forall y, length y = m -> f x <= f y.
Definition exact_min2 (m n : nat) (f : vec * vec -> R) (x : vec * vec) : Prop :=
  (length (fst x) = m /\ length (snd x) = n) /\ forall y z, length y = m -> length z = n -> f x <= f (y, z).
