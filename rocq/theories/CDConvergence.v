(** Linear convergence of the coordinate descent solvers: specification.  The models are CDQP.v
    (cd_qp.py:68-125) and BlockCD.v (block_cd.py:107-176). *)
From Coq Require Import Reals List Lra Lia Bool Arith.
From Verif Require Import Prelude Vec Mat Loss Run CDQP Objective BlockCD OptError.
Import ListNotations.
Open Scope R_scope.

(** The smallest eigenvalue of Q is at least mu. *)
Definition qp_strongly_convex (n : nat) (mu : R) (Q : mat) : Prop :=
  0 < mu /\ forall v, length v = n -> mu * dot v v <= dot v (mvec Q v).
(** The smooth part of the composite objective is mu-strongly convex in the parameters. *)
Definition bcd_strongly_convex (n k : nat) (mu : R) (f : composite) : Prop :=
  0 < mu /\ forall X Z, mat_shape n k X -> mat_shape n k Z ->
    comp_call k f X + vsum (map (fun i => dot (full_grad_block k f X i) (vsub (nth i Z []) (nth i X []))) (seq 0 n))
      + mu / 2 * fdist2 Z X <= comp_call k f Z.
(** Condition numbers, and the factor by which one epoch reduces the suboptimality. *)
Definition cdqp_kappa (n : nat) (mu M : R) : R := (INR n * M / mu) * (INR n * M / mu).
Definition bcd_kappa (n : nat) (mu h Lmax Lf : R) : R := 2 * (Lmax * Lmax + INR n * (Lf * Lf)) / (mu * h).
Definition cd_factor (kappa : R) : R := kappa / (1 + kappa).
(** The parameters after t epochs. *)
Definition cdqp_iterate (Q : mat) (c l u x0 : vec) (t : nat) : vec := fst (Nat.iter t (cd_update Q c l u) (x0, cd_init)).
(** The inner function is strongly convex with a Lipschitz gradient. *)
Definition subfun_strongly_convex (m k : nat) (mu : R) (f : composite) : Prop :=
  forall P Q, mat_shape m k P -> mat_shape m k Q ->
    subfun f P + mdot (grad_subfun f P) (msub Q P) + mu / 2 * fdist2 Q P <= subfun f Q.
Definition subfun_lipschitz (m k : nat) (c : R) (f : composite) : Prop :=
  0 <= c /\ forall P Q, mat_shape m k P -> mat_shape m k Q -> fdist2 (grad_subfun f P) (grad_subfun f Q) <= c * c * fdist2 P Q.
(** The operator is injective: |A W|^2 >= s |W|^2. *)
Definition bounded_below (n k : nat) (s : R) (A : mat) : Prop :=
  forall W, mat_shape n k W -> s * mdot W W <= mdot (mmul k A W) (mmul k A W).
