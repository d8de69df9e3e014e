(** Multiclass linear support vector machines: the primal problem, the dual objective of
    objective.py and the primal weights recovered from dual parameters. *)
From Coq Require Import Reals List Lra Lia Bool Arith.
From Verif Require Import Prelude Vec Mat Proj Loss Objective SparseSimplex.
Import ListNotations.
Open Scope R_scope.

(** tests/block_cd_test.py:213-214 (sklearn's LabelBinarizer): one row of Y per label *)
Definition binarized (k : nat) (y : list nat) : mat := map (fun label => one_hot label k) y.

(** objective.py:49-56 [CompositeLinearFunction.__call__] on [MulticlassLinearSvmDual]
    (objective.py:309-336) with data (X, binarized y) *)
Definition svm_dual (p k : nat) (l2reg : R) (X : mat) (y : list nat) (beta : mat) : R :=
  comp_call k (multiclass_linear_svm_dual p k l2reg X (binarized k y)) beta.

(** tests/block_cd_test.py:232 (also examples/constrained/multiclass_linear_svm.py:131):
    [W_fit = jnp.dot(X.T, (Y - sol.params)) / l2reg] *)
Definition svm_weights (p k : nat) (l2reg : R) (X : mat) (y : list nat) (beta : mat) : mat :=
  msmul (/ l2reg) (mmul k (mtrans p X) (msub (binarized k y) beta)).

(** ** Specification *)
(** The training problem: the sum over the samples of loss.py's [multiclass_hinge_loss] of the
    scores X W, plus l2reg / 2 times the squared Frobenius norm of W. *)
Definition svm_primal (k : nat) (l2reg : R) (X : mat) (y : list nat) (W : mat) : R :=
  vsum (map (fun ls => multiclass_hinge_loss (fst ls) (snd ls)) (combine y (mmul k X W)))
  + l2reg / 2 * mdot W W.
(** dual parameters: one point of the unit simplex per sample *)
Definition svm_feasible (N k : nat) (beta : mat) : Prop := length beta = N /\ Forall (simplex k 1) beta.
Definition svm_dual_optimal (N p k : nat) (l2reg : R) (X : mat) (y : list nat) (beta : mat) : Prop :=
  svm_feasible N k beta /\
  forall gamma, svm_feasible N k gamma -> svm_dual p k l2reg X y beta <= svm_dual p k l2reg X y gamma.
Definition svm_primal_optimal (p k : nat) (l2reg : R) (X : mat) (y : list nat) (W : mat) : Prop :=
  mat_shape p k W /\
  forall V, mat_shape p k V -> svm_primal k l2reg X y W <= svm_primal k l2reg X y V.
