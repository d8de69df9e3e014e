(** Model of base.py [LinearOperator] and objective.py.
    Parameters are matrices (one row per feature, one column per output); vectors of
    parameters are the case of one column. *)
From Coq Require Import Reals List Lra Lia Bool Arith ZArith.
From Verif Require Import Prelude Vec Mat Prox Loss SparseSimplex.
Import ListNotations.
Open Scope R_scope.

(** <A, B> for matrices of the same shape (jnp.vdot) *)
Fixpoint mdot (A B : mat) : R :=
  match A, B with a :: A', b :: B' => dot a b + mdot A' B' | _, _ => 0 end.
(** A[:, i] *)
Definition col (i : nat) (A : mat) : vec := map (fun r => nth i r 0) A.

(** base.py:415-469 [LinearOperator]; [k] is the number of columns of the argument. *)
Definition lo_matvec (k : nat) (A : mat) (x : mat) : mat := mmul k A x.
Definition lo_matvec_element (k : nat) (A x : mat) (idx : nat) : vec := tvec k x (nth idx A []).
Definition lo_rmatvec (k n : nat) (A x : mat) : mat := mmul k (mtrans n A) x.
Definition lo_rmatvec_element (k : nat) (A x : mat) (idx : nat) : vec := tvec k x (col idx A).
Definition lo_update_matvec (A : mat) (Ax : mat) (delta : vec) (idx : nat) : mat :=
  madd Ax (outer (col idx A) delta).
(** [update_rmatvec] for one-dimensional arguments (it raises NotImplementedError for matrices) *)
Definition lo_update_rmatvec (A : mat) (ATx : vec) (delta : R) (idx : nat) : vec :=
  vadd ATx (smul delta (nth idx A [])).
Definition lo_column_sq_norms (n : nat) (A : mat) : vec :=
  map (fun i => dot (col i A) (col i A)) (seq 0 n).

(** objective.py:26-56 [CompositeLinearFunction] applied to its data: the linear operator,
    the function of the predictions with its gradient, the optional linear term, and
    [columnwise_lipschitz_const]. *)
Record composite := {
  linop : mat;
  subfun : mat -> R;
  grad_subfun : mat -> mat;   (* jax.grad(subfun) *)
  linear_term : option mat;
  columnwise : vec
}.

(** objective.py:49-56 [__call__] *)
Definition comp_call (k : nat) (f : composite) (params : mat) : R :=
  subfun f (lo_matvec k (linop f) params) +
  match linear_term f with Some b => mdot params b | None => 0 end.

(** objective.py:59-78 [LeastSquares]; [Y] has one row per sample and [k] columns. *)
Definition least_squares (n k : nat) (X Y : mat) : composite :=
  {| linop := X;
     subfun := fun P => 0.5 * (mdot (msub P Y) (msub P Y) / INR (length Y * k));
     grad_subfun := fun P => msmul (/ INR (length Y * k)) (msub P Y);
     linear_term := None;
     columnwise := smul 1 (lo_column_sq_norms n X) |}.

(** objective.py:99-128 [ridge_regression] *)
Definition ridge_regression (n k : nat) (W : mat) (l2reg : R) (X Y : mat) : R :=
  comp_call k (least_squares n k X Y) W + 0.5 * l2reg * mdot W W.

(** jnp.mean of per-sample losses *)
Definition mean (l : vec) : R := vsum l / INR (length l).

(** objective.py:134-150 [MulticlassLogreg] *)
Definition multiclass_logreg (n k : nat) (X : mat) (y : list nat) : composite :=
  {| linop := X;
     subfun := fun P => mean (map2 multiclass_logistic_loss y P);
     grad_subfun := fun P => msmul (/ INR (length y))
        (map2 (fun label row => vsub (softmax row) (one_hot label k)) y P);
     linear_term := None;
     columnwise := smul 0.5 (lo_column_sq_norms n X) |}.

(** objective.py:177-204 [multiclass_logreg_with_intercept] *)
Definition multiclass_logreg_with_intercept (k : nat) (W : mat) (b : vec) (X : mat) (y : list nat) : R :=
  mean (map2 multiclass_logistic_loss y (map (fun row => vadd row b) (mmul k X W))).
(** objective.py:205-228 [l2_multiclass_logreg] *)
Definition l2_multiclass_logreg (k : nat) (W : mat) (l2reg : R) (X : mat) (y : list nat) : R :=
  mean (map2 multiclass_logistic_loss y (mmul k X W)) + 0.5 * l2reg * mdot W W.
(** objective.py:231-258 [l2_multiclass_logreg_with_intercept] *)
Definition l2_multiclass_logreg_with_intercept (k : nat) (W : mat) (b : vec) (l2reg : R) (X : mat) (y : list nat) : R :=
  mean (map2 multiclass_logistic_loss y (map (fun row => vadd row b) (mmul k X W))) + 0.5 * l2reg * mdot W W.

(** objective.py:267-283 [BinaryLogreg]: the predictions have one column; the derivative of
    softplus is the sigmoid. *)
Definition binary_logreg (n : nat) (X : mat) (y : list Z) : composite :=
  {| linop := X;
     subfun := fun P => mean (map2 (fun label row => binary_logistic_loss label (nth 0 row 0)) y P);
     grad_subfun := fun P => msmul (/ INR (length y))
        (map2 (fun label row => [where_label label (- sigmoid (- nth 0 row 0)) (sigmoid (nth 0 row 0))]) y P);
     linear_term := None;
     columnwise := smul 0.25 (lo_column_sq_norms n X) |}.

(** objective.py:309-333 [MulticlassLinearSvmDual]: X has one row per sample and p columns, Y
    (one-hot labels) one row per sample and k columns; the parameters have the shape of Y. *)
Definition multiclass_linear_svm_dual (p k : nat) (l2reg : R) (X Y : mat) : composite :=
  let XY := mmul k (mtrans p X) Y in
  {| linop := mtrans p X;
     subfun := fun Xbeta => let V := msub XY Xbeta in 0.5 / l2reg * mdot V V;
     grad_subfun := fun Xbeta => msmul (/ l2reg) (msub Xbeta XY);
     linear_term := Some (map (map (fun a => a - 1)) Y);
     columnwise := lo_column_sq_norms (length X) (mtrans p X) |}.

(** ** Specification *)
(** [grad] is the gradient of the convex function [f] of matrices of shape m x k. *)
Definition mconvex (m k : nat) (f : mat -> R) (grad : mat -> mat) : Prop :=
  forall P Q, mat_shape m k P -> mat_shape m k Q -> f P + mdot (grad P) (msub Q P) <= f Q.
(** ... and it is c-Lipschitz, as the quadratic upper bound. *)
Definition msmooth (m k : nat) (f : mat -> R) (grad : mat -> mat) (c : R) : Prop :=
  forall P Q, mat_shape m k P -> mat_shape m k Q ->
    f Q <= f P + mdot (grad P) (msub Q P) + c / 2 * mdot (msub Q P) (msub Q P).
(** L_i bounds the curvature of the whole objective along block i: moving block i of the
    parameters from w to w + d changes the objective by at most <grad_i, d> + L_i/2 |d|^2. *)
Definition full_grad_block (k : nat) (f : composite) (X : mat) (i : nat) : vec :=
  let g := lo_rmatvec_element k (linop f) (grad_subfun f (lo_matvec k (linop f) X)) i in
  match linear_term f with Some b => vadd g (nth i b []) | None => g end.
Definition columnwise_valid (n k : nat) (f : composite) (L : vec) : Prop :=
  forall X i d, mat_shape n k X -> (i < n)%nat -> length d = k ->
    comp_call k f (set_nth X i (vadd (nth i X []) d)) <=
    comp_call k f X + dot (full_grad_block k f X i) d + nth i L 0 / 2 * sqnorm d.
