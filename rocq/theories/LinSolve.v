(** Model of linear_solve.py.  An array is its shape and its data in row-major order; a matvec maps
    arrays of b's shape to such arrays and is given here on the data. *)
From Coq Require Import Reals List Lra Lia Bool Arith.
From Verif Require Import Prelude Vec Mat LinAlg.
Import ListNotations.
Open Scope R_scope.

Record array := { shape : list nat; data : vec }.
Definition size_of (s : list nat) : nat := fold_right Nat.mul 1%nat s.
Definition array_ok (b : array) : Prop := length (data b) = size_of (shape b).

(** linear_solve.py:30-33 [_materialize_array]: jax.jacfwd of the (linear) matvec at zero; column
    j is the image of the j-th unit vector.  For an array of rank 2 this is a 4-d tensor, with the
    same entries in row-major order. *)
Definition materialize_array (matvec : vec -> vec) (n : nat) : mat :=
  mtrans n (map (fun j => matvec (unit_vec n j)) (seq 0 n)).
(** linear_solve.py:36-39 [_make_ridge_matvec] *)
Definition make_ridge_matvec (matvec : vec -> vec) (ridge : R) : vec -> vec :=
  fun v => vadd (matvec v) (smul ridge v).
(** linear_solve.py:57-58 and the same two lines in every solver *)
Definition with_ridge (matvec : vec -> vec) (ridge : option R) : vec -> vec :=
  match ridge with None => matvec | Some r => make_ridge_matvec matvec r end.

Section Dense.
(** jnp.linalg.solve; jax.scipy.linalg.solve(assume_a='pos') on 2-d A and 1-d b; jnp.linalg.inv;
    jax.scipy.linalg.qr and solve_triangular *)
Variable la_solve : mat -> vec -> vec.
Variable cho_solve : mat -> vec -> vec.
Variable la_inv : mat -> mat.
Variable la_qr : mat -> mat * mat.
Variable la_solve_triangular : mat -> vec -> vec.

(** The three common lines for a scalar b, e.g. linear_solve.py:60-63 *)
Definition solve_scalar (A : mat) (b : array) : result array :=
  if Req_EM_T (entry A 0 0) 0 then Err ValueError
  else Ok {| shape := shape b; data := [nth 0 (data b) 0 / entry A 0 0] |}.

(** linear_solve.py:42-70 [solve_lu] *)
Definition solve_lu (matvec : vec -> vec) (b : array) (ridge : option R) : result array :=
  let matvec := with_ridge matvec ridge in
  let A := materialize_array matvec (length (data b)) in
  match length (shape b) with
  | 0%nat => solve_scalar A b
  | 1%nat => Ok {| shape := shape b; data := la_solve A (data b) |}
  | 2%nat => Ok {| shape := shape b; data := la_solve A (data b) |}   (* A reshaped, b ravelled *)
  | _ => Err NotImplementedErr
  end.

(** linear_solve.py:73-100 [solve_cholesky].  In the 2-d case A is passed as the 4-d tensor it is
    (no reshape); jax.scipy.linalg.solve(assume_a='pos') only accepts b of rank A.ndim or
    A.ndim - 1 and raises ValueError. *)
Definition solve_cholesky (matvec : vec -> vec) (b : array) (ridge : option R) : result array :=
  let matvec := with_ridge matvec ridge in
  let A := materialize_array matvec (length (data b)) in
  match length (shape b) with
  | 0%nat => solve_scalar A b
  | 1%nat => Ok {| shape := shape b; data := cho_solve A (data b) |}
  | 2%nat => Err ValueError
  | _ => Err NotImplementedErr
  end.

(** linear_solve.py:103-130 [solve_inv] *)
Definition solve_inv (matvec : vec -> vec) (b : array) (ridge : option R) : result array :=
  let matvec := with_ridge matvec ridge in
  let A := materialize_array matvec (length (data b)) in
  match length (shape b) with
  | 0%nat => solve_scalar A b
  | 1%nat => Ok {| shape := shape b; data := mvec (la_inv A) (data b) |}
  | _ => Err NotImplementedErr
  end.

(** linear_solve.py:132-160 [solve_qr] *)
Definition solve_qr (matvec : vec -> vec) (b : array) (ridge : option R) : result array :=
  let matvec := with_ridge matvec ridge in
  let A := materialize_array matvec (length (data b)) in
  match length (shape b) with
  | 0%nat => solve_scalar A b
  | 1%nat => let '(q, r) := la_qr A in
             Ok {| shape := shape b; data := la_solve_triangular r (tvec (length (data b)) q (data b)) |}
  | _ => Err NotImplementedErr
  end.
End Dense.

Section Krylov.
(** jax.scipy.sparse.linalg.{cg, gmres, bicgstab}(matvec, b, x0) *)
Variables (sp_cg sp_gmres sp_bicgstab : (vec -> vec) -> vec -> option vec -> vec).
(** linear_solve.py:162-183 [solve_cg] *)
Definition solve_cg (matvec : vec -> vec) (b : vec) (ridge : option R) (init : option vec) : vec :=
  sp_cg (with_ridge matvec ridge) b init.
(** linear_solve.py:241-261 [solve_gmres] *)
Definition solve_gmres (matvec : vec -> vec) (b : vec) (ridge : option R) (init : option vec) : vec :=
  sp_gmres (with_ridge matvec ridge) b init.
(** linear_solve.py:264-283 [solve_bicgstab] *)
Definition solve_bicgstab (matvec : vec -> vec) (b : vec) (ridge : option R) (init : option vec) : vec :=
  sp_bicgstab (with_ridge matvec ridge) b init.

(** linear_solve.py:186-188 [_make_rmatvec], [_normal_matvec]: jax.linear_transpose / jax.vjp of
    the matvec.  Here the matvec is given by its m x n matrix A; the transpose is built for an
    example input with [n_example] entries, a TypeError if that is not an input of A. *)
Definition normal_matvec (n : nat) (A : mat) (x : vec) : vec := tvec n A (mvec A x).
(** linear_solve.py:197-238 [solve_normal_cg] *)
Definition solve_normal_cg (n : nat) (A : mat) (b : vec) (ridge : option R) (init : option vec) : result vec :=
  let n_example := match init with None => length b | Some i => length i end in
  if Nat.eq_dec n_example n then
    Ok (sp_cg (with_ridge (normal_matvec n A) ridge) (tvec n A b) init)
  else Err TypeError.
End Krylov.

(** ** Specification *)
Definition is_linear (n : nat) (f : vec -> vec) : Prop :=
  (forall x, length x = n -> length (f x) = n) /\
  (forall x y, length x = n -> length y = n -> f (vadd x y) = vadd (f x) (f y)) /\
  (forall a x, length x = n -> f (smul a x) = smul a (f x)).
(** x solves (f + ridge I) x = b *)
Definition solves_ridge (f : vec -> vec) (ridge : option R) (b x : vec) : Prop :=
  length x = length b /\
  vadd (f x) (smul (match ridge with Some r => r | None => 0 end) x) = b.
(** f + ridge I has a trivial kernel *)
Definition regular_op (n : nat) (f : vec -> vec) (ridge : option R) : Prop :=
  forall x, length x = n -> vadd (f x) (smul (match ridge with Some r => r | None => 0 end) x) = vzero n -> x = vzero n.
Definition positive_op (n : nat) (f : vec -> vec) (ridge : option R) : Prop :=
  (forall x y, length x = n -> length y = n -> dot (f x) y = dot x (f y)) /\
  (forall x, length x = n -> x <> vzero n -> 0 < dot x (f x) + match ridge with Some r => r | None => 0 end * dot x x).
(** An exact Krylov solver on positive definite operators (cg), and on all regular ones. *)
Definition exact_on_positive (k : (vec -> vec) -> vec -> option vec -> vec) : Prop :=
  forall n f b init, is_linear n f -> positive_op n f None -> length b = n -> match init with Some i => length i = n | None => True end ->
    length (k f b init) = n /\ f (k f b init) = b.
Definition exact_on_regular (k : (vec -> vec) -> vec -> option vec -> vec) : Prop :=
  forall n f b init, is_linear n f -> regular_op n f None -> length b = n -> match init with Some i => length i = n | None => True end ->
    length (k f b init) = n /\ f (k f b init) = b.
(** An exact inverse and exact factorisation, for the dense solvers. *)
Definition exact_inverse (inv : mat -> mat) : Prop :=
  forall n M b, nonsingular n M -> length b = n -> length (mvec (inv M) b) = n /\ mvec M (mvec (inv M) b) = b.
Definition upper_triangular (M : mat) : Prop := forall i j, (j < i)%nat -> entry M i j = 0.
Definition exact_triangular (solve : mat -> vec -> vec) : Prop :=
  forall n M b, nonsingular n M -> upper_triangular M -> length b = n -> length (solve M b) = n /\ mvec M (solve M b) = b.
(** (q, r) is a QR factorisation of M: q orthogonal, r upper triangular, M = q r *)
Definition is_qr (n : nat) (M : mat) (qr : mat * mat) : Prop :=
  let '(q, r) := qr in
  mat_shape n n q /\ mat_shape n n r /\ upper_triangular r /\ M = mmul n q r /\
  (forall y, length y = n -> mvec q (tvec n q y) = y).
(** exact on the symmetric positive definite matrices only *)
Definition exact_spd_solver (solve : mat -> vec -> vec) : Prop :=
  forall n M b, mat_shape n n M -> symmetric n M -> pos_def n M -> length b = n -> length (solve M b) = n /\ mvec M (solve M b) = b.
