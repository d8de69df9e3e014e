(** Model of projection_sparse_simplex (jaxopt/_src/projection.py:140-207). *)
From Coq Require Import Reals List Arith Bool Lra.
From Verif Require Import Vec Proj Prox.
Import ListNotations.
Open Scope R_scope.

(** jax.lax.top_k(x, k): the k largest values in decreasing order with their
    indices, ties by lower index.  The exact operator, i.e. use_approx_max_nz = False
    (projection.py:147-150); [approx_max_k] is not modelled.  k > n is rejected by JAX. *)
Fixpoint insert_pair (a : R * nat) (l : list (R * nat)) : list (R * nat) :=
  match l with
  | [] => [a]
  | b :: l' => if Rle_dec (fst b) (fst a) then a :: l else b :: insert_pair a l'
  end.
Definition sort_pairs (l : list (R * nat)) : list (R * nat) := fold_right insert_pair [] l.
Definition top_k (x : vec) (k : nat) : vec * list nat :=
  let s := firstn k (sort_pairs (combine x (seq 0 (length x)))) in (map fst s, map snd s).

(** projection.py:162-164: sum over j of p_j * one_hot(index_j, n). *)
Definition one_hot (j n : nat) : vec := map (fun i => if Nat.eqb j i then 1 else 0) (seq 0 n).
Fixpoint scatter (p : vec) (idx : list nat) (n : nat) : vec :=
  match p, idx with
  | a :: p', j :: idx' => vadd (smul a (one_hot j n)) (scatter p' idx' n)
  | _, _ => vzero n
  end.

(** projection.py:140-166 [_projection_unit_sparse_simplex] *)
Definition projection_unit_sparse_simplex (x : vec) (max_nz : nat) : vec :=
  let '(vals, idxs) := top_k x max_nz in
  let cs := cumsum vals in
  let idx := count_true (simplex_cond 1 vals) in
  let p := map (fun v => relu (1 / INR idx + (v - nth (idx - 1) cs 0 / INR idx))) vals in
  scatter p idxs (length x).

(** projection.py:181-207 *)
Definition projection_sparse_simplex (x : vec) (max_nz : nat) (value : R) : vec :=
  smul value (projection_unit_sparse_simplex (map (fun a => a / value) x) max_nz).

(** Specification: at most k non-zero coordinates. *)
Definition nnz (q : vec) : nat := length (filter (fun a => if Req_EM_T a 0 then false else true) q).
Definition sparse_simplex (n k : nat) (value : R) (q : vec) : Prop :=
  simplex n value q /\ (nnz q <= k)%nat.
