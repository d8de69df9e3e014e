(** C11: projection onto the simplex with a cardinality constraint. *)
From Coq Require Import Reals List Lra Lia.
From Verif Require Import Vec Proj ProjProofs SimplexTheorems SparseSimplex SparseSimplexProofs.
Import ListNotations.
Open Scope R_scope.

(** C11.  The set is not convex, so the nearest point need not be unique. *)
Theorem C11_sparse_simplex : forall x max_nz value,
  (1 <= max_nz <= length x)%nat -> 0 < value ->
  let p := projection_sparse_simplex x max_nz value in
  sparse_simplex (length x) max_nz value p /\
  forall q, sparse_simplex (length x) max_nz value q -> dist2 x p <= dist2 x q.
Proof. intros x k v H1 H2. exact (sparse_optimal x k v H1 H2). Qed.
Print Assumptions C11_sparse_simplex.

(** With max_nz = n the constraint is void and the result is projection_simplex. *)
Theorem C11_full_support : forall x value, x <> [] -> 0 < value ->
  projection_sparse_simplex x (length x) value = projection_simplex x value.
Proof.
  intros x v Hx Hv.
  assert (Hl : (1 <= length x <= length x)%nat) by (destruct x; [congruence|simpl; lia]).
  destruct (sparse_optimal x (length x) v Hl Hv) as [[Hs _] Hmin].
  destruct (C06_simplex x v Hx Hv) as (Hp & _ & Hu). apply Hu; [exact Hs|]. apply Hmin.
  split; [exact Hp|]. unfold nnz. destruct Hp as [<- _].
  generalize (projection_simplex x v). intros l. induction l as [|a l IH]; simpl; [lia|].
  destruct (Req_EM_T a 0); simpl; lia.
Qed.
Print Assumptions C11_full_support.

Example C11_example : (1 <= 2 <= length [3; 1; 5])%nat /\ 0 < 2 /\
  sparse_simplex 3 2 2 [1; 0; 1] /\ ~ sparse_simplex 3 1 2 [1; 0; 1].
Proof.
  split; [simpl; lia|]. split; [lra|].
  assert (E : nnz [1; 0; 1] = 2%nat).
  { unfold nnz; simpl. destruct (Req_EM_T 1 0); [lra|]. destruct (Req_EM_T 0 0); [|congruence]. reflexivity. }
  split.
  - split; [|rewrite E; lia]. split; [reflexivity|]. split; [|simpl; lra].
    intros [|[|[|i]]] Hi; simpl; try lra; lia.
  - intros [_ H]. rewrite E in H. lia.
Qed.
