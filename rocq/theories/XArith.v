(** IEEE arithmetic without rounding and without signed zeros, on the extended numbers of
    Prelude.v, and vectors of such numbers. *)
From Coq Require Import Reals List Lra Lia Bool Arith.
From Verif Require Import Prelude Vec Mat.
Import ListNotations.
Open Scope R_scope.

Definition xopp (x : xnum) : xnum := match x with Fin a => Fin (- a) | PInf => NInf | NInf => PInf | NaN => NaN end.
Definition xadd (x y : xnum) : xnum :=
  match x, y with
  | Fin a, Fin b => Fin (a + b)
  | NaN, _ | _, NaN => NaN
  | PInf, NInf | NInf, PInf => NaN
  | PInf, _ | _, PInf => PInf
  | NInf, _ | _, NInf => NInf
  end.
Definition xsub (x y : xnum) : xnum :=
  match x, y with Fin a, Fin b => Fin (a - b) | _, _ => xadd x (xopp y) end.
(** sign: infinity times a number; 0 * inf is NaN *)
Definition xinf_times (a : R) : xnum := if Rlt_dec 0 a then PInf else if Rlt_dec a 0 then NInf else NaN.
Definition xmul (x y : xnum) : xnum :=
  match x, y with
  | Fin a, Fin b => Fin (a * b)
  | NaN, _ | _, NaN => NaN
  | Fin a, PInf | PInf, Fin a => xinf_times a
  | Fin a, NInf | NInf, Fin a => xopp (xinf_times a)
  | PInf, PInf | NInf, NInf => PInf
  | PInf, NInf | NInf, PInf => NInf
  end.
(** division; a zero divisor counts as +0 *)
Definition xdivx (x y : xnum) : xnum :=
  match x, y with
  | Fin a, Fin b => if Req_EM_T b 0 then xinf_times a else Fin (a / b)
  | NaN, _ | _, NaN => NaN
  | PInf, Fin b => if Rlt_dec b 0 then NInf else PInf
  | NInf, Fin b => if Rlt_dec b 0 then PInf else NInf
  | Fin _, _ => Fin 0
  | _, _ => NaN
  end.
(** jnp.maximum, jnp.minimum, jax.lax.max: NaN if either argument is *)
Definition xmax (x y : xnum) : xnum :=
  match x, y with
  | NaN, _ | _, NaN => NaN
  | Fin a, Fin b => Fin (Rmax a b)
  | PInf, _ | _, PInf => PInf
  | NInf, z | z, NInf => z
  end.
Definition xmin (x y : xnum) : xnum :=
  match x, y with
  | NaN, _ | _, NaN => NaN
  | Fin a, Fin b => Fin (Rmin a b)
  | NInf, _ | _, NInf => NInf
  | PInf, z | z, PInf => z
  end.
Definition xabs (x : xnum) : xnum := match x with Fin a => Fin (Rabs a) | NaN => NaN | _ => PInf end.
(** square root, NaN on negative arguments *)
Definition xsqrt (x : xnum) : xnum :=
  match x with Fin a => if Rlt_dec a 0 then NaN else Fin (sqrt a) | PInf => PInf | _ => NaN end.
(** x < y, x <= y: false on NaN *)
Definition xltb (x y : xnum) : bool :=
  match x, y with
  | Fin a, Fin b => if Rlt_dec a b then true else false
  | NaN, _ | _, NaN => false
  | NInf, NInf | PInf, _ => false
  | _, NInf => false
  | NInf, _ | Fin _, PInf => true
  end.
Definition xle (x y : xnum) : bool :=
  match x, y with
  | Fin a, Fin b => if Rle_dec a b then true else false
  | NaN, _ | _, NaN => false
  | NInf, _ | _, PInf => true
  | _, _ => false
  end.

Definition xvec := list xnum.
Definition xmat := list xvec.
Definition fin (v : vec) : xvec := map Fin v.
Definition finm (M : mat) : xmat := map fin M.
Fixpoint xvadd (x y : xvec) : xvec :=
  match x, y with [], _ => y | _, [] => x | a :: x', b :: y' => xadd a b :: xvadd x' y' end.
Fixpoint xvsub (x y : xvec) : xvec :=
  match x, y with [], _ => map xopp y | _, [] => x | a :: x', b :: y' => xsub a b :: xvsub x' y' end.
Definition xsmul (a : xnum) (x : xvec) : xvec := map (xmul a) x.
Fixpoint xdot (x y : xvec) : xnum :=
  match x, y with a :: x', b :: y' => xadd (xmul a b) (xdot x' y') | _, _ => Fin 0 end.
Definition xnorm2 (x : xvec) : xnum := xsqrt (xdot x x).
(** maximum of the entries (a non-empty array), NaN if any is *)
Definition xvmax (x : xvec) : xnum := match x with [] => NInf | a :: x' => fold_left xmax x' a end.
Definition xvzero (n : nat) : xvec := repeat (Fin 0) n.
Definition xmvec (M : xmat) (v : xvec) : xvec := map (fun r => xdot r v) M.
Fixpoint xtvec (n : nat) (M : xmat) (y : xvec) : xvec :=
  match M, y with r :: M', a :: y' => xvadd (xsmul a r) (xtvec n M' y') | _, _ => xvzero n end.
Definition xmmul (n : nat) (A B : xmat) : xmat := map (xtvec n B) A.
Definition xmtrans (n : nat) (M : xmat) : xmat := map (fun j => map (fun r => nth j r (Fin 0)) M) (seq 0 n).
Fixpoint xmadd (A B : xmat) : xmat := match A, B with a :: A', b :: B' => xvadd a b :: xmadd A' B' | _, _ => [] end.
Definition xmsmul (a : xnum) (A : xmat) : xmat := map (xsmul a) A.
Definition xeye (n : nat) : xmat := finm (eye n).
Definition xdiag (n : nat) (M : xmat) : xvec := map (fun i => nth i (nth i M []) (Fin 0)) (seq 0 n).

(** ** On finite values these are the real operations *)
Lemma fin_length x : length (fin x) = length x. Proof. apply map_length. Qed.
Lemma xvadd_fin x y : xvadd (fin x) (fin y) = fin (vadd x y).
Proof. revert y. induction x as [|a x IH]; intros [|b y]; try reflexivity. cbn. f_equal. apply IH. Qed.
Lemma xvsub_fin x y : xvsub (fin x) (fin y) = fin (vsub x y).
Proof.
  revert y. induction x as [|a x IH]; intros [|b y]; try reflexivity.
  - cbn. f_equal. unfold fin. rewrite !map_map. reflexivity.
  - cbn. f_equal. apply IH.
Qed.
Lemma xsmul_fin a x : xsmul (Fin a) (fin x) = fin (smul a x).
Proof. unfold xsmul, fin, smul. rewrite !map_map. reflexivity. Qed.
Lemma xdot_fin x y : xdot (fin x) (fin y) = Fin (dot x y).
Proof. revert y. induction x as [|a x IH]; intros [|b y]; try reflexivity. cbn. fold (fin x) (fin y). rewrite IH. reflexivity. Qed.
Lemma xnorm2_fin x : xnorm2 (fin x) = Fin (norm2 x).
Proof. unfold xnorm2, norm2. rewrite xdot_fin. simpl. destruct (Rlt_dec (dot x x) 0) as [H|H]; [|reflexivity]. exfalso. assert (P := sqnorm_nonneg x). unfold sqnorm in P. lra. Qed.
Lemma xvzero_fin n : xvzero n = fin (vzero n).
Proof. unfold xvzero, fin, vzero. induction n; simpl; congruence. Qed.
Lemma xmvec_fin M v : xmvec (finm M) (fin v) = fin (mvec M v).
Proof. unfold xmvec, finm, fin, mvec. rewrite !map_map. apply map_ext. intros r. apply xdot_fin. Qed.
Lemma xtvec_fin n M y : xtvec n (finm M) (fin y) = fin (tvec n M y).
Proof.
  revert y. induction M as [|r M IH]; intros [|a y]; try apply xvzero_fin. cbn. fold (fin r) (finm M) (fin y).
  rewrite IH, xsmul_fin. apply xvadd_fin.
Qed.
Lemma xmmul_fin n A B : xmmul n (finm A) (finm B) = finm (mmul n A B).
Proof. unfold xmmul, mmul, finm. rewrite !map_map. apply map_ext. intros r. apply xtvec_fin. Qed.
Lemma nth_fin j x : nth j (fin x) (Fin 0) = Fin (nth j x 0).
Proof. unfold fin. apply (map_nth Fin). Qed.
Lemma xmtrans_fin n M : xmtrans n (finm M) = finm (mtrans n M).
Proof.
  unfold xmtrans, mtrans, finm, fin at 2. rewrite map_map. apply map_ext. intros j. rewrite !map_map. apply map_ext. intros r. apply nth_fin.
Qed.
Lemma xmadd_fin A B : xmadd (finm A) (finm B) = finm (madd A B).
Proof. revert B. induction A as [|a A IH]; intros [|b B]; try reflexivity. cbn. fold (finm A) (finm B). rewrite IH, xvadd_fin. reflexivity. Qed.
Lemma xmsmul_fin a A : xmsmul (Fin a) (finm A) = finm (msmul a A).
Proof. unfold xmsmul, msmul, finm. rewrite !map_map. apply map_ext. intros r. apply xsmul_fin. Qed.
Lemma xdiag_fin n M : xdiag n (finm M) = fin (map (fun i => entry M i i) (seq 0 n)).
Proof.
  unfold xdiag, fin at 1. rewrite map_map. apply map_ext. intros i. unfold finm, entry. replace (@nil xnum) with (fin []) by reflexivity.
  rewrite (map_nth fin). apply nth_fin.
Qed.
Lemma fin_inj x y : fin x = fin y -> x = y.
Proof. revert y. induction x as [|a x IH]; intros [|b y] H; try discriminate; [reflexivity|]. injection H as -> H. f_equal. apply IH. exact H. Qed.
#[global] Hint Rewrite xvadd_fin xvsub_fin xsmul_fin xdot_fin xnorm2_fin xvzero_fin xmvec_fin xtvec_fin xmmul_fin xmtrans_fin xmadd_fin xmsmul_fin : xfin.
