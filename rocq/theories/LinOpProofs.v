(** Lemmas about linear operators and the inner systems of BoxOSQP. *)
From Coq Require Import String Ascii.
From Coq Require Import Reals List Bool Arith Lra Lia.
From Verif Require Import Prelude Vec Mat LinAlg Pytree PytreeProofs XArith Kkt LinSolve Osqp LinOp.
Import ListNotations.
Open Scope R_scope.

Lemma Forall2_len {A B} (P : A -> B -> Prop) l l' : Forall2 P l l' -> length l = length l'.
Proof. induction 1; cbn; congruence. Qed.
Lemma Forall2_zip_map {A B C} (P : A -> B -> Prop) (Q : A -> C -> Prop) (f : A -> B -> C) l l' : Forall2 P l l' -> (forall a b, P a b -> Q a (f a b)) -> Forall2 Q l (zip_with f l l').
Proof. induction 1; intros H'; cbn; constructor; auto. Qed.
Lemma Forall2_strengthen {A B} (P Q : A -> B -> Prop) (G : A -> Prop) l l' : Forall G l -> Forall2 P l l' -> (forall a b, G a -> P a b -> Q a b) -> Forall2 Q l l'.
Proof. intros HG HP HI. induction HP; [constructor|]. inversion HG; subst. constructor; auto. Qed.

(** a map on leaves gives a result exactly on the trees of the same structure whose leaves are accepted *)
Lemma on_leaf_inv {A B C} (f : A -> B -> result C) t u w : tree_map2 (on_leaf f) t u = Ok w -> structure t = structure u /\ Forall2 (fun a b => exists c, f a b = Ok c) (leaves t) (leaves u).
Proof.
  unfold tree_map2. intros H. destruct (flatten_up_to t u) as [us|] eqn:E1; [|discriminate]. destruct (sequence _) as [l|] eqn:E2; [|discriminate].
  assert (HS : structure t = structure u).
  { apply (flatten_up_to_inv t u us E1). intros v Hv. destruct (sequence_in _ _ _ _ E2 (eq_sym (flatten_up_to_length _ _ _ E1)) v Hv) as (a & c & K). destruct v as [b|]; [exists b; reflexivity|discriminate]. }
  split; [exact HS|]. rewrite (flatten_up_to_same t u HS) in E1. injection E1 as <-. rewrite zip_map_r in E2. assert (L := leaves_length _ _ HS). clear - E2 L. revert l E2 L. generalize (leaves u) as l2. generalize (leaves t) as l1.
  induction l1 as [|a l1 IH]; intros [|b l2] l E2 L; try discriminate; [constructor|]. cbn [zip_with sequence] in E2. unfold on_leaf at 1 in E2. destruct (f a b) as [c|] eqn:E; [|discriminate]. destruct (sequence _) as [r|] eqn:E3; [|discriminate].
  constructor; [exists c; exact E|]. apply (IH l2 r E3). cbn in L. lia.
Qed.

Lemma tree_map2_leaf {A B C} (f : A -> tree B -> result C) a t : tree_map2 f (Leaf a) t = match f a t with Ok c => Ok (Leaf c) | Err e => Err e end.
Proof. unfold tree_map2. cbn. destruct (f a t); reflexivity. Qed.
Lemma tree_map1_leaf {A B} (f : A -> result B) a : tree_map1 f (Leaf a) = match f a with Ok c => Ok (Leaf c) | Err e => Err e end.
Proof. unfold tree_map1. cbn. destruct (f a); reflexivity. Qed.
(** ** dense operators *)
Lemma matvec_ok W x : domain_of W x -> exists v, dense_matvec W x = Ok v /\ structure v = structure W /\ leaves v = zip_with (fun w u => mvec (ment w) u) (leaves W) (leaves x).
Proof.
  intros [HS HF]. apply (tree_map2_ok (on_leaf jdot) (fun w u => mvec (ment w) u) W x HS). revert HF. generalize (leaves x). generalize (leaves W). intros l l' HF. induction HF; constructor; auto.
  unfold on_leaf, jdot. rewrite H, Nat.eqb_refl. reflexivity.
Qed.
Lemma rmatvec_ok W y : codomain_of W y -> exists v, dense_rmatvec W y = Ok v /\ structure v = structure W /\ leaves v = zip_with (fun w u => tvec (ncols w) (ment w) u) (leaves W) (leaves y).
Proof.
  intros [HS HF]. apply (tree_map2_ok (on_leaf jdot_t) (fun w u => tvec (ncols w) (ment w) u) W y HS). revert HF. generalize (leaves y). generalize (leaves W). intros l l' HF. induction HF; constructor; auto.
  unfold on_leaf, jdot_t. rewrite H, Nat.eqb_refl. reflexivity.
Qed.
Lemma matvec_codomain W x v : domain_of W x -> structure v = structure W -> leaves v = zip_with (fun w u => mvec (ment w) u) (leaves W) (leaves x) -> codomain_of W v.
Proof. intros [HS HF] E1 E2. split; [congruence|]. rewrite E2. apply (Forall2_zip_map _ _ _ _ _ HF). intros a b _. apply mvec_length. Qed.
Lemma rmatvec_domain W y v : Forall matrix_ok (leaves W) -> codomain_of W y -> structure v = structure W -> leaves v = zip_with (fun w u => tvec (ncols w) (ment w) u) (leaves W) (leaves y) -> domain_of W v.
Proof.
  intros HW [HS HF] E1 E2. split; [congruence|]. rewrite E2. clear E1 E2 HS. revert HF. generalize (leaves y). intros l HF. induction HF; cbn; constructor; inversion HW; subst; auto. apply (tvec_length (length (ment x))). assumption.
Qed.
Lemma adjoint_lists l lx ly : Forall2 (fun w v => length v = ncols w) l lx -> Forall2 (fun w v => length v = length (ment w)) l ly ->
  vsum (zip_with dot (zip_with (fun w u => mvec (ment w) u) l lx) ly) = vsum (zip_with dot lx (zip_with (fun w u => tvec (ncols w) (ment w) u) l ly)).
Proof.
  intros H1. revert ly. induction H1 as [|w x l lx Hw H1 IH]; intros ly H2; inversion H2; subst; [reflexivity|]. cbn [zip_with]. unfold vsum in *. cbn [fold_right]. f_equal; [apply dot_mvec|]. apply IH. assumption.
Qed.

(** ** the system matrix *)
Section System.
Variables (n : nat) (Q A : matrix) (sigma rho : R).
Hypothesis HQ : mat_shape n n (ment Q).
Hypothesis HnA : ncols A = n.
Hypothesis HA : matrix_ok A.
Lemma system_shape : mat_shape n n (system_matrix Q A sigma rho).
Proof.
  unfold system_matrix. assert (LQ := proj1 HQ). rewrite LQ, HnA. apply madd_shape; [apply madd_shape; [exact HQ|apply msmul_shape, eye_shape]|]. apply msmul_shape. apply (mmul_shape n n (length (ment A))); [apply mtrans_shape; reflexivity|]. unfold matrix_ok in HA. rewrite HnA in HA. exact HA.
Qed.
Lemma system_mvec x : length x = n -> mvec (system_matrix Q A sigma rho) x = vadd (vadd (mvec (ment Q) x) (smul sigma x)) (smul rho (tvec n (ment A) (mvec (ment A) x))).
Proof.
  intros Lx. unfold system_matrix. assert (LQ := proj1 HQ). rewrite LQ, HnA. assert (HA' : mat_shape (length (ment A)) n (ment A)) by (unfold matrix_ok in HA; rewrite HnA in HA; exact HA).
  assert (S2 : mat_shape n n (msmul sigma (eye n))) by apply msmul_shape, eye_shape. assert (S3 : mat_shape n n (madd (ment Q) (msmul sigma (eye n)))) by (apply madd_shape; assumption).
  assert (S4 : mat_shape n n (msmul rho (mmul n (mtrans n (ment A)) (ment A)))) by (apply msmul_shape, (mmul_shape n n (length (ment A))); [apply mtrans_shape; reflexivity|exact HA']).
  rewrite mvec_madd by (destruct S3, S4; congruence). rewrite mvec_madd by (destruct S2; congruence). rewrite !mvec_msmul, mvec_eye by exact Lx. rewrite mvec_mmul, (mvec_mtrans (length (ment A))); [reflexivity|exact HA'|apply mvec_length].
Qed.
Hypothesis Hsym : symmetric n (ment Q).
Hypothesis Hpsd : psd n (ment Q).
Hypothesis Hs : 0 < sigma.
Hypothesis Hr : 0 <= rho.
Lemma system_quad x : length x = n -> sigma * dot x x <= dot x (mvec (system_matrix Q A sigma rho) x).
Proof.
  intros Lx. rewrite system_mvec by exact Lx. rewrite !dot_vadd_r, !dot_smul_r, dot_tvec_r. assert (H1 := Hpsd x Lx). assert (H2 := dot_self_nonneg (mvec (ment A) x)). assert (0 <= rho * dot (mvec (ment A) x) (mvec (ment A) x)) by (apply Rmult_le_pos; lra). lra.
Qed.
Lemma system_pos_def : pos_def n (system_matrix Q A sigma rho).
Proof.
  intros x Lx Hx. assert (K := system_quad x Lx). assert (0 < dot x x); [|nra]. assert (P := dot_self_nonneg x). destruct P as [P|P]; [exact P|]. exfalso. apply Hx. symmetry in P. rewrite <- Lx. apply dot_self_zero. exact P.
Qed.
Lemma system_symmetric x y : length x = n -> length y = n -> dot (mvec (system_matrix Q A sigma rho) x) y = dot x (mvec (system_matrix Q A sigma rho) y).
Proof.
  intros Lx Ly. rewrite !system_mvec by assumption. rewrite !dot_vadd_r, !dot_vadd_l, !dot_smul_r, !dot_smul_l, dot_tvec, dot_tvec_r.
  rewrite (dot_comm (mvec (ment Q) x) y), (sym_dot n (ment Q) y x HQ Hsym Ly Lx). reflexivity.
Qed.
Lemma system_nonsingular : nonsingular n (system_matrix Q A sigma rho).
Proof.
  split; [apply system_shape|]. intros v Lv E. destruct (list_eq_dec Req_EM_T v (vzero n)) as [H|H]; [exact H|]. assert (K := system_pos_def v Lv H). rewrite E, dot_vzero_r in K. lra.
Qed.
End System.
