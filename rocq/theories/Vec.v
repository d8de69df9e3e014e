(** Vectors of reals as lists.  Binary operations pad the shorter operand with
    zeros, so the algebraic laws below need no shape hypotheses; on operands of
    equal length (the only ones jax.numpy accepts here) they are the usual
    element-wise operations. *)
From Coq Require Import Reals List Lra Lia Bool Psatz.
Import ListNotations.
Open Scope R_scope.

Definition vec := list R.

Fixpoint vadd (x y : vec) : vec :=
  match x, y with
  | [], _ => y
  | _, [] => x
  | a :: x', b :: y' => (a + b) :: vadd x' y'
  end.

Definition smul (a : R) (x : vec) : vec := map (Rmult a) x.

Fixpoint vsub (x y : vec) : vec :=
  match x, y with
  | [], _ => map Ropp y
  | _, [] => x
  | a :: x', b :: y' => (a - b) :: vsub x' y'
  end.

Fixpoint dot (x y : vec) : R :=
  match x, y with
  | a :: x', b :: y' => a * b + dot x' y'
  | _, _ => 0
  end.

(** element-wise product *)
Fixpoint hmul (x y : vec) : vec :=
  match x, y with
  | a :: x', b :: y' => (a * b) :: hmul x' y'
  | _, _ => []
  end.

Fixpoint vsum (x : vec) : R :=
  match x with [] => 0 | a :: x' => a + vsum x' end.

Definition sqnorm (x : vec) : R := dot x x.
Definition norm2 (x : vec) : R := sqrt (dot x x).
Definition dist2 (x y : vec) : R := sqnorm (vsub x y).
Definition norm1 (x : vec) : R := vsum (map Rabs x).
Definition vzero (n : nat) : vec := repeat 0 n.
Definition vones (n : nat) : vec := repeat 1 n.

(** ** Lengths *)
Lemma vadd_length x y : length (vadd x y) = Nat.max (length x) (length y).
Proof. revert y; induction x as [|a x IH]; intros [|b y]; simpl; auto. Qed.
Lemma vsub_length x y : length (vsub x y) = Nat.max (length x) (length y).
Proof.
  revert y; induction x as [|a x IH]; intros [|b y]; simpl; auto.
  rewrite map_length; reflexivity.
Qed.
Lemma smul_length a x : length (smul a x) = length x.
Proof. apply map_length. Qed.
Lemma vadd_length_eq x y n : length x = n -> length y = n -> length (vadd x y) = n.
Proof. intros; rewrite vadd_length; lia. Qed.
Lemma vsub_length_eq x y n : length x = n -> length y = n -> length (vsub x y) = n.
Proof. intros; rewrite vsub_length; lia. Qed.
Lemma smul_length_eq a x n : length x = n -> length (smul a x) = n.
Proof. intros; rewrite smul_length; lia. Qed.
Lemma hmul_length x y : length (hmul x y) = Nat.min (length x) (length y).
Proof. revert y; induction x as [|a x IH]; intros [|b y]; simpl; auto. Qed.
Lemma vzero_length n : length (vzero n) = n.
Proof. apply repeat_length. Qed.
Lemma vones_length n : length (vones n) = n.
Proof. apply repeat_length. Qed.
#[export] Hint Resolve vadd_length_eq vsub_length_eq smul_length_eq vzero_length vones_length : vlen.

(** ** Bilinearity of the inner product *)
Lemma dot_nil_r x : dot x [] = 0.
Proof. destruct x; reflexivity. Qed.
Lemma dot_comm x y : dot x y = dot y x.
Proof. revert y; induction x as [|a x IH]; intros [|b y]; simpl; auto. rewrite IH; ring. Qed.
Lemma dot_vadd_l x y z : dot (vadd x y) z = dot x z + dot y z.
Proof.
  revert y z; induction x as [|a x IH]; intros [|b y] [|c z]; simpl; try lra. rewrite IH; ring.
Qed.
Lemma dot_smul_l a x y : dot (smul a x) y = a * dot x y.
Proof.
  revert y; induction x as [|b x IH]; intros [|c y]; simpl; try lra.
  change (map (Rmult a) x) with (smul a x). rewrite IH; ring.
Qed.
Lemma dot_opp_l x y : dot (map Ropp x) y = - dot x y.
Proof. revert y; induction x as [|b x IH]; intros [|c y]; simpl; try lra. rewrite IH; ring. Qed.
Lemma dot_vsub_l x y z : dot (vsub x y) z = dot x z - dot y z.
Proof.
  revert y z; induction x as [|a x IH]; intros [|b y] [|c z]; simpl; try lra.
  - rewrite dot_opp_l; lra.
  - rewrite IH; ring.
Qed.
Lemma dot_vadd_r x y z : dot z (vadd x y) = dot z x + dot z y.
Proof. rewrite !(dot_comm z). apply dot_vadd_l. Qed.
Lemma dot_vsub_r x y z : dot z (vsub x y) = dot z x - dot z y.
Proof. rewrite !(dot_comm z). apply dot_vsub_l. Qed.
Lemma dot_smul_r a x y : dot y (smul a x) = a * dot y x.
Proof. rewrite !(dot_comm y). apply dot_smul_l. Qed.
Lemma dot_opp_r x y : dot y (map Ropp x) = - dot y x.
Proof. rewrite !(dot_comm y). apply dot_opp_l. Qed.
Lemma dot_vzero_l n x : dot (vzero n) x = 0.
Proof. revert x; induction n as [|n IH]; intros [|b x]; simpl; try reflexivity. unfold vzero in IH. rewrite IH; ring. Qed.
Lemma dot_vzero_r n x : dot x (vzero n) = 0.
Proof. rewrite dot_comm. apply dot_vzero_l. Qed.

#[export] Hint Rewrite dot_vadd_l dot_vadd_r dot_vsub_l dot_vsub_r dot_smul_l dot_smul_r
  dot_opp_l dot_opp_r dot_vzero_l dot_vzero_r : vec.

(** Expand inner products into products of atoms, identifying [dot a b] with [dot b a]. *)
Ltac dot_sym :=
  repeat match goal with
  | |- context [dot ?a ?b] =>
      match goal with
      | |- context [dot b a] =>
          tryif constr_eq a b then fail else rewrite (dot_comm b a)
      end
  end.
Ltac dot_sym_in H :=
  repeat match type of H with
  | context [dot ?a ?b] =>
      match type of H with
      | context [dot b a] =>
          tryif constr_eq a b then fail else rewrite (dot_comm b a) in H
      end
  end.
Ltac vexpand := unfold dist2, sqnorm in *; autorewrite with vec in *.
Ltac vring := unfold dist2, sqnorm; autorewrite with vec; dot_sym; ring.

(** ** Positivity *)
Lemma dot_self_nonneg x : 0 <= dot x x.
Proof. induction x as [|a x IH]; simpl; [lra|]. nra. Qed.
Lemma sqnorm_nonneg x : 0 <= sqnorm x.
Proof. apply dot_self_nonneg. Qed.
Lemma dist2_nonneg x y : 0 <= dist2 x y.
Proof. apply sqnorm_nonneg. Qed.
Lemma dot_self_zero x : dot x x = 0 -> x = vzero (length x).
Proof.
  induction x as [|a x IH]; intros H; [reflexivity|]. simpl in H.
  pose proof (dot_self_nonneg x). unfold vzero; simpl.
  assert (a * a = 0) by nra. assert (dot x x = 0) by nra.
  rewrite IH at 1 by assumption. f_equal. nra.
Qed.
Lemma dist2_comm x y : dist2 x y = dist2 y x.
Proof. vring. Qed.
Lemma dist2_self x : dist2 x x = 0.
Proof. vring. Qed.
Lemma dist2_zero x y : length x = length y -> dist2 x y = 0 -> x = y.
Proof.
  unfold dist2, sqnorm. revert y; induction x as [|a x IH]; intros [|b y] Hl H;
    try discriminate; [reflexivity|].
  simpl in *. pose proof (dot_self_nonneg (vsub x y)).
  pose proof (Rle_0_sqr (a - b)) as Hs. unfold Rsqr in Hs.
  assert (E : (a - b) * (a - b) = 0) by lra.
  f_equal; [|apply IH; [lia|lra]].
  apply Rmult_integral in E. destruct E; lra.
Qed.
Lemma dist2_le_0 x y : length x = length y -> dist2 x y <= 0 -> x = y.
Proof. intros Hl H. apply dist2_zero; [exact Hl|]. pose proof (dist2_nonneg x y). lra. Qed.

(** ** Cauchy-Schwarz and the norm *)
Lemma cauchy_schwarz_sq x y : dot x y * dot x y <= dot x x * dot y y.
Proof.
  pose proof (dot_self_nonneg x) as Hx. pose proof (dot_self_nonneg y) as Hy.
  destruct (Req_dec (dot y y) 0) as [E|E].
  - assert (Exy : dot x y = 0)
      by (pose proof (dot_self_zero y E) as Ey; rewrite Ey; apply dot_vzero_r).
    rewrite Exy, E. lra.
  - set (t := dot x y / dot y y).
    pose proof (dot_self_nonneg (vsub x (smul t y))) as H. autorewrite with vec in H.
    rewrite (dot_comm y x) in H.
    assert (Et : t * dot y y = dot x y) by (unfold t; field; assumption).
    assert (0 < dot y y) by lra.
    assert (H1 : 0 <= (dot x x - t * dot x y) * dot y y).
    { apply Rmult_le_pos; [|lra]. rewrite Et in H. lra. }
    replace ((dot x x - t * dot x y) * dot y y)
      with (dot x x * dot y y - (t * dot y y) * dot x y) in H1 by ring.
    rewrite Et in H1. lra.
Qed.
Lemma norm2_nonneg x : 0 <= norm2 x.
Proof. apply sqrt_pos. Qed.
Lemma norm2_sq x : norm2 x * norm2 x = dot x x.
Proof. apply sqrt_sqrt, dot_self_nonneg. Qed.
Lemma Rle_sq_le a b : 0 <= b -> a * a <= b * b -> a <= b.
Proof. intros. nra. Qed.
Lemma dot_le_norm x y : dot x y <= norm2 x * norm2 y.
Proof.
  pose proof (norm2_nonneg x). pose proof (norm2_nonneg y).
  apply Rle_sq_le; [nra|].
  replace (norm2 x * norm2 y * (norm2 x * norm2 y))
    with ((norm2 x * norm2 x) * (norm2 y * norm2 y)) by ring.
  rewrite !norm2_sq. apply cauchy_schwarz_sq.
Qed.
Lemma dot_abs_le_norm x y : Rabs (dot x y) <= norm2 x * norm2 y.
Proof.
  apply Rabs_le. split; [|apply dot_le_norm].
  pose proof (dot_le_norm (smul (-1) x) y) as H. rewrite dot_smul_l in H.
  assert (norm2 (smul (-1) x) = norm2 x) as E by (unfold norm2; f_equal; vring).
  rewrite E in H. lra.
Qed.
Lemma norm2_smul a x : norm2 (smul a x) = Rabs a * norm2 x.
Proof.
  unfold norm2. rewrite dot_smul_l, dot_smul_r.
  replace (a * (a * dot x x)) with (Rsqr a * dot x x) by (unfold Rsqr; ring).
  rewrite sqrt_mult; [|apply Rle_0_sqr|apply dot_self_nonneg].
  rewrite sqrt_Rsqr_abs. reflexivity.
Qed.
Lemma norm2_triangle x y : norm2 (vadd x y) <= norm2 x + norm2 y.
Proof.
  pose proof (norm2_nonneg x). pose proof (norm2_nonneg y).
  apply Rle_sq_le; [lra|]. rewrite norm2_sq.
  replace ((norm2 x + norm2 y) * (norm2 x + norm2 y))
    with (norm2 x * norm2 x + norm2 y * norm2 y + 2 * (norm2 x * norm2 y)) by ring.
  rewrite !norm2_sq. pose proof (dot_le_norm x y). autorewrite with vec.
  rewrite (dot_comm y x). lra.
Qed.
Lemma norm2_zero_iff x : norm2 x = 0 <-> x = vzero (length x).
Proof.
  split; intros H.
  - apply dot_self_zero. rewrite <- norm2_sq, H. ring.
  - rewrite H. unfold norm2. rewrite dot_vzero_l. apply sqrt_0.
Qed.
Lemma norm2_le_sq x r : 0 <= r -> (norm2 x <= r <-> dot x x <= r * r).
Proof.
  intros Hr. pose proof (norm2_nonneg x). rewrite <- norm2_sq. split; intros; nra.
Qed.

(** ** Coordinates *)
Lemma nth_vadd x y i : nth i (vadd x y) 0 = nth i x 0 + nth i y 0.
Proof.
  revert y i; induction x as [|a x IH]; intros [|b y] [|i]; simpl; try lra; try apply IH;
    destruct i; simpl; try lra.
Qed.
Lemma nth_smul a x i : nth i (smul a x) 0 = a * nth i x 0.
Proof. unfold smul. rewrite <- (Rmult_0_r a) at 1. rewrite map_nth. reflexivity. Qed.
Lemma nth_opp x i : nth i (map Ropp x) 0 = - nth i x 0.
Proof. rewrite <- Ropp_0 at 1. rewrite map_nth. reflexivity. Qed.
Lemma nth_vsub x y i : nth i (vsub x y) 0 = nth i x 0 - nth i y 0.
Proof.
  revert y i; induction x as [|a x IH]; intros [|b y] [|i]; simpl; try lra; try apply IH;
    try (rewrite nth_opp; lra); destruct i; simpl; lra.
Qed.
Lemma nth_hmul x y i : nth i (hmul x y) 0 = nth i x 0 * nth i y 0.
Proof.
  revert y i; induction x as [|a x IH]; intros [|b y] [|i]; simpl; try lra; try apply IH;
    destruct i; simpl; lra.
Qed.
Lemma nth_vzero n i : nth i (vzero n) 0 = 0.
Proof. revert i; induction n as [|n IH]; intros [|i]; simpl; auto. Qed.
Lemma vec_ext x y : length x = length y -> (forall i, (i < length x)%nat -> nth i x 0 = nth i y 0) -> x = y.
Proof. intros Hl H. apply (nth_ext x y 0 0 Hl). exact H. Qed.

Lemma vsub_vadd_cancel x y : length x = length y -> vadd x (vsub y x) = y.
Proof.
  intros. apply vec_ext.
  - rewrite vadd_length, vsub_length; lia.
  - intros i _. rewrite nth_vadd, nth_vsub. lra.
Qed.
Lemma vsub_self x : vsub x x = vzero (length x).
Proof.
  apply vec_ext; [rewrite vsub_length, vzero_length; lia|].
  intros. rewrite nth_vsub, nth_vzero. lra.
Qed.
Lemma vadd_comm x y : vadd x y = vadd y x.
Proof. revert y; induction x as [|a x IH]; intros [|b y]; simpl; auto. rewrite IH; f_equal; ring. Qed.
Lemma vadd_assoc x y z : vadd x (vadd y z) = vadd (vadd x y) z.
Proof.
  revert y z; induction x as [|a x IH]; intros [|b y] [|c z]; simpl; auto.
  rewrite IH. f_equal; ring.
Qed.
Lemma smul_1 x : smul 1 x = x.
Proof. induction x as [|a x IH]; [reflexivity|]. unfold smul in *; simpl. rewrite IH. f_equal; ring. Qed.
Lemma smul_0 x : smul 0 x = vzero (length x).
Proof. induction x as [|a x IH]; [reflexivity|]. unfold smul, vzero in *; simpl. rewrite IH. f_equal; ring. Qed.
Lemma smul_smul a b x : smul a (smul b x) = smul (a * b) x.
Proof. unfold smul. rewrite map_map. apply map_ext. intros; ring. Qed.
Lemma smul_vadd a x y : smul a (vadd x y) = vadd (smul a x) (smul a y).
Proof.
  revert y; induction x as [|b x IH]; intros [|c y]; simpl; auto.
  unfold smul in *; simpl. rewrite IH. f_equal; ring.
Qed.
Lemma vsub_as_vadd x y : vsub x y = vadd x (smul (-1) y).
Proof.
  revert y; induction x as [|a x IH]; intros [|b y]; simpl; auto.
  - f_equal; [ring|]. unfold smul. apply map_ext. intros; ring.
  - rewrite IH. f_equal; ring.
Qed.
Lemma vadd_vzero_r x n : (n <= length x)%nat -> vadd x (vzero n) = x.
Proof.
  intros. apply vec_ext; [rewrite vadd_length, vzero_length; lia|].
  intros; rewrite nth_vadd, nth_vzero; lra.
Qed.
Lemma vadd_vzero_l x n : (n <= length x)%nat -> vadd (vzero n) x = x.
Proof. intros. rewrite vadd_comm. apply vadd_vzero_r; assumption. Qed.

Lemma vsum_dot x : vsum x = dot (vones (length x)) x.
Proof. induction x as [|a x IH]; [reflexivity|]. simpl. unfold vones in *; simpl. rewrite IH; ring. Qed.
Lemma vsum_app x y : vsum (x ++ y) = vsum x + vsum y.
Proof. induction x as [|a x IH]; simpl; [lra|]. rewrite IH; lra. Qed.
Lemma vsum_smul a x : vsum (smul a x) = a * vsum x.
Proof. induction x as [|b x IH]; simpl; [lra|]. change (map (Rmult a) x) with (smul a x). rewrite IH; lra. Qed.
Lemma vsum_vadd x y : vsum (vadd x y) = vsum x + vsum y.
Proof. revert y; induction x as [|a x IH]; intros [|b y]; simpl; try lra. rewrite IH; lra. Qed.
Lemma vsum_vsub x y : vsum (vsub x y) = vsum x - vsum y.
Proof. rewrite vsub_as_vadd, vsum_vadd, vsum_smul. ring. Qed.
Lemma vsum_nonneg x : Forall (Rle 0) x -> 0 <= vsum x.
Proof. induction 1; simpl; lra. Qed.
Lemma vsum_repeat a n : vsum (repeat a n) = INR n * a.
Proof. induction n as [|n IH]; simpl repeat; simpl vsum; [simpl; lra|]. rewrite IH, S_INR; ring. Qed.
Lemma dot_hmul x y : dot x y = vsum (hmul x y).
Proof. revert y; induction x as [|a x IH]; intros [|b y]; simpl; try lra. rewrite IH; lra. Qed.
Lemma dot_app x1 x2 y1 y2 : length x1 = length y1 -> dot (x1 ++ x2) (y1 ++ y2) = dot x1 y1 + dot x2 y2.
Proof.
  revert y1; induction x1 as [|a x1 IH]; intros [|b y1] H; try discriminate; simpl; [lra|].
  rewrite IH by (simpl in H; lia). lra.
Qed.

(** ** Coordinate-wise estimates *)
Lemma dot_nonpos_coords x y :
  (forall i, (i < length x)%nat -> (i < length y)%nat -> nth i x 0 * nth i y 0 <= 0) -> dot x y <= 0.
Proof.
  revert y; induction x as [|a x IH]; intros [|b y] H; simpl; try lra.
  pose proof (H 0%nat) as H0. simpl in H0.
  assert (dot x y <= 0) by (apply IH; intros i Hi Hj; apply (H (S i)); simpl; lia).
  assert (a * b <= 0) by (apply H0; lia). lra.
Qed.
Lemma dot_nonneg_coords x y :
  (forall i, (i < length x)%nat -> (i < length y)%nat -> 0 <= nth i x 0 * nth i y 0) -> 0 <= dot x y.
Proof.
  revert y; induction x as [|a x IH]; intros [|b y] H; simpl; try lra.
  pose proof (H 0%nat) as H0. simpl in H0.
  assert (0 <= dot x y) by (apply IH; intros i Hi Hj; apply (H (S i)); simpl; lia).
  assert (0 <= a * b) by (apply H0; lia). lra.
Qed.
Lemma vsum_le_coords x y :
  length x = length y -> (forall i, (i < length x)%nat -> nth i x 0 <= nth i y 0) -> vsum x <= vsum y.
Proof.
  revert y; induction x as [|a x IH]; intros [|b y] Hl H; try discriminate; simpl; try lra.
  pose proof (H 0%nat) as H0. simpl in H0.
  assert (vsum x <= vsum y) by (apply IH; [simpl in Hl; lia|]; intros i Hi; apply (H (S i)); simpl; lia).
  assert (a <= b) by (apply H0; lia). lra.
Qed.
Lemma vsum_eq_coords x y :
  length x = length y -> (forall i, (i < length x)%nat -> nth i x 0 <= nth i y 0) ->
  vsum x = vsum y -> x = y.
Proof.
  revert y; induction x as [|a x IH]; intros [|b y] Hl H E; try discriminate; [reflexivity|].
  pose proof (H 0%nat) as H0. simpl in *.
  assert (Hxy : forall i, (i < length x)%nat -> nth i x 0 <= nth i y 0)
    by (intros i Hi; apply (H (S i)); lia).
  assert (vsum x <= vsum y) by (apply vsum_le_coords; [lia|assumption]).
  assert (a <= b) by (apply H0; lia).
  f_equal; [lra|]. apply IH; [lia|assumption|lra].
Qed.

(** ** Nearest points *)

(** [p] is the unique Euclidean-nearest point of [C] to [x]. *)
Definition is_projection (C : vec -> Prop) (x p : vec) : Prop :=
  C p /\
  (forall q, C q -> dist2 x p <= dist2 x q) /\
  (forall q, C q -> dist2 x q <= dist2 x p -> q = p).

(** The variational inequality characterising projections onto convex sets. *)
Definition var_ineq (C : vec -> Prop) (x p : vec) : Prop :=
  C p /\ forall q, C q -> dot (vsub x p) (vsub q p) <= 0.

Lemma dist2_decompose x p q :
  dist2 x q = dist2 x p + dist2 q p - 2 * dot (vsub x p) (vsub q p).
Proof. vring. Qed.

Lemma var_ineq_projection (C : vec -> Prop) x p n :
  (forall q, C q -> length q = n) -> var_ineq C x p -> is_projection C x p.
Proof.
  intros Hn [Hp Hvi]. split; [exact Hp|]. split.
  - intros q Hq. specialize (Hvi q Hq). rewrite (dist2_decompose x p q).
    pose proof (dist2_nonneg q p). lra.
  - intros q Hq Hle. specialize (Hvi q Hq). rewrite (dist2_decompose x p q) in Hle.
    apply dist2_le_0; [rewrite (Hn q Hq), (Hn p Hp); reflexivity|]. lra.
Qed.

Lemma is_projection_unique (C : vec -> Prop) x p q : is_projection C x p -> is_projection C x q -> p = q.
Proof. intros (Hp & Hp1 & Hp2) (Hq & Hq1 & Hq2). symmetry. apply Hp2; [exact Hq|]. apply Hq1; exact Hp. Qed.

Lemma is_projection_fixed (C : vec -> Prop) x p :
  is_projection C x p -> C x -> p = x.
Proof.
  intros (Hp & H1 & H2) Hx. symmetry. apply H2; [exact Hx|].
  rewrite dist2_self. apply dist2_nonneg.
Qed.

Lemma var_ineq_nonexpansive (C : vec -> Prop) x y p q :
  var_ineq C x p -> var_ineq C y q -> dist2 p q <= dist2 x y.
Proof.
  intros [Hp Hvp] [Hq Hvq].
  specialize (Hvp q Hq). specialize (Hvq p Hp).
  assert (E : dist2 x y = dist2 p q + dist2 (vsub x p) (vsub y q)
              - 2 * dot (vsub x p) (vsub q p) - 2 * dot (vsub y q) (vsub p q)) by vring.
  pose proof (dist2_nonneg (vsub x p) (vsub y q)). lra.
Qed.
