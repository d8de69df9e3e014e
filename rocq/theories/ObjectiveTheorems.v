(** C32: the advertised column-wise Lipschitz constants; LinearOperator. *)
From Coq Require Import Reals List Lra Lia Bool Arith ZArith.
From Verif Require Import Prelude Vec Mat Proj Prox ProxProofs BoxSection Loss LossProofs LossTheorems SparseSimplex ProjProofs QuasiNewtonProofs CDQPProofs Objective ObjectiveProofs.
Import ListNotations.
Open Scope R_scope.

(** *** LinearOperator: the incremental and element-wise methods agree with the full ones. *)
Lemma nth_map_seq {B} (h : nat -> B) n i d : (i < n)%nat -> nth i (map h (seq 0 n)) d = h i.
Proof. intros Hi. rewrite (nth_map_lt h (seq 0 n) i 0%nat d) by (rewrite seq_length; exact Hi). rewrite seq_nth by exact Hi. reflexivity. Qed.
Lemma tvec_vec_set m n A x i delta : mat_shape m n A -> length x = m -> (i < m)%nat ->
  tvec n A (set_nth x i (nth i x 0 + delta)) = vadd (tvec n A x) (smul delta (nth i A [])).
Proof.
  revert A x i. induction m as [|m IH]; intros [|a A] [|b x] i HA Hx Hi; try lia; try discriminate; try (destruct HA; discriminate).
  apply shape_cons in HA. destruct HA as [H1 H2]. simpl in Hx.
  pose proof (tvec_length m n A x H2) as Ht.
  destruct i as [|i]; simpl.
  - apply vec_eq_dot; [rewrite !vadd_length, !smul_length; lia|]. intros w. autorewrite with vec. ring.
  - rewrite IH by (auto; lia). pose proof (nth_shape m n A i H2 ltac:(lia)).
    apply vec_eq_dot; [rewrite !vadd_length, !smul_length; lia|]. intros w. autorewrite with vec. ring.
Qed.
Theorem C31_linear_operator : forall m n k A, mat_shape m n A ->
  (* dot(A, x)[idx], dot(A.T, x)[idx] *)
  (forall x idx, mat_shape n k x -> (idx < m)%nat ->
    lo_matvec_element k A x idx = nth idx (lo_matvec k A x) []) /\
  (forall x idx, (idx < n)%nat ->
    lo_rmatvec_element k A x idx = nth idx (lo_rmatvec k n A x) []) /\
  (* updates when x[idx] += delta *)
  (forall x delta idx, mat_shape n k x -> length delta = k -> (idx < n)%nat ->
    lo_update_matvec A (lo_matvec k A x) delta idx =
    lo_matvec k A (set_nth x idx (vadd (nth idx x []) delta))) /\
  (forall (x : vec) delta idx, length x = m -> (idx < m)%nat ->
    lo_update_rmatvec A (tvec n A x) delta idx = tvec n A (set_nth x idx (nth idx x 0 + delta))) /\
  (* <A x, y> = <x, A^T y> *)
  (forall (x y : vec), length x = n -> length y = m -> dot (mvec A x) y = dot x (tvec n A y)).
Proof.
  intros m n k A HA. repeat split.
  - intros x idx Hx Hi. unfold lo_matvec_element, lo_matvec, mmul. destruct HA as [H1 _].
    rewrite (nth_map_lt (tvec k x) A idx [] []) by lia. reflexivity.
  - intros x idx Hi. unfold lo_rmatvec_element, lo_rmatvec, mmul, mtrans.
    rewrite map_map, nth_map_seq by exact Hi. reflexivity.
  - intros x delta idx Hx Hd Hi. unfold lo_update_matvec, lo_matvec.
    pose proof (nth_shape n k x idx Hx Hi) as Hl.
    rewrite (mmul_set_nth m n k) by (auto; rewrite vadd_length; lia).
    do 2 f_equal. symmetry. apply vec_eq_dot; [rewrite vsub_length, vadd_length; lia|]. intros w. autorewrite with vec. ring.
  - intros x delta idx Hx Hi. unfold lo_update_rmatvec. symmetry. apply (tvec_vec_set m); assumption.
  - intros x y _ _. apply dot_mvec.
Qed.
Print Assumptions C31_linear_operator.

(** *** Least squares *)
Theorem C32_least_squares : forall m n k X Y, mat_shape m n X -> mat_shape m k Y -> (0 < m)%nat -> (0 < k)%nat ->
  let f := least_squares n k X Y in
  mconvex m k (subfun f) (grad_subfun f) /\
  msmooth m k (subfun f) (grad_subfun f) (/ INR (m * k)) /\
  columnwise_valid n k f (columnwise f).
Proof.
  intros m n k X Y HX HY Hm Hk f.
  assert (HN : 1 <= INR (m * k)) by (change 1 with (INR 1); apply le_INR; nia).
  assert (Exact : forall P Q, mat_shape m k P -> mat_shape m k Q ->
    subfun f Q = subfun f P + mdot (grad_subfun f P) (msub Q P) + / INR (m * k) / 2 * mdot (msub Q P) (msub Q P)).
  { intros P Q [HP _] [HQ _]. simpl. rewrite (shape_length m k Y HY), mdot_msmul_l.
    rewrite (mdot_expand P Q Y) by (rewrite (shape_length m k Y HY); assumption). replace 0.5 with (/ 2) by lra. field. lra. }
  assert (Hi : 0 < / INR (m * k) <= 1).
  { split; [apply Rinv_0_lt_compat; lra|]. rewrite <- Rinv_1. apply Rinv_le_contravar; lra. }
  assert (Hs : msmooth m k (subfun f) (grad_subfun f) (/ INR (m * k))).
  { intros P Q HP HQ. rewrite (Exact P Q HP HQ). lra. }
  split; [|split; [exact Hs|]].
  - intros P Q HP HQ. rewrite (Exact P Q HP HQ). pose proof (mdot_self_nonneg (msub Q P)). nra.
  - apply (columnwise_of_smooth m n k f (/ INR (m * k))); [exact HX|simpl; discriminate|exact Hs|].
    intros i Hin. simpl. rewrite nth_smul. unfold lo_column_sq_norms. rewrite nth_map_seq by exact Hin.
    pose proof (dot_self_nonneg (col i X)). nra.
Qed.
Print Assumptions C32_least_squares.

Lemma mean_scale (l : vec) m : length l = m -> mean l = / INR m * vsum l.
Proof. intros <-. unfold mean, Rdiv. ring. Qed.
Lemma inv_pos_le1 m : (0 < m)%nat -> 0 < / INR m <= 1.
Proof.
  intros Hm. assert (1 <= INR m) by (change 1 with (INR 1); apply le_INR; lia).
  split; [apply Rinv_0_lt_compat; lra|]. rewrite <- Rinv_1. apply Rinv_le_contravar; lra.
Qed.

(** *** Binary logistic regression *)
Theorem C32_binary_logreg : forall m n X (y : list Z), mat_shape m n X -> length y = m -> (0 < m)%nat ->
  let f := binary_logreg n X y in
  mconvex m 1 (subfun f) (grad_subfun f) /\
  msmooth m 1 (subfun f) (grad_subfun f) (/ 4 * / INR m) /\
  columnwise_valid n 1 f (columnwise f).
Proof.
  intros m n X y HX Hy Hm f. pose proof (inv_pos_le1 m Hm) as Hi.
  set (loss := fun label (row : vec) => binary_logistic_loss label (nth 0 row 0)).
  pose (gradl := (fun label row => [where_label label (- sigmoid (- nth 0 row 0)) (sigmoid (nth 0 row 0))]) : Z -> vec -> vec).
  assert (Esub : forall P, mat_shape m 1 P -> subfun f P = / INR m * vsum (map2 loss y P)).
  { intros P [HP _]. simpl. fold loss. apply mean_scale. rewrite map2_length. lia. }
  assert (Egr : forall P, grad_subfun f P = msmul (/ INR m) (map2 gradl y P)) by (intros; simpl; rewrite Hy; reflexivity).
  assert (Hrow : forall (t : Z) (p q : vec), True -> length p = 1%nat -> length q = 1%nat ->
     loss t p + dot (gradl t p) (vsub q p) <= loss t q /\
     loss t q <= loss t p + dot (gradl t p) (vsub q p) + / 4 / 2 * dot (vsub q p) (vsub q p)).
  { intros t [|a [|? ?]] [|b [|? ?]] _ Hp Hq; try discriminate. unfold loss, gradl, binary_logistic_loss, where_label. simpl.
    destruct (Z.eqb t 0).
    - pose proof (softplus_subgrad a b). pose proof (softplus_smooth a b). split; lra.
    - pose proof (softplus_subgrad (- a) (- b)). pose proof (softplus_smooth (- a) (- b)). split; lra. }
  assert (Ho : Forall (fun _ : Z => True) y) by (apply Forall_forall; auto).
  assert (Hs : msmooth m 1 (subfun f) (grad_subfun f) (/ 4 * / INR m)).
  { intros P Q HP HQ. rewrite !Esub, Egr, mdot_msmul_l by assumption.
    pose proof (rows_smooth loss gradl 1 (fun _ => True) (/ 4) ltac:(intros; apply Hrow; auto) y P Q Ho ltac:(rewrite Hy; assumption) ltac:(rewrite Hy; assumption)) as H.
    set (im := / INR m) in *. apply Rmult_le_compat_l with (r := im) in H; lra. }
  split; [|split; [exact Hs|]].
  - intros P Q HP HQ. rewrite !Esub, Egr, mdot_msmul_l by assumption.
    pose proof (rows_convex loss gradl 1 (fun _ => True) ltac:(intros; apply Hrow; auto) y P Q Ho ltac:(rewrite Hy; assumption) ltac:(rewrite Hy; assumption)) as H.
    set (im := / INR m) in *. apply Rmult_le_compat_l with (r := im) in H; lra.
  - apply (columnwise_of_smooth m n 1 f (/ 4 * / INR m)); [exact HX|simpl; discriminate|exact Hs|].
    intros i Hin. simpl. rewrite nth_smul. unfold lo_column_sq_norms. rewrite nth_map_seq by exact Hin.
    apply Rmult_le_compat_r; [apply dot_self_nonneg|lra].
Qed.
Print Assumptions C32_binary_logreg.

(** *** Multiclass logistic regression *)
Lemma one_hot_dot label k v : (label < k)%nat -> length v = k -> dot (one_hot label k) v = nth label v 0.
Proof.
  intros H1 H2. replace (one_hot label k) with (unit_vec k label); [apply dot_unit_vec; assumption|].
  unfold one_hot, unit_vec. apply map_ext. intros j. destruct (Nat.eq_dec label j) as [->|N]; [rewrite Nat.eqb_refl; reflexivity|].
  destruct (Nat.eqb_spec label j); [contradiction|reflexivity].
Qed.
Lemma multiclass_lse label s : (label < length s)%nat -> multiclass_logistic_loss label s = logsumexp s - nth label s 0.
Proof.
  intros H. unfold multiclass_logistic_loss. rewrite centre_id by exact H. apply lse_shift. intros ->. simpl in H. lia.
Qed.
Theorem C32_multiclass_logreg : forall m n k X (y : list nat), mat_shape m n X -> length y = m -> (0 < m)%nat ->
  Forall (fun label => (label < k)%nat) y ->
  let f := multiclass_logreg n k X y in
  mconvex m k (subfun f) (grad_subfun f) /\
  msmooth m k (subfun f) (grad_subfun f) (/ 2 * / INR m) /\
  columnwise_valid n k f (columnwise f).
Proof.
  intros m n k X y HX Hy Hm Ho f. pose proof (inv_pos_le1 m Hm) as Hi.
  set (loss := multiclass_logistic_loss). pose (gradl := (fun label row => vsub (softmax row) (one_hot label k)) : nat -> vec -> vec).
  assert (Esub : forall P, mat_shape m k P -> subfun f P = / INR m * vsum (map2 loss y P)).
  { intros P [HP _]. simpl. fold loss. apply mean_scale. rewrite map2_length. lia. }
  assert (Egr : forall P, grad_subfun f P = msmul (/ INR m) (map2 gradl y P)) by (intros; simpl; rewrite Hy; reflexivity).
  assert (Hrow : forall (t : nat) (p q : vec), (t < k)%nat -> length p = k -> length q = k ->
     loss t p + dot (gradl t p) (vsub q p) <= loss t q /\
     loss t q <= loss t p + dot (gradl t p) (vsub q p) + / 2 / 2 * dot (vsub q p) (vsub q p)).
  { intros t p q Ht Hp Hq. unfold loss, gradl. rewrite !multiclass_lse by lia.
    assert (Hne : p <> []) by (intros ->; simpl in Hp; lia).
    pose proof (lse_subgrad p q Hne ltac:(lia)). pose proof (lse_smooth p q Hne ltac:(lia)).
    rewrite dot_vsub_l, one_hot_dot by (auto; rewrite vsub_length; lia). rewrite nth_vsub. split; lra. }
  assert (Hs : msmooth m k (subfun f) (grad_subfun f) (/ 2 * / INR m)).
  { intros P Q HP HQ. rewrite !Esub, Egr, mdot_msmul_l by assumption.
    pose proof (rows_smooth loss gradl k (fun t => (t < k)%nat) (/ 2) ltac:(intros; apply Hrow; auto) y P Q Ho ltac:(rewrite Hy; assumption) ltac:(rewrite Hy; assumption)) as H.
    set (im := / INR m) in *. apply Rmult_le_compat_l with (r := im) in H; lra. }
  split; [|split; [exact Hs|]].
  - intros P Q HP HQ. rewrite !Esub, Egr, mdot_msmul_l by assumption.
    pose proof (rows_convex loss gradl k (fun t => (t < k)%nat) ltac:(intros; apply Hrow; auto) y P Q Ho ltac:(rewrite Hy; assumption) ltac:(rewrite Hy; assumption)) as H.
    set (im := / INR m) in *. apply Rmult_le_compat_l with (r := im) in H; lra.
  - apply (columnwise_of_smooth m n k f (/ 2 * / INR m)); [exact HX|simpl; discriminate|exact Hs|].
    intros i Hin. simpl. rewrite nth_smul. unfold lo_column_sq_norms. rewrite nth_map_seq by exact Hin.
    apply Rmult_le_compat_r; [apply dot_self_nonneg|lra].
Qed.
Print Assumptions C32_multiclass_logreg.

(** *** Dual of the multiclass SVM *)
Lemma col_mtrans N p X i : mat_shape N p X -> (i < N)%nat -> col i (mtrans p X) = nth i X [].
Proof.
  intros HX Hi. pose proof (nth_shape N p X i HX Hi) as Hl. apply vec_ext.
  - unfold col, mtrans. rewrite !map_length, seq_length. lia.
  - intros j Hj. unfold col, mtrans in *. rewrite map_map in *. rewrite map_length, seq_length in Hj.
    rewrite nth_map_seq by exact Hj. exact (nth_map_lt (fun r : vec => nth j r 0) X i [] 0 (eq_ind_r (fun t => (i < t)%nat) Hi (shape_length N p X HX))).
Qed.
Section Svm.
Variables (N p k : nat) (l2reg : R) (X Y : mat).
Hypothesis HX : mat_shape N p X.
Hypothesis HY : mat_shape N k Y.
Hypothesis Hreg : 0 < l2reg.
Let f := multiclass_linear_svm_dual p k l2reg X Y.
Lemma svm_exact P Q : mat_shape p k P -> mat_shape p k Q ->
  subfun f Q = subfun f P + mdot (grad_subfun f P) (msub Q P) + / l2reg / 2 * mdot (msub Q P) (msub Q P).
Proof.
  intros [HP _] [HQ _]. simpl. set (T := mmul k (mtrans p X) Y).
  assert (HT : length T = p). { unfold T, mmul, mtrans. rewrite !map_length, seq_length. reflexivity. }
  rewrite mdot_msmul_l. assert (Sw : forall Z, length Z = p -> mdot (msub T Z) (msub T Z) = mdot (msub Z T) (msub Z T)).
  { intros Z HZ. rewrite !mdot_msub_l, !mdot_msub_r by lia. ring. }
  rewrite !Sw by assumption. rewrite (mdot_expand P Q T) by lia. replace 0.5 with (/ 2) by lra. field. lra.
Qed.
Lemma svm_shapes : mat_shape p N (linop f) /\ (forall b, linear_term f = Some b -> mat_shape N k b).
Proof.
  split; [simpl; apply mtrans_shape; apply HX|]. simpl. intros b E. injection E as <-. destruct HY as [H1 H2].
  split; [rewrite map_length; exact H1|]. rewrite Forall_forall in *. intros r Hr. apply in_map_iff in Hr. destruct Hr as (r' & <- & Hr').
  rewrite map_length. auto.
Qed.
Lemma svm_col i : (i < N)%nat -> nth i (columnwise f) 0 = dot (nth i X []) (nth i X []).
Proof.
  intros Hi. simpl. unfold lo_column_sq_norms. destruct HX as [HN _]. rewrite HN, nth_map_seq by exact Hi.
  rewrite (col_mtrans N p X i HX Hi). reflexivity.
Qed.
Lemma svm_smooth : msmooth p k (subfun f) (grad_subfun f) (/ l2reg).
Proof. intros P Q HP HQ. rewrite (svm_exact P Q HP HQ). lra. Qed.
End Svm.

(** The function and its gradient; the constants |x_i|^2 / l2reg are valid for every
    l2reg > 0, so the advertised |x_i|^2 is valid when l2reg >= 1. *)
Theorem C32_svm_dual : forall N p k l2reg X Y, mat_shape N p X -> mat_shape N k Y -> 0 < l2reg ->
  let f := multiclass_linear_svm_dual p k l2reg X Y in
  mconvex p k (subfun f) (grad_subfun f) /\
  columnwise_valid N k f (smul (/ l2reg) (columnwise f)) /\
  (1 <= l2reg -> columnwise_valid N k f (columnwise f)).
Proof.
  intros N p k l2reg X Y HX HY Hr f. destruct (svm_shapes N p k l2reg X Y HX HY) as [H1 H2]. fold f in H1, H2.
  assert (Hi : 0 < / l2reg) by (apply Rinv_0_lt_compat; exact Hr).
  pose proof (svm_smooth p k l2reg X Y Hr) as Hs. fold f in Hs.
  assert (Hc : forall i, (i < N)%nat -> dot (col i (linop f)) (col i (linop f)) = nth i (columnwise f) 0).
  { intros i Hin. unfold f. rewrite (svm_col N p k l2reg X Y HX i Hin). simpl. rewrite (col_mtrans N p X i HX Hin). reflexivity. }
  split; [|split].
  - intros P Q HP HQ. unfold f. rewrite (svm_exact p k l2reg X Y Hr P Q HP HQ). pose proof (mdot_self_nonneg (msub Q P)). nra.
  - apply (columnwise_of_smooth p N k f (/ l2reg)); auto. intros i Hin. rewrite nth_smul, Hc by exact Hin. lra.
  - intros H1r. apply (columnwise_of_smooth p N k f (/ l2reg)); auto. intros i Hin. rewrite Hc by exact Hin.
    assert (/ l2reg <= 1) by (rewrite <- Rinv_1; apply Rinv_le_contravar; lra).
    assert (0 <= nth i (columnwise f) 0) by (rewrite <- Hc by exact Hin; apply dot_self_nonneg). nra.
Qed.
Print Assumptions C32_svm_dual.

(** With l2reg < 1 the advertised constants are too small, for every data set with a
    non-zero example: objective.py:327-330 forgets the division by l2reg. *)
Theorem C32_svm_dual_refuted : forall N p k l2reg X Y i, mat_shape N p X -> mat_shape N k Y -> (0 < k)%nat ->
  0 < l2reg < 1 -> (i < N)%nat -> 0 < dot (nth i X []) (nth i X []) ->
  let f := multiclass_linear_svm_dual p k l2reg X Y in
  ~ columnwise_valid N k f (columnwise f).
Proof.
  intros N p k l2reg X Y i HX HY Hk Hr Hi Hq f Hv.
  specialize (Hv Y i (unit_vec k 0) HY Hi (unit_vec_length k 0)).
  destruct (svm_shapes N p k l2reg X Y HX HY) as [S1 S2]. fold f in S1, S2.
  unfold comp_call, full_grad_block, lo_matvec, lo_rmatvec_element in Hv.
  pose proof (nth_shape N k Y i HY Hi) as Hyi. set (d := unit_vec k 0) in *. set (yi := nth i Y []) in *.
  assert (Hd : length d = k) by apply unit_vec_length.
  rewrite (mmul_set_nth p N k) in Hv by (auto; rewrite vadd_length; lia). fold yi in Hv.
  assert (Ed : vsub (vadd yi d) yi = d) by (apply vec_eq_dot; [rewrite vsub_length, vadd_length; lia|intros w; autorewrite with vec; ring]).
  rewrite Ed in Hv. set (P := mmul k (linop f) Y) in *. set (D := outer (col i (linop f)) d) in *.
  assert (HP : mat_shape p k P) by (apply (mmul_shape p k N); assumption).
  assert (HD : mat_shape p k D) by (apply outer_shape'; [rewrite col_length; apply S1|exact Hd]).
  unfold f in Hv. rewrite (svm_exact p k l2reg X Y ltac:(lra) P (madd P D) HP (madd_shape p k P D HP HD)) in Hv. fold f in Hv.
  rewrite (msub_madd_cancel p k P D HP HD) in Hv. unfold D in Hv. rewrite (mdot_outer k), mdot_outer_self in Hv.
  assert (Hc : dot (col i (linop f)) (col i (linop f)) = nth i (columnwise f) 0).
  { unfold f. rewrite (svm_col N p k l2reg X Y HX i Hi). simpl. rewrite (col_mtrans N p X i HX Hi). reflexivity. }
  assert (Hcq : 0 < nth i (columnwise f) 0) by (unfold f; rewrite (svm_col N p k l2reg X Y HX i Hi); exact Hq).
  rewrite Hc in Hv. unfold sqnorm in Hv. assert (Edd : dot d d = 1) by (apply dot_unit_self; exact Hk). rewrite Edd in Hv.
  assert (Elt : linear_term f = Some (map (map (fun a => a - 1)) Y)) by reflexivity.
  rewrite Elt in Hv.
  rewrite (mdot_set_nth N k) in Hv by (auto; rewrite map_length; apply HY). fold yi in Hv.
  rewrite Ed, dot_vadd_l, (dot_comm (nth i (map _ _) []) d) in Hv.
  assert (1 < / l2reg) by (rewrite <- Rinv_1; apply Rinv_lt_contravar; lra).
  assert (Hle : / l2reg / 2 * (nth i (columnwise f) 0 * 1) <= nth i (columnwise f) 0 / 2 * 1).
  { match type of Hv with ?a + ?b + ?c + (?t + ?e) <= ?a2 + ?t2 + (?b2 + ?e2) + ?g =>
      assert (Hg : a + b + c + (t + e) <= a + t + (b + e) + g) by exact Hv; clear Hv;
      set (a0 := a) in Hg; set (b0 := b) in Hg; set (t0 := t) in Hg; set (e0 := e) in Hg; clearbody a0 b0 t0 e0 end. lra. }
  nra.
Qed.
Print Assumptions C32_svm_dual_refuted.

Example C32_example : mat_shape 2 1 [[1]; [2]] /\ mat_shape 2 1 [[0]; [1]] /\
  nth 0 (columnwise (least_squares 1 1 [[1]; [2]] [[0]; [1]])) 0 = 5 /\
  nth 0 (columnwise (binary_logreg 1 [[1]; [2]] [0%Z; 1%Z])) 0 = 5 / 4 /\
  columnwise_valid 1 1 (binary_logreg 1 [[1]; [2]] [0%Z; 1%Z]) (columnwise (binary_logreg 1 [[1]; [2]] [0%Z; 1%Z])) /\
  0 < dot (nth 0 [[1]; [2]] []) (nth 0 [[1]; [2]] []).
Proof.
  assert (H : mat_shape 2 1 [[1]; [2]]) by (split; [reflexivity|repeat constructor]).
  split; [exact H|]. split; [split; [reflexivity|repeat constructor]|]. split; [simpl; lra|]. split; [simpl; lra|].
  split; [apply (C32_binary_logreg 2); [exact H|reflexivity|lia]|simpl; lra].
Qed.
