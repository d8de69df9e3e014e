(** C17 (losses) and C18 (Fenchel-Young losses). *)
From Coq Require Import Reals List ZArith Bool Lra Lia.
From Verif Require Import Vec Proj ProjProofs SimplexTheorems BoxSection BoxSectionProofs SparseSimplex SparseSimplexProofs Loss LossProofs.
Import ListNotations.
Open Scope R_scope.

(** C17, Huber: non-negative, zero only at the target, convex in the prediction,
    differentiable with the clipped residual as derivative. *)
Theorem C17_huber : forall target delta, 0 < delta ->
  (forall pred, 0 <= huber_loss target pred delta) /\
  (forall pred, huber_loss target pred delta = 0 <-> pred = target) /\
  convex (fun pred => huber_loss target pred delta) /\
  (forall pred, derivable_pt_lim (fun pred => huber_loss target pred delta) pred
                  (clip (pred - target) (- delta) delta)).
Proof.
  intros t d Hd. split; [|split; [|split]].
  - intros p. destruct (huber_cases t p d Hd) as [[H ->]|[[H ->]|[H ->]]].
    + apply Rmult_le_pos; lra.
    + pose proof (Rle_0_sqr (p - t)). unfold Rsqr in *. lra.
    + apply Rmult_le_pos; lra.
  - intros p. split; [|intros ->].
    + destruct (huber_cases t p d Hd) as [[H ->]|[[H ->]|[H ->]]]; intros E;
        try (apply Rmult_integral in E; lra).
    + destruct (huber_cases t t d Hd) as [[H ->]|[[H ->]|[H ->]]]; lra.
  - apply subgrad_convex with (g := huber_grad t d). intros p q. pose proof (huber_bounds t d p q Hd). lra.
  - intros p. apply quad_derivable with (K := 0.5); [lra|]. intros h.
    pose proof (huber_bounds t d p (p + h) Hd) as H. unfold huber_grad in H.
    replace (p + h - p) with h in H by ring. apply Rabs_le. lra.
Qed.
Print Assumptions C17_huber.

(** C17, binary logistic: it is the negative log-likelihood of the sigmoid model,
    positive, convex, with derivative sigmoid(logit) - label. *)
Theorem C17_binary_logistic :
  (forall logit, binary_logistic_loss 1 logit = - ln (sigmoid logit)) /\
  (forall logit, binary_logistic_loss 0 logit = - ln (1 - sigmoid logit)) /\
  (forall label logit, 0 < binary_logistic_loss label logit) /\
  (forall label, convex (binary_logistic_loss label)) /\
  (forall logit, derivable_pt_lim (binary_logistic_loss 1) logit (sigmoid logit - 1)) /\
  (forall logit, derivable_pt_lim (binary_logistic_loss 0) logit (sigmoid logit)).
Proof.
  assert (Hc : convex softplus) by (apply subgrad_convex with (g := sigmoid); exact softplus_subgrad).
  split; [|split; [|split; [|split; [|split]]]].
  - intros l. unfold binary_logistic_loss, where_label, softplus, sigmoid; simpl.
    unfold Rdiv. rewrite Rmult_1_l, ln_Rinv; [ring|]. pose proof (exp_pos (- l)). lra.
  - intros l. unfold binary_logistic_loss, where_label, softplus, sigmoid; simpl.
    rewrite exp_Ropp. pose proof (exp_pos l).
    replace (1 - 1 / (1 + / exp l)) with (/ (1 + exp l)) by (field; split; lra).
    rewrite ln_Rinv; [ring|lra].
  - intros lab l. apply softplus_pos.
  - intros lab x y t Ht. unfold binary_logistic_loss, where_label. destruct (Z.eqb lab 0).
    + apply Hc. exact Ht.
    + replace (- (t * x + (1 - t) * y)) with (t * - x + (1 - t) * - y) by ring. apply Hc. exact Ht.
  - intros l. unfold binary_logistic_loss, where_label; simpl.
    assert (H : derivable_pt_lim (comp softplus Ropp) l (sigmoid (- l) * -1)).
    { apply derivable_pt_lim_comp; [apply (derivable_pt_lim_opp id l 1), derivable_pt_lim_id|apply softplus_deriv]. }
    unfold comp in H. replace (sigmoid l - 1) with (sigmoid (- l) * -1); [exact H|].
    unfold sigmoid. rewrite Ropp_involutive, exp_Ropp. pose proof (exp_pos l). field. split; lra.
  - intros l. apply softplus_deriv.
Qed.
Print Assumptions C17_binary_logistic.

(** C17, sparse_plus: derivative sparse_sigmoid, convex, within 1/4 above relu. *)
Theorem C17_sparse_plus :
  (forall x, derivable_pt_lim sparse_plus x (sparse_sigmoid x)) /\
  convex sparse_plus /\
  (forall x, Rmax x 0 <= sparse_plus x <= Rmax x 0 + 1 / 4) /\
  (forall x, 0 <= sparse_sigmoid x <= 1) /\
  (forall x, sparse_plus x - sparse_plus (- x) = x).
Proof.
  split; [|split; [|split; [|split]]].
  - intros x. apply quad_derivable with (K := 0.25); [lra|]. intros h.
    pose proof (sparse_plus_bounds x (x + h)) as H. replace (x + h - x) with h in H by ring.
    apply Rabs_le. lra.
  - apply subgrad_convex with (g := sparse_sigmoid). intros p q. pose proof (sparse_plus_bounds p q). lra.
  - intros x. destruct (sparse_plus_cases x) as [[H ->]|[[H ->]|[H ->]]]; unfold Rmax; destruct (Rle_dec x 0); try lra.
    + pose proof (Rle_0_sqr (x + 1)). unfold Rsqr in *. nra.
    + pose proof (Rle_0_sqr (x - 1)). unfold Rsqr in *. nra.
  - intros x. destruct (sparse_sigmoid_cases x) as [[H ->]|[[H ->]|[H ->]]]; lra.
  - intros x. destruct (sparse_plus_cases x) as [[H ->]|[[H ->]|[H ->]]];
    destruct (sparse_plus_cases (- x)) as [[H' ->]|[[H' ->]|[H' ->]]]; try lra;
    try (assert (x = 1) by lra; subst; lra); try (assert (x = -1) by lra; subst; lra).
Qed.
Print Assumptions C17_sparse_plus.

(** C17, binary sparsemax, hinge and perceptron losses, labels 0 and 1; the signed
    margin is [score] for label 1 and [-score] for label 0. *)
Theorem C17_binary_margin_losses : forall label, (label = 0 \/ label = 1)%Z ->
  (forall s, 0 <= binary_sparsemax_loss label s /\
             (binary_sparsemax_loss label s = 0 <-> 1 <= margin label s)) /\
  (forall s, 0 <= binary_hinge_loss label s /\
             (binary_hinge_loss label s = 0 <-> 1 <= margin label s)) /\
  (forall s, 0 <= binary_perceptron_loss label s /\
             (binary_perceptron_loss label s = 0 <-> 0 <= margin label s)) /\
  convex (binary_sparsemax_loss label) /\ convex (binary_hinge_loss label) /\ convex (binary_perceptron_loss label).
Proof.
  intros lab Hlab.
  assert (Hsp : forall x, 0 <= sparse_plus x /\ (sparse_plus x = 0 <-> x <= -1)).
  { intros x. destruct (sparse_plus_cases x) as [[H ->]|[[H ->]|[H ->]]].
    - split; [lra|]. tauto.
    - split; [nra|]. split; [|intros; assert (x = -1) by lra; subst; lra].
      intros E. assert (E2 : (x + 1) * (x + 1) = 0) by lra. apply Rmult_integral in E2. lra.
    - split; [lra|]. lra. }
  assert (Hc : convex sparse_plus) by (apply C17_sparse_plus).
  assert (Hm : forall a b x y t, 0 <= t <= 1 -> Rmax 0 (a + b * (t * x + (1 - t) * y)) <= t * Rmax 0 (a + b * x) + (1 - t) * Rmax 0 (a + b * y)).
  { intros a b x y t Ht. unfold Rmax. repeat destruct (Rle_dec _ _); nra. }
  split; [|split; [|split; [|split; [|split]]]].
  - intros s. unfold binary_sparsemax_loss, where_label, margin. destruct Hlab as [->| ->]; simpl;
    destruct (Hsp s), (Hsp (- s)); split; auto; split; intros; try (apply H0; lra); try (apply H2; lra);
    try (apply H0 in H3; lra); try (apply H2 in H3; lra).
  - intros s. unfold binary_hinge_loss, margin. destruct Hlab as [->| ->]; simpl;
    unfold Rmax; destruct (Rle_dec _ _); split; lra.
  - intros s. unfold binary_perceptron_loss, margin. destruct Hlab as [->| ->]; simpl;
    unfold Rmax; destruct (Rle_dec _ _); split; lra.
  - intros x y t Ht. unfold binary_sparsemax_loss, where_label. destruct (Z.eqb lab 0); [apply Hc; exact Ht|].
    replace (- (t * x + (1 - t) * y)) with (t * - x + (1 - t) * - y) by ring. apply Hc. exact Ht.
  - intros x y t Ht. unfold binary_hinge_loss. set (l := 2 * IZR lab - 1).
    replace (1 - (t * x + (1 - t) * y) * l) with (1 + - l * (t * x + (1 - t) * y)) by ring.
    replace (1 - x * l) with (1 + - l * x) by ring. replace (1 - y * l) with (1 + - l * y) by ring. apply Hm. exact Ht.
  - intros x y t Ht. unfold binary_perceptron_loss. set (l := 2 * IZR lab - 1).
    replace (- (t * x + (1 - t) * y) * l) with (0 + - l * (t * x + (1 - t) * y)) by ring.
    replace (- x * l) with (0 + - l * x) by ring. replace (- y * l) with (0 + - l * y) by ring. apply Hm. exact Ht.
Qed.
Print Assumptions C17_binary_margin_losses.

(** C17, multiclass logistic: negative log-softmax; non-negative, convex. *)
Theorem C17_multiclass_logistic : forall n label, (label < n)%nat ->
  (forall s, length s = n -> multiclass_logistic_loss label s = - ln (nth label (softmax s) 0)) /\
  (forall s, length s = n -> 0 <= multiclass_logistic_loss label s) /\
  vconvex n (multiclass_logistic_loss label).
Proof.
  intros n label Hn.
  assert (V : forall s, length s = n -> multiclass_logistic_loss label s = logsumexp s - nth label s 0).
  { intros s Hs. unfold multiclass_logistic_loss. rewrite centre_id by lia. apply lse_shift. intros ->; simpl in Hs; lia. }
  split; [|split].
  - intros s Hs. assert (Hne : s <> []) by (intros ->; simpl in Hs; lia).
    rewrite V by exact Hs. unfold softmax. rewrite (nth_map_lt _ _ label 0 0) by lia.
    pose proof (sumexp_pos s Hne) as Hd. unfold Rdiv.
    rewrite ln_mult, ln_exp, ln_Rinv; [unfold logsumexp; ring|exact Hd|apply exp_pos|apply Rinv_0_lt_compat; exact Hd].
  - intros s Hs. rewrite V by exact Hs. pose proof (lse_ge s label ltac:(lia)). lra.
  - intros x y t Hx Hy Ht.
    assert (Hz : length (vadd (smul t x) (smul (1 - t) y)) = n) by (rewrite vadd_length, !smul_length; lia).
    rewrite !V by assumption. rewrite nth_vadd, !nth_smul.
    assert (Hc : vconvex n logsumexp).
    { apply vsubgrad_convex with (g := softmax). intros p q Hp Hq. apply lse_subgrad; [intros ->; simpl in Hp; lia|lia]. }
    specialize (Hc x y t Hx Hy Ht). lra.
Qed.
Print Assumptions C17_multiclass_logistic.

(** C17, multiclass hinge and perceptron. *)
Theorem C17_multiclass_margin_losses : forall n label, (label < n)%nat ->
  (forall s, length s = n -> 0 <= multiclass_hinge_loss label s /\
     (multiclass_hinge_loss label s = 0 <->
      forall j, (j < n)%nat -> j <> label -> nth j s 0 + 1 <= nth label s 0)) /\
  (forall s, length s = n -> 0 <= multiclass_perceptron_loss label s /\
     (multiclass_perceptron_loss label s = 0 <-> forall j, (j < n)%nat -> nth j s 0 <= nth label s 0)) /\
  vconvex n (multiclass_hinge_loss label) /\ vconvex n (multiclass_perceptron_loss label).
Proof.
  intros n label Hn.
  assert (Hlin : forall x y t, length x = n -> length y = n ->
    dot (vadd (smul t x) (smul (1 - t) y)) (one_hot label n) = t * dot x (one_hot label n) + (1 - t) * dot y (one_hot label n)).
  { intros. vring. }
  assert (Hd : forall s, length s = n -> dot s (one_hot label (length s)) = nth label s 0) by (intros s Hs; apply dot_one_hot; lia).
  split; [|split; [|split]].
  - intros s Hs. unfold multiclass_hinge_loss. rewrite Hd by exact Hs.
    set (v := vsub _ _).
    assert (Hv : forall i, (i < length s)%nat -> nth i v 0 = nth i s 0 + 1 - (if Nat.eqb label i then 1 else 0)) by (intros; apply hinge_nth; assumption).
    assert (Hlv : length v = length s) by apply hinge_len.
    assert (Hge : nth label s 0 <= vmax v).
    { pose proof (vmax_ge v label ltac:(lia)) as H. rewrite Hv, Nat.eqb_refl in H by lia. lra. }
    split; [lra|]. split.
    + intros E j Hj Hjl. pose proof (vmax_ge v j ltac:(lia)) as H. rewrite Hv in H by lia.
      destruct (Nat.eqb_spec label j); [congruence|lra].
    + intros H. apply Rle_antisym; [|lra].
      assert (vmax v <= nth label s 0); [|lra]. apply vmax_le; [intros E; rewrite E in Hlv; simpl in Hlv; lia|].
      intros i Hi. rewrite Hv by lia. destruct (Nat.eqb_spec label i); [subst; lra|]. specialize (H i ltac:(lia) ltac:(congruence)). lra.
  - intros s Hs. unfold multiclass_perceptron_loss. rewrite Hd by exact Hs.
    pose proof (vmax_ge s label ltac:(lia)) as Hge. split; [lra|]. split.
    + intros E j Hj. pose proof (vmax_ge s j ltac:(lia)). lra.
    + intros H. apply Rle_antisym; [|lra].
      assert (vmax s <= nth label s 0); [|lra]. apply vmax_le; [intros ->; simpl in Hs; lia|]. rewrite Hs. exact H.
  - intros x y t Hx Hy Ht. unfold multiclass_hinge_loss.
    assert (Hz : length (vadd (smul t x) (smul (1 - t) y)) = n) by (rewrite vadd_length, !smul_length; lia).
    rewrite Hz, Hx, Hy.
    pose proof (convex_plus_linear n (fun s => vmax (vsub (map (fun a => a + 1) s) (one_hot label n))) (fun s => dot s (one_hot label n))) as H.
    apply H; auto. apply max_convex with (f := fun s => vsub (map (fun a => a + 1) s) (one_hot label n)); [lia| |].
    + intros u Hu. rewrite vsub_length, map_length, one_hot_length. lia.
    + intros u v tt i Hu Hv Hi.
      assert (length (vadd (smul tt u) (smul (1 - tt) v)) = n) by (rewrite vadd_length, !smul_length; lia).
      rewrite !nth_vsub, !(nth_map_lt _ _ i 0 0) by lia. rewrite nth_vadd, !nth_smul. ring.
  - intros x y t Hx Hy Ht. unfold multiclass_perceptron_loss.
    assert (Hz : length (vadd (smul t x) (smul (1 - t) y)) = n) by (rewrite vadd_length, !smul_length; lia).
    rewrite Hz, Hx, Hy.
    apply (convex_plus_linear n vmax (fun s => dot s (one_hot label n))); auto.
    apply max_convex with (f := fun s => s); [lia|auto|]. intros. rewrite nth_vadd, !nth_smul. reflexivity.
Qed.
Print Assumptions C17_multiclass_margin_losses.

(** C18: for any F that is a maximum of <s,y> - Omega(y) over C, the loss made from F
    satisfies the Fenchel-Young inequality on C, with equality exactly at maximisers,
    is convex in the scores and has argmax(s) - y_true as (sub)gradient. *)
Theorem C18_fenchel_young : forall n C Omega F argmax y_true,
  is_max_fun n C Omega F argmax -> C y_true ->
  (forall s, length s = n -> 0 <= make_fenchel_young_loss F y_true s + Omega y_true) /\
  (forall s, length s = n -> (make_fenchel_young_loss F y_true s + Omega y_true = 0 <->
     forall y, C y -> dot s y - Omega y <= dot s y_true - Omega y_true)) /\
  vconvex n (make_fenchel_young_loss F y_true) /\
  (forall s q, length s = n -> length q = n ->
     make_fenchel_young_loss F y_true s + dot (vsub (argmax s) y_true) (vsub q s) <= make_fenchel_young_loss F y_true q).
Proof.
  intros n C Om F am y H Hy. pose proof H as [Hlen H0]. split; [|split; [|split]].
  - intros s Hs. destruct (H0 s Hs) as (_ & _ & Hle). specialize (Hle y Hy).
    unfold make_fenchel_young_loss. rewrite (dot_comm y s). lra.
  - intros s Hs. destruct (H0 s Hs) as (Ha & Ea & Hle). unfold make_fenchel_young_loss. rewrite (dot_comm y s). split.
    + intros E z Hz. specialize (Hle z Hz). lra.
    + intros Hm. specialize (Hm _ Ha). specialize (Hle y Hy). lra.
  - exact (fy_convex n C Om F am y H).
  - intros s q Hs Hq. pose proof (fy_subgrad n C Om F am H s q Hs Hq) as HF. unfold make_fenchel_young_loss.
    rewrite dot_vsub_l, (dot_vsub_r q s y). lra.
Qed.
Print Assumptions C18_fenchel_young.

(** C18: logsumexp is the maximum of <s,y> - sum y log y over the simplex, attained at softmax. *)
Theorem C18_logsumexp_max : forall n, (0 < n)%nat -> is_max_fun n (simplex n 1) shannon logsumexp softmax.
Proof. exact lse_max_fun. Qed.
Print Assumptions C18_logsumexp_max.

(** C18: the multiclass sparsemax loss is the Fenchel-Young loss of the Gini
    negentropy at a one-hot target; hence non-negative, and zero exactly when the
    label's score exceeds every other by at least 1. *)
Theorem C18_sparsemax : forall n label, (label < n)%nat ->
  is_max_fun n (simplex n 1) gini sparsemax_cumulant (fun s => projection_simplex s 1) /\
  (forall s, length s = n ->
     multiclass_sparsemax_loss label s = make_fenchel_young_loss sparsemax_cumulant (one_hot label n) s /\
     0 <= multiclass_sparsemax_loss label s /\
     (multiclass_sparsemax_loss label s = 0 <->
       forall j, (j < n)%nat -> j <> label -> nth j s 0 + 1 <= nth label s 0)) /\
  vconvex n (multiclass_sparsemax_loss label).
Proof.
  intros n label Hn.
  pose proof (sparsemax_max_fun n ltac:(lia)) as HM.
  pose proof (one_hot_simplex label n Hn) as H1.
  assert (Hg : gini (one_hot label n) = 0).
  { unfold gini. destruct H1 as (_ & _ & ->). rewrite one_hot_sq by exact Hn. ring. }
  destruct (C18_fenchel_young n _ _ _ _ _ HM H1) as (F1 & F2 & F3 & _).
  assert (V : forall s, length s = n -> multiclass_sparsemax_loss label s = make_fenchel_young_loss sparsemax_cumulant (one_hot label n) s).
  { intros s Hs. rewrite <- Hs. apply sparsemax_fy. lia. }
  split; [exact HM|]. split.
  - intros s Hs. split; [apply V; exact Hs|]. rewrite V by exact Hs.
    specialize (F1 s Hs). specialize (F2 s Hs). rewrite Hg, Rplus_0_r in F1, F2. split; [exact F1|].
    rewrite F2. clear F1 F2 F3. split.
    + intros H j Hj Hjl.
      (* move eps of mass from label to j *)
      set (sl := nth label s 0). set (sj := nth j s 0).
      destruct (Rle_dec (sj + 1) sl) as [|Hc]; [assumption|exfalso].
      set (e := Rmin (1 / 2) ((sj + 1 - sl) / 2)).
      assert (He : 0 < e <= 1 / 2 /\ e <= (sj + 1 - sl) / 2) by (unfold e, Rmin; destruct (Rle_dec _ _); lra).
      set (y := vadd (smul (1 - e) (one_hot label n)) (smul e (one_hot j n))).
      pose proof (one_hot_simplex j n Hj) as H1j.
      assert (Hy : simplex n 1 y).
      { destruct H1 as (A1 & A2 & A3), H1j as (B1 & B2 & B3). split; [unfold y; rewrite vadd_length, !smul_length; lia|]. split.
        - intros i Hi. unfold y. rewrite nth_vadd, !nth_smul. specialize (A2 i Hi). specialize (B2 i Hi). nra.
        - unfold y. rewrite vsum_vadd, !vsum_smul, A3, B3. ring. }
      specialize (H y Hy).
      assert (D1 : forall k, (k < n)%nat -> dot s (one_hot k n) = nth k s 0) by (intros k Hk; rewrite <- Hs; apply dot_one_hot; lia).
      assert (Hcross : dot (one_hot label n) (one_hot j n) = 0).
      { pose proof (dot_one_hot (one_hot label n) j) as E. rewrite one_hot_length in E. rewrite E by exact Hj.
        rewrite nth_one_hot by exact Hj. destruct (Nat.eqb_spec label j); [congruence|reflexivity]. }
      assert (E1 : dot s y = (1 - e) * sl + e * sj).
      { unfold y. rewrite dot_vadd_r, !dot_smul_r, !D1 by assumption. reflexivity. }
      assert (E2 : dot y y = (1 - e) * (1 - e) + e * e).
      { unfold y. rewrite dot_vadd_l, !dot_vadd_r, !dot_smul_l, !dot_smul_r, !one_hot_sq by assumption.
        rewrite (dot_comm (one_hot j n)), Hcross. ring. }
      unfold gini in H. destruct Hy as (_ & _ & Ey). rewrite Ey, E1, E2, D1 in H by exact Hn. fold sl in H. nra.
    + intros H y (Hl & Hy0 & Hys).
      assert (D1 : dot s (one_hot label n) = nth label s 0) by (rewrite <- Hs; apply dot_one_hot; lia).
      rewrite D1. unfold gini. rewrite Hys.
      (* <s,y> <= sl - (1 - y_l), and 1 - <y,y> <= 2 (1 - y_l) *)
      set (sl := nth label s 0) in *. set (yl := nth label y 0).
      assert (B1 : dot s y <= dot (vadd (smul (sl - 1) (vones n)) (one_hot label n)) y).
      { rewrite (dot_comm s y), (dot_comm _ y). apply BoxSectionProofs.dot_le_coords; [lia|rewrite vadd_length, smul_length, vones_length, one_hot_length; lia|].
        intros i Hi. rewrite Hl in Hi. rewrite nth_vadd, nth_smul, nth_one_hot by exact Hi.
        unfold vones. rewrite nth_repeat_lt by exact Hi. apply Rmult_le_compat_l; [apply Hy0; exact Hi|].
        destruct (Nat.eqb_spec label i); [subst; fold sl; lra|]. specialize (H i Hi ltac:(congruence)). lra. }
      rewrite dot_vadd_l, dot_smul_l in B1. rewrite (dot_comm (one_hot label n) y) in B1.
      replace (dot (vones n) y) with 1 in B1 by (rewrite <- Hl, <- vsum_dot; symmetry; exact Hys).
      replace (dot y (one_hot label n)) with yl in B1 by (rewrite <- Hl; symmetry; apply dot_one_hot; lia).
      assert (B2 : yl * yl <= dot y y).
      { assert (E : forall (y : vec) k, (k < length y)%nat -> nth k y 0 * nth k y 0 <= dot y y).
        { clear. induction y as [|a y IH]; intros [|k] Hk; simpl in *; try lia.
          - pose proof (dot_self_nonneg y). lra.
          - specialize (IH k ltac:(lia)). pose proof (Rle_0_sqr a). unfold Rsqr in *. lra. }
        apply E. lia. }
      pose proof (Rle_0_sqr (1 - yl)) as B3. unfold Rsqr in B3. nra.
  - intros x y t Hx Hy Ht.
    assert (Hz : length (vadd (smul t x) (smul (1 - t) y)) = n) by (rewrite vadd_length, !smul_length; lia).
    rewrite !V by assumption. apply F3; assumption.
Qed.
Print Assumptions C18_sparsemax.

Example C17_example : huber_loss 0 3 1 = 5 / 2 /\ sparse_plus 0 = 1 / 4 /\
  multiclass_perceptron_loss 1 [3; 1] = 2.
Proof.
  split; [|split].
  - destruct (huber_cases 0 3 1 ltac:(lra)) as [[H ->]|[[H ->]|[H ->]]]; lra.
  - destruct (sparse_plus_cases 0) as [[H ->]|[[H ->]|[H ->]]]; lra.
  - unfold multiclass_perceptron_loss, one_hot; simpl. unfold Rmax. destruct (Rle_dec 1 3); lra.
Qed.
Example C18_example : is_max_fun 2 (simplex 2 1) shannon logsumexp softmax /\ simplex 2 1 [1; 0].
Proof.
  split; [apply C18_logsumexp_max; lia|]. split; [reflexivity|]. split; [intros [|[|i]] Hi; simpl; try lra; lia|simpl; lra].
Qed.
