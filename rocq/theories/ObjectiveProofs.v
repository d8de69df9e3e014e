From Coq Require Import Reals List Lra Lia Bool Arith ZArith.
From Verif Require Import Prelude Vec Mat Proj Prox ProxProofs BoxSection BoxSectionProofs Loss LossProofs LossTheorems SparseSimplex ProjProofs QuasiNewtonProofs CDQPProofs Objective.
Import ListNotations.
Open Scope R_scope.

(** ** Matrix inner product *)
Lemma mdot_comm A B : mdot A B = mdot B A.
Proof. revert B. induction A as [|a A IH]; intros [|b B]; simpl; try reflexivity. rewrite IH, dot_comm. reflexivity. Qed.
Lemma mdot_madd_l A B C : length A = length B -> mdot (madd A B) C = mdot A C + mdot B C.
Proof.
  revert B C. induction A as [|a A IH]; intros [|b B] [|c C] H; try discriminate; simpl; try ring.
  rewrite IH by (simpl in H; lia). rewrite dot_vadd_l. ring.
Qed.
Lemma mdot_madd_r A B C : length A = length B -> mdot C (madd A B) = mdot C A + mdot C B.
Proof. intros H. rewrite !(mdot_comm C). apply mdot_madd_l, H. Qed.
Lemma mdot_msmul_l a A B : mdot (msmul a A) B = a * mdot A B.
Proof. revert B. induction A as [|r A IH]; intros [|b B]; simpl; try ring. fold (msmul a A). rewrite IH, dot_smul_l. ring. Qed.
Lemma mdot_msmul_r a A B : mdot B (msmul a A) = a * mdot B A.
Proof. rewrite !(mdot_comm B). apply mdot_msmul_l. Qed.
Lemma msmul_length a A : length (msmul a A) = length A.
Proof. apply map_length. Qed.
Lemma madd_length A B : length (madd A B) = Nat.min (length A) (length B).
Proof. revert B. induction A as [|a A IH]; intros [|b B]; simpl; try reflexivity. rewrite IH. reflexivity. Qed.
Lemma msub_length A B : length (msub A B) = Nat.min (length A) (length B).
Proof. unfold msub. rewrite madd_length, msmul_length. reflexivity. Qed.
Lemma mdot_msub_l A B C : length A = length B -> mdot (msub A B) C = mdot A C - mdot B C.
Proof. intros H. unfold msub. rewrite mdot_madd_l, mdot_msmul_l by (rewrite msmul_length; exact H). ring. Qed.
Lemma mdot_msub_r A B C : length A = length B -> mdot C (msub A B) = mdot C A - mdot C B.
Proof. intros H. rewrite !(mdot_comm C). apply mdot_msub_l, H. Qed.
Lemma mdot_self_nonneg A : 0 <= mdot A A.
Proof. induction A as [|a A IH]; simpl; [lra|]. pose proof (dot_self_nonneg a). lra. Qed.
Lemma mdot_outer k G a d : mdot G (outer a d) = dot (tvec k G a) d.
Proof.
  revert a. induction G as [|g G IH]; intros [|b a]; simpl; rewrite ?dot_vzero_l; try reflexivity.
  fold (outer a d). rewrite IH, dot_vadd_l, dot_smul_l, dot_smul_r. reflexivity.
Qed.
Lemma mdot_outer_self a d : mdot (outer a d) (outer a d) = dot a a * dot d d.
Proof.
  induction a as [|b a IH]; simpl; [ring|]. fold (outer a d). rewrite IH, dot_smul_l, dot_smul_r. ring.
Qed.
Lemma shape_length m k A : mat_shape m k A -> length A = m.
Proof. intros [H _]. exact H. Qed.
Lemma shape_cons m k a A : mat_shape (S m) k (a :: A) <-> length a = k /\ mat_shape m k A.
Proof.
  unfold mat_shape. simpl. split.
  - intros [H1 H2]. inversion H2; subst. auto.
  - intros (H1 & H2 & H3). split; [lia|]. constructor; assumption.
Qed.
Lemma msub_madd_cancel m k P D : mat_shape m k P -> mat_shape m k D -> msub (madd P D) P = D.
Proof.
  revert P D. induction m as [|m IH]; intros [|p P] [|d D] HP HD; try (destruct HP; discriminate); try (destruct HD; discriminate); [reflexivity|].
  apply shape_cons in HP, HD. destruct HP as [H1 H2], HD as [H3 H4]. unfold msub in *. simpl. f_equal; [|apply IH; assumption].
  apply vec_eq_dot; [rewrite !vadd_length, smul_length; lia|]. intros w. autorewrite with vec. ring.
Qed.
Lemma madd_msub_cancel m k P Q : mat_shape m k P -> mat_shape m k Q -> madd P (msub Q P) = Q.
Proof.
  revert P Q. induction m as [|m IH]; intros [|p P] [|d D] HP HD; try (destruct HP; discriminate); try (destruct HD; discriminate); [reflexivity|].
  apply shape_cons in HP, HD. destruct HP as [H1 H2], HD as [H3 H4]. unfold msub in *. simpl. f_equal; [|apply IH; assumption].
  apply vec_eq_dot; [rewrite !vadd_length, smul_length; lia|]. intros w. autorewrite with vec. ring.
Qed.

(** ** Changing one block *)
Lemma set_nth_shape n k X i v : mat_shape n k X -> length v = k -> mat_shape n k (set_nth X i v).
Proof.
  intros [H1 H2] Hv. split; [rewrite set_nth_length; exact H1|]. clear H1. revert i. induction X as [|x X IH]; intros [|i]; simpl; auto;
  inversion H2; subst; constructor; auto.
Qed.
Lemma nth_shape n k X i : mat_shape n k X -> (i < n)%nat -> length (nth i X []) = k.
Proof. intros [H1 H2] Hi. rewrite Forall_forall in H2. apply H2, nth_In. lia. Qed.
Lemma tvec_set_nth n k X i v a : mat_shape n k X -> length v = k -> (i < n)%nat -> length a = n ->
  tvec k (set_nth X i v) a = vadd (tvec k X a) (smul (nth i a 0) (vsub v (nth i X []))).
Proof.
  revert X i a. induction n as [|n IH]; intros [|x X] i a HX Hv Hi Ha; try lia; try (destruct HX; discriminate).
  pose proof HX as HX'. apply shape_cons in HX. destruct HX as [H1 H2].
  destruct a as [|b a]; [discriminate|]. simpl in Ha.
  pose proof (tvec_length n k X a H2) as Ht.
  destruct i as [|i]; simpl.
  - apply vec_eq_dot; [rewrite !vadd_length, !smul_length, vsub_length; lia|]. intros w. autorewrite with vec. ring.
  - rewrite IH by (auto; lia). apply vec_eq_dot; [rewrite !vadd_length, !smul_length, vsub_length; lia|]. intros w. autorewrite with vec. ring.
Qed.
Lemma mmul_set_nth m n k A X i v : mat_shape m n A -> mat_shape n k X -> length v = k -> (i < n)%nat ->
  mmul k A (set_nth X i v) = madd (mmul k A X) (outer (col i A) (vsub v (nth i X []))).
Proof.
  intros [_ HA] HX Hv Hi. induction A as [|a A IH]; [reflexivity|]. inversion HA as [|? ? Ha HA']. simpl.
  rewrite (tvec_set_nth n k) by auto. f_equal. apply IH. assumption.
Qed.
Lemma col_length i A : length (col i A) = length A.
Proof. apply map_length. Qed.
Lemma outer_shape' m k a d : length a = m -> length d = k -> mat_shape m k (outer a d).
Proof. intros <- <-. apply outer_shape. Qed.
Lemma mdot_set_nth n k X i v b : mat_shape n k X -> (i < n)%nat -> length b = n ->
  mdot (set_nth X i v) b = mdot X b + dot (vsub v (nth i X [])) (nth i b []).
Proof.
  revert X i b. induction n as [|n IH]; intros [|x X] i [|y b] HX Hi Hb; try lia; try discriminate; try (destruct HX; discriminate).
  apply shape_cons in HX. destruct HX as [H1 H2]. destruct i as [|i]; simpl.
  - rewrite dot_vsub_l. ring.
  - rewrite IH by (auto; simpl in Hb; lia). ring.
Qed.

(** Validity of column-wise constants from smoothness of the function of the predictions. *)
Lemma columnwise_of_smooth m n k f c L :
  mat_shape m n (linop f) -> (forall b, linear_term f = Some b -> mat_shape n k b) ->
  msmooth m k (subfun f) (grad_subfun f) c ->
  (forall i, (i < n)%nat -> c * dot (col i (linop f)) (col i (linop f)) <= nth i L 0) ->
  columnwise_valid n k f L.
Proof.
  intros HA Hb Hs HL X i d HX Hi Hd. unfold comp_call, full_grad_block, lo_matvec, lo_rmatvec_element.
  set (xi := nth i X []). assert (Hxi : length xi = k) by (apply (nth_shape n k); assumption).
  assert (Hv : length (vadd xi d) = k) by (rewrite vadd_length; lia).
  rewrite (mmul_set_nth m n k) by assumption. fold xi.
  assert (Ed : vsub (vadd xi d) xi = d) by (apply vec_eq_dot; [rewrite vsub_length; lia|intros w; autorewrite with vec; ring]).
  rewrite Ed. set (P := mmul k (linop f) X).
  assert (HP : mat_shape m k P) by (apply (mmul_shape m k n); assumption).
  assert (HD : mat_shape m k (outer (col i (linop f)) d)) by (apply outer_shape'; [rewrite col_length; apply HA|exact Hd]).
  specialize (Hs P (madd P (outer (col i (linop f)) d)) HP (madd_shape m k _ _ HP HD)).
  rewrite (msub_madd_cancel m k P _ HP HD) in Hs. rewrite (mdot_outer k), mdot_outer_self in Hs.
  specialize (HL i Hi). unfold sqnorm. pose proof (dot_self_nonneg d) as Hd0.
  set (q := dot (col i (linop f)) (col i (linop f))) in *.
  assert (Hq : c / 2 * (q * dot d d) <= nth i L 0 / 2 * dot d d).
  { replace (c / 2 * (q * dot d d)) with (c * q / 2 * dot d d) by field. apply Rmult_le_compat_r; lra. }
  destruct (linear_term f) as [b|] eqn:Eb.
  - rewrite (mdot_set_nth n k) by (auto; apply (Hb b eq_refl)). fold xi. rewrite Ed, dot_vadd_l, (dot_comm (nth i b []) d). lra.
  - lra.
Qed.

(** ** Quadratics *)
Lemma mdot_expand P Q Y : length P = length Y -> length Q = length Y ->
  mdot (msub Q Y) (msub Q Y) = mdot (msub P Y) (msub P Y) + 2 * mdot (msub P Y) (msub Q P) + mdot (msub Q P) (msub Q P).
Proof.
  intros H1 H2. assert (H3 : length Q = length P) by lia.
  rewrite !mdot_msub_r, !mdot_msub_l by auto. rewrite (mdot_comm Y Q), (mdot_comm Y P), (mdot_comm P Q). ring.
Qed.

(** ** Per-sample losses *)
Section Rows.
Context {T : Type}.
Variable loss : T -> vec -> R.
Variable gradl : T -> vec -> vec.
Variable k : nat.
Variable ok : T -> Prop.
Lemma rows_smooth c :
  (forall t p q, ok t -> length p = k -> length q = k -> loss t q <= loss t p + dot (gradl t p) (vsub q p) + c / 2 * dot (vsub q p) (vsub q p)) ->
  forall y P Q, Forall ok y -> mat_shape (length y) k P -> mat_shape (length y) k Q ->
  vsum (map2 loss y Q) <= vsum (map2 loss y P) + mdot (map2 gradl y P) (msub Q P) + c / 2 * mdot (msub Q P) (msub Q P).
Proof.
  intros H. induction y as [|t y IH]; intros [|p P] [|q Q] Ho HP HQ; try (destruct HP; discriminate); try (destruct HQ; discriminate); simpl; [lra|].
  apply shape_cons in HP, HQ. destruct HP as [P1 P2], HQ as [Q1 Q2]. inversion Ho; subst.
  specialize (IH P Q ltac:(assumption) P2 Q2). unfold msub in *. simpl. fold (msmul (-1) P).
  specialize (H t p q ltac:(assumption) ltac:(lia) ltac:(lia)). rewrite <- vsub_as_vadd. lra.
Qed.
Lemma rows_convex :
  (forall t p q, ok t -> length p = k -> length q = k -> loss t p + dot (gradl t p) (vsub q p) <= loss t q) ->
  forall y P Q, Forall ok y -> mat_shape (length y) k P -> mat_shape (length y) k Q ->
  vsum (map2 loss y P) + mdot (map2 gradl y P) (msub Q P) <= vsum (map2 loss y Q).
Proof.
  intros H. induction y as [|t y IH]; intros [|p P] [|q Q] Ho HP HQ; try (destruct HP; discriminate); try (destruct HQ; discriminate); simpl; [lra|].
  apply shape_cons in HP, HQ. destruct HP as [P1 P2], HQ as [Q1 Q2]. inversion Ho; subst.
  specialize (IH P Q ltac:(assumption) P2 Q2). unfold msub in *. simpl. fold (msmul (-1) P).
  specialize (H t p q ltac:(assumption) ltac:(lia) ltac:(lia)). rewrite <- vsub_as_vadd. lra.
Qed.
End Rows.

(** ** The logistic function is 1/4-Lipschitz *)
Lemma sigmoid_range x : 0 < sigmoid x < 1.
Proof.
  unfold sigmoid. pose proof (exp_pos (- x)). split; [apply Rdiv_lt_0_compat; lra|].
  apply Rmult_lt_reg_r with (1 + exp (- x)); [lra|]. unfold Rdiv. rewrite Rmult_assoc, Rinv_l; lra.
Qed.
Lemma sigmoid_deriv x : derivable_pt_lim sigmoid x (sigmoid x * (1 - sigmoid x)).
Proof.
  pose proof (exp_pos (- x)) as He.
  assert (H1 : derivable_pt_lim (fun t => 1 + exp (- t)) x (0 + exp (- x) * - (1))).
  { apply derivable_pt_lim_plus; [apply derivable_pt_lim_const|].
    apply (derivable_pt_lim_comp (fun t => - t) exp); [apply (derivable_pt_lim_opp id), derivable_pt_lim_id|apply derivable_pt_lim_exp]. }
  pose proof (derivable_pt_lim_div (fct_cte 1) (fun t => 1 + exp (- t)) x 0 _ (derivable_pt_lim_const 1 x) H1 ltac:(lra)) as H2.
  unfold fct_cte in H2. replace (sigmoid x * (1 - sigmoid x)) with ((0 * (1 + exp (- x)) - (0 + exp (- x) * - (1)) * 1) / (1 + exp (- x))²).
  - exact H2.
  - unfold sigmoid, Rsqr. field. lra.
Qed.
Lemma sigmoid_lip a b : a <= b -> sigmoid b - sigmoid a <= (b - a) / 4.
Proof.
  intros [H|H]; [|subst; lra].
  destruct (MVT_cor2 sigmoid (fun x => sigmoid x * (1 - sigmoid x)) a b H ltac:(intros; apply sigmoid_deriv)) as (c & -> & _).
  set (s := sigmoid c). pose proof (Rle_0_sqr (s - / 2)) as Hs. unfold Rsqr in Hs.
  assert (s * (1 - s) <= / 4) by lra. apply Rmult_le_compat_r with (r := b - a) in H0; lra.
Qed.
Lemma softplus_smooth p q : softplus q <= softplus p + sigmoid p * (q - p) + (q - p) * (q - p) / 8.
Proof.
  set (phi := fun t => softplus p + sigmoid p * (t - p) + (t - p) * (t - p) / 8 - softplus t).
  set (phi' := fun t => sigmoid p + (t - p) / 4 - sigmoid t).
  assert (Hd : forall t, derivable_pt_lim phi t (phi' t)).
  { intros t. unfold phi, phi'.
    assert (H1 : derivable_pt_lim (fun t => t - p) t (1 - 0)) by (apply derivable_pt_lim_minus; [apply derivable_pt_lim_id|apply derivable_pt_lim_const]).
    replace (sigmoid p + (t - p) / 4 - sigmoid t) with (0 + (sigmoid p * (1 - 0)) + / 8 * ((1 - 0) * (t - p) + (t - p) * (1 - 0)) - sigmoid t) by field.
    apply derivable_pt_lim_minus; [|apply softplus_deriv]. apply derivable_pt_lim_plus.
    - apply derivable_pt_lim_plus; [apply derivable_pt_lim_const|]. apply (derivable_pt_lim_scal (fun t => t - p)). exact H1.
    - replace (fun t => (t - p) * (t - p) / 8) with (mult_real_fct (/ 8) (fun t => (t - p) * (t - p))).
      + apply derivable_pt_lim_scal. apply (derivable_pt_lim_mult (fun t => t - p) (fun t => t - p)); exact H1.
      + unfold mult_real_fct. apply FunctionalExtensionality.functional_extensionality. intros. field. }
  assert (H0 : phi p = 0) by (unfold phi; field).
  assert (Hq : 0 <= phi q); [|unfold phi in Hq; lra].
  destruct (Rtotal_order p q) as [H|[H|H]].
  - destruct (MVT_cor2 phi phi' p q H ltac:(intros; apply Hd)) as (c & E & Hc). rewrite H0 in E.
    assert (0 <= phi' c) by (unfold phi'; pose proof (sigmoid_lip p c ltac:(lra)); lra). nra.
  - subst. lra.
  - destruct (MVT_cor2 phi phi' q p H ltac:(intros; apply Hd)) as (c & E & Hc). rewrite H0 in E.
    assert (phi' c <= 0) by (unfold phi'; pose proof (sigmoid_lip c p ltac:(lra)); lra). nra.
Qed.
(** ** Hoeffding's lemma and the smoothness of logsumexp *)
Lemma ln_mono a b : 0 < a -> a <= b -> ln a <= ln b.
Proof. intros Ha [H|H]; [left; apply ln_increasing; assumption|subst; lra]. Qed.
Lemma two_point th h : 0 <= th <= 1 -> ln (1 - th + th * exp h) <= th * h + h * h / 8.
Proof.
  intros [H0 H1]. assert (Hh : 0 <= h * h) by nra.
  destruct (Req_dec th 0) as [->|N0]; [replace (1 - 0 + 0 * exp h) with 1 by ring; rewrite ln_1; lra|].
  destruct (Req_dec th 1) as [->|N1]; [replace (1 - 1 + 1 * exp h) with (exp h) by ring; rewrite ln_exp; lra|].
  set (u := ln (th / (1 - th))). assert (Hu : exp u = th / (1 - th)) by (unfold u; apply exp_ln, Rdiv_lt_0_compat; lra).
  assert (Hs : sigmoid u = th) by (unfold sigmoid; rewrite exp_Ropp, Hu; field; lra).
  pose proof (softplus_smooth u (u + h)) as H. rewrite Hs in H. replace (u + h - u) with h in H by ring.
  unfold softplus in H. rewrite exp_plus, Hu in H.
  assert (E1 : 1 + th / (1 - th) = / (1 - th)) by (field; lra). rewrite E1, ln_Rinv in H by lra.
  pose proof (exp_pos h) as Eh.
  assert (E2 : 1 + th / (1 - th) * exp h = (1 - th + th * exp h) * / (1 - th)) by (field; lra).
  rewrite E2, ln_mult, ln_Rinv in H; [lra|lra|nra|apply Rinv_0_lt_compat; lra].
Qed.
Lemma exp_chord a b d : a <= d <= b -> (b - a) * exp d <= (b - d) * exp a + (d - a) * exp b.
Proof.
  intros H. pose proof (exp_ge_tangent a d) as Ha. pose proof (exp_ge_tangent b d) as Hb.
  assert ((b - d) * (exp d * (1 + (a - d))) <= (b - d) * exp a) by (apply Rmult_le_compat_l; lra).
  assert ((d - a) * (exp d * (1 + (b - d))) <= (d - a) * exp b) by (apply Rmult_le_compat_l; lra). nra.
Qed.
Lemma dot_two_coords d i j : i <> j -> (i < length d)%nat -> (j < length d)%nat ->
  nth i d 0 * nth i d 0 + nth j d 0 * nth j d 0 <= dot d d.
Proof.
  assert (One : forall d i, (i < length d)%nat -> nth i d 0 * nth i d 0 <= dot d d).
  { induction d0 as [|a d0 IH]; intros [|i0] H; simpl in *; try lia.
    - pose proof (dot_self_nonneg d0). lra.
    - specialize (IH i0 ltac:(lia)). nra. }
  revert i j. induction d as [|a d IH]; intros [|i] [|j] Hij Hi Hj; simpl in *; try lia.
  - specialize (One d j ltac:(lia)). lra.
  - specialize (One d i ltac:(lia)). lra.
  - specialize (IH i j ltac:(lia) ltac:(lia) ltac:(lia)). nra.
Qed.
Lemma vmin_in l : l <> [] -> In (vmin l) l.
Proof.
  destruct l as [|a l]; [congruence|]. intros _. unfold vmin. induction l as [|b l IH]; [left; reflexivity|]. simpl.
  destruct (Rle_dec b (fold_right Rmin a l)).
  - rewrite Rmin_left by assumption. right. left. reflexivity.
  - rewrite Rmin_right by lra. destruct IH as [IH|IH]; [left; exact IH|right; right; exact IH].
Qed.
Lemma hoeffding p d : d <> [] -> length p = length d -> Forall (Rle 0) p -> vsum p = 1 ->
  0 < dot p (map exp d) /\ ln (dot p (map exp d)) <= dot p d + dot d d / 4.
Proof.
  intros Hne Hl Hp Hs.
  assert (Hpos : 0 < dot p (map exp d)) by (pose proof (jensen_exp p d Hp Hs Hl); pose proof (exp_pos (dot p d)); lra).
  split; [exact Hpos|].
  set (a := vmin d). set (b := vmax d).
  assert (Hab : forall i, (i < length d)%nat -> a <= nth i d 0 <= b) by (intros i Hi; split; [apply vmin_le, Hi|apply vmax_ge, Hi]).
  assert (Sums : forall p d, length p = length d -> Forall (Rle 0) p -> (forall i, (i < length d)%nat -> a <= nth i d 0 <= b) ->
     (b - a) * dot p (map exp d) <= (b * vsum p - dot p d) * exp a + (dot p d - a * vsum p) * exp b /\ a * vsum p <= dot p d <= b * vsum p).
  { clearbody a b. clear. induction p as [|w p IH]; intros [|e d] Hl Hp Hd; try discriminate; simpl; [lra|].
    inversion Hp; subst. destruct (IH d ltac:(simpl in Hl; lia) ltac:(assumption) ltac:(intros i Hi; apply (Hd (S i)); simpl; lia)) as [I1 I2].
    pose proof (Hd 0%nat ltac:(simpl; lia)) as He. simpl in He. pose proof (exp_chord a b e He) as Hc.
    apply Rmult_le_compat_l with (r := w) in Hc; [|assumption]. split; nra. }
  destruct (Sums p d Hl Hp Hab) as [S1 S2]. rewrite Hs in S1, S2. set (mu := dot p d) in *.
  destruct (Req_dec a b) as [E|E].
  - assert (Em : mu = a) by lra.
    assert (Ed : dot p (map exp d) = exp a).
    { assert (G : forall p d, length p = length d -> (forall i, (i < length d)%nat -> a <= nth i d 0 <= b) -> dot p (map exp d) = vsum p * exp a).
      { clearbody a b. clear -E. induction p as [|w p IH]; intros [|e d] Hl Hd; try discriminate; simpl; [ring|].
        rewrite (IH d ltac:(simpl in Hl; lia) ltac:(intros i Hi; apply (Hd (S i)); simpl; lia)).
        pose proof (Hd 0%nat ltac:(simpl; lia)) as He. simpl in He. replace e with a by lra. ring. }
      rewrite (G p d Hl Hab), Hs. ring. }
    rewrite Ed, ln_exp. pose proof (dot_self_nonneg d). lra.
  - assert (Hlt : a < b) by (pose proof (Hab 0%nat ltac:(destruct d; [congruence|simpl; lia])); lra).
    assert (Hsq : (b - a) * (b - a) <= 2 * dot d d).
    { destruct (In_nth d a 0 (vmin_in d Hne)) as (i & Hi & Ei). destruct (In_nth d b 0 (vmax_in d Hne)) as (j & Hj & Ej).
      pose proof (dot_two_coords d i j ltac:(intros ->; lra) Hi Hj) as H2. rewrite Ei, Ej in H2. pose proof (Rle_0_sqr (a + b)) as Hz. unfold Rsqr in Hz. lra. }
    set (th := (mu - a) / (b - a)).
    assert (Hth : 0 <= th <= 1).
    { unfold th. split; [apply Rdiv_nonneg; lra|]. apply Rmult_le_reg_r with (b - a); [lra|]. unfold Rdiv. rewrite Rmult_assoc, Rinv_l; lra. }
    assert (Hmu : th * (b - a) = mu - a) by (unfold th; field; lra).
    assert (Hle : dot p (map exp d) <= exp a * (1 - th + th * exp (b - a))).
    { replace (exp a * (1 - th + th * exp (b - a))) with ((1 - th) * exp a + th * exp b).
      - apply Rmult_le_reg_l with (b - a); [lra|]. eapply Rle_trans; [exact S1|]. right.
        replace ((b - a) * ((1 - th) * exp a + th * exp b)) with ((b - a - th * (b - a)) * exp a + th * (b - a) * exp b) by ring. rewrite Hmu. ring.
      - replace (exp b) with (exp a * exp (b - a)) by (rewrite <- exp_plus; f_equal; ring). ring. }
    eapply Rle_trans; [apply ln_mono; [exact Hpos|exact Hle]|].
    assert (0 < 1 - th + th * exp (b - a)). { pose proof (exp_pos (b - a)). destruct (Req_dec th 1); nra. }
    rewrite ln_mult, ln_exp by (auto using exp_pos). pose proof (two_point th (b - a) Hth). lra.
Qed.
Lemma lse_smooth s q : s <> [] -> length q = length s ->
  logsumexp q <= logsumexp s + dot (softmax s) (vsub q s) + dot (vsub q s) (vsub q s) / 4.
Proof.
  intros Hs Hl. pose proof (sumexp_pos s Hs) as Ps.
  assert (Hd : vsub q s <> []) by (intros E; apply (f_equal (@length R)) in E; rewrite vsub_length in E; destruct s; [congruence|simpl in E; lia]).
  destruct (hoeffding (softmax s) (vsub q s) Hd ltac:(rewrite softmax_length, vsub_length; lia) (softmax_nonneg s Hs) (softmax_sum s Hs)) as [H1 H2].
  assert (E : vsum (map exp q) = vsum (map exp s) * dot (softmax s) (map exp (vsub q s))).
  { unfold softmax. set (d := vsum (map exp s)) in *. clearbody d. clear -Ps Hl. revert q Hl.
    induction s as [|a s IH]; intros [|b q] Hl; try discriminate; simpl; [ring|].
    rewrite (IH q) by (simpl in Hl; lia). unfold Rminus. rewrite exp_plus, exp_Ropp.
    field. split; [apply Rgt_not_eq, exp_pos|lra]. }
  unfold logsumexp at 1. rewrite E, ln_mult by assumption. fold (logsumexp s). lra.
Qed.
