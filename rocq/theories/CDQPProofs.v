From Coq Require Import Reals List Lra Lia Bool Arith.
From Verif Require Import Prelude Vec Mat Proj ProjProofs Loss LossProofs Run QuasiNewtonProofs CDQP.
Import ListNotations.
Open Scope R_scope.

Lemma dot_unit_r n i v : length v = n -> (i < n)%nat -> dot v (unit_vec n i) = nth i v 0.
Proof. intros H1 H2. rewrite dot_comm. apply dot_unit_vec; assumption. Qed.
Lemma dot_unit_self n i : (i < n)%nat -> dot (unit_vec n i) (unit_vec n i) = 1.
Proof.
  intros H. rewrite dot_unit_vec by (auto using unit_vec_length). rewrite nth_unit_vec by exact H.
  destruct (Nat.eq_dec i i); [reflexivity|contradiction].
Qed.
Lemma set_nth_unit n (x : vec) i v : length x = n -> (i < n)%nat ->
  set_nth x i v = vadd x (smul (v - nth i x 0) (unit_vec n i)).
Proof.
  intros Hx Hi. apply vec_ext.
  - rewrite set_nth_length, vadd_length, smul_length, unit_vec_length. lia.
  - intros j Hj. rewrite set_nth_length in Hj. rewrite nth_set_nth, nth_vadd, nth_smul, nth_unit_vec by lia.
    rewrite Hx. destruct (Nat.eq_dec i j) as [->|]; [|ring].
    destruct (Nat.ltb_spec j n); [ring|lia].
Qed.
Lemma vsum_set_nth (x : vec) i v : (i < length x)%nat -> vsum (set_nth x i v) = vsum x - nth i x 0 + v.
Proof.
  revert i. induction x as [|a x IH]; intros [|i] H; simpl in *; try lia; [ring|]. rewrite IH by lia. ring.
Qed.
Lemma map_set_nth {A B} (h : A -> B) l i v : map h (set_nth l i v) = set_nth (map h l) i (h v).
Proof. revert i. induction l as [|a l IH]; intros [|i]; simpl; try reflexivity. rewrite IH. reflexivity. Qed.
Lemma dot_abs_norm1 a v M : (forall i, (i < length a)%nat -> Rabs (nth i a 0) <= M) -> length v = length a ->
  Rabs (dot a v) <= M * norm1 v.
Proof.
  unfold norm1. revert v. induction a as [|b a IH]; intros [|w v] H Hl; try discriminate; simpl.
  - rewrite Rabs_R0. lra.
  - pose proof (H 0%nat ltac:(simpl; lia)) as H0. simpl in H0.
    specialize (IH v ltac:(intros i Hi; apply (H (S i)); simpl; lia) ltac:(simpl in Hl; lia)).
    pose proof (Rabs_triang (b * w) (dot a v)). rewrite Rabs_mult in H1. pose proof (Rabs_pos w). nra.
Qed.
Lemma norm1_nonneg v : 0 <= norm1 v.
Proof.
  unfold norm1. apply vsum_nonneg. apply Forall_forall. intros a Ha. apply in_map_iff in Ha.
  destruct Ha as (b & <- & _). apply Rabs_pos.
Qed.
Lemma nth_map_abs v i : nth i (map Rabs v) 0 = Rabs (nth i v 0).
Proof. rewrite <- Rabs_R0 at 1. apply (map_nth Rabs). Qed.
Lemma norm1_le_coords a b : length a = length b ->
  (forall i, (i < length a)%nat -> Rabs (nth i a 0) <= Rabs (nth i b 0)) -> norm1 a <= norm1 b.
Proof.
  intros Hl H. unfold norm1. apply vsum_le_coords; [rewrite !map_length; exact Hl|]. rewrite map_length.
  intros i Hi. rewrite !nth_map_abs. auto.
Qed.
Lemma norm1_zero v : norm1 v = 0 -> forall i, nth i v 0 = 0.
Proof.
  unfold norm1. induction v as [|a v IH]; intros H i; [destruct i; reflexivity|]. simpl in H.
  pose proof (Rabs_pos a). pose proof (norm1_nonneg v). unfold norm1 in *.
  destruct i as [|i]; simpl; [|apply IH; lra]. assert (Ha : Rabs a = 0) by lra.
  destruct (Req_dec a 0); [assumption|]. apply Rabs_no_R0 in H2. contradiction.
Qed.
(** (sum |v_i|)^2 <= n sum v_i^2 *)
Lemma norm1_sq v : norm1 v * norm1 v <= INR (length v) * dot v v.
Proof.
  unfold norm1. induction v as [|a v IH]; [simpl; lra|]. cbn [map vsum dot length]. rewrite S_INR.
  pose proof (norm1_nonneg v) as Hn. unfold norm1 in Hn. set (t := vsum (map Rabs v)) in *. set (q := dot v v) in *.
  assert (Ha : Rabs a * Rabs a = a * a) by (rewrite <- Rabs_mult, Rabs_right; nra). pose proof (Rabs_pos a).
  set (k := INR (length v)) in *. assert (0 <= k) by apply pos_INR. assert (0 <= q) by apply dot_self_nonneg.
  assert (2 * Rabs a * t <= k * (a * a) + q).
  { destruct (Req_dec k 0) as [Ek|Ek].
    - rewrite Ek in *. assert (t * t <= 0) by lra. assert (t = 0) by nra. nra.
    - assert (Hk : 0 < k) by lra. pose proof (Rle_0_sqr (k * Rabs a - t)) as Hsq. unfold Rsqr in Hsq.
      assert (k * (2 * Rabs a * t) <= k * (k * (a * a)) + t * t) by (rewrite <- Ha; nra).
      apply Rmult_le_reg_l with k; nra. }
  fold t. simpl. fold k. assert ((Rabs a + t) * (Rabs a + t) = a * a + 2 * Rabs a * t + t * t) by (rewrite <- Ha; ring). nra.
Qed.

Section Proofs.
Variable Q : mat.
Variable c l u : vec.
Variable n : nat.
Hypothesis Hprob : qp_problem Q c l u n.

Let HQ : mat_shape n n Q := proj1 Hprob.
Let Hsym : symmetric n Q := proj1 (proj2 Hprob).
Let Hc : length c = n := proj1 (proj2 (proj2 Hprob)).
Let Hl : length l = n := proj1 (proj2 (proj2 (proj2 Hprob))).
Let Hu : length u = n := proj1 (proj2 (proj2 (proj2 (proj2 Hprob)))).
Let Hdiag : forall i, (i < n)%nat -> 0 <= entry Q i i := proj1 (proj2 (proj2 (proj2 (proj2 (proj2 Hprob))))).
Let Hbox : forall i, (i < n)%nat -> nth i l 0 <= nth i u 0 := proj2 (proj2 (proj2 (proj2 (proj2 (proj2 Hprob))))).

Definition grad (x : vec) : vec := vadd (mvec Q x) c.
Lemma grad_length x : length (grad x) = n.
Proof. unfold grad. rewrite vadd_length, mvec_length. destruct HQ as [-> _]. lia. Qed.
Lemma nth_grad x i : (i < n)%nat -> nth i (grad x) 0 = dot (nth i Q []) x + nth i c 0.
Proof. intros Hi. unfold grad. rewrite nth_vadd. rewrite nth_mvec. reflexivity. Qed.
Lemma objective_shift x d : length x = n -> length d = n ->
  qp_objective Q c (vadd x d) = qp_objective Q c x + dot (grad x) d + dot d (mvec Q d) / 2.
Proof.
  intros Hx Hd. unfold qp_objective, grad. rewrite mvec_vadd. pose proof (sym_dot n Q d x HQ Hsym Hd Hx) as E.
  rewrite !dot_vadd_l, !dot_vadd_r, E, (dot_comm (mvec Q x) d), E. field.
Qed.
Lemma objective_coord x i v : length x = n -> (i < n)%nat ->
  qp_objective Q c (set_nth x i v) = qp_objective Q c x + nth i (grad x) 0 * (v - nth i x 0)
    + entry Q i i / 2 * ((v - nth i x 0) * (v - nth i x 0)).
Proof.
  intros Hx Hi. rewrite (set_nth_unit n) by assumption.
  rewrite objective_shift by (auto; rewrite smul_length, unit_vec_length; reflexivity).
  rewrite mvec_smul, dot_smul_r, dot_smul_l, dot_smul_r, <- (entry_dot n n Q i i HQ Hi Hi).
  rewrite dot_unit_r by (auto using grad_length). field.
Qed.

Section Epoch.
Variable x : vec.
Hypothesis Hx : length x = n.
Definition Xk (k : nat) : vec := fst (fori k (cd_body Q c l u) (x, 0)).
Definition Ek (k : nat) : R := snd (fori k (cd_body Q c l u) (x, 0)).
Definition newton (k : nat) : R :=
  clip (nth k (Xk k) 0 - (if Req_EM_T (entry Q k k) 0 then 0 else nth k (grad (Xk k)) 0 / entry Q k k)) (nth k l 0) (nth k u 0).
Lemma Xk_S k : (k < n)%nat -> Xk (S k) = set_nth (Xk k) k (newton k).
Proof.
  intros Hk. unfold Xk, newton, Xk. cbn [fori]. destruct (fori k (cd_body Q c l u) (x, 0)) as [xk ek]. cbn [cd_body fst].
  rewrite nth_grad by exact Hk. reflexivity.
Qed.
Lemma Ek_S k : (k < n)%nat -> Ek (S k) = Ek k + Rabs (newton k - nth k (Xk k) 0).
Proof.
  intros Hk. unfold Ek, newton, Xk. cbn [fori]. destruct (fori k (cd_body Q c l u) (x, 0)) as [xk ek]. cbn [cd_body fst snd].
  rewrite nth_grad by exact Hk. reflexivity.
Qed.
Lemma Xk_length k : (k <= n)%nat -> length (Xk k) = n.
Proof. induction k as [|k IH]; intros Hk; [exact Hx|]. rewrite Xk_S, set_nth_length by lia. apply IH. lia. Qed.
Lemma nth_Xk_S k j : (k < n)%nat -> nth j (Xk (S k)) 0 = if Nat.eq_dec k j then newton k else nth j (Xk k) 0.
Proof.
  intros Hk. rewrite Xk_S, nth_set_nth, Xk_length by lia. destruct (Nat.eq_dec k j); [|reflexivity].
  destruct (Nat.ltb_spec k n); [reflexivity|lia].
Qed.
Lemma nth_Xk_untouched k j : (k <= n)%nat -> (k <= j)%nat -> nth j (Xk k) 0 = nth j x 0.
Proof.
  induction k as [|k IH]; intros Hk Hj; [reflexivity|]. rewrite nth_Xk_S by lia.
  destruct (Nat.eq_dec k j); [lia|]. apply IH; lia.
Qed.
Lemma nth_Xk_final k j : (j < k <= n)%nat -> nth j (Xk k) 0 = newton j.
Proof.
  induction k as [|k IH]; intros [H1 H2]; [lia|]. rewrite nth_Xk_S by lia.
  destruct (Nat.eq_dec k j) as [->|]; [reflexivity|]. apply IH; lia.
Qed.
Lemma Ek_norm1 k : (k <= n)%nat -> Ek k = norm1 (vsub (Xk k) x).
Proof.
  induction k as [|k IH]; intros Hk.
  - unfold Ek, Xk, norm1. simpl. rewrite vsub_self. unfold vzero. clear. induction (length x); simpl; [reflexivity|].
    rewrite Rabs_R0, <- IHn. ring.
  - rewrite Ek_S, IH by lia.
    assert (Hk0 : nth k (Xk k) 0 = nth k x 0) by (apply nth_Xk_untouched; lia).
    assert (E : vsub (Xk (S k)) x = set_nth (vsub (Xk k) x) k (newton k - nth k x 0)).
    { apply vec_ext.
      - rewrite set_nth_length, !vsub_length, !Xk_length by lia. reflexivity.
      - intros j Hj. rewrite nth_set_nth, !nth_vsub, nth_Xk_S by lia.
        rewrite vsub_length, Xk_length by lia. destruct (Nat.eq_dec k j) as [->|]; [|reflexivity].
        destruct (Nat.ltb_spec j (Nat.max n (length x))); [reflexivity|lia]. }
    rewrite E. unfold norm1. rewrite map_set_nth, vsum_set_nth by (rewrite map_length, vsub_length, Xk_length; lia).
    rewrite nth_map_abs, nth_vsub, Hk0. replace (nth k x 0 - nth k x 0) with 0 by ring. rewrite Rabs_R0. ring.
Qed.
Lemma newton_range k : (k < n)%nat -> nth k l 0 <= newton k <= nth k u 0.
Proof. intros Hk. apply clip_range, Hbox, Hk. Qed.
(** First-order condition of the k-th coordinate after its update. *)
Lemma newton_opt k z : (k < n)%nat -> 0 < entry Q k k -> nth k l 0 <= z <= nth k u 0 ->
  0 <= (nth k (grad (Xk k)) 0 + entry Q k k * (newton k - nth k x 0)) * (z - newton k).
Proof.
  intros Hk Hh Hz. pose proof (clip_vi (nth k (Xk k) 0 - (if Req_EM_T (entry Q k k) 0 then 0 else nth k (grad (Xk k)) 0 / entry Q k k)) _ _ z Hz) as V.
  fold (newton k) in V. destruct (Req_EM_T (entry Q k k) 0); [lra|].
  rewrite (nth_Xk_untouched k k) in V by lia. set (h := entry Q k k) in *. set (g := nth k (grad (Xk k)) 0) in *.
  assert (E : (g + h * (newton k - nth k x 0)) * (z - newton k) = - h * ((nth k x 0 - g / h - newton k) * (z - newton k))) by (field; lra).
  rewrite E. nra.
Qed.
Lemma epoch_box : in_box l u (Xk n).
Proof.
  unfold in_box. rewrite Xk_length, Hl by lia. split; [reflexivity|]. intros i Hi.
  rewrite nth_Xk_final by lia. apply newton_range, Hi.
Qed.
Hypothesis Hin : in_box l u x.
Lemma newton_zero k : (k < n)%nat -> entry Q k k = 0 -> newton k = nth k x 0.
Proof.
  intros Hk E. unfold newton. destruct (Req_EM_T (entry Q k k) 0); [|contradiction]. rewrite nth_Xk_untouched by lia.
  destruct Hin as [_ Hi]. specialize (Hi k ltac:(lia)).
  destruct (clip_cases (nth k x 0 - 0) (nth k l 0) (nth k u 0)) as [[A ->]|[[A ->]|[A ->]]]; lra.
Qed.
Lemma epoch_descent h k : (k <= n)%nat -> (forall i, (i < n)%nat -> h <= entry Q i i) -> 
  qp_objective Q c (Xk k) + h / 2 * dist2 (Xk k) x <= qp_objective Q c x.
Proof.
  intros Hk Hh. induction k as [|k IH].
  - unfold Xk. simpl. unfold dist2. rewrite vsub_self. unfold sqnorm. rewrite dot_vzero_l. lra.
  - specialize (IH ltac:(lia)). specialize (Hh k ltac:(lia)). pose proof (Hdiag k ltac:(lia)) as Hd.
    assert (Hk0 : nth k (Xk k) 0 = nth k x 0) by (apply nth_Xk_untouched; lia).
    rewrite Xk_S by lia. rewrite objective_coord by (auto using Xk_length; try apply Xk_length; lia).
    assert (Ed : dist2 (set_nth (Xk k) k (newton k)) x = dist2 (Xk k) x + (newton k - nth k x 0) * (newton k - nth k x 0)).
    { rewrite (set_nth_unit n) by (try apply Xk_length; lia). rewrite Hk0. set (t := newton k - nth k x 0).
      assert (E1 : dot (vsub (Xk k) x) (unit_vec n k) = 0).
      { rewrite dot_unit_r by (try lia; rewrite vsub_length, Xk_length; lia). rewrite nth_vsub, Hk0. ring. }
      pose proof (dot_unit_self n k ltac:(lia)) as E2. rewrite dot_vsub_l in E1.
      unfold dist2, sqnorm. autorewrite with vec. rewrite E2.
      rewrite (dot_comm (unit_vec n k) (Xk k)), (dot_comm (unit_vec n k) x), (dot_comm x (Xk k)).
      replace (dot (Xk k) (unit_vec n k)) with (dot x (unit_vec n k)) by lra. ring. }
    rewrite Ed, Hk0. set (t := newton k - nth k x 0) in *. set (g := nth k (grad (Xk k)) 0).
    assert (Hs : g * t <= - entry Q k k * (t * t)).
    { destruct (Req_dec (entry Q k k) 0) as [E|E].
      - assert (Et : t = 0) by (unfold t; rewrite newton_zero by (auto; lia); ring). rewrite Et. lra.
      - pose proof (newton_opt k (nth k x 0) ltac:(lia) ltac:(lra)) as V. destruct Hin as [_ Hi].
        specialize (V (Hi k ltac:(lia))). fold g in V. replace (nth k x 0 - newton k) with (- t) in V by (unfold t; ring). fold t in V. nra. }
    assert (0 <= t * t) by nra. nra.
Qed.
End Epoch.
Lemma cd_epoch_Xk x : length x = n -> cd_epoch Q c l u x = (Xk x n, Ek x n).
Proof. intros Hx. unfold cd_epoch, Xk, Ek. rewrite Hx. destruct (fori n _ _); reflexivity. Qed.
Lemma in_box_length x : in_box l u x -> length x = n.
Proof. intros [H _]. lia. Qed.

(** Distance to optimality after an epoch. *)
Lemma epoch_suboptimality x M z : length x = n ->
  (forall i, (i < n)%nat -> 0 < entry Q i i) ->
  (forall i j, (i < n)%nat -> (j < n)%nat -> Rabs (entry Q i j) <= M) ->
  pos_semidef n Q -> in_box l u z ->
  qp_objective Q c (Xk x n) <= qp_objective Q c z + M * Ek x n * norm1 (vsub z (Xk x n)).
Proof.
  intros Hx Hh HM Hpsd Hz. set (x' := Xk x n). assert (Hx' : length x' = n) by (apply Xk_length; auto).
  pose proof (in_box_length z Hz) as Hzl. set (d := vsub z x').
  assert (Hd : length d = n) by (apply vsub_len; assumption).
  assert (Ez : z = vadd x' d).
  { apply vec_eq_dot; [unfold d; rewrite vadd_length, vsub_length; lia|]. intros w. unfold d. autorewrite with vec. ring. }
  rewrite Ez at 1. rewrite objective_shift by assumption. specialize (Hpsd d Hd).
  assert (Hg : - (M * Ek x n * norm1 d) <= dot (grad x') d); [|lra].
  (* compare with the vector of first-order quantities *)
  set (gp := map (fun i => nth i (grad (Xk x i)) 0 + entry Q i i * (newton x i - nth i x 0)) (seq 0 n)).
  assert (Hgp : length gp = n) by (unfold gp; rewrite map_length, seq_length; reflexivity).
  assert (Hn : forall i, (i < n)%nat -> nth i gp 0 = nth i (grad (Xk x i)) 0 + entry Q i i * (newton x i - nth i x 0)).
  { intros i Hi. unfold gp. rewrite (nth_map_lt _ (seq 0 n) i 0%nat 0) by (rewrite seq_length; exact Hi). rewrite seq_nth by exact Hi. reflexivity. }
  assert (H1 : 0 <= dot gp d).
  { apply dot_nonneg_coords. intros i Hi _. rewrite Hgp in Hi. rewrite Hn by exact Hi. unfold d. rewrite nth_vsub.
    unfold x'. rewrite (nth_Xk_final x Hx n i) by lia. apply newton_opt; auto. destruct Hz as [_ Hz]. apply Hz. lia. }
  assert (H2 : Rabs (dot (vsub (grad x') gp) d) <= M * Ek x n * norm1 d).
  { apply dot_abs_norm1; [|rewrite vsub_length, grad_length; lia]. rewrite vsub_length, grad_length, Hgp. intros i Hi.
    assert (Hi' : (i < n)%nat) by lia. clear Hi.
    rewrite nth_vsub, Hn by exact Hi'.
    assert (E1 : nth i (grad (Xk x i)) 0 + entry Q i i * (newton x i - nth i x 0) = nth i (grad (Xk x (S i))) 0).
    { rewrite !nth_grad by exact Hi'. rewrite Xk_S by (auto; lia).
      rewrite (set_nth_unit n) by (auto; apply Xk_length; auto; lia). rewrite dot_vadd_r, dot_smul_r.
      rewrite dot_unit_r by (auto; apply (row_length n n Q i HQ Hi')). fold (entry Q i i).
      rewrite (nth_Xk_untouched x Hx i i) by lia. ring. }
    rewrite E1, !nth_grad by exact Hi'.
    replace (dot (nth i Q []) x' + nth i c 0 - (dot (nth i Q []) (Xk x (S i)) + nth i c 0)) with (dot (nth i Q []) (vsub x' (Xk x (S i)))) by (rewrite dot_vsub_r; ring).
    assert (HL : length (Xk x (S i)) = n) by (apply Xk_length; auto; lia).
    eapply Rle_trans; [apply (dot_abs_norm1 _ _ M)|].
    - rewrite (row_length n n Q i HQ Hi'). intros j Hj. apply (HM i j Hi' Hj).
    - rewrite (row_length n n Q i HQ Hi'). apply vsub_len; assumption.
    - apply Rmult_le_compat_l; [eapply Rle_trans; [apply Rabs_pos|apply (HM i i Hi' Hi')]|].
      rewrite (Ek_norm1 x Hx n (le_n n)). fold x'. apply norm1_le_coords; [rewrite !vsub_length; lia|].
      rewrite vsub_length. intros j Hj. rewrite !nth_vsub.
      destruct (Nat.lt_ge_cases j (S i)) as [Hlt|Hge].
      + unfold x'. rewrite (nth_Xk_final x Hx n j), (nth_Xk_final x Hx (S i) j) by lia.
        replace (newton x j - newton x j) with 0 by ring. rewrite Rabs_R0. apply Rabs_pos.
      + rewrite (nth_Xk_untouched x Hx (S i) j) by lia. lra. }
  assert (E : dot (grad x') d = dot gp d + dot (vsub (grad x') gp) d) by (rewrite dot_vsub_l; ring).
  rewrite E. unfold Rabs in H2. destruct (Rcase_abs _); lra.
Qed.

(** Fixed points of the projected gradient map are the minimisers. *)
Lemma objective_convex_ineq x z : length x = n -> length z = n -> pos_semidef n Q ->
  qp_objective Q c x + dot (grad x) (vsub z x) <= qp_objective Q c z.
Proof.
  intros Hx Hz Hp. assert (Ez : z = vadd x (vsub z x)).
  { apply vec_eq_dot; [rewrite vadd_length, vsub_length; lia|]. intros w. autorewrite with vec. ring. }
  rewrite Ez at 2. rewrite objective_shift by (auto using vsub_len). specialize (Hp (vsub z x) (vsub_len n z x Hz Hx)). lra.
Qed.
End Proofs.
