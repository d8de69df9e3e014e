(** Proofs for C77. *)
From Coq Require Import Reals List Lra Lia Bool Arith.
From Verif Require Import Prelude Vec Mat LinAlg Prox Zoom Loss LossProofs Run QuasiNewton QuasiNewtonProofs Anderson AndersonProofs FixedPoint AndersonConvergence.
Import ListNotations.
Open Scope R_scope.

Lemma buf_slot {A} m (z : A) a k i d : (0 < m)%nat -> (i < m)%nat -> (i < k)%nat ->
  exists j, (j < k)%nat /\ (k <= j + m)%nat /\ (j mod m = i)%nat /\ nth i (buf m z a k) d = a j.
Proof.
  intros Hm Hi. induction k as [|k IH]; intros Hk; [lia|]. cbn [buf]. rewrite nth_set_nth, buf_length.
  destruct (Nat.eq_dec (k mod m) i) as [E|E].
  - exists k. split; [lia|]. split; [lia|]. split; [exact E|].
    destruct (Nat.ltb_spec (k mod m) m); [reflexivity|lia].
  - assert (Hik : (i < k)%nat). { destruct (Nat.eq_dec i k) as [->|]; [|lia]. rewrite Nat.mod_small in E by lia. lia. }
    destruct (IH Hik) as (j & J1 & J2 & J3 & J4). exists j. split; [lia|]. split.
    { destruct (Nat.eq_dec k (j + m)) as [->|]; [|lia]. exfalso. apply E. rewrite <- J3. rewrite <- (Nat.mod_add j 1 m) by lia. f_equal. lia. }
    split; [exact J3|]. exact J4.
Qed.

Lemma vsum_repeat c m : vsum (repeat c m) = INR m * c.
Proof. induction m; [cbn; lra|]. rewrite S_INR. cbn [repeat vsum]. rewrite IHm. ring. Qed.
Lemma sqnorm_repeat c m : sqnorm (repeat c m) = INR m * (c * c).
Proof. induction m; [cbn; lra|]. rewrite S_INR. unfold sqnorm in *. cbn [repeat dot]. rewrite IHm. ring. Qed.
Lemma combination_le n rs B c : rows_len n rs -> 0 <= c -> (forall i, (i < length rs)%nat -> norm2 (nth i rs []) <= B) ->
  norm2 (tvec n rs (repeat c (length rs))) <= INR (length rs) * c * B.
Proof.
  intros Hr Hc. induction rs as [|r rs IH]; intros H.
  - cbn [length repeat tvec INR]. rewrite (proj2 (norm2_zero_iff (vzero n))) by (rewrite vzero_length; reflexivity). lra.
  - cbn [length repeat tvec]. rewrite S_INR. eapply Rle_trans; [apply norm2_triangle|]. rewrite norm2_smul, Rabs_right by lra.
    pose proof (H 0%nat ltac:(simpl; lia)) as H0. cbn [nth] in H0.
    pose proof (IH ltac:(inversion Hr; assumption) ltac:(intros i Hi; apply (H (S i)); simpl; lia)) as H1.
    pose proof (Rmult_le_compat_l c _ _ Hc H0). lra.
Qed.
Lemma weight_floor m w : (0 < m)%nat -> length w = m -> vsum w = 1 -> / INR m <= sqnorm w.
Proof.
  intros Hm Hw E. pose proof (cauchy_schwarz_sq (vones m) w) as C.
  assert (E1 : dot (vones m) w = 1) by (rewrite <- Hw, <- vsum_dot; exact E).
  assert (E2 : dot (vones m) (vones m) = INR m) by (unfold vones; pose proof (sqnorm_repeat 1 m) as Q; unfold sqnorm in Q; rewrite Q; ring).
  rewrite E1, E2 in C. assert (Pm : 0 < INR m) by (apply lt_0_INR; exact Hm).
  apply (Rmult_le_reg_l (INR m)); [exact Pm|]. rewrite Rinv_r by lra. unfold sqnorm. lra.
Qed.

(** The mixed residual is no longer than the longest stored one, whatever the ridge. *)
Lemma mixing_max n ridge rs w B : rows_len n rs -> (0 < length rs)%nat -> 0 <= ridge -> mixing_weights n ridge rs w ->
  (forall i, (i < length rs)%nat -> norm2 (nth i rs []) <= B) -> norm2 (combination n rs w) <= B.
Proof.
  intros Hr Hm Hri (Lw & Sw & Hw) HB. set (m := length rs) in *. assert (Pm : 0 < INR m) by (apply lt_0_INR; exact Hm).
  assert (Ic : 0 < / INR m) by (apply Rinv_0_lt_compat; exact Pm).
  pose proof (Hw (repeat (/ INR m) m) (repeat_length _ _) ltac:(rewrite vsum_repeat; apply Rinv_r; lra)) as H. unfold mixing_objective in H.
  rewrite sqnorm_repeat in H. pose proof (weight_floor m w Hm Lw Sw) as Fl.
  assert (E : INR m * (/ INR m * / INR m) = / INR m) by (field; lra). rewrite E in H.
  pose proof (combination_le n rs B (/ INR m) Hr ltac:(lra) HB) as C. fold m in C. rewrite Rinv_r, Rmult_1_l in C by lra.
  pose proof (Rmult_le_compat_l ridge _ _ Hri Fl) as Q.
  assert (PB : 0 <= B) by (eapply Rle_trans; [apply norm2_nonneg|apply (HB 0%nat Hm)]).
  apply norm2_le_sq in C; [|exact PB]. apply norm2_le_sq; [exact PB|]. unfold combination, sqnorm in *. lra.
Qed.
(** And, up to ridge (1 - 1/m), no longer than the shortest stored one. *)
Lemma mixing_min n ridge rs w i : rows_len n rs -> (i < length rs)%nat -> 0 <= ridge -> mixing_weights n ridge rs w ->
  sqnorm (combination n rs w) <= sqnorm (nth i rs []) + ridge * (1 - / INR (length rs)).
Proof.
  intros Hr Hi Hri Hw. pose proof (mixing_le n ridge rs w i Hr Hi Hw) as H. unfold mixing_objective in H. destruct Hw as (Lw & Sw & _).
  pose proof (weight_floor (length rs) w ltac:(lia) Lw Sw) as Fl. pose proof (Rmult_le_compat_l ridge _ _ Hri Fl). lra.
Qed.

Lemma affine_linear n q F M b : contraction n q F -> mat_shape n n M -> length b = n -> (forall x, length x = n -> F x = vadd (mvec M x) b) ->
  forall v, length v = n -> norm2 (mvec M v) <= q * norm2 v.
Proof.
  intros [_ HC] HM Hb HF v Hv. pose proof (HC v (vzero n) Hv (vzero_length n)) as H. unfold vdist in H.
  rewrite !HF in H by (auto using vzero_length).
  assert (E1 : vsub v (vzero n) = v). { apply vec_eq_dot; [rewrite vsub_length, vzero_length; lia|]. intros z. vring. }
  assert (E2 : vsub (vadd (mvec M v) b) (vadd (mvec M (vzero n)) b) = mvec M v).
  { apply vec_eq_dot; [rewrite vsub_length, !vadd_length, !mvec_length, (proj1 HM); lia|]. intros z. rewrite mvec_vzero. vring. }
  rewrite E1, E2 in H. exact H.
Qed.
Lemma rate_ge beta q : 0 <= q < 1 -> q <= mixing_rate beta q /\ 0 <= mixing_rate beta q.
Proof.
  intros Hq. unfold mixing_rate. pose proof (Rabs_pos (1 - beta)) as P1. pose proof (Rabs_pos beta) as P2.
  assert (T : 1 <= Rabs (1 - beta) + Rabs beta). { replace 1 with (Rabs (1 - beta + beta)) at 1 by (replace (1 - beta + beta) with 1 by ring; apply Rabs_R1). apply Rabs_triang. }
  pose proof (Rmult_le_compat_r q _ _ ltac:(lra) T). pose proof (Rmult_le_pos _ _ P2 (proj1 Hq)).
  assert (Rabs (1 - beta) * q <= Rabs (1 - beta) * 1) by (apply Rmult_le_compat_l; lra). split; lra.
Qed.
(** Residual of a damped step from p on an affine map. *)
Lemma damped_residual n q F M b beta p : contraction n q F -> mat_shape n n M -> length b = n -> (forall x, length x = n -> F x = vadd (mvec M x) b) ->
  length p = n -> norm2 (residual_at F (vadd p (smul beta (residual_at F p)))) <= mixing_rate beta q * norm2 (residual_at F p).
Proof.
  intros HC HM Hb HF Hp. set (r := residual_at F p). assert (Lf : length (F p) = n) by (rewrite HF by exact Hp; rewrite vadd_length, mvec_length, (proj1 HM); lia).
  assert (Lr : length r = n) by (unfold r, residual_at; rewrite vsub_length; lia).
  assert (Ls : length (vadd p (smul beta r)) = n) by (rewrite vadd_length, smul_length; lia).
  assert (E : residual_at F (vadd p (smul beta r)) = vadd (smul (1 - beta) r) (smul beta (mvec M r))).
  { unfold residual_at at 1. rewrite HF by exact Ls. rewrite mvec_vadd, mvec_smul.
    apply vec_eq_dot; [repeat rewrite ?vsub_length, ?vadd_length, ?smul_length, ?mvec_length; rewrite (proj1 HM); lia|].
    intros z. assert (Er : dot r z = dot (mvec M p) z + dot b z - dot p z) by (unfold r, residual_at; rewrite HF by exact Hp; vring).
    autorewrite with vec. rewrite ?dot_vsub_l, ?dot_vadd_l, ?dot_smul_l. rewrite ?Er. ring. }
  rewrite E. eapply Rle_trans; [apply norm2_triangle|]. rewrite !norm2_smul. unfold mixing_rate.
  pose proof (Rmult_le_compat_l (Rabs beta) _ _ (Rabs_pos beta) (affine_linear n q F M b HC HM Hb HF r Lr)). lra.
Qed.

Section Engine.
Variables (n m freq K : nat) (q beta ridge : R) (F : vec -> vec) (e : nat -> vec) (z : vec).
Let rho k := residual_at F (e k).
Hypothesis Hm : (0 < m)%nat.
Hypothesis Hq : 0 <= q < 1.
Hypothesis HC : contraction n q F.
Hypothesis HA : is_affine n F.
Hypothesis Hri : 0 <= ridge.
Hypothesis Hlen : forall k, (k < K)%nat -> length (e k) = n.
Hypothesis Hz : length z = n.
Hypothesis Hplain : forall k, (S k < K)%nat -> (S k < m)%nat \/ (S k mod freq <> 0)%nat -> e (S k) = F (e k).
Hypothesis Hmix : forall k, (k < K)%nat -> (m <= k)%nat -> (k mod freq = 0)%nat -> exists w,
  mixing_weights n ridge (buf m (vzero n) rho k) w /\
  e k = vadd (combination n (buf m z e k) w) (smul beta (combination n (buf m (vzero n) rho k) w)).
Let theta := mixing_rate beta q.

Lemma rho_length k : (k < K)%nat -> length (rho k) = n.
Proof. intros Hk. unfold rho, residual_at. rewrite vsub_length, (proj1 HC) by (apply Hlen; exact Hk). rewrite Hlen by exact Hk. lia. Qed.

(** One update: either a plain step, or a damped step from a mixed point. *)
Lemma engine_step k : (S k < K)%nat ->
  norm2 (rho (S k)) <= q * norm2 (rho k) \/
  exists p, length p = n /\ norm2 (rho (S k)) <= theta * norm2 (residual_at F p) /\
    (forall B, (forall j, (j <= k)%nat -> (S k <= j + m)%nat -> norm2 (rho j) <= B) -> norm2 (residual_at F p) <= B) /\
    (forall j, (j <= k)%nat -> (S k <= j + m)%nat -> sqnorm (residual_at F p) <= sqnorm (rho j) + ridge * (1 - / INR m)).
Proof.
  intros Hk. destruct (Nat.lt_ge_cases (S k) m) as [C|C]; [left|destruct (Nat.eq_dec (S k mod freq) 0) as [C2|C2]; [right|left]].
  1,3: unfold rho, residual_at; rewrite (Hplain k Hk) by auto; apply (proj2 HC); [apply (proj1 HC), Hlen; lia|apply Hlen; lia].
  destruct (Hmix (S k) Hk C C2) as (w & Hw & E). destruct HA as (M & b & HM & Hb & HF).
  set (ph := buf m z e (S k)) in *. set (rh := buf m (vzero n) rho (S k)) in *.
  assert (Lp : length ph = m) by apply buf_length. assert (Lr : length rh = m) by apply buf_length.
  assert (Rp : rows_len n ph) by (apply buf_rows; [exact Hz|]; intros j Hj; apply Hlen; lia).
  assert (Rr : rows_len n rh) by (apply buf_rows; [apply vzero_length|]; intros j Hj; apply rho_length; lia).
  pose proof Hw as (Lw & Sw & _). set (p := combination n ph w) in *.
  assert (Lpp : length p = n) by (apply (tvec_length m); split; assumption).
  assert (Ec : combination n rh w = residual_at F p).
  { unfold residual_at. rewrite HF by exact Lpp. unfold combination, p. rewrite (affine_combination n M b ph rh w HM Hb Rp).
    - rewrite Sw, smul_1. reflexivity.
    - unfold mat, vec in *. congruence.
    - unfold mat, vec in *. congruence.
    - intros i Hi. assert (Hi' : (i < m)%nat) by (unfold mat, vec in *; lia).
      unfold rh, ph. etransitivity; [apply (buf_pair m z (vzero n) e rho (residual_at F) (S k) i []); [exact Hi'|lia|reflexivity]|].
      unfold residual_at. rewrite HF; [reflexivity|]. apply (row_length m); [split; assumption|exact Hi']. }
  rewrite Ec in E. exists p. split; [exact Lpp|]. split.
  - unfold rho. rewrite E. apply (damped_residual n q F M b); assumption.
  - rewrite <- Ec. split.
    + intros B HB. assert (Hlr : (0 < length rh)%nat) by (rewrite Lr; exact Hm). apply (mixing_max n ridge rh w); auto. intros i Hi. rewrite Lr in Hi.
      destruct (buf_slot m (vzero n) rho (S k) i [] Hm Hi ltac:(lia)) as (j & J1 & J2 & _ & J4). unfold rh. eapply Rle_trans; [right; exact (f_equal norm2 J4)|apply (HB j); lia].
    + intros j J1 J2. pose proof (Nat.mod_upper_bound j m ltac:(lia)) as Hj.
      pose proof (mixing_min n ridge rh w (j mod m) Rr ltac:(rewrite Lr; exact Hj) Hri Hw) as H. rewrite Lr in H.
      replace (nth (j mod m) rh []) with (rho j) in H; [exact H|]. symmetry. apply buf_recent; lia.
Qed.
Lemma engine_max k B : (S k < K)%nat -> (forall j, (j <= k)%nat -> (S k <= j + m)%nat -> norm2 (rho j) <= B) -> norm2 (rho (S k)) <= theta * B.
Proof.
  intros Hk HB. destruct (rate_ge beta q Hq) as [G1 G2]. fold theta in G1, G2. pose proof (norm2_nonneg (rho k)) as P. pose proof (HB k ltac:(lia) ltac:(lia)) as Hkk.
  destruct (engine_step k Hk) as [H|(p & _ & H & HBp & _)].
  - eapply Rle_trans; [exact H|]. apply Rmult_le_compat; lra.
  - eapply Rle_trans; [exact H|]. apply Rmult_le_compat_l; [exact G2|]. apply HBp. exact HB.
Qed.
Lemma ceil_step j k : (0 < m)%nat -> (k <= j + m)%nat -> (ceil_div k m <= S (ceil_div j m))%nat.
Proof.
  intros Hm' H. unfold ceil_div. pose proof (Nat.div_add (j + (m - 1)) 1 m ltac:(lia)) as E.
  apply Nat.le_trans with ((j + (m - 1) + 1 * m) / m)%nat; [apply Nat.div_le_mono; lia|]. rewrite E. lia.
Qed.
Lemma engine_rate : theta <= 1 -> forall k, (k < K)%nat -> norm2 (rho k) <= theta ^ ceil_div k m * norm2 (rho 0%nat).
Proof.
  intros Ht. destruct (rate_ge beta q Hq) as [G1 G2]. fold theta in G1, G2. pose proof (norm2_nonneg (rho 0%nat)) as P0.
  assert (D : forall a b, (a <= b)%nat -> theta ^ b <= theta ^ a).
  { intros a b Hab. replace b with (a + (b - a))%nat by lia. rewrite pow_add. rewrite <- (Rmult_1_r (theta ^ a)) at 2. apply Rmult_le_compat_l; [apply pow_le; exact G2|].
    rewrite <- (pow1 (b - a)). apply pow_incr. lra. }
  intros k. induction k as [k IH] using lt_wf_ind. intros Hk. destruct k as [|k].
  - replace (ceil_div 0 m) with 0%nat; [cbn; lra|]. unfold ceil_div. symmetry. apply Nat.div_small. lia.
  - set (c := ceil_div (S k) m). assert (Hc : (1 <= c)%nat). { unfold c, ceil_div. apply Nat.div_le_lower_bound; lia. }
    replace c with (S (c - 1)) by lia. cbn [pow]. rewrite Rmult_assoc. apply engine_max; [exact Hk|]. intros j J1 J2.
    eapply Rle_trans; [apply IH; lia|]. apply Rmult_le_compat_r; [exact P0|]. apply D. pose proof (ceil_step j (S k) Hm J2). fold c in H. lia.
Qed.
End Engine.
