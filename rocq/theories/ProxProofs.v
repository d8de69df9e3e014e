From Coq Require Import Reals List Lra Lia.
From Verif Require Import Vec Proj ProjProofs SimplexProofs Prox.
Import ListNotations.
Open Scope R_scope.

(** Strong form: growth by half the squared distance. *)
Lemma strong_argmin (D : vec -> Prop) F p n :
  (forall q, D q -> length q = n) -> D p ->
  (forall q, D q -> F p + / 2 * dist2 q p <= F q) -> is_argmin D F p.
Proof.
  intros Hn Hp H. split; [exact Hp|]. split; intros q Hq; specialize (H q Hq).
  - pose proof (dist2_nonneg q p). lra.
  - intros Hle. apply dist2_le_0; [rewrite (Hn q Hq), (Hn p Hp); reflexivity|]. lra.
Qed.

(** Subgradient form, used by proximal gradient: equivalent to strong growth. *)
Lemma prox_growth_subgrad g x p q :
  (prox_objective g x p + / 2 * dist2 q p <= prox_objective g x q) <->
  (g p + dot (vsub x p) (vsub q p) <= g q).
Proof. unfold prox_objective. rewrite (dist2_decompose x p q). split; lra. Qed.

(** Scalar soft-thresholding *)
Definition soft (a u : R) : R := sign u * relu (Rabs u - a).

Lemma soft_cases a u : 0 <= a ->
  (a < u /\ soft a u = u - a) \/ (u < - a /\ soft a u = u + a) \/ (- a <= u <= a /\ soft a u = 0).
Proof.
  intros Ha. unfold soft, sign. destruct (Rlt_dec 0 u).
  - rewrite Rabs_right by lra. destruct (relu_cases (u - a)) as [[H ->]|[H ->]].
    + left. split; lra.
    + right; right. split; lra.
  - destruct (Rlt_dec u 0).
    + rewrite Rabs_left by lra. destruct (relu_cases (- u - a)) as [[H ->]|[H ->]].
      * right; left. split; lra.
      * right; right. split; lra.
    + right; right. split; lra.
Qed.

(** (u - p - b p)(q - p) <= a (|q| - |p|) for p = soft a u / (1 + b) *)
Lemma elastic_subgrad a b u q : 0 <= a -> 0 <= b ->
  let p := soft a u / (1 + b) in
  (u - p - b * p) * (q - p) <= a * (Rabs q - Rabs p).
Proof.
  intros Ha Hb p.
  assert (Hp : (1 + b) * p = soft a u) by (unfold p; field; lra).
  assert (Eu : u - p - b * p = u - soft a u) by (rewrite <- Hp; ring). rewrite Eu.
  assert (Hpos : 0 < 1 + b) by lra.
  pose proof (Rle_abs q). pose proof (Rle_abs (- q)) as Hq. rewrite Rabs_Ropp in Hq.
  destruct (soft_cases a u Ha) as [[H1 E]|[[H1 E]|[H1 E]]]; rewrite E in *.
  - assert (0 < p) by (apply Rmult_lt_reg_l with (1 + b); lra).
    rewrite (Rabs_right p) by lra. replace (u - (u - a)) with a by ring. nra.
  - assert (p < 0) by (apply Rmult_lt_reg_l with (1 + b); lra).
    rewrite (Rabs_left p) by lra. replace (u - (u + a)) with (- a) by ring. nra.
  - assert (Hp0 : p = 0) by (apply Rmult_eq_reg_l with (1 + b); lra).
    rewrite Hp0, Rabs_R0. rewrite !Rminus_0_r.
    destruct (Rle_dec 0 q); [rewrite Rabs_right in * by lra; nra|rewrite Rabs_left in * by lra; nra].
Qed.

Lemma elastic_scalar a b u q : 0 <= a -> 0 <= b ->
  let p := soft a u / (1 + b) in
  / 2 * ((u - p) * (u - p)) + (a * Rabs p + b * / 2 * (p * p)) + / 2 * ((q - p) * (q - p))
  <= / 2 * ((u - q) * (u - q)) + (a * Rabs q + b * / 2 * (q * q)).
Proof.
  intros Ha Hb p. pose proof (elastic_subgrad a b u q Ha Hb) as H. fold p in H.
  cbv zeta in H. fold p in H. pose proof (Rle_0_sqr (q - p)) as Hs. unfold Rsqr in Hs.
  nra.
Qed.

(** ** Element-wise operators *)
Lemma map2_length {A B C} (f : A -> B -> C) x y : length (map2 f x y) = Nat.min (length x) (length y).
Proof. revert y; induction x as [|a x IH]; intros [|b y]; simpl; auto. Qed.

Lemma elastic_net_growth x : forall lam gam scaling q,
  length lam = length x -> length gam = length x -> length q = length x ->
  0 <= scaling -> Forall (Rle 0) lam -> Forall (Rle 0) gam ->
  let p := prox_elastic_net x lam gam scaling in
  prox_objective (fun y => scaling * elastic_penalty lam gam y) x p + / 2 * dist2 q p
  <= prox_objective (fun y => scaling * elastic_penalty lam gam y) x q.
Proof.
  unfold prox_objective, elastic_penalty, prox_elastic_net, dist2, sqnorm.
  induction x as [|u x IH]; intros [|l lam] [|g gam] s [|b q] Hl Hg Hq Hs Fl Fg; try discriminate.
  - simpl. lra.
  - simpl. inversion Fl; inversion Fg; subst.
    specialize (IH lam gam s q ltac:(simpl in *; lia) ltac:(simpl in *; lia) ltac:(simpl in *; lia) Hs
                  ltac:(assumption) ltac:(assumption)).
    cbv zeta in IH.
    pose proof (elastic_scalar (s * l) (s * l * g) u b ltac:(nra) ltac:(apply Rmult_le_pos; nra)) as H.
    cbv zeta in H. unfold soft in H. unfold Rdiv in *. lra.
Qed.

Lemma lasso_growth x : forall w scaling q,
  length w = length x -> length q = length x -> 0 <= scaling -> Forall (Rle 0) w ->
  let p := prox_lasso x w scaling in
  prox_objective (fun y => scaling * weighted_l1 w y) x p + / 2 * dist2 q p
  <= prox_objective (fun y => scaling * weighted_l1 w y) x q.
Proof.
  unfold prox_objective, weighted_l1, prox_lasso, dist2, sqnorm.
  induction x as [|u x IH]; intros [|l w] s [|b q] Hl Hq Hs Fl; try discriminate.
  - simpl. lra.
  - simpl. inversion Fl; subst.
    specialize (IH w s q ltac:(simpl in *; lia) ltac:(simpl in *; lia) Hs ltac:(assumption)).
    cbv zeta in IH.
    pose proof (elastic_scalar (l * s) 0 u b ltac:(nra) ltac:(lra)) as H.
    cbv zeta in H. unfold soft in H.
    replace (sign u * relu (Rabs u - l * s) / (1 + 0)) with (sign u * relu (Rabs u - l * s)) in H by field.
    lra.
Qed.

Lemma dot_repeat_abs l q n : length q = n -> dot (repeat l n) (map Rabs q) = l * norm1 q.
Proof.
  revert q; induction n as [|n IH]; intros [|a q] H; simpl; try discriminate; [unfold norm1; simpl; lra|].
  rewrite IH by (simpl in H; lia). unfold norm1; simpl. lra.
Qed.

Lemma elastic_penalty_repeat l g q n : length q = n ->
  elastic_penalty (repeat l n) (repeat g n) q = l * (norm1 q + g * / 2 * sqnorm q).
Proof.
  unfold elastic_penalty, sqnorm.
  revert q; induction n as [|n IH]; intros [|a q] H; simpl; try discriminate; [unfold norm1; simpl; lra|].
  rewrite IH by (simpl in H; lia). unfold norm1; simpl. lra.
Qed.

Lemma non_negative_lasso_growth x : forall l s q,
  length q = length x -> (forall i, (i < length x)%nat -> 0 <= nth i q 0) ->
  let p := prox_non_negative_lasso x l s in
  prox_objective (fun y => s * l * norm1 y) x p + / 2 * dist2 q p
  <= prox_objective (fun y => s * l * norm1 y) x q.
Proof.
  unfold prox_objective, norm1, prox_non_negative_lasso, dist2, sqnorm.
  induction x as [|u x IH]; intros l s [|b q] Hl Hq; try discriminate.
  - simpl. lra.
  - simpl. specialize (IH l s q ltac:(simpl in *; lia) ltac:(intros i Hi; apply (Hq (S i)); simpl; lia)).
    cbv zeta in IH. pose proof (Hq 0%nat ltac:(simpl; lia)) as Hb. simpl in Hb.
    rewrite (Rabs_right b) by lra. rewrite (Rabs_right (relu _)) by (apply Rle_ge, relu_nonneg).
    pose proof (relu_nonneg (u - l * s)).
    destruct (relu_cases (u - l * s)) as [[H1 E]|[H1 E]]; rewrite E in *; nra.
Qed.

Lemma ridge_growth x l s q : length q = length x -> 0 <= s * l ->
  let p := prox_ridge x l s in
  prox_objective (fun y => s * l * / 2 * sqnorm y) x p + / 2 * dist2 q p
  <= prox_objective (fun y => s * l * / 2 * sqnorm y) x q.
Proof.
  intros Hq Hsl p. apply prox_growth_subgrad. unfold p, prox_ridge.
  set (c := 1 / (1 + s * l)). assert (Hc : c * (1 + s * l) = 1) by (unfold c; field; lra).
  assert (E : dot (vsub x (smul c x)) (vsub q (smul c x)) = (1 - c) * (dot x q - c * dot x x)) by vring.
  assert (Ed : dist2 q (smul c x) = sqnorm q - 2 * c * dot x q + c * c * dot x x) by vring.
  assert (Ep : sqnorm (smul c x) = c * c * dot x x) by vring.
  pose proof (dist2_nonneg q (smul c x)) as Hd. rewrite E, Ep. rewrite Ed in Hd.
  assert (Hx : 1 - c = s * l * c) by lra. rewrite Hx.
  assert (0 <= s * l * (sqnorm q - 2 * c * dot x q + c * c * dot x x)) by (apply Rmult_le_pos; assumption).
  lra.
Qed.

Lemma non_negative_ridge_growth x : forall l s q,
  length q = length x -> (forall i, (i < length x)%nat -> 0 <= nth i q 0) -> 0 <= s * l ->
  let p := prox_non_negative_ridge x l s in
  prox_objective (fun y => s * l * / 2 * sqnorm y) x p + / 2 * dist2 q p
  <= prox_objective (fun y => s * l * / 2 * sqnorm y) x q.
Proof.
  unfold prox_objective, prox_non_negative_ridge, dist2, sqnorm.
  induction x as [|u x IH]; intros l s [|b q] Hl Hq Hsl; try discriminate.
  - simpl. lra.
  - simpl. specialize (IH l s q ltac:(simpl in *; lia) ltac:(intros i Hi; apply (Hq (S i)); simpl; lia) Hsl).
    cbv zeta in IH. pose proof (Hq 0%nat ltac:(simpl; lia)) as Hb. simpl in Hb.
    set (c := 1 / (1 + l * s)) in *. assert (Hc : c * (1 + s * l) = 1) by (unfold c; field; lra).
    assert (Hc0 : 0 < c) by nra.
    set (k := s * l) in *.
    assert (Hscal : / 2 * ((u - relu (c * u)) * (u - relu (c * u))) + k * / 2 * (relu (c * u) * relu (c * u))
                    + / 2 * ((b - relu (c * u)) * (b - relu (c * u)))
                    <= / 2 * ((u - b) * (u - b)) + k * / 2 * (b * b)).
    { destruct (relu_cases (c * u)) as [[H1 ->]|[H1 ->]].
      - assert (Hu : u = (1 + k) * (c * u)) by (rewrite <- Rmult_assoc, (Rmult_comm (1 + k)), Hc; ring).
        set (v := c * u) in *. clearbody v. rewrite Hu.
        assert (0 <= k * ((v - b) * (v - b))) by (apply Rmult_le_pos; [exact Hsl|apply Rle_0_sqr]). lra.
      - assert (u <= 0) by nra.
        assert (0 <= k * (b * b)) by (apply Rmult_le_pos; [exact Hsl|apply Rle_0_sqr]). nra. }
    fold (smul c x) in IH. unfold smul in *. lra.
Qed.

Lemma group_lasso_growth x l s q : length q = length x -> 0 <= l * s ->
  let p := prox_group_lasso x l s in
  prox_objective (fun y => s * l * norm2 y) x p + / 2 * dist2 q p
  <= prox_objective (fun y => s * l * norm2 y) x q.
Proof.
  intros Hq Hls p. apply prox_growth_subgrad. unfold p, prox_group_lasso.
  set (k := s * l). replace (l * s) with k in * by (unfold k; ring).
  pose proof (norm2_nonneg q) as Hnq.
  destruct (Req_dec (norm2 x) 0) as [E|E].
  - set (f := if Rle_dec 0 (1 - k / norm2 x) then 1 - k / norm2 x else 0). clearbody f.
    rewrite norm2_smul, E.
    assert (Hx : forall z, dot x z = 0).
    { intros z. apply norm2_zero_iff in E. rewrite E. apply dot_vzero_l. }
    autorewrite with vec. rewrite !Hx. rewrite ?(dot_comm q x), ?Hx. nra.
  - assert (Hn : 0 < norm2 x) by (apply norm2_pos; exact E).
    pose proof (dot_le_norm x q) as Hcs. set (n := norm2 x) in *.
    destruct (Rle_dec 0 (1 - k / n)) as [H|H].
    + set (f := 1 - k / n) in *. assert (Hf : f * n = n - k) by (unfold f; field; lra).
      rewrite norm2_smul, (Rabs_right f) by lra. fold n. rewrite Hf.
      assert (Exx : dot x x = n * n) by (unfold n; rewrite norm2_sq; reflexivity).
      assert (E1 : dot (vsub x (smul f x)) (vsub q (smul f x)) = (1 - f) * (dot x q - f * dot x x)) by vring.
      rewrite E1, Exx, <- (Rmult_assoc f n n).
      rewrite Hf. assert (Hkn : (1 - f) * n = k) by (unfold f; field; lra).
      assert (0 <= 1 - f) by (unfold f; pose proof (Rdiv_nonneg k n Hls Hn); lra).
      replace ((1 - f) * (dot x q - (n - k) * n)) with ((1 - f) * dot x q - ((1 - f) * n) * (n - k)) by ring.
      rewrite Hkn. assert ((1 - f) * dot x q <= (1 - f) * (n * norm2 q)) by (apply Rmult_le_compat_l; lra).
      assert ((1 - f) * (n * norm2 q) = k * norm2 q) by (rewrite <- Hkn; ring). lra.
    + rewrite norm2_smul, Rabs_R0. autorewrite with vec.
      assert (n < k).
      { apply Rnot_le_lt in H. assert (k / n * n = k) by (field; lra). nra. }
      nra.
Qed.
