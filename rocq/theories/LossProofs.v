From Coq Require Import Reals List ZArith Bool Lra Lia.
From Verif Require Import Vec Proj ProjProofs SimplexProofs SimplexTheorems BoxSection BoxSectionProofs
  SparseSimplex SparseSimplexProofs Loss.
Import ListNotations.
Open Scope R_scope.

(** A function with an affine minorant touching at every point is convex. *)
Lemma subgrad_convex f g : (forall p q, f p + g p * (q - p) <= f q) -> convex f.
Proof.
  intros H x y t Ht. set (z := t * x + (1 - t) * y).
  pose proof (H z x) as Hx. pose proof (H z y) as Hy.
  assert (E : t * (x - z) + (1 - t) * (y - z) = 0) by (unfold z; ring).
  assert (t * (f z + g z * (x - z)) <= t * f x) by (apply Rmult_le_compat_l; lra).
  assert ((1 - t) * (f z + g z * (y - z)) <= (1 - t) * f y) by (apply Rmult_le_compat_l; lra).
  assert (t * (f z + g z * (x - z)) + (1 - t) * (f z + g z * (y - z)) = f z + g z * (t * (x - z) + (1 - t) * (y - z))) by ring.
  rewrite E in *. lra.
Qed.
Lemma vsubgrad_convex n f g : (forall p q, length p = n -> length q = n -> f p + dot (g p) (vsub q p) <= f q) -> vconvex n f.
Proof.
  intros H x y t Hx Hy Ht. set (z := vadd (smul t x) (smul (1 - t) y)).
  assert (Hz : length z = n) by (unfold z; rewrite vadd_length, !smul_length; lia).
  pose proof (H z x Hz Hx) as H1. pose proof (H z y Hz Hy) as H2.
  assert (E : t * dot (g z) (vsub x z) + (1 - t) * dot (g z) (vsub y z) = 0).
  { unfold z. generalize (g (vadd (smul t x) (smul (1 - t) y))). intros w. vring. }
  assert (t * (f z + dot (g z) (vsub x z)) <= t * f x) by (apply Rmult_le_compat_l; lra).
  assert ((1 - t) * (f z + dot (g z) (vsub y z)) <= (1 - t) * f y) by (apply Rmult_le_compat_l; lra).
  nra.
Qed.

(** Quadratic remainder bound gives the derivative. *)
Lemma quad_derivable f x l K : 0 <= K -> (forall h, Rabs (f (x + h) - f x - l * h) <= K * (h * h)) ->
  derivable_pt_lim f x l.
Proof.
  intros HK H eps Heps. assert (Hd : 0 < eps / (K + 1)) by (apply Rdiv_lt_0_compat; lra).
  exists (mkposreal _ Hd). intros h Hh Hlt. simpl in Hlt.
  replace ((f (x + h) - f x) / h - l) with ((f (x + h) - f x - l * h) / h) by (field; exact Hh).
  unfold Rdiv at 1. rewrite Rabs_mult, Rabs_inv.
  assert (Hp : 0 < Rabs h) by (apply Rabs_pos_lt; exact Hh).
  apply Rle_lt_trans with (K * (h * h) * / Rabs h).
  - apply Rmult_le_compat_r; [apply Rlt_le, Rinv_0_lt_compat, Hp|apply H].
  - replace (h * h) with (Rabs h * Rabs h) by (rewrite <- Rabs_mult; apply Rabs_right, Rle_ge, Rle_0_sqr).
    replace (K * (Rabs h * Rabs h) * / Rabs h) with (K * Rabs h) by (field; lra).
    assert (E : eps / (K + 1) * (K + 1) = eps) by (field; lra). nra.
Qed.

(** ** Huber *)
Definition huber_grad (target delta pred : R) : R := clip (pred - target) (- delta) delta.

Lemma huber_cases t p d : 0 < d ->
  (p - t < - d /\ huber_loss t p d = d * (t - p - 0.5 * d)) \/
  (- d <= p - t <= d /\ huber_loss t p d = 0.5 * (p - t) * (p - t)) \/
  (d < p - t /\ huber_loss t p d = d * (p - t - 0.5 * d)).
Proof.
  intros Hd. unfold huber_loss. destruct (Rlt_dec d (Rabs (t - p))) as [H|H]; revert H;
  unfold Rabs; destruct (Rcase_abs (t - p)) as [Hc|Hc]; intros H.
  - right; right. split; [lra|]. f_equal. ring.
  - left. split; [lra|]. reflexivity.
  - right; left. split; [lra|]. lra.
  - right; left. split; [lra|]. lra.
Qed.
Lemma huber_grad_cases t p d : 0 < d ->
  (p - t < - d /\ huber_grad t d p = - d) \/
  (- d <= p - t <= d /\ huber_grad t d p = p - t) \/ (d < p - t /\ huber_grad t d p = d).
Proof.
  intros Hd. unfold huber_grad.
  destruct (clip_cases (p - t) (- d) d ltac:(lra)) as [[H ->]|[[H ->]|[H ->]]].
  - destruct (Rle_dec (- d) (p - t)); [right; left; lra|left; lra].
  - right; left; lra.
  - destruct (Rle_dec (p - t) d); [right; left; lra|right; right; lra].
Qed.
Lemma huber_bounds t d p q : 0 < d ->
  0 <= huber_loss t q d - huber_loss t p d - huber_grad t d p * (q - p) <= 0.5 * (q - p) * (q - p).
Proof.
  intros Hd.
  assert (Ep : q - p = (q - t) - (p - t)) by ring. rewrite Ep. clear Ep.
  destruct (huber_cases t q d Hd) as [[H1 ->]|[[H1 ->]|[H1 ->]]];
  destruct (huber_cases t p d Hd) as [[H2 ->]|[[H2 ->]|[H2 ->]]];
  destruct (huber_grad_cases t p d Hd) as [[H3 ->]|[[H3 ->]|[H3 ->]]];
  try (replace (t - q) with (- (q - t)) by ring); try (replace (t - p) with (- (p - t)) by ring);
  try lra; generalize dependent (p - t); intros u; intros; generalize dependent (q - t); intros v; intros;
  try (split; nra);
  pose proof (Rle_0_sqr (v - d)); pose proof (Rle_0_sqr (v + d)); pose proof (Rle_0_sqr (v - u)); unfold Rsqr in *;
  try (assert (0 <= (u - d) * (u + d - 2 * v)) by (apply Rmult_le_pos; lra));
  try (assert (0 <= (- d - u) * (2 * v - (u - d))) by (apply Rmult_le_pos; lra)); try (split; nra).
Qed.

(** ** sparse_plus *)
Lemma sparse_plus_cases x :
  (x <= -1 /\ sparse_plus x = 0) \/ (-1 <= x <= 1 /\ sparse_plus x = (x + 1) * (x + 1) / 4) \/ (1 <= x /\ sparse_plus x = x).
Proof.
  unfold sparse_plus. destruct (Rle_dec x (-1)); [left; auto|]. destruct (Rle_dec 1 x); [right; right; auto|].
  right; left. split; [lra|]. simpl. field.
Qed.
Lemma sparse_sigmoid_cases x :
  (x <= -1 /\ sparse_sigmoid x = 0) \/ (-1 <= x <= 1 /\ sparse_sigmoid x = (x + 1) / 2) \/ (1 <= x /\ sparse_sigmoid x = 1).
Proof.
  unfold sparse_sigmoid. destruct (clip_cases (x + 1) 0 2 ltac:(lra)) as [[H ->]|[[H ->]|[H ->]]].
  - left; lra.
  - right; left; lra.
  - right; right; lra.
Qed.
Lemma sparse_plus_bounds p q :
  0 <= sparse_plus q - sparse_plus p - sparse_sigmoid p * (q - p) <= 0.25 * (q - p) * (q - p).
Proof.
  destruct (sparse_plus_cases q) as [[H1 ->]|[[H1 ->]|[H1 ->]]];
  destruct (sparse_plus_cases p) as [[H2 ->]|[[H2 ->]|[H2 ->]]];
  destruct (sparse_sigmoid_cases p) as [[H3 ->]|[[H3 ->]|[H3 ->]]];
  try lra;
  try (assert (p = -1) by lra; subst p; pose proof (Rle_0_sqr (q - 1)); pose proof (Rle_0_sqr (q + 1)); unfold Rsqr in *; split; nra);
  try (assert (p = 1) by lra; subst p; pose proof (Rle_0_sqr (q - 1)); pose proof (Rle_0_sqr (q + 1)); unfold Rsqr in *; split; nra);
  pose proof (Rle_0_sqr (q - 1)); pose proof (Rle_0_sqr (q + 1)); pose proof (Rle_0_sqr (q - p)); unfold Rsqr in *;
  try (assert (0 <= (p - 1) * (p + 1 - 2 * q)) by (apply Rmult_le_pos; lra));
  try (assert (0 <= (-1 - p) * (2 * q - p + 1)) by (apply Rmult_le_pos; lra)); split; nra.
Qed.

(** ** softplus *)
Lemma softplus_deriv x : derivable_pt_lim softplus x (sigmoid x).
Proof.
  unfold softplus.
  assert (Hp : 0 < 1 + exp x) by (pose proof (exp_pos x); lra).
  assert (H : derivable_pt_lim (comp ln (fun t => 1 + exp t)) x (/ (1 + exp x) * (0 + exp x))).
  { apply derivable_pt_lim_comp; [|apply derivable_pt_lim_ln; exact Hp].
    apply derivable_pt_lim_plus; [apply derivable_pt_lim_const|apply derivable_pt_lim_exp]. }
  unfold comp in H.
  replace (sigmoid x) with (/ (1 + exp x) * (0 + exp x)); [exact H|].
  unfold sigmoid. rewrite exp_Ropp. pose proof (exp_pos x). field. split; lra.
Qed.
Lemma exp_ge_tangent t m : exp m * (1 + (t - m)) <= exp t.
Proof.
  replace (exp t) with (exp m * exp (t - m)) by (rewrite <- exp_plus; f_equal; ring).
  apply Rmult_le_compat_l; [apply Rlt_le, exp_pos|].
  destruct (Req_dec (t - m) 0) as [E|E]; [rewrite E, exp_0; lra|]. apply Rlt_le, exp_ineq1. exact E.
Qed.
Lemma softplus_pos x : 0 < softplus x.
Proof. unfold softplus. rewrite <- ln_1. apply ln_increasing; pose proof (exp_pos x); lra. Qed.
Lemma softplus_subgrad p q : softplus p + sigmoid p * (q - p) <= softplus q.
Proof.
  unfold softplus. set (s := sigmoid p). pose proof (exp_pos p) as Hp. pose proof (exp_pos q) as Hq.
  assert (Es : s * (1 + exp p) = exp p) by (unfold s, sigmoid; rewrite exp_Ropp; field; split; lra).
  rewrite <- (ln_exp (s * (q - p))), <- ln_mult; [|lra|apply exp_pos].
  assert (Hle : (1 + exp p) * exp (s * (q - p)) <= 1 + exp q).
  { set (m := s * (q - p)).
    pose proof (exp_ge_tangent (q - p) m) as H1. pose proof (exp_ge_tangent 0 m) as H0. rewrite exp_0 in H0.
    replace (exp q) with (exp p * exp (q - p)) by (rewrite <- exp_plus; f_equal; ring).
    assert (H2 : exp p * (exp m * (1 + (q - p - m))) <= exp p * exp (q - p)) by (apply Rmult_le_compat_l; lra).
    assert (E : exp p * (exp m * (1 + (q - p - m))) + exp m * (1 + (0 - m)) = (1 + exp p) * exp m + exp m * (exp p * (q - p) - (1 + exp p) * m)) by ring.
    assert (E2 : (1 + exp p) * m = exp p * (q - p)) by (transitivity (s * (1 + exp p) * (q - p)); [unfold m; ring|rewrite Es; reflexivity]).
    rewrite E2 in E. lra. }
  destruct Hle as [Hlt|Heq]; [left; apply ln_increasing; [|exact Hlt]|right; f_equal; exact Heq].
  apply Rmult_lt_0_compat; [lra|apply exp_pos].
Qed.

(** ** set_nth, vmax, one_hot *)
Lemma set_nth_length {A} (l : list A) i v : length (set_nth l i v) = length l.
Proof. revert i; induction l as [|a l IH]; intros [|i]; simpl; try reflexivity. rewrite IH. reflexivity. Qed.
Lemma set_nth_id (l : vec) i v : nth i l 0 = v -> (i < length l)%nat -> set_nth l i v = l.
Proof. revert i; induction l as [|a l IH]; intros [|i] H Hi; simpl in *; try lia; subst; try reflexivity. f_equal. apply IH; [reflexivity|lia]. Qed.
Lemma centre_id scores label : (label < length scores)%nat ->
  set_nth (map (fun a => a - nth label scores 0) scores) label 0 = map (fun a => a - nth label scores 0) scores.
Proof.
  intros H. apply set_nth_id; [|rewrite map_length; exact H].
  rewrite (nth_map_lt _ _ label 0 0) by exact H. ring.
Qed.
Lemma vmax_in l : l <> [] -> In (vmax l) l.
Proof.
  destruct l as [|a l]; [congruence|]. intros _. simpl. induction l as [|b l IH]; simpl; [left; reflexivity|].
  destruct (Rle_dec b (fold_right Rmax a l)); [rewrite Rmax_right by assumption|rewrite Rmax_left by lra; right; left; reflexivity].
  destruct IH as [H|H]; [left; exact H|right; right; exact H].
Qed.
Lemma vmax_le l b : l <> [] -> (forall i, (i < length l)%nat -> nth i l 0 <= b) -> vmax l <= b.
Proof.
  intros Hne H. destruct (In_nth _ _ 0 (vmax_in l Hne)) as (i & Hi & <-). apply H. exact Hi.
Qed.
Lemma max_convex n (f : vec -> vec) (Hn : (0 < n)%nat) :
  (forall x, length x = n -> length (f x) = n) ->
  (forall x y t i, length x = n -> length y = n -> (i < n)%nat ->
     nth i (f (vadd (smul t x) (smul (1 - t) y))) 0 = t * nth i (f x) 0 + (1 - t) * nth i (f y) 0) ->
  vconvex n (fun s => vmax (f s)).
Proof.
  intros Hl Haff x y t Hx Hy Ht.
  assert (Hz : length (vadd (smul t x) (smul (1 - t) y)) = n) by (rewrite vadd_length, !smul_length; lia).
  apply vmax_le.
  - intros E. apply (f_equal (@length R)) in E. rewrite Hl in E by exact Hz. simpl in E. lia.
  - rewrite Hl by exact Hz. intros i Hi. rewrite Haff by assumption.
    pose proof (vmax_ge (f x) i ltac:(rewrite Hl; assumption)).
    pose proof (vmax_ge (f y) i ltac:(rewrite Hl; assumption)). nra.
Qed.
Lemma convex_plus_linear n f g : vconvex n f ->
  (forall x y t, length x = n -> length y = n -> g (vadd (smul t x) (smul (1 - t) y)) = t * g x + (1 - t) * g y) ->
  vconvex n (fun s => f s - g s).
Proof. intros H Hg x y t Hx Hy Ht. rewrite Hg by assumption. specialize (H x y t Hx Hy Ht). nra. Qed.

Lemma hinge_nth label s i : (i < length s)%nat ->
  nth i (vsub (map (fun a => a + 1) s) (one_hot label (length s))) 0 =
  nth i s 0 + 1 - (if Nat.eqb label i then 1 else 0).
Proof.
  intros Hi. rewrite nth_vsub, (nth_map_lt _ _ i 0 0) by exact Hi. rewrite nth_one_hot by exact Hi. reflexivity.
Qed.
Lemma hinge_len label s : length (vsub (map (fun a => a + 1) s) (one_hot label (length s))) = length s.
Proof. rewrite vsub_length, map_length, one_hot_length. lia. Qed.

(** ** logsumexp *)
Lemma sumexp_pos l : l <> [] -> 0 < vsum (map exp l).
Proof.
  destruct l as [|a l]; [congruence|]. intros _. simpl. pose proof (exp_pos a).
  assert (0 <= vsum (map exp l)).
  { apply vsum_nonneg. apply Forall_map, Forall_forall. intros; apply Rlt_le, exp_pos. }
  lra.
Qed.
Lemma lse_shift l m : l <> [] -> logsumexp (map (fun a => a - m) l) = logsumexp l - m.
Proof.
  intros Hne. unfold logsumexp.
  assert (E : vsum (map exp (map (fun a => a - m) l)) = vsum (map exp l) * exp (- m)).
  { clear. induction l as [|a l IH]; simpl; [ring|]. rewrite IH. unfold Rminus. rewrite exp_plus. ring. }
  rewrite E, ln_mult, ln_exp; [ring|apply sumexp_pos; exact Hne|apply exp_pos].
Qed.
Lemma lse_ge l i : (i < length l)%nat -> nth i l 0 <= logsumexp l.
Proof.
  intros Hi. unfold logsumexp. rewrite <- (ln_exp (nth i l 0)) at 1.
  assert (H : exp (nth i l 0) <= vsum (map exp l)).
  { revert i Hi. induction l as [|a l IH]; intros [|i] Hi; simpl in *; try lia.
    - assert (0 <= vsum (map exp l)) by (apply vsum_nonneg, Forall_map, Forall_forall; intros; apply Rlt_le, exp_pos). lra.
    - specialize (IH i ltac:(lia)). pose proof (exp_pos a). lra. }
  destruct H as [H|H]; [left; apply ln_increasing; [apply exp_pos|exact H]|right; f_equal; exact H].
Qed.
(** Weighted Jensen: for weights w >= 0 with sum 1, exp(<w,t>) <= <w, exp t>. *)
Lemma jensen_exp w t : Forall (Rle 0) w -> vsum w = 1 -> length w = length t ->
  exp (dot w t) <= dot w (map exp t).
Proof.
  intros Hw Hs Hl. set (m := dot w t).
  assert (G : forall w t, Forall (Rle 0) w -> length w = length t ->
    exp m * (vsum w + (dot w t - m * vsum w)) <= dot w (map exp t)).
  { clearbody m. clear. intros w. induction w as [|a w IH]; intros [|b t] Hw Hl; try discriminate; simpl; [lra|].
    inversion Hw as [|? ? Ha Hw']; subst. specialize (IH t Hw' ltac:(simpl in Hl; lia)).
    pose proof (exp_ge_tangent b m) as H.
    assert (a * (exp m * (1 + (b - m))) <= a * exp b) by (apply Rmult_le_compat_l; assumption). nra. }
  specialize (G w t Hw Hl). rewrite Hs in G. fold m in G. replace (1 + (m - m * 1)) with 1 in G by ring. lra.
Qed.
Lemma softmax_length s : length (softmax s) = length s.
Proof. apply map_length. Qed.
Lemma softmax_nonneg s : s <> [] -> Forall (Rle 0) (softmax s).
Proof.
  intros H. pose proof (sumexp_pos s H). apply Forall_map, Forall_forall. intros a _.
  apply Rdiv_nonneg; [apply Rlt_le, exp_pos|exact H0].
Qed.
Lemma vsum_map_div l d : vsum (map (fun a => exp a / d) l) = vsum (map exp l) / d.
Proof. induction l as [|a l IH]; simpl; [unfold Rdiv; ring|]. rewrite IH. unfold Rdiv. ring. Qed.
Lemma softmax_sum s : s <> [] -> vsum (softmax s) = 1.
Proof. intros H. unfold softmax. rewrite vsum_map_div. field. pose proof (sumexp_pos s H). lra. Qed.

Lemma lse_subgrad s q : s <> [] -> length q = length s ->
  logsumexp s + dot (softmax s) (vsub q s) <= logsumexp q.
Proof.
  intros Hs Hl.
  assert (Hq : q <> []) by (intros ->; destruct s; [congruence|discriminate]).
  pose proof (sumexp_pos s Hs) as Ps. pose proof (sumexp_pos q Hq) as Pq.
  unfold logsumexp. rewrite <- (ln_exp (dot _ _)), <- ln_mult; [|exact Ps|apply exp_pos].
  assert (H : vsum (map exp s) * exp (dot (softmax s) (vsub q s)) <= vsum (map exp q)).
  { pose proof (jensen_exp (softmax s) (vsub q s) (softmax_nonneg s Hs) (softmax_sum s Hs)) as J.
    rewrite softmax_length, vsub_length in J. specialize (J ltac:(lia)).
    apply Rmult_le_compat_l with (r := vsum (map exp s)) in J; [|lra].
    eapply Rle_trans; [exact J|]. right.
    unfold softmax. set (d := vsum (map exp s)) in *.
    assert (E : forall s q, length q = length s ->
      d * dot (map (fun a => exp a / d) s) (map exp (vsub q s)) = vsum (map exp q)).
    { clearbody d. clear -Ps. induction s as [|a s IH]; intros [|b q] Hl; try discriminate; simpl; [ring|].
      rewrite <- (IH q) by (simpl in Hl; lia). unfold Rminus. rewrite exp_plus, exp_Ropp.
      field. split; [apply Rgt_not_eq, exp_pos|lra]. }
    apply E. exact Hl. }
  destruct H as [H|H]; [left; apply ln_increasing; [|exact H]|right; f_equal; exact H].
  apply Rmult_lt_0_compat; [exact Ps|apply exp_pos].
Qed.

(** Gibbs: lse is the maximum of <s,y> - shannon(y) over the simplex. *)
Lemma gibbs_term a s L : 0 <= a -> a * s - xlogx a - a * L <= exp (s - L) - a.
Proof.
  intros Ha. unfold xlogx. destruct (Req_EM_T a 0) as [->|Hn].
  - pose proof (exp_pos (s - L)). lra.
  - assert (Hp : 0 < a) by lra. pose proof (exp_ge_tangent (s - L) (ln a)) as H. rewrite exp_ln in H by exact Hp. lra.
Qed.
Lemma gibbs_le s y : s <> [] -> simplex (length s) 1 y -> dot s y - shannon y <= logsumexp s.
Proof.
  intros Hs (Hl & H0 & Hsum). set (L := logsumexp s).
  assert (G : forall s y, length y = length s -> (forall i, (i < length s)%nat -> 0 <= nth i y 0) ->
    dot s y - shannon y - vsum y * L <= vsum (map (fun a => exp (a - L)) s) - vsum y).
  { clearbody L. clear. induction s as [|a s IH]; intros [|b y] Hl H; try discriminate; unfold shannon in *; simpl; [lra|].
    specialize (IH y ltac:(simpl in Hl; lia) ltac:(intros i Hi; apply (H (S i)); simpl; lia)).
    pose proof (gibbs_term b a L (H 0%nat ltac:(simpl; lia))). lra. }
  specialize (G s y Hl H0). rewrite Hsum in G.
  assert (E : vsum (map (fun a => exp (a - L)) s) = 1).
  { assert (E : forall s, vsum (map (fun a => exp (a - L)) s) = vsum (map exp s) * exp (- L)).
    { clearbody L. clear. induction s as [|a s IH]; simpl; [ring|]. rewrite IH. unfold Rminus. rewrite exp_plus. ring. }
    rewrite E. unfold L, logsumexp. rewrite exp_Ropp, exp_ln by (apply sumexp_pos; exact Hs).
    field. pose proof (sumexp_pos s Hs). lra. }
  rewrite E in G. lra.
Qed.
Lemma softmax_simplex s : s <> [] -> simplex (length s) 1 (softmax s).
Proof.
  intros Hs. split; [apply softmax_length|]. split; [|apply softmax_sum; exact Hs].
  intros i Hi. pose proof (softmax_nonneg s Hs) as H. rewrite Forall_forall in H. apply H, nth_In. rewrite softmax_length. exact Hi.
Qed.
Lemma gibbs_attained s : s <> [] -> logsumexp s = dot s (softmax s) - shannon (softmax s).
Proof.
  intros Hs. set (d := vsum (map exp s)). pose proof (sumexp_pos s Hs) as Hd. fold d in Hd.
  assert (G : forall l, dot l (map (fun a => exp a / d) l) - shannon (map (fun a => exp a / d) l) =
    vsum (map (fun a => exp a / d) l) * ln d).
  { clearbody d. clear -Hd. induction l as [|a l IH]; unfold shannon in *; simpl; [ring|].
    assert (E : xlogx (exp a / d) = exp a / d * (a - ln d)).
    { unfold xlogx. assert (0 < exp a / d) by (apply Rdiv_lt_0_compat; [apply exp_pos|exact Hd]).
      destruct (Req_EM_T (exp a / d) 0); [lra|]. unfold Rdiv at 2.
      rewrite ln_mult, ln_exp, ln_Rinv; [ring|exact Hd|apply exp_pos|apply Rinv_0_lt_compat; exact Hd]. }
    rewrite E. lra. }
  unfold softmax. fold d. rewrite G. rewrite vsum_map_div. unfold logsumexp. fold d. field. lra.
Qed.

(** ** Sparsemax *)
Lemma where_dot p s : length p = length s ->
  dot p (map3 (fun p s _ => if Req_EM_T p 0 then 0 else s) p s s) = dot p s.
Proof.
  revert s; induction p as [|a p IH]; intros [|b s] Hl; try discriminate; simpl; [reflexivity|].
  rewrite IH by (simpl in Hl; lia). destruct (Req_EM_T a 0); subst; ring.
Qed.
Lemma dot_centre p s m : length p = length s -> dot p (map (fun a => a - m) s) = dot p s - vsum p * m.
Proof.
  revert s; induction p as [|a p IH]; intros [|b s] Hl; try discriminate; simpl; [ring|].
  rewrite IH by (simpl in Hl; lia). ring.
Qed.
Lemma sparsemax_value label scores : (label < length scores)%nat ->
  multiclass_sparsemax_loss label scores = sparsemax_cumulant scores - nth label scores 0.
Proof.
  intros Hi. unfold multiclass_sparsemax_loss, sparsemax_cumulant.
  assert (Hne : scores <> []) by (intros ->; simpl in Hi; lia).
  destruct (C06_simplex scores 1 Hne ltac:(lra)) as ((Hl & _ & Hs) & _).
  rewrite centre_id by exact Hi. rewrite where_dot by (rewrite map_length; exact Hl).
  rewrite dot_centre by exact Hl. rewrite Hs. ring.
Qed.
Lemma sparsemax_max_fun n : (0 < n)%nat ->
  is_max_fun n (simplex n 1) gini sparsemax_cumulant (fun s => projection_simplex s 1).
Proof.
  intros Hn. split; [intros y [H _]; exact H|]. intros s Hs.
  assert (Hne : s <> []) by (intros ->; simpl in Hs; lia).
  destruct (C06_simplex s 1 Hne ltac:(lra)) as (Hp & Hmin & _). rewrite Hs in *.
  set (p := projection_simplex s 1) in *. destruct Hp as (Hl & H0 & Hsum).
  split; [split; auto|]. split.
  - unfold sparsemax_cumulant, gini. fold p. rewrite Hsum, (dot_comm s p). ring.
  - intros y Hy. specialize (Hmin y Hy). destruct Hy as (_ & _ & Hys).
    assert (Ed : forall y z, dist2 y z = dot y y - 2 * dot y z + dot z z) by (intros; vring).
    rewrite !Ed in Hmin. unfold gini, sparsemax_cumulant. fold p. rewrite Hys, (dot_comm p s). lra.
Qed.
Lemma lse_max_fun n : (0 < n)%nat -> is_max_fun n (simplex n 1) shannon logsumexp softmax.
Proof.
  intros Hn. split; [intros y [H _]; exact H|]. intros s Hs.
  assert (Hne : s <> []) by (intros ->; simpl in Hs; lia). rewrite <- Hs.
  split; [apply softmax_simplex; exact Hne|]. split; [apply gibbs_attained; exact Hne|].
  intros y Hy. apply gibbs_le; assumption.
Qed.
Lemma one_hot_simplex label n : (label < n)%nat -> simplex n 1 (one_hot label n).
Proof.
  intros H. split; [apply one_hot_length|]. split.
  - intros i Hi. rewrite nth_one_hot by exact Hi. destruct (Nat.eqb label i); lra.
  - rewrite vsum_dot, one_hot_length. rewrite <- (vones_length n) at 2.
    rewrite dot_one_hot by (rewrite vones_length; exact H). unfold vones. apply nth_repeat_lt. exact H.
Qed.
Lemma one_hot_sq label n : (label < n)%nat -> dot (one_hot label n) (one_hot label n) = 1.
Proof.
  intros H. pose proof (dot_one_hot (one_hot label n) label) as E. rewrite one_hot_length in E.
  rewrite E by exact H. rewrite nth_one_hot, Nat.eqb_refl by exact H. reflexivity.
Qed.
Lemma sparsemax_fy label scores : (label < length scores)%nat ->
  multiclass_sparsemax_loss label scores =
  make_fenchel_young_loss sparsemax_cumulant (one_hot label (length scores)) scores.
Proof.
  intros H. rewrite sparsemax_value by exact H. unfold make_fenchel_young_loss.
  rewrite dot_comm, dot_one_hot by exact H. reflexivity.
Qed.

(** ** Fenchel-Young *)
Lemma fy_subgrad n C Om F am : is_max_fun n C Om F am -> forall s q, length s = n -> length q = n ->
  F s + dot (am s) (vsub q s) <= F q.
Proof.
  intros [Hlen H] s q Hs Hq. destruct (H s Hs) as (Hc & E & _). destruct (H q Hq) as (_ & _ & Hq').
  specialize (Hq' _ Hc). rewrite E, dot_vsub_r, (dot_comm (am s) q), (dot_comm (am s) s). lra.
Qed.
Lemma fy_convex n C Om F am y : is_max_fun n C Om F am -> vconvex n (make_fenchel_young_loss F y).
Proof.
  intros H. unfold make_fenchel_young_loss. apply convex_plus_linear with (f := F) (g := fun s => dot y s).
  - apply vsubgrad_convex with (g := am). intros p q Hp Hq. exact (fy_subgrad n C Om F am H p q Hp Hq).
  - intros x z t Hx Hz. vring.
Qed.
