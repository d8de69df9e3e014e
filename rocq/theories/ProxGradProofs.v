From Coq Require Import Reals List Bool Lra Lia Arith.
From Verif Require Import Prelude Vec Loop Run Zoom ZoomProofs ProxGrad.
Import ListNotations.
Open Scope R_scope.

(** ** The line search *)
Section LS.
Variable cfg : pg_config.
Variable f : vec -> R.
Variable prox : vec -> R -> vec.

Lemma ls_iter x g s0 j :
  Nat.iter j (ls_body cfg prox x g) (prox_grad prox x g s0, s0) =
  (prox_grad prox x g (s0 * pg_decrease cfg ^ j), s0 * pg_decrease cfg ^ j).
Proof.
  induction j as [|j IH]; simpl; [rewrite Rmult_1_r; reflexivity|].
  rewrite IH. unfold ls_body. cbn [snd].
  replace (s0 * pg_decrease cfg ^ j * pg_decrease cfg) with (s0 * (pg_decrease cfg * pg_decrease cfg ^ j)) by ring.
  reflexivity.
Qed.

Definition ls_accepts x fx g s : Prop :=
  let z := prox_grad prox x g s in
  s * (f z - fx) <= s * dot g (vsub z x) + / 2 * dist2 z x + pg_eps cfg.

Lemma ls_cond_false x fx g s :
  ls_cond cfg f x fx g (prox_grad prox x g s, s) = false <-> ls_accepts x fx g s.
Proof.
  unfold ls_cond, ls_accepts, Rltb. cbv zeta. rewrite (dot_comm (vsub _ x) g). unfold dist2.
  destruct (Rlt_dec _ _); split; intros; try discriminate; auto; lra.
Qed.

Lemma fista_ls_spec x fx g s0 :
  exists k, (k <= pg_maxls cfg)%nat /\
    fista_line_search cfg f prox x fx g s0 = (prox_grad prox x g (s0 * pg_decrease cfg ^ k), s0 * pg_decrease cfg ^ k) /\
    (forall j, (j < k)%nat -> ~ ls_accepts x fx g (s0 * pg_decrease cfg ^ j)) /\
    (k = pg_maxls cfg \/ ls_accepts x fx g (s0 * pg_decrease cfg ^ k)).
Proof.
  destruct (python_for_spec (ls_cond cfg f x fx g) (ls_body cfg prox x g) (pg_maxls cfg) (prox_grad prox x g s0, s0))
    as (k & Hk & E & Hc & Hs).
  exists k. split; [exact Hk|]. split; [unfold fista_line_search; rewrite E; apply ls_iter|]. split.
  - intros j Hj Ha. specialize (Hc j Hj). rewrite ls_iter in Hc. apply ls_cond_false in Ha. congruence.
  - destruct Hs as [Hs|Hs]; [left; exact Hs|right]. rewrite ls_iter in Hs. apply ls_cond_false in Hs. exact Hs.
Qed.
End LS.

(** ** One proximal gradient step *)
Section Step.
Variable n : nat.
Variable D : vec -> Prop.
Variable f g : vec -> R.
Variable gradf : vec -> vec.
Variable prox : vec -> R -> vec.
Hypothesis Hgl : forall x, in_dim n x -> in_dim n (gradf x).
Hypothesis Hf : convex_grad n f gradf.
Hypothesis Hg : convex_on n D g.
Hypothesis Hp : prox_spec n D g prox.
Notation F := (objective f g).

Lemma prox_subgrad v s z : in_dim n v -> 0 < s -> D z ->
  g (prox v s) + dot (vsub v (prox v s)) (vsub z (prox v s)) / s <= g z.
Proof.
  intros Hv Hs Hz. destruct (Hp v s Hv Hs) as [HD Hmin]. set (p := prox v s) in *.
  destruct Hg as [Hdim Hconv].
  apply Rnot_lt_le. intros Hlt.
  set (gap := g p + dot (vsub v p) (vsub z p) / s - g z) in *. assert (Hgap : 0 < gap) by (unfold gap; lra).
  (* move from p towards z by a small a *)
  assert (Hd0 := dist2_nonneg z p).
  set (a := Rmin 1 (gap * s / (dist2 z p + 1))).
  assert (Ha0 : 0 < a).
  { unfold a. apply Rmin_glb_lt; [lra|]. apply Rdiv_lt_0_compat; nra. }
  assert (Ha1 : a <= 1) by apply Rmin_l.
  assert (Ha2 : a * (dist2 z p + 1) <= gap * s).
  { assert (a <= gap * s / (dist2 z p + 1)) by apply Rmin_r.
    apply Rmult_le_compat_r with (r := dist2 z p + 1) in H; [|lra].
    replace (gap * s / (dist2 z p + 1) * (dist2 z p + 1)) with (gap * s) in H by (field; lra). exact H. }
  destruct (Hconv p z a HD Hz ltac:(lra)) as [HDq Hgq].
  set (q := vadd (smul (1 - a) p) (smul a z)) in *.
  specialize (Hmin q HDq).
  assert (E : dist2 q v = dist2 p v - 2 * a * dot (vsub v p) (vsub z p) + a * a * dist2 z p)
    by (unfold q; vring).
  rewrite E in Hmin.
  assert (H1 : g p - g q <= (dist2 p v - 2 * a * dot (vsub v p) (vsub z p) + a * a * dist2 z p) / (2 * s) - dist2 p v / (2 * s)) by lra.
  assert (E2 : (dist2 p v - 2 * a * dot (vsub v p) (vsub z p) + a * a * dist2 z p) / (2 * s) - dist2 p v / (2 * s) =
     - a * (dot (vsub v p) (vsub z p) / s) + a * a * dist2 z p / (2 * s)) by (field; lra).
  rewrite E2 in H1.
  assert (H2 : a * gap <= a * a * dist2 z p / (2 * s)).
  { unfold gap. nra. }
  assert (H3 : a * gap * (2 * s) <= a * a * dist2 z p).
  { apply Rmult_le_compat_r with (r := 2 * s) in H2; [|lra].
    replace (a * a * dist2 z p / (2 * s) * (2 * s)) with (a * a * dist2 z p) in H2 by (field; lra). exact H2. }
  assert (H4 : a * gap * s <= 0).
  { assert (a * (a * (dist2 z p + 1)) <= a * (gap * s)) by (apply Rmult_le_compat_l; lra). nra. }
  assert (0 < a * gap * s) by (repeat apply Rmult_lt_0_compat; lra). lra.
Qed.

(** The quadratic upper bound at the step (with slack e) gives the three-point inequality. *)
Lemma prox_grad_ineq y s e z : in_dim n y -> 0 < s -> D z ->
  let p := prox_grad prox y (gradf y) s in
  s * (f p - f y) <= s * dot (gradf y) (vsub p y) + / 2 * dist2 p y + e ->
  2 * s * (F p - F z) <= dist2 y z - dist2 p z + 2 * e.
Proof.
  intros Hy Hs Hz p Hub. destruct Hg as [Hdim _].
  set (v := vadd y (smul (- s) (gradf y))).
  assert (Hv : in_dim n v).
  { unfold in_dim, v. rewrite vadd_length, smul_length, (Hgl y Hy), Hy. lia. }
  pose proof (prox_subgrad v s z Hv Hs Hz) as Hsub. change (prox v s) with p in Hsub.
  pose proof (Hf y z Hy (Hdim z Hz)) as Hc.
  assert (Hs1 : s * g p + dot (vsub v p) (vsub z p) <= s * g z).
  { apply Rmult_le_compat_l with (r := s) in Hsub; [|lra].
    rewrite Rmult_plus_distr_l in Hsub. replace (s * (dot (vsub v p) (vsub z p) / s)) with (dot (vsub v p) (vsub z p)) in Hsub by (field; lra). exact Hsub. }
  assert (Hc1 : s * f y + s * dot (gradf y) (vsub z y) <= s * f z) by nra.
  assert (E : dot (vsub v p) (vsub z p) =
     / 2 * (dist2 p y + dist2 p z - dist2 y z) - s * dot (gradf y) (vsub z y) + s * dot (gradf y) (vsub p y)).
  { unfold v. vexpand. dot_sym. field. }
  unfold objective. rewrite E in Hs1. lra.
Qed.

Lemma smooth_accepts L y s : smooth n f gradf L -> in_dim n y -> 0 < s -> s * L <= 1 ->
  let p := prox_grad prox y (gradf y) s in
  s * (f p - f y) <= s * dot (gradf y) (vsub p y) + / 2 * dist2 p y.
Proof.
  intros HL Hy Hs HsL p. destruct Hg as [Hdim _].
  assert (Hv : in_dim n (vadd y (smul (- s) (gradf y)))).
  { unfold in_dim. rewrite vadd_length, smul_length, (Hgl y Hy), Hy. lia. }
  destruct (Hp _ s Hv Hs) as [HD _]. fold (prox_grad prox y (gradf y) s) in HD. fold p in HD.
  pose proof (HL y p Hy (Hdim p HD)) as H. assert (Hd := dist2_nonneg p y). nra.
Qed.

Lemma prox_grad_dom y s : in_dim n y -> 0 < s -> D (prox_grad prox y (gradf y) s).
Proof.
  intros Hy Hs. unfold prox_grad. apply Hp; [|exact Hs].
  unfold in_dim. rewrite vadd_length, smul_length, (Hgl y Hy), Hy. lia.
Qed.

(** Fixed points are minimisers. *)
Lemma fixed_point_min x s : in_dim n x -> 0 < s ->
  prox_grad prox x (gradf x) s = x -> minimiser D f g x.
Proof.
  intros Hx Hs E. split; [rewrite <- E; apply prox_grad_dom; auto|].
  intros z Hz. pose proof (prox_grad_ineq x s 0 z Hx Hs Hz) as H. cbv zeta in H. rewrite E in H.
  assert (Hd : dist2 x x = 0) by apply dist2_self.
  assert (Hv : dot (gradf x) (vsub x x) = 0) by vring.
  rewrite Hd, Hv in H. specialize (H ltac:(lra)). nra.
Qed.
(** Minimisers are fixed points for every step (f differentiable along segments with
    the given gradient: the first-order condition). *)
Lemma min_fixed_point L x s : smooth n f gradf L -> 0 < L -> 0 < s -> minimiser D f g x ->
  prox_grad prox x (gradf x) s = x.
Proof.
  intros HL HL0 Hs [HDx Hmin]. destruct Hg as [Hdim Hconv].
  pose proof (Hdim x HDx) as Hx.
  set (p := prox_grad prox x (gradf x) s). pose proof (prox_grad_dom x s Hx Hs) as HDp. fold p in HDp.
  assert (Hv : in_dim n (vadd x (smul (- s) (gradf x)))).
  { unfold in_dim. rewrite vadd_length, smul_length, (Hgl x Hx), Hx. lia. }
  pose proof (prox_subgrad _ s x Hv Hs HDx) as Hsub. fold (prox_grad prox x (gradf x) s) in Hsub. fold p in Hsub.
  assert (E : dot (vsub (vadd x (smul (- s) (gradf x))) p) (vsub x p) = dist2 p x + s * dot (gradf x) (vsub p x)) by vring.
  rewrite E in Hsub.
  assert (Hs1 : s * g p + dist2 p x + s * dot (gradf x) (vsub p x) <= s * g x).
  { apply Rmult_le_compat_l with (r := s) in Hsub; [|lra]. rewrite Rmult_plus_distr_l in Hsub.
    replace (s * ((dist2 p x + s * dot (gradf x) (vsub p x)) / s)) with (dist2 p x + s * dot (gradf x) (vsub p x)) in Hsub by (field; lra). lra. }
  (* first-order optimality along the segment to p *)
  assert (Hd0 := dist2_nonneg p x).
  assert (Hfo : forall a, 0 < a <= 1 -> 0 <= dot (gradf x) (vsub p x) + g p - g x + a * (L / 2) * dist2 p x).
  { intros a Ha. destruct (Hconv x p a HDx HDp ltac:(lra)) as [HDq Hgq].
    set (q := vadd (smul (1 - a) x) (smul a p)) in *.
    pose proof (Hmin q HDq) as Hm. unfold objective in Hm.
    pose proof (HL x q Hx (Hdim q HDq)) as Hq.
    assert (E1 : dot (gradf x) (vsub q x) = a * dot (gradf x) (vsub p x)) by (unfold q; vring).
    assert (E2 : dist2 q x = a * a * dist2 p x) by (unfold q; vring).
    rewrite E1, E2 in Hq. nra. }
  assert (Hz : dist2 p x <= 0).
  { apply Rnot_lt_le. intros Hpos.
    set (a := Rmin 1 (/ (s * L))).
    assert (HsL : 0 < s * L) by nra.
    assert (Ha0 : 0 < a) by (unfold a; apply Rmin_glb_lt; [lra|apply Rinv_0_lt_compat; exact HsL]).
    assert (Ha1 : a <= 1) by apply Rmin_l.
    assert (Ha2 : a * (s * L) <= 1).
    { assert (a <= / (s * L)) by apply Rmin_r. apply Rmult_le_compat_r with (r := s * L) in H; [|lra].
      rewrite Rinv_l in H by lra. exact H. }
    specialize (Hfo a ltac:(lra)).
    assert (s * (a * (L / 2) * dist2 p x) <= / 2 * dist2 p x) by nra.
    nra. }
  apply dist2_le_0; [|exact Hz]. rewrite (Hdim p HDp), Hx. reflexivity.
Qed.
End Step.

(** ** Constant or callable steps *)
Section Conv.
Variable cfg : pg_config.
Variable n : nat.
Variable D : vec -> Prop.
Variable f g : vec -> R.
Variable gradf : vec -> vec.
Variable prox : vec -> R -> vec.
Hypothesis Hgl : forall x, in_dim n x -> in_dim n (gradf x).
Hypothesis Hf : convex_grad n f gradf.
Hypothesis Hg : convex_on n D g.
Hypothesis Hp : prox_spec n D g prox.
Notation F := (objective f g).
Variable x0 : vec.
Hypothesis Hx0 : in_dim n x0.
Notation upd := (pg_update cfg f gradf prox).
Notation st k := (Nat.iter k upd (x0, pg_init cfg x0)).
Notation X k := (pg_iterate cfg f gradf prox x0 k).

Lemma iter_num k : pg_iter (snd (st k)) = k.
Proof.
  induction k as [|k IH]; [reflexivity|]. simpl. destruct (st k) as [x s] eqn:E. cbn [snd] in IH.
  unfold pg_update. destruct (acceleration cfg); cbn [pg_update_accel pg_update_plain];
  destruct (pg_iter_step _ _ _ _ _ _ _ _); cbn [snd pg_iter]; lia.
Qed.

Lemma fixed_step i x fx gx s : 0 < step_at cfg i ->
  pg_iter_step cfg f prox i x fx gx s = (prox_grad prox x gx (step_at cfg i), step_at cfg i).
Proof.
  unfold pg_iter_step, step_at. intros H. destruct (pg_stepsize cfg); [|reflexivity].
  unfold Rleb. destruct (Rle_dec s0 0); [lra|reflexivity].
Qed.

Section Plain.
Hypothesis Hacc : acceleration cfg = false.

Lemma plain_step k : 0 < step_at cfg k ->
  X (S k) = prox_grad prox (X k) (gradf (X k)) (step_at cfg k) /\
  pg_error (snd (st (S k))) = Fin (norm2 (vsub (X (S k)) (X k)) / step_at cfg k).
Proof.
  intros Hs. unfold pg_iterate. simpl. pose proof (iter_num k) as Hi. destruct (st k) as [x s]. cbn [fst snd] in *.
  unfold pg_update. rewrite Hacc. unfold pg_update_plain. rewrite Hi, fixed_step by exact Hs. split; reflexivity.
Qed.

Lemma plain_dim k : (forall i, 0 < step_at cfg i) -> in_dim n (X k) /\ ((0 < k)%nat -> D (X k)).
Proof.
  intros Hs. destruct Hg as [Hdim _]. induction k as [|k [IH _]]; [split; [exact Hx0|lia]|].
  destruct (plain_step k (Hs k)) as [-> _]. split; [apply Hdim|intros _]; apply (prox_grad_dom n D g gradf prox); auto.
Qed.

Lemma three_point L z k : smooth n f gradf L -> short_steps cfg L -> D z ->
  2 * step_at cfg k * (F (X (S k)) - F z) <= dist2 (X k) z - dist2 (X (S k)) z.
Proof.
  intros HL Hs Hz. destruct (Hs k) as [H0 H1]. destruct (plain_step k H0) as [-> _].
  destruct (plain_dim k) as [Hk _]; [intros i; apply Hs|].
  pose proof (prox_grad_ineq n D f g gradf prox Hgl Hf Hg Hp (X k) (step_at cfg k) 0 z Hk H0 Hz) as H.
  cbv zeta in H. lapply H; [lra|]. rewrite Rplus_0_r.
  apply (smooth_accepts n D f g gradf prox Hgl Hg Hp L); assumption.
Qed.

Lemma plain_descent L k : smooth n f gradf L -> short_steps cfg L -> D (X k) ->
  F (X (S k)) <= F (X k) - dist2 (X (S k)) (X k) / (2 * step_at cfg k).
Proof.
  intros HL Hs Hk. pose proof (three_point L (X k) k HL Hs Hk) as H. rewrite dist2_self in H.
  destruct (Hs k) as [H0 _].
  apply Rmult_le_reg_l with (2 * step_at cfg k); [lra|].
  replace (2 * step_at cfg k * (F (X k) - dist2 (X (S k)) (X k) / (2 * step_at cfg k)))
    with (2 * step_at cfg k * F (X k) - dist2 (X (S k)) (X k)) by (field; lra). lra.
Qed.

Lemma plain_fejer L xs k : smooth n f gradf L -> short_steps cfg L -> minimiser D f g xs ->
  dist2 (X (S k)) xs <= dist2 (X k) xs.
Proof.
  intros HL Hs [HD Hm]. pose proof (three_point L xs k HL Hs HD) as H.
  destruct (Hs k) as [H0 _]. assert (Hx : D (X (S k))) by (apply plain_dim; [intros i; apply Hs|lia]).
  specialize (Hm _ Hx). nra.
Qed.
Lemma plain_fejer0 L xs k : smooth n f gradf L -> short_steps cfg L -> minimiser D f g xs ->
  dist2 (X k) xs <= dist2 x0 xs.
Proof.
  intros HL Hs Hm. induction k as [|k IH]; [apply Rle_refl|].
  eapply Rle_trans; [apply (plain_fejer L); assumption|exact IH].
Qed.

Lemma step_sum_nonneg k : (forall i, 0 < step_at cfg i) -> 0 <= step_sum cfg k.
Proof. intros H. induction k as [|k IH]; simpl; [lra|]. specialize (H k). lra. Qed.

Lemma plain_rate L z k : smooth n f gradf L -> short_steps cfg L -> D z -> (0 < k)%nat ->
  2 * step_sum cfg k * (F (X k) - F z) <= dist2 x0 z - dist2 (X k) z.
Proof.
  intros HL Hs Hz Hk. destruct k as [|k]; [lia|clear Hk].
  induction k as [|k IH].
  - simpl step_sum. rewrite Rplus_0_l. exact (three_point L z 0 HL Hs Hz).
  - pose proof (three_point L z (S k) HL Hs Hz) as H.
    assert (Hx : D (X (S k))) by (apply plain_dim; [intros i; apply Hs|lia]).
    pose proof (plain_descent L (S k) HL Hs Hx) as Hd.
    pose proof (dist2_nonneg (X (S (S k))) (X (S k))) as Hn.
    destruct (Hs (S k)) as [H0 _].
    assert (Hq : 0 <= dist2 (X (S (S k))) (X (S k)) / (2 * step_at cfg (S k)))
      by (apply Rmult_le_pos; [exact Hn|left; apply Rinv_0_lt_compat; lra]).
    pose proof (step_sum_nonneg (S k) (fun i => proj1 (Hs i))) as Hss.
    change (step_sum cfg (S (S k))) with (step_sum cfg (S k) + step_at cfg (S k)).
    assert (step_sum cfg (S k) * (F (X (S (S k))) - F z) <= step_sum cfg (S k) * (F (X (S k)) - F z))
      by (apply Rmult_le_compat_l; [exact Hss|lra]).
    lra.
Qed.

(** A small reported error certifies a small gap. *)
Lemma plain_error_gap L xs k tol : smooth n f gradf L -> short_steps cfg L -> minimiser D f g xs ->
  norm2 (vsub (X (S k)) (X k)) / step_at cfg k <= tol ->
  F (X (S k)) - F xs <= tol * norm2 (vsub x0 xs).
Proof.
  intros HL Hs Hm Ht. pose proof Hm as [HD _]. pose proof (three_point L xs k HL Hs HD) as H.
  destruct (Hs k) as [H0 _].
  assert (Hd : norm2 (vsub (X (S k)) (X k)) <= tol * step_at cfg k).
  { apply Rmult_le_compat_r with (r := step_at cfg k) in Ht; [|lra].
    replace (norm2 (vsub (X (S k)) (X k)) / step_at cfg k * step_at cfg k) with (norm2 (vsub (X (S k)) (X k))) in Ht by (field; lra). exact Ht. }
  assert (E : dist2 (X k) xs - dist2 (X (S k)) xs =
     - (2 * dot (vsub (X (S k)) (X k)) (vsub (X k) xs)) - dist2 (X (S k)) (X k)) by vring.
  rewrite E in H.
  pose proof (dist2_nonneg (X (S k)) (X k)) as Hn.
  pose proof (dot_abs_le_norm (vsub (X (S k)) (X k)) (vsub (X k) xs)) as Hcs.
  pose proof (plain_fejer0 L xs k HL Hs Hm) as Hfj.
  assert (Hnn : norm2 (vsub (X k) xs) <= norm2 (vsub x0 xs)) by (apply sqrt_le_1_alt; exact Hfj).
  pose proof (norm2_nonneg (vsub (X (S k)) (X k))) as Hn1. pose proof (norm2_nonneg (vsub (X k) xs)) as Hn2.
  pose proof (Rle_abs (- dot (vsub (X (S k)) (X k)) (vsub (X k) xs))) as Ha. rewrite Rabs_Ropp in Ha.
  assert (Hb : norm2 (vsub (X (S k)) (X k)) * norm2 (vsub (X k) xs) <= (tol * step_at cfg k) * norm2 (vsub x0 xs))
    by (apply Rmult_le_compat; assumption).
  apply Rmult_le_reg_l with (2 * step_at cfg k); [lra|].
  nra.
Qed.
End Plain.

(** Acceleration *)
Section Accel.
Hypothesis Hacc : acceleration cfg = true.

Definition next_t (t : R) : R := / 2 * (1 + sqrt (1 + 4 * t ^ 2)).
Lemma next_t_sq t : next_t t * next_t t - next_t t = t * t.
Proof.
  unfold next_t. assert (H : sqrt (1 + 4 * t ^ 2) * sqrt (1 + 4 * t ^ 2) = 1 + 4 * t ^ 2) by (apply sqrt_sqrt; nra).
  set (r := sqrt _) in *. nra.
Qed.
Lemma next_t_ge t : 0 <= t -> t + / 2 <= next_t t.
Proof.
  intros Ht. unfold next_t. assert (2 * t <= sqrt (1 + 4 * t ^ 2)); [|lra].
  apply Rsqr_incr_0; [|lra|apply sqrt_pos]. unfold Rsqr. rewrite sqrt_sqrt by nra. nra.
Qed.

Lemma accel_step k : 0 < step_at cfg k -> forall x s y, st k = (x, s) -> pg_velocity s = Some y ->
  let p := prox_grad prox y (gradf y) (step_at cfg k) in
  exists s', st (S k) = (p, s') /\ pg_t s' = next_t (pg_t s) /\
    pg_velocity s' = Some (vadd p (smul ((pg_t s - 1) / next_t (pg_t s)) (vsub p x))) /\
    pg_error s' = Fin (norm2 (vsub p x) / step_at cfg k).
Proof.
  intros Hs x s y E Hv p. simpl. pose proof (iter_num k) as Hi. rewrite E in *. cbn [fst snd] in Hi.
  unfold pg_update. rewrite Hacc. unfold pg_update_accel. rewrite Hv, Hi, fixed_step by exact Hs.
  eexists. split; [reflexivity|]. repeat split.
Qed.

Definition accel_inv L xs k (x : vec) (s : pg_state) : Prop :=
  exists y u, pg_velocity s = Some y /\ length x = n /\ length y = n /\ length u = n /\
   (pg_t s = 1 \/ D x) /\ ((0 < k)%nat -> D x /\ (INR k + 1) ^ 2 / 4 <= pg_t s * pg_t s - pg_t s) /\ INR k + 2 <= 2 * pg_t s /\
   (forall w, pg_t s * dot y w = (pg_t s - 1) * dot x w + dot u w) /\
   (forall sg, 0 <= sg -> (k = 0%nat \/ sg <= step_at cfg (k - 1)) ->
     2 * sg * (pg_t s * pg_t s - pg_t s) * (F x - F xs) + dist2 u xs <= dist2 x0 xs) /\ smooth n f gradf L.

Lemma accel_inv_holds L xs k : smooth n f gradf L -> short_steps cfg L ->
  (forall i, step_at cfg (S i) <= step_at cfg i) -> minimiser D f g xs ->
  accel_inv L xs k (fst (st k)) (snd (st k)).
Proof.
  intros HL Hs Hdec Hm. destruct Hm as [HDs Hmin]. pose proof Hg as [Hdim _].
  induction k as [|k IH].
  - exists x0, x0. cbn. rewrite Hacc. repeat split; auto; try lra; try lia.
    + intros w. ring.
    + intros sg H0 _. pose proof (Rle_refl (dist2 x0 xs)). lra.
  - destruct (st k) as [x s] eqn:E. cbn [fst snd] in IH.
    destruct IH as (y & u & Hv & Hlx & Hly & Hlu & Ht1 & HDx & Hk & Hu & Hlyap & _).
    destruct (Hs k) as [Hs0 HsL].
    destruct (accel_step k Hs0 x s y E Hv) as (s' & Es & Et & Ev & _).
    set (p := prox_grad prox y (gradf y) (step_at cfg k)) in *.
    assert (HDp : D p) by (apply (prox_grad_dom n D g gradf prox); auto).
    pose proof (Hdim p HDp) as Hlp. unfold in_dim in Hlp.
    rewrite Es. cbn [fst snd].
    set (t := pg_t s) in *. pose proof (pos_INR k) as Hk0. assert (Ht : 1 <= t) by lra.
    pose proof (next_t_sq t) as Hsq. pose proof (next_t_ge t ltac:(lra)) as Hge. set (T := next_t t) in *.
    exists (vadd p (smul ((t - 1) / T) (vsub p x))), (vsub (smul t p) (smul (t - 1) x)).
    repeat split.
    + rewrite Ev. reflexivity.
    + exact Hlp.
    + rewrite vadd_length, smul_length, vsub_length. lia.
    + rewrite vsub_length, !smul_length. lia.
    + right. exact HDp.
    + exact HDp.
    + rewrite S_INR, Et, Hsq. nra.
    + rewrite S_INR, Et. lra.
    + intros w. rewrite Et. fold T. vexpand. field. lra.
    + intros sg Hsg0 Hsg. rewrite Et. rewrite Hsq.
      assert (Hsgk : sg <= step_at cfg k).
      { destruct Hsg as [Hsg|Hsg]; [lia|]. replace (S k - 1)%nat with k in Hsg by lia. exact Hsg. }
      assert (Hub := smooth_accepts n D f g gradf prox Hgl Hg Hp L y (step_at cfg k) HL Hly Hs0 HsL).
      cbv zeta in Hub. fold p in Hub.
      assert (H3 : forall z, D z -> 2 * step_at cfg k * (F p - F z) <= dist2 y z - dist2 p z).
      { intros z Hz. pose proof (prox_grad_ineq n D f g gradf prox Hgl Hf Hg Hp y (step_at cfg k) 0 z Hly Hs0 Hz) as H.
        cbv zeta in H. fold p in H. lapply H; lra. }
      assert (Hmain : 2 * step_at cfg k * (t * t * (F p - F xs)) + dist2 (vsub (smul t p) (smul (t - 1) x)) xs
                <= 2 * step_at cfg k * ((t * t - t) * (F x - F xs)) + dist2 u xs).
      { pose proof (H3 xs HDs) as Hb.
        assert (Ha : (t - 1) * (2 * step_at cfg k * (F p - F x)) <= (t - 1) * (dist2 y x - dist2 p x)).
        { destruct Ht1 as [Ht1|Ht1]; [rewrite Ht1; lra|]. apply Rmult_le_compat_l; [lra|]. apply H3, Ht1. }
        assert (Ha' : t * ((t - 1) * (2 * step_at cfg k * (F p - F x))) <= t * ((t - 1) * (dist2 y x - dist2 p x)))
          by (apply Rmult_le_compat_l; lra).
        assert (Hb' : t * (2 * step_at cfg k * (F p - F xs)) <= t * (dist2 y xs - dist2 p xs))
          by (apply Rmult_le_compat_l; lra).
        assert (Eu : dist2 u xs = t * (t - 1) * dist2 y x + t * dist2 y xs - (t - 1) * dist2 x xs).
        { assert (Eu1 : dot u u = t * t * dot y y - 2 * t * (t - 1) * dot y x + (t - 1) * (t - 1) * dot x x).
          { pose proof (Hu u) as A. pose proof (Hu y) as B. pose proof (Hu x) as C.
            rewrite (dot_comm u y) in B. rewrite (dot_comm u x) in C. rewrite (dot_comm x y) in B. nra. }
          pose proof (Hu xs) as A. assert (Eu2 : dot u xs = t * dot y xs - (t - 1) * dot x xs) by lra.
          unfold dist2, sqnorm. vexpand. rewrite (dot_comm xs u), (dot_comm xs y), (dot_comm xs x), (dot_comm x y). rewrite Eu1, Eu2. ring. }
        assert (Ep : dist2 (vsub (smul t p) (smul (t - 1) x)) xs =
           t * (t - 1) * dist2 p x + t * dist2 p xs - (t - 1) * dist2 x xs) by vring.
        rewrite Eu, Ep. lra. }
      assert (Hlast : 2 * step_at cfg k * ((t * t - t) * (F x - F xs)) + dist2 u xs <= dist2 x0 xs).
      { destruct k as [|k].
        - specialize (Hlyap (step_at cfg 0) ltac:(lra) (or_introl eq_refl)). lra.
        - specialize (Hlyap (step_at cfg (S k)) ltac:(lra)). replace (S k - 1)%nat with k in Hlyap by lia.
          specialize (Hlyap (or_intror (Hdec k))). lra. }
      pose proof (Hmin p HDp) as Hpos.
      assert (Hmono : sg * (t * t * (F p - F xs)) <= step_at cfg k * (t * t * (F p - F xs))).
      { apply Rmult_le_compat_r; [|exact Hsgk]. apply Rmult_le_pos; [nra|lra]. }
      lra.
    + exact HL.
Qed.

Lemma accel_rate L xs k : smooth n f gradf L -> short_steps cfg L ->
  (forall i, step_at cfg (S i) <= step_at cfg i) -> minimiser D f g xs -> (0 < k)%nat ->
  step_at cfg (k - 1) * (INR k + 1) ^ 2 * (F (X k) - F xs) <= 2 * dist2 x0 xs.
Proof.
  intros HL Hs Hdec Hm Hk. pose proof (accel_inv_holds L xs k HL Hs Hdec Hm) as (y & u & _ & _ & _ & _ & _ & HD & Ht & _ & H & _).
  destruct (Hs (k - 1)%nat) as [H0 _].
  specialize (H (step_at cfg (k - 1)) ltac:(lra) (or_intror (Rle_refl _))).
  unfold pg_iterate. destruct (st k) as [x s]. cbn [fst snd] in *.
  destruct Hm as [_ Hmin]. destruct (HD Hk) as [HDx Hq]. specialize (Hmin x HDx). pose proof (dist2_nonneg u xs) as Hn.
  pose proof (pos_INR k) as Hi.
  assert (Hm2 : (INR k + 1) ^ 2 / 4 * (F x - F xs) <= (pg_t s * pg_t s - pg_t s) * (F x - F xs))
    by (apply Rmult_le_compat_r; lra).
  assert (Hm3 : step_at cfg (k - 1) * ((INR k + 1) ^ 2 / 4 * (F x - F xs)) <= step_at cfg (k - 1) * ((pg_t s * pg_t s - pg_t s) * (F x - F xs)))
    by (apply Rmult_le_compat_l; lra).
  lra.
Qed.
End Accel.
End Conv.

(** ** With the line search, not accelerated *)
Section ConvLS.
Variable cfg : pg_config.
Variable n : nat.
Variable D : vec -> Prop.
Variable f g : vec -> R.
Variable gradf : vec -> vec.
Variable prox : vec -> R -> vec.
Hypothesis Hgl : forall x, in_dim n x -> in_dim n (gradf x).
Hypothesis Hf : convex_grad n f gradf.
Hypothesis Hg : convex_on n D g.
Hypothesis Hp : prox_spec n D g prox.
Notation F := (objective f g).
Variable x0 : vec.
Hypothesis Hx0 : in_dim n x0.
Notation upd := (pg_update cfg f gradf prox).
Notation st k := (Nat.iter k upd (x0, pg_init cfg x0)).
Notation X k := (pg_iterate cfg f gradf prox x0 k).
Notation sg k := (pg_step (snd (st k))).
Notation df := (pg_decrease cfg).
Hypothesis Hacc : acceleration cfg = false.
Hypothesis Hls : uses_line_search cfg.
Hypothesis Hdf : 0 < df < 1.
Hypothesis Heps : 0 <= pg_eps cfg.

Lemma ls_step k : exists j, (j <= pg_maxls cfg)%nat /\
  let s := sg k * df ^ j in
  X (S k) = prox_grad prox (X k) (gradf (X k)) s /\
  sg (S k) = (if Rleb s (/ 1000000) then 1 else s / df) /\
  pg_error (snd (st (S k))) = Fin (norm2 (vsub (X (S k)) (X k)) / sg (S k)) /\
  (forall i, (i < j)%nat -> ~ ls_accepts cfg f prox (X k) (f (X k)) (gradf (X k)) (sg k * df ^ i)) /\
  (j = pg_maxls cfg \/ ls_accepts cfg f prox (X k) (f (X k)) (gradf (X k)) s).
Proof.
  unfold pg_iterate. simpl Nat.iter. destruct (st k) as [x s] eqn:E. cbn [fst snd].
  destruct (fista_ls_spec cfg f prox x (f x) (gradf x) (pg_step s)) as (j & Hj & Er & Hi & Hs).
  exists j. split; [exact Hj|]. cbv zeta.
  unfold pg_update. rewrite Hacc. unfold pg_update_plain, pg_iter_step.
  destruct Hls as (s0 & -> & Hs0). assert (Hb : Rleb s0 0 = true) by (unfold Rleb; destruct (Rle_dec s0 0); [reflexivity|lra]). rewrite Hb.
  rewrite Er. cbn [fst snd pg_step pg_error]. split; [reflexivity|]. split; [reflexivity|]. split; [reflexivity|]. split; assumption.
Qed.

Section Smooth.
Variable L : R.
Hypothesis HL0 : 0 < L.
Hypothesis HL : smooth n f gradf L.
Notation m := (Rmin 1 (df / L)).

Lemma df_pow_pos j : 0 < df ^ j.
Proof. apply pow_lt. lra. Qed.
Lemma df_pow_le1 j : df ^ j <= 1.
Proof. induction j; simpl; [lra|]. pose proof (df_pow_pos j). nra. Qed.
Lemma idf_pow_ge1 j : 1 <= (/ df) ^ j.
Proof. apply pow_R1_Rle. assert (/ 1 <= / df); [apply Rinv_le_contravar; lra|]. rewrite Rinv_1 in H. lra. Qed.
Lemma m_pos : 0 < m.
Proof. apply Rmin_glb_lt; [lra|]. apply Rdiv_lt_0_compat; lra. Qed.

Lemma accepts_short x s : in_dim n x -> 0 < s -> s * L <= 1 -> ls_accepts cfg f prox x (f x) (gradf x) s.
Proof.
  intros Hx Hs HsL. unfold ls_accepts. cbv zeta.
  pose proof (smooth_accepts n D f g gradf prox Hgl Hg Hp L x s HL Hx Hs HsL) as H. cbv zeta in H. lra.
Qed.

Lemma ls_state k : (/ df) ^ k * df ^ pg_maxls cfg * L <= 1 ->
  in_dim n (X k) /\ m <= sg k <= (/ df) ^ k /\
  (forall K, (/ df) ^ K * df ^ pg_maxls cfg * L <= 1 -> (k <= K)%nat -> exists s, m <= s /\ D (X (S k)) /\
     X (S k) = prox_grad prox (X k) (gradf (X k)) s /\
     sg (S k) = (if Rleb s (/ 1000000) then 1 else s / df) /\ s <= sg k /\
     ls_accepts cfg f prox (X k) (f (X k)) (gradf (X k)) s).
Proof.
  pose proof m_pos as Hm. pose proof Hg as [Hdim _].
  assert (Hstep : forall k, in_dim n (X k) -> m <= sg k <= (/ df) ^ k ->
    (/ df) ^ k * df ^ pg_maxls cfg * L <= 1 ->
    exists s, m <= s /\ D (X (S k)) /\
     X (S k) = prox_grad prox (X k) (gradf (X k)) s /\
     sg (S k) = (if Rleb s (/ 1000000) then 1 else s / df) /\ s <= sg k /\
     ls_accepts cfg f prox (X k) (f (X k)) (gradf (X k)) s).
  { clear k. intros k Hx [Hs1 Hs2] HK. destruct (ls_step k) as (j & Hj & Ex & Es & _ & Hbad & Hok).
    set (s := sg k * df ^ j) in *. pose proof (df_pow_pos j) as Hj0. pose proof (df_pow_le1 j) as Hj1.
    assert (Hms : m <= s).
    { destruct j as [|j]; [unfold s; simpl; lra|].
      assert (Hna := Hbad j ltac:(lia)). pose proof (df_pow_pos j) as Hjj.
      assert (1 < sg k * df ^ j * L).
      { apply Rnot_le_lt. intros Hle. apply Hna. apply accepts_short; [exact Hx|apply Rmult_lt_0_compat; lra|exact Hle]. }
      eapply Rle_trans; [apply Rmin_r|]. unfold s. simpl. apply Rmult_le_reg_r with L; [exact HL0|].
      replace (df / L * L) with df by (field; lra). nra. }
    exists s. repeat split; [exact Hms| |exact Ex|exact Es| |].
    - rewrite Ex. apply (prox_grad_dom n D g gradf prox Hgl Hp); [exact Hx|lra].
    - unfold s. assert (0 < sg k) by lra. nra.
    - destruct Hok as [->|Hok]; [|exact Hok]. apply accepts_short; [exact Hx|lra|].
      apply Rle_trans with ((/ df) ^ k * df ^ pg_maxls cfg * L); [|exact HK].
      apply Rmult_le_compat_r; [lra|]. apply Rmult_le_compat_r; lra. }
  assert (Hmon : forall a b, (a <= b)%nat -> (/ df) ^ b * df ^ pg_maxls cfg * L <= 1 -> (/ df) ^ a * df ^ pg_maxls cfg * L <= 1).
  { intros a b Hab H. eapply Rle_trans; [|exact H]. apply Rmult_le_compat_r; [lra|].
    apply Rmult_le_compat_r; [left; apply df_pow_pos|]. replace b with (a + (b - a))%nat by lia.
    rewrite pow_add. pose proof (idf_pow_ge1 a). pose proof (idf_pow_ge1 (b - a)). nra. }
  assert (Hmain : forall k, (/ df) ^ k * df ^ pg_maxls cfg * L <= 1 -> in_dim n (X k) /\ m <= sg k <= (/ df) ^ k).
  { clear k. induction k as [|k IH]; intros HK.
    - split; [exact Hx0|]. simpl. split; [apply Rmin_l|lra].
    - destruct IH as [Hx Hs]; [apply (Hmon k (S k)); [lia|exact HK]|].
      destruct (Hstep k Hx Hs ltac:(apply (Hmon k (S k)); [lia|exact HK])) as (s & Hms & HD & Ex & Es & Hle & _).
      split; [apply Hdim, HD|]. rewrite Es. pose proof (idf_pow_ge1 (S k)) as H1.
      assert (Hidf : 1 <= / df) by (rewrite <- (pow_1 (/ df)); apply idf_pow_ge1).
      unfold Rleb. destruct (Rle_dec s _); [split; [apply Rmin_l|exact H1]|].
      unfold Rdiv. split; [nra|]. simpl. rewrite Rmult_comm. apply Rmult_le_compat_l; lra. }
  intros HK. destruct (Hmain k HK) as [Hx Hs]. split; [exact Hx|]. split; [exact Hs|].
  intros K _ _. apply Hstep; assumption.
Qed.

Lemma ls_used k : (/ df) ^ k * df ^ pg_maxls cfg * L <= 1 ->
  exists s, m <= s /\ D (X (S k)) /\ in_dim n (X k) /\
     X (S k) = prox_grad prox (X k) (gradf (X k)) s /\
     ls_accepts cfg f prox (X k) (f (X k)) (gradf (X k)) s.
Proof.
  intros HK. destruct (ls_state k HK) as (Hx & _ & H). destruct (H k HK (le_n k)) as (s & A & B & C & _ & _ & E).
  exists s. auto.
Qed.

Lemma ls_sum xs k : minimiser D f g xs -> (/ df) ^ k * df ^ pg_maxls cfg * L <= 1 ->
  (forall i, (1 <= i <= k)%nat -> dist2 x0 xs / (2 * m * INR k) + pg_eps cfg / m < F (X i) - F xs) -> k = 0%nat.
Proof.
  intros [HD Hmin] HK Hall. destruct (Nat.eq_dec k 0) as [|Hk0]; [assumption|exfalso].
  pose proof m_pos as Hm.
  set (B := dist2 x0 xs / (2 * m * INR k) + pg_eps cfg / m) in *.
  assert (Hk : 0 < INR k) by (apply lt_0_INR; lia).
  assert (Hmon : forall a, (a < k)%nat -> (/ df) ^ a * df ^ pg_maxls cfg * L <= 1).
  { intros a Hab. eapply Rle_trans; [|exact HK]. apply Rmult_le_compat_r; [lra|].
    apply Rmult_le_compat_r; [left; apply df_pow_pos|]. replace k with (a + (k - a))%nat by lia.
    rewrite pow_add. pose proof (idf_pow_ge1 a). pose proof (idf_pow_ge1 (k - a)). nra. }
  assert (Hind : forall i, (i <= k)%nat -> INR i * (2 * (m * B - pg_eps cfg)) <= dist2 x0 xs - dist2 (X i) xs /\
     ((0 < i)%nat -> INR i * (2 * (m * B - pg_eps cfg)) < dist2 x0 xs - dist2 (X i) xs)).
  { induction i as [|i IH]; intros Hi; [simpl; change (X 0) with x0; split; [lra|lia]|].
    destruct IH as [IH _]; [lia|]. destruct (ls_used i (Hmon i ltac:(lia))) as (s & Hms & HDx & Hx & Ex & Hacc').
    pose proof (prox_grad_ineq n D f g gradf prox Hgl Hf Hg Hp (X i) s (pg_eps cfg) xs Hx ltac:(lra) HD) as H.
    cbv zeta in H. unfold ls_accepts in Hacc'. cbv zeta in Hacc'. rewrite <- Ex in *. specialize (H Hacc').
    assert (HB := Hall (S i) ltac:(lia)). pose proof (Hmin _ HDx) as Hpos.
    assert (HmB : m * B < s * (F (X (S i)) - F xs)).
    { apply Rlt_le_trans with (m * (F (X (S i)) - F xs)); [apply Rmult_lt_compat_l; assumption|].
      apply Rmult_le_compat_r; lra. }
    rewrite S_INR. split; [|intros _]; lra. }
  destruct (Hind k (le_n k)) as [_ Hlt]. specialize (Hlt ltac:(lia)).
  pose proof (dist2_nonneg (X k) xs) as Hn.
  assert (E : INR k * (2 * (m * B - pg_eps cfg)) = dist2 x0 xs) by (unfold B; field; split; lra).
  lra.
Qed.
End Smooth.
End ConvLS.
