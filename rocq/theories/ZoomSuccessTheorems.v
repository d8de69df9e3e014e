(** C75: the zoom line search succeeds on smooth functions. *)
From Coq Require Import Reals List Bool Lra Lia Arith.
From Verif Require Import Prelude Vec Loop Run Backtracking BacktrackingProofs Zoom ZoomProofs ZoomTheorems ConvergenceRuns Convergence ZoomSuccess ZoomSuccessProofs.
Import ListNotations.
Open Scope R_scope.

(** Along a descent direction on which the objective is smooth with constant L: let B bound the steps,
    J the doublings needed to exceed B and Z the zoom iterations needed to shrink B below the bracket
    floor.  If maxiter is at least J + Z + 2 and interval_threshold is at most the floor, the search
    succeeds: done, not failed, and the step satisfies the conditions of C20_zoom; if B is below
    max_stepsize it satisfies the strong Wolfe conditions. Needs c2 >= 1 - 2 c1 or convexity. *)
Theorem C75_succeeds : forall (G : Type) cfg f gradf vdot x d phi dphi L B s0 (g : G) given J Z,
  zoom_ok cfg -> 1 < increase_factor cfg -> wolfe_constants cfg -> 0 < s0 -> 0 < L ->
  along_line cfg f gradf vdot x d phi dphi -> smooth_line (zmax cfg) L phi dphi -> dphi 0 < 0 ->
  (1 - 2 * zc1 cfg <= zc2 cfg \/ convex_line (zmax cfg) dphi) -> step_bound cfg phi dphi s0 B ->
  B <= s0 * increase_factor cfg ^ J -> B * zoom_factor cfg ^ Z <= bracket_floor cfg L (dphi 0) ->
  interval_threshold cfg <= bracket_floor cfg L (dphi 0) -> (J + Z + 2 <= zmaxiter cfg)%nat ->
  let '(s, st) := zoom_run cfg f gradf vdot given s0 x (phi 0) g (dphi 0) d in
  z_done st = true /\ z_failed st = false /\ 0 < s <= zmax cfg /\ s <= B /\
  (strong_wolfe cfg phi dphi s (ztol cfg) \/
   (s = zmax cfg /\ decrease_ok cfg f gradf vdot x d (phi 0) (dphi 0) s (ztol cfg))) /\
  (B < zmax cfg -> strong_wolfe cfg phi dphi s (ztol cfg)) /\
  (z_num_fun st <= (if given then 0 else 1) + (J + Z + 1))%nat.
Proof.
  intros G cfg f gradf vdot x d phi dphi L B s0 g given J Z (H1 & H2 & H3 & H4 & H5 & H6) Hinc Hw Hs0 HL Hline Hsm Hd Ht Hr HJ HZ Hth Hbud.
  pose proof (success cfg f gradf vdot x d s0 L B phi dphi H1 Hs0 H2 Hinc H4 H5 Hw Hline Hsm HL Hd Ht Hr given g J Z HJ HZ Hth Hbud) as H.
  destruct (zoom_run cfg f gradf vdot given s0 x (phi 0) g (dphi 0) d) as [s st].
  destruct H as (A1 & A2 & A3 & A4 & A5 & A6 & A7).
  assert (Hsw : curvature_ok cfg gradf vdot x d (dphi 0) s (ztol cfg) -> strong_wolfe cfg phi dphi s (ztol cfg)).
  { intros (v & Ev & Hv). destruct (Hline s ltac:(lra)) as [E1 E2]. rewrite E2 in Ev. injection Ev as <-. split; [|exact Hv].
    destruct A5 as [_ A5]. rewrite E1, E2 in A5. exact A5. }
  split; [exact A1|]. split; [exact A2|]. split; [exact A3|]. split; [exact A4|]. split; [|split; [|exact A7]].
  - destruct A6 as [A6|A6]; [left; apply Hsw, A6|right; split; [exact A6|exact A5]].
  - intros HB. destruct A6 as [A6|A6]; [apply Hsw, A6|lra].
Qed.
Print Assumptions C75_succeeds.

Lemma factor_range cfg : 0 < rel_tol_cubic cfg -> 0 < rel_tol_quad cfg -> 0 <= zoom_factor cfg < 1.
Proof.
  intros H1 H2. unfold zoom_factor. assert (0 < Rmin (Rmin (rel_tol_cubic cfg) (rel_tol_quad cfg)) (1 / 2)) by (repeat apply Rmin_glb_lt; lra).
  pose proof (Rmin_r (Rmin (rel_tol_cubic cfg) (rel_tol_quad cfg)) (1 / 2)). lra.
Qed.
Lemma pow_large r b : 1 < r -> exists J, b <= r ^ J.
Proof.
  intros Hr. destruct (Pow_x_infinity r ltac:(rewrite Rabs_right; lra) b) as [N HN].
  exists N. specialize (HN N (Nat.le_refl N)). assert (0 < r ^ N) by (apply pow_lt; lra). rewrite Rabs_right in HN by lra. lra.
Qed.
Lemma pow_tiny r b e : 0 <= r < 1 -> 0 < e -> 0 <= b -> exists Z, b * r ^ Z <= e.
Proof.
  intros Hr He Hb. destruct (pow_lt_1_zero r ltac:(rewrite Rabs_right; lra) (e / (b + 1))) as [N HN].
  { apply Rdiv_lt_0_compat; lra. }
  exists N. specialize (HN N (Nat.le_refl N)). assert (0 <= r ^ N) by (apply pow_le; lra). rewrite Rabs_right in HN by lra.
  assert (r ^ N * (b + 1) <= e / (b + 1) * (b + 1)) by (apply Rmult_le_compat_r; lra).
  unfold Rdiv in H0. rewrite Rmult_assoc, Rinv_l in H0 by lra. lra.
Qed.
Lemma floor_positive cfg L sl : wolfe_constants cfg -> 0 < L -> sl <> 0 -> 0 < bracket_floor cfg L sl.
Proof.
  intros (W1 & W2 & W3) HL Hsl. unfold bracket_floor, Rdiv. apply Rmult_lt_0_compat; [|apply Rinv_0_lt_compat; exact HL].
  apply Rmult_lt_0_compat; [apply Rmin_glb_lt; lra|apply Rabs_pos_lt; exact Hsl].
Qed.

(** With a given max_stepsize, enough iterations make the search succeed: for every such problem there
    is an N such that every maxiter >= N works. *)
Theorem C75_enough_iterations : forall (G : Type) cfg f gradf vdot x d phi dphi L s0 (g : G) given m,
  zoom_ok cfg -> 1 < increase_factor cfg -> wolfe_constants cfg -> 0 < s0 -> 0 < L -> max_stepsize_arg cfg = Some m -> 0 < m ->
  0 < rel_tol_cubic cfg -> 0 < rel_tol_quad cfg ->
  along_line cfg f gradf vdot x d phi dphi -> smooth_line m L phi dphi -> dphi 0 < 0 ->
  (1 - 2 * zc1 cfg <= zc2 cfg \/ convex_line m dphi) ->
  interval_threshold cfg <= bracket_floor cfg L (dphi 0) ->
  exists N, forall k, (N <= k)%nat ->
  let '(s, st) := zoom_run (with_maxiter cfg k) f gradf vdot given s0 x (phi 0) g (dphi 0) d in
  z_done st = true /\ z_failed st = false /\
  (strong_wolfe cfg phi dphi s (ztol cfg) \/ (s = m /\ decrease_ok cfg f gradf vdot x d (phi 0) (dphi 0) s (ztol cfg))).
Proof.
  intros G cfg f gradf vdot x d phi dphi L s0 g given m Hok Hinc Hw Hs0 HL Em Hm Hc Hq Hline Hsm Hd Ht Hth.
  assert (Ez : forall k, zmax (with_maxiter cfg k) = m).
  { intros k. unfold zmax. cbn. rewrite Em. destruct (Req_EM_T m 0); [lra|reflexivity]. }
  assert (Ez0 : zmax cfg = m) by (unfold zmax; rewrite Em; destruct (Req_EM_T m 0); [lra|reflexivity]).
  destruct (pow_large (increase_factor cfg) (m / s0) Hinc) as [J HJ].
  destruct (pow_tiny (zoom_factor cfg) m (bracket_floor cfg L (dphi 0)) (factor_range cfg Hc Hq) (floor_positive cfg L (dphi 0) Hw HL ltac:(lra)) ltac:(lra)) as [Z HZ].
  exists (J + Z + 2)%nat. intros k Hk.
  pose proof (C75_succeeds G (with_maxiter cfg k) f gradf vdot x d phi dphi L m s0 g given J Z) as H.
  rewrite (Ez k) in H.
  assert (Hok' : zoom_ok (with_maxiter cfg k)).
  { destruct Hok as (O1 & O2 & O3 & O4 & O5 & O6). unfold zoom_ok. rewrite (Ez k). cbn. repeat split; try assumption; lia. }
  assert (Hline' : along_line (with_maxiter cfg k) f gradf vdot x d phi dphi).
  { intros t Hti. rewrite (Ez k) in Hti. apply Hline. rewrite Ez0. exact Hti. }
  assert (HJ' : m <= s0 * increase_factor (with_maxiter cfg k) ^ J).
  { cbn. apply Rmult_le_reg_r with (/ s0); [apply Rinv_0_lt_compat; exact Hs0|]. unfold Rdiv in HJ.
    replace (s0 * increase_factor cfg ^ J * / s0) with (increase_factor cfg ^ J) by (field; lra). exact HJ. }
  specialize (H Hok' Hinc Hw Hs0 HL Hline' Hsm Hd Ht (or_introl (Req_le _ _ (Ez k))) HJ' HZ Hth Hk).
  destruct (zoom_run (with_maxiter cfg k) f gradf vdot given s0 x (phi 0) g (dphi 0) d) as [s st].
  destruct H as (A1 & A2 & _ & _ & A5 & _). split; [exact A1|]. split; [exact A2|].
  destruct A5 as [A5|[A5 A6]]; [left; exact A5|right; split; [exact A5|exact A6]].
Qed.
Print Assumptions C75_enough_iterations.

(** Strongly convex smooth objectives: the number of iterations needed depends only on the constants, the
    condition number L / mu and the ratio s0 |d|^2 / |slope|; the step satisfies the strong Wolfe
    conditions, whatever the descent direction and the start. *)
Lemma line_strong n mu L f gradf x d : strongly_convex_smooth n mu L f gradf -> length x = n -> length d = n -> 0 < dot d d ->
  let phi t := f (vadd x (smul t d)) in let dphi t := dot (gradf (vadd x (smul t d))) d in
  forall T, smooth_line T (L * dot d d) phi dphi /\ convex_line T dphi /\
  (forall t, phi 0 - dphi 0 * dphi 0 / (2 * mu * dot d d) <= phi t).
Proof.
  intros (Hmu & Hdim & Hb) Hx Hdn Hdd phi dphi T.
  assert (Hlen : forall t, length (vadd x (smul t d)) = n) by (intros t; rewrite vadd_length, smul_length, Hx, Hdn; apply Nat.max_id).
  assert (HB : forall a b, phi a + dphi a * (b - a) + mu / 2 * (dot d d * ((b - a) * (b - a))) <= phi b <= phi a + dphi a * (b - a) + L / 2 * (dot d d * ((b - a) * (b - a)))).
  { intros a b. pose proof (Hb (vadd x (smul a d)) (vadd x (smul b d)) (Hlen a) (Hlen b)) as H.
    assert (E : vsub (vadd x (smul b d)) (vadd x (smul a d)) = smul (b - a) d).
    { apply vec_ext; [rewrite smul_length, Hdn; apply vsub_length_eq; apply Hlen|]. intros i Hi. rewrite nth_vsub, !nth_vadd, !nth_smul. ring. }
    unfold dist2 in H. rewrite E in H. fold (phi a) (phi b) in H.
    assert (E1 : dot (gradf (vadd x (smul a d))) (smul (b - a) d) = dphi a * (b - a)) by (unfold dphi; vring).
    assert (E2 : sqnorm (smul (b - a) d) = dot d d * ((b - a) * (b - a))) by (unfold sqnorm; vring).
    rewrite E1, E2 in H. exact H. }
  set (D := dot d d) in *.
  assert (Hmono : forall a b, mu * D * ((b - a) * (b - a)) <= (dphi b - dphi a) * (b - a) <= L * D * ((b - a) * (b - a))).
  { intros a b. pose proof (HB a b) as H1. pose proof (HB b a) as H2. replace ((a - b) * (a - b)) with ((b - a) * (b - a)) in H2 by ring. split; lra. }
  assert (Hsq : forall a b : R, 0 <= D * ((b - a) * (b - a))) by (intros a b; apply Rmult_le_pos; [lra|apply Rle_0_sqr]).
  split; [split|split].
  - intros t _ e He. assert (HLD : 0 < L * D + 1) by (pose proof (Rmult_lt_0_compat L D ltac:(lra) Hdd); lra).
    exists (mkposreal (e / (L * D + 1)) (Rdiv_lt_0_compat e _ He HLD)). intros h Hh Hhd. cbn in Hhd.
    pose proof (HB t (t + h)) as H. replace (t + h - t) with h in H by ring.
    assert (Hh2 : 0 < Rabs h) by (apply Rabs_pos_lt; exact Hh).
    assert (Habs : Rabs (phi (t + h) - phi t - dphi t * h) <= L / 2 * D * (Rabs h * Rabs h)).
    { assert (Ehh : Rabs h * Rabs h = h * h) by (rewrite <- Rabs_mult; apply Rabs_right, Rle_ge, Rle_0_sqr). rewrite Ehh.
      assert (0 <= mu / 2 * (D * (h * h))) by (apply Rmult_le_pos; [lra|apply Rmult_le_pos; [lra|apply Rle_0_sqr]]).
      apply Rabs_le. lra. }
    replace ((phi (t + h) - phi t) / h - dphi t) with ((phi (t + h) - phi t - dphi t * h) / h) by (field; exact Hh).
    unfold Rdiv. rewrite Rabs_mult, Rabs_inv. apply Rmult_lt_reg_r with (Rabs h); [exact Hh2|]. rewrite Rmult_assoc, Rinv_l, Rmult_1_r by lra.
    apply Rle_lt_trans with (1 := Habs).
    assert (Hs : (L * D + 1) * Rabs h < e).
    { apply Rmult_lt_compat_l with (r := L * D + 1) in Hhd; [|exact HLD]. unfold Rdiv in Hhd. replace ((L * D + 1) * (e * / (L * D + 1))) with e in Hhd by (field; lra). exact Hhd. }
    replace (L / 2 * D * (Rabs h * Rabs h)) with (L / 2 * D * Rabs h * Rabs h) by ring. apply Rmult_lt_compat_r; [exact Hh2|].
    assert (0 <= L * D * Rabs h) by (apply Rmult_le_pos; [apply Rmult_le_pos; lra|lra]). lra.
  - intros a b _ _. pose proof (Hmono b a) as H. destruct (Req_dec a b) as [->|Hne]; [rewrite !Rminus_diag_eq by reflexivity; rewrite Rabs_R0; lra|].
    assert (Hp : 0 < Rabs (a - b)) by (apply Rabs_pos_lt; lra).
    apply Rmult_le_reg_r with (Rabs (a - b)); [exact Hp|]. rewrite <- Rabs_mult.
    assert (Eab : Rabs (a - b) * Rabs (a - b) = (a - b) * (a - b)) by (rewrite <- Rabs_mult; apply Rabs_right, Rle_ge, Rle_0_sqr).
    rewrite Rmult_assoc, Eab. assert (0 <= mu * D * ((a - b) * (a - b))) by (rewrite Rmult_assoc; apply Rmult_le_pos; [lra|apply Hsq]).
    rewrite Rabs_right by lra. lra.
  - intros a b _ Hab _. destruct (Req_dec a b) as [->|Hne]; [lra|]. pose proof (Hmono a b) as H.
    assert (0 <= mu * D * ((b - a) * (b - a))) by (rewrite Rmult_assoc; apply Rmult_le_pos; [lra|apply Hsq]).
    assert (0 <= dphi b - dphi a); [|lra]. apply Rmult_le_reg_r with (b - a); lra.
  - intros t. pose proof (HB 0 t) as [H _]. rewrite Rminus_0_r in H.
    assert (Hsq2 : 0 <= (mu * D * t + dphi 0) * (mu * D * t + dphi 0)) by apply Rle_0_sqr.
    assert (HmD : 0 < 2 * mu * D) by (apply Rmult_lt_0_compat; lra).
    assert (E : phi 0 - dphi 0 * dphi 0 / (2 * mu * D) = phi 0 + dphi 0 * t + mu / 2 * (D * (t * t)) - (mu * D * t + dphi 0) * (mu * D * t + dphi 0) / (2 * mu * D)) by (field; split; lra).
    rewrite E. assert (0 <= (mu * D * t + dphi 0) * (mu * D * t + dphi 0) / (2 * mu * D)) by (unfold Rdiv; apply Rmult_le_pos; [exact Hsq2|apply Rlt_le, Rinv_0_lt_compat; exact HmD]). lra.
Qed.

Theorem C75_strongly_convex : forall cfg n mu L f gradf x d s0 given J Z,
  zoom_ok cfg -> 1 < increase_factor cfg -> wolfe_constants cfg -> 0 < s0 ->
  strongly_convex_smooth n mu L f gradf -> length x = n -> length d = n -> dot (gradf x) d < 0 ->
  let sl := dot (gradf x) d in
  let B := Rmax s0 (increase_factor cfg * Rabs sl / (2 * zc2 cfg * mu * dot d d)) in
  let fl := Rmin (zc2 cfg) (2 * (zc2 cfg - zc1 cfg)) * Rabs sl / (L * dot d d) in
  B <= s0 * increase_factor cfg ^ J -> B * zoom_factor cfg ^ Z <= fl -> interval_threshold cfg <= fl ->
  (J + Z + 2 <= zmaxiter cfg)%nat -> B < zmax cfg ->
  let '(s, st) := zoom_run cfg (real_fun f) gradf real_dot given s0 x (f x) (gradf x) sl d in
  z_done st = true /\ z_failed st = false /\ 0 < s <= B /\
  strong_wolfe cfg (fun t => f (vadd x (smul t d))) (fun t => dot (gradf (vadd x (smul t d))) d) s (ztol cfg).
Proof.
  intros cfg n mu L f gradf x d s0 given J Z Hok Hinc Hw Hs0 Hf Hx Hdn Hsl sl B fl HJ HZ Hth Hbud HBz.
  assert (Hdd : 0 < dot d d).
  { destruct (Req_dec (dot d d) 0) as [E|]; [|pose proof (dot_self_nonneg d); lra].
    exfalso. apply dot_self_zero in E. rewrite E in Hsl. assert (dot (gradf x) (vzero (length d)) = 0) by vring. lra. }
  pose proof (line_strong n mu L f gradf x d Hf Hx Hdn Hdd) as Hl. cbv zeta in Hl.
  set (phi := fun t => f (vadd x (smul t d))) in *. set (dphi := fun t => dot (gradf (vadd x (smul t d))) d) in *.
  destruct Hf as (Hmu & Hdim & Hb).
  assert (E0 : vadd x (smul 0 d) = x).
  { apply vec_ext; [rewrite vadd_length, smul_length, Hx, Hdn; apply Nat.max_id|]. intros i Hi. rewrite nth_vadd, nth_smul. ring. }
  assert (Ep : phi 0 = f x) by (unfold phi; rewrite E0; reflexivity).
  assert (Ed : dphi 0 = sl) by (unfold dphi; rewrite E0; reflexivity).
  assert (Hs : sl < 0) by exact Hsl. destruct Hw as (W1 & W2 & W3). destruct (Hl (zmax cfg)) as (L1 & L2 & L3).
  pose proof (C75_succeeds vec cfg (real_fun f) gradf real_dot x d phi dphi (L * dot d d) B s0 (gradf x) given J Z Hok Hinc (conj W1 (conj W2 W3)) Hs0) as H.
  rewrite Ep, Ed in H.
  assert (Hr : step_bound cfg phi dphi s0 B).
  { right. split; [exact L2|]. exists (phi 0 - dphi 0 * dphi 0 / (2 * mu * dot d d)). split; [intros t _; apply L3|].
    split; [apply Rmax_l|]. unfold B. rewrite Ed.
    replace (phi 0 - (phi 0 - sl * sl / (2 * mu * dot d d))) with (Rabs sl * Rabs sl / (2 * mu * dot d d)).
    - replace (increase_factor cfg * (Rabs sl * Rabs sl / (2 * mu * dot d d) / (zc2 cfg * Rabs sl))) with (increase_factor cfg * Rabs sl / (2 * zc2 cfg * mu * dot d d)); [apply Rmax_r|].
      field. assert (Rabs sl <> 0) by (apply Rabs_no_R0; lra). repeat split; lra.
    - rewrite <- Rabs_mult, (Rabs_right (sl * sl)) by (apply Rle_ge, Rle_0_sqr). ring. }
  assert (Hline : along_line cfg (real_fun f) gradf real_dot x d phi dphi) by (intros t Ht; split; reflexivity).
  specialize (H ltac:(apply Rmult_lt_0_compat; lra) Hline L1 Hs (or_intror L2) Hr HJ HZ Hth Hbud).
  destruct (zoom_run cfg (real_fun f) gradf real_dot given s0 x (f x) (gradf x) sl d) as [s st].
  destruct H as (A1 & A2 & A3 & A4 & _ & A6 & _). split; [exact A1|]. split; [exact A2|]. split; [lra|]. apply A6. exact HBz.
Qed.
Print Assumptions C75_strongly_convex.

(** Without convexity and with c2 < 1 - 2 c1 (as with the default constants), the approximate
    sufficient-decrease test can lead the search into a bracket without acceptable points: it then fails
    for every maxiter.  The function is a polynomial, smooth on [0, max_stepsize], and the step 1/1000
    satisfies the strong Wolfe conditions. *)
Lemma pow_lip n u v : 0 <= u <= 1 -> 0 <= v <= 1 -> Rabs (u ^ n - v ^ n) <= INR n * Rabs (u - v).
Proof.
  intros Hu Hv. induction n as [|n IH]; [simpl; rewrite Rminus_diag_eq by reflexivity; rewrite Rabs_R0; lra|].
  rewrite S_INR. cbn [pow]. replace (u * u ^ n - v * v ^ n) with ((u - v) * u ^ n + v * (u ^ n - v ^ n)) by ring.
  apply Rle_trans with (1 := Rabs_triang _ _). rewrite !Rabs_mult.
  assert (H1 : Rabs (u ^ n) <= 1).
  { assert (0 <= u ^ n) by (apply pow_le; lra). rewrite Rabs_right by lra. rewrite <- (pow1 n). apply pow_incr. exact Hu. }
  assert (H2 : Rabs v <= 1) by (rewrite Rabs_right; lra).
  pose proof (Rabs_pos (u - v)). pose proof (Rabs_pos (u ^ n - v ^ n)).
  assert (Rabs (u - v) * Rabs (u ^ n) <= Rabs (u - v) * 1) by (apply Rmult_le_compat_l; lra).
  assert (Rabs v * Rabs (u ^ n - v ^ n) <= 1 * Rabs (u ^ n - v ^ n)) by (apply Rmult_le_compat_r; lra). lra.
Qed.
Lemma pow_deriv n t : derivable_pt_lim (fun t => (1 - t) ^ n) t (INR n * (1 - t) ^ pred n * (0 - 1)).
Proof.
  apply (derivable_pt_lim_comp (fun t => 1 - t) (fun u => u ^ n)); [|apply derivable_pt_lim_pow].
  apply (derivable_pt_lim_minus (fun _ => 1) (fun t => t)); [apply derivable_pt_lim_const|apply derivable_pt_lim_id].
Qed.
Lemma scal_pow_deriv c n t : derivable_pt_lim (fun t => c * (1 - t) ^ n) t (c * (INR n * (1 - t) ^ pred n * (0 - 1))).
Proof. apply (derivable_pt_lim_scal (fun t => (1 - t) ^ n)), pow_deriv. Qed.
Lemma trap_smooth : smooth_line 1 300000 trap_phi trap_dphi.
Proof.
  split.
  - intros t _.
    assert (H : derivable_pt_lim (fun t => - (38 / 100) * (1 - t) ^ 1 - 1 / 5 * (1 - t) ^ 2 + 5273 / 10 * (1 - t) ^ 9 - 1050 * (1 - t) ^ 10 + 13082 / 25 * (1 - t) ^ 11) t
       (- (38 / 100) * (INR 1 * (1 - t) ^ pred 1 * (0 - 1)) - 1 / 5 * (INR 2 * (1 - t) ^ pred 2 * (0 - 1)) + 5273 / 10 * (INR 9 * (1 - t) ^ pred 9 * (0 - 1)) - 1050 * (INR 10 * (1 - t) ^ pred 10 * (0 - 1)) + 13082 / 25 * (INR 11 * (1 - t) ^ pred 11 * (0 - 1)))).
    { apply (derivable_pt_lim_plus (fun t => - (38 / 100) * (1 - t) ^ 1 - 1 / 5 * (1 - t) ^ 2 + 5273 / 10 * (1 - t) ^ 9 - 1050 * (1 - t) ^ 10)); [|apply scal_pow_deriv].
      apply (derivable_pt_lim_minus (fun t => - (38 / 100) * (1 - t) ^ 1 - 1 / 5 * (1 - t) ^ 2 + 5273 / 10 * (1 - t) ^ 9)); [|apply scal_pow_deriv].
      apply (derivable_pt_lim_plus (fun t => - (38 / 100) * (1 - t) ^ 1 - 1 / 5 * (1 - t) ^ 2)); [|apply scal_pow_deriv].
      apply (derivable_pt_lim_minus (fun t => - (38 / 100) * (1 - t) ^ 1)); apply scal_pow_deriv. }
    cbn [pred] in H. rewrite !pow_1, !pow_O in H || idtac.
    intros e He. destruct (H e He) as [dl Hdl]. exists dl. intros h Hh Hhd. specialize (Hdl h Hh Hhd).
    unfold trap_phi, trap_dphi. cbv zeta.
    replace (INR 9) with 9 in Hdl by (simpl; ring). replace (INR 10) with 10 in Hdl by (simpl; ring). replace (INR 11) with 11 in Hdl by (simpl; ring). replace (INR 2) with 2 in Hdl by (simpl; ring). replace (INR 1) with 1 in Hdl by reflexivity.
    match type of Hdl with Rabs (?q - ?r) < _ => match goal with |- Rabs (?q' - ?r') < _ => replace (q' - r') with (q - r); [exact Hdl|] end end.
    f_equal; [f_equal; rewrite ?pow_1; ring|field].
  - intros a b Ha Hb. unfold trap_dphi. cbv zeta. set (u := 1 - a). set (v := 1 - b).
    assert (Hu : 0 <= u <= 1) by (unfold u; lra). assert (Hv : 0 <= v <= 1) by (unfold v; lra).
    assert (E : Rabs (a - b) = Rabs (u - v)) by (replace (a - b) with (- (u - v)) by (unfold u, v; ring); apply Rabs_Ropp). rewrite E.
    pose proof (pow_lip 8 u v Hu Hv) as P8. pose proof (pow_lip 9 u v Hu Hv) as P9. pose proof (pow_lip 10 u v Hu Hv) as P10.
    replace (INR 8) with 8 in P8 by (simpl; ring). replace (INR 9) with 9 in P9 by (simpl; ring). replace (INR 10) with 10 in P10 by (simpl; ring).
    set (u8 := u ^ 8) in *. set (u9 := u ^ 9) in *. set (u10 := u ^ 10) in *. set (v8 := v ^ 8) in *. set (v9 := v ^ 9) in *. set (v10 := v ^ 10) in *.
    clearbody u8 u9 u10 v8 v9 v10 u v. pose proof (Rle_abs (u - v)) as Q1. pose proof (Rle_abs (- (u - v))) as Q2. rewrite Rabs_Ropp in Q2.
    set (w := Rabs (u - v)) in *. clearbody w.
    pose proof (Rle_abs (u8 - v8)). pose proof (Rle_abs (- (u8 - v8))) as Q8. rewrite Rabs_Ropp in Q8.
    pose proof (Rle_abs (u9 - v9)). pose proof (Rle_abs (- (u9 - v9))) as Q9. rewrite Rabs_Ropp in Q9.
    pose proof (Rle_abs (u10 - v10)). pose proof (Rle_abs (- (u10 - v10))) as Q10. rewrite Rabs_Ropp in Q10.
    apply Rabs_le. lra.
Qed.
Lemma trap_slope t : 3 / 4 <= t <= 1 -> 38 / 100 <= trap_dphi t.
Proof.
  intros Ht. unfold trap_dphi. cbv zeta. set (u := 1 - t). assert (Hu : 0 <= u <= / 4) by (unfold u; lra). clearbody u.
  assert (H7 : 0 <= u ^ 7 <= (/ 4) ^ 7) by (split; [apply pow_le; lra|apply pow_incr; lra]).
  assert (H9 : 0 <= u ^ 9 <= (/ 4) ^ 9) by (split; [apply pow_le; lra|apply pow_incr; lra]).
  assert (E8 : u ^ 8 = u * u ^ 7) by reflexivity. assert (E10 : u ^ 10 = u * u ^ 9) by reflexivity.
  assert (u * u ^ 7 <= u * (/ 4) ^ 7) by (apply Rmult_le_compat_l; lra).
  assert (u * u ^ 9 <= u * (/ 4) ^ 9) by (apply Rmult_le_compat_l; lra).
  rewrite E8, E10. assert (F7 : (/ 4) ^ 7 = / 16384) by field. assert (F9 : (/ 4) ^ 9 = / 262144) by field. rewrite F7 in *. rewrite F9 in *.
  lra.
Qed.

Section Trap.
Variable N : nat.
Notation cfg := (trap_cfg N).
Notation f := (real_fun trap_f).
Notation upd := (zoom_update cfg f trap_g real_dot).
Notation init := (1, zoom_init false [0] 0 [-1] (-1) [1]).
Notation binv := (binv cfg f trap_g real_dot [0] [1] 0 (-1)).
Notation dok := (decrease_ok cfg f trap_g real_dot [0] [1] 0 (-1)).
Notation cok := (curvature_ok cfg trap_g real_dot [0] [1] (-1)).

Lemma trap_line t : f (vadd [0] (smul t [1])) = Fin (trap_phi t) /\ real_dot (trap_g (vadd [0] (smul t [1]))) [1] = Fin (trap_dphi t).
Proof.
  unfold real_fun, real_dot, trap_f, trap_g. cbn. split; f_equal; [f_equal; ring|].
  replace (0 + t * 1) with t by ring. ring.
Qed.
Lemma trap_zmax : zmax cfg = 1.
Proof. unfold zmax. cbn. destruct (Req_EM_T 1 0); [lra|reflexivity]. Qed.
Lemma trap_dok t : dok t 0 <-> (trap_phi t <= - (3 / 10) * t \/ (trap_phi t <= 0 /\ trap_dphi t <= 4 / 10)).
Proof.
  destruct (trap_line t) as [E1 E2]. unfold decrease_ok. rewrite E1, E2. cbn [xle_bound zc1 zc3 trap_cfg].
  rewrite Rmult_0_l. split; [intros [_ [H|[H H']]]; [left|right]; lra|intros H; split; [discriminate|]; destruct H as [H|[H H']]; [left|right]; lra].
Qed.
Lemma trap_cok t : cok t 0 -> Rabs (trap_dphi t) <= 35 / 100.
Proof.
  destruct (trap_line t) as [_ E2]. intros (v & Ev & Hv). rewrite E2 in Ev. injection Ev as <-. cbn [zc2 trap_cfg] in Hv.
  rewrite (Rabs_left (-1)) in Hv by lra. lra.
Qed.
Lemma trap_half : ~ dok (1 / 2) 0.
Proof. rewrite trap_dok. unfold trap_phi, trap_dphi. cbv zeta. replace (1 - 1 / 2) with (1 / 2) by lra. intros H. lra. Qed.
Lemma trap_three : ~ dok (3 / 4) 0.
Proof. rewrite trap_dok. unfold trap_phi, trap_dphi. cbv zeta. replace (1 - 3 / 4) with (1 / 4) by lra. intros H. lra. Qed.
Lemma trap_one : dok 1 0 /\ ~ cok 1 0 /\ trap_dphi 1 = 38 / 100.
Proof.
  assert (E : trap_phi 1 = 0) by (unfold trap_phi; cbv zeta; replace (1 - 1) with 0 by ring; ring).
  assert (E' : trap_dphi 1 = 38 / 100) by (unfold trap_dphi; cbv zeta; replace (1 - 1) with 0 by ring; ring).
  split; [apply trap_dok; right; lra|]. split; [|exact E']. intros H. apply trap_cok in H. rewrite E', Rabs_right in H; lra.
Qed.

(** the states of the search *)
Definition stage (k : nat) (st : zstate vec) : Prop :=
  z_iter st = k /\ match k with
  | O => z_found st = false
  | 1%nat => z_found st = true /\ z_low st = 1 /\ z_high st = 0
  | 2%nat => z_found st = true /\ z_low st = 1 /\ z_high st = 1 / 2
  | _ => z_found st = true /\ 3 / 4 <= z_low st <= 1 /\ 3 / 4 <= z_high st <= 1
  end.
Lemma trap_middle (st : zstate vec) : choose_middle cfg st = (z_low st + z_high st) / 2.
Proof.
  pose proof (middle_spec cfg f trap_g real_dot [1] ltac:(cbn; lra) ltac:(cbn; lra) st) as [H _].
  assert (Es : shrink cfg = 1 / 2) by (unfold shrink; cbn; unfold Rmin; repeat destruct (Rle_dec _ _); lra).
  rewrite Es in H. unfold Rmin, Rmax, Rabs in H. destruct (Rle_dec (z_high st) (z_low st)), (Rcase_abs (z_high st - z_low st)); lra.
Qed.
(** a trial inside the bracket that is not acceptable and fails the decrease test becomes the high end;
    other trials keep the bracket inside its old ends *)
Lemma trap_zoom st : binv st -> z_found st = true ->
  let m := (z_low st + z_high st) / 2 in let st' := snd (zoom_into_interval cfg f trap_g real_dot st) in
  (~ dok m 0 \/ ~ cok m 0) -> z_done st' = false /\ z_found st' = true /\ z_iter st' = S (z_iter st) /\
  (~ dok m 0 -> z_low st' = z_low st /\ z_high st' = m) /\
  (forall lo hi, lo <= z_low st <= hi -> lo <= z_high st <= hi -> lo <= m <= hi -> lo <= z_low st' <= hi /\ lo <= z_high st' <= hi).
Proof.
  intros [Bp Bv Bs Bd Bdn Bf Bsf Bso _ Bz] Hf m st' Hbad. subst st'. unfold zoom_into_interval. cbn [snd].
  rewrite trap_middle. fold m. unfold line_point. rewrite Bp, Bd, Bv, Bs.
  pose proof (err_le cfg f trap_g real_dot [0] [1] 0 (-1) m 0 (Rle_refl 0)) as HE.
  pose proof (derr_le cfg f trap_g real_dot [0] [1] 0 (-1) m 0 (Rle_refl 0)) as HD.
  assert (Hgt : xgtb (decrease_error cfg m (f (vadd [0] (smul m [1]))) (real_dot (trap_g (vadd [0] (smul m [1]))) [1]) 0 (-1)) 0
      = negb (xleb (decrease_error cfg m (f (vadd [0] (smul m [1]))) (real_dot (trap_g (vadd [0] (smul m [1]))) [1]) 0 (-1)) 0)) by apply clean_gt0.
  cbn [z_done z_found z_iter z_low z_high]. change (ztol cfg) with 0.
  set (E1 := xleb (xmaximum _ _) 0) in *. set (D0 := xleb (decrease_error _ _ _ _ _ _) 0) in *.
  assert (HE1 : E1 = false) by (destruct E1; [exfalso; destruct (proj1 HE eq_refl); tauto|reflexivity]).
  split; [exact HE1|]. split; [exact Hf|]. split; [lia|]. rewrite Hgt. split.
  - intros Hn. assert (HD0 : D0 = false) by (destruct D0; [exfalso; apply Hn, HD; reflexivity|reflexivity]). rewrite HD0. simpl. rewrite andb_false_r. split; reflexivity.
  - intros lo hi H1 H2 H3. clearbody m. repeat match goal with |- context [if ?b then _ else _] => destruct b end; split; assumption.
Qed.

Lemma trap_stage k : (forall j, (1 <= j <= k)%nat -> zoom_cond (Nat.iter j upd init) = true) -> stage k (snd (Nat.iter k upd init)) /\
  z_done (snd (Nat.iter (S k) upd init)) = false.
Proof.
  assert (Hz : 0 < zmax cfg) by (rewrite trap_zmax; lra).
  pose proof (live_spec cfg f trap_g real_dot [0] [1] 0 (-1) 1 (Rle_refl 0) Rlt_0_1 Hz ltac:(cbn; lra) ltac:(cbn; lra) ltac:(cbn; lra) false [-1]) as HLS.
  (* one update from a live state of the right stage *)
  assert (Hstep : forall p j, binv (snd p) -> stage j (snd p) -> (j = 0%nat -> fst p = 1) ->
     let st' := snd (trial_step cfg f trap_g real_dot p) in z_done st' = false /\ stage (S j) st').
  { intros [s st] j HB [Hi HS] Hs. cbn [fst snd] in *. cbv zeta. unfold trial_step. destruct j as [|[|[|j]]].
    - rewrite HS. destruct HB as [Bp Bv Bs Bd _ _ _ _ Bse _]. destruct (Bse HS) as (_ & _ & Hp & _). specialize (Hp Hi).
      unfold search_interval. rewrite Hi, (Hs eq_refl), trap_zmax, Hp. cbn [Nat.eqb snd]. rewrite (Rmin_left 1 1) by lra.
      unfold line_point. rewrite Bp, Bd, Bv, Bs.
      pose proof (err_le cfg f trap_g real_dot [0] [1] 0 (-1) 1 0 (Rle_refl 0)) as HE.
      pose proof (derr_le cfg f trap_g real_dot [0] [1] 0 (-1) 1 0 (Rle_refl 0)) as HD.
      assert (Hgt : xgtb (decrease_error cfg 1 (f (vadd [0] (smul 1 [1]))) (real_dot (trap_g (vadd [0] (smul 1 [1]))) [1]) 0 (-1)) 0
        = negb (xleb (decrease_error cfg 1 (f (vadd [0] (smul 1 [1]))) (real_dot (trap_g (vadd [0] (smul 1 [1]))) [1]) 0 (-1)) 0)) by apply clean_gt0.
      unfold stage. cbn [z_done z_found z_iter z_low z_high]. change (ztol cfg) with 0.
      destruct trap_one as (T1 & T2 & T3). apply HD in T1. rewrite Hgt, T1.
      set (E1 := xleb (xmaximum _ _) 0) in *. assert (HE1 : E1 = false) by (destruct E1; [exfalso; destruct (proj1 HE eq_refl); tauto|reflexivity]). rewrite HE1.
      destruct (trap_line 1) as [L1 L2]. rewrite L2, T3. cbn [negb orb Nat.ltb Nat.leb andb]. rewrite andb_false_r. cbn [negb orb andb xgeb].
      destruct (Rle_dec 0 (38 / 100)); [|lra]. cbn. rewrite andb_false_r. repeat split; reflexivity.
    - destruct HS as (Hf & Hlo & Hhi). rewrite Hf. destruct (trap_zoom st HB Hf) as (Z1 & Z2 & Z3 & Z4 & _).
      { left. rewrite Hlo, Hhi. replace ((1 + 0) / 2) with (1 / 2) by lra. exact trap_half. }
      split; [exact Z1|]. rewrite Hlo, Hhi in Z4. replace ((1 + 0) / 2) with (1 / 2) in Z4 by lra. destruct (Z4 trap_half) as [Z5 Z6].
      unfold stage. rewrite Z3, Hi, Z5, Z6. repeat split; auto.
    - destruct HS as (Hf & Hlo & Hhi). rewrite Hf. destruct (trap_zoom st HB Hf) as (Z1 & Z2 & Z3 & Z4 & _).
      { left. rewrite Hlo, Hhi. replace ((1 + 1 / 2) / 2) with (3 / 4) by lra. exact trap_three. }
      split; [exact Z1|]. rewrite Hlo, Hhi in Z4. replace ((1 + 1 / 2) / 2) with (3 / 4) in Z4 by lra. destruct (Z4 trap_three) as [Z5 Z6].
      unfold stage. rewrite Z3, Hi, Z5, Z6. split; [reflexivity|]. split; [exact Z2|lra].
    - destruct HS as (Hf & Hlo & Hhi). rewrite Hf. destruct (trap_zoom st HB Hf) as (Z1 & Z2 & Z3 & _ & Z5).
      { right. intros Hc. apply trap_cok in Hc. pose proof (trap_slope ((z_low st + z_high st) / 2) ltac:(lra)) as Hsl. rewrite Rabs_right in Hc by lra. lra. }
      split; [exact Z1|]. destruct (Z5 (3 / 4) 1 ltac:(lra) ltac:(lra) ltac:(lra)) as [Z6 Z7]. unfold stage. rewrite Z3, Hi. repeat split; try lra; exact Z2. }
  assert (Hupd : forall p, z_done (snd (upd p)) = z_done (snd (trial_step cfg f trap_g real_dot p)) /\
     (zoom_cond (upd p) = true -> snd (upd p) = add_evals 1 (snd (trial_step cfg f trap_g real_dot p)))).
  { intros p. unfold zoom_update. destruct (trial_step cfg f trap_g real_dot p) as [s' st']. cbn [snd].
    destruct (z_failed (add_evals 1 st')) eqn:E; [|split; [reflexivity|intros _; reflexivity]].
    split; [reflexivity|]. intros Hc. exfalso. unfold make_safe_step, zoom_cond in Hc. cbn in Hc, E. rewrite E, orb_true_r in Hc. discriminate. }
  assert (Hgo : forall k, (forall j, (1 <= j <= k)%nat -> zoom_cond (Nat.iter j upd init) = true) -> stage k (snd (Nat.iter k upd init))).
  { clear k. induction k as [|k IH]; intros Hc; [split; reflexivity|].
    specialize (IH ltac:(intros; apply Hc; lia)). destruct (HLS k ltac:(intros; apply Hc; lia)) as (HB & _ & H0 & _).
    specialize (Hc (S k) ltac:(lia)). change (Nat.iter (S k) upd init) with (upd (Nat.iter k upd init)) in *.
    destruct (Hupd (Nat.iter k upd init)) as [_ Hu]. rewrite (Hu Hc).
    destruct (Hstep _ k HB IH H0) as [_ [S1 S2]]. split; [exact S1|exact S2]. }
  intros Hc. pose proof (Hgo k Hc) as HS. split; [exact HS|].
  destruct (HLS k Hc) as (HB & _ & H0 & _). change (Nat.iter (S k) upd init) with (upd (Nat.iter k upd init)).
  destruct (Hupd (Nat.iter k upd init)) as [E _]. rewrite E. apply (Hstep _ k HB HS H0).
Qed.
End Trap.

Theorem C75_nonconvex_refuted :
  smooth_line 1 300000 trap_phi trap_dphi /\ trap_phi 0 = 0 /\ trap_dphi 0 = -1 /\
  (forall k, wolfe_constants (trap_cfg k) /\ strong_wolfe (trap_cfg k) trap_phi trap_dphi (1 / 1000) 0) /\
  forall k, (0 < k)%nat ->
  let '(s, st) := zoom_run (trap_cfg k) (real_fun trap_f) trap_g real_dot false 1 [0] 0 [-1] (-1) [1] in
  z_done st = false /\ z_failed st = true.
Proof.
  assert (E0 : trap_phi 0 = 0) by (unfold trap_phi; cbv zeta; rewrite Rminus_0_r, !pow1; lra).
  assert (E0' : trap_dphi 0 = -1) by (unfold trap_dphi; cbv zeta; rewrite Rminus_0_r, !pow1; lra).
  split; [exact trap_smooth|]. split; [exact E0|]. split; [exact E0'|]. split.
  - intros k. split; [unfold wolfe_constants; cbn; lra|].
    unfold strong_wolfe. rewrite E0, E0'. cbn [zc1 zc2 zc3 trap_cfg].
    unfold trap_phi, trap_dphi. cbv zeta. replace (1 - 1 / 1000) with (999 / 1000) by lra.
    split; [left; lra|]. rewrite (Rabs_left (-1)) by lra. apply Rabs_le. lra.
  - intros k Hk. assert (Hz : zmax (trap_cfg k) = 1) by apply trap_zmax.
    pose proof (C20_zoom vec (trap_cfg k) (real_fun trap_f) trap_g real_dot [0] [1] 0 [-1] (-1) 1 false) as H.
    assert (Hok : zoom_ok (trap_cfg k)) by (unfold zoom_ok; rewrite Hz; cbn; repeat split; lra || lia).
    specialize (H Hok Rlt_0_1). cbv zeta in H.
    assert (Hnd : z_done (snd (zoom_run (trap_cfg k) (real_fun trap_f) trap_g real_dot false 1 [0] 0 [-1] (-1) [1])) = false).
    { unfold zoom_run. cbn [zmaxiter trap_cfg].
      destruct (run_loop_spec k zoom_cond (zoom_update (trap_cfg k) (real_fun trap_f) trap_g real_dot) (1, zoom_init false [0] 0 [-1] (-1) [1]) Hk) as (j & Hj & E & Hlive & _).
      etransitivity; [exact (f_equal (fun p => z_done (snd p)) E)|]. destruct j as [|j]; [lia|]. apply trap_stage. intros i Hi. apply Hlive. lia. }
    destruct (zoom_run (trap_cfg k) (real_fun trap_f) trap_g real_dot false 1 [0] 0 [-1] (-1) [1]) as [s st]. cbn [snd] in Hnd.
    destruct H as (j & _ & Hf & _). rewrite Hnd in Hf. split; [exact Hnd|exact Hf].
Qed.
Print Assumptions C75_nonconvex_refuted.

(** The hypotheses of C75_strongly_convex hold for f(x) = x^2 / 2 from x = 8 along d = -8, with the
    default options of the line search and maxiter 30. *)
Definition default_zoom : zoom_config :=
  {| zc1 := 1 / 10000; zc2 := 9 / 10; zc3 := 1 / 1000000; rel_tol_cubic := 2 / 10; rel_tol_quad := 1 / 10;
     interval_threshold := 1 / 1000000; increase_factor := 2; ztol := 0; zmaxiter := 30; max_stepsize_arg := None |}.
Example C75_example :
  let f v := dot v v / 2 in let gradf (v : vec) := v in
  strongly_convex_smooth 1 1 1 f gradf /\ wolfe_constants default_zoom /\
  let '(s, st) := zoom_run default_zoom (real_fun f) gradf real_dot false 1 [8] (f [8]) (gradf [8]) (dot (gradf [8]) [-8]) [-8] in
  z_done st = true /\ z_failed st = false /\
  strong_wolfe default_zoom (fun t => f (vadd [8] (smul t [-8]))) (fun t => dot (gradf (vadd [8] (smul t [-8]))) [-8]) s 0.
Proof.
  intros f gradf.
  assert (Hf : strongly_convex_smooth 1 1 1 f gradf).
  { split; [lra|]. split; [intros x Hx; exact Hx|]. intros x z Hx Hz.
    destruct x as [|x [|]]; try discriminate. destruct z as [|z [|]]; try discriminate. unfold f, gradf, dist2, sqnorm. cbn. nra. }
  assert (Hw : wolfe_constants default_zoom) by (unfold wolfe_constants; cbn; lra).
  assert (Em : 2 ^ 5 <= zmax default_zoom) by (unfold zmax; cbn [max_stepsize_arg default_zoom zmaxiter]; apply Rle_pow; [lra|lia]).
  assert (Hok : zoom_ok default_zoom).
  { unfold zoom_ok. cbn [ztol increase_factor rel_tol_cubic rel_tol_quad zmaxiter default_zoom]. repeat split; try lra; try lia. }
  split; [exact Hf|]. split; [exact Hw|].
  assert (Ed : dot (gradf [8]) [-8] = -64) by (unfold gradf; cbn; lra). assert (Edd : dot [-8] [-8] = 64) by (cbn; lra).
  pose proof (C75_strongly_convex default_zoom 1 1 1 f gradf [8] [-8] 1 false 1 2 Hok ltac:(cbn; lra) Hw Rlt_0_1 Hf eq_refl eq_refl ltac:(lra)) as H.
  cbv zeta in H. rewrite Ed, Edd in H. rewrite (Rabs_left (-64)) in H by lra.
  cbn [zc1 zc2 zc3 default_zoom increase_factor interval_threshold zmaxiter ztol] in H.
  assert (EB : Rmax 1 (2 * - -64 / (2 * (9 / 10) * 1 * 64)) = 10 / 9) by (rewrite Rmax_right; lra). rewrite EB in H.
  assert (Ef : Rmin (9 / 10) (2 * (9 / 10 - 1 / 10000)) * - -64 / (1 * 64) = 9 / 10) by (rewrite Rmin_left by lra; lra). rewrite Ef in H.
  assert (Ez : zoom_factor default_zoom = 9 / 10) by (unfold zoom_factor; cbn; unfold Rmin; repeat destruct (Rle_dec _ _); lra). rewrite Ez in H.
  specialize (H ltac:(lra) ltac:(lra) ltac:(lra) ltac:(lia) ltac:(lra)). rewrite Ed.
  destruct (zoom_run default_zoom (real_fun f) gradf real_dot false 1 [8] (f [8]) (gradf [8]) (-64) [-8]) as [s st].
  destruct H as (H1 & H2 & _ & H3). split; [exact H1|]. split; [exact H2|exact H3].
Qed.
