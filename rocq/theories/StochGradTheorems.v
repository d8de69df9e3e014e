From Coq Require Import Reals List Bool Lra Lia Arith.
From Verif Require Import Prelude Vec Loop Run Zoom ZoomProofs StochGrad StochGradProofs.
Import ListNotations.
Open Scope R_scope.

(** *** C24: Polyak step sizes *)
Theorem C24_stepsize : forall cfg value gsq,
  0 <= ps_delta cfg -> 0 <= ps_eps cfg -> 0 <= gsq -> 0 <= ps_max_stepsize cfg -> fun_min cfg <= value ->
  (variant cfg = SPS_max -> 0 < gsq + ps_delta cfg) ->
  exists s, polyak_stepsize cfg value gsq = Fin s /\ 0 <= s /\
   (variant cfg = SPS_max -> s <= ps_max_stepsize cfg /\
      s = Rmin ((value - fun_min cfg) / (gsq + ps_delta cfg)) (ps_max_stepsize cfg)) /\
   (variant cfg = SPS_plus -> (gsq <= ps_eps cfg /\ s = 0) \/
      (ps_eps cfg < gsq /\ s = Rmax 0 ((value - fun_min cfg) / gsq))).
Proof.
  intros cfg value gsq Hd He Hg Hms Hv Hw.
  destruct (polyak_step_fin cfg value gsq Hd He Hg Hms) as (s & E & H1 & H2 & H3).
  { unfold well_posed. destruct (variant cfg); auto. }
  exists s. split; [exact E|]. split; [apply H1, Hv|]. split.
  - intros V. specialize (H2 V). split; [rewrite H2; apply Rmin_r|exact H2].
  - intros V. apply H3, V.
Qed.
Print Assumptions C24_stepsize.

(** The update is the documented one. *)
Theorem C24_update : forall cfg f gradf x st s,
  polyak_stepsize cfg (f x) (sqnorm (gradf x)) = Fin s ->
  (ps_momentum cfg = 0 -> fst (polyak_update cfg f gradf x st) = Some (vsub x (smul s (gradf x)))) /\
  (ps_momentum cfg <> 0 -> forall v, ps_velocity st = Some v ->
     exists v', fst (polyak_update cfg f gradf x st) = Some (vadd x v') /\
       ps_velocity (snd (polyak_update cfg f gradf x st)) = Some v' /\
       v' = vsub (smul (ps_momentum cfg) v) (smul s (gradf x))) /\
  ps_stepsize (snd (polyak_update cfg f gradf x st)) = Fin s /\
  ps_error (snd (polyak_update cfg f gradf x st)) = Fin (norm2 (gradf x)) /\
  ps_value (snd (polyak_update cfg f gradf x st)) = Fin (f x).
Proof.
  intros cfg f gradf x st s E. unfold polyak_update. rewrite E.
  destruct (Req_EM_T (ps_momentum cfg) 0) as [H0|H0].
  - split; [intros _; cbn [fst]; rewrite vsub_as_vadd, smul_smul; replace (-1 * s) with (- s) by ring; reflexivity|].
    split; [intros H; contradiction|]. repeat split.
  - split; [intros H; contradiction|]. split; [|repeat split]. intros _ v Hv. rewrite Hv.
    eexists. split; [reflexivity|]. split; reflexivity.
Qed.
Print Assumptions C24_update.

(** Interpolation: every batch is convex, bounded below by fun_min, and fun_min is attained
    at the common point xs.  Then no step moves away from xs, and the parameters never
    become NaN when delta > 0 or the variant is SPS+. *)
Theorem C24_contraction : forall cfg n fs gs x0 xs k,
  0 <= ps_delta cfg -> 0 <= ps_eps cfg -> 0 <= ps_max_stepsize cfg -> ps_momentum cfg = 0 ->
  (variant cfg = SPS_max -> 0 < ps_delta cfg) ->
  length x0 = n -> length xs = n ->
  (forall j, grad_convex n (fs j) (gs j) /\ grad_shape n (gs j) /\
     fs j xs = fun_min cfg /\ forall y, length y = n -> fun_min cfg <= fs j y) ->
  exists x x' s, fst (polyak_iterate cfg fs gs x0 k) = Some x /\
    fst (polyak_iterate cfg fs gs x0 (S k)) = Some x' /\
    ps_stepsize (snd (polyak_iterate cfg fs gs x0 (S k))) = Fin s /\ 0 <= s /\
    dist2 x' xs <= dist2 x xs - s * (fs k x - fun_min cfg) /\
    dist2 x' xs <= dist2 x xs /\ dist2 x' xs <= dist2 x0 xs.
Proof.
  intros cfg n fs gs x0 xs k Hd He Hms Hm Hw Hx0 Hxs Hf.
  assert (Hone : forall j x st, length x = n ->
    exists x' s, polyak_update cfg (fs j) (gs j) x st = (Some x', snd (polyak_update cfg (fs j) (gs j) x st)) /\
      ps_stepsize (snd (polyak_update cfg (fs j) (gs j) x st)) = Fin s /\ 0 <= s /\ length x' = n /\
      dist2 x' xs <= dist2 x xs - s * (fs j x - fun_min cfg)).
  { intros j x st Hx. destruct (Hf j) as (Hc & Hsh & Hxsm & Hlow).
    pose proof (dot_self_nonneg (gs j x)) as Hg0. fold (sqnorm (gs j x)) in Hg0.
    destruct (polyak_step_fin cfg (fs j x) (sqnorm (gs j x)) Hd He Hg0 Hms) as (s & E & Hs & _).
    { unfold well_posed. destruct (variant cfg) eqn:V; [specialize (Hw eq_refl); lra|exact I]. }
    destruct (Hs (Hlow x Hx)) as [Hs0 Hsb].
    unfold polyak_update. rewrite E. destruct (Req_EM_T (ps_momentum cfg) 0) as [_|]; [|contradiction].
    eexists _, s. split; [reflexivity|]. split; [reflexivity|]. split; [exact Hs0|]. split.
    - rewrite vadd_length, smul_length, Hsh by exact Hx. lia.
    - apply (polyak_contract n); auto. rewrite Hxsm. lra. }
  assert (Hall : forall j, exists x st, polyak_iterate cfg fs gs x0 j = (Some x, st) /\ length x = n /\ dist2 x xs <= dist2 x0 xs).
  { induction j as [|j (x & st & E & Hx & Hdist)]; [exists x0, (polyak_init cfg x0); repeat split; auto; lra|].
    simpl. rewrite E. destruct (Hone j x st Hx) as (x' & s & E' & _ & Hs & Hx' & Hb). rewrite E'.
    exists x', (snd (polyak_update cfg (fs j) (gs j) x st)). repeat split; auto.
    destruct (Hf j) as (_ & _ & _ & Hlow). specialize (Hlow x Hx). nra. }
  destruct (Hall k) as (x & st & E & Hx & Hdist). destruct (Hone k x st Hx) as (x' & s & E' & Es & Hs & Hx' & Hb).
  exists x, x', s. simpl. rewrite E. rewrite E'. cbn [fst snd].
  destruct (Hf k) as (_ & _ & _ & Hlow). specialize (Hlow x Hx).
  split; [reflexivity|]. split; [reflexivity|]. split; [exact Es|]. split; [exact Hs|].
  split; [exact Hb|]. split; nra.
Qed.
Print Assumptions C24_contraction.

(** With the default delta = 0 and L-smooth batches, as long as the parameters are not NaN the
    best of the first k batch values is within d0^2/(k min(max_stepsize, 1/(2L))) of fun_min;
    NaN arises only right after a point with zero gradient. *)
Theorem C24_rate : forall cfg n fs gs x0 xs L k,
  variant cfg = SPS_max -> ps_delta cfg = 0 -> 0 < ps_max_stepsize cfg -> ps_momentum cfg = 0 ->
  length x0 = n -> length xs = n -> 0 < L ->
  (forall j, grad_convex n (fs j) (gs j) /\ grad_smooth n L (fs j) (gs j) /\ grad_shape n (gs j) /\
     fs j xs = fun_min cfg /\ forall y, length y = n -> fun_min cfg <= fs j y) ->
  (0 < k)%nat ->
  (exists j x, (j < k)%nat /\ fst (polyak_iterate cfg fs gs x0 j) = Some x /\ sqnorm (gs j x) = 0 /\
     fs j x = fun_min cfg) \/
  (exists j x, (j < k)%nat /\ fst (polyak_iterate cfg fs gs x0 j) = Some x /\
     fs j x - fun_min cfg <= dist2 x0 xs / (INR k * Rmin (ps_max_stepsize cfg) (/ (2 * L)))).
Proof.
  intros cfg n fs gs x0 xs L k V Hd Hms Hm Hx0 Hxs HL0 Hf Hk.
  set (m := Rmin (ps_max_stepsize cfg) (/ (2 * L))).
  assert (Hm0 : 0 < m) by (apply Rmin_glb_lt; [exact Hms|apply Rinv_0_lt_compat; lra]).
  set (B := dist2 x0 xs / (INR k * m)).
  assert (Hone : forall j x st, length x = n -> sqnorm (gs j x) <> 0 ->
    exists x' s, polyak_update cfg (fs j) (gs j) x st = (Some x', snd (polyak_update cfg (fs j) (gs j) x st)) /\
      m <= s /\ length x' = n /\ dist2 x' xs <= dist2 x xs - s * (fs j x - fun_min cfg)).
  { intros j x st Hx Hne. destruct (Hf j) as (Hc & HL & Hsh & Hxsm & Hlow).
    pose proof (dot_self_nonneg (gs j x)) as Hg0. fold (sqnorm (gs j x)) in Hg0.
    pose proof (smooth_grad_bound n L (fs j) (gs j) (fun_min cfg) x HL Hsh HL0 Hlow Hx) as Hgb.
    assert (E : polyak_stepsize cfg (fs j x) (sqnorm (gs j x)) = Fin (Rmin ((fs j x - fun_min cfg) / sqnorm (gs j x)) (ps_max_stepsize cfg))).
    { unfold polyak_stepsize. rewrite V. unfold xdiv. rewrite Hd, Rplus_0_r. destruct (Req_EM_T _ 0); [contradiction|reflexivity]. }
    set (s := Rmin ((fs j x - fun_min cfg) / sqnorm (gs j x)) (ps_max_stepsize cfg)) in *.
    assert (Hq : / (2 * L) <= (fs j x - fun_min cfg) / sqnorm (gs j x)).
    { apply Rmult_le_reg_r with (sqnorm (gs j x)); [lra|].
      replace ((fs j x - fun_min cfg) / sqnorm (gs j x) * sqnorm (gs j x)) with (fs j x - fun_min cfg) by (field; exact Hne).
      apply Rmult_le_reg_l with (2 * L); [lra|]. rewrite <- Rmult_assoc, Rinv_r by lra. lra. }
    assert (Hms' : m <= s) by (unfold m, s; apply Rmin_glb; [eapply Rle_trans; [apply Rmin_r|exact Hq]|apply Rmin_l]).
    unfold polyak_update. rewrite E. destruct (Req_EM_T (ps_momentum cfg) 0) as [_|]; [|contradiction].
    eexists _, s. split; [reflexivity|]. split; [exact Hms'|]. split.
    - rewrite vadd_length, smul_length, Hsh by exact Hx. lia.
    - apply (polyak_contract n); auto; [rewrite Hxsm; lra|lra|].
      apply Rle_trans with ((fs j x - fun_min cfg) / sqnorm (gs j x) * sqnorm (gs j x)).
      + apply Rmult_le_compat_r; [exact Hg0|apply Rmin_l].
      + right. field. exact Hne. }
  assert (Hind : forall j, (j <= k)%nat ->
     (exists i x, (i < j)%nat /\ fst (polyak_iterate cfg fs gs x0 i) = Some x /\ sqnorm (gs i x) = 0 /\ fs i x = fun_min cfg) \/
     (exists i x, (i < j)%nat /\ fst (polyak_iterate cfg fs gs x0 i) = Some x /\ fs i x - fun_min cfg <= B) \/
     (exists x st, polyak_iterate cfg fs gs x0 j = (Some x, st) /\ length x = n /\ dist2 x xs <= dist2 x0 xs - INR j * (m * B) /\
        ((0 < j)%nat -> dist2 x xs < dist2 x0 xs - INR j * (m * B)))).
  { induction j as [|j IH]; intros Hj.
    - right. right. exists x0, (polyak_init cfg x0). simpl. split; [reflexivity|]. split; [exact Hx0|]. split; [lra|lia].
    - destruct (IH ltac:(lia)) as [(i & x & Hi & H1 & H2)|[(i & x & Hi & H1 & H2)|(x & st & E & Hx & Hdist & _)]].
      + left. exists i, x. split; [lia|auto].
      + right. left. exists i, x. split; [lia|auto].
      + destruct (Req_EM_T (sqnorm (gs j x)) 0) as [E0|E0].
        * left. exists j, x. split; [lia|]. rewrite E. split; [reflexivity|]. split; [exact E0|].
          destruct (Hf j) as (Hc & _ & _ & Hxsm & Hlow). specialize (Hlow x Hx). specialize (Hc x xs Hx Hxs).
          pose proof (dot_abs_le_norm (gs j x) (vsub xs x)) as Hcs.
          assert (En : norm2 (gs j x) = 0) by (unfold norm2; fold (sqnorm (gs j x)); rewrite E0; apply sqrt_0).
          rewrite En, Rmult_0_l in Hcs. pose proof (Rle_abs (- dot (gs j x) (vsub xs x))) as Ha.
          rewrite Rabs_Ropp in Ha. lra.
        * destruct (Rle_lt_dec (fs j x - fun_min cfg) B) as [Hle|Hlt].
          -- right. left. exists j, x. split; [lia|]. rewrite E. auto.
          -- destruct (Hone j x st Hx E0) as (x' & s & E' & Hs & Hx' & Hb). right. right.
             exists x', (snd (polyak_update cfg (fs j) (gs j) x st)). simpl. rewrite E. split; [exact E'|]. split; [exact Hx'|].
             destruct (Hf j) as (_ & _ & _ & _ & Hlow). specialize (Hlow x Hx).
             assert (Hsm : m * B < s * (fs j x - fun_min cfg)).
             { apply Rlt_le_trans with (m * (fs j x - fun_min cfg)); [apply Rmult_lt_compat_l; assumption|].
               apply Rmult_le_compat_r; lra. }
             change (match j with 0%nat => 1 | S _ => INR j + 1 end) with (INR (S j)). rewrite S_INR.
             split; [|intros _]; lra. }
  destruct (Hind k (le_n k)) as [H|[H|(x & st & _ & _ & _ & H)]]; [left; exact H|right; exact H|exfalso].
  specialize (H Hk). assert (HkR : 0 < INR k) by (apply lt_0_INR; exact Hk).
  assert (E : INR k * (m * B) = dist2 x0 xs) by (unfold B; field; split; lra).
  pose proof (dist2_nonneg x xs). lra.
Qed.
Print Assumptions C24_rate.

(** But with the default options (SPS_max, delta = 0) an update at an exact minimiser
    divides 0 by 0: the step and the parameters become NaN. *)
Theorem C24_nan_at_minimum_refuted : forall cfg f gradf x st,
  variant cfg = SPS_max -> ps_delta cfg = 0 -> f x = fun_min cfg -> gradf x = vzero (length x) ->
  ps_stepsize (snd (polyak_update cfg f gradf x st)) = NaN /\
  fst (polyak_update cfg f gradf x st) = None.
Proof.
  intros cfg f gradf x st V Hd Hx Hg. unfold polyak_update, polyak_stepsize. rewrite V, Hd, Hx, Hg.
  assert (E : sqnorm (vzero (length x)) + 0 = 0) by (unfold sqnorm; rewrite dot_vzero_l; ring).
  rewrite E. unfold xdiv. destruct (Req_EM_T 0 0) as [_|]; [|lra].
  destruct (Rlt_dec 0 (fun_min cfg - fun_min cfg)) as [|_]; [lra|].
  destruct (Rlt_dec (fun_min cfg - fun_min cfg) 0) as [|_]; [lra|]. split; reflexivity.
Qed.
Print Assumptions C24_nan_at_minimum_refuted.

Definition hsq (v : vec) : R := / 2 * dot v v.
Lemma hsq_convex n : grad_convex n hsq (fun v => v) /\ grad_smooth n 1 hsq (fun v => v).
Proof.
  split; intros x y Hx Hy; unfold hsq; pose proof (dist2_nonneg y x);
  assert (E : dist2 y x = dot y y - 2 * dot x (vsub y x) - dot x x) by vring; lra.
Qed.
(** Non-vacuity of the hypotheses of the C24 theorems: f = ||x||^2/2, fun_min = 0, xs = 0. *)
Example C24_example : forall n,
  grad_convex n hsq (fun v => v) /\ grad_smooth n 1 hsq (fun v => v) /\
  grad_shape n (fun v => v) /\ hsq (vzero n) = 0 /\ (forall y, length y = n -> 0 <= hsq y).
Proof.
  intros n. destruct (hsq_convex n) as [H1 H2]. split; [exact H1|]. split; [exact H2|]. split; [intros x H; exact H|].
  unfold hsq. split; [rewrite dot_vzero_l; ring|]. intros y _. pose proof (dot_self_nonneg y). lra.
Qed.

(** *** C25: Armijo SGD *)
Theorem C25_line_search : forall cfg f goldstein x g s0,
  0 < decrease_factor cfg -> 0 < increase_factor cfg -> 0 < s0 <= ar_max_stepsize cfg ->
  exists s k, armijo_line_search cfg f goldstein x (f x) g s0
      = (s, vadd x (smul (- s) g), f (vadd x (smul (- s) g))) /\
   0 < s <= ar_max_stepsize cfg /\ (k <= ar_maxls cfg)%nat /\
   (k = ar_maxls cfg \/
    (armijo_ok f x g (1 - aggressiveness cfg) (ar_eps cfg) s /\
     (goldstein = true -> goldstein_ok f x g (1 - aggressiveness cfg) s))).
Proof.
  intros cfg f gd x g s0 Hd Hi Hs. destruct (armijo_ls_spec cfg f gd x g s0 Hd Hi Hs) as (s & k & E & Hb & Hk & Ho & _).
  exists s, k. auto.
Qed.
Print Assumptions C25_line_search.

(** Without Goldstein the search is a pure backtracking. *)
Theorem C25_backtracking : forall cfg f x g s0,
  0 < decrease_factor cfg <= 1 -> 0 < s0 <= ar_max_stepsize cfg ->
  exists k, (k <= ar_maxls cfg)%nat /\
   let s := s0 * decrease_factor cfg ^ k in
   armijo_line_search cfg f false x (f x) g s0 = (s, vadd x (smul (- s) g), f (vadd x (smul (- s) g))) /\
   (forall j, (j < k)%nat -> ~ armijo_ok f x g (1 - aggressiveness cfg) (ar_eps cfg) (s0 * decrease_factor cfg ^ j)) /\
   (k = ar_maxls cfg \/ armijo_ok f x g (1 - aggressiveness cfg) (ar_eps cfg) s).
Proof. intros. apply plain_ls_spec; assumption. Qed.
Print Assumptions C25_backtracking.

(** Steps stay in (0, max_stepsize] for every sequence of batches. *)
Lemma armijo_steps cfg fs gs x0 : 0 < decrease_factor cfg -> 0 < increase_factor cfg -> 0 < ar_max_stepsize cfg ->
  forall k, 0 < ar_stepsize (snd (armijo_iterate cfg fs gs x0 k)) <= ar_max_stepsize cfg /\
    0 < reset_stepsize cfg (ar_stepsize (snd (armijo_iterate cfg fs gs x0 k))) <= ar_max_stepsize cfg.
Proof.
  intros Hd Hi Hm.
  assert (Hr : forall s, 0 < s <= ar_max_stepsize cfg -> 0 < reset_stepsize cfg s <= ar_max_stepsize cfg).
  { intros s Hs. unfold reset_stepsize. destruct (reset cfg); try exact Hs.
    split; [apply Rmin_glb_lt; [apply Rmult_lt_0_compat; lra|lra]|apply Rmin_r]. }
  intros k. assert (H : 0 < ar_stepsize (snd (armijo_iterate cfg fs gs x0 k)) <= ar_max_stepsize cfg); [|split; auto].
  induction k as [|k IH]; [simpl; lra|]. simpl. destruct (armijo_iterate cfg fs gs x0 k) as [x st]. cbn [snd] in IH.
  unfold armijo_update.
  destruct (armijo_ls_spec cfg (fs k) (match reset cfg with Goldstein => true | _ => false end) x (gs k x)
     (reset_stepsize cfg (ar_stepsize st)) Hd Hi (Hr _ IH)) as (s & j & E & Hb & _).
  rewrite E. destruct (Req_EM_T (ar_momentum cfg) 0); exact Hb.
Qed.
Theorem C25_stepsize_bounds : forall cfg fs gs x0 k,
  0 < decrease_factor cfg -> 0 < increase_factor cfg -> 0 < ar_max_stepsize cfg ->
  let s := ar_stepsize (snd (armijo_iterate cfg fs gs x0 k)) in
  0 < s <= ar_max_stepsize cfg /\ 0 < reset_stepsize cfg s <= ar_max_stepsize cfg.
Proof. intros. apply armijo_steps; assumption. Qed.
Print Assumptions C25_stepsize_bounds.

(** "conservative" produces a non-increasing sequence of step sizes. *)
Theorem C25_conservative : forall cfg fs gs x0 k, reset cfg = Conservative ->
  0 < decrease_factor cfg <= 1 -> 0 < increase_factor cfg -> 0 < ar_max_stepsize cfg ->
  ar_stepsize (snd (armijo_iterate cfg fs gs x0 (S k))) <= ar_stepsize (snd (armijo_iterate cfg fs gs x0 k)).
Proof.
  intros cfg fs gs x0 k Hr Hd Hi Hm. destruct (armijo_steps cfg fs gs x0 ltac:(lra) Hi Hm k) as [Hs _].
  simpl. destruct (armijo_iterate cfg fs gs x0 k) as [x st]. cbn [snd] in *.
  unfold armijo_update, reset_stepsize. rewrite Hr.
  destruct (plain_ls_spec cfg (fs k) x (gs k x) (ar_stepsize st) Hd Hs) as (j & _ & E & _). cbv zeta in E. rewrite E.
  assert (Hp : decrease_factor cfg ^ j <= 1).
  { clear -Hd. induction j; simpl; [lra|]. assert (0 < decrease_factor cfg ^ j) by (apply pow_lt; lra). nra. }
  destruct (Req_EM_T (ar_momentum cfg) 0); cbn [snd ar_stepsize]; nra.
Qed.
Print Assumptions C25_conservative.

(** Without momentum, state.value is the batch loss at the returned parameters, and it has
    decreased sufficiently unless the search was cut by maxls. *)
Theorem C25_descent : forall cfg f gradf x st,
  0 < decrease_factor cfg -> 0 < increase_factor cfg -> 0 < ar_stepsize st <= ar_max_stepsize cfg ->
  ar_momentum cfg = 0 -> 0 < ar_max_stepsize cfg ->
  let '(x', st') := armijo_update cfg f gradf x st in
  ar_value st' = Fin (f x') /\
  x' = vadd x (smul (- ar_stepsize st') (gradf x)) /\
  exists k, (k <= ar_maxls cfg)%nat /\
   (k = ar_maxls cfg \/
    f x' <= f x - (1 - aggressiveness cfg) * ar_stepsize st' * sqnorm (gradf x) + ar_eps cfg).
Proof.
  intros cfg f gradf x st Hd Hi Hs Hm Hms.
  assert (Hr : 0 < reset_stepsize cfg (ar_stepsize st) <= ar_max_stepsize cfg).
  { unfold reset_stepsize. destruct (reset cfg); try exact Hs.
    split; [apply Rmin_glb_lt; [apply Rmult_lt_0_compat; lra|lra]|apply Rmin_r]. }
  unfold armijo_update.
  destruct (armijo_ls_spec cfg f (match reset cfg with Goldstein => true | _ => false end) x (gradf x)
     (reset_stepsize cfg (ar_stepsize st)) Hd Hi Hr) as (s & j & E & Hb & Hk & Ho & _).
  rewrite E. destruct (Req_EM_T (ar_momentum cfg) 0) as [_|]; [|contradiction]. cbn [ar_value ar_stepsize].
  split; [reflexivity|]. split; [reflexivity|]. exists j. split; [exact Hk|].
  destruct Ho as [Ho|[Ho _]]; [left; exact Ho|right; exact Ho].
Qed.
Print Assumptions C25_descent.

(** The documented lower bound min(1/L, max_stepsize) holds when additionally
    2 * aggressiveness * decrease_factor >= 1 (true for the defaults 0.9 and 0.8) ... *)
Theorem C25_min_stepsize : forall cfg n fs gs x0 L k, reset cfg <> Goldstein ->
  0 < decrease_factor cfg <= 1 -> 1 <= increase_factor cfg -> 0 < ar_max_stepsize cfg -> 0 <= ar_eps cfg -> 0 < L ->
  1 <= 2 * aggressiveness cfg * decrease_factor cfg -> length x0 = n ->
  (forall j, grad_smooth n L (fs j) (gs j) /\ grad_shape n (gs j)) ->
  Rmin (/ L) (ar_max_stepsize cfg) <= ar_stepsize (snd (armijo_iterate cfg fs gs x0 k)).
Proof.
  intros cfg n fs gs x0 L k Hrs Hd Hi Hm He HL0 Hag Hx0 Hf.
  set (m := Rmin (/ L) (ar_max_stepsize cfg)).
  assert (Hm0 : 0 < m) by (apply Rmin_glb_lt; [apply Rinv_0_lt_compat; exact HL0|exact Hm]).
  assert (H : length (fst (armijo_iterate cfg fs gs x0 k)) = n /\
     (forall v, ar_velocity (snd (armijo_iterate cfg fs gs x0 k)) = Some v -> length v = n) /\
     m <= ar_stepsize (snd (armijo_iterate cfg fs gs x0 k))); [|apply H].
  induction k as [|k (Hx & Hv & Hs)].
  - cbn. split; [exact Hx0|]. split; [|apply Rmin_r]. intros v Hv. destruct (Req_EM_T (ar_momentum cfg) 0); [discriminate|].
    injection Hv as <-. unfold vzero. rewrite repeat_length. exact Hx0.
  - destruct (armijo_steps cfg fs gs x0 ltac:(lra) ltac:(lra) Hm k) as [Hb Hrb].
    simpl. destruct (armijo_iterate cfg fs gs x0 k) as [x st]. cbn [fst snd] in *.
    unfold armijo_update.
    assert (Hg : (match reset cfg with Goldstein => true | _ => false end) = false) by (destruct (reset cfg); congruence).
    rewrite Hg.
    assert (Hr : m <= reset_stepsize cfg (ar_stepsize st)).
    { unfold reset_stepsize. destruct (reset cfg); try exact Hs. apply Rmin_glb; [nra|apply Rmin_r]. }
    set (s0 := reset_stepsize cfg (ar_stepsize st)) in *.
    destruct (plain_ls_spec cfg (fs k) x (gs k x) s0 Hd Hrb) as (j & _ & E & Hbad & _). cbv zeta in E. rewrite E.
    destruct (Hf k) as [HL Hsh].
    assert (Hstep : m <= s0 * decrease_factor cfg ^ j).
    { destruct j as [|j]; [simpl; lra|].
      assert (Hpw : 0 < s0 * decrease_factor cfg ^ j) by (apply Rmult_lt_0_compat; [lra|apply pow_lt; lra]).
      assert (Hna : 2 * aggressiveness cfg < s0 * decrease_factor cfg ^ j * L).
      { apply Rnot_le_lt. intros Hle. apply (Hbad j ltac:(lia)).
        apply (armijo_short cfg (fs k) x (gs k x) n L (gs k)); auto. unfold ar_coef. lra. }
      apply Rle_trans with (/ L); [apply Rmin_l|]. apply Rmult_le_reg_r with L; [exact HL0|].
      rewrite Rinv_l by lra. simpl. nra. }
    set (s := s0 * decrease_factor cfg ^ j) in *.
    assert (Hl : length (vadd x (smul (- s) (gs k x))) = n) by (rewrite vadd_length, smul_length, Hsh by exact Hx; lia).
    destruct (Req_EM_T (ar_momentum cfg) 0) as [_|_]; cbn [fst snd ar_velocity ar_stepsize].
    + split; [exact Hl|]. split; [discriminate|exact Hstep].
    + assert (Hvl : length (match ar_velocity st with Some v => v | None => vzero (length x) end) = n).
      { destruct (ar_velocity st); [apply Hv; reflexivity|]. unfold vzero. rewrite repeat_length. exact Hx. }
      assert (Hl2 : forall V, length V = n -> length (vadd (vadd x (smul (- s) (gs k x))) (smul (ar_momentum cfg) V)) = n)
        by (intros V HV; rewrite vadd_length, Hl, smul_length, HV; lia).
      specialize (Hl2 _ Hvl). split; [exact Hl2|]. split; [|exact Hstep]. intros v Ev. injection Ev as <-. rewrite vsub_length. etransitivity; [apply f_equal2; [exact Hl2|exact Hx]|apply Nat.max_id].
Qed.
Print Assumptions C25_min_stepsize.

(** ... and is false without it: aggressiveness 0.6 > 0.5 and decrease_factor 0.5 on
    f(x) = x^2/2 (L = 1) with max_stepsize 1.5 give the step 0.75 < min(1/L, max_stepsize). *)
Theorem C25_min_stepsize_refuted : exists cfg,
  / 2 < aggressiveness cfg < 1 /\ 0 < decrease_factor cfg < 1 /\ reset cfg = Increase /\
  grad_smooth 1 1 hsq (fun v => v) /\
  ar_stepsize (snd (armijo_iterate cfg (fun _ => hsq) (fun _ v => v) [1] 1)) = 3 / 4 /\
  3 / 4 < Rmin (/ 1) (ar_max_stepsize cfg).
Proof.
  exists {| aggressiveness := 6 / 10; decrease_factor := / 2; increase_factor := 3 / 2; reset := Increase;
            ar_momentum := 0; ar_max_stepsize := 3 / 2; ar_maxls := 15; ar_eps := 0 |}.
  set (cfg := Build_armijo_config _ _ _ _ _ _ _ _). cbn [aggressiveness decrease_factor reset ar_max_stepsize].
  split; [cbn; lra|]. split; [cbn; lra|]. split; [reflexivity|]. split; [apply hsq_convex|].
  split; [|rewrite Rinv_1; cbn; rewrite Rmin_left; lra].
  cbn [armijo_iterate]. unfold armijo_update. cbn [reset cfg armijo_init].
  assert (Er : reset_stepsize cfg (ar_stepsize (armijo_init cfg [1])) = 3 / 2).
  { unfold reset_stepsize. cbn. apply Rmin_right. lra. }
  rewrite Er.
  destruct (plain_ls_spec cfg hsq [1] [1] (3 / 2)) as (k & Hk & E & Hbad & Hok); [cbn; lra|cbn; lra|].
  cbv zeta in E. rewrite E. cbn [decrease_factor cfg] in *.
  assert (Hk1 : k = 1%nat).
  { destruct k as [|[|k]]; [exfalso|reflexivity|exfalso].
    - destruct Hok as [Hok|Hok]; [cbn in Hok; discriminate|]. cbn in Hok.
      unfold armijo_ok, hsq, sqnorm, ar_coef in Hok. cbn in Hok. lra.
    - apply (Hbad 1%nat); [lia|]. unfold armijo_ok, hsq, sqnorm, ar_coef. cbn. lra. }
  subst k. destruct (Req_EM_T (ar_momentum cfg) 0) as [_|Hm]; [cbn; lra|exfalso; apply Hm; reflexivity].
Qed.
Print Assumptions C25_min_stepsize_refuted.

(** With momentum the field documented as "current value of the loss" is not the loss at the
    returned parameters: second update of f(x) = x^2/2 with momentum 1/2. *)
Theorem C25_value_refuted : exists cfg x st,
  ar_momentum cfg <> 0 /\ armijo_iterate cfg (fun _ => hsq) (fun _ v => v) [1] 2 = (x, st) /\
  ar_value st <> Fin (hsq x).
Proof.
  set (cfg := {| aggressiveness := 9 / 10; decrease_factor := 8 / 10; increase_factor := 3 / 2; reset := Increase;
            ar_momentum := / 2; ar_max_stepsize := / 2; ar_maxls := 15; ar_eps := 0 |}).
  assert (Hone : forall x st, ar_stepsize st = / 2 ->
     armijo_line_search cfg hsq false [x] (hsq [x]) [x] (reset_stepsize cfg (ar_stepsize st))
     = (/ 2, [x / 2], hsq [x / 2])).
  { intros x st Hs. assert (Er : reset_stepsize cfg (ar_stepsize st) = / 2).
    { unfold reset_stepsize. rewrite Hs. cbn. apply Rmin_right. lra. }
    rewrite Er. destruct (plain_ls_spec cfg hsq [x] [x] (/ 2)) as (k & Hk & E & Hbad & Hok); [cbn; lra|cbn; lra|].
    cbv zeta in E. destruct k as [|k].
    - rewrite E. cbn [pow]. rewrite Rmult_1_r. cbn [vadd smul map].
      replace (x + - / 2 * x) with (x / 2) by field. reflexivity.
    - exfalso. apply (Hbad 0%nat); [lia|]. cbn [pow]. rewrite Rmult_1_r.
      unfold armijo_ok, hsq, sqnorm, ar_coef. cbn. assert (0 <= x * x) by nra. lra. }
  assert (Hup : forall x v st, ar_stepsize st = / 2 -> ar_velocity st = Some [v] ->
     armijo_update cfg hsq (fun v => v) [x] st = ([x / 2 + / 2 * v],
       {| ar_iter := ar_iter st + 1; ar_error := Fin (norm2 [x]); ar_value := Fin (hsq [x / 2]);
          ar_stepsize := / 2; ar_velocity := Some [x / 2 + / 2 * v - x] |})).
  { intros x v st Hs Hv. unfold armijo_update. cbn [reset cfg]. rewrite (Hone x st Hs).
    change (ar_momentum cfg) with (/ 2). destruct (Req_EM_T (/ 2) 0); [lra|]. rewrite Hv.
    cbn [vadd smul map vsub]. reflexivity. }
  exists cfg. eexists _, _. split; [cbn; lra|].
  assert (Ei : armijo_init cfg [1] = {| ar_iter := 0; ar_error := PInf; ar_value := PInf; ar_stepsize := / 2; ar_velocity := Some [0] |}).
  { unfold armijo_init. change (ar_momentum cfg) with (/ 2). destruct (Req_EM_T (/ 2) 0); [lra|]. reflexivity. }
  split.
  - cbn [armijo_iterate]. rewrite Ei. rewrite (Hup 1 0) by reflexivity.
    rewrite (Hup _ (1 / 2 + / 2 * 0 - 1)) by reflexivity. reflexivity.
  - cbn [ar_value]. unfold hsq. cbn. intros E. injection E as E. lra.
Qed.
Print Assumptions C25_value_refuted.

Example C25_example : exists cfg : armijo_config,
  reset cfg <> Goldstein /\ 0 < decrease_factor cfg <= 1 /\ 1 <= increase_factor cfg /\ 0 < ar_max_stepsize cfg /\
  1 <= 2 * aggressiveness cfg * decrease_factor cfg /\
  forall n, grad_smooth n 1 hsq (fun v => v) /\ grad_shape n (fun v => v).
Proof.
  exists {| aggressiveness := 9 / 10; decrease_factor := 8 / 10; increase_factor := 3 / 2; reset := Increase;
            ar_momentum := / 2; ar_max_stepsize := 1; ar_maxls := 15; ar_eps := 0 |}.
  cbn. repeat split; try lra; try discriminate. apply hsq_convex. intros x H. exact H.
Qed.
