From Coq Require Import Reals List Bool Lra Lia Arith.
From Verif Require Import Prelude Vec Loop Run Backtracking BacktrackingProofs Zoom.
Import ListNotations.
Open Scope R_scope.

Lemma Rltb_true a b : Rltb a b = true <-> a < b.
Proof. unfold Rltb. destruct (Rlt_dec a b); split; intros; auto; try discriminate; lra. Qed.
Lemma Rleb_true a b : Rleb a b = true <-> a <= b.
Proof. unfold Rleb. destruct (Rle_dec a b); split; intros; auto; try discriminate; lra. Qed.

Lemma xle_min2 a b t : xle_bound (xmin2 a b) t <-> (a <> NaN /\ b <> NaN /\ (xle_bound a t \/ xle_bound b t)).
Proof.
  destruct a as [u| | |], b as [v| | |]; simpl; try (intuition congruence).
  unfold Rmin. destruct (Rle_dec u v); intuition (try congruence; lra).
Qed.
Lemma xle_max2 a b t : xle_bound (xmax2 a b) t <-> (xle_bound a t /\ xle_bound b t).
Proof.
  destruct a as [u| | |], b as [v| | |]; simpl; try (intuition congruence).
  unfold Rmax. destruct (Rle_dec u v); intuition lra.
Qed.
Lemma xmax2_nan a b : xmax2 a b <> NaN <-> (a <> NaN /\ b <> NaN).
Proof. destruct a, b; simpl; intuition congruence. Qed.
Lemma xaddr_nan a r : xaddr a r <> NaN <-> a <> NaN.
Proof. destruct a; simpl; intuition congruence. Qed.
Lemma xle_addr a r t : xle_bound (xaddr a r) t <-> xle_bound a (t - r).
Proof. destruct a; simpl; intuition lra. Qed.
Lemma xle_not_nan a t : xle_bound a t -> a <> NaN.
Proof. destruct a; simpl; intuition congruence. Qed.
Lemma clean_gt0 d : xgtb (clean_error d) 0 = negb (xleb (clean_error d) 0).
Proof. apply xgtb_not_leb, clean_error_form. Qed.

Section S.
Context {G : Type}.
Variable cfg : zoom_config.
Variable f : vec -> xnum.
Variable gradf : vec -> G.
Variable vdot : G -> vec -> xnum.
Variables x d : vec.
Variables fx sl s0 : R.
Hypothesis Htol : 0 <= ztol cfg.
Hypothesis Hs0 : 0 < s0.
Hypothesis Hmax : 0 < zmax cfg.
Hypothesis Hinc : 1 <= increase_factor cfg.
Hypothesis Hrc : 0 <= rel_tol_cubic cfg.
Hypothesis Hrq : 0 <= rel_tol_quad cfg.

Notation pt s := (vadd x (smul s d)).
Notation phi s := (f (pt s)).
Notation dphi s := (vdot (gradf (pt s)) d).
Notation dok s t := (decrease_ok cfg f gradf vdot x d fx sl s t).
Notation cok s t := (curvature_ok cfg gradf vdot x d sl s t).
Notation derr s := (decrease_error cfg s (phi s) (dphi s) fx sl).
Notation cerr s := (curvature_error cfg (dphi s) sl).

Lemma derr_le s t : 0 <= t -> (xleb (derr s) t = true <-> dok s t).
Proof.
  intros Ht. unfold decrease_error, decrease_ok. rewrite clean_error_le by exact Ht.
  rewrite xle_min2, xmax2_nan, !xaddr_nan, xle_max2, !xle_addr.
  replace (t - (- fx - zc3 cfg * Rabs fx)) with (fx + zc3 cfg * Rabs fx + t) by ring.
  replace (t - (- fx - zc1 cfg * s * sl)) with (fx + zc1 cfg * s * sl + t) by ring.
  replace (t - - ((2 * zc1 cfg - 1) * sl)) with ((2 * zc1 cfg - 1) * sl + t) by ring.
  split.
  - intros ((H1 & H2) & _ & [H3|H3]); split; auto. right; tauto.
  - intros (H1 & [H2|[H2 H3]]); (split; [split; auto; apply (xle_not_nan _ _ H2)|split; [apply (xle_not_nan _ _ H2)|]]); tauto.
Qed.
Lemma cerr_le s t : 0 <= t -> (xleb (cerr s) t = true <-> cok s t).
Proof.
  intros Ht. unfold curvature_error, curvature_ok. rewrite clean_error_le by exact Ht. rewrite xle_addr.
  destruct (dphi s) as [v| | |]; simpl; split; intros H; try tauto; try (destruct H as (w & E & _); discriminate).
  - exists v. split; [reflexivity|]. lra.
  - destruct H as (w & E & H). injection E as ->. lra.
Qed.
Lemma err_le s t : 0 <= t -> (xleb (xmaximum (derr s) (cerr s)) t = true <-> (dok s t /\ cok s t)).
Proof.
  intros Ht. rewrite <- derr_le, <- cerr_le by exact Ht. unfold decrease_error, curvature_error. apply xmaximum_le.
Qed.

Record binv (st : zstate G) : Prop := {
  b_params : z_params st = x; b_vi : z_value_init st = fx; b_si : z_slope_init st = sl; b_dir : z_dir st = d;
  b_done : z_done st = false; b_failed : z_failed st = false;
  b_safe : 0 <= z_safe st <= zmax cfg; b_safe_ok : z_safe st = 0 \/ dok (z_safe st) (ztol cfg);
  b_search : z_found st = false ->
    0 <= z_prev st <= zmax cfg /\ z_safe st = z_prev st /\ (z_iter st = 0%nat -> z_prev st = 0) /\ ((0 < z_iter st)%nat -> 0 < z_prev st);
  b_zoom : z_found st = true ->
    0 <= z_low st <= zmax cfg /\ 0 <= z_high st <= zmax cfg /\ 0 < Rmax (z_low st) (z_high st)
}.

(** What one trial does from a live state. *)
Record trial_spec (st : zstate G) (s' : R) (st' : zstate G) : Prop := {
  t_range : 0 < s' <= zmax cfg;
  t_iter : z_iter st' = S (z_iter st);
  t_const : z_value_init st' = fx /\ z_slope_init st' = sl /\ z_dir st' = d;
  t_done : z_done st' = true -> dok s' (ztol cfg) /\ (cok s' (ztol cfg) \/ s' = zmax cfg) /\
             z_params st' = pt s' /\ z_value st' = phi s' /\ z_grad st' = gradf (pt s');
  t_wolfe : dok s' (ztol cfg) -> cok s' (ztol cfg) -> z_done st' = true;
  t_open : z_done st' = false -> z_params st' = x;
  t_derr : z_decrease_error st' = derr s';
  t_excl : z_failed st' = true -> z_done st' = false;
  t_last : (zmaxiter cfg <= z_iter st')%nat -> z_done st' = true \/ z_failed st' = true;
  t_safe_mono : z_safe st <= z_safe st';
  t_safe_new : dok s' (ztol cfg) -> s' <= z_safe st';
  t_safe_src : z_safe st' = z_safe st \/ (z_safe st' = s' /\ dok s' (ztol cfg));
  t_evals : z_num_fun st' = z_num_fun st /\ z_num_grad st' = z_num_grad st;
  t_live : z_done st' = false -> z_failed st' = false -> binv st'
}.

Lemma search_spec s st : binv st -> z_found st = false -> (z_iter st = 0%nat -> s = s0) ->
  trial_spec st (fst (search_interval cfg f gradf vdot s st)) (snd (search_interval cfg f gradf vdot s st)).
Proof.
  intros [Bp Bv Bs Bd Bdn Bf Bsf Bso Bse _] Hf Hs. destruct (Bse Hf) as (Hp & Esafe & Hp0 & Hp1).
  unfold search_interval. cbn [fst snd].
  set (s' := Rmin (if Nat.eqb (z_iter st) 0 then s else increase_factor cfg * z_prev st) (zmax cfg)).
  unfold line_point. rewrite Bp, Bd, Bv, Bs.
  pose proof (Rmin_r (if Nat.eqb (z_iter st) 0 then s else increase_factor cfg * z_prev st) (zmax cfg)) as Hle. fold s' in Hle.
  assert (Hpos : 0 < s').
  { unfold s'. destruct (Nat.eqb_spec (z_iter st) 0) as [E|E]; apply Rmin_pos; try assumption; [rewrite (Hs E); assumption|].
    apply Rmult_lt_0_compat; [lra|apply Hp1; lia]. }
  assert (Hgrow : z_prev st <= s').
  { unfold s'. destruct (Nat.eqb_spec (z_iter st) 0) as [E|E]; [rewrite (Hp0 E); fold s' ; apply Rmin_glb; [rewrite (Hs E); lra|lra]|].
    apply Rmin_glb; [|lra]. nra. }
  clearbody s'.
  pose proof (derr_le s' (ztol cfg) Htol) as HD. pose proof (err_le s' (ztol cfg) Htol) as HE.
  pose proof (derr_le s' 0 (Rle_refl 0)) as HD0.
  assert (Hgt : xgtb (derr s') 0 = negb (xleb (derr s') 0)) by apply clean_gt0.
  assert (Hmono : dok s' 0 -> dok s' (ztol cfg)).
  { intros (N & [H|[H H']]); split; auto; [left|right; split]; destruct (phi s'); simpl in *; auto; try lra; destruct (dphi s'); simpl in *; auto; lra. }
  set (E1 := xleb (xmaximum (derr s') (cerr s')) (ztol cfg)) in *.
  set (HN := (xgtb (derr s') 0 || xgeb (phi s') (z_prev_value st) && Nat.ltb 0 (z_iter st))%bool) in *.
  set (LN := (xgeb (dphi s') (Fin 0) && negb HN)%bool) in *.
  set (fnd := (HN || LN || E1)%bool) in *.
  assert (Hnf : fnd = false -> dok s' (ztol cfg)).
  { unfold fnd. intros E. apply orb_false_iff in E. destruct E as [E _]. apply orb_false_iff in E. destruct E as [E _].
    unfold HN in E. apply orb_false_iff in E. destruct E as [E _]. rewrite Hgt in E. apply Hmono, HD0.
    destruct (xleb (derr s') 0); [reflexivity|discriminate]. }
  set (mx := Rleb (zmax cfg) s') in *.
  assert (Hmx : mx = true -> s' = zmax cfg) by (unfold mx; rewrite Rleb_true; lra).
  set (dn := (E1 || mx && negb fnd)%bool) in *.
  constructor; cbn.
  - lra.
  - lia.
  - auto.
  - intros Hdn. rewrite Hdn. unfold dn in Hdn. apply orb_true_iff in Hdn. destruct Hdn as [H|H].
    + apply HE in H. tauto.
    + apply andb_prop in H. destruct H as [H1 H2]. apply negb_true_iff in H2. split; [apply Hnf, H2|]. split; [right; apply Hmx, H1|]. auto.
  - intros H1 H2. unfold dn. assert (E : E1 = true) by (apply HE; auto). rewrite E. reflexivity.
  - intros ->. reflexivity.
  - reflexivity.
  - intros H. apply andb_prop in H. destruct H as [_ H]. apply negb_true_iff in H. exact H.
  - intros H. destruct dn; [left; reflexivity|right]. simpl. rewrite andb_true_r. apply Nat.leb_le. lia.
  - destruct (xleb (derr s') (ztol cfg)); lra.
  - intros H. apply HD in H. rewrite H. lra.
  - destruct (xleb (derr s') (ztol cfg)) eqn:E; [right|left; reflexivity]. split; [reflexivity|apply HD; reflexivity].
  - auto.
  - intros Hdn Hfl. constructor; cbn.
    + rewrite Hdn. reflexivity.
    + reflexivity.
    + reflexivity.
    + reflexivity.
    + exact Hdn.
    + exact Hfl.
    + destruct (xleb (derr s') (ztol cfg)); lra.
    + destruct (xleb (derr s') (ztol cfg)) eqn:E; [right; apply HD; reflexivity|exact Bso].
    + intros Hfn. specialize (Hnf Hfn). apply HD in Hnf. rewrite Hnf. split; [lra|]. split; [reflexivity|]. split; [lia|]. intros; lra.
    + intros _. destruct LN.
      * repeat split; try lra. pose proof (Rmax_l s' (z_prev st)). lra.
      * repeat split; try lra. pose proof (Rmax_r (z_prev st) s'). lra.
Qed.

(** The middle point is inside the interval, away from both ends. *)
Definition shrink : R := Rmin (Rmin (rel_tol_cubic cfg) (rel_tol_quad cfg)) (1 / 2).
Lemma middle_spec (st : zstate G) :
  let m := choose_middle cfg st in
  let l := z_low st in let h := z_high st in
  Rmin h l + shrink * Rabs (h - l) <= m <= Rmax h l - shrink * Rabs (h - l) /\
  (l <> h -> Rmin h l < m < Rmax h l).
Proof.
  cbv zeta. unfold choose_middle. set (l := z_low st). set (h := z_high st).
  set (cub := cubicmin _ _ _ _ _ _ _). set (qd := quadmin _ _ _ _ _).
  assert (Hsh : shrink <= rel_tol_cubic cfg /\ shrink <= rel_tol_quad cfg /\ shrink <= 1 / 2).
  { unfold shrink. pose proof (Rmin_l (Rmin (rel_tol_cubic cfg) (rel_tol_quad cfg)) (1/2)).
    pose proof (Rmin_r (Rmin (rel_tol_cubic cfg) (rel_tol_quad cfg)) (1/2)).
    pose proof (Rmin_l (rel_tol_cubic cfg) (rel_tol_quad cfg)). pose proof (Rmin_r (rel_tol_cubic cfg) (rel_tol_quad cfg)). lra. }
  pose proof (Rabs_pos (h - l)) as Hab.
  assert (HB : Rmin h l + shrink * Rabs (h - l) <= (l + h) / 2 <= Rmax h l - shrink * Rabs (h - l) /\ (l <> h -> Rmin h l < (l + h) / 2 < Rmax h l)).
  { unfold Rmin, Rmax, Rabs in *. destruct (Rle_dec h l), (Rcase_abs (h - l)); split; try nra; intros; lra. }
  assert (Hw : forall o m r, 0 <= r -> shrink <= r -> o = Some m ->
     within o (Rmin h l + r * Rabs (h - l)) (Rmax h l - r * Rabs (h - l)) = true ->
     Rmin h l + shrink * Rabs (h - l) <= m <= Rmax h l - shrink * Rabs (h - l) /\ (l <> h -> Rmin h l < m < Rmax h l)).
  { intros o m r Hr Hsr -> H. simpl in H. apply andb_prop in H. destruct H as [H1 H2].
    apply Rltb_true in H1. apply Rltb_true in H2. assert (shrink * Rabs (h - l) <= r * Rabs (h - l)) by nra.
    assert (0 <= r * Rabs (h - l)) by nra. split; [lra|]. intros; lra. }
  assert (Hq : forall q, qd = Some q ->
     let m := if within qd (Rmin h l + rel_tol_quad cfg * Rabs (h - l)) (Rmax h l - rel_tol_quad cfg * Rabs (h - l)) then q else (l + h) / 2 in
     Rmin h l + shrink * Rabs (h - l) <= m <= Rmax h l - shrink * Rabs (h - l) /\ (l <> h -> Rmin h l < m < Rmax h l)).
  { intros q Eq. destruct (within qd _ _) eqn:Ew; cbv zeta; [|exact HB]. apply (Hw qd q (rel_tol_quad cfg)); tauto. }
  destruct cub as [m|] eqn:Ec.
  - destruct (within (Some m) (Rmin h l + rel_tol_cubic cfg * Rabs (h - l)) (Rmax h l - rel_tol_cubic cfg * Rabs (h - l))) eqn:Ew.
    + apply (Hw (Some m) m (rel_tol_cubic cfg)); tauto.
    + destruct qd as [q|]; [apply Hq; reflexivity|exact HB].
  - destruct qd as [q|]; [apply Hq; reflexivity|exact HB].
Qed.

Lemma zoom_spec st : binv st -> z_found st = true ->
  trial_spec st (fst (zoom_into_interval cfg f gradf vdot st)) (snd (zoom_into_interval cfg f gradf vdot st)).
Proof.
  intros [Bp Bv Bs Bd Bdn Bf Bsf Bso _ Bz] Hf. destruct (Bz Hf) as (Hl & Hh & Hpos).
  unfold zoom_into_interval. cbn [fst snd].
  pose proof (middle_spec st) as Hm. cbv zeta in Hm. set (m := choose_middle cfg st) in *.
  unfold line_point. rewrite Bp, Bd, Bv, Bs.
  assert (Hm' : 0 < m <= zmax cfg).
  { destruct Hm as [Hm1 Hm2]. destruct (Req_dec (z_low st) (z_high st)) as [E|E].
    - rewrite E in *. rewrite Rminus_diag_eq in Hm1 by reflexivity. rewrite Rabs_R0, Rmult_0_r in Hm1.
      unfold Rmin, Rmax in *. destruct (Rle_dec (z_high st) (z_high st)); lra.
    - specialize (Hm2 E). unfold Rmin, Rmax in *. destruct (Rle_dec (z_high st) (z_low st)); lra. }
  clear Hm. clearbody m.
  pose proof (derr_le m (ztol cfg) Htol) as HD. pose proof (err_le m (ztol cfg) Htol) as HE.
  set (E1 := xleb (xmaximum (derr m) (cerr m)) (ztol cfg)) in *.
  set (HM := (xgtb (derr m) 0 || xgeb (phi m) (z_value_low st))%bool) in *.
  set (HL := (xmul_nonneg (dphi m) (z_high st - z_low st) && negb HM)%bool) in *.
  set (sf := if xleb (derr m) (ztol cfg) then m else z_safe st) in *.
  assert (Hsf : (sf = m /\ dok m (ztol cfg)) \/ (sf = z_safe st /\ ~ dok m (ztol cfg))).
  { unfold sf. destruct (xleb (derr m) (ztol cfg)) eqn:E; [left|right]; split; try reflexivity; [apply HD; reflexivity|].
    intros H. apply HD in H. discriminate. }
  clearbody sf.
  assert (Hmaxsf : (Rmax sf (z_safe st) = z_safe st) \/ (Rmax sf (z_safe st) = m /\ dok m (ztol cfg))).
  { unfold Rmax. destruct (Rle_dec sf (z_safe st)); [left; reflexivity|]. destruct Hsf as [[-> H]|[-> _]]; auto. }
  constructor; cbn.
  - exact Hm'.
  - lia.
  - auto.
  - intros H. rewrite H. apply HE in H. tauto.
  - intros H1 H2. apply HE. auto.
  - intros ->. reflexivity.
  - reflexivity.
  - intros H. apply andb_prop in H. destruct H as [_ H]. apply negb_true_iff in H. exact H.
  - intros H. destruct E1; [left; reflexivity|right]. simpl. rewrite andb_true_r. apply orb_true_iff. left. apply Nat.leb_le. lia.
  - apply Rmax_r.
  - intros H. destruct Hsf as [[-> _]|[_ Hn]]; [apply Rmax_l|contradiction].
  - exact Hmaxsf.
  - auto.
  - intros Hdn Hfl. constructor; cbn.
    + rewrite Hdn. reflexivity.
    + reflexivity.
    + reflexivity.
    + reflexivity.
    + exact Hdn.
    + exact Hfl.
    + destruct Hmaxsf as [->|[-> _]]; lra.
    + destruct Hmaxsf as [->|[-> H]]; auto.
    + intros E. rewrite E in Hf. discriminate.
    + intros _. destruct HM; simpl.
      * assert (HL = false) by (unfold HL; simpl; apply andb_false_r). rewrite H. repeat split; try lra.
        pose proof (Rmax_r (z_low st) m). lra.
      * destruct HL; repeat split; try lra; [pose proof (Rmax_l m (z_low st))|pose proof (Rmax_l m (z_high st))]; lra.
Qed.

Lemma trial_ok s st : binv st -> (z_iter st = 0%nat -> s = s0) ->
  trial_spec st (fst (trial_step cfg f gradf vdot (s, st))) (snd (trial_step cfg f gradf vdot (s, st))).
Proof.
  intros HB Hs. unfold trial_step. destruct (z_found st) eqn:E.
  - apply zoom_spec; assumption.
  - apply search_spec; assumption.
Qed.

Variable given : bool.
Variable g : G.
Let init := (s0, zoom_init given x fx g sl d).
Let upd := zoom_update cfg f gradf vdot.
Notation tr st := (trial_step cfg f gradf vdot st).
Notation tried j := (fst (tr (Nat.iter j upd init))).

Lemma init_binv : binv (snd init).
Proof. constructor; cbn; auto; try lra; intros; try discriminate. repeat split; try lra; lia. Qed.

Lemma add_evals_binv n st : binv st -> binv (add_evals n st).
Proof. intros []. constructor; cbn; assumption. Qed.

(** All states that the loop goes on from. *)
Lemma live_spec k :
  (forall j, (1 <= j <= k)%nat -> zoom_cond (Nat.iter j upd init) = true) ->
  let r := Nat.iter k upd init in
  binv (snd r) /\ z_iter (snd r) = k /\ (k = 0%nat -> fst r = s0) /\
  (forall j, (j < k)%nat -> dok (tried j) (ztol cfg) -> tried j <= z_safe (snd r)) /\
  (z_safe (snd r) = 0 \/ exists j, (j < k)%nat /\ z_safe (snd r) = tried j /\ dok (tried j) (ztol cfg)) /\
  z_num_fun (snd r) = ((if given then 0 else 1) + k)%nat /\ z_num_grad (snd r) = ((if given then 0 else 1) + k)%nat.
Proof.
  induction k as [|k IH]; intros Hc.
  - cbn. split; [exact init_binv|]. repeat split; auto; try lia; destruct given; reflexivity.
  - destruct (IH ltac:(intros; apply Hc; lia)) as (HB & Hi & H0 & Hs1 & Hs2 & Hn1 & Hn2). cbv zeta.
    specialize (Hc (S k) ltac:(lia)).
    change (Nat.iter (S k) upd init) with (upd (Nat.iter k upd init)) in *.
    destruct (Nat.iter k upd init) as [s st] eqn:Ek. cbn [fst snd] in *.
    pose proof (trial_ok s st HB ltac:(intros E; apply H0; lia)) as T.
    assert (Eupd : upd (s, st) = zoom_update cfg f gradf vdot (s, st)) by reflexivity.
    unfold zoom_update in Eupd. rewrite Eupd in Hc |- *. clear Eupd. unfold zoom_cond in Hc.
    destruct (tr (s, st)) as [s' st'] eqn:Etrial. cbn [fst snd] in *.
    assert (Hf : z_failed (add_evals 1 st') = false).
    { destruct (z_failed (add_evals 1 st')) eqn:E; [|reflexivity].
      destruct (make_safe_step f gradf s' (add_evals 1 st')) as [a b] eqn:Em. cbn in Hc.
      unfold make_safe_step in Em. injection Em as <- <-. cbn in Hc. cbn in E. rewrite E, orb_true_r in Hc. discriminate. }
    rewrite Hf in *. cbn in Hc. apply negb_true_iff in Hc. apply orb_false_iff in Hc. destruct Hc as [Hd _]. cbn in Hf.
    cbn [fst snd]. split; [apply add_evals_binv, T; assumption|]. split; [cbn; rewrite (t_iter _ _ _ T); lia|]. split; [lia|].
    split; [|split; [|split]].
    + intros j Hj Hdok. cbn [add_evals z_safe]. destruct (Nat.eq_dec j k) as [->|].
      * rewrite Ek, Etrial in *. cbn [fst] in *. apply (t_safe_new _ _ _ T). exact Hdok.
      * eapply Rle_trans; [apply Hs1; [lia|exact Hdok]|apply (t_safe_mono _ _ _ T)].
    + cbn [add_evals z_safe]. destruct (t_safe_src _ _ _ T) as [E|[E Hok]].
      * rewrite E. destruct Hs2 as [H|(j & Hj & Hj2 & Hj3)]; [left; exact H|right; exists j; split; [lia|auto]].
      * right. exists k. split; [lia|]. rewrite Ek, Etrial, E. auto.
    + cbn. destruct (t_evals _ _ _ T) as [E _]. rewrite E, Hn1. lia.
    + cbn. destruct (t_evals _ _ _ T) as [_ E]. rewrite E, Hn2. lia.
Qed.

Lemma zoom_run_spec : (0 < zmaxiter cfg)%nat ->
  let r := run_loop (zmaxiter cfg) zoom_cond upd init in
  let s := fst r in let st := snd r in
  exists k, (1 <= k <= zmaxiter cfg)%nat /\
    z_failed st = negb (z_done st) /\
    0 <= s <= zmax cfg /\
    z_params st = pt s /\ z_value st = phi s /\ z_grad st = gradf (pt s) /\
    (z_done st = true -> 0 < s /\ s = tried (k - 1) /\ dok s (ztol cfg) /\ (cok s (ztol cfg) \/ s = zmax cfg)) /\
    (z_failed st = true ->
       (0 < s /\ dok s (ztol cfg) /\ (exists j, (j < k)%nat /\ s = tried j) /\
        forall j, (j < k)%nat -> dok (tried j) (ztol cfg) -> tried j <= s) \/
       ((forall j, (j < k)%nat -> ~ dok (tried j) (ztol cfg)) /\ (s = 0 /\ derr (tried (k - 1)) = PInf \/ s = tried (k - 1)))) /\
    (forall j, (j < k)%nat -> 0 < tried j <= zmax cfg) /\
    (let i := if given then 0%nat else 1%nat in let e := if z_failed st then 1%nat else 0%nat in
     z_num_fun st = (i + k + e)%nat /\ z_num_grad st = (i + k + e)%nat).
Proof.
  intros Hm. cbv zeta.
  destruct (run_loop_spec (zmaxiter cfg) zoom_cond upd init Hm) as (k & Hk & Er & Hc & Hs).
  rewrite Er. destruct k as [|k]; [lia|]. exists (S k). split; [exact Hk|].
  destruct (live_spec k) as (HB & Hi & H0 & Hs1 & Hs2 & Hn1 & Hn2); [intros j Hj; apply Hc; lia|].
  assert (Hrange : forall j, (j < S k)%nat -> 0 < tried j <= zmax cfg).
  { intros j Hj. destruct (live_spec j) as (HBj & Hij & H0j & _); [intros q Hq; apply Hc; lia|].
    destruct (Nat.iter j upd init) as [sj stj]. cbn [fst snd] in *.
    apply (t_range _ _ _ (trial_ok sj stj HBj ltac:(intros E; apply H0j; lia))). }
  change (Nat.iter (S k) upd init) with (upd (Nat.iter k upd init)) in *.
  replace (S k - 1)%nat with k by lia.
  destruct (Nat.iter k upd init) as [s st] eqn:Ek. cbn [fst snd] in *.
  pose proof (trial_ok s st HB ltac:(intros E; apply H0; lia)) as T.
  assert (Eupd : upd (s, st) = zoom_update cfg f gradf vdot (s, st)) by reflexivity.
  unfold zoom_update in Eupd.
  destruct (tr (s, st)) as [s' st'] eqn:Etrial. cbn [fst snd] in *.
  destruct T as [T1 T2 [T3a [T3b T3c]] T4 T5 T6 T7 T8 T9 T10 T11 T12 [T13a T13b] T14].
  assert (Hbest : forall j, (j < S k)%nat -> dok (tried j) (ztol cfg) -> tried j <= z_safe st').
  { intros j Hj Hdok. destruct (Nat.eq_dec j k) as [->|].
    - rewrite Ek, Etrial in *. cbn [fst] in *. apply T11. exact Hdok.
    - eapply Rle_trans; [apply Hs1; [lia|exact Hdok]|exact T10]. }
  assert (Hsrc : z_safe st' = 0 \/ exists j, (j < S k)%nat /\ z_safe st' = tried j /\ dok (tried j) (ztol cfg)).
  { destruct T12 as [E|[E Hok]].
    - rewrite E. destruct Hs2 as [H|(j & Hj & Hj2 & Hj3)]; [left; exact H|right; exists j; split; [lia|auto]].
    - right. exists k. split; [lia|]. rewrite Ek, Etrial. cbn [fst]. rewrite E. auto. }
  destruct (z_failed (add_evals 1 st')) eqn:Ef; cbn in Ef.
  - (* failed *)
    assert (Edn : z_done st' = false) by (apply T8; exact Ef).
    unfold make_safe_step in Eupd. rewrite Eupd. cbn [fst snd]. cbn.
    set (fin := if (Rltb 0 (z_safe st') || xisinf (z_decrease_error st'))%bool then z_safe st' else s').
    rewrite ?(T6 Edn), ?T3c, ?Edn, ?Ef.
    assert (Hsr : 0 <= z_safe st' <= zmax cfg).
    { destruct Hsrc as [->|(j & Hj & -> & _)]; [lra|]. specialize (Hrange j Hj). lra. }
    assert (Hfin : (0 < z_safe st' /\ fin = z_safe st') \/ (z_safe st' = 0 /\ xisinf (z_decrease_error st') = true /\ fin = 0) \/ (z_safe st' = 0 /\ fin = s')).
    { unfold fin. destruct (Rltb 0 (z_safe st')) eqn:E1; simpl; [left; split; [apply Rltb_true; exact E1|reflexivity]|].
      assert (z_safe st' = 0).
      { destruct (Rle_lt_or_eq_dec 0 (z_safe st') (proj1 Hsr)) as [H|H]; [apply Rltb_true in H; congruence|symmetry; exact H]. }
      right. destruct (xisinf (z_decrease_error st')); [left|right]; auto. }
    split; [reflexivity|]. split; [destruct Hfin as [[_ ->]|[(_ & _ & ->)|[_ ->]]]; lra|].
    split; [reflexivity|]. split; [reflexivity|]. split; [reflexivity|]. split; [discriminate|]. split; [|split; [exact Hrange|split; lia]].
    intros _. destruct Hfin as [[Hp ->]|Hz].
    + left. destruct Hsrc as [E|(j & Hj & Ej & Hjok)]; [lra|]. split; [exact Hp|]. split; [rewrite Ej; exact Hjok|]. split; [exists j; auto|exact Hbest].
    + right. split.
      * intros j Hj Hok. specialize (Hbest j Hj Hok). specialize (Hrange j Hj). destruct Hz as [(E & _)|(E & _)]; lra.
      * destruct Hz as [(_ & Hinf & ->)|(_ & ->)]; [left|right; reflexivity]. split; [reflexivity|]. rewrite T7 in Hinf.
        destruct (clean_error_form (xmin2 (xmax2 (xaddr (dphi s') (- ((2 * zc1 cfg - 1) * sl))) (xaddr (phi s') (- fx - zc3 cfg * Rabs fx)))
           (xaddr (phi s') (- fx - zc1 cfg * s' * sl)))) as [E|[v E]]; unfold decrease_error in *; cbv zeta in *; rewrite E in *; [reflexivity|discriminate].
  - rewrite Eupd. cbn [fst snd]. cbn. rewrite Ef.
    assert (Edn : z_done st' = true).
    { destruct Hs as [Hs|Hs].
      - destruct (T9 ltac:(lia)) as [|]; congruence.
      - rewrite Eupd in Hs. unfold zoom_cond in Hs. cbn in Hs. rewrite Ef, orb_false_r in Hs. apply negb_false_iff in Hs. exact Hs. }
    rewrite Edn. destruct (T4 Edn) as (D1 & D2 & D3 & D4 & D5).
    split; [reflexivity|]. split; [lra|]. split; [exact D3|]. split; [exact D4|]. split; [exact D5|].
    split; [intros _; split; [lra|]; split; [reflexivity|]; split; [exact D1|exact D2]|]. split; [discriminate|].
    split; [exact Hrange|split; lia].
Qed.

(** ** Bracket geometry for descent directions *)
Record brk (st : zstate G) : Prop := {
  k_low_ok : dok (z_low st) 0;
  k_vlow : z_value_low st = phi (z_low st); k_slow : z_slope_low st = dphi (z_low st);
  k_vhigh : z_value_high st = phi (z_high st); k_shigh : z_slope_high st = dphi (z_high st);
  k_sign : xneg_times (z_slope_low st) (z_high st - z_low st)
}.
Record srch (st : zstate G) : Prop := {
  r_prev : z_prev st < zmax cfg; r_ok : dok (z_prev st) 0;
  r_v : z_prev_value st = phi (z_prev st); r_s : z_prev_slope st = dphi (z_prev st);
  r_neg : xneg_times (z_prev_slope st) 1
}.
Hypothesis Hsl : sl < 0.
Hypothesis Hinc1 : 1 < increase_factor cfg.
Hypothesis Hc2 : 0 <= zc2 cfg.
Hypothesis Hphi0 : phi 0 = Fin fx.
Hypothesis Hdphi0 : dphi 0 = Fin sl.

Lemma zero_slope_cok s t : 0 <= t -> dphi s = Fin 0 -> cok s t.
Proof.
  intros Ht E. exists 0. split; [exact E|]. rewrite Rabs_R0. pose proof (Rabs_pos sl). nra.
Qed.
Lemma dok_mono s t : 0 <= t -> dok s 0 -> dok s t.
Proof.
  intros Ht (N & H). split; [exact N|].
  assert (M : forall v b, xle_bound v (b + 0) -> xle_bound v (b + t)) by (intros [v| | |] b; simpl; auto; lra).
  destruct H as [H|[H H']]; [left; apply M, H|right; split; apply M; assumption].
Qed.
Lemma xneg_pos v r : xneg_times v 1 -> 0 < r -> xneg_times v r.
Proof. destruct v; simpl; intros; try lra. nra. Qed.
Lemma xneg_same v r r' : xneg_times v r -> 0 < r * r' -> xneg_times v r'.
Proof. destruct v as [u| | |]; simpl; intros H H'; auto; try nra. Qed.
Lemma not_ge0_neg v : v <> NaN -> xgeb v (Fin 0) = false -> xneg_times v 1.
Proof. destruct v as [u| | |]; simpl; intros H E; try congruence; try lra. destruct (Rle_dec 0 u); [discriminate|lra]. Qed.

Lemma init_srch : srch (snd init).
Proof.
  constructor; cbn [snd init zoom_init z_prev z_prev_value z_prev_slope]; auto; try lra.
  - split; [rewrite Hdphi0; discriminate|]. left. rewrite Hphi0. simpl. lra.
  - simpl. lra.
Qed.

Lemma search_geom s st : binv st -> srch st -> z_found st = false -> (z_iter st = 0%nat -> s = s0) ->
  let st' := snd (search_interval cfg f gradf vdot s st) in
  z_done st' = false -> (z_found st' = false -> srch st') /\ (z_found st' = true -> brk st').
Proof.
  intros [Bp Bv Bs Bd Bdn Bf Bsf Bso Bse _] [R1 R2 R3 R4 R5] Hf Hs. destruct (Bse Hf) as (Hp & Esafe & Hp0 & Hp1).
  cbv zeta. unfold search_interval. cbn [snd].
  set (s' := Rmin (if Nat.eqb (z_iter st) 0 then s else increase_factor cfg * z_prev st) (zmax cfg)).
  unfold line_point. rewrite Bp, Bd, Bv, Bs.
  pose proof (Rmin_r (if Nat.eqb (z_iter st) 0 then s else increase_factor cfg * z_prev st) (zmax cfg)) as Hle. fold s' in Hle.
  assert (Hgrow : z_prev st < s').
  { unfold s'. destruct (Nat.eqb_spec (z_iter st) 0) as [E|E].
    - rewrite (Hp0 E), (Hs E). apply Rmin_pos; assumption.
    - specialize (Hp1 ltac:(lia)). apply Rmin_glb_lt; [nra|assumption]. }
  clearbody s'.
  pose proof (derr_le s' (ztol cfg) Htol) as HD. pose proof (err_le s' (ztol cfg) Htol) as HE.
  pose proof (derr_le s' 0 (Rle_refl 0)) as HD0.
  assert (Hgt : xgtb (derr s') 0 = negb (xleb (derr s') 0)) by apply clean_gt0.
  cbn [z_done z_found z_prev z_prev_value z_prev_slope z_low z_value_low z_slope_low z_high z_value_high z_slope_high].
  set (E1 := xleb (xmaximum (derr s') (cerr s')) (ztol cfg)) in *.
  set (HN := (xgtb (derr s') 0 || xgeb (phi s') (z_prev_value st) && Nat.ltb 0 (z_iter st))%bool) in *.
  set (LN := (xgeb (dphi s') (Fin 0) && negb HN)%bool) in *.
  intros Hdn. apply orb_false_iff in Hdn. destruct Hdn as [HE1 Hmx].
  assert (HNok : HN = false -> dok s' 0).
  { intros E. unfold HN in E. apply orb_false_iff in E. destruct E as [E _]. rewrite Hgt in E. apply HD0. destruct (xleb (derr s') 0); [reflexivity|discriminate]. }
  rewrite HE1 in *. rewrite orb_false_r in *. split; intros Hfd.
  - rewrite Hfd in Hmx. rewrite andb_true_r in Hmx. apply orb_false_iff in Hfd. destruct Hfd as [HNf HLf].
    specialize (HNok HNf). constructor; cbn [z_prev z_prev_value z_prev_slope]; auto.
    + destruct (Rlt_le_dec s' (zmax cfg)) as [|H]; [assumption|]. apply Rleb_true in H. congruence.
    + apply not_ge0_neg; [apply HNok|]. unfold LN in HLf. rewrite HNf in HLf. simpl in HLf. rewrite andb_true_r in HLf. exact HLf.
  - destruct LN eqn:EL.
    + unfold LN in EL. apply andb_prop in EL. destruct EL as [EL1 EL2]. apply negb_true_iff in EL2. specialize (HNok EL2).
      constructor; cbn [z_low z_value_low z_slope_low z_high z_value_high z_slope_high]; auto.
      destruct (dphi s') as [u| | |] eqn:Eu; simpl in *; try discriminate; try lra.
      destruct (Rle_dec 0 u) as [Hu|]; [|discriminate].
      assert (u <> 0).
      { intros ->. assert (false = true); [|discriminate]. apply HE. split; [apply dok_mono; assumption|]. apply zero_slope_cok; assumption. }
      nra.
    + constructor; cbn [z_low z_value_low z_slope_low z_high z_value_high z_slope_high]; auto.
      apply xneg_pos; [exact R5|lra].
Qed.

Lemma xneg_ne v l h : xneg_times v (h - l) -> l <> h.
Proof. intros H ->. rewrite Rminus_diag_eq in H by reflexivity. destruct v; simpl in H; lra. Qed.

Lemma zoom_geom st : binv st -> brk st -> z_found st = true ->
  let st' := snd (zoom_into_interval cfg f gradf vdot st) in
  (z_done st' = false -> brk st') /\ Rabs (z_high st' - z_low st') <= (1 - shrink) * Rabs (z_high st - z_low st).
Proof.
  intros [Bp Bv Bs Bd Bdn Bf Bsf Bso _ Bz] [K1 K2 K3 K4 K5 K6] Hf.
  cbv zeta. unfold zoom_into_interval. cbn [snd].
  pose proof (middle_spec st) as Hm. cbv zeta in Hm. set (m := choose_middle cfg st) in *.
  unfold line_point. rewrite Bp, Bd, Bv, Bs.
  pose proof (xneg_ne _ _ _ K6) as Hne. destruct Hm as [Hm1 Hm2]. specialize (Hm2 Hne). clearbody m.
  pose proof (derr_le m (ztol cfg) Htol) as HD. pose proof (err_le m (ztol cfg) Htol) as HE.
  pose proof (derr_le m 0 (Rle_refl 0)) as HD0.
  assert (Hgt : xgtb (derr m) 0 = negb (xleb (derr m) 0)) by apply clean_gt0.
  cbn [z_done z_low z_value_low z_slope_low z_high z_value_high z_slope_high].
  set (E1 := xleb (xmaximum (derr m) (cerr m)) (ztol cfg)) in *.
  set (HM := (xgtb (derr m) 0 || xgeb (phi m) (z_value_low st))%bool) in *.
  set (l := z_low st) in *. set (h := z_high st) in *.
  assert (HMok : HM = false -> dok m 0).
  { intros E. unfold HM in E. apply orb_false_iff in E. destruct E as [E _]. rewrite Hgt in E. apply HD0. destruct (xleb (derr m) 0); [reflexivity|discriminate]. }
  assert (Hbetween : 0 < (h - l) * (m - l) /\ 0 < (h - l) * (h - m)).
  { unfold Rmin, Rmax in Hm2. destruct (Rle_dec h l); split; nra. }
  split.
  - intros HE1. rewrite HE1 in *. destruct HM; simpl; [rewrite andb_false_r|].
    + constructor; cbn [z_low z_value_low z_slope_low z_high z_value_high z_slope_high]; auto.
      eapply xneg_same; [exact K6|]. tauto.
    + specialize (HMok eq_refl). rewrite andb_true_r.
      assert (Hz : dphi m <> Fin 0).
      { intros E. assert (false = true); [|discriminate]. apply HE. split; [apply dok_mono; assumption|]. apply zero_slope_cok; assumption. }
      destruct (xmul_nonneg (dphi m) (h - l)) eqn:Ex.
      * constructor; cbn [z_low z_value_low z_slope_low z_high z_value_high z_slope_high]; auto.
        destruct (dphi m) as [u| | |]; simpl in *; try discriminate.
        -- destruct (Rle_dec 0 (u * (h - l))); [|discriminate]. assert (u <> 0) by congruence.
           destruct Hbetween as [Hb _]. destruct (Rtotal_order u 0) as [|[|]]; [|lra|]; nra.
        -- destruct (Rlt_dec 0 (h - l)); [|discriminate]. destruct Hbetween; nra.
        -- destruct (Rlt_dec (h - l) 0); [|discriminate]. destruct Hbetween; nra.
      * constructor; cbn [z_low z_value_low z_slope_low z_high z_value_high z_slope_high]; auto.
        apply xneg_same with (h - l); [|tauto]. destruct HMok as [Hn _].
        destruct (dphi m) as [u| | |]; simpl in *; try congruence.
        -- destruct (Rle_dec 0 (u * (h - l))); [discriminate|lra].
        -- destruct (Rlt_dec 0 (h - l)); [discriminate|lra].
        -- destruct (Rlt_dec (h - l) 0); [discriminate|lra].
  - destruct HM; simpl; [rewrite andb_false_r|rewrite andb_true_r; destruct (xmul_nonneg (dphi m) (h - l))];
    unfold Rmin, Rmax, Rabs in *; destruct (Rle_dec h l), (Rcase_abs (h - l)); repeat destruct (Rcase_abs _); try lra; nra.
Qed.

Lemma add_evals_geom n st : (srch st -> srch (add_evals n st)) /\ (brk st -> brk (add_evals n st)).
Proof. split; intros []; constructor; assumption. Qed.

Lemma live_geom k :
  (forall j, (1 <= j <= k)%nat -> zoom_cond (Nat.iter j upd init) = true) ->
  let st := snd (Nat.iter k upd init) in
  (z_found st = false -> srch st) /\ (z_found st = true -> brk st).
Proof.
  induction k as [|k IH]; intros Hc; cbv zeta.
  - split; [intros _; exact init_srch|discriminate].
  - destruct (IH ltac:(intros; apply Hc; lia)) as [I1 I2].
    destruct (live_spec k ltac:(intros; apply Hc; lia)) as (HB & Hi & H0 & _).
    specialize (Hc (S k) ltac:(lia)).
    change (Nat.iter (S k) upd init) with (upd (Nat.iter k upd init)) in *.
    destruct (Nat.iter k upd init) as [s st] eqn:Ek. cbn [fst snd] in *.
    assert (Eupd : upd (s, st) = zoom_update cfg f gradf vdot (s, st)) by reflexivity.
    unfold zoom_update in Eupd. rewrite Eupd in Hc |- *. clear Eupd. unfold zoom_cond in Hc.
    unfold trial_step in *.
    assert (Hg : let st' := snd (if z_found st then zoom_into_interval cfg f gradf vdot st else search_interval cfg f gradf vdot s st) in
      z_done st' = false -> (z_found st' = false -> srch st') /\ (z_found st' = true -> brk st')).
    { cbv zeta. destruct (z_found st) eqn:Ef.
      - pose proof (proj1 (zoom_geom st HB (I2 eq_refl) Ef)) as H. intros Hd. specialize (H Hd). split; [|intros _; exact H].
        unfold zoom_into_interval. cbn [snd z_found]. rewrite Ef. discriminate.
      - intros Hd. apply (search_geom s st HB (I1 eq_refl) Ef ltac:(intros; apply H0; lia) Hd). }
    cbv zeta in Hg.
    destruct (if z_found st then zoom_into_interval cfg f gradf vdot st else search_interval cfg f gradf vdot s st) as [s' st'].
    cbn [snd] in Hg.
    assert (Hf : z_failed (add_evals 1 st') = false).
    { destruct (z_failed (add_evals 1 st')) eqn:E; [|reflexivity].
      destruct (make_safe_step f gradf s' (add_evals 1 st')) as [a b] eqn:Em. cbn in Hc.
      unfold make_safe_step in Em. injection Em as <- <-. cbn in Hc. cbn in E. rewrite E, orb_true_r in Hc. discriminate. }
    rewrite Hf in *. cbn [snd] in *. apply negb_true_iff in Hc. apply orb_false_iff in Hc. destruct Hc as [Hd _].
    destruct (Hg Hd) as [G1 G2]. split; intros E; apply add_evals_geom; auto.
Qed.

(** Two consecutive live zoom states. *)
Lemma live_shrink k :
  (forall j, (1 <= j <= S k)%nat -> zoom_cond (Nat.iter j upd init) = true) ->
  let st := snd (Nat.iter k upd init) in let st' := snd (Nat.iter (S k) upd init) in
  z_found st = true -> Rabs (z_high st' - z_low st') <= (1 - shrink) * Rabs (z_high st - z_low st).
Proof.
  intros Hc. cbv zeta. destruct (live_geom k ltac:(intros; apply Hc; lia)) as [_ I2].
  destruct (live_spec k ltac:(intros; apply Hc; lia)) as (HB & _ & _ & _).
  change (Nat.iter (S k) upd init) with (upd (Nat.iter k upd init)).
  destruct (Nat.iter k upd init) as [s st] eqn:Ek. cbn [fst snd] in *. intros Ef.
  assert (Eupd : upd (s, st) = zoom_update cfg f gradf vdot (s, st)) by reflexivity.
  unfold zoom_update, trial_step in Eupd. rewrite Ef in Eupd. rewrite Eupd.
  pose proof (proj2 (zoom_geom st HB (I2 Ef) Ef)) as H.
  destruct (zoom_into_interval cfg f gradf vdot st) as [s' st']. cbn [snd] in H.
  destruct (z_failed (add_evals 1 st')); [unfold make_safe_step|]; cbn [snd add_evals z_high z_low]; exact H.
Qed.
End S.
