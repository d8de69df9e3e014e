From Coq Require Import Reals List Bool Lra Lia Arith.
From Verif Require Import Prelude Vec Loop Run Backtracking BacktrackingProofs Zoom ZoomProofs ZoomSuccess.
Import ListNotations.
Open Scope R_scope.

(** quadratic upper bound from a Lipschitz derivative *)
Lemma smooth_upper T L phi dphi a b : smooth_line T L phi dphi -> 0 <= a <= T -> 0 <= b <= T ->
  phi b <= phi a + dphi a * (b - a) + L / 2 * ((b - a) * (b - a)).
Proof.
  intros [Hd HL] Ha Hb.
  set (h := fun t => phi t - dphi a * (t - a) - L / 2 * ((t - a) * (t - a))).
  assert (Hh : forall t, 0 <= t <= T -> derivable_pt_lim h t (dphi t - dphi a - L * (t - a))).
  { intros t Ht. unfold h.
    replace (dphi t - dphi a - L * (t - a)) with (dphi t - (0 * (t - a) + dphi a * (1 - 0)) - (0 * ((t - a) * (t - a)) + L / 2 * ((1 - 0) * (t - a) + (t - a) * (1 - 0)))) by field.
    assert (Hid : derivable_pt_lim (fun t => t - a) t (1 - 0)).
    { apply (derivable_pt_lim_minus (fun t => t) (fun _ => a)); [apply derivable_pt_lim_id|apply derivable_pt_lim_const]. }
    apply (derivable_pt_lim_minus (fun t => phi t - dphi a * (t - a)) (fun t => L / 2 * ((t - a) * (t - a)))).
    - apply (derivable_pt_lim_minus phi (fun t => dphi a * (t - a))); [apply Hd; exact Ht|].
      apply (derivable_pt_lim_mult (fun _ => dphi a) (fun t => t - a)); [apply derivable_pt_lim_const|exact Hid].
    - apply (derivable_pt_lim_mult (fun _ => L / 2) (fun t => (t - a) * (t - a))); [apply derivable_pt_lim_const|].
      apply (derivable_pt_lim_mult (fun t => t - a) (fun t => t - a)); exact Hid. }
  assert (Hle : h b <= h a).
  { destruct (Rtotal_order a b) as [Hab|[->|Hab]]; [|apply Rle_refl|].
    - destruct (MVT_cor2 h (fun t => dphi t - dphi a - L * (t - a)) a b Hab) as (c & E & Hc).
      { intros t Ht. apply Hh. lra. }
      pose proof (HL c a ltac:(lra) Ha) as Hl. rewrite (Rabs_right (c - a)) in Hl by lra. pose proof (Rle_abs (dphi c - dphi a)).
      assert (0 <= (L * (c - a) - (dphi c - dphi a)) * (b - a)) by (apply Rmult_le_pos; lra). lra.
    - destruct (MVT_cor2 h (fun t => dphi t - dphi a - L * (t - a)) b a Hab) as (c & E & Hc).
      { intros t Ht. apply Hh. lra. }
      pose proof (HL c a ltac:(lra) Ha) as Hl. rewrite (Rabs_left (c - a)) in Hl by lra. pose proof (Rle_abs (- (dphi c - dphi a))) as Hn. rewrite Rabs_Ropp in Hn.
      assert (0 <= (dphi c - dphi a - L * (c - a)) * (a - b)) by (apply Rmult_le_pos; lra). lra. }
  unfold h in Hle. replace (a - a) with 0 in Hle by ring. lra.
Qed.

(** convexity gives the tangent at [t] below phi 0 *)
Lemma convex_tangent0 T L phi dphi t : smooth_line T L phi dphi -> convex_line T dphi -> 0 <= t <= T ->
  phi t - dphi t * t <= phi 0.
Proof.
  intros [Hd _] Hc Ht. destruct (Req_dec t 0) as [->|Hn]; [lra|].
  destruct (MVT_cor2 phi dphi 0 t ltac:(lra)) as (c & E & Hcc); [intros u Hu; apply Hd; lra|].
  pose proof (Hc c t ltac:(lra) ltac:(lra) ltac:(lra)).
  assert (dphi c * (t - 0) <= dphi t * (t - 0)) by (apply Rmult_le_compat_r; lra). lra.
Qed.

(** A bracket cannot be short.  [l]: sufficient decrease, steep, pointing to [h];
    [h]: no sufficient decrease, or not lower than [l], or the slope points back. *)
Section Floor.
Variables T L c1 c2 c3 fx a : R.
Variables phi dphi : R -> R.
Hypothesis HT : smooth_line T L phi dphi.
Hypothesis HL : 0 < L.
Hypothesis Ha : 0 < a.
Hypothesis Hc1 : 0 < c1 <= / 2.
Hypothesis Hc2 : c1 < c2 < 1.
Hypothesis Htrap : 1 - 2 * c1 <= c2 \/ convex_line T dphi.
Definition rdok (s : R) : Prop :=
  phi s <= fx - c1 * s * a \/ (phi s <= fx + c3 * Rabs fx /\ dphi s <= (1 - 2 * c1) * a).
Definition hcond (l h : R) : Prop := ~ rdok h \/ phi l <= phi h \/ 0 <= dphi h * (h - l).

Lemma floor_bound l h : 0 <= l <= T -> 0 <= h <= T -> rdok l -> c2 * a < Rabs (dphi l) -> dphi l * (h - l) < 0 -> hcond l h ->
  Rmin c2 (2 * (c2 - c1)) * a / L < Rabs (h - l).
Proof.
  intros Hl Hh Hok Hst Hsg Hhc.
  set (e := Rabs (h - l)). set (p := Rabs (dphi l)) in *.
  assert (Hne : h - l <> 0) by (intros E; rewrite E in Hsg; lra).
  assert (He : 0 < e) by (apply Rabs_pos_lt; exact Hne).
  assert (Epe : dphi l * (h - l) = - (p * e)).
  { unfold p, e. rewrite <- Rabs_mult. rewrite Rabs_left by exact Hsg. ring. }
  assert (Ee : (h - l) * (h - l) = e * e) by (unfold e; rewrite <- Rabs_mult, Rabs_right; [reflexivity|apply Rle_ge, Rle_0_sqr]).
  pose proof (smooth_upper T L phi dphi l h HT Hl Hh) as Hu. rewrite Epe, Ee in Hu.
  assert (Hm1 : Rmin c2 (2 * (c2 - c1)) <= c2) by apply Rmin_l.
  assert (Hm2 : Rmin c2 (2 * (c2 - c1)) <= 2 * (c2 - c1)) by apply Rmin_r.
  set (q := Rmin c2 (2 * (c2 - c1))) in *. clearbody q.
  assert (Fin1 : forall r, q * a <= r * a -> r * a < L * e -> q * a / L < e).
  { intros r H1 H2. apply Rmult_lt_reg_r with L; [exact HL|]. unfold Rdiv. rewrite Rmult_assoc, Rinv_l by lra. lra. }
  (* the three generic cases *)
  assert (C2 : phi l <= phi h -> q * a / L < e).
  { intros H. apply (Fin1 (2 * c2)); [apply Rmult_le_compat_r; lra|].
    assert (p * e <= L / 2 * (e * e)) by lra. assert (p <= L / 2 * e) by (apply Rmult_le_reg_r with e; lra). lra. }
  assert (C3 : c2 * a < Rabs (dphi h - dphi l) -> q * a / L < e).
  { intros H. apply (Fin1 c2); [apply Rmult_le_compat_r; lra|]. destruct HT as [_ Hlip]. pose proof (Hlip h l Hh Hl) as Hx. fold e in Hx. lra. }
  assert (Hsl : (0 < h - l /\ dphi l = - p) \/ (h - l < 0 /\ dphi l = p)).
  { destruct (Rtotal_order 0 (h - l)) as [H|[H|H]]; [left|lra|right]; split; try exact H.
    - assert (dphi l < 0) by nra. unfold p. rewrite Rabs_left by assumption. ring.
    - assert (0 < dphi l) by nra. unfold p. rewrite Rabs_right by lra. reflexivity. }
  assert (Ha2 : 0 < c2 * a) by (apply Rmult_lt_0_compat; lra).
  destruct Hhc as [Hn|[H|H]]; [|apply C2; exact H|].
  - destruct (Rle_dec (phi l) (phi h)) as [Hle|Hgt]; [apply C2; exact Hle|].
    assert (Hn1 : fx - c1 * h * a < phi h) by (destruct (Rlt_le_dec (fx - c1 * h * a) (phi h)) as [|Hc]; [assumption|exfalso; apply Hn; left; exact Hc]).
    destruct Hok as [HE|[HA1 HA2]].
    + apply (Fin1 (2 * (c2 - c1))); [apply Rmult_le_compat_r; lra|].
      assert (Hpe : (p - c1 * a) * e < L / 2 * (e * e)).
      { destruct Hsl as [[Hs _]|[Hs _]].
        - assert (Eh : h - l = e) by (unfold e; rewrite Rabs_right; lra). assert (c1 * h * a - c1 * l * a = c1 * a * e) by (rewrite <- Eh; ring). lra.
        - assert (Eh : h - l = - e) by (unfold e; rewrite Rabs_left; lra). assert (c1 * h * a - c1 * l * a = - (c1 * a * e)) by (replace (- (c1 * a * e)) with (c1 * a * (- e)) by ring; rewrite <- Eh; ring).
          assert (0 <= c1 * a * e) by (repeat apply Rmult_le_pos; lra). lra. }
      assert (p - c1 * a < L / 2 * e) by (apply Rmult_lt_reg_r with e; lra). lra.
    + assert (Hn2 : (1 - 2 * c1) * a < dphi h).
      { destruct (Rlt_le_dec ((1 - 2 * c1) * a) (dphi h)) as [|Hc]; [assumption|exfalso; apply Hn; right; split; lra]. }
      assert (0 <= (1 - 2 * c1) * a) by (apply Rmult_le_pos; lra).
      destruct Hsl as [[Hs Ep]|[Hs Ep]].
      * apply C3. rewrite Rabs_right by lra. lra.
      * exfalso. destruct Htrap as [Ht|Ht].
        -- assert ((1 - 2 * c1) * a <= c2 * a) by (apply Rmult_le_compat_r; lra). lra.
        -- pose proof (Ht h l ltac:(lra) ltac:(lra) ltac:(lra)). lra.
  - destruct Hsl as [[Hs Ep]|[Hs Ep]].
    + assert (0 <= dphi h) by nra. apply C3. rewrite Rabs_right by lra. lra.
    + assert (dphi h <= 0) by nra. apply C3. rewrite Rabs_left by lra. lra.
Qed.
End Floor.

Section Run.
Context {G : Type}.
Variable cfg : zoom_config.
Variable f : vec -> xnum.
Variable gradf : vec -> G.
Variable vdot : G -> vec -> xnum.
Variables x d : vec.
Variables s0 L B : R.
Variables phi dphi : R -> R.
Hypothesis Htol : 0 <= ztol cfg.
Hypothesis Hs0 : 0 < s0.
Hypothesis Hmax : 0 < zmax cfg.
Hypothesis Hinc : 1 < increase_factor cfg.
Hypothesis Hrc : 0 <= rel_tol_cubic cfg.
Hypothesis Hrq : 0 <= rel_tol_quad cfg.
Hypothesis Hwc : wolfe_constants cfg.
Hypothesis Hline : along_line cfg f gradf vdot x d phi dphi.
Hypothesis Hsm : smooth_line (zmax cfg) L phi dphi.
Hypothesis HL : 0 < L.
Hypothesis Hdesc : dphi 0 < 0.
Hypothesis Htrap : 1 - 2 * zc1 cfg <= zc2 cfg \/ convex_line (zmax cfg) dphi.
Hypothesis Hreach : step_bound cfg phi dphi s0 B.
Variable given : bool.
Variable g : G.

Let fx := phi 0.
Let sl := dphi 0.
Let a := Rabs sl.
Notation dok s t := (decrease_ok cfg f gradf vdot x d fx sl s t).
Notation cok s t := (curvature_ok cfg gradf vdot x d sl s t).
Notation rd := (rdok (zc1 cfg) (zc3 cfg) fx a phi dphi).
Notation binv := (binv cfg f gradf vdot x d fx sl).
Notation brk := (brk cfg f gradf vdot x d fx sl).
Notation srch := (srch cfg f gradf vdot x d fx sl).

Lemma Ea : a = - dphi 0. Proof. unfold a, sl. rewrite Rabs_left by exact Hdesc. reflexivity. Qed.
Lemma Hapos : 0 < a. Proof. rewrite Ea. lra. Qed.

Lemma dok_real s t : 0 <= s <= zmax cfg -> (dok s t <->
  (phi s <= fx - zc1 cfg * s * a + t \/ (phi s <= fx + zc3 cfg * Rabs fx + t /\ dphi s <= (1 - 2 * zc1 cfg) * a + t))).
Proof.
  intros Hs. destruct (Hline s Hs) as [E1 E2]. unfold decrease_ok. rewrite E1, E2. cbn [xle_bound]. rewrite Ea. unfold sl.
  replace (fx + zc1 cfg * s * dphi 0) with (fx - zc1 cfg * s * - dphi 0) by ring.
  replace ((2 * zc1 cfg - 1) * dphi 0) with ((1 - 2 * zc1 cfg) * - dphi 0) by ring.
  split; [intros [_ H]; exact H|intros H; split; [discriminate|exact H]].
Qed.
Lemma dok0_rd s : 0 <= s <= zmax cfg -> (dok s 0 <-> rd s).
Proof. intros Hs. rewrite dok_real by exact Hs. unfold rdok. rewrite !Rplus_0_r. reflexivity. Qed.
Lemma not_cok s : 0 <= s <= zmax cfg -> ~ cok s (ztol cfg) -> zc2 cfg * a < Rabs (dphi s).
Proof.
  intros Hs H. destruct (Rlt_le_dec (zc2 cfg * a) (Rabs (dphi s))) as [|Hc]; [assumption|]. exfalso. apply H.
  exists (dphi s). split; [apply Hline; exact Hs|]. fold a. lra.
Qed.

(** extra invariants *)
Record srch2 (st : zstate G) : Prop := {
  q_steep : zc2 cfg * a < Rabs (dphi (z_prev st));
  q_pow : forall j, z_iter st = S j -> z_prev st = s0 * increase_factor cfg ^ j
}.
Record hot (st : zstate G) : Prop := {
  h_steep : zc2 cfg * a < Rabs (dphi (z_low st));
  h_high : hcond (zc1 cfg) (zc3 cfg) fx a phi dphi (z_low st) (z_high st);
  h_range : z_low st <= B /\ z_high st <= B
}.

Lemma prev_bound st : binv st -> srch st -> srch2 st -> z_found st = false ->
  increase_factor cfg * z_prev st <= B \/ zmax cfg <= B.
Proof.
  intros HB HS HQ Hf. destruct (b_search _ _ _ _ _ _ _ _ _ HB Hf) as (Hp & _).
  destruct Hreach as [H|(Hcv & m & Hm & _ & H)]; [right; exact H|left].
  destruct (Hline (z_prev st) Hp) as [_ E2]. pose proof (r_neg _ _ _ _ _ _ _ _ _ HS) as Hneg. rewrite (r_s _ _ _ _ _ _ _ _ _ HS), E2 in Hneg. cbn in Hneg.
  pose proof (q_steep _ HQ) as Hst. rewrite Rabs_left in Hst by lra.
  pose proof (convex_tangent0 (zmax cfg) L phi dphi (z_prev st) Hsm Hcv Hp) as Ht. pose proof (Hm (z_prev st) Hp) as Hml.
  change (Rabs (dphi 0)) with a in H. pose proof Hapos as Hap. destruct Hwc as (W1 & W2 & W3).
  assert (Hca : 0 < zc2 cfg * a) by (apply Rmult_lt_0_compat; lra).
  assert (Hpb : z_prev st <= (phi 0 - m) / (zc2 cfg * a)).
  { apply Rmult_le_reg_r with (zc2 cfg * a); [exact Hca|]. unfold Rdiv. rewrite Rmult_assoc, Rinv_l, Rmult_1_r by lra.
    assert (z_prev st * (zc2 cfg * a) <= z_prev st * - dphi (z_prev st)) by (apply Rmult_le_compat_l; lra). lra. }
  apply Rle_trans with (2 := H). apply Rmult_le_compat_l; lra.
Qed.

Lemma search_hot s st : binv st -> srch st -> srch2 st -> z_found st = false -> (z_iter st = 0%nat -> s = s0) ->
  let st' := snd (search_interval cfg f gradf vdot s st) in
  fst (search_interval cfg f gradf vdot s st) <= B /\
  (z_done st' = false -> (z_found st' = false -> srch2 st') /\ (z_found st' = true -> hot st')).
Proof.
  intros HB HS HQ Hf Hs. pose proof (prev_bound st HB HS HQ Hf) as Hpb.
  pose proof HB as [Bp Bv Bs Bd Bdn Bf Bsf Bso Bse _]. destruct HS as [R1 R2 R3 R4 R5]. destruct (Bse Hf) as (Hp & Esafe & Hp0 & Hp1).
  destruct HQ as [Q1 Q2].
  pose proof (search_spec cfg f gradf vdot x d fx sl s0 Htol Hs0 Hmax ltac:(lra) s st HB Hf Hs) as TS.
  destruct TS as [TR _ _ _ TW _ _ _ _ _ _ _ _ _].
  cbv zeta. unfold search_interval in *. cbn [fst snd] in *.
  set (s' := Rmin (if Nat.eqb (z_iter st) 0 then s else increase_factor cfg * z_prev st) (zmax cfg)) in *.
  unfold line_point in *. rewrite Bp, Bd, Bv, Bs in *.
  assert (Hgrow : z_prev st < s').
  { unfold s'. destruct (Nat.eqb_spec (z_iter st) 0) as [E|E].
    - rewrite (Hp0 E), (Hs E). apply Rmin_pos; assumption.
    - specialize (Hp1 ltac:(lia)). apply Rmin_glb_lt; [|assumption]. apply Rle_lt_trans with (1 * z_prev st); [lra|]. apply Rmult_lt_compat_r; lra. }
  assert (HsB : s' <= B).
  { unfold s'. destruct Hpb as [Hpb|Hpb]; [|apply Rle_trans with (2 := Hpb), Rmin_r].
    destruct Hreach as [HR|(_ & m & _ & HR & _)]; [apply Rle_trans with (2 := HR), Rmin_r|].
    apply Rle_trans with (1 := Rmin_l _ _). destruct (Nat.eqb_spec (z_iter st) 0) as [E|E]; [rewrite (Hs E); exact HR|exact Hpb]. }
  split; [exact HsB|].
  assert (Hs'r : 0 <= s' <= zmax cfg) by lra.
  assert (Epow : s' < zmax cfg -> s' = s0 * increase_factor cfg ^ z_iter st).
  { clear TW. unfold s'. intros Hlt. destruct (z_iter st) as [|j] eqn:Ej; cbn [Nat.eqb] in *.
    - rewrite (Hs eq_refl) in *. simpl. rewrite Rmult_1_r. unfold Rmin in *. destruct (Rle_dec s0 (zmax cfg)); lra.
    - rewrite (Q2 j eq_refl) in *. simpl.
      unfold Rmin in *. destruct (Rle_dec (increase_factor cfg * (s0 * increase_factor cfg ^ j)) (zmax cfg)); [ring|lra]. }
  clearbody s'.
  destruct (Hline s' Hs'r) as [E1 E2]. destruct (Hline (z_prev st) Hp) as [E1p E2p].
  pose proof (derr_le cfg f gradf vdot x d fx sl s' 0 (Rle_refl 0)) as HD0.
  assert (Hgt : xgtb (decrease_error cfg s' (f (vadd x (smul s' d))) (vdot (gradf (vadd x (smul s' d))) d) fx sl) 0
      = negb (xleb (decrease_error cfg s' (f (vadd x (smul s' d))) (vdot (gradf (vadd x (smul s' d))) d) fx sl) 0)) by apply clean_gt0.
  cbn [z_done z_found z_prev z_low z_high z_iter] in *.
  set (E1' := xleb (xmaximum (decrease_error _ _ _ _ _ _) (curvature_error _ _ _)) (ztol cfg)) in *.
  set (HN := (xgtb (decrease_error _ _ _ _ _ _) 0 || _)%bool) in *.
  set (LN := (xgeb _ (Fin 0) && negb HN)%bool) in *.
  intros Hdn. apply orb_false_iff in Hdn. destruct Hdn as [HE1 Hmx].
  assert (HNok : HN = false -> dok s' 0).
  { intros E. unfold HN in E. apply orb_false_iff in E. destruct E as [E _]. rewrite Hgt in E. apply HD0. destruct (xleb (decrease_error _ _ _ _ _ _) 0); [reflexivity|discriminate]. }
  assert (Hsteep : HN = false -> zc2 cfg * a < Rabs (dphi s')).
  { intros E. apply not_cok; [exact Hs'r|]. intros Hc.
    assert (Hd' : dok s' (ztol cfg)) by (apply dok_mono; [exact Htol|apply HNok; exact E]).
    specialize (TW Hd' Hc). rewrite HE1 in TW. rewrite HE1 in Hmx. simpl in TW. congruence. }
  rewrite HE1 in *. rewrite orb_false_r in *. split; intros Hfd.
  - rewrite Hfd in Hmx. rewrite andb_true_r in Hmx. apply orb_false_iff in Hfd. destruct Hfd as [HNf HLf].
    assert (Hlt : s' < zmax cfg) by (destruct (Rlt_le_dec s' (zmax cfg)) as [|H]; [assumption|apply Rleb_true in H; congruence]).
    constructor; cbn [z_prev z_iter]; [apply Hsteep; exact HNf|].
    intros j Ej. assert (Ej' : z_iter st = j) by lia. rewrite (Epow Hlt), Ej'. reflexivity.
  - destruct LN eqn:EL.
    + unfold LN in EL. apply andb_prop in EL. destruct EL as [EL1 EL2]. apply negb_true_iff in EL2.
      constructor; cbn [z_low z_high]; [apply Hsteep; exact EL2| |lra].
      right; right. rewrite R4, E2p in R5. cbn in R5. assert (0 <= (- dphi (z_prev st)) * (s' - z_prev st)) by (apply Rmult_le_pos; lra). lra.
    + rewrite orb_false_r in Hfd. constructor; cbn [z_low z_high]; [exact Q1| |lra].
      unfold HN in Hfd. apply orb_prop in Hfd. destruct Hfd as [H|H].
      * left. intros Hr. apply dok0_rd in Hr; [|exact Hs'r]. apply HD0 in Hr. rewrite Hgt, Hr in H. discriminate.
      * right; left. apply andb_prop in H. destruct H as [H _]. rewrite R3, E1, E1p in H. cbn in H. destruct (Rle_dec (phi (z_prev st)) (phi s')); [assumption|discriminate].
Qed.

Lemma zoom_hot st : binv st -> brk st -> hot st -> z_found st = true ->
  let st' := snd (zoom_into_interval cfg f gradf vdot st) in
  fst (zoom_into_interval cfg f gradf vdot st) <= B /\ (z_done st' = false -> hot st').
Proof.
  intros HB HK HH Hf.
  pose proof HB as [Bp Bv Bs Bd Bdn Bf Bsf Bso _ Bz]. destruct (Bz Hf) as (Rl & Rh & _). destruct HK as [K1 K2 K3 K4 K5 K6]. destruct HH as [H1 H2 H3].
  pose proof (zoom_spec cfg f gradf vdot x d fx sl Htol ltac:(lra) ltac:(lra) st HB Hf) as TS. destruct TS as [TR _ _ _ TW _ _ _ _ _ _ _ _ _].
  cbv zeta. unfold zoom_into_interval in *. cbn [fst snd] in *.
  pose proof (middle_spec cfg f gradf vdot d ltac:(lra) ltac:(lra) st) as Hm. cbv zeta in Hm. set (m := choose_middle cfg st) in *.
  unfold line_point in *. rewrite Bp, Bd, Bv, Bs in *.
  pose proof (xneg_ne _ _ _ K6) as Hne. destruct Hm as [_ Hm2]. specialize (Hm2 Hne). clearbody m.
  set (l := z_low st) in *. set (h := z_high st) in *.
  assert (HmB : m <= B) by (unfold Rmin, Rmax in Hm2; destruct (Rle_dec h l); lra).
  split; [exact HmB|].
  assert (Hmr : 0 <= m <= zmax cfg) by lra.
  destruct (Hline m Hmr) as [E1 E2]. destruct (Hline l Rl) as [E1l E2l].
  pose proof (derr_le cfg f gradf vdot x d fx sl m 0 (Rle_refl 0)) as HD0.
  assert (Hgt : xgtb (decrease_error cfg m (f (vadd x (smul m d))) (vdot (gradf (vadd x (smul m d))) d) fx sl) 0
      = negb (xleb (decrease_error cfg m (f (vadd x (smul m d))) (vdot (gradf (vadd x (smul m d))) d) fx sl) 0)) by apply clean_gt0.
  cbn [z_done z_low z_high] in *.
  set (E1' := xleb (xmaximum (decrease_error _ _ _ _ _ _) (curvature_error _ _ _)) (ztol cfg)) in *.
  set (HM := (xgtb (decrease_error _ _ _ _ _ _) 0 || _)%bool) in *.
  intros Hdn.
  assert (HMok : HM = false -> dok m 0 /\ phi m < phi l).
  { intros E. unfold HM in E. apply orb_false_iff in E. destruct E as [E E']. rewrite Hgt in E. split.
    - apply HD0. destruct (xleb (decrease_error _ _ _ _ _ _) 0); [reflexivity|discriminate].
    - rewrite K2, E1, E1l in E'. cbn in E'. destruct (Rle_dec (phi l) (phi m)); [discriminate|lra]. }
  assert (HMh : HM = true -> hcond (zc1 cfg) (zc3 cfg) fx a phi dphi l m).
  { intros E. unfold HM in E. apply orb_prop in E. destruct E as [E|E].
    - left. intros Hr. apply dok0_rd in Hr; [|exact Hmr]. apply HD0 in Hr. rewrite Hgt, Hr in E. discriminate.
    - right; left. rewrite K2, E1, E1l in E. cbn in E. destruct (Rle_dec (phi l) (phi m)); [assumption|discriminate]. }
  assert (Hsteep : HM = false -> zc2 cfg * a < Rabs (dphi m)).
  { intros E. apply not_cok; [exact Hmr|]. intros Hc.
    assert (Hd' : dok m (ztol cfg)) by (apply dok_mono; [exact Htol|apply HMok; exact E]).
    specialize (TW Hd' Hc). congruence. }
  destruct HM eqn:EHM; simpl; [rewrite andb_false_r|].
  - constructor; cbn [z_low z_high]; [exact H1|apply HMh; reflexivity|split; [apply H3|exact HmB]].
  - destruct (HMok eq_refl) as [Hdk Hlt]. specialize (Hsteep eq_refl). rewrite andb_true_r.
    destruct (xmul_nonneg (vdot (gradf (vadd x (smul m d))) d) (h - l)) eqn:Ex.
    + constructor; cbn [z_low z_high]; [exact Hsteep|right; left; lra|split; [exact HmB|apply H3]].
    + constructor; cbn [z_low z_high]; [exact Hsteep| |split; [exact HmB|apply H3]].
      destruct H2 as [H2|[H2|H2]]; [left; exact H2|right; left; lra|right; right].
      assert (Hbt : 0 < (h - l) * (h - m)) by (unfold Rmin, Rmax in Hm2; destruct (Rle_dec h l); nra).
      destruct (Rtotal_order 0 (h - l)) as [Ho|[Ho|Ho]]; [| lra|].
      * assert (0 < h - m) by nra. assert (0 <= dphi h) by nra. apply Rmult_le_pos; lra.
      * assert (h - m < 0) by nra. assert (dphi h <= 0) by nra. replace (dphi h * (h - m)) with ((- dphi h) * (- (h - m))) by ring. apply Rmult_le_pos; lra.
Qed.

Let init := (s0, zoom_init given x fx g sl d).
Let upd := zoom_update cfg f gradf vdot.

Lemma add_evals_hot n st : (srch2 st -> srch2 (add_evals n st)) /\ (hot st -> hot (add_evals n st)).
Proof. split; intros []; constructor; assumption. Qed.

Lemma H0a : f (vadd x (smul 0 d)) = Fin fx. Proof. apply Hline. lra. Qed.
Lemma H0b : vdot (gradf (vadd x (smul 0 d))) d = Fin sl. Proof. apply Hline. lra. Qed.

Lemma live_update k s' st' :
  (forall j, (1 <= j <= S k)%nat -> zoom_cond (Nat.iter j upd init) = true) ->
  trial_step cfg f gradf vdot (Nat.iter k upd init) = (s', st') ->
  z_done st' = false /\ z_failed st' = false /\ Nat.iter (S k) upd init = (s', add_evals 1 st').
Proof.
  intros Hc Et. specialize (Hc (S k) ltac:(lia)).
  change (Nat.iter (S k) upd init) with (upd (Nat.iter k upd init)) in *.
  unfold upd at 1 in Hc. unfold zoom_update in Hc. unfold upd at 1. unfold zoom_update. rewrite Et in *.
  destruct (z_failed (add_evals 1 st')) eqn:E.
  - exfalso. unfold make_safe_step in Hc. unfold zoom_cond in Hc. cbn in Hc. cbn in E. rewrite E, orb_true_r in Hc. discriminate.
  - unfold zoom_cond in Hc. cbn in Hc. apply negb_true_iff in Hc. apply orb_false_iff in Hc. cbn in E. repeat split; tauto.
Qed.

Lemma live_hot k :
  (forall j, (1 <= j <= k)%nat -> zoom_cond (Nat.iter j upd init) = true) ->
  let st := snd (Nat.iter k upd init) in
  (z_found st = false -> srch2 st) /\ (z_found st = true -> hot st).
Proof.
  destruct Hwc as (W1 & W2 & W3).
  induction k as [|k IH]; intros Hc; cbv zeta.
  - split; [|discriminate]. intros _. constructor; cbn [snd init zoom_init z_prev z_iter]; [|discriminate].
    change (zc2 cfg * a < a). pose proof Hapos. assert (zc2 cfg * a < 1 * a) by (apply Rmult_lt_compat_r; lra). lra.
  - destruct (IH ltac:(intros; apply Hc; lia)) as [I1 I2].
    destruct (live_spec cfg f gradf vdot x d fx sl s0 Htol Hs0 Hmax ltac:(lra) Hrc Hrq given g k ltac:(intros; apply Hc; lia)) as (HB & Hi & H0 & _).
    destruct (live_geom cfg f gradf vdot x d fx sl s0 Htol Hs0 Hmax ltac:(lra) Hrc Hrq given g Hdesc Hinc ltac:(lra) H0a H0b k ltac:(intros; apply Hc; lia)) as [J1 J2].
    fold init in HB, Hi, H0, J1, J2. fold upd in HB, Hi, H0, J1, J2.
    destruct (trial_step cfg f gradf vdot (Nat.iter k upd init)) as [s' st'] eqn:Et.
    destruct (live_update k s' st' Hc Et) as (Hdn & Hfl & E). rewrite E. cbn [snd].
    destruct (Nat.iter k upd init) as [s st] eqn:Ek. cbn [fst snd] in *. unfold trial_step in Et.
    destruct (z_found st) eqn:Ef.
    + pose proof (zoom_hot st HB (J2 eq_refl) (I2 eq_refl) Ef) as H. cbv zeta in H. rewrite Et in H. cbn [fst snd] in H.
      split; intros Hfd; [|apply add_evals_hot, H; exact Hdn].
      exfalso. cbn in Hfd. assert (z_found st' = z_found st) by (apply (f_equal snd) in Et; cbn [snd] in Et; rewrite <- Et; reflexivity). congruence.
    + pose proof (search_hot s st HB (J1 eq_refl) (I1 eq_refl) Ef ltac:(intros; apply H0; lia)) as H. cbv zeta in H. rewrite Et in H. cbn [fst snd] in H.
      destruct H as [_ H]. specialize (H Hdn). split; intros Hfd; apply add_evals_hot, H; exact Hfd.
Qed.

Definition q : R := bracket_floor cfg L sl.
Lemma live_floor k :
  (forall j, (1 <= j <= k)%nat -> zoom_cond (Nat.iter j upd init) = true) ->
  let st := snd (Nat.iter k upd init) in
  z_found st = true -> q < Rabs (z_high st - z_low st).
Proof.
  intros Hc. cbv zeta. intros Hf. pose proof Hwc as (W1 & W2 & W3).
  destruct (live_spec cfg f gradf vdot x d fx sl s0 Htol Hs0 Hmax ltac:(lra) Hrc Hrq given g k Hc) as (HB & _).
  destruct (live_geom cfg f gradf vdot x d fx sl s0 Htol Hs0 Hmax ltac:(lra) Hrc Hrq given g Hdesc Hinc ltac:(lra) H0a H0b k Hc) as [_ J2].
  destruct (live_hot k Hc) as [_ I2]. fold init in HB, J2. fold upd in HB, J2. specialize (J2 Hf). specialize (I2 Hf).
  set (st := snd (Nat.iter k upd init)) in *.
  destruct (b_zoom _ _ _ _ _ _ _ _ _ HB Hf) as (Rl & Rh & _). destruct J2 as [K1 K2 K3 K4 K5 K6]. destruct I2 as [H1 H2 _].
  unfold q, bracket_floor. fold a.
  apply (floor_bound (zmax cfg) L (zc1 cfg) (zc2 cfg) (zc3 cfg) fx a phi dphi Hsm HL Hapos W1 W2 Htrap); auto.
  - apply dok0_rd; assumption.
  - rewrite K3 in K6. destruct (Hline _ Rl) as [_ E2]. rewrite E2 in K6. exact K6.
Qed.

(** the first bracket appears by update J + 1 *)
Lemma live_found J : B <= s0 * increase_factor cfg ^ J ->
  (forall j, (1 <= j <= S J)%nat -> zoom_cond (Nat.iter j upd init) = true) ->
  z_found (snd (Nat.iter (S J) upd init)) = true.
Proof.
  intros HJ Hc. pose proof Hwc as (W1 & W2 & W3). destruct (z_found (snd (Nat.iter (S J) upd init))) eqn:Ef; [reflexivity|exfalso].
  destruct (live_spec cfg f gradf vdot x d fx sl s0 Htol Hs0 Hmax ltac:(lra) Hrc Hrq given g (S J) Hc) as (HB & Hi & _).
  destruct (live_geom cfg f gradf vdot x d fx sl s0 Htol Hs0 Hmax ltac:(lra) Hrc Hrq given g Hdesc Hinc ltac:(lra) H0a H0b (S J) Hc) as [J1 _].
  destruct (live_hot (S J) Hc) as [I1 _]. fold init in HB, Hi, J1. fold upd in HB, Hi, J1. specialize (J1 Ef). specialize (I1 Ef).
  pose proof (prev_bound _ HB J1 I1 Ef) as Hpb. pose proof (q_pow _ I1 J Hi) as Hpw.
  pose proof (r_prev _ _ _ _ _ _ _ _ _ J1) as Hlt.
  assert (Hpos : 0 < s0 * increase_factor cfg ^ J) by (apply Rmult_lt_0_compat; [lra|apply pow_lt; lra]).
  rewrite Hpw in *. destruct Hpb as [Hpb|Hpb]; [|lra].
  assert (1 * (s0 * increase_factor cfg ^ J) < increase_factor cfg * (s0 * increase_factor cfg ^ J)) by (apply Rmult_lt_compat_r; lra). lra.
Qed.

Lemma found_stays i k : (i <= k)%nat -> (forall j, (1 <= j <= k)%nat -> zoom_cond (Nat.iter j upd init) = true) ->
  z_found (snd (Nat.iter i upd init)) = true ->
  z_found (snd (Nat.iter k upd init)) = true /\ Rabs (z_high (snd (Nat.iter k upd init)) - z_low (snd (Nat.iter k upd init))) <= zoom_factor cfg ^ (k - i) * Rabs (z_high (snd (Nat.iter i upd init)) - z_low (snd (Nat.iter i upd init))).
Proof.
  intros Hik Hc Hf. pose proof Hwc as (W1 & W2 & W3). induction k as [|k IH].
  - assert (i = 0)%nat by lia. subst i. discriminate Hf.
  - destruct (Nat.eq_dec i (S k)) as [->|Hne]; [split; [exact Hf|]; rewrite Nat.sub_diag; simpl; lra|].
    destruct (IH ltac:(lia) ltac:(intros; apply Hc; lia)) as [If Id].
    pose proof (live_shrink cfg f gradf vdot x d fx sl s0 Htol Hs0 Hmax ltac:(lra) Hrc Hrq given g Hdesc Hinc ltac:(lra) H0a H0b k Hc If) as Hs.
    cbv zeta in Hs. fold init in Hs. fold upd in Hs.
    destruct (trial_step cfg f gradf vdot (Nat.iter k upd init)) as [s' st'] eqn:Et.
    destruct (live_update k s' st' Hc Et) as (_ & _ & E).
    split.
    + rewrite E. cbn. unfold trial_step in Et. destruct (Nat.iter k upd init) as [s st]. cbn [snd] in If. rewrite If in Et.
      apply (f_equal snd) in Et. cbn [snd] in Et. rewrite <- Et. cbn. exact If.
    + eapply Rle_trans; [exact Hs|]. replace (S k - i)%nat with (S (k - i)) by lia. cbn [pow].
      assert (Hz : 0 <= zoom_factor cfg) by (unfold zoom_factor; pose proof (Rmin_r (Rmin (rel_tol_cubic cfg) (rel_tol_quad cfg)) (1 / 2)); lra).
      rewrite Rmult_assoc. apply Rmult_le_compat_l; [exact Hz|exact Id].
Qed.

Lemma no_long_live J Z k : B <= s0 * increase_factor cfg ^ J -> B * zoom_factor cfg ^ Z <= q ->
  (forall j, (1 <= j <= k)%nat -> zoom_cond (Nat.iter j upd init) = true) -> (k < J + Z + 1)%nat.
Proof.
  intros HJ HZ Hc. destruct (Nat.lt_ge_cases k (J + Z + 1)) as [|Hge]; [assumption|exfalso].
  assert (Hc' : forall j, (1 <= j <= S J + Z)%nat -> zoom_cond (Nat.iter j upd init) = true) by (intros; apply Hc; lia).
  assert (Hc'' : forall j, (1 <= j <= S J)%nat -> zoom_cond (Nat.iter j upd init) = true) by (intros; apply Hc; lia).
  pose proof (live_found J HJ Hc'') as Hf.
  destruct (found_stays (S J) (S J + Z) ltac:(lia) Hc' Hf) as [Hf' Hd].
  pose proof (live_floor (S J + Z) Hc' Hf') as Hfl. cbv zeta in Hfl.
  destruct (live_hot (S J) Hc'') as [_ I2]. specialize (I2 Hf). destruct I2 as [_ _ [B1 B2]].
  destruct (live_spec cfg f gradf vdot x d fx sl s0 Htol Hs0 Hmax ltac:(lra) Hrc Hrq given g (S J) Hc'') as (HB & _).
  fold init in HB. fold upd in HB. destruct (b_zoom _ _ _ _ _ _ _ _ _ HB Hf) as (Rl & Rh & _).
  replace (S J + Z - S J)%nat with Z in Hd by lia.
  set (st := snd (Nat.iter (S J) upd init)) in *.
  assert (Hw : Rabs (z_high st - z_low st) <= B) by (unfold Rabs; destruct (Rcase_abs _); lra).
  assert (Hz : 0 <= zoom_factor cfg ^ Z) by (apply pow_le; unfold zoom_factor; pose proof (Rmin_r (Rmin (rel_tol_cubic cfg) (rel_tol_quad cfg)) (1 / 2)); lra).
  assert (zoom_factor cfg ^ Z * Rabs (z_high st - z_low st) <= zoom_factor cfg ^ Z * B) by (apply Rmult_le_compat_l; assumption). lra.
Qed.

Lemma success J Z : B <= s0 * increase_factor cfg ^ J -> B * zoom_factor cfg ^ Z <= q ->
  interval_threshold cfg <= q -> (J + Z + 2 <= zmaxiter cfg)%nat ->
  let '(s, st) := zoom_run cfg f gradf vdot given s0 x fx g sl d in
  z_done st = true /\ z_failed st = false /\ 0 < s <= zmax cfg /\ s <= B /\ dok s (ztol cfg) /\ (cok s (ztol cfg) \/ s = zmax cfg) /\
  (z_num_fun st <= (if given then 0 else 1) + (J + Z + 1))%nat.
Proof.
  intros HJ HZ Hth Hbud. pose proof Hwc as (W1 & W2 & W3).
  pose proof (zoom_run_spec cfg f gradf vdot x d fx sl s0 Htol Hs0 Hmax ltac:(lra) Hrc Hrq given g ltac:(lia)) as H. cbv zeta in H.
  unfold zoom_run. fold init upd in H |- *.
  destruct (run_loop_spec (zmaxiter cfg) zoom_cond upd init ltac:(lia)) as (k & Hk & Erun & Hlive & Hstop).
  destruct (run_loop (zmaxiter cfg) zoom_cond upd init) as [s st] eqn:Er. cbn [fst snd] in H.
  destruct k as [|k]; [lia|].
  assert (Hc : forall j, (1 <= j <= k)%nat -> zoom_cond (Nat.iter j upd init) = true) by (intros j Hj; apply Hlive; lia).
  pose proof (no_long_live J Z k HJ HZ Hc) as Hshort.
  destruct (live_spec cfg f gradf vdot x d fx sl s0 Htol Hs0 Hmax ltac:(lra) Hrc Hrq given g k Hc) as (HB & Hi & H0 & _ & _ & Hnf & _).
  destruct (live_geom cfg f gradf vdot x d fx sl s0 Htol Hs0 Hmax ltac:(lra) Hrc Hrq given g Hdesc Hinc ltac:(lra) H0a H0b k Hc) as [J1 J2].
  destruct (live_hot k Hc) as [I1 I2]. pose proof (live_floor k Hc) as Hfl. cbv zeta in Hfl.
  fold init upd in HB, Hi, H0, J1, J2, Hnf.
  change (Nat.iter (S k) upd init) with (upd (Nat.iter k upd init)) in Erun.
  pose proof (trial_ok cfg f gradf vdot x d fx sl s0 Htol Hs0 Hmax ltac:(lra) Hrc Hrq (fst (Nat.iter k upd init)) (snd (Nat.iter k upd init)) HB ltac:(intros; apply H0; lia)) as T.
  rewrite <- surjective_pairing in T.
  unfold upd at 1 in Erun. unfold zoom_update in Erun.
  destruct (trial_step cfg f gradf vdot (Nat.iter k upd init)) as [s' st'] eqn:Et. cbn [fst snd] in T.
  assert (HsB : s' <= B).
  { destruct (Nat.iter k upd init) as [s1 st1]. cbn [fst snd] in *. unfold trial_step in Et. destruct (z_found st1) eqn:Ef.
    - destruct (zoom_hot st1 HB (J2 eq_refl) (I2 eq_refl) Ef) as [Hz _]. rewrite Et in Hz. exact Hz.
    - destruct (search_hot s1 st1 HB (J1 eq_refl) (I1 eq_refl) Ef ltac:(intros; apply H0; lia)) as [Hz _]. rewrite Et in Hz. exact Hz. }
  assert (Hnofail : z_failed st' = false).
  { destruct (Nat.iter k upd init) as [s1 st1]. cbn [fst snd] in *. unfold trial_step in Et. destruct (z_found st1) eqn:Ef.
    - specialize (Hfl eq_refl). assert (Hts : Rleb (Rabs (z_high st1 - z_low st1)) (interval_threshold cfg) = false).
      { unfold Rleb. destruct (Rle_dec _ _); [lra|reflexivity]. }
      apply (f_equal snd) in Et. cbn [snd] in Et. rewrite <- Et. unfold zoom_into_interval. cbn [snd z_failed]. rewrite Hts. cbn [andb].
      rewrite orb_false_r. apply andb_false_iff. left. apply Nat.leb_gt. lia.
    - apply (f_equal snd) in Et. cbn [snd] in Et. rewrite <- Et. unfold search_interval. cbn [snd z_failed].
      apply andb_false_iff. left. apply Nat.leb_gt. lia. }
  cbn [add_evals z_failed] in Erun. rewrite Hnofail in Erun. 
  assert (Hdone : z_done st' = true).
  { destruct Hstop as [Hm|Hstop]; [lia|]. change (Nat.iter (S k) upd init) with (upd (Nat.iter k upd init)) in Hstop. unfold upd at 1 in Hstop. unfold zoom_update in Hstop. rewrite Et in Hstop. cbn [add_evals z_failed] in Hstop. rewrite Hnofail in Hstop.
    unfold zoom_cond in Hstop. cbn in Hstop. rewrite Hnofail, orb_false_r in Hstop. apply negb_false_iff in Hstop. exact Hstop. }
  injection Erun as -> ->. cbn [add_evals z_done z_failed z_num_fun].
  destruct (t_done _ _ _ _ _ _ _ _ _ _ _ T Hdone) as (D1 & D2 & _). pose proof (t_range _ _ _ _ _ _ _ _ _ _ _ T) as TR.
  split; [exact Hdone|]. split; [exact Hnofail|]. split; [exact TR|]. split; [exact HsB|]. split; [exact D1|]. split; [exact D2|].
  destruct (t_evals _ _ _ _ _ _ _ _ _ _ _ T) as [E1 _]. rewrite E1, Hnf. destruct given; lia.
Qed.
End Run.
