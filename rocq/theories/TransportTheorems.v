(** C51: optimal-transport projections.  Definitions and specification are in Transport.v. *)
From Coq Require Import Reals List Bool Lra Lia.
From Verif Require Import Prelude Vec Mat XArith Proj ProjProofs SimplexProofs Loss LossProofs Mirror MirrorTheorems BroydenProofs Transport TransportProofs.
Import ListNotations.
Open Scope R_scope.

(** ** Matrix algebra *)
Lemma zipw_length {A B C} (f : A -> B -> C) l : forall l', length l = length l' -> length (zipw f l l') = length l.
Proof. induction l as [|a l IH]; intros [|b l'] H; try discriminate; cbn; [reflexivity|]. rewrite IH; [reflexivity|cbn in H; lia]. Qed.
Lemma dot_row_sums m v Q : dot v (row_sums m Q) = vsum (map (dot v) Q).
Proof. induction Q as [|q Q IH]; cbn [row_sums fold_right map vsum]; [apply dot_vzero_r|]. rewrite dot_vadd_r. f_equal. exact IH. Qed.
Lemma row_sums_length m Q : matrix m Q -> length (row_sums m Q) = m.
Proof. induction Q as [|q Q IH]; intros H; cbn [row_sums fold_right]; [apply vzero_length|]. rewrite vadd_length. fold (row_sums m Q). rewrite IH by (intros c Hc; apply H; right; exact Hc). rewrite (H q (or_introl eq_refl)). apply Nat.max_id. Qed.
Lemma mdot_shift m alpha C : forall Q, length Q = length C -> mdot (map (vsub alpha) C) Q = dot alpha (row_sums m Q) - mdot C Q.
Proof.
  intros Q. rewrite dot_row_sums. unfold mdot. revert Q. induction C as [|c C IH]; intros [|q Q] L; try discriminate; cbn [map zipw vsum]; [ring|]. rewrite IH by (cbn in L; lia). rewrite dot_vsub_l. ring.
Qed.
Lemma mdot_comm P : forall Q, mdot P Q = mdot Q P.
Proof. unfold mdot. induction P as [|p P IH]; intros [|q Q]; cbn [zipw vsum]; try reflexivity. rewrite IH, dot_comm. reflexivity. Qed.
Lemma mdot_smul_map c P : forall Q, mdot (map (smul c) P) Q = c * mdot P Q.
Proof. unfold mdot. induction P as [|p P IH]; intros [|q Q]; cbn [map zipw vsum]; try ring. rewrite IH, dot_smul_l. ring. Qed.
Lemma col_sums_total m Q : matrix m Q -> vsum (row_sums m Q) = vsum (col_sums Q).
Proof. induction Q as [|q Q IH]; intros H; cbn [row_sums fold_right col_sums map vsum]; [unfold vzero; rewrite vsum_repeat; ring|]. rewrite vsum_vadd. f_equal. apply IH. intros c Hc. apply H. right. exact Hc. Qed.

(** A function that is within K t^2 of its tangent is differentiable. *)
Lemma quad_derivable F D K tau : 0 < tau -> (forall t, Rabs t <= tau -> Rabs (F t - F 0 - t * D) <= K * (t * t)) -> derivable_pt_lim F 0 D.
Proof.
  intros Ht H eps He. assert (Pk : 0 < Rabs K + 1) by (assert (T := Rabs_pos K); lra). assert (Pd : 0 < Rmin tau (eps / (Rabs K + 1))) by (apply Rmin_glb_lt; [exact Ht|apply Rdiv_lt_0_compat; lra]).
  exists (mkposreal _ Pd). cbn. intros h Hh Hl. assert (L1 := Rmin_l tau (eps / (Rabs K + 1))). assert (L2 := Rmin_r tau (eps / (Rabs K + 1))).
  replace (0 + h) with h by ring. replace ((F h - F 0) / h - D) with ((F h - F 0 - h * D) / h) by (field; exact Hh). unfold Rdiv. rewrite Rabs_mult, Rabs_inv by exact Hh.
  assert (Ph := Rabs_pos_lt h Hh). apply (Rmult_lt_reg_r (Rabs h)); [exact Ph|]. rewrite Rmult_assoc, Rinv_l, Rmult_1_r by lra. specialize (H h ltac:(lra)).
  assert (E : h * h = Rabs h * Rabs h) by (rewrite <- Rabs_mult; symmetry; apply Rabs_right; nra). rewrite E in H.
  assert (Kl : K <= Rabs K) by apply Rle_abs. assert (B : Rabs h * (Rabs K + 1) < eps).
  { apply (Rlt_le_trans _ (eps / (Rabs K + 1) * (Rabs K + 1))); [apply Rmult_lt_compat_r; lra|right; field; lra]. }
  apply (Rle_lt_trans _ _ _ H). replace (K * (Rabs h * Rabs h)) with (K * Rabs h * Rabs h) by ring. apply Rmult_lt_compat_r; [exact Ph|]. nra.
Qed.

Section Slope.
Variables (m : nat) (Om : vec -> R).
Lemma mdot_scaled t D : mdot (map (smul t) D) (map (smul t) D) = t * t * mdot D D.
Proof. rewrite mdot_smul_map, mdot_comm, mdot_smul_map. ring. Qed.
Lemma mdot_nonneg D : 0 <= mdot D D.
Proof. unfold mdot. induction D as [|u D IH]; cbn [zipw vsum]; [lra|]. assert (N := dot_self_nonneg u). lra. Qed.
Lemma csum_tangent cols xs D : Forall (col_ok m Om) cols -> length xs = length cols -> matrix m xs -> length D = length cols -> matrix m D ->
  exists K tau, 0 < tau /\ forall t, Rabs t <= tau ->
    Rabs (csum cols (zipw vadd xs (map (smul t) D)) - csum cols xs - t * mdot (cplan cols xs) D) <= K * (t * t).
Proof.
  intros Hc Lx Hx LD HD. destruct (csum_smooth m Om cols xs Hc Lx Hx) as (L & rho & HL & Hr & S). assert (N := mdot_nonneg D).
  set (q := rho / (mdot D D + 1)). assert (Hq : 0 < q) by (apply Rdiv_lt_0_compat; lra).
  exists (L * mdot D D), (Rmin 1 q). split; [apply Rmin_glb_lt; lra|]. intros t Ht. assert (T1 := Rmin_l 1 q). assert (T2 := Rmin_r 1 q).
  assert (Pt := Rabs_pos t). assert (E : t * t = Rabs t * Rabs t) by (rewrite <- Rabs_mult; symmetry; apply Rabs_right; nra).
  assert (Small : t * t * mdot D D <= rho).
  { assert (Q : q * (mdot D D + 1) = rho) by (unfold q; field; lra). assert (t * t <= q) by nra. nra. }
  assert (LDt : length (map (smul t) D) = length cols) by (rewrite map_length; exact LD).
  assert (HDt : matrix m (map (smul t) D)) by (intros c Hi; apply in_map_iff in Hi; destruct Hi as (d & <- & Hd); rewrite smul_length; apply HD; exact Hd).
  specialize (S _ LDt HDt). rewrite mdot_scaled in S. specialize (S Small). rewrite (mdot_comm (cplan cols xs) (map (smul t) D)), mdot_smul_map, (mdot_comm D) in S.
  set (ys := zipw vadd xs (map (smul t) D)) in *.
  assert (Ly : length ys = length cols) by (unfold ys; rewrite zipw_length; unfold vec in *; lia).
  assert (Hy : matrix m ys).
  { unfold ys. clear -Hx HDt. revert HDt Hx. generalize (map (smul t) D). intros U. revert U. induction xs as [|x xs IH]; intros [|u U] HU Hx c Hc; try destruct Hc; [subst c; rewrite vadd_length, (Hx x (or_introl eq_refl)), (HU u (or_introl eq_refl)); apply Nat.max_id|].
    apply (IH U (fun z Hz => HU z (or_intror Hz)) (fun z Hz => Hx z (or_intror Hz)) c). assumption. }
  assert (HP := cplan_in m Om cols xs Hc Lx Hx). destruct (csum_max m Om cols ys _ Hc Ly Hy HP) as [M _]. assert (V := csum_val m Om cols xs Hc Lx Hx).
  assert (Ad : forall Q, length Q = length cols -> mdot ys Q = mdot xs Q + t * mdot D Q).
  { intros Q LQ. unfold ys, mdot. clear -Lx LD LQ. revert D Q cols Lx LD LQ. induction xs as [|x xs IH]; intros [|d D] [|p Q] [|c cols] Lx LD LQ; try discriminate; cbn [map zipw vsum]; [ring|]. rewrite (IH D Q cols) by (cbn in *; lia). rewrite dot_vadd_l, dot_smul_l. ring. }
  rewrite Ad in M by (unfold cplan; rewrite zipw_length; unfold vec in *; lia). rewrite (mdot_comm D) in M.
  apply Rabs_le. split; [|lra]. assert (0 <= L * mdot D D * (t * t)) by (apply Rmult_le_pos; [apply Rmult_le_pos; assumption|nra]). lra.
Qed.
(** A minimum over a ray has a non-negative slope. *)
Lemma min_slope (F : R -> R) D K tau : 0 < tau -> (forall t, Rabs t <= tau -> Rabs (F t - F 0 - t * D) <= K * (t * t)) -> (forall t, F 0 <= F t) -> 0 <= D.
Proof.
  intros Ht H Hm. apply Rnot_lt_le. intros Hd. set (k := Rabs K + 1). assert (Pk : 0 < k) by (unfold k; assert (T := Rabs_pos K); lra).
  set (t := Rmin tau (- D / (2 * k))). assert (P1 : 0 < - D / (2 * k)) by (apply Rdiv_lt_0_compat; lra). assert (Pt : 0 < t) by (unfold t; apply Rmin_glb_lt; assumption).
  assert (B1 := Rmin_l tau (- D / (2 * k))). assert (B2 := Rmin_r tau (- D / (2 * k))). fold t in B1, B2. specialize (H t ltac:(rewrite Rabs_right by lra; exact B1)). specialize (Hm t).
  assert (Q := Rle_abs (F t - F 0 - t * D)). assert (Kl : K <= k) by (unfold k; assert (T := Rle_abs K); lra).
  assert (t * k <= - D / 2) by (apply (Rmult_le_compat_r k) in B2; [|lra]; replace (- D / (2 * k) * k) with (- D / 2) in B2 by (field; lra); exact B2).
  assert (0 < t * t) by nra. assert (K * (t * t) <= k * (t * t)) by nra. nra.
Qed.
End Slope.

(** ** Well-formed problems *)
Definition transport_problem (m : nat) (C : list vec) (a b : vec) : Prop := (0 < m)%nat /\ matrix m C /\ length a = m /\ length b = length C.

Section SemiDual.
Variables (r : regulariser) (gamma : R) (m : nat) (C : list vec) (a b : vec).
Hypothesis Hg : 0 < gamma.
Hypothesis HP : transport_problem m C a b.
Hypothesis Hb : forall x, In x b -> 0 < x.
Notation F := (semi_dual r gamma C a b).
Notation plan := (semi_dual_plan r gamma C b).
Definition sd_cols : list col := map (fun bj => {| cK := simplex m bj; cv := fun x => bj * max_reg r x bj gamma; cP := fun x => smul bj (max_reg_grad r x bj gamma) |}) b.
Lemma sd_ok : Forall (col_ok m (om r gamma)) sd_cols.
Proof.
  unfold sd_cols. apply Forall_forall. intros c Hc. apply in_map_iff in Hc. destruct Hc as (bj & <- & Hin). unfold col_ok. cbn [cK cv cP]. destruct HP as (Hm & _). destruct r; cbn [max_reg max_reg_grad]; [apply col_l2|apply col_ent]; try assumption; apply Hb; exact Hin.
Qed.
Lemma sd_len : length (map (vsub (vzero m)) C) = length sd_cols.
Proof. unfold sd_cols. rewrite !map_length. destruct HP as (_ & _ & _ & ->). reflexivity. Qed.
Lemma sd_xlen alpha : length (map (vsub alpha) C) = length sd_cols.
Proof. unfold sd_cols. rewrite !map_length. destruct HP as (_ & _ & _ & ->). reflexivity. Qed.
Lemma sd_xm alpha : length alpha = m -> matrix m (map (vsub alpha) C).
Proof. intros La c Hc. apply in_map_iff in Hc. destruct Hc as (d & <- & Hd). rewrite vsub_length. destruct HP as (_ & HC & _). rewrite (HC d Hd). lia. Qed.
Lemma sd_csum alpha : F alpha = csum sd_cols (map (vsub alpha) C) - dot alpha a.
Proof.
  unfold semi_dual, csum, sd_cols. f_equal. f_equal. destruct HP as (_ & _ & _ & L). clear -L. revert b L. induction C as [|c C' IH]; intros [|x b'] L; try discriminate; cbn [zipw map]; [reflexivity|]. f_equal. apply IH. cbn in L. lia.
Qed.
Lemma sd_plan alpha : plan alpha = cplan sd_cols (map (vsub alpha) C).
Proof.
  unfold semi_dual_plan, cplan, sd_cols. destruct HP as (_ & _ & _ & L). clear -L. revert b L. induction C as [|c C' IH]; intros [|x b'] L; try discriminate; cbn [zipw map]; [reflexivity|]. f_equal. apply IH. cbn in L. lia.
Qed.
Lemma sd_feasible Q : Forall2 cK sd_cols Q <-> nonneg_matrix m Q /\ col_sums Q = b.
Proof.
  unfold sd_cols. clear. revert Q. induction b as [|x b' IH]; intros Q; cbn [map].
  - split; [intros H; inversion H; subst; split; [split; intros c []|reflexivity]|intros [_ H]; destruct Q; [constructor|discriminate]].
  - split.
    + intros H. inversion H; subst. rename y into q. rename l' into Q'. cbn [cK] in *. apply IH in H4. destruct H4 as [[M N] <-]. destruct H2 as (L1 & P1 & S1). split; [split|].
      * intros c [<-|Hc]; [exact L1|apply M; exact Hc].
      * intros c [<-|Hc]; [exact P1|apply N; exact Hc].
      * cbn [col_sums map]. f_equal. exact S1.
    + intros [[M N] H]. destruct Q as [|q Q']; [discriminate|]. cbn [col_sums map] in H. injection H as H1 H2. constructor.
      * cbn [cK]. split; [apply M; left; reflexivity|]. split; [apply N; left; reflexivity|exact H1].
      * apply IH. split; [split; [intros c Hc; apply M; right; exact Hc|intros c Hc; apply N; right; exact Hc]|exact H2].
Qed.
Lemma sd_value alpha : length alpha = m -> F alpha = dot alpha (row_sums m (plan alpha)) - primal r gamma C (plan alpha) - dot alpha a.
Proof.
  intros La. rewrite sd_csum, sd_plan, (csum_val m (om r gamma) _ _ sd_ok (sd_xlen alpha) (sd_xm alpha La)). rewrite (mdot_shift m), osum_omega; [unfold primal; ring|].
  unfold cplan. rewrite zipw_length by (symmetry; apply sd_xlen). unfold sd_cols. rewrite map_length. apply HP.
Qed.
Lemma sd_upper alpha Q : length alpha = m -> nonneg_matrix m Q -> col_sums Q = b ->
  dot alpha (row_sums m Q) - primal r gamma C Q - dot alpha a <= F alpha /\ (F alpha <= dot alpha (row_sums m Q) - primal r gamma C Q - dot alpha a -> Q = plan alpha).
Proof.
  intros La HN HC. assert (HQ := proj2 (sd_feasible Q) (conj HN HC)). destruct (csum_max m (om r gamma) _ _ Q sd_ok (sd_xlen alpha) (sd_xm alpha La) HQ) as [M U].
  assert (LQ : length Q = length C) by (rewrite <- (map_length vsum Q); unfold col_sums in HC; rewrite HC; apply HP). rewrite (mdot_shift m) in M, U by exact LQ. rewrite osum_omega in M, U. rewrite sd_csum, sd_plan. unfold primal. split; [lra|]. intros H. apply U. lra.
Qed.
Lemma sd_plan_ok alpha : length alpha = m -> nonneg_matrix m (plan alpha) /\ col_sums (plan alpha) = b.
Proof. intros La. apply sd_feasible. rewrite sd_plan. apply (cplan_in m (om r gamma)); [apply sd_ok|apply sd_xlen|apply sd_xm; exact La]. Qed.
Lemma sd_tangent alpha d : length alpha = m -> length d = m -> exists K tau, 0 < tau /\ forall t, Rabs t <= tau ->
  Rabs (F (vadd alpha (smul t d)) - F (vadd alpha (smul 0 d)) - t * dot (vsub (row_sums m (plan alpha)) a) d) <= K * (t * t).
Proof.
  intros La Ld. assert (LD : length (map (fun _ : vec => d) C) = length sd_cols) by (unfold sd_cols; rewrite !map_length; symmetry; apply HP).
  assert (HD : matrix m (map (fun _ : vec => d) C)) by (intros c Hc; apply in_map_iff in Hc; destruct Hc as (x & <- & _); exact Ld).
  destruct (csum_tangent m (om r gamma) _ _ _ sd_ok (sd_xlen alpha) (sd_xm alpha La) LD HD) as (K & tau & Ht & H). exists K, tau. split; [exact Ht|]. intros t Hb'. specialize (H t Hb').
  assert (E : forall s, zipw vadd (map (vsub alpha) C) (map (smul s) (map (fun _ : vec => d) C)) = map (vsub (vadd alpha (smul s d))) C).
  { intros s. destruct HP as (_ & HC & _). clear -La Ld HC. induction C as [|c C' IH]; cbn [map zipw]; [reflexivity|]. f_equal; [|apply IH; intros z Hz; apply HC; right; exact Hz].
    assert (Lc := HC c (or_introl eq_refl)). apply vec_eq_dot; [rewrite !vadd_length, !vsub_length, !vadd_length, smul_length; lia|]. intros w. vring. }
  rewrite E in H. rewrite !sd_csum.
  assert (E0 : vadd alpha (smul 0 d) = alpha) by (apply vec_eq_dot; [rewrite vadd_length, smul_length; lia|intros w; vring]). rewrite E0.
  assert (Em : mdot (cplan sd_cols (map (vsub alpha) C)) (map (fun _ : vec => d) C) = dot d (row_sums m (plan alpha))).
  { rewrite dot_row_sums, <- sd_plan. assert (LQ : length (plan alpha) = length C) by (rewrite sd_plan; unfold cplan; rewrite zipw_length by (symmetry; apply sd_xlen); unfold sd_cols; rewrite map_length; apply HP).
    revert LQ. generalize (plan alpha). clear. intros Q. unfold mdot. revert Q. induction C as [|c C' IH]; intros [|q Q] L; try discriminate; cbn [map zipw vsum]; [reflexivity|]. rewrite IH by (cbn in L; lia). rewrite (dot_comm q d). reflexivity. }
  rewrite Em in H. rewrite dot_vadd_l, dot_smul_l, dot_vsub_l, (dot_comm (row_sums m (plan alpha)) d), (dot_comm a d).
  match goal with |- Rabs ?e <= _ => replace e with (csum sd_cols (map (vsub (vadd alpha (smul t d))) C) - csum sd_cols (map (vsub alpha) C) - t * dot d (row_sums m (plan alpha))) by ring end. exact H.
Qed.

(** The semi-dual certificate.  For every alpha the plan has the column marginals b; minus the objective bounds the
    primal from below; P 1 - a is a subgradient and the derivative; the plan is optimal up to <alpha, P 1 - a>; alpha is
    a minimiser exactly when P 1 = a, and then the plan is the unique solution of the primal. *)
Theorem C51_semi_dual alpha : length alpha = m -> let P := plan alpha in let g := vsub (row_sums m P) a in
  nonneg_matrix m P /\ col_sums P = b /\
  (forall Q, polytope m a b Q -> - F alpha <= primal r gamma C Q) /\
  (forall alpha', length alpha' = m -> F alpha + dot g (vsub alpha' alpha) <= F alpha') /\
  (forall d, length d = m -> derivable_pt_lim (fun t => F (vadd alpha (smul t d))) 0 (dot g d)) /\
  (forall Q, polytope m a b Q -> primal r gamma C P <= primal r gamma C Q + dot alpha g) /\
  ((forall alpha', length alpha' = m -> F alpha <= F alpha') <-> row_sums m P = a) /\
  (row_sums m P = a -> polytope m a b P /\ primal r gamma C P = - F alpha /\ forall Q, polytope m a b Q -> primal r gamma C Q <= primal r gamma C P -> Q = P).
Proof.
  intros La P g. destruct (sd_plan_ok alpha La) as [HN HC]. fold P in HN, HC. assert (V := sd_value alpha La). fold P in V.
  assert (Sub : forall alpha', length alpha' = m -> F alpha + dot g (vsub alpha' alpha) <= F alpha').
  { intros al' La'. destruct (sd_upper al' P La' HN HC) as [U _]. unfold g. rewrite dot_vsub_l, !dot_vsub_r, (dot_comm (row_sums m P) al'), (dot_comm (row_sums m P) alpha), (dot_comm a al'), (dot_comm a alpha). lra. }
  assert (Lg : length g = m) by (unfold g; rewrite vsub_length, row_sums_length by apply HN; destruct HP as (_ & _ & -> & _); apply Nat.max_id).
  repeat (split; [assumption|]). split.
  { intros Q (QN & QR & QC). destruct (sd_upper alpha Q La QN QC) as [U _]. rewrite QR in U. lra. }
  split; [exact Sub|]. split.
  { intros d Ld. destruct (sd_tangent alpha d La Ld) as (K & tau & Ht & H). apply (quad_derivable _ _ K tau Ht). exact H. }
  split.
  { intros Q (QN & QR & QC). destruct (sd_upper alpha Q La QN QC) as [U _]. rewrite QR in U. unfold g. rewrite dot_vsub_r. lra. }
  split; [split|].
  - intros Hmin. destruct (sd_tangent alpha (smul (-1) g) La ltac:(rewrite smul_length; exact Lg)) as (K & tau & Ht & H).
    assert (D := min_slope (fun t => F (vadd alpha (smul t (smul (-1) g)))) _ K tau Ht H). fold P in D. fold g in D. cbv beta in D.
    assert (E0 : vadd alpha (smul 0 (smul (-1) g)) = alpha) by (apply vec_eq_dot; [rewrite vadd_length, !smul_length; lia|intros w; vring]). rewrite E0 in D.
    assert (Hr : forall t, F alpha <= F (vadd alpha (smul t (smul (-1) g)))) by (intros t; apply Hmin; rewrite vadd_length, !smul_length; lia). specialize (D Hr). rewrite dot_smul_r in D. assert (N := dot_self_nonneg g). assert (Z : dot g g = 0) by lra.
    apply dist2_zero; [rewrite row_sums_length by apply HN; symmetry; apply HP|exact Z].
  - intros HR al' La'. assert (S1 := Sub al' La'). unfold g in S1. rewrite HR, vsub_self, dot_vzero_l in S1. lra.
  - intros HR. rewrite HR in V. split; [split; [exact HN|split; [exact HR|exact HC]]|]. split; [lra|]. intros Q (QN & QR & QC) Hle. destruct (sd_upper alpha Q La QN QC) as [_ U]. apply U. rewrite QR. lra.
Qed.

(** Adding a constant to alpha does not change the plan; it changes the objective by the difference of the masses. *)
Theorem C51_semi_dual_shift alpha c : length alpha = m ->
  F (vadd alpha (smul c (vones m))) = F alpha + c * (vsum b - vsum a) /\ plan (vadd alpha (smul c (vones m))) = plan alpha.
Proof.
  intros La. set (al' := vadd alpha (smul c (vones m))). assert (La' : length al' = m) by (unfold al'; rewrite vadd_length, smul_length, vones_length; lia).
  assert (Sh : forall Q, nonneg_matrix m Q -> col_sums Q = b -> dot al' (row_sums m Q) - dot al' a = dot alpha (row_sums m Q) - dot alpha a + c * (vsum b - vsum a)).
  { intros Q HN HC. unfold al'. rewrite !dot_vadd_l, !dot_smul_l. rewrite (vsum_dot a). destruct HP as (_ & _ & -> & _). rewrite <- HC, <- (col_sums_total m Q) by apply HN. rewrite (vsum_dot (row_sums m Q)), row_sums_length by apply HN. ring. }
  destruct (sd_plan_ok alpha La) as [N1 C1]. destruct (sd_plan_ok al' La') as [N2 C2]. assert (V1 := sd_value alpha La). assert (V2 := sd_value al' La').
  destruct (sd_upper al' (plan alpha) La' N1 C1) as [U1 E1]. destruct (sd_upper alpha (plan al') La N2 C2) as [U2 E2]. assert (S1 := Sh _ N1 C1). assert (S2 := Sh _ N2 C2). split; [lra|]. symmetry. apply E1. lra.
Qed.
End SemiDual.

Section Dual.
Variables (r : regulariser) (gamma : R) (m : nat) (C : list vec) (a b : vec).
Hypothesis Hg : 0 < gamma.
Hypothesis HP : transport_problem m C a b.
Notation F := (dual r gamma C a b).
Notation plan := (dual_plan r gamma C).
Definition d_col : col := {| cK := nonneg_vec m; cv := fun x => delta_reg r x gamma; cP := fun x => delta_reg_grad r x gamma |}.
Definition d_cols : list col := map (fun _ => d_col) C.
Definition d_xs (alpha beta : vec) : list vec := zipw (fun c be => vsub (map (fun t => t + be) alpha) c) C beta.
Lemma d_ok : Forall (col_ok m (om r gamma)) d_cols.
Proof. unfold d_cols. apply Forall_forall. intros c Hc. apply in_map_iff in Hc. destruct Hc as (x & <- & _). unfold col_ok, d_col. cbn [cK cv cP]. destruct r; [apply col_delta_l2|apply col_delta_ent]; exact Hg. Qed.
Lemma d_xlen alpha beta : length beta = length C -> length (d_xs alpha beta) = length d_cols.
Proof. intros H. unfold d_xs, d_cols. rewrite map_length. apply zipw_length. symmetry. exact H. Qed.
Lemma d_xm alpha beta : length alpha = m -> matrix m (d_xs alpha beta).
Proof.
  intros La. unfold d_xs. destruct HP as (_ & HC & _). clear -La HC. revert beta. induction C as [|c C' IH]; intros [|be beta] x Hx; try destruct Hx.
  - subst x. rewrite vsub_length, map_length, La, (HC c (or_introl eq_refl)). apply Nat.max_id.
  - apply (IH (fun z Hz => HC z (or_intror Hz)) beta x). assumption.
Qed.
Lemma d_csum alpha beta : length beta = length C -> F (alpha, beta) = csum d_cols (d_xs alpha beta) - dot alpha a - dot beta b.
Proof.
  intros L. unfold dual, csum, d_cols, d_xs. f_equal. f_equal. f_equal. clear -L. revert beta L. induction C as [|c C' IH]; intros [|x b'] L; try discriminate; cbn [zipw map]; [reflexivity|]. f_equal. apply IH. cbn in L. lia.
Qed.
Lemma d_plan alpha beta : length beta = length C -> plan (alpha, beta) = cplan d_cols (d_xs alpha beta).
Proof.
  intros L. unfold dual_plan, cplan, d_cols, d_xs. clear -L. revert beta L. induction C as [|c C' IH]; intros [|x b'] L; try discriminate; cbn [zipw map]; [reflexivity|]. f_equal. apply IH. cbn in L. lia.
Qed.
Lemma d_feasible Q : Forall2 cK d_cols Q <-> nonneg_matrix m Q /\ length Q = length C.
Proof.
  unfold d_cols. clear. revert Q. induction C as [|x b' IH]; intros Q; cbn [map].
  - split; [intros H; inversion H; subst; split; [split; intros c []|reflexivity]|intros [_ H]; destruct Q; [constructor|discriminate]].
  - split.
    + intros H. inversion H; subst. rename y into q. rename l' into Q'. cbn [cK d_col] in *. apply IH in H4. destruct H4 as [[M N] L4]. destruct H2 as (L1 & P1). split; [split|].
      * intros c [<-|Hc]; [exact L1|apply M; exact Hc].
      * intros c [<-|Hc]; [exact P1|apply N; exact Hc].
      * cbn [length]. f_equal. exact L4.
    + intros [[M N] H]. destruct Q as [|q Q']; [discriminate|]. cbn [length] in H. constructor.
      * cbn [cK d_col]. split; [apply M; left; reflexivity|apply N; left; reflexivity].
      * apply IH. split; [split; [intros c Hc; apply M; right; exact Hc|intros c Hc; apply N; right; exact Hc]|lia].
Qed.
Lemma d_mdot alpha beta Q : length alpha = m -> length beta = length C -> length Q = length C -> matrix m Q -> mdot (d_xs alpha beta) Q = dot alpha (row_sums m Q) + dot beta (col_sums Q) - mdot C Q.
Proof.
  intros La Lb LQ MQ. rewrite dot_row_sums. unfold mdot, d_xs, col_sums. clear HP. revert beta Q Lb LQ MQ. induction C as [|c C' IH]; intros [|be beta] [|q Q] Lb LQ MQ; try discriminate; cbn [map zipw vsum dot]; [ring|].
  rewrite IH by (try (cbn in *; lia); intros z Hz; apply MQ; right; exact Hz). rewrite dot_vsub_l.
  assert (E : dot (map (fun t => t + be) alpha) q = dot alpha q + be * vsum q).
  { assert (Lq := MQ q (or_introl eq_refl)). clear -La Lq. revert alpha q La Lq. induction m as [|k IHm]; intros [|x al] [|y q] La Lq; try discriminate; cbn [map dot vsum]; [ring|]. rewrite IHm by (cbn in *; lia). ring. }
  rewrite E. ring.
Qed.
Lemma d_plan_ok alpha beta : length alpha = m -> length beta = length C -> nonneg_matrix m (plan (alpha, beta)) /\ length (plan (alpha, beta)) = length C.
Proof. intros La Lb. apply d_feasible. rewrite d_plan by exact Lb. apply (cplan_in m (om r gamma)); [apply d_ok|apply d_xlen; exact Lb|apply d_xm; exact La]. Qed.
Lemma d_value alpha beta : length alpha = m -> length beta = length C -> let P := plan (alpha, beta) in
  F (alpha, beta) = dot alpha (row_sums m P) + dot beta (col_sums P) - primal r gamma C P - dot alpha a - dot beta b.
Proof.
  intros La Lb P. destruct (d_plan_ok alpha beta La Lb) as [[M _] L]. fold P in M, L. rewrite d_csum by exact Lb. rewrite (csum_val m (om r gamma) _ _ d_ok (d_xlen alpha beta Lb) (d_xm alpha beta La)). rewrite <- d_plan by exact Lb. fold P. rewrite d_mdot, osum_omega by assumption. unfold primal. change (dual_plan r gamma C (alpha, beta)) with P. ring.
Qed.
Lemma d_upper alpha beta Q : length alpha = m -> length beta = length C -> nonneg_matrix m Q -> length Q = length C ->
  dot alpha (row_sums m Q) + dot beta (col_sums Q) - primal r gamma C Q - dot alpha a - dot beta b <= F (alpha, beta) /\
  (F (alpha, beta) <= dot alpha (row_sums m Q) + dot beta (col_sums Q) - primal r gamma C Q - dot alpha a - dot beta b -> Q = plan (alpha, beta)).
Proof.
  intros La Lb HN LQ. assert (HQ := proj2 (d_feasible Q) (conj HN LQ)). destruct (csum_max m (om r gamma) _ _ Q d_ok (d_xlen alpha beta Lb) (d_xm alpha beta La) HQ) as [M U].
  rewrite d_mdot, osum_omega in M, U by (try assumption; apply HN). rewrite d_csum, d_plan by exact Lb. unfold primal. split; [lra|]. intros H. apply U. lra.
Qed.
Lemma d_tangent alpha beta d e : length alpha = m -> length beta = length C -> length d = m -> length e = length C -> let P := plan (alpha, beta) in
  exists K tau, 0 < tau /\ forall t, Rabs t <= tau ->
  Rabs (F (vadd alpha (smul t d), vadd beta (smul t e)) - F (vadd alpha (smul 0 d), vadd beta (smul 0 e)) - t * (dot (vsub (row_sums m P) a) d + dot (vsub (col_sums P) b) e)) <= K * (t * t).
Proof.
  intros La Lb Ld Le P. set (D := map (fun ej => map (fun t => t + ej) d) e).
  assert (LD : length D = length d_cols) by (unfold D, d_cols; rewrite !map_length; exact Le).
  assert (HD : matrix m D) by (intros c Hc; apply in_map_iff in Hc; destruct Hc as (x & <- & _); rewrite map_length; exact Ld).
  destruct (csum_tangent m (om r gamma) _ _ _ d_ok (d_xlen alpha beta Lb) (d_xm alpha beta La) LD HD) as (K & tau & Ht & H). exists K, tau. split; [exact Ht|]. intros t Hb'. specialize (H t Hb').
  assert (E : forall s, zipw vadd (d_xs alpha beta) (map (smul s) D) = d_xs (vadd alpha (smul s d)) (vadd beta (smul s e))).
  { intros s. unfold D, d_xs. destruct HP as (_ & HC & _). clear -La Lb Ld Le HC. revert beta e Lb Le. induction C as [|c C' IH]; intros [|be beta] [|ej e] Lb Le; try discriminate; cbn [map zipw vadd smul]; [reflexivity|]. f_equal; [|apply IH; try (cbn in *; lia); intros z Hz; apply HC; right; exact Hz].
    assert (Lc := HC c (or_introl eq_refl)). clear -La Ld Lc. revert alpha d c La Ld Lc. induction m as [|k IHm]; intros [|x al] [|y d] [|z c] La Ld Lc; try discriminate; cbn [map vsub vadd smul]; [reflexivity|]. f_equal; [ring|]. apply IHm; cbn in *; lia. }
  rewrite E in H. rewrite !d_csum by (rewrite vadd_length, smul_length; lia).
  assert (E0 : vadd alpha (smul 0 d) = alpha) by (apply vec_eq_dot; [rewrite vadd_length, smul_length; lia|intros w; vring]). assert (E1 : vadd beta (smul 0 e) = beta) by (apply vec_eq_dot; [rewrite vadd_length, smul_length; lia|intros w; vring]). rewrite E0, E1.
  assert (Em : mdot (cplan d_cols (d_xs alpha beta)) D = dot d (row_sums m P) + dot e (col_sums P)).
  { rewrite <- d_plan by exact Lb. change (dual_plan r gamma C (alpha, beta)) with P. destruct (d_plan_ok alpha beta La Lb) as [[MP _] LP]. fold P in MP, LP. clearbody P. rewrite dot_row_sums. unfold mdot, D, col_sums. assert (Lpe : length P = length e) by congruence. clear -MP Lpe Ld. revert e Lpe MP. induction P as [|q P IH]; intros [|ej e] Lpe MP; try discriminate; cbn [map zipw vsum dot]; [ring|]. rewrite IH by (try (cbn in *; lia); intros z Hz; apply MP; right; exact Hz).
    assert (Eq : dot q (map (fun t => t + ej) d) = dot d q + ej * vsum q).
    { assert (Lq := MP q (or_introl eq_refl)). clear -Ld Lq. revert q d Ld Lq. induction m as [|k IHm]; intros [|x q] [|y d] Ld Lq; try discriminate; cbn [map dot vsum]; [ring|]. rewrite IHm by (cbn in *; lia). ring. }
    rewrite Eq. ring. }
  rewrite Em in H. rewrite !dot_vadd_l, !dot_smul_l, !dot_vsub_l, (dot_comm (row_sums m P) d), (dot_comm a d), (dot_comm (col_sums P) e), (dot_comm b e).
  match goal with |- Rabs ?x <= _ => replace x with (csum d_cols (d_xs (vadd alpha (smul t d)) (vadd beta (smul t e))) - csum d_cols (d_xs alpha beta) - t * (dot d (row_sums m P) + dot e (col_sums P))) by ring end. exact H.
Qed.

(** The dual certificate; the marginals b may contain zeros. *)
Theorem C51_dual alpha beta : length alpha = m -> length beta = length C -> let P := plan (alpha, beta) in let ga := vsub (row_sums m P) a in let gb := vsub (col_sums P) b in
  nonneg_matrix m P /\
  (forall Q, polytope m a b Q -> - F (alpha, beta) <= primal r gamma C Q) /\
  (forall alpha' beta', length alpha' = m -> length beta' = length C -> F (alpha, beta) + dot ga (vsub alpha' alpha) + dot gb (vsub beta' beta) <= F (alpha', beta')) /\
  (forall d e, length d = m -> length e = length C -> derivable_pt_lim (fun t => F (vadd alpha (smul t d), vadd beta (smul t e))) 0 (dot ga d + dot gb e)) /\
  (forall Q, polytope m a b Q -> primal r gamma C P <= primal r gamma C Q + dot alpha ga + dot beta gb) /\
  ((forall alpha' beta', length alpha' = m -> length beta' = length C -> F (alpha, beta) <= F (alpha', beta')) <-> row_sums m P = a /\ col_sums P = b) /\
  (row_sums m P = a -> col_sums P = b -> polytope m a b P /\ primal r gamma C P = - F (alpha, beta) /\ forall Q, polytope m a b Q -> primal r gamma C Q <= primal r gamma C P -> Q = P).
Proof.
  intros La Lb P ga gb. destruct (d_plan_ok alpha beta La Lb) as [HN LP]. fold P in HN, LP. assert (V := d_value alpha beta La Lb). cbv zeta in V. fold P in V.
  assert (LQ : forall Q, polytope m a b Q -> length Q = length C) by (intros Q (_ & _ & QC); rewrite <- (map_length vsum Q); unfold col_sums in QC; rewrite QC; apply HP).
  assert (Sub : forall alpha' beta', length alpha' = m -> length beta' = length C -> F (alpha, beta) + dot ga (vsub alpha' alpha) + dot gb (vsub beta' beta) <= F (alpha', beta')).
  { intros al' be' La' Lb'. destruct (d_upper al' be' P La' Lb' HN LP) as [U _]. unfold ga, gb. rewrite !dot_vsub_l, !dot_vsub_r, (dot_comm (row_sums m P) al'), (dot_comm (row_sums m P) alpha), (dot_comm a al'), (dot_comm a alpha), (dot_comm (col_sums P) be'), (dot_comm (col_sums P) beta), (dot_comm b be'), (dot_comm b beta). lra. }
  assert (Lga : length ga = m) by (unfold ga; rewrite vsub_length, row_sums_length by apply HN; destruct HP as (_ & _ & -> & _); apply Nat.max_id).
  assert (Lcs : length (col_sums P) = length C) by (unfold col_sums; rewrite map_length; exact LP).
  assert (Lgb : length gb = length C) by (unfold gb; rewrite vsub_length, Lcs; destruct HP as (_ & _ & _ & ->); apply Nat.max_id).
  split; [assumption|]. split.
  { intros Q HQ. destruct HQ as (QN & QR & QC) eqn:EQ. destruct (d_upper alpha beta Q La Lb QN (LQ Q HQ)) as [U _]. rewrite QR, QC in U. lra. }
  split; [exact Sub|]. split.
  { intros d e Ld Le. destruct (d_tangent alpha beta d e La Lb Ld Le) as (K & tau & Ht & H). apply (quad_derivable _ _ K tau Ht). exact H. }
  split.
  { intros Q HQ. destruct HQ as (QN & QR & QC) eqn:EQ. destruct (d_upper alpha beta Q La Lb QN (LQ Q HQ)) as [U _]. rewrite QR, QC in U. unfold ga, gb. rewrite !dot_vsub_r. lra. }
  split; [split|].
  - intros Hmin. destruct (d_tangent alpha beta (smul (-1) ga) (smul (-1) gb) La Lb ltac:(rewrite smul_length; exact Lga) ltac:(rewrite smul_length; exact Lgb)) as (K & tau & Ht & H).
    assert (D := min_slope (fun t => F (vadd alpha (smul t (smul (-1) ga)), vadd beta (smul t (smul (-1) gb)))) _ K tau Ht H). fold P in D. fold ga in D. fold gb in D. cbv beta in D.
    assert (E0 : vadd alpha (smul 0 (smul (-1) ga)) = alpha) by (apply vec_eq_dot; [rewrite vadd_length, !smul_length; lia|intros w; vring]).
    assert (E1 : vadd beta (smul 0 (smul (-1) gb)) = beta) by (apply vec_eq_dot; [rewrite vadd_length, !smul_length; lia|intros w; vring]). rewrite E0, E1 in D.
    assert (Hr : forall t, F (alpha, beta) <= F (vadd alpha (smul t (smul (-1) ga)), vadd beta (smul t (smul (-1) gb)))) by (intros t; apply Hmin; rewrite vadd_length, !smul_length; lia). specialize (D Hr). rewrite !dot_smul_r in D. assert (N := dot_self_nonneg ga). assert (N' := dot_self_nonneg gb).
    split; apply dist2_zero; [rewrite row_sums_length by apply HN; symmetry; apply HP|change (dot ga ga = 0); lra|rewrite Lcs; symmetry; apply HP|change (dot gb gb = 0); lra].
  - intros [HR HC] al' be' La' Lb'. assert (S1 := Sub al' be' La' Lb'). unfold ga, gb in S1. rewrite HR, HC, !vsub_self, !dot_vzero_l in S1. lra.
  - intros HR HC. rewrite HR, HC in V. split; [split; [exact HN|split; [exact HR|exact HC]]|]. split; [lra|]. intros Q HQ Hle. destruct HQ as (QN & QR & QC) eqn:EQ. destruct (d_upper alpha beta Q La Lb QN (LQ Q HQ)) as [_ U]. apply U. rewrite QR, QC. lra.
Qed.
Theorem C51_dual_shift alpha beta c : length alpha = m -> length beta = length C ->
  F (vadd alpha (smul c (vones m)), vadd beta (smul (- c) (vones (length C)))) = F (alpha, beta) + c * (vsum b - vsum a).
Proof.
  intros La Lb. rewrite !d_csum by (rewrite ?vadd_length, ?smul_length, ?vones_length; lia).
  assert (E : d_xs (vadd alpha (smul c (vones m))) (vadd beta (smul (- c) (vones (length C)))) = d_xs alpha beta).
  { unfold d_xs. clear HP. revert beta Lb. induction C as [|cc C' IH]; intros [|be beta] Lb; try discriminate; cbn [length vones repeat smul map vadd zipw]; [reflexivity|]. f_equal; [|apply IH; cbn in Lb; lia]. f_equal.
    clear -La. revert alpha La. induction m as [|k IHm]; intros [|x al] La; try discriminate; cbn [vones repeat smul map vadd]; [reflexivity|]. f_equal; [ring|]. apply IHm. cbn in La. lia. }
  rewrite E, !dot_vadd_l, !dot_smul_l. destruct HP as (_ & _ & L1 & L2). rewrite <- L1 at 1. rewrite <- L2. rewrite <- !vsum_dot. ring.
Qed.
End Dual.

Lemma mdot_neg S : forall Q, mdot (map (smul (-1)) S) Q = - mdot S Q.
Proof. intros Q. rewrite mdot_smul_map. ring. Qed.
Lemma mdist2_expand S : forall Q, length Q = length S -> mdist2 Q S = mdot Q Q - 2 * mdot S Q + mdot S S.
Proof.
  unfold mdist2, mdot. induction S as [|s S IH]; intros [|q Q] L; try discriminate; cbn [zipw vsum]; [ring|]. rewrite IH by (cbn in L; lia).
  assert (E : dist2 q s = dot q q - 2 * dot s q + dot s s) by vring. rewrite E. ring.
Qed.
Lemma polytope_len m a b Q : polytope m a b Q -> length Q = length b.
Proof. intros (_ & _ & <-). unfold col_sums. rewrite map_length. reflexivity. Qed.
(** Over the polytope, the cost of the projection and the primal order plans alike. *)
Lemma projection_cost_primal r m S a b P Q : length b = length S -> polytope m a b P -> polytope m a b Q ->
  projection_cost r S Q - projection_cost r S P = (match r with RL2 => 2 | REnt => 1 end) * (primal r 1 (map (smul (-1)) S) Q - primal r 1 (map (smul (-1)) S) P).
Proof.
  intros L HP HQ. assert (LP := polytope_len _ _ _ _ HP). assert (LQ := polytope_len _ _ _ _ HQ). unfold primal. rewrite !mdot_neg. destruct r; cbn [projection_cost omega].
  - rewrite !mdist2_expand by congruence. field.
  - unfold kl_to_exp. destruct HP as (_ & _ & ->). destruct HQ as (_ & _ & ->). ring.
Qed.
Lemma neg_problem m S a b : transport_problem m S a b -> transport_problem m (map (smul (-1)) S) a b.
Proof.
  intros (H1 & H2 & H3 & H4). split; [exact H1|]. split; [|split; [exact H3|rewrite map_length; exact H4]]. intros c Hc. apply in_map_iff in Hc. destruct Hc as (x & <- & Hx). rewrite smul_length. apply H2. exact Hx.
Qed.

(** With a solver that returns a minimiser of the (semi-)dual, the functions return the documented projection: the
    unique minimiser of ||P - S||^2 (or of KL(P, exp(S))) over P >= 0, P 1 = a, P^T 1 = b. *)
Theorem C51_transport r m S a b solver solver2 use_semi_dual : transport_problem m S a b ->
  let C := map (smul (-1)) S in
  (if use_semi_dual : bool then (forall x, In x b -> 0 < x) /\ exact_min m (semi_dual r 1 C a b) (solver (semi_dual r 1 C a b) (vzero m))
   else exact_min2 m (length S) (dual r 1 C a b) (solver2 (dual r 1 C a b) (vzero m, vzero (length S)))) ->
  exists P, projection_transport solver solver2 r m S a b use_semi_dual = Ok P /\ polytope m a b P /\
    forall Q, polytope m a b Q -> projection_cost r S P <= projection_cost r S Q /\ (projection_cost r S Q <= projection_cost r S P -> Q = P).
Proof.
  intros HP C Hs. assert (HN := neg_problem _ _ _ _ HP). fold C in HN. destruct HP as (Hm & HS & La & Lb).
  assert (Fin : forall P, polytope m a b P -> (forall Q, polytope m a b Q -> primal r 1 C P <= primal r 1 C Q /\ (primal r 1 C Q <= primal r 1 C P -> Q = P)) ->
    forall Q, polytope m a b Q -> projection_cost r S P <= projection_cost r S Q /\ (projection_cost r S Q <= projection_cost r S P -> Q = P)).
  { intros P HPp HM Q HQ. assert (E := projection_cost_primal r m S a b P Q Lb HPp HQ). fold C in E. destruct (HM Q HQ) as [H1 H2]. destruct r; split; try (intros; apply H2); lra. }
  destruct use_semi_dual; cbn [projection_transport].
  - destruct Hs as [Hb [Ls Hmin]]. unfold projection_transport, regularized_transport_semi_dual. fold C. unfold C at 1. rewrite map_length, La, Lb, !Nat.eqb_refl. cbn [andb]. eexists. split; [reflexivity|]. set (al := solver _ _) in *.
    destruct (C51_semi_dual r 1 m C a b ltac:(lra) HN Hb al Ls) as (_ & _ & W & _ & _ & _ & [K _] & Z). destruct (Z (K Hmin)) as (Pp & E & U). split; [exact Pp|]. apply Fin; [exact Pp|]. intros Q HQ. split; [rewrite E; apply W; exact HQ|apply U; exact HQ].
  - destruct Hs as [[L1 L2] Hmin]. unfold projection_transport, regularized_transport_dual. fold C. assert (LC : length C = length S) by apply map_length. rewrite LC, La, Lb, !Nat.eqb_refl. cbn [andb]. eexists. split; [reflexivity|]. destruct (solver2 _ _) as [al be]. cbn [fst snd] in L1, L2.
    destruct (C51_dual r 1 m C a b ltac:(lra) HN al be L1 ltac:(congruence)) as (_ & W & _ & _ & _ & [K _] & Z). rewrite LC in K. destruct (K Hmin) as [K1 K2]. destruct (Z K1 K2) as (Pp & E & U). split; [exact Pp|]. apply Fin; [exact Pp|]. intros Q HQ. split; [eapply Rle_trans; [right; exact E|apply W; exact HQ]|apply U; exact HQ].
Qed.

(** The shapes are checked: ValueError exactly when a marginal does not fit the matrix. *)
Theorem C51_shapes r size_a S a b solver solver2 u : (exists P, projection_transport solver solver2 r size_a S a b u = Ok P) <-> length a = size_a /\ length b = length S.
Proof.
  unfold projection_transport, regularized_transport_semi_dual, regularized_transport_dual. rewrite map_length. split.
  - intros (P & H). destruct u, (Nat.eqb_spec size_a (length a)), (Nat.eqb_spec (length S) (length b)); cbn [andb] in H; try discriminate; split; congruence.
  - intros [-> ->]. rewrite !Nat.eqb_refl. cbn [andb]. destruct u; eexists; reflexivity.
Qed.
Theorem C51_shapes_error r size_a S a b solver solver2 u : length a <> size_a \/ length b <> length S -> projection_transport solver solver2 r size_a S a b u = Err ValueError.
Proof.
  unfold projection_transport, regularized_transport_semi_dual, regularized_transport_dual. rewrite map_length. intros H. destruct u, (Nat.eqb_spec size_a (length a)), (Nat.eqb_spec (length S) (length b)); cbn [andb]; try reflexivity; destruct H; congruence.
Qed.

(** Marginals of different total mass: the polytope is empty and both objectives are unbounded below, so that no solver
    can return a minimiser.  Nothing checks this. *)
Theorem C51_masses r gamma m C a b : 0 < gamma -> transport_problem m C a b -> vsum a <> vsum b ->
  (forall P, ~ polytope m a b P) /\
  ((forall x, In x b -> 0 < x) -> forall B, exists alpha, length alpha = m /\ semi_dual r gamma C a b alpha < B) /\
  (forall B, exists alpha beta, length alpha = m /\ length beta = length C /\ dual r gamma C a b (alpha, beta) < B).
Proof.
  intros Hg HP Hn. split; [|split].
  - intros P (N & HR & HC). apply Hn. rewrite <- HR, <- HC. apply col_sums_total. apply N.
  - intros Hb B. set (F := semi_dual r gamma C a b). set (c := (B - 1 - F (vzero m)) / (vsum b - vsum a)). exists (vadd (vzero m) (smul c (vones m))).
    split; [rewrite vadd_length, smul_length, vones_length, vzero_length; lia|]. destruct (C51_semi_dual_shift r gamma m C a b Hg HP Hb (vzero m) c (vzero_length m)) as [E _]. fold F in E. rewrite E. unfold c. replace ((B - 1 - F (vzero m)) / (vsum b - vsum a) * (vsum b - vsum a)) with (B - 1 - F (vzero m)) by (field; lra). lra.
  - intros B. set (F := dual r gamma C a b). set (v0 := F (vzero m, vzero (length C))). set (c := (B - 1 - v0) / (vsum b - vsum a)). exists (vadd (vzero m) (smul c (vones m))), (vadd (vzero (length C)) (smul (- c) (vones (length C)))).
    split; [rewrite vadd_length, smul_length, vones_length, vzero_length; lia|]. split; [rewrite vadd_length, smul_length, vones_length, vzero_length; lia|]. assert (E := C51_dual_shift r gamma m C a b HP (vzero m) (vzero (length C)) c (vzero_length m) (vzero_length _)). change (dual r gamma C a b) with F in E. eapply Rle_lt_trans; [right; exact E|]. change (v0 + c * (vsum b - vsum a) < B). unfold c. replace ((B - 1 - v0) / (vsum b - vsum a) * (vsum b - vsum a)) with (B - 1 - v0) by (field; lra). lra.
Qed.
(** The Birkhoff projection is the transport projection with unit marginals... *)
Theorem C51_birkhoff r n S solver solver2 u : (0 < n)%nat -> length S = n -> matrix n S ->
  let C := map (smul (-1)) S in let one := vones n in
  (if u : bool then exact_min n (semi_dual r 1 C one one) (solver (semi_dual r 1 C one one) (vzero n))
   else exact_min2 n n (dual r 1 C one one) (solver2 (dual r 1 C one one) (vzero n, vzero n))) ->
  exists P, projection_birkhoff solver solver2 r n S u = Ok P /\ polytope n one one P /\
    forall Q, polytope n one one Q -> projection_cost r S P <= projection_cost r S Q /\ (projection_cost r S Q <= projection_cost r S P -> Q = P).
Proof.
  intros Hn LS MS C one H. unfold projection_birkhoff. rewrite LS. apply C51_transport.
  - repeat split; try assumption; unfold one; rewrite vones_length; [reflexivity|symmetry; exact LS].
  - fold C. fold one. rewrite LS. destruct u; [split; [|exact H]|exact H]. intros x Hx. unfold one, vones in Hx. apply repeat_spec in Hx. lra.
Qed.
(** ... and accepts a matrix that is not square, for which no doubly stochastic matrix exists and no solver can converge. *)
Theorem C51_birkhoff_nonsquare_refuted r m S solver solver2 u : (0 < m)%nat -> matrix m S -> length S <> m ->
  (exists P, projection_birkhoff solver solver2 r m S u = Ok P) /\ (forall P, ~ polytope m (vones m) (vones (length S)) P) /\
  (forall B, exists alpha, length alpha = m /\ semi_dual r 1 (map (smul (-1)) S) (vones m) (vones (length S)) alpha < B).
Proof.
  intros Hm MS Hn. split; [apply C51_shapes; rewrite !vones_length; split; reflexivity|].
  assert (TP : transport_problem m (map (smul (-1)) S) (vones m) (vones (length S))) by (apply neg_problem; repeat split; try assumption; apply vones_length).
  assert (Ne : vsum (vones m) <> vsum (vones (length S))) by (unfold vones; rewrite !vsum_repeat, !Rmult_1_r; intros E; apply INR_eq in E; congruence).
  destruct (C51_masses r 1 m _ _ _ ltac:(lra) TP Ne) as (A & B & _). split; [exact A|]. apply B. intros x Hx. unfold vones in Hx. apply repeat_spec in Hx. lra.
Qed.
(** The docstrings state P^T 1 = a and P 1 = b; the columns of what the semi-dual path returns always sum to b. *)
Theorem C51_documented_marginals_refuted r m S a b solver solver2 P : transport_problem m S a b -> (forall x, In x b -> 0 < x) ->
  (forall f x, length (solver f x) = length x) -> projection_transport solver solver2 r m S a b true = Ok P ->
  nonneg_matrix m P /\ col_sums P = b /\ (a <> b -> col_sums P <> a).
Proof.
  intros HP Hb Hs H. assert (HN := neg_problem _ _ _ _ HP). destruct HP as (_ & _ & La & Lb). unfold projection_transport, regularized_transport_semi_dual in H. rewrite map_length, La, Lb, !Nat.eqb_refl in H. cbn [andb] in H. injection H as <-.
  set (al := solver _ _). assert (Lal : length al = m) by (unfold al; rewrite Hs; apply vzero_length). destruct (C51_semi_dual r 1 m _ a b ltac:(lra) HN Hb al Lal) as (N & E & _). split; [exact N|]. split; [exact E|]. rewrite E. intros Hne H. apply Hne. symmetry. exact H.
Qed.

(** A zero marginal makes the entropic semi-dual objective NaN everywhere; with positive marginals it is the real value. *)
Theorem C51_zero_marginal_refuted gamma C a b alpha : 0 < gamma -> length b = length C -> In 0 b -> semi_dual_ent_x gamma C a b alpha = NaN.
Proof.
  intros Hg L Hin. unfold semi_dual_ent_x. assert (E : fold_right xadd (Fin 0) (zipw (fun c bj => xmul (Fin bj) (xsub (Fin (gamma * logsumexp (map (fun t => t / gamma) (vsub alpha c)))) (xmul (Fin gamma) (xlog bj)))) C b) = NaN).
  { revert C L. induction b as [|x b' IH]; intros [|c C] L; try discriminate; [destruct Hin|]. cbn [zipw fold_right]. destruct Hin as [-> | Hin]; [|rewrite (IH Hin C) by (cbn in L; lia); match goal with |- xadd ?u _ = _ => destruct u; reflexivity end].
    assert (Z : xlog 0 = NInf) by (unfold xlog; destruct (Rlt_dec 0 0); [lra|]; destruct (Req_EM_T 0 0); [reflexivity|contradiction]). rewrite Z.
    assert (Y : xmul (Fin gamma) NInf = NInf) by (unfold xmul, xinf_times; repeat (match goal with |- context [Rlt_dec ?u ?v] => destruct (Rlt_dec u v) | |- context [Req_EM_T ?u ?v] => destruct (Req_EM_T u v) end; try lra); reflexivity). rewrite Y.
    assert (X : forall v, xmul (Fin 0) (xsub (Fin v) NInf) = NaN) by (intros v; cbn; unfold xinf_times; repeat (match goal with |- context [Rlt_dec ?u ?v] => destruct (Rlt_dec u v) | |- context [Req_EM_T ?u ?v] => destruct (Req_EM_T u v) end; try lra); reflexivity). rewrite X. reflexivity. }
  rewrite E. reflexivity.
Qed.
Theorem C51_positive_marginals gamma C a b alpha : length b = length C -> (forall x, In x b -> 0 < x) -> semi_dual_ent_x gamma C a b alpha = Fin (semi_dual REnt gamma C a b alpha).
Proof.
  intros L Hb. unfold semi_dual_ent_x, semi_dual. assert (E : fold_right xadd (Fin 0) (zipw (fun c bj => xmul (Fin bj) (xsub (Fin (gamma * logsumexp (map (fun t => t / gamma) (vsub alpha c)))) (xmul (Fin gamma) (xlog bj)))) C b) = Fin (vsum (zipw (fun c bj => bj * max_reg REnt (vsub alpha c) bj gamma) C b))).
  { revert C L. induction b as [|x b' IH]; intros [|c C] L; try discriminate; [reflexivity|]. cbn [zipw fold_right vsum]. rewrite IH by (try (intros; apply Hb; right; assumption); cbn in L; lia). assert (X := Hb x (or_introl eq_refl)). unfold xlog. destruct (Rlt_dec 0 x); [|contradiction]. reflexivity. }
  rewrite E. reflexivity.
Qed.

Ltac mat_eq := repeat match goal with |- cons _ _ = cons _ _ => apply (f_equal2 cons) | |- @nil _ = _ => reflexivity end; try field.
(** Two concrete problems: a KL projection solved by alpha = 0, and a Euclidean one solved by (0, 0) in the dual. *)
Example C51_example :
  let S := [[ln 2; 0]; [0; ln 2]] in let C := map (smul (-1)) S in let one := [1; 1] in
  (transport_problem 2 S one one /\ semi_dual_plan REnt 1 C one [0; 0] = [[2/3; 1/3]; [1/3; 2/3]] /\ exact_min 2 (semi_dual REnt 1 C one one) [0; 0]) /\
  let S' := [[1; -1/2]; [-1/2; 1]] in let C' := map (smul (-1)) S' in
  transport_problem 2 S' one one /\ dual_plan RL2 1 C' ([0; 0], [0; 0]) = [[1; 0]; [0; 1]] /\ exact_min2 2 2 (dual RL2 1 C' one one) ([0; 0], [0; 0]).
Proof.
  intros S C one.
  assert (TP : transport_problem 2 S one one) by (repeat split; try lia; intros c [<-|[<-|[]]]; reflexivity).
  assert (E : semi_dual_plan REnt 1 C one [0; 0] = [[2/3; 1/3]; [1/3; 2/3]]).
  { unfold semi_dual_plan, C, S, one. cbn [map zipw smul vsub max_reg_grad max_ent_grad]. unfold max_ent_grad, softmax. cbn [map vsum smul].
    replace ((0 - -1 * ln 2) / 1) with (ln 2) by field. replace ((0 - -1 * 0) / 1) with 0 by field. rewrite exp_0, exp_ln by lra. mat_eq. }
  split; [split; [exact TP|split; [exact E|]]|].
  - split; [reflexivity|]. assert (Hb : forall x, In x one -> 0 < x) by (intros x [<-|[<-|[]]]; lra).
    destruct (C51_semi_dual REnt 1 2 C one one ltac:(lra) (neg_problem _ _ _ _ TP) Hb [0; 0] eq_refl) as (_ & _ & _ & _ & _ & _ & [_ K] & _). apply K. rewrite E. unfold row_sums, one, vzero. cbn [fold_right repeat vadd]. mat_eq.
  - intros S' C'. assert (TP' : transport_problem 2 S' one one) by (repeat split; try lia; intros c [<-|[<-|[]]]; reflexivity).
    assert (E' : dual_plan RL2 1 C' ([0; 0], [0; 0]) = [[1; 0]; [0; 1]]).
    { unfold dual_plan, C', S'. cbn [map zipw smul vsub delta_reg_grad delta_l2_grad fst snd]. unfold delta_l2_grad, relu. cbn [map]. replace (0 + 0 - -1 * 1) with 1 by ring. replace (0 + 0 - -1 * (-1 / 2)) with (-1 / 2) by field. rewrite (Rmax_left 1 0), (Rmax_right (-1 / 2) 0) by lra. mat_eq. }
    split; [exact TP'|]. split; [exact E'|]. split; [split; reflexivity|].
    destruct (C51_dual RL2 1 2 C' one one ltac:(lra) (neg_problem _ _ _ _ TP') [0; 0] [0; 0] eq_refl eq_refl) as (_ & _ & _ & _ & _ & [_ K] & _). apply K. rewrite E'. unfold row_sums, col_sums, one, vzero. cbn [fold_right repeat vadd map vsum]. split; mat_eq.
Qed.
Print Assumptions C51_semi_dual.
Print Assumptions C51_semi_dual_shift.
Print Assumptions C51_dual.
Print Assumptions C51_dual_shift.
Print Assumptions C51_transport.
Print Assumptions C51_shapes.
Print Assumptions C51_shapes_error.
Print Assumptions C51_masses.
Print Assumptions C51_birkhoff.
Print Assumptions C51_birkhoff_nonsquare_refuted.
Print Assumptions C51_documented_marginals_refuted.
Print Assumptions C51_zero_marginal_refuted.
Print Assumptions C51_positive_marginals.
