(** Proofs for C81: the dual problems of regularised optimal transport have solutions. *)
From Coq Require Import Reals List Lra Lia Bool Arith.
From Verif Require Import Prelude Vec Mat Proj ProjProofs Loss LossProofs Transport TransportProofs TransportTheorems Existence Compact ExistenceProofs.
Import ListNotations.
Open Scope R_scope.

Lemma vsum_app (u v : vec) : vsum (u ++ v) = vsum u + vsum v.
Proof. induction u as [|x u IH]; cbn [app vsum]; [ring|]. rewrite IH. ring. Qed.
Lemma dot_app_l (x1 x2 : vec) : forall y1 y2 : vec, length x1 = length y1 -> dot (x1 ++ x2) (y1 ++ y2) = dot x1 y1 + dot x2 y2.
Proof.
  induction x1 as [|x x1 IH]; intros [|y y1] y2 H; try discriminate; cbn [app].
  - replace (dot [] []) with 0 by reflexivity. ring.
  - simpl. rewrite IH by (simpl in H; lia). ring.
Qed.
Lemma vsum_smul c (v : vec) : vsum (smul c v) = c * vsum v.
Proof. unfold smul. induction v as [|x v IH]; cbn [map vsum]; [ring|]. rewrite IH. ring. Qed.

Section Coupling.
Variables (m : nat) (a : vec).
Hypothesis La : length a = m.
Hypothesis Ha : forall x, In x a -> 0 < x.
Variable s : R.
Hypothesis Es : vsum a = s.
Hypothesis Hs : 0 < s.
(** Columns proportional to a. *)
Definition prop_cols (bs : vec) : list vec := map (fun x => smul (x / s) a) bs.
Lemma prop_cols_sums bs : col_sums (prop_cols bs) = bs.
Proof.
  unfold col_sums, prop_cols. rewrite map_map. rewrite <- (map_id bs) at 2. apply map_ext. intros x. rewrite vsum_smul, Es. field. lra.
Qed.
Lemma prop_cols_dot al bs : vsum (map (dot al) (prop_cols bs)) = vsum bs / s * dot al a.
Proof. unfold prop_cols. induction bs as [|x bs IH]; cbn [map vsum]; [unfold Rdiv; ring|]. rewrite IH, dot_smul_r. unfold Rdiv. ring. Qed.
Lemma prop_cols_nonneg bs : (forall x, In x bs -> 0 < x) -> nonneg_matrix m (prop_cols bs).
Proof.
  intros Hb. split.
  - intros c Hc. apply in_map_iff in Hc. destruct Hc as (x & <- & _). rewrite smul_length. exact La.
  - intros c Hc i Hi. apply in_map_iff in Hc. destruct Hc as (x & <- & Hx). rewrite nth_smul. apply Rmult_le_pos; [apply Rmult_le_pos; [left; apply Hb; exact Hx|left; apply Rinv_0_lt_compat; exact Hs]|].
    left. apply Ha, nth_In. lia.
Qed.
(** One of the columns moved by w. *)
Definition moved (b1 : vec) (bj : R) (b2 w : vec) : list vec := prop_cols b1 ++ vadd (smul (bj / s) a) w :: prop_cols b2.
Lemma moved_facts b1 bj b2 w al be : length w = m -> (forall x, In x (b1 ++ bj :: b2) -> 0 < x) -> vsum (b1 ++ bj :: b2) = s ->
  (forall i, (i < m)%nat -> 0 <= bj / s * nth i a 0 + nth i w 0) -> length be = length (b1 ++ bj :: b2) ->
  let Q := moved b1 bj b2 w in
  nonneg_matrix m Q /\ length Q = length (b1 ++ bj :: b2) /\ dot al (row_sums m Q) = dot al a + dot al w /\
  dot be (col_sums Q) = dot be (b1 ++ bj :: b2) + nth (length b1) be 0 * vsum w /\
  (vsum w = 0 -> col_sums Q = b1 ++ bj :: b2).
Proof.
  intros Lw Hb Eb Hw Lbe Q.
  assert (N1 : nonneg_matrix m (prop_cols b1)) by (apply prop_cols_nonneg; intros x Hx; apply Hb, in_or_app; left; exact Hx).
  assert (N2 : nonneg_matrix m (prop_cols b2)) by (apply prop_cols_nonneg; intros x Hx; apply Hb, in_or_app; right; right; exact Hx).
  assert (EC : col_sums Q = b1 ++ (bj + vsum w) :: b2).
  { unfold Q, moved, col_sums. rewrite map_app. cbn [map]. pose proof (prop_cols_sums b1) as E1. pose proof (prop_cols_sums b2) as E2. unfold col_sums in E1, E2. rewrite E1, E2. f_equal. f_equal.
    rewrite vsum_vadd, vsum_smul, Es. field. lra. }
  split; [split|split; [|split; [|split]]].
  - intros c Hc. apply in_app_or in Hc. destruct Hc as [Hc|[<-|Hc]]; [apply N1; exact Hc| |apply N2; exact Hc]. rewrite vadd_length, smul_length. unfold vec in *. lia.
  - intros c Hc. apply in_app_or in Hc. destruct Hc as [Hc|[<-|Hc]]; [apply N1; exact Hc| |apply N2; exact Hc]. intros i Hi. rewrite nth_vadd, nth_smul. apply Hw. exact Hi.
  - unfold Q, moved. rewrite !app_length. cbn [length]. unfold prop_cols. rewrite !map_length. reflexivity.
  - rewrite dot_row_sums. unfold Q, moved. rewrite map_app, vsum_app. cbn [map vsum]. rewrite !prop_cols_dot, dot_vadd_r, dot_smul_r.
    rewrite vsum_app in Eb. cbn [vsum] in Eb. assert (E : vsum b1 / s * dot al a + (bj / s * dot al a + vsum b2 / s * dot al a) = dot al a).
    { replace (vsum b1 / s * dot al a + (bj / s * dot al a + vsum b2 / s * dot al a)) with ((vsum b1 + (bj + vsum b2)) / s * dot al a) by (unfold Rdiv; ring). rewrite Eb. field. lra. }
    lra.
  - rewrite EC. rewrite app_length in Lbe. cbn [length] in Lbe.
    rewrite <- (firstn_skipn (length b1) be). set (u := firstn (length b1) be). assert (Lu : length u = length b1) by (unfold u; rewrite firstn_length; unfold vec in *; lia).
    destruct (skipn (length b1) be) as [|x v] eqn:Ev.
    { apply (f_equal (@length R)) in Ev. rewrite skipn_length in Ev. simpl in Ev. unfold vec in *. lia. }
    rewrite !dot_app_l by exact Lu. simpl dot. rewrite app_nth2 by (unfold vec in *; lia). replace (length b1 - length u)%nat with 0%nat by (unfold vec in *; lia). simpl nth. ring.
  - intros H0. rewrite EC, H0, Rplus_0_r. reflexivity.
Qed.
End Coupling.

Lemma vsum_pos (v : vec) : v <> [] -> (forall x, In x v -> 0 < x) -> 0 < vsum v.
Proof.
  destruct v as [|x v]; [congruence|]. intros _ H. cbn [vsum]. assert (0 <= vsum v).
  { assert (Hv : forall y, In y v -> 0 < y) by (intros y Hy; apply H; right; exact Hy). clear -Hv. induction v as [|y v IH]; cbn [vsum]; [lra|].
    pose proof (Hv y (or_introl eq_refl)). specialize (IH (fun z Hz => Hv z (or_intror Hz))). lra. }
  pose proof (H x (or_introl eq_refl)). lra.
Qed.
Lemma uniform_bound n (P : nat -> R -> Prop) : (forall i b b', P i b -> b <= b' -> P i b') ->
  (forall i, (i < n)%nat -> exists b, P i b) -> exists b, forall i, (i < n)%nat -> P i b.
Proof.
  intros Hm. induction n as [|n IH]; intros H; [exists 0; intros i Hi; lia|].
  destruct IH as (b & H1); [intros i Hi; apply H; lia|]. destruct (H n ltac:(lia)) as (b' & H2). exists (Rmax b b'). intros i Hi.
  destruct (Nat.eq_dec i n) as [->|]; [apply (Hm n b'); [exact H2|apply Rmax_r]|apply (Hm i b); [apply H1; lia|apply Rmax_l]].
Qed.

Section Duals.
Variables (r : regulariser) (gamma : R) (m : nat) (C : list vec) (a b : vec).
Hypothesis Hg : 0 < gamma.
Hypothesis HP : transport_problem m C a b.
Hypothesis Ha : forall x, In x a -> 0 < x.
Hypothesis Hb : forall x, In x b -> 0 < x.
Hypothesis Eab : vsum a = vsum b.
Lemma a_ne : a <> [].
Proof. destruct HP as (Hm & _ & La & _). intros E. rewrite E in La. simpl in La. lia. Qed.
Lemma s_pos : 0 < vsum a.
Proof. apply vsum_pos; [apply a_ne|exact Ha]. Qed.
Lemma b_ne : b <> [].
Proof. intros E. pose proof s_pos as H. rewrite Eab, E in H. simpl in H. lra. Qed.
Lemma nth_a i : (i < m)%nat -> 0 < nth i a 0.
Proof. intros Hi. apply Ha, nth_In. destruct HP as (_ & _ & La & _). rewrite La. exact Hi. Qed.

Lemma semi_level i j F0 : (i < m)%nat -> (j < m)%nat -> exists B, forall al, length al = m -> semi_dual r gamma C a b al <= F0 -> nth i al 0 - nth j al 0 <= B.
Proof.
  intros Hi Hj. pose proof HP as (Hm & HC & La & Lb). assert (Eb : exists bj b2, b = bj :: b2) by (pose proof b_ne as N; clear -N; destruct b as [|x v]; [congruence|exists x, v; reflexivity]). destruct Eb as (bj & b2 & Eb).
  set (dl := bj / vsum a * nth j a 0). assert (S0 := s_pos). assert (Hbj : 0 < bj) by (apply Hb; rewrite Eb; left; reflexivity).
  assert (Hdl : 0 < dl) by (unfold dl; apply Rmult_lt_0_compat; [apply Rdiv_lt_0_compat; assumption|apply nth_a; exact Hj]).
  set (w := smul dl (vsub (unit_vec m i) (unit_vec m j))). assert (Lw : length w = m) by (unfold w; rewrite smul_length, vsub_length, !unit_vec_length; apply Nat.max_id).
  set (Q := moved a (vsum a) [] bj b2 w). exists ((F0 + primal r gamma C Q) / dl). intros al Lal Hle.
  destruct (moved_facts m a La Ha (vsum a) eq_refl S0 [] bj b2 w al b Lw) as (Q1 & Q2 & Q3 & _ & Q5).
  { cbn [app]. rewrite <- Eb. exact Hb. } { cbn [app]. rewrite <- Eb. symmetry. exact Eab. }
  { intros q Hq. unfold w. rewrite nth_smul, nth_vsub, !nth_unit_vec by exact Hq. pose proof (nth_a q Hq). assert (0 < bj / vsum a * nth q a 0) by (apply Rmult_lt_0_compat; [apply Rdiv_lt_0_compat; assumption|assumption]).
    destruct (Nat.eq_dec i q), (Nat.eq_dec j q); subst; try (unfold dl in *; lra). }
  { cbn [app]. rewrite <- Eb. reflexivity. }
  fold Q in Q1, Q2, Q3, Q5. cbn [app] in Q5. rewrite <- Eb in Q5.
  assert (Wsum : vsum w = 0).
  { unfold w. rewrite vsum_smul. replace (vsub (unit_vec m i) (unit_vec m j)) with (vadd (unit_vec m i) (smul (-1) (unit_vec m j))).
    - rewrite vsum_vadd, vsum_smul, !vsum_dot, !unit_vec_length. rewrite !(dot_comm (vones m)), !dot_unit_vec by (try apply vones_length; assumption). unfold vones. rewrite !nth_repeat_lt by assumption. ring.
    - apply vec_ext; [rewrite vadd_length, vsub_length, smul_length; reflexivity|]. intros q _. rewrite nth_vadd, nth_vsub, nth_smul. ring. }
  destruct (sd_upper r gamma m C a b Hg HP Hb al Q Lal Q1 (Q5 Wsum)) as [U _]. rewrite Q3 in U.
  assert (E : dot al w = dl * (nth i al 0 - nth j al 0)).
  { unfold w. rewrite dot_smul_r, dot_vsub_r, !(dot_comm al), !dot_unit_vec by assumption. ring. }
  apply (Rmult_le_reg_l dl); [exact Hdl|]. replace (dl * ((F0 + primal r gamma C Q) / dl)) with (F0 + primal r gamma C Q) by (field; lra). lra.
Qed.

Theorem semi_dual_attained : exists al, exact_min m (semi_dual r gamma C a b) al.
Proof.
  assert (Hm : (0 < m)%nat) by apply HP. assert (Em : m = S (m - 1)) by lia. set (n := (m - 1)%nat) in *.
  assert (L0 : forall v : vec, length v = n -> length (0 :: v) = m) by (intros v Hv; simpl; rewrite Hv; symmetry; exact Em).
  set (F := semi_dual r gamma C a b). set (F0 := F (0 :: vzero n)).
  destruct (uniform_bound n (fun i B => forall v, length v = n -> F (0 :: v) <= F0 -> Rabs (nth i v 0) <= B)) as (B & HB).
  - intros i B B' H Hle v Lv Hv. specialize (H v Lv Hv). lra.
  - intros i Hi. destruct (semi_level (S i) 0 F0 ltac:(lia) Hm) as (B1 & H1). destruct (semi_level 0 (S i) F0 Hm ltac:(lia)) as (B2 & H2). exists (Rmax B1 B2).
    intros v Lv Hv. specialize (H1 _ (L0 v Lv) Hv). specialize (H2 _ (L0 v Lv) Hv). simpl in H1, H2. pose proof (Rmax_l B1 B2). pose proof (Rmax_r B1 B2). apply Rabs_le. lra.
  - destruct (coercive_minimum n (fun v => F (0 :: v)) (vzero n) B) as (v & Lv & Hv).
    + apply vzero_length.
    + intros x Lx. destruct (C51_semi_dual r gamma m C a b Hg HP Hb (0 :: x) (L0 x Lx)) as (_ & _ & _ & HG & _).
      destruct (vsub (row_sums m (semi_dual_plan r gamma C b (0 :: x))) a) as [|g0 g] eqn:Eg.
      { apply (f_equal (@length R)) in Eg. rewrite vsub_length in Eg. destruct HP as (_ & _ & La & _). simpl in Eg. unfold vec in *. lia. }
      exists g. split.
      { apply (f_equal (@length R)) in Eg. rewrite vsub_length, row_sums_length in Eg by apply (sd_plan_ok r gamma m C a b Hg HP Hb _ (L0 x Lx)). simpl in Eg. destruct HP as (_ & _ & La & _). unfold vec in *. lia. }
      intros z Lz. specialize (HG _ (L0 z Lz)). fold F in HG. rewrite dot_vsub_r in HG. rewrite dot_vsub_l, !(dot_comm _ g). simpl dot in HG. lra.
    + intros x Lx Hx i Hi. apply HB; assumption.
    + exists (0 :: v). split; [apply L0; exact Lv|]. intros y Ly. destruct y as [|y0 y]; [simpl in Ly; lia|].
      destruct (C51_semi_dual_shift r gamma m C a b Hg HP Hb (y0 :: y) (- y0) Ly) as [E _]. rewrite Eab in E. replace (vsum b - vsum b) with 0 in E by ring. rewrite Rmult_0_r, Rplus_0_r in E.
      change (F (0 :: v) <= F (y0 :: y)). unfold F at 2. rewrite <- E. fold F.
      destruct (vadd (y0 :: y) (smul (- y0) (vones m))) as [|z0 z] eqn:Ez.
      { apply (f_equal (@length R)) in Ez. rewrite vadd_length, Ly in Ez. cbn [length] in Ez. lia. }
      assert (Z0 : z0 = 0). { change z0 with (nth 0 (z0 :: z) 0). rewrite <- Ez, nth_vadd, nth_smul. unfold vones. rewrite nth_repeat_lt by exact Hm. simpl. ring. }
      subst z0. apply Hv. apply (f_equal (@length R)) in Ez. rewrite vadd_length, smul_length, vones_length in Ez. cbn [length] in *. lia.
Qed.

Lemma dual_level i j F0 sg : (i < m)%nat -> (j < length b)%nat -> sg = 1 \/ sg = -1 ->
  exists B, forall al be, length al = m -> length be = length C -> dual r gamma C a b (al, be) <= F0 -> sg * (nth i al 0 + nth j be 0) <= B.
Proof.
  intros Hi Hj Hsg. pose proof HP as (Hm & HC & La & Lb). assert (Sp : exists b1 bj b2, b = b1 ++ bj :: b2 /\ length b1 = j) by (destruct (nth_split b 0 Hj) as (b1 & b2 & E1 & E2); exists b1, (nth j b 0), b2; split; assumption). destruct Sp as (b1 & bj & b2 & Eb & L1).
  set (dl := bj / vsum a * nth i a 0). assert (S0 := s_pos). assert (Hbj : 0 < bj) by (apply Hb; rewrite Eb; apply in_or_app; right; left; reflexivity).
  assert (Hdl : 0 < dl) by (unfold dl; apply Rmult_lt_0_compat; [apply Rdiv_lt_0_compat; assumption|apply nth_a; exact Hi]).
  set (w := smul (sg * dl) (unit_vec m i)). assert (Lw : length w = m) by (unfold w; rewrite smul_length; apply unit_vec_length).
  set (Q := moved a (vsum a) b1 bj b2 w). exists ((F0 + primal r gamma C Q) / dl). intros al be Lal Lbe Hle.
  destruct (moved_facts m a La Ha (vsum a) eq_refl S0 b1 bj b2 w al be Lw) as (Q1 & Q2 & Q3 & Q4 & _).
  { rewrite <- Eb. exact Hb. } { rewrite <- Eb. symmetry. exact Eab. }
  { intros q Hq. unfold w. rewrite nth_smul, nth_unit_vec by exact Hq. pose proof (nth_a q Hq). assert (0 < bj / vsum a * nth q a 0) by (apply Rmult_lt_0_compat; [apply Rdiv_lt_0_compat; assumption|assumption]).
    destruct (Nat.eq_dec i q); subst; destruct Hsg; subst; unfold dl in *; lra. }
  { rewrite <- Eb. congruence. }
  fold Q in Q1, Q2, Q3, Q4. rewrite <- Eb in Q2, Q4. rewrite L1 in Q4.
  assert (Wsum : vsum w = sg * dl).
  { unfold w. rewrite vsum_smul, vsum_dot, unit_vec_length, (dot_comm (vones m)), dot_unit_vec by (try apply vones_length; assumption). unfold vones. rewrite nth_repeat_lt by assumption. ring. }
  destruct (d_upper r gamma m C a b Hg HP al be Q Lal Lbe Q1 ltac:(congruence)) as [U _]. rewrite Q3, Q4, Wsum in U.
  assert (E : dot al w = sg * dl * nth i al 0) by (unfold w; rewrite dot_smul_r, (dot_comm al), dot_unit_vec by assumption; ring). rewrite E in U.
  apply (Rmult_le_reg_l dl); [exact Hdl|]. replace (dl * ((F0 + primal r gamma C Q) / dl)) with (F0 + primal r gamma C Q) by (field; lra). lra.
Qed.

Lemma dual_bounds F0 : exists B, forall al be, length al = m -> length be = length C -> dual r gamma C a b (al, be) <= F0 ->
  forall i j, (i < m)%nat -> (j < length b)%nat -> Rabs (nth i al 0 + nth j be 0) <= B.
Proof.
  destruct (uniform_bound m (fun i B => forall al be, length al = m -> length be = length C -> dual r gamma C a b (al, be) <= F0 -> forall j, (j < length b)%nat -> Rabs (nth i al 0 + nth j be 0) <= B)) as (B & H).
  - intros i B B' H Hle al be L1 L2 H1 j Hj. specialize (H al be L1 L2 H1 j Hj). lra.
  - intros i Hi. destruct (uniform_bound (length b) (fun j B => forall al be, length al = m -> length be = length C -> dual r gamma C a b (al, be) <= F0 -> Rabs (nth i al 0 + nth j be 0) <= B)) as (B & H).
    + intros j B B' H Hle al be L1 L2 H1. specialize (H al be L1 L2 H1). lra.
    + intros j Hj. destruct (dual_level i j F0 1 Hi Hj (or_introl eq_refl)) as (B1 & H1). destruct (dual_level i j F0 (-1) Hi Hj (or_intror eq_refl)) as (B2 & H2). exists (Rmax B1 B2).
      intros al be L1 L2 H0. specialize (H1 al be L1 L2 H0). specialize (H2 al be L1 L2 H0). pose proof (Rmax_l B1 B2). pose proof (Rmax_r B1 B2). apply Rabs_le. lra.
    + exists B. intros al be L1 L2 H0 j Hj. apply (H j Hj); assumption.
  - exists B. intros al be L1 L2 H0 i j Hi Hj. apply (H i Hi al be); assumption.
Qed.

Theorem dual_attained : exists ab, exact_min2 m (length C) (dual r gamma C a b) ab.
Proof.
  assert (Hm : (0 < m)%nat) by apply HP. assert (Em : m = S (m - 1)) by lia. set (n := (m - 1)%nat) in *. set (p := length C) in *.
  assert (Hp : (0 < length b)%nat) by (pose proof b_ne as N; clear -N; destruct b; [congruence|simpl; lia]). assert (Lbp : length b = p) by apply HP.
  set (al := fun v : vec => 0 :: firstn n v). set (be := fun v : vec => skipn n v).
  assert (Lal : forall v : vec, length v = (n + p)%nat -> length (al v) = m) by (intros v Lv; unfold al; simpl; rewrite firstn_length; unfold vec in *; lia).
  assert (Lbe : forall v : vec, length v = (n + p)%nat -> length (be v) = p) by (intros v Lv; unfold be; rewrite skipn_length; unfold vec in *; lia).
  set (F := dual r gamma C a b). set (x0 := vzero (n + p)). set (F0 := F (al x0, be x0)). destruct (dual_bounds F0) as (B & HB). fold F in HB.
  destruct (coercive_minimum (n + p) (fun v => F (al v, be v)) x0 (2 * B)) as (v & Lv & Hv).
  - apply vzero_length.
  - intros x Lx. destruct (C51_dual r gamma m C a b Hg HP (al x) (be x) (Lal x Lx) (Lbe x Lx)) as (HN & _ & HG & _).
    set (ga := vsub (row_sums m (dual_plan r gamma C (al x, be x))) a) in *. set (gb := vsub (col_sums (dual_plan r gamma C (al x, be x))) b) in *.
    assert (Lga : length ga = m) by (unfold ga; rewrite vsub_length, row_sums_length by apply HN; destruct HP as (_ & _ & La & _); unfold vec in *; lia).
    assert (Lgb : length gb = p).
    { unfold gb, col_sums. rewrite vsub_length, map_length. rewrite (proj2 (d_plan_ok r gamma m C a b Hg HP (al x) (be x) (Lal x Lx) (Lbe x Lx))), Lbp. fold p. apply Nat.max_id. }
    destruct ga as [|g0 g] eqn:Eg; [simpl in Lga; lia|]. exists (g ++ gb). split; [rewrite app_length; simpl in Lga; lia|]. intros z Lz.
    specialize (HG (al z) (be z) (Lal z Lz) (Lbe z Lz)). fold F in HG. rewrite dot_vsub_r in HG. unfold al in HG. simpl dot in HG. rewrite dot_vsub_r in HG.
    assert (Split : forall u : vec, length u = (n + p)%nat -> dot u (g ++ gb) = dot g (firstn n u) + dot gb (be u)).
    { intros u Lu. rewrite <- (firstn_skipn n u) at 1. rewrite dot_app_l by (rewrite firstn_length; simpl in Lga; unfold vec in *; lia). unfold be. rewrite (dot_comm (firstn n u)), (dot_comm (skipn n u)). reflexivity. }
    rewrite dot_vsub_l, !Split by assumption. unfold al. lra.
  - intros x Lx Hx i Hi. assert (Pi : forall q, (q < m)%nat -> forall j, (j < p)%nat -> Rabs (nth q (al x) 0 + nth j (be x) 0) <= B).
    { intros q Hq j Hj. apply (HB (al x) (be x)); [apply Lal|apply Lbe| |exact Hq|rewrite Lbp]; assumption. }
    assert (Pb : forall j, (j < p)%nat -> Rabs (nth j (be x) 0) <= B) by (intros j Hj; specialize (Pi 0%nat Hm j Hj); unfold al in Pi; simpl in Pi; rewrite Rplus_0_l in Pi; exact Pi).
    rewrite <- (firstn_skipn n x). assert (Lf : length (firstn n x) = n) by (rewrite firstn_length; unfold vec in *; lia).
    pose proof (Rabs_pos (nth 0 (be x) 0)) as A0. pose proof (Pb 0%nat ltac:(lia)) as A1.
    destruct (Nat.lt_ge_cases i n) as [H|H].
    + rewrite app_nth1 by lia. specialize (Pi (S i) ltac:(lia) 0%nat ltac:(lia)). unfold al in Pi. simpl in Pi. apply abs_bounds in Pi. apply abs_bounds in A1. apply Rabs_le. simpl in A1. lra.
    + rewrite app_nth2 by lia. rewrite Lf. pose proof (Pb (i - n)%nat ltac:(lia)) as A2. unfold be in A2. simpl in *. lra.
  - exists (al v, be v). split; [split; [apply Lal|apply Lbe]; exact Lv|]. intros y z Ly Lz. destruct y as [|y0 y]; [simpl in Ly; lia|].
    pose proof (C51_dual_shift r gamma m C a b HP (y0 :: y) z (- y0) Ly Lz) as E. rewrite Eab in E. replace (vsum b - vsum b) with 0 in E by ring. rewrite Rmult_0_r, Rplus_0_r in E.
    change (F (al v, be v) <= F (y0 :: y, z)). unfold F at 2. rewrite <- E. fold F. set (z' := vadd z _). assert (Lz' : length z' = p) by (unfold z'; rewrite vadd_length, smul_length, vones_length; fold p; lia).
    destruct (vadd (y0 :: y) (smul (- y0) (vones m))) as [|u0 u] eqn:Eu.
    { apply (f_equal (@length R)) in Eu. rewrite vadd_length, Ly in Eu. cbn [length] in Eu. lia. }
    assert (U0 : u0 = 0). { change u0 with (nth 0 (u0 :: u) 0). rewrite <- Eu, nth_vadd, nth_smul. unfold vones. rewrite nth_repeat_lt by exact Hm. simpl. ring. }
    subst u0. apply (f_equal (@length R)) in Eu. rewrite vadd_length, smul_length, vones_length, Ly in Eu. cbn [length] in Eu. assert (Lu : length u = n) by lia.
    assert (E1 : al (u ++ z') = 0 :: u).
    { unfold al. rewrite firstn_app. replace (n - length u)%nat with 0%nat by lia. rewrite firstn_all2 by lia. simpl. rewrite app_nil_r. reflexivity. }
    assert (E2 : be (u ++ z') = z').
    { unfold be. rewrite skipn_app. replace (n - length u)%nat with 0%nat by lia. rewrite skipn_all2 by lia. reflexivity. }
    specialize (Hv (u ++ z') ltac:(rewrite app_length; lia)). rewrite E1, E2 in Hv. exact Hv.
Qed.
End Duals.
