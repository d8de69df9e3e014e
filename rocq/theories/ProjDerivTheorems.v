(** C56: the derivatives declared for the simplex projections and for isotonic regression are the derivatives of the
    functions returned, wherever these are differentiable by strict complementarity. *)
From Coq Require Import Reals List Bool Arith Lra Lia.
From Verif Require Import Prelude Vec Proj ProjProofs Prox SimplexTheorems SparseSimplex SparseSimplexTheorems Isotonic IsotonicProofs
  IsotonicTheorems ProjDeriv ProjDerivProofs IsoDerivProofs.
Import ListNotations.
Open Scope R_scope.

Lemma unit_full x : x <> [] -> projection_unit_sparse_simplex x (length x) = projection_unit_simplex x.
Proof.
  intros H. pose proof (C11_full_support x 1 H Rlt_0_1) as E. unfold projection_sparse_simplex, projection_simplex in E.
  assert (E1 : map (fun a => a / 1) x = x) by (rewrite <- (map_id x) at 2; apply map_ext; intros a; field). rewrite E1 in E.
  assert (E2 : forall v : vec, smul 1 v = v) by (intros v; unfold smul; rewrite <- (map_id v) at 2; apply map_ext; intros a; ring).
  rewrite !E2 in E. exact E.
Qed.
Lemma jvp_full x value d dv : x <> [] -> projection_sparse_simplex_jvp x (length x) value d dv = projection_simplex_jvp x value d dv.
Proof.
  intros H. unfold projection_sparse_simplex_jvp, projection_simplex_jvp, unit_sparse_simplex_jvp, unit_simplex_jvp.
  assert (Hl : length (map (fun a => a / value) x) = length x) by apply map_length.
  rewrite <- Hl. rewrite unit_full by (intros E; apply map_eq_nil in E; contradiction). reflexivity.
Qed.
Lemma len_bounds (x : vec) : x <> [] -> (1 <= length x <= length x)%nat.
Proof. destruct x; [congruence|simpl; lia]. Qed.

(** Near a point where no coordinate sits at the threshold, the projection is the declared rule applied to the displacement
    of x and of value: an equality, so the rule is the derivative in x and in value. *)
Theorem C56_simplex : forall x value, x <> [] -> 0 < value ->
  let p := projection_simplex x value in strict_support x p ->
  exists delta, 0 < delta /\ forall x' value', close delta x x' -> Rabs (value' - value) < delta ->
    projection_simplex x' value' = vadd p (projection_simplex_jvp x value (vsub x' x) (value' - value)).
Proof.
  intros x value Hx Hv p Hst. pose proof (C11_full_support x value Hx Hv) as E. pose proof (len_bounds x Hx) as Hk.
  destruct (sparse_local x (length x) value Hk Hv) as (delta & Hd & H).
  { rewrite E. fold p. split; [intros _; exact Hst|]. intros Hc i j Hi Hj _ Hj0. exfalso.
    assert (Hlp : length p = length x).
    { destruct (C06_simplex x value Hx Hv) as [[Hl _] _]. exact Hl. }
    assert (Hall : forall q : vec, card q = length q -> forall j, (j < length q)%nat -> 0 < nth j q 0).
    { assert (Hle : forall q : vec, (card q <= length q)%nat) by (intros q; unfold card; induction q as [|a q IH]; simpl; [lia|destruct (Rlt_dec 0 a); simpl; lia]).
      induction q as [|a q IH]; intros Hcq k Hk'; [simpl in Hk'; lia|]. unfold card in Hcq. simpl in Hcq. fold (card q) in Hcq.
      destruct (Rlt_dec 0 a) as [Ha|Ha]; simpl in Hcq.
      - destruct k as [|k]; [exact Ha|]. simpl. apply IH; [unfold card; lia|simpl in Hk'; lia].
      - exfalso. pose proof (Hle q) as Hq. unfold card in Hq. lia. }
    specialize (Hall p ltac:(lia) j ltac:(lia)). lra. }
  exists (Rmin delta value). split; [apply Rmin_pos; assumption|]. intros x' value' [Hl Hcl] Hv'.
  assert (Hx' : x' <> []) by (intros ->; destruct x; [congruence|discriminate]).
  assert (Hvp : 0 < value') by (pose proof (Rmin_r delta value); apply Rabs_def2 in Hv'; lra).
  rewrite <- (C11_full_support x' value' Hx' Hvp), Hl, (H x' value').
  - rewrite E, jvp_full by exact Hx. reflexivity.
  - split; [exact Hl|]. intros i Hi. pose proof (Rmin_l delta value). specialize (Hcl i Hi). lra.
  - pose proof (Rmin_l delta value). lra.
Qed.
Print Assumptions C56_simplex.

(** The rule itself, at every point: symmetric, idempotent and nonexpansive in x, and the sum of the output moves with value. *)
Theorem C56_simplex_jacobian : forall x value u v dv, x <> [] -> 0 < value -> length u = length x -> length v = length x ->
  let J d := projection_simplex_jvp x value d 0 in
  dot u (J v) = dot (J u) v /\ J (J v) = J v /\ sqnorm (J v) <= sqnorm v /\ vsum (projection_simplex_jvp x value v dv) = dv.
Proof.
  intros x value u v dv Hx Hv Hu Hvl J. pose proof (len_bounds x Hx) as Hk. pose proof (C11_full_support x value Hx Hv) as E.
  destruct (sparse_positive_card x (length x) value Hk Hv) as [Hc _]. rewrite E in Hc. set (p := projection_simplex x value) in *.
  assert (Hlp : length p = length x) by (destruct (C06_simplex x value Hx Hv) as [[Hl _] _]; exact Hl).
  assert (Hgen : forall d dv, length d = length x -> projection_simplex_jvp x value d dv = vadd (support_jvp p d) (smul (dv / INR (card p)) (supp p))).
  { intros d dv0 Hd. rewrite <- jvp_full by exact Hx. rewrite (sparse_jvp_eq x (length x) value d dv0 Hk Hv Hd). rewrite E. reflexivity. }
  assert (HJ : forall d, length d = length x -> J d = support_jvp p d).
  { intros d Hd. unfold J. rewrite Hgen by exact Hd. apply vec_ext; [rewrite vadd_length, smul_length, supp_length, support_jvp_length by lia; lia|].
    intros i _. rewrite nth_vadd, nth_smul. unfold Rdiv. ring. }
  assert (HlJ : forall d, length d = length x -> length (J d) = length x) by (intros d Hd; rewrite HJ, support_jvp_length by lia; exact Hlp).
  split; [rewrite !HJ by assumption; apply support_jvp_sym|]. split; [rewrite !HJ by (try apply HlJ; assumption); apply support_jvp_idem; [exact Hc|lia]|].
  split; [rewrite HJ by assumption; apply support_jvp_contract; [exact Hc|lia]|].
  rewrite Hgen by assumption. rewrite vsum_vadd, vsum_smul, supp_sum.
  rewrite (vsum_supp_zero p (support_jvp p v)), support_jvp_dot_supp; [|exact Hc|apply support_jvp_length; lia|].
  - field. apply not_0_INR. lia.
  - intros i Hi Hle. rewrite support_jvp_nth. destruct (Rlt_dec 0 (nth i p 0)); lra.
Qed.
Print Assumptions C56_simplex_jacobian.

Theorem C56_sparse_simplex : forall x max_nz value, (1 <= max_nz <= length x)%nat -> 0 < value ->
  let p := projection_sparse_simplex x max_nz value in strict_sparse max_nz x p ->
  exists delta, 0 < delta /\ forall x' value', close delta x x' -> Rabs (value' - value) < delta ->
    projection_sparse_simplex x' max_nz value' =
    vadd p (projection_sparse_simplex_jvp x max_nz value (vsub x' x) (value' - value)).
Proof. intros x k value Hk Hv p. exact (sparse_local x k value Hk Hv). Qed.
Print Assumptions C56_sparse_simplex.

(** Isotonic regression without bounds: the rule is the derivative up to a relative error of 1e-8, coordinate by coordinate. *)
Theorem C56_isotonic : forall y increasing fuel v, (2 * length y + 1 <= fuel)%nat ->
  isotonic_l2_pav fuel astype_float y NInf PInf increasing = Some v -> strict_isotonic increasing y v ->
  exists delta, 0 < delta /\ forall y', close delta y y' ->
    exists v' t, isotonic_l2_pav fuel astype_float y' NInf PInf increasing = Some v' /\
      isotonic_jvp fuel y increasing (vsub y' y) = Some t /\ length v' = length y /\ length t = length y /\
      forall j, (j < length y)%nat ->
        Rabs (nth j v' 0 - nth j v 0 - nth j t 0) <= iso_eps * Rabs (nth j v' 0 - nth j v 0).
Proof.
  intros y inc fuel v Hf Hv Hst. destruct (iso_local y inc fuel v Hf Hv Hst) as (delta & Hd & H). exists delta. split; [exact Hd|].
  intros y' Hcl. destruct (H y' Hcl) as (v' & t & E1 & E2 & L1 & L2 & Hj). exists v', t. repeat (split; [assumption|]).
  intros j Hjl. destruct (Hj j Hjl) as (c & Hc & Ec). set (m := nth j v' 0 - nth j v 0) in *. pose proof iso_eps_pos as He.
  replace (m - nth j t 0) with (m * (iso_eps / (c + iso_eps))).
  - rewrite Rabs_mult, (Rabs_right (iso_eps / _)) by (apply Rle_ge, Rlt_le, Rdiv_lt_0_compat; lra).
    rewrite Rmult_comm. apply Rmult_le_compat_r; [apply Rabs_pos|]. apply Rmult_le_reg_r with (c + iso_eps); [lra|].
    unfold Rdiv. rewrite Rmult_assoc, Rinv_l by lra. assert (0 <= iso_eps * iso_eps) by (apply Rmult_le_pos; lra).
    assert (iso_eps * 1 <= iso_eps * c) by (apply Rmult_le_compat_l; lra). lra.
  - replace (nth j t 0) with (c * m / (c + iso_eps)) by (rewrite <- Ec; field; lra). field. lra.
Qed.
Print Assumptions C56_isotonic.

(** The rule in closed form: on each maximal run of entries of the solution that differ from their neighbour by at most
    1e-8, the tangent is the sum of the input tangents over the run divided by (length of the run + 1e-8). *)
Theorem C56_isotonic_blocks : forall solution vector j s e, length vector = length solution ->
  (s <= j < e)%nat -> (e <= length solution)%nat ->
  (forall k, (s <= k)%nat -> (S k < e)%nat -> Rabs (nth (S k) solution 0 - nth k solution 0) <= iso_eps) ->
  (forall k, s = S k -> iso_eps < Rabs (nth s solution 0 - nth k solution 0)) ->
  ((e < length solution)%nat -> iso_eps < Rabs (nth e solution 0 - nth (e - 1) solution 0)) ->
  nth j (iso_jvp solution vector) 0 = vsum (firstn (e - s) (skipn s vector)) / (INR (e - s) + iso_eps).
Proof.
  intros sol d j s e Hd Hj He Hin Hs He'. rewrite (iso_jvp_run sol d j s e); [reflexivity|assumption..| | |].
  - intros [|k] Hk; [lia|]. unfold iso_mask. specialize (Hin k ltac:(lia) ltac:(lia)). destruct (Rle_dec _ iso_eps); [reflexivity|contradiction].
  - destruct s as [|k]; [reflexivity|]. unfold iso_mask. specialize (Hs k eq_refl). destruct (Rle_dec _ iso_eps); [lra|reflexivity].
  - intros Hlt. specialize (He' Hlt). destruct e as [|k]; [lia|]. simpl in He'. rewrite Nat.sub_0_r in He'. unfold iso_mask. destruct (Rle_dec _ iso_eps) as [H|H]; [|reflexivity].
    exfalso. change (match sol with [] => 0 | _ :: t => nth k t 0 end) with (nth (S k) sol 0) in *. lra.
Qed.
Print Assumptions C56_isotonic_blocks.

(** The rule is not the exact derivative: where the derivative is not zero, the tangent differs from it. *)
Theorem C56_isotonic_exact_refuted : forall y increasing fuel v, (2 * length y + 1 <= fuel)%nat ->
  isotonic_l2_pav fuel astype_float y NInf PInf increasing = Some v -> strict_isotonic increasing y v ->
  exists delta, 0 < delta /\ forall y' v' t, close delta y y' ->
    isotonic_l2_pav fuel astype_float y' NInf PInf increasing = Some v' -> isotonic_jvp fuel y increasing (vsub y' y) = Some t ->
    forall j, (j < length y)%nat -> nth j v' 0 <> nth j v 0 -> nth j t 0 <> nth j v' 0 - nth j v 0.
Proof.
  intros y inc fuel v Hf Hv Hst. destruct (iso_local y inc fuel v Hf Hv Hst) as (delta & Hd & H). exists delta. split; [exact Hd|].
  intros y' v' t Hcl E1 E2 j Hj Hne E. destruct (H y' Hcl) as (v2 & t2 & E1' & E2' & _ & _ & Hj').
  rewrite E1 in E1'. rewrite E2 in E2'. injection E1' as <-. injection E2' as <-. destruct (Hj' j Hj) as (c & Hc & Ec).
  rewrite E in Ec. pose proof iso_eps_pos as He. assert (Hm : nth j v' 0 - nth j v 0 <> 0) by lra.
  assert (Hz : (nth j v' 0 - nth j v 0) * iso_eps = 0) by lra. apply Rmult_integral in Hz. lra.
Qed.
Print Assumptions C56_isotonic_exact_refuted.

Lemma pav_two a b fuel : (5 <= fuel)%nat -> a < b -> isotonic_l2_pav fuel astype_float [a; b] NInf PInf true = Some [a; b].
Proof.
  intros Hf Hab. unfold isotonic_l2_pav. destruct (pav_spec (smul (-1) [a; b]) fuel ltac:(simpl; lia)) as (bl & -> & Hg & Hs & Hc).
  assert (Ef : fit bl = [-1 * a; -1 * b]).
  { transitivity (fit [[-1 * a]; [-1 * b]]); [|unfold fit, mean; simpl; f_equal; [field|f_equal; field]].
    apply fit_unique; [exact Hg|exact Hs| | |rewrite Hc; reflexivity].
    - constructor; [apply good_singleton|constructor; [apply good_singleton|constructor]].
    - repeat constructor. unfold decr, mean. simpl. lra. }
  rewrite Ef. unfold smul. cbn [map]. unfold xclip, xmax, xmin. do 2 f_equal; [ring|f_equal; ring].
Qed.

(** Two values closer than 1e-8 are treated as one block: the solution near y = (0, 1e-8/2) is y itself, yet the declared
    tangent in direction (1, 0) has 1/(2 + 1e-8) in both coordinates. *)
Theorem C56_isotonic_tolerance_refuted : forall fuel, (5 <= fuel)%nat ->
  let y := [0; iso_eps / 2] in
  (exists delta, 0 < delta /\ forall y', close delta y y' -> isotonic_l2_pav fuel astype_float y' NInf PInf true = Some y') /\
  isotonic_jvp fuel y true [1; 0] = Some [1 / (2 + iso_eps); 1 / (2 + iso_eps)].
Proof.
  intros fuel Hf y. pose proof iso_eps_pos as He. split.
  - exists (iso_eps / 4). split; [lra|]. intros y' [Hl H]. destruct y' as [|a [|b [|c y']]]; try discriminate.
    apply pav_two; [exact Hf|]. pose proof (H 0%nat ltac:(simpl; lia)) as H0. pose proof (H 1%nat ltac:(simpl; lia)) as H1. simpl in H0, H1.
    apply Rabs_def2 in H0. apply Rabs_def2 in H1. lra.
  - pose proof (pav_two 0 (iso_eps / 2) fuel Hf ltac:(lra)) as E. unfold isotonic_l2_pav in E. unfold isotonic_jvp, y.
    destruct (pav fuel astype_float (smul (-1) [0; iso_eps / 2])) as [s|]; [|discriminate].
    assert (Em : forall v : vec, map (xclip NInf PInf) v = v) by (intros w; rewrite <- (map_id w) at 2; reflexivity).
    rewrite Em in E. injection E as E. apply (f_equal (smul (-1))) in E. rewrite smul_neg1_invol in E. subst s.
    assert (R0 : forall j, (j < 2)%nat -> nth j (iso_jvp (smul (-1) [0; iso_eps / 2]) (smul (-1) [1; 0])) 0 = - 1 / (2 + iso_eps)).
    { intros j Hj. rewrite (C56_isotonic_blocks _ _ j 0 2); [simpl; field; lra|reflexivity|lia|simpl; lia| | |].
      - intros [|k] _ Hk; [|lia]. simpl. rewrite Rabs_left1 by lra. lra.
      - intros k Hk. lia.
      - simpl. lia. }
    assert (Hlen : length (iso_jvp (smul (-1) [0; iso_eps / 2]) (smul (-1) [1; 0])) = 2%nat) by (rewrite iso_jvp_length; reflexivity).
    destruct (iso_jvp (smul (-1) [0; iso_eps / 2]) (smul (-1) [1; 0])) as [|a [|b [|c w]]]; try discriminate.
    pose proof (R0 0%nat ltac:(lia)) as R1. pose proof (R0 1%nat ltac:(lia)) as R2. simpl in R1, R2. subst a b.
    unfold smul. cbn [map]. f_equal. f_equal; [field; lra|f_equal; field; lra].
Qed.
Print Assumptions C56_isotonic_tolerance_refuted.

(** Strict points: (3, 0) projects onto (2, 0) for the simplex of sum 2, with threshold 1 > 0;
    the data (1, 0, 5), increasing, give the blocks {1, 0} and {5}. *)
Example C56_example : strict_support [3; 0] [2; 0] /\ simplex 2 2 [2; 0] /\ is_projection (simplex 2 2) [3; 0] [2; 0] /\
  projection_simplex [3; 0] 2 = [2; 0] /\ strict_isotonic true [1; 0; 5] [1 / 2; 1 / 2; 5] /\
  isotonic_set 3 NInf PInf true [1 / 2; 1 / 2; 5].
Proof.
  assert (Hs : simplex 2 2 [2; 0]).
  { split; [reflexivity|]. split; [intros i Hi; destruct i as [|[|i]]; simpl in *; try lra; lia|simpl; lra]. }
  assert (Hp : is_projection (simplex 2 2) [3; 0] [2; 0]).
  { apply (var_ineq_projection _ _ _ 2); [intros q Hq; apply Hq|]. split; [exact Hs|]. intros q (Hl & Hq & Hsum).
    destruct q as [|a [|b [|c q]]]; try discriminate. simpl in *. pose proof (Hq 1%nat ltac:(simpl; lia)) as Hb. simpl in Hb. nra. }
  split; [|split; [exact Hs|split; [exact Hp|split]]].
  - intros i j Hi Hj. destruct i as [|[|i]], j as [|[|j]]; simpl in *; try lra; lia.
  - apply (is_projection_unique (simplex 2 2) [3; 0]); [|exact Hp]. apply C06_simplex; [discriminate|lra].
  - split.
    + intros k Hk. unfold residual_sum. destruct k as [|[|k]]; simpl in *; [left|right|lia].
      * split; lra.
      * unfold iso_eps. rewrite Rabs_right by lra. lra.
    + split; [reflexivity|]. split.
      * intros i Hi. destruct i as [|[|i]]; simpl in *; try lra; lia.
      * repeat constructor; exact I.
Qed.
