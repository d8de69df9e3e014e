(** The projected-gradient path and the decrease of the model at the generalised Cauchy point. *)
From Coq Require Import String.
From Coq Require Import Reals List Lra Lia Bool Arith Psatz.
From Verif Require Import Prelude Base Vec Mat XArith LinAlg Loss LossProofs QuasiNewton Lbfgsb LbfgsbHess LbfgsbCauchy LbfgsbProofs LbfgsbTheorems LbfgsbConvergence LbfgsbConvHess.
Import ListNotations.
Open Scope R_scope.

(** one coordinate of the path: a - g min(s, tau) *)
Lemma coord_form a g l u : xle l (Fin a) = true -> xle (Fin a) u = true ->
  (forall s, 0 <= s -> clip_real (a - s * g) l u - a = - g * s) \/
  exists tau, 0 <= tau /\ forall s, 0 <= s -> clip_real (a - s * g) l u - a = - g * Rmin s tau.
Proof.
  intros Hl Hu.
  assert (Ll : forall r, l = Fin r -> r <= a) by (intros r ->; apply xle_fin, Hl).
  assert (Lu : forall r, u = Fin r -> a <= r) by (intros r ->; apply xle_fin, Hu).
  destruct (Rtotal_order g 0) as [N|[Z|P]].
  - (* towards the upper bound *)
    destruct u as [u| | |]; try (left; intros s Hs; unfold clip_real; destruct l as [l| | |]; try (rewrite Rmax_left by (specialize (Ll l eq_refl); nra)); ring).
    right. specialize (Lu u eq_refl). exists ((u - a) / - g). assert (T : (u - a) / - g * - g = u - a) by (field; lra).
    split; [apply (Rmult_le_reg_r (- g)); lra|]. intros s Hs.
    assert (E : match l with Fin l0 => Rmax (a - s * g) l0 | _ => a - s * g end = a - s * g) by (destruct l as [l| | |]; try reflexivity; apply Rmax_left; specialize (Ll l eq_refl); nra).
    unfold clip_real. rewrite E. set (tau := (u - a) / - g) in *. unfold Rmin. destruct (Rle_dec (a - s * g) u), (Rle_dec s tau); try lra; nra.
  - left. subst g. intros s Hs. replace (a - s * 0) with a by ring. rewrite clip_real_id by assumption. ring.
  - destruct l as [l| | |].
    2,3,4: (left; intros s Hs; unfold clip_real; destruct u as [u| | |]; try (rewrite Rmin_left by (specialize (Lu u eq_refl); nra)); ring).
    right. specialize (Ll l eq_refl). exists ((a - l) / g). assert (T : (a - l) / g * g = a - l) by (field; lra).
    split; [apply (Rmult_le_reg_r g); lra|]. intros s Hs. set (tau := (a - l) / g) in *.
    assert (E : forall b, match u with Fin u0 => Rmin (Rmax b l) u0 | _ => Rmax b l end = Rmax b l \/ a < b).
    { intros b. destruct u as [u| | |]; try (left; reflexivity). specialize (Lu u eq_refl). destruct (Rlt_le_dec a b); [right; assumption|]. left. apply Rmin_left. apply Rmax_lub; lra. }
    unfold clip_real. destruct (E (a - s * g)) as [E1|E1]; [|nra]. rewrite E1. unfold Rmax, Rmin. destruct (Rle_dec (a - s * g) l), (Rle_dec s tau); try lra; nra.
Qed.

Section Coord.
Variables (a g : R) (l u : xnum).
Hypothesis Hl : xle l (Fin a) = true.
Hypothesis Hu : xle (Fin a) u = true.
Let d s := clip_real (a - s * g) l u - a.
Lemma coord_sq s : 0 <= s -> d s * d s <= s * (- g * d s).
Proof.
  intros Hs. unfold d. destruct (coord_form a g l u Hl Hu) as [F|(tau & T & F)]; rewrite (F s Hs); [right; ring|].
  assert (A := Rmin_l s tau). assert (B : 0 <= Rmin s tau) by (apply Rmin_glb; assumption). set (r := Rmin s tau) in *.
  replace (- g * r * (- g * r)) with (g * g * r * r) by ring. replace (s * (- g * (- g * r))) with (g * g * r * s) by ring.
  apply Rmult_le_compat_l; [|exact A]. apply Rmult_le_pos; [nra|exact B].
Qed.
Lemma coord_nonneg s : 0 <= s -> 0 <= - g * d s.
Proof.
  intros Hs. unfold d. destruct (coord_form a g l u Hl Hu) as [F|(tau & T & F)]; rewrite (F s Hs); [assert (0 <= g * g) by nra; nra|].
  assert (B : 0 <= Rmin s tau) by (apply Rmin_glb; assumption). assert (0 <= g * g) by nra. nra.
Qed.
Lemma coord_scale s : 0 <= s <= 1 -> s * (- g * d 1) <= - g * d s.
Proof.
  intros Hs. unfold d. assert (G2 : 0 <= g * g) by nra. destruct (coord_form a g l u Hl Hu) as [F|(tau & T & F)]; rewrite (F s (proj1 Hs)), (F 1 Rle_0_1); [right; ring|].
  assert (X : s * Rmin 1 tau <= Rmin s tau) by (unfold Rmin; destruct (Rle_dec 1 tau), (Rle_dec s tau); nra).
  replace (s * (- g * (- g * Rmin 1 tau))) with (g * g * (s * Rmin 1 tau)) by ring. replace (- g * (- g * Rmin s tau)) with (g * g * Rmin s tau) by ring. apply Rmult_le_compat_l; assumption.
Qed.
Lemma coord_right t : 0 <= t -> exists del v, 0 < del /\ (v = 0 \/ v = - g) /\ (forall s, t <= s <= t + del -> d s = d t + (s - t) * v) /\
  - g * d 1 <= v * v + - g * d t.
Proof.
  intros Ht. assert (G2 : 0 <= g * g) by nra. unfold d. destruct (coord_form a g l u Hl Hu) as [F|(tau & T & F)].
  - exists 1, (- g). split; [lra|]. split; [right; reflexivity|]. split; [intros s Hs; rewrite !F by lra; ring|]. rewrite !F by lra. nra.
  - destruct (Rlt_le_dec t tau) as [C|C].
    + exists (tau - t), (- g). split; [lra|]. split; [right; reflexivity|]. split; [intros s Hs; rewrite !F by lra; rewrite !Rmin_left by lra; ring|].
      rewrite !F by lra. rewrite (Rmin_left t) by lra. assert (A := Rmin_l 1 tau). nra.
    + exists 1, 0. split; [lra|]. split; [left; reflexivity|]. split; [intros s Hs; rewrite !F by lra; rewrite !Rmin_right by lra; ring|].
      rewrite !F by lra. rewrite (Rmin_right t) by lra. assert (A := Rmin_r 1 tau). nra.
Qed.
End Coord.

Lemma choose_coords n (P : nat -> R -> R -> Prop) : (forall i a b v, 0 < b <= a -> P i a v -> P i b v) ->
  (forall i, (i < n)%nat -> exists del v, 0 < del /\ P i del v) ->
  exists del vs, 0 < del /\ length vs = n /\ forall i, (i < n)%nat -> P i del (nth i vs 0).
Proof.
  intros Mono. induction n as [|n IH]; intros H; [exists 1, []; split; [lra|]; split; [reflexivity|]; intros i Hi; lia|].
  destruct IH as (d1 & vs & H1 & H2 & H3); [intros; apply H; lia|]. destruct (H n ltac:(lia)) as (d2 & v & H4 & H5).
  assert (M := Rmin_l d1 d2). assert (M' := Rmin_r d1 d2). assert (M0 : 0 < Rmin d1 d2) by (apply Rmin_glb_lt; assumption).
  exists (Rmin d1 d2), (vs ++ [v]). split; [exact M0|]. split; [rewrite app_length; cbn; lia|].
  intros i Hi. destruct (Nat.eq_dec i n) as [->|N].
  - rewrite app_nth2, H2, Nat.sub_diag by lia. cbn. apply (Mono n d2); [lra|exact H5].
  - rewrite app_nth1 by lia. apply (Mono i d1); [lra|apply H3; lia].
Qed.

Section Path.
Variables (x g : vec) (lower upper : xbounds).
Hypothesis Lg : length g = length x.
Hypothesis B : in_bounds lower upper x.
Let n := length x.
Let d s := vsub (path x g lower upper s) x.
Let D s := - dot g (d s).
Lemma path_len s : length (path x g lower upper s) = n. Proof. apply tab_length. Qed.
Lemma d_len s : length (d s) = n. Proof. unfold d. rewrite vsub_length, path_len. unfold n. lia. Qed.
Lemma d_nth s i : (i < n)%nat -> nth i (d s) 0 = clip_real (nth i x 0 - s * nth i g 0) (lo lower i) (up upper i) - nth i x 0.
Proof. intros Hi. unfold d. rewrite nth_vsub. unfold path. rewrite nth_tab by exact Hi. reflexivity. Qed.
Lemma D_sum s : D s = sumn n (fun i => - nth i g 0 * nth i (d s) 0).
Proof. unfold D. rewrite (dot_sumn n g) by first [exact Lg|apply d_len]. replace (- sumn n (fun i => nth i g 0 * nth i (d s) 0)) with (-1 * sumn n (fun i => nth i g 0 * nth i (d s) 0)) by ring. rewrite <- sumn_scal. apply sumn_ext. intros. ring. Qed.
Lemma d_sq s : 0 <= s -> dot (d s) (d s) <= s * D s.
Proof.
  intros Hs. rewrite D_sum, <- sumn_scal, (dot_sumn n) by apply d_len. apply sumn_le. intros i Hi. destruct (B i Hi) as [B1 B2].
  rewrite d_nth by exact Hi. apply coord_sq; assumption.
Qed.
Lemma D_nonneg s : 0 <= s -> 0 <= D s.
Proof. intros Hs. rewrite D_sum. apply sumn_nonneg. intros i Hi. destruct (B i Hi) as [B1 B2]. rewrite d_nth by exact Hi. apply (coord_nonneg _ _ _ _ B1 B2); exact Hs. Qed.
Lemma D_scale s : 0 <= s <= 1 -> s * D 1 <= D s.
Proof. intros Hs. rewrite !D_sum, <- sumn_scal. apply sumn_le. intros i Hi. destruct (B i Hi) as [B1 B2]. rewrite !d_nth by exact Hi. apply coord_scale; assumption. Qed.
Lemma d_right t : 0 <= t -> exists del v, 0 < del /\ length v = n /\ (forall i, (i < n)%nat -> nth i v 0 = 0 \/ nth i v 0 = - nth i g 0) /\
  (forall s, t <= s <= t + del -> d s = vadd (d t) (smul (s - t) v)) /\ D 1 <= dot v v + D t.
Proof.
  intros Ht.
  destruct (choose_coords n (fun i del v => (v = 0 \/ v = - nth i g 0) /\ (forall s, t <= s <= t + del -> nth i (d s) 0 = nth i (d t) 0 + (s - t) * v) /\
     - nth i g 0 * nth i (d 1) 0 <= v * v + - nth i g 0 * nth i (d t) 0)) as (del & v & Hd & Lv & P).
  - intros i a b v Hab (P1 & P2 & P3). split; [exact P1|]. split; [intros s Hs; apply P2; lra|exact P3].
  - intros i Hi. destruct (B i Hi) as [B1 B2]. destruct (coord_right _ (nth i g 0) _ _ B1 B2 t Ht) as (del & v & Q1 & Q2 & Q3 & Q4).
    exists del, v. split; [exact Q1|]. split; [exact Q2|]. split; [intros s Hs; rewrite !d_nth by exact Hi; apply Q3; exact Hs|rewrite !d_nth by exact Hi; exact Q4].
  - exists del, v. split; [exact Hd|]. split; [exact Lv|]. split; [intros i Hi; apply (P i Hi)|]. split.
    + intros s Hs. apply (nth_ext _ _ 0 0); [rewrite vadd_length, smul_length, !d_len, Lv; lia|].
      intros i Hi. rewrite d_len in Hi. rewrite nth_vadd. rewrite nth_smul. apply (P i Hi). exact Hs.
    + rewrite !D_sum, (dot_sumn n) by exact Lv. rewrite <- sumn_plus. apply sumn_le. intros i Hi. apply (P i Hi).
Qed.
Lemma face_slope v : length v = n -> (forall i, (i < n)%nat -> nth i v 0 = 0 \/ nth i v 0 = - nth i g 0) -> dot g v = - dot v v.
Proof.
  intros Lv P. rewrite (dot_sumn n g) by first [exact Lg|exact Lv]. rewrite (dot_sumn n v) by exact Lv. replace (- sumn n (fun i => nth i v 0 * nth i v 0)) with (-1 * sumn n (fun i => nth i v 0 * nth i v 0)) by ring.
  rewrite <- sumn_scal. apply sumn_ext. intros i Hi. destruct (P i Hi) as [-> | E]; [ring|rewrite E; ring].
Qed.
End Path.

Section CauchyDecrease.
Variables (eps : R) (x g : vec) (lower upper : xbounds) (h k : nat) (theta : R) (sh yh : list vec) (solve : mat -> vec -> vec) (M C : R).
Hypothesis Heps : 0 < eps.
Hypothesis Lg : length g = length x.
Hypothesis B : in_bounds lower upper x.
Hypothesis CP : clear_point eps C lower upper x g.
Hypothesis G : good_history (length x) h k theta sh yh.
Hypothesis SOL : exact_solver solve.
Let n := length x.
Let w := w_flat theta sh yh n.
Let m := linalg_inv solve (2 * h) (m_inv h k theta sh yh).
Hypothesis HM : 0 < M.
Hypothesis HC : 0 < C.
Hypothesis BU : forall z, length z = n -> bform theta w m z z <= M * dot z z.
Hypothesis BL : forall z, length z = n -> dot z z <= C * bform theta w m z z.
Let bf := bform theta w m.
Let d s := vsub (path x g lower upper s) x.
Let D s := - dot g (d s).
Let q s := qmodel theta w m g (d s).
Let Ws : mat_shape (length x) (length m) w := w_shape x h k theta sh yh solve G.
Let Bs := b_sym x theta w m Ws (m_sym x h k theta sh yh solve G SOL).
Lemma bf_add_r u v z : bf z (vadd u v) = bf z u + bf z v.
Proof. unfold bf. rewrite Bs, (b_add_l x theta w m Ws), (Bs u), (Bs v). reflexivity. Qed.
Lemma bf_smul_r a u z : bf z (smul a u) = a * bf z u.
Proof. unfold bf. rewrite Bs, (b_smul_l x theta w m Ws), (Bs u). reflexivity. Qed.
Lemma bf_expand a b u v : bf (vadd (smul a u) (smul b v)) (vadd (smul a u) (smul b v)) = a * a * bf u u + 2 * a * b * bf u v + b * b * bf v v.
Proof.
  rewrite bf_add_r, !bf_smul_r. unfold bf. rewrite !(b_add_l x theta w m Ws), !(b_smul_l x theta w m Ws), (Bs v u). fold bf. ring.
Qed.
Lemma bf_nonneg z : length z = n -> 0 <= bf z z.
Proof. intros Hz. pose proof (BL z Hz) as P. pose proof (dot_self_nonneg z). fold bf in P. destruct (Rle_lt_dec 0 (bf z z)); [assumption|]. nra. Qed.
Lemma q_eq s : q s = - D s + / 2 * bf (d s) (d s).
Proof. unfold q, qmodel, D. fold bf. ring. Qed.
Lemma CPg : clear_gradient eps g.
Proof. intros i Hi. destruct (proj1 CP i Hi) as [E|[E _]]; [left|right]; exact E. Qed.
Lemma CPcurv : clear_curvature eps theta w m g.
Proof.
  intros v Lv P N. assert (Ln : length v = n) by (rewrite Lv; exact Lg).
  assert (X : exists i, (i < n)%nat /\ nth i v 0 <> 0).
  { destruct (Classical_Prop.classic (exists i, (i < n)%nat /\ nth i v 0 <> 0)) as [Q|Q]; [exact Q|]. exfalso. apply N. rewrite Lg. fold n.
    apply (nth_ext _ _ 0 0); [rewrite vzero_length; exact Ln|]. intros i Hi. rewrite nth_vzero. destruct (Req_dec (nth i v 0) 0) as [E|E]; [exact E|]. exfalso. apply Q. exists i. split; [lia|exact E]. }
  destruct X as (i & Hi & Ni). assert (Hg : (i < length g)%nat) by (rewrite Lg; exact Hi).
  destruct (P i Hg) as [E|E]; [contradiction|]. destruct (proj1 CP i Hg) as [Z|[_ Z]]; [rewrite Z in E; lra|].
  assert (V : nth i g 0 * nth i g 0 <= dot v v).
  { rewrite (dot_sumn n v) by exact Ln. apply Rle_trans with (sumn n (fun j => if Nat.eq_dec i j then nth j v 0 * nth j v 0 else 0)).
    - clear - Hi E. revert Hi. generalize n. intros j0 Hk. induction j0 as [|j0 IH]; [lia|]. rewrite sumn_S. destruct (Nat.eq_dec i j0) as [->|N].
      + assert (0 <= sumn j0 (fun j => if Nat.eq_dec j0 j then nth j v 0 * nth j v 0 else 0)) by (apply sumn_nonneg; intros j Hj; destruct (Nat.eq_dec j0 j); nra). rewrite E in *. nra.
      + specialize (IH ltac:(lia)). lra.
    - apply sumn_le. intros j Hj. destruct (Nat.eq_dec i j); nra. }
  pose proof (BL v Ln) as L1. apply (Rmult_le_reg_l C); [exact HC|]. lra.
Qed.
Lemma cauchy_decrease : let xc := map xreal (x_cauchy eps x g lower upper theta w m) in
  qmodel theta w m g (vsub xc x) <= - (D 1 / (2 * (M + 1))).
Proof.
  intros xc. destruct CP as (_ & CB & DB).
  destruct (C48_cauchy eps x g lower upper h k theta sh yh solve Heps Lg B CPg CB G SOL) as (t & T0 & Ex & _ & _ & Dec & _ & Loc).
  fold n in Ex, Dec, Loc. fold w m in Ex, Dec, Loc. specialize (Loc CPcurv DB).
  unfold xc. rewrite Ex, map_xreal_fin. fold (d t). fold (q t).
  assert (Den : 0 < 2 * (M + 1)) by lra. set (ta := / (M + 1)). assert (Hta : ta * (M + 1) = 1) by (unfold ta; field; lra).
  assert (T1 : 0 < ta) by (apply Rinv_0_lt_compat; lra). assert (T2 : ta <= 1) by nra.
  assert (E1 : D 1 / (2 * (M + 1)) = / 2 * (ta * D 1)) by (unfold ta; field; lra). rewrite E1.
  assert (D1 : 0 <= D 1) by apply (D_nonneg x g lower upper Lg B 1 Rle_0_1).
  destruct (Rle_lt_dec ta t) as [C1|C1].
  - assert (Q : q t <= q ta) by (destruct C1 as [C1|<-]; [left; apply (Dec ta t); lra|right; reflexivity]).
    eapply Rle_trans; [exact Q|]. rewrite q_eq. assert (A1 : dot (d ta) (d ta) <= ta * D ta) by (apply (d_sq x g lower upper Lg B ta); lra). assert (A2 : ta * D 1 <= D ta) by (apply (D_scale x g lower upper Lg B ta); lra).
    assert (A3 : 0 <= D ta) by (apply (D_nonneg x g lower upper Lg B ta); lra).
    assert (A4 := BU (d ta) (d_len x g lower upper Lg ta)). fold bf in A4. assert (M * dot (d ta) (d ta) <= M * (ta * D ta)) by (apply Rmult_le_compat_l; lra).
    assert (M * (ta * D ta) <= D ta) by (replace (M * (ta * D ta)) with ((ta * (M + 1) - ta) * D ta) by ring; rewrite Hta; assert (0 <= ta * D ta) by (apply Rmult_le_pos; lra); lra). lra.
  - destruct Loc as (del & Hd & Loc). destruct (d_right x g lower upper Lg B t T0) as (del' & v & Hd' & Lv & Pv & Rv & Dv).
    change (D 1 <= dot v v + D t) in Dv. change (forall s, t <= s <= t + del' -> d s = vadd (d t) (smul (s - t) v)) in Rv. change (forall s, t <= s -> s <= t + del -> q t <= q s) in Loc.
    assert (Gv := face_slope x g Lg v Lv Pv). assert (Ldt : length (d t) = n) by apply (d_len x g lower upper Lg).
    assert (S0 : 0 <= - dot v v + bf (d t) v).
    { destruct (Rle_lt_dec 0 (- dot v v + bf (d t) v)) as [|N]; [assumption|exfalso]. assert (V0 := bf_nonneg v Lv).
      set (a := - dot v v + bf (d t) v) in *. set (bv := bf v v) in *.
      set (r := Rmin (Rmin del del') (- a / (bv + 1))). assert (R0 : 0 < r) by (unfold r; apply Rmin_glb_lt; [apply Rmin_glb_lt; assumption|apply Rdiv_lt_0_compat; lra]).
      assert (R1 : r <= del) by (unfold r; eapply Rle_trans; [apply Rmin_l|apply Rmin_l]). assert (R2 : r <= del') by (unfold r; eapply Rle_trans; [apply Rmin_l|apply Rmin_r]).
      assert (R3 : r * (bv + 1) <= - a) by (assert (r <= - a / (bv + 1)) by apply Rmin_r; replace (- a) with (- a / (bv + 1) * (bv + 1)) by (field; lra); apply Rmult_le_compat_r; lra).
      specialize (Loc (t + r) ltac:(lra) ltac:(lra)). 
      specialize (Rv (t + r) ltac:(lra)). replace (t + r - t) with r in Rv by ring.
      unfold q, qmodel in Loc. fold bf in Loc. rewrite Rv in Loc. rewrite dot_vadd_r, dot_smul_r, Gv in Loc.
      assert (Ex2 := bf_expand 1 r (d t) v). replace (smul 1 (d t)) with (d t) in Ex2 by (symmetry; apply smul_1). rewrite Ex2 in Loc. fold bv in Loc. unfold a in *. nra. }
    assert (Y : 0 <= bf (vadd (smul M (d t)) (smul (-1) v)) (vadd (smul M (d t)) (smul (-1) v))) by (apply bf_nonneg; rewrite vadd_length, !smul_length, Ldt, Lv; lia).
    rewrite bf_expand in Y. assert (V1 := BU v Lv). fold bf in V1. assert (B1 := BU (d t) Ldt). fold bf in B1.
    assert (A1 : dot (d t) (d t) <= t * D t) by apply (d_sq x g lower upper Lg B t T0). assert (A3 : 0 <= D t) by apply (D_nonneg x g lower upper Lg B t T0).
    rewrite q_eq. set (bd := bf (d t) (d t)) in *. set (bdv := bf (d t) v) in *. set (vv := dot v v) in *. set (bv := bf v v) in *.
    assert (X1 : 2 * bdv <= M * bd + vv) by (apply (Rmult_le_reg_l M); [exact HM|]; lra).
    assert (X2 : bd <= D t).
    { apply Rle_trans with (M * (t * D t)); [apply Rle_trans with (M * dot (d t) (d t)); [exact B1|apply Rmult_le_compat_l; lra]|].
      assert (M * t <= 1) by nra. replace (M * (t * D t)) with (M * t * D t) by ring. nra. }
    assert (X3 : vv <= M * D t) by nra. assert (X4 : D 1 <= (M + 1) * D t) by lra.
    assert (X5 : ta * D 1 <= D t) by (replace (D t) with (ta * ((M + 1) * D t)) by (rewrite <- Rmult_assoc, Hta; ring); apply Rmult_le_compat_l; lra). lra.
Qed.
End CauchyDecrease.
