(** L-BFGS-B: the path, the direction, the history, the error. *)
From Coq Require Import String Reals List Bool Arith Lra Lia.
From Verif Require Import Prelude Base Vec Mat XArith LinAlg Loss LossProofs QuasiNewton QuasiNewtonProofs Lbfgsb LbfgsbHess LbfgsbCauchy LbfgsbSub.
Import ListNotations.
Open Scope R_scope.

Lemma map_xreal_fin v : map xreal (map Fin v) = v.
Proof. rewrite map_map. cbn. apply map_id. Qed.
Lemma clip_real_id y l u : xle l (Fin y) = true -> xle (Fin y) u = true -> clip_real y l u = y.
Proof.
  intros H1 H2. unfold clip_real. destruct l as [l| | |]; try discriminate H1; destruct u as [u| | |]; try discriminate H2; try reflexivity;
  rewrite ?xle_fin in *; rewrite ?Rmax_left by lra; rewrite ?Rmin_left by lra; reflexivity.
Qed.
Lemma vadd_inj x a b : length a = length x -> length b = length x -> vadd x a = vadd x b -> a = b.
Proof.
  intros Ha Hb E. apply vec_ext; [congruence|]. intros i _. assert (Q := f_equal (fun l : vec => nth i l 0) E). cbv beta in Q. rewrite !nth_vadd in Q. lra.
Qed.
Lemma vadd_vsub_l x p : length p = length x -> vsub (vadd x p) x = p.
Proof. intros H. apply vec_ext; [rewrite vsub_length, vadd_length; lia|]. intros i _. rewrite nth_vsub, nth_vadd. lra. Qed.

Section Path.
Variables (eps : R) (x g : vec) (lower upper : xbounds).
Hypothesis Heps : 0 < eps.
Hypothesis Hlg : length g = length x.
Hypothesis Hbox : in_bounds lower upper x.
Hypothesis CG : clear_gradient eps g.
Lemma CG' : forall i, (i < length x)%nat -> nth i g 0 = 0 \/ eps <= Rabs (nth i g 0).
Proof. intros i Hi. apply CG. rewrite Hlg. exact Hi. Qed.
Hypothesis CB : clear_breaks eps x g lower upper.
Lemma path_Zt s : 0 <= s -> path x g lower upper s = vadd x (Zt eps x g lower upper s).
Proof.
  intros Hs. apply vec_ext; [unfold path; rewrite tab_length, vadd_length, Zt_len; lia|]. intros i Hi. unfold path in Hi. rewrite tab_length in Hi.
  rewrite nth_vadd. unfold path, Zt. rewrite !nth_tab by exact Hi.
  assert (TC := tk_cases eps x g lower upper Heps Hbox CG' i Hi). assert (DK := dk_eq eps x g lower upper i Hi). cbv beta in TC, DK. rewrite DK. clear DK.
  assert (LO := lo_cases x lower upper Hbox i Hi). assert (UP := up_cases x lower upper Hbox i Hi).
  destruct TC as [[E K]|(r & E & R0 & H)]; rewrite E.
  - cbn [xltb tmin]. destruct K as [K|[[K1 K2]|[K1 K2]]].
    + rewrite K. rewrite Rmult_0_r, Rminus_0_r. rewrite clip_real_id by apply (Hbox i Hi). ring.
    + rewrite K2. rewrite clip_real_id; [ring| |reflexivity]. destruct LO as [->|(l & -> & L)]; [reflexivity|]. apply xle_fin. nra.
    + rewrite K2. rewrite clip_real_id; [ring|reflexivity|]. destruct UP as [->|(u & -> & U)]; [reflexivity|]. apply xle_fin. nra.
  - destruct (CB i r Hi H) as [->|Rp].
    + unfold xltb. destruct (Rlt_dec 0 eps); [|lra]. rewrite Rmult_0_r, Rplus_0_r. unfold clip_real. destruct H as [[N ->]|[P ->]].
      * replace (nth i x 0 - 0 * nth i g 0) with (nth i x 0) by ring. destruct LO as [->|(l & -> & L)].
        -- apply Rmin_right. nra.
        -- rewrite Rmin_right; [reflexivity|]. eapply Rle_trans; [|apply Rmax_l]. nra.
      * replace (nth i x 0 - 0 * nth i g 0) with (nth i x 0) by ring. rewrite (Rmax_right (nth i x 0 - s * nth i g 0)) by nra. destruct UP as [->|(u & -> & U)]; [reflexivity|]. apply Rmin_left. exact U.
    + unfold xltb. destruct (Rlt_dec r eps); [lra|]. unfold clip_real, tmin. destruct H as [[N ->]|[P ->]].
      * assert (X : match lo lower i with Fin l => Rmax (nth i x 0 - s * nth i g 0) l | _ => nth i x 0 - s * nth i g 0 end = nth i x 0 - s * nth i g 0).
        { destruct LO as [->|(l & -> & L)]; [reflexivity|]. apply Rmax_left. nra. }
        rewrite X. unfold Rmin. destruct (Rle_dec s r); destruct (Rle_dec (nth i x 0 - s * nth i g 0) (nth i x 0 - r * nth i g 0)); try ring; nra.
      * assert (X : Rmax (nth i x 0 - s * nth i g 0) (nth i x 0 - r * nth i g 0) = nth i x 0 + Rmin s r * - nth i g 0).
        { unfold Rmax, Rmin. destruct (Rle_dec s r); destruct (Rle_dec (nth i x 0 - s * nth i g 0) (nth i x 0 - r * nth i g 0)); try ring; nra. }
        rewrite X. destruct UP as [->|(u & -> & U)]; [reflexivity|]. apply Rmin_left.
        assert (0 <= Rmin s r) by (apply Rmin_glb; lra). nra.
Qed.
Lemma nzd_path : nzd eps x g lower upper <-> path x g lower upper 1 <> x.
Proof.
  rewrite path_Zt by lra. split.
  - intros N E. apply N. apply vec_ext; [rewrite (d_length eps x g lower upper), vzero_length; reflexivity|]. intros i Hi. rewrite d_length in Hi. rewrite nth_vzero.
    assert (Q := f_equal (fun l : vec => nth i l 0) E). cbv beta in Q. rewrite nth_vadd in Q. unfold Zt in Q. rewrite nth_tab in Q by exact Hi.
    destruct (tk_bp eps x g lower upper Heps Hbox CG' CB i Hi) as [T|[T|(r & T & Rp)]]; cbv beta in T.
    + rewrite T in Q. cbn [tmin] in Q. lra.
    + apply (dk_zero eps x g lower upper Heps i Hi T).
    + rewrite T in Q. cbn [tmin] in Q. assert (0 < Rmin 1 r) by (apply Rmin_glb_lt; lra). assert (P : Rmin 1 r * nth i (cp_d eps x g lower upper) 0 = 0) by lra. apply Rmult_integral in P. destruct P; lra.
  - intros N E. apply N. apply vec_ext; [rewrite vadd_length, Zt_len; lia|]. intros i Hi. rewrite vadd_length, Zt_len, Nat.max_id in Hi. rewrite nth_vadd. unfold Zt. rewrite nth_tab by exact Hi. rewrite E, nth_vzero. ring.
Qed.
End Path.

Section Direction.
Variables (eps : R) (x g : vec) (lower upper : xbounds).
Hypothesis Heps : 0 < eps.
Hypothesis Hlg : length g = length x.
Hypothesis Hbox : in_bounds lower upper x.
Hypothesis CG : clear_gradient eps g.
Variables (h k : nat) (theta : R) (sh yh : list vec) (solve : mat -> vec -> vec).
Let n := length x.
Hypothesis G : good_history n h k theta sh yh.
Hypothesis SOL : exact_solver solve.
Let w := w_flat theta sh yh n.
Let m := linalg_inv solve (2 * h) (m_inv h k theta sh yh).
Let K := length m.
Lemma K_eq : K = (2 * h)%nat. Proof. apply minv_len. Qed.
Lemma w_shape : mat_shape n K w. Proof. rewrite K_eq. apply (wmat_shape n h k theta sh yh G). Qed.
Lemma m_shape : mat_shape K K m. Proof. rewrite K_eq. apply minv_shape. Qed.
Lemma m_sym u v : length u = K -> length v = K -> dot (mvec m u) v = dot u (mvec m v).
Proof. rewrite K_eq. apply (minv_sym n h k theta sh yh G solve SOL). Qed.
Lemma b_pd z : length z = n -> z <> vzero n -> 0 < bform theta w m z z.
Proof. apply (bform_pd n h k theta sh yh G solve SOL). Qed.
Lemma init_pos : nzd eps x g lower upper -> 0 < cp_ddf (cp_init eps x g lower upper theta w m).
Proof.
  intros N. assert (Q := b_pd (cp_d eps x g lower upper) (d_length eps x g lower upper) N). unfold bform in Q. cbn [cp_init cp_ddf].
  rewrite (dot_comm (mvec m _)). lra.
Qed.
Let CGx := CG' eps x g Hlg CG.
Let z := zc eps x g lower upper theta w m.
Let c := cauchy_c eps x g lower upper theta w m.
Let xc := map xreal (x_cauchy eps x g lower upper theta w m).
Let mask := active_set_mask eps x g lower upper theta w m.
Lemma xc_eq : xc = vadd x z.
Proof. unfold xc. rewrite (x_cauchy_eq eps x g lower upper theta w m Heps Hlg Hbox CGx init_pos). apply map_xreal_fin. Qed.
Lemma zl : length z = n. Proof. apply tab_length. Qed.
Lemma xc_len : length xc = n. Proof. rewrite xc_eq. apply vadd_length_eq; [reflexivity|apply zl]. Qed.
Lemma xc_in : in_bounds lower upper xc.
Proof. rewrite xc_eq. apply (xc_box eps x g lower upper theta w m Heps Hlg Hbox CGx init_pos). Qed.
Let a := ar solve x g lower upper xc c theta w m mask.
Let dd := duf solve x g xc c theta w m mask.
Definition dir : vec := vadd z (smul a dd).
Lemma dir_len : length dir = n.
Proof. apply vadd_length_eq; [apply zl|rewrite smul_length; apply tab_length]. Qed.
Lemma target_eq : minimize_subspace solve x g lower upper xc c theta w m mask = map Fin (vadd x dir).
Proof. rewrite (sub_eq solve x g lower upper xc c theta w m mask xc_len xc_in). f_equal. fold a dd. unfold dir. rewrite vadd_assoc, <- xc_eq. reflexivity. Qed.
Lemma target_in : in_bounds lower upper (vadd x dir).
Proof. unfold dir. rewrite vadd_assoc, <- xc_eq. apply (sub_box solve x g lower upper xc c theta w m mask xc_len xc_in). Qed.
Hypothesis CB : clear_breaks eps x g lower upper.
Lemma z_xc : vsub xc x = z.
Proof. rewrite xc_eq. apply vadd_vsub_l. apply zl. Qed.
Lemma c_eq : c = tvec K w (vsub xc x).
Proof. rewrite z_xc. apply (cauchy_c_eq eps x g lower upper theta w m Heps Hlg Hbox CGx init_pos w_shape m_sym CB). Qed.
Let q := qmodel theta w m g.
Lemma q_dir : q dir <= q z.
Proof.
  assert (Q := q_sub_le solve x g lower upper xc c theta w m mask xc_len xc_in SOL Hlg w_shape m_shape m_sym (gh_theta _ _ _ _ _ _ G) b_pd c_eq).
  rewrite z_xc in Q. exact Q.
Qed.
Lemma q_zero : q (vzero n) = 0.
Proof. unfold q, qmodel, bform. fold K. rewrite dot_vzero_r, dot_vzero_l, tvec_vzero by apply w_shape. rewrite dot_vzero_l. ring. Qed.
Lemma q_z_neg : nzd eps x g lower upper -> q z < 0.
Proof.
  intros N. assert (D := decr_ts eps x g lower upper theta w m Heps Hlg Hbox CGx init_pos w_shape m_sym CB).
  assert (P := ts_pos eps x g lower upper theta w m Heps Hlg Hbox CGx init_pos CB N). unfold decr in D. cbv zeta in D.
  specialize (D 0 _ (Rle_refl 0) P (Rle_refl _)). rewrite (Zt_0 eps x g lower upper Heps Hbox CGx) in D. fold n q in D. rewrite q_zero in D. exact D.
Qed.
Lemma dir_desc : nzd eps x g lower upper -> dot g dir < 0 /\ q dir < 0.
Proof.
  intros N. assert (Q : q dir < 0) by (assert (H := q_dir); assert (H2 := q_z_neg N); lra). split; [|exact Q].
  unfold q, qmodel in Q. assert (0 <= bform theta w m dir dir).
  { destruct (list_eq_dec Req_EM_T dir (vzero n)) as [E|E]; [|left; apply b_pd; [apply dir_len|exact E]].
    right. rewrite E. unfold bform. fold K. rewrite dot_vzero_l, tvec_vzero by apply w_shape. rewrite dot_vzero_l. ring. }
  lra.
Qed.
Lemma dir_stat : ~ nzd eps x g lower upper -> dir = vzero n.
Proof.
  intros N. assert (Ed : cp_d eps x g lower upper = vzero n) by (destruct (list_eq_dec Req_EM_T (cp_d eps x g lower upper) (vzero n)); [assumption|contradiction]).
  assert (Ez : z = vzero n).
  { apply vec_ext; [rewrite zl, vzero_length; reflexivity|]. intros i Hi. rewrite zl in Hi. unfold z, zc. fold n. rewrite nth_tab by exact Hi. rewrite Ed, nth_vzero. ring. }
  assert (Edd : dd = vzero n).
  { apply (duf_zero solve x g xc c theta w m mask xc_len SOL Hlg w_shape m_shape m_sym (gh_theta _ _ _ _ _ _ G) b_pd c_eq).
    intros i Hi M. rewrite z_xc, Ez. rewrite nth_vadd. unfold bapply. fold K. rewrite nth_vsub, nth_smul, nth_vzero, tvec_vzero by apply w_shape. rewrite mvec_vzero, nth_mvec, dot_vzero_r.
    assert (A : xltb (Fin eps) (nth i (cp_t eps x g lower upper) NaN) = true).
    { unfold bmask, mask in M. assert (MP := mask_pos eps x g lower upper theta w m Heps Hlg Hbox CGx init_pos i Hi). cbv beta in MP. rewrite MP in M. apply Nat.leb_le in M.
      assert (S := sinv_final eps x g lower upper theta w m Heps Hlg Hbox CGx init_pos). destruct (si_ge _ _ _ _ _ _ _ _ _ S) as [S1 _].
      destruct (pos_lt eps x g lower upper Hlg i Hi) as [P1 P2]. assert (TS := tsp_pos eps x g lower upper Hlg i Hi). cbv beta in TS. rewrite <- TS.
      apply (after_start eps x g lower upper Heps Hlg Hbox CGx); [|exact P1]. lia. }
    assert (Dp := dk_pos eps x g lower upper Heps Hbox CGx i Hi A). cbv beta in Dp. rewrite Ed, nth_vzero in Dp. lra. }
  unfold dir. rewrite Ez, Edd. apply vec_ext; [rewrite vadd_length, smul_length, !vzero_length; lia|]. intros i _. rewrite nth_vadd, nth_smul, !nth_vzero. ring.
Qed.
End Direction.

(** ** The history *)
Lemma init_good n h theta : 0 < theta -> good_history n h 0 theta (repeat (vzero n) h) (repeat (vzero n) h).
Proof.
  intros T. assert (SH : mat_shape h n (repeat (vzero n) h)).
  { split; [apply repeat_length|]. apply Forall_forall. intros r Hr. apply repeat_spec in Hr. subst r. apply vzero_length. }
  constructor; try assumption; [lia|]. intros i Hi _. unfold s_at, y_at.
  assert (E : nth i (repeat (vzero n) h) [] = vzero n). { apply (repeat_spec h). apply nth_In. rewrite repeat_length. exact Hi. }
  auto.
Qed.
Lemma set_shape h n S i (v : vec) : mat_shape h n S -> length v = n -> mat_shape h n (set_nth S i v).
Proof.
  intros [L F] Hv. split; [rewrite set_nth_length; exact L|]. clear L. revert i. induction F as [|r S Hr F IH]; intros i; [constructor|]. destruct i; cbn; constructor; auto.
Qed.
Lemma store_good n h k theta sh yh (s y : vec) theta' : (0 < h)%nat -> good_history n h k theta sh yh -> length s = n -> length y = n -> 0 < dot s y -> 0 < theta' ->
  good_history n h (k + 1) theta' (set_nth sh (k mod h) s) (set_nth yh (k mod h) y).
Proof.
  intros Hh G Ls Ly C T. assert (Hm : (k mod h < h)%nat) by (apply Nat.mod_upper_bound; lia).
  constructor; [exact T|apply set_shape; [apply (gh_s _ _ _ _ _ _ G)|exact Ls]|apply set_shape; [apply (gh_y _ _ _ _ _ _ G)|exact Ly]| |].
  - intros i Hi Ki. unfold s_at, y_at. rewrite !nth_set_nth. destruct (gh_s _ _ _ _ _ _ G) as [L1 _], (gh_y _ _ _ _ _ _ G) as [L2 _]. rewrite L1, L2.
    replace (Nat.ltb (k mod h) h) with true by (symmetry; apply Nat.ltb_lt; exact Hm). destruct (Nat.eq_dec (k mod h) i) as [E|E]; [exact C|].
    apply (gh_used _ _ _ _ _ _ G i Hi). destruct (Nat.lt_ge_cases k h) as [Q|Q]; [rewrite Nat.mod_small in E by exact Q; lia|lia].
  - intros i Hi Ki. unfold s_at, y_at. rewrite !nth_set_nth. assert (E : (k mod h)%nat <> i) by (rewrite Nat.mod_small by lia; lia). destruct (Nat.eq_dec (k mod h) i); [contradiction|].
    apply (gh_unused _ _ _ _ _ _ G i Hi). lia.
Qed.

Section Secant.
Variables (n h k : nat) (theta : R) (sh yh : list vec) (solve : mat -> vec -> vec) (i : nat).
Hypothesis G : good_history n h k theta sh yh.
Hypothesis SOL : exact_solver solve.
Hypothesis Hi : (i < h)%nat.
Hypothesis Ki : (i < k)%nat.
(** slot i is the last one in use *)
Hypothesis Last : forall j, (j < h)%nat -> (i < j)%nat -> (k <= j)%nat.
Let w := w_flat theta sh yh n.
Let m := linalg_inv solve (2 * h) (m_inv h k theta sh yh).
Definition sec_q : vec := smul (-1) (unit_vec h i) ++ unit_vec h i.
Lemma sec_len : length sec_q = (2 * h)%nat.
Proof. unfold sec_q. rewrite app_length, smul_length, !unit_vec_length. lia. Qed.
Lemma sec_1 j : (j < h)%nat -> nth j sec_q 0 = if Nat.eq_dec i j then -1 else 0.
Proof. intros Hj. unfold sec_q. rewrite app_nth1 by (rewrite smul_length, unit_vec_length; exact Hj). rewrite nth_smul, nth_unit_vec by exact Hj. destruct (Nat.eq_dec i j); ring. Qed.
Lemma sec_2 j : (j < h)%nat -> nth (h + j) sec_q 0 = if Nat.eq_dec i j then 1 else 0.
Proof.
  intros Hj. unfold sec_q. rewrite app_nth2 by (rewrite smul_length, unit_vec_length; lia). rewrite smul_length, unit_vec_length. replace (h + j - h)%nat with j by lia. apply nth_unit_vec. exact Hj.
Qed.
Lemma sec_sq2 z : dot (sq2 n h sh sec_q) z = dot (s_at sh i) z.
Proof.
  rewrite (sq2_dot n h k theta sh yh G). rewrite (sumn_single h i) by first [exact Hi | (intros j Hj N; rewrite sec_2 by exact Hj; destruct (Nat.eq_dec i j); [congruence|ring])].
  rewrite sec_2 by exact Hi. destruct (Nat.eq_dec i i); [ring|congruence].
Qed.
Lemma sec_sys : mvec (m_inv h k theta sh yh) sec_q = wz theta sh yh (s_at sh i).
Proof.
  assert (L := m_inv_shape h k theta sh yh). apply vec_ext; [rewrite mvec_length, (wz_length n h k theta sh yh G); apply L|]. intros j Hj. rewrite mvec_length in Hj. destruct L as [L _]. rewrite L in Hj.
  destruct (Nat.lt_ge_cases j h) as [C|C].
  - rewrite row1 by first [exact C | (apply sec_len)]. rewrite (wz1 n h k theta sh yh G) by exact C.
    rewrite (sumn_single h i) by first [exact Hi | (intros l Hl N; rewrite sec_2 by exact Hl; destruct (Nat.eq_dec i l); [congruence|ring])].
    rewrite sec_1 by exact C. rewrite sec_2 by exact Hi. destruct (Nat.eq_dec i i); [|congruence]. destruct (Nat.eq_dec i j) as [<-|N].
    + rewrite Nat.ltb_irrefl. destruct (dg_used h k theta sh yh i Hi Ki) as [-> _]. rewrite (dot_comm (y_at yh i)). ring.
    + destruct (Nat.ltb_spec j i); [rewrite (dot_comm (y_at yh j)); ring|]. destruct (gh_unused _ _ _ _ _ _ G j C (Last j C ltac:(lia))) as [_ ->]. rewrite dot_vzero_l. ring.
  - replace j with (h + (j - h))%nat by lia. assert (C' : (j - h < h)%nat) by lia. set (l := (j - h)%nat) in *.
    rewrite (row2 n h k theta sh yh G) by first [exact C' | (apply sec_len)]. rewrite (wz2 n h k theta sh yh G) by exact C'. rewrite sec_sq2.
    rewrite (sumn_single h i) by first [exact Hi | (intros u Hu N; rewrite sec_1 by exact Hu; destruct (Nat.eq_dec i u); [congruence|ring])].
    rewrite sec_1 by exact Hi. rewrite sec_2 by exact C'. destruct (Nat.eq_dec i i); [|congruence]. rewrite (dot_comm (s_at sh i)). destruct (Nat.eq_dec i l) as [<-|N].
    + rewrite Nat.ltb_irrefl. destruct (dg_used h k theta sh yh i Hi Ki) as [_ ->]. ring.
    + destruct (Nat.ltb_spec i l); [|ring]. destruct (gh_unused _ _ _ _ _ _ G l C' (Last l C' ltac:(lia))) as [-> _]. rewrite !dot_vzero_l. ring.
Qed.
Lemma secant : bapply theta w m (s_at sh i) = y_at yh i.
Proof.
  assert (Ls : length (s_at sh i) = n) by (apply (s_len n h k theta sh yh G i Hi)). assert (Ly : length (y_at yh i) = n) by (apply (y_len n h k theta sh yh G i Hi)).
  unfold bapply. assert (LM : length m = (2 * h)%nat) by apply minv_len. rewrite LM. unfold w. change (w_flat theta sh yh n) with (wmat n theta sh yh). rewrite (wmat_tvec n h k theta sh yh G _ Ls).
  assert (EQ : mvec m (wz theta sh yh (s_at sh i)) = sec_q).
  { destruct (minv_spec n h k theta sh yh G solve SOL (wz theta sh yh (s_at sh i)) (wz_length n h k theta sh yh G _)) as [L E].
    apply (nonsingular_unique (2 * h) (m_inv h k theta sh yh)); [apply (m_inv_nonsingular n h k theta sh yh G)|exact L|apply sec_len|]. rewrite sec_sys. exact E. }
  rewrite EQ. change (w_flat theta sh yh n) with (wmat n theta sh yh). rewrite (wmat_mvec n h k theta sh yh G) by apply sec_len.
  assert (RS := w_rows_shape n h k theta sh yh G).
  apply vec_eq_dot; [rewrite vsub_length, smul_length, (tvec_length (2 * h)) by exact RS; rewrite Ls, Ly; lia|]. intros z. rewrite dot_vsub_l, dot_smul_l.
  rewrite (tvec_sumn (2 * h) n) by first [exact RS | (apply sec_len)].
  assert (E : sumn (2 * h) (fun j => nth j sec_q 0 * dot (nth j (w_rows theta sh yh) []) z) = dot sec_q (wz theta sh yh z)).
  { rewrite (dot_sumn (2 * h)) by first [apply sec_len | (apply (wz_length n h k theta sh yh G))]. apply sumn_ext. intros j _. unfold wz. rewrite nth_mvec. reflexivity. }
  rewrite E. unfold sec_q. rewrite (app_tab (wz theta sh yh z) h) by apply (wz_length n h k theta sh yh G). rewrite dot_app by (rewrite smul_length, unit_vec_length, tab_length; reflexivity).
  rewrite dot_smul_l, !dot_unit_vec by first [exact Hi | (apply tab_length)]. rewrite !nth_tab by exact Hi. rewrite (wz1 n h k theta sh yh G), (wz2 n h k theta sh yh G) by exact Hi. ring.
Qed.
End Secant.

(** ** The error *)
Lemma xclip_real y l u a : xle l (Fin a) = true -> xle (Fin a) u = true -> xclip y l u = Fin (clip_real y l u).
Proof. intros H1 H2. unfold xclip, clip_real. destruct l as [l| | |]; try discriminate H1; destruct u as [u| | |]; try discriminate H2; reflexivity. Qed.
Lemma clip_real_in y l u a : xle l (Fin a) = true -> xle (Fin a) u = true -> xle l (Fin (clip_real y l u)) = true /\ xle (Fin (clip_real y l u)) u = true.
Proof.
  intros H1 H2. unfold clip_real. destruct l as [l| | |]; try discriminate H1; destruct u as [u| | |]; try discriminate H2; rewrite ?xle_fin in *; split; try reflexivity;
  unfold Rmax, Rmin; repeat match goal with |- context [Rle_dec ?a ?b] => destruct (Rle_dec a b) end; try apply (proj2 (xle_fin _ _)); lra.
Qed.
Definition pstep (lower upper : xbounds) (x g : vec) : vec := vsub (path x g lower upper 1) x.
Lemma projected_step_eq lower upper x g : in_bounds lower upper x -> projected_step x g lower upper = map Fin (pstep lower upper x g).
Proof.
  intros B. assert (L : length (pstep lower upper x g) = length x) by (unfold pstep; rewrite vsub_length; unfold path; rewrite tab_length; lia).
  apply (nth_ext _ _ NaN NaN); [unfold projected_step; rewrite map_length, tab_length; symmetry; exact L|]. intros i Hi. unfold projected_step in Hi. rewrite tab_length in Hi.
  unfold projected_step. rewrite nth_tab by exact Hi. rewrite (nth_indep _ NaN (Fin 0)) by (rewrite map_length, L; exact Hi). rewrite (map_nth Fin). unfold pstep. rewrite nth_vsub. unfold path. rewrite nth_tab by exact Hi.
  destruct (B i Hi) as [B1 B2]. rewrite (xclip_real _ _ _ _ B1 B2). cbn. rewrite Rmult_1_l. reflexivity.
Qed.
Definition maxabs (v : vec) : R := fold_right (fun a acc => Rmax (Rabs a) acc) 0 v.
Lemma maxabs_fold v : fold_right xmax (Fin 0) (map xabs (map Fin v)) = Fin (maxabs v).
Proof. induction v as [|a v IH]; [reflexivity|]. cbn [map fold_right]. rewrite IH. reflexivity. Qed.
Lemma maxabs_le v t : 0 <= t -> (maxabs v <= t <-> forall i, (i < length v)%nat -> Rabs (nth i v 0) <= t).
Proof.
  intros Ht. induction v as [|a v IH]; cbn [maxabs fold_right length].
  - split; [intros; lia|intros _; exact Ht].
  - fold (maxabs v). split.
    + intros H. assert (H1 := Rmax_l (Rabs a) (maxabs v)). assert (H2 := Rmax_r (Rabs a) (maxabs v)). intros [|i] Hi; cbn [nth]; [lra|]. apply IH; [lra|lia].
    + intros H. apply Rmax_lub; [apply (H 0%nat); lia|]. apply IH. intros i Hi. apply (H (S i)). lia.
Qed.
Lemma maxabs_nonneg v : 0 <= maxabs v.
Proof. induction v as [|a v IH]; cbn; [lra|]. eapply Rle_trans; [apply Rabs_pos|apply Rmax_l]. Qed.
(** clip(x - g) = x iff x is stationary over the box *)
Lemma stationary_path lower upper x g : length g = length x -> in_bounds lower upper x -> (path x g lower upper 1 = x <-> box_stationary lower upper x g).
Proof.
  intros Lg B. split.
  - intros E z Lz Bz. rewrite (dot_sumn (length x)) by first [exact Lg | (apply vsub_length_eq; [exact Lz|reflexivity])]. apply sumn_nonneg. intros i Hi. rewrite nth_vsub.
    assert (Q := f_equal (fun l : vec => nth i l 0) E). cbv beta in Q. unfold path in Q. rewrite nth_tab in Q by exact Hi. rewrite Rmult_1_l in Q.
    destruct (B i Hi) as [B1 B2]. destruct (Bz i ltac:(lia)) as [C1 C2]. unfold clip_real in Q.
    destruct (lo lower i) as [l| | |]; try discriminate B1; destruct (up upper i) as [u| | |]; try discriminate B2; repeat match goal with H : xle (Fin _) (Fin _) = true |- _ => apply (proj1 (xle_fin _ _)) in H end; unfold Rmax, Rmin in Q;
    repeat match goal with H : context [Rle_dec ?a ?b] |- _ => destruct (Rle_dec a b) end;
    first [exfalso; lra | replace (nth i g 0) with 0 by lra; lra | apply Rmult_le_pos; lra | rewrite <- Rmult_opp_opp; apply Rmult_le_pos; lra].
  - intros H. apply vec_ext; [apply tab_length|]. intros i Hi. unfold path in Hi. rewrite tab_length in Hi. unfold path. rewrite nth_tab by exact Hi. rewrite Rmult_1_l.
    destruct (B i Hi) as [B1 B2]. set (p := clip_real (nth i x 0 - nth i g 0) (lo lower i) (up upper i)).
    assert (P : 0 <= nth i g 0 * (p - nth i x 0)).
    { set (zz := set_nth x i p). assert (Lz : length zz = length x) by apply set_nth_length.
      assert (Q := H zz Lz). assert (Bz : in_bounds lower upper zz).
      { intros j Hj. unfold zz. rewrite nth_set_nth. rewrite Lz in Hj. destruct (Nat.eq_dec i j) as [<-|N]; [|apply B; exact Hj].
        replace (Nat.ltb i (length x)) with true by (symmetry; apply Nat.ltb_lt; exact Hi). apply (clip_real_in _ _ _ (nth i x 0)); assumption. }
      specialize (Q Bz). rewrite (dot_sumn (length x)) in Q by first [exact Lg | (apply vsub_length_eq; [exact Lz|reflexivity])].
      rewrite (sumn_single (length x) i) in Q; [|exact Hi|].
      - rewrite nth_vsub in Q. unfold zz in Q. rewrite nth_set_nth in Q. destruct (Nat.eq_dec i i); [|congruence]. replace (Nat.ltb i (length x)) with true in Q by (symmetry; apply Nat.ltb_lt; exact Hi). exact Q.
      - intros j Hj N. rewrite nth_vsub. unfold zz. rewrite nth_set_nth. destruct (Nat.eq_dec i j); [congruence|]. ring. }
    unfold p, clip_real in *. destruct (lo lower i) as [l| | |]; try discriminate B1; destruct (up upper i) as [u| | |]; try discriminate B2; repeat match goal with H : xle (Fin _) (Fin _) = true |- _ => apply (proj1 (xle_fin _ _)) in H end; unfold Rmax, Rmin in *;
    repeat match goal with H : context [Rle_dec ?a ?b] |- _ => destruct (Rle_dec a b) | |- context [Rle_dec ?a ?b] => destruct (Rle_dec a b) end; nra.
Qed.

(** ** Steps *)
Lemma box_convex lower upper x p s : length p = length x -> in_bounds lower upper x -> in_bounds lower upper (vadd x p) -> 0 <= s <= 1 -> in_bounds lower upper (vadd x (smul s p)).
Proof.
  intros L B B2 S i Hi. rewrite vadd_length, smul_length, L, Nat.max_id in Hi. destruct (B i Hi) as [B1l B1u]. destruct (B2 i) as [B2l B2u]; [rewrite vadd_length, L, Nat.max_id; exact Hi|].
  rewrite nth_vadd in *. rewrite nth_smul. set (a := nth i x 0) in *. set (b := nth i p 0) in *.
  split.
  - destruct (lo lower i) as [l| | |]; try discriminate B1l; try reflexivity. apply (proj1 (xle_fin _ _)) in B1l, B2l. apply (proj2 (xle_fin _ _)). nra.
  - destruct (up upper i) as [u| | |]; try discriminate B1u; try reflexivity. apply (proj1 (xle_fin _ _)) in B1u, B2u. apply (proj2 (xle_fin _ _)). nra.
Qed.
Lemma clip_box lower upper x q : in_bounds lower upper x ->
  tab (length x) (fun i => xreal (xclip (nth i q 0) (lo lower i) (up upper i))) = tab (length x) (fun i => clip_real (nth i q 0) (lo lower i) (up upper i)) /\
  in_bounds lower upper (tab (length x) (fun i => clip_real (nth i q 0) (lo lower i) (up upper i))).
Proof.
  intros B. split.
  - apply tab_ext. intros i Hi. destruct (B i Hi) as [B1 B2]. rewrite (xclip_real _ _ _ _ B1 B2). reflexivity.
  - intros i Hi. rewrite tab_length in Hi. rewrite nth_tab by exact Hi. destruct (B i Hi) as [B1 B2]. apply (clip_real_in _ _ _ _ B1 B2).
Qed.
Lemma default_in_bounds n x : length x = n -> in_bounds (repeat NInf n) (repeat PInf n) x.
Proof.
  intros L i Hi. assert (E1 : lo (repeat NInf n) i = NInf).
  { apply (repeat_spec n). unfold lo. apply nth_In. rewrite repeat_length. lia. }
  assert (E2 : up (repeat PInf n) i = PInf).
  { apply (repeat_spec n). unfold up. apply nth_In. rewrite repeat_length. lia. }
  rewrite E1, E2. split; reflexivity.
Qed.
Lemma error_eq lower upper x g : in_bounds lower upper x -> get_error x g lower upper = Fin (maxabs (pstep lower upper x g)).
Proof. intros B. unfold get_error. rewrite (projected_step_eq _ _ _ _ B). apply maxabs_fold. Qed.
Lemma nth_repeat_vz n h i : (i < h)%nat -> nth i (repeat (vzero n) h) [] = vzero n.
Proof. intros Hi. apply (repeat_spec h). apply nth_In. rewrite repeat_length. exact Hi. Qed.
Lemma bform_empty n h theta (m : mat) u v : length m = (2 * h)%nat -> length u = n -> length v = n -> 0 < theta ->
  bform theta (w_flat theta (repeat (vzero n) h) (repeat (vzero n) h) n) m u v = theta * dot u v.
Proof.
  intros Lm Lu Lv T. unfold bform. rewrite Lm. assert (G := init_good n h theta T). change (w_flat theta (repeat (vzero n) h) (repeat (vzero n) h) n) with (wmat n theta (repeat (vzero n) h) (repeat (vzero n) h)).
  rewrite (wmat_tvec n h 0 theta _ _ G u Lu). assert (E : wz theta (repeat (vzero n) h) (repeat (vzero n) h) u = vzero (2 * h)).
  { apply vec_ext; [rewrite (wz_length n h 0 theta _ _ G), vzero_length; reflexivity|]. intros i Hi. rewrite (wz_length n h 0 theta _ _ G) in Hi. rewrite nth_vzero.
    destruct (Nat.lt_ge_cases i h) as [C|C].
    - rewrite (wz1 n h 0 theta _ _ G) by exact C. unfold y_at. rewrite nth_repeat_vz by exact C. apply dot_vzero_l.
    - replace i with (h + (i - h))%nat by lia. rewrite (wz2 n h 0 theta _ _ G) by lia. unfold s_at. rewrite nth_repeat_vz by lia. rewrite dot_vzero_l. ring. }
  rewrite E, dot_vzero_l. ring.
Qed.
Lemma push_good n h theta pairs : 0 < theta -> (0 < h)%nat ->
  Forall (fun p => length (fst p) = n /\ length (snd p) = n /\ 0 < dot (fst p) (snd p)) pairs ->
  let '(sh, yh, k) := push_pairs n h pairs in good_history n h k theta sh yh /\ k = length pairs.
Proof.
  intros T Hh F. unfold push_pairs. assert (Q : forall st, (let '(sh, yh, k) := st in good_history n h k theta sh yh) ->
    let '(sh, yh, k) := fold_left (fun st (p : vec * vec) => let '(sh, yh, k) := st in (set_nth sh (k mod h)%nat (fst p), set_nth yh (k mod h)%nat (snd p), (k + 1)%nat)) pairs st in
    good_history n h k theta sh yh /\ k = (snd st + length pairs)%nat).
  { induction F as [|p l Hp F IH]; intros [[sh yh] k] G; cbn [fold_left length snd]; [split; [exact G|lia]|].
    destruct Hp as (L1 & L2 & C). specialize (IH (set_nth sh (k mod h) (fst p), set_nth yh (k mod h) (snd p), (k + 1)%nat)). cbv beta iota in IH.
    specialize (IH (store_good n h k theta sh yh _ _ theta Hh G L1 L2 C T)). destruct (fold_left _ l _) as [[sh' yh'] k']. destruct IH as [A B]. split; [exact A|]. cbn [snd] in B. lia. }
  specialize (Q (repeat (vzero n) h, repeat (vzero n) h, 0%nat) (init_good n h theta T)). destruct (fold_left _ pairs _) as [[sh yh] k]. cbn [snd] in Q. exact Q.
Qed.
Lemma push_last n h pairs s y : fst (push_pairs n h (pairs ++ [(s, y)])) =
  (set_nth (fst (fst (push_pairs n h pairs))) (snd (push_pairs n h pairs) mod h)%nat s, set_nth (snd (fst (push_pairs n h pairs))) (snd (push_pairs n h pairs) mod h)%nat y).
Proof. unfold push_pairs. rewrite fold_left_app. cbn [fold_left fst snd]. destruct (fold_left _ pairs _) as [[sh yh] k]. reflexivity. Qed.
Lemma nth_set_same {T} (l : list T) i v d : (i < length l)%nat -> nth i (set_nth l i v) d = v.
Proof. revert i. induction l as [|a l IH]; intros [|i] H; cbn in *; try lia; [reflexivity|]. apply IH. lia. Qed.
