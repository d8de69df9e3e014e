(** The subspace minimisation of lbfgsb.py:178-203. *)
From Coq Require Import String Reals List Bool Arith Lra Lia.
From Verif Require Import Prelude Base Vec Mat XArith LinAlg Loss LossProofs QuasiNewton QuasiNewtonProofs Lbfgsb LbfgsbHess LbfgsbCauchy.
Import ListNotations.
Open Scope R_scope.

Section Sub.
Variable solve : mat -> vec -> vec.
Variables (x g : vec) (lower upper : xbounds) (xc c : vec) (theta : R) (w m : mat) (mask : list bool).
Let n := length x.
Let K := length m.
Let du := sub_du solve x g xc c theta w m mask.
Let fr i := bmask mask i.
Hypothesis Hxc : length xc = n.
Hypothesis Hbox : in_bounds lower upper xc.
Let al i := sub_alpha solve x g lower upper xc c theta w m mask i.
Let ast := alpha_star solve x g lower upper xc c theta w m mask.

Lemma xle_lo i : (i < n)%nat -> lo lower i = NInf \/ exists l, lo lower i = Fin l /\ l <= nth i xc 0.
Proof. intros Hi. apply (lo_cases xc lower upper Hbox). unfold n in Hi. lia. Qed.
Lemma xle_up i : (i < n)%nat -> up upper i = PInf \/ exists u, up upper i = Fin u /\ nth i xc 0 <= u.
Proof. intros Hi. apply (up_cases xc lower upper Hbox). unfold n in Hi. lia. Qed.
Lemma div_nonneg a b : 0 <= a -> 0 < b -> 0 <= a / b.
Proof. intros. apply Rmult_le_pos; [assumption|left; apply Rinv_0_lt_compat; assumption]. Qed.
Lemma div_neg a b : a <= 0 -> b < 0 -> 0 <= a / b.
Proof. intros. replace (a / b) with ((- a) / (- b)) by (field; lra). apply div_nonneg; lra. Qed.
(** the largest step that keeps coordinate i within its bounds *)
Lemma al_spec i : (i < n)%nat -> pinf (al i) /\ forall a, 0 <= a -> xle (Fin a) (al i) = true -> fr i = true ->
  xle (lo lower i) (Fin (nth i xc 0 + a * nth i du 0)) = true /\ xle (Fin (nth i xc 0 + a * nth i du 0)) (up upper i) = true.
Proof.
  intros Hi. unfold al, sub_alpha. fold du (fr i). cbv zeta. destruct (fr i) eqn:F; cbn [andb].
  2:{ split; [right; exists 1; split; [reflexivity|lra]|discriminate]. }
  destruct (Rlt_dec 0 (Rabs (nth i du 0))) as [A|A].
  2:{ assert (E : nth i du 0 = 0) by (destruct (Req_dec (nth i du 0) 0) as [E|E]; [exact E|apply Rabs_pos_lt in E; contradiction]).
      split; [right; exists 1; split; [reflexivity|lra]|]. intros a _ _ _. rewrite E, Rmult_0_r, Rplus_0_r. apply Hbox. rewrite Hxc. exact Hi. }
  destruct (Rtotal_order (nth i du 0) 0) as [N|[Z|P]]; [|rewrite Z, Rabs_R0 in A; lra|].
  - destruct (xle_lo i Hi) as [L|(l & L & Hl)], (xle_up i Hi) as [U|(u & U & Hu)]; rewrite L, U; cbn.
    + destruct (Rlt_dec (nth i du 0) 0); [|lra]. cbn. split; [left; reflexivity|]. auto.
    + destruct (Rlt_dec (nth i du 0) 0); [|lra]. destruct (Req_EM_T (nth i du 0) 0); [lra|]. cbn. split; [left; reflexivity|]. intros a Ha _ _. split; [reflexivity|]. apply xle_fin. nra.
    + destruct (Rlt_dec (nth i du 0) 0); [|lra]. destruct (Req_EM_T (nth i du 0) 0); [lra|]. cbn. split; [right; eexists; split; [reflexivity|apply div_neg; lra]|].
      intros a Ha Q _. apply xle_fin in Q. split; [|reflexivity]. apply xle_fin.
      assert (a * - nth i du 0 <= (l - nth i xc 0) / nth i du 0 * - nth i du 0) by (apply Rmult_le_compat_r; lra).
      replace ((l - nth i xc 0) / nth i du 0 * - nth i du 0) with (nth i xc 0 - l) in H by (field; lra). lra.
    + destruct (Req_EM_T (nth i du 0) 0); [lra|]. cbn. assert (D1 : 0 <= (l - nth i xc 0) / nth i du 0) by (apply div_neg; lra).
      assert (D2 : (u - nth i xc 0) / nth i du 0 <= 0). { replace ((u - nth i xc 0) / nth i du 0) with (- ((u - nth i xc 0) / - nth i du 0)) by (field; lra). assert (0 <= (u - nth i xc 0) / - nth i du 0) by (apply div_nonneg; lra). lra. }
      rewrite Rmax_right by lra. split; [right; eexists; split; [reflexivity|exact D1]|]. intros a Ha Q _. apply xle_fin in Q.
      assert (a * - nth i du 0 <= (l - nth i xc 0) / nth i du 0 * - nth i du 0) by (apply Rmult_le_compat_r; lra).
      replace ((l - nth i xc 0) / nth i du 0 * - nth i du 0) with (nth i xc 0 - l) in H by (field; lra). split; apply xle_fin; nra.
  - destruct (xle_lo i Hi) as [L|(l & L & Hl)], (xle_up i Hi) as [U|(u & U & Hu)]; rewrite L, U; cbn.
    + destruct (Rlt_dec (nth i du 0) 0); [lra|]. cbn. split; [left; reflexivity|]. auto.
    + destruct (Rlt_dec (nth i du 0) 0); [lra|]. destruct (Req_EM_T (nth i du 0) 0); [lra|]. cbn. split; [right; eexists; split; [reflexivity|apply div_nonneg; lra]|].
      intros a Ha Q _. apply xle_fin in Q. split; [reflexivity|]. apply xle_fin.
      assert (a * nth i du 0 <= (u - nth i xc 0) / nth i du 0 * nth i du 0) by (apply Rmult_le_compat_r; lra).
      replace ((u - nth i xc 0) / nth i du 0 * nth i du 0) with (u - nth i xc 0) in H by (field; lra). lra.
    + destruct (Rlt_dec (nth i du 0) 0); [lra|]. destruct (Req_EM_T (nth i du 0) 0); [lra|]. cbn. split; [left; reflexivity|]. intros a Ha _ _. split; [|reflexivity]. apply xle_fin. nra.
    + destruct (Req_EM_T (nth i du 0) 0); [lra|]. cbn. assert (D1 : 0 <= (u - nth i xc 0) / nth i du 0) by (apply div_nonneg; lra).
      assert (D2 : (l - nth i xc 0) / nth i du 0 <= 0). { replace ((l - nth i xc 0) / nth i du 0) with (- ((nth i xc 0 - l) / nth i du 0)) by (field; lra). assert (0 <= (nth i xc 0 - l) / nth i du 0) by (apply div_nonneg; lra). lra. }
      rewrite Rmax_left by lra. split; [right; eexists; split; [reflexivity|exact D1]|]. intros a Ha Q _. apply xle_fin in Q.
      assert (a * nth i du 0 <= (u - nth i xc 0) / nth i du 0 * nth i du 0) by (apply Rmult_le_compat_r; lra).
      replace ((u - nth i xc 0) / nth i du 0 * nth i du 0) with (u - nth i xc 0) in H by (field; lra). split; apply xle_fin; nra.
Qed.
Lemma fold_xmin l : Forall pinf l -> pinf (fold_right xmin PInf l) /\ forall a, In a l -> xle (fold_right xmin PInf l) a = true.
Proof.
  induction 1 as [|b l Hb Hl (IH1 & IH2)]; cbn [fold_right]; [split; [left; reflexivity|intros a []]|].
  destruct Hb as [->|(r & -> & R0)], IH1 as [E|(r' & E & R1)]; rewrite E in *; cbn [xmin].
  - split; [left; reflexivity|]. intros a [<-|Ha]; [reflexivity|auto].
  - split; [right; exists r'; auto|]. intros a [<-|Ha]; [reflexivity|auto].
  - split; [right; exists r; auto|]. intros a [<-|Ha]; [apply xle_fin; lra|]. specialize (IH2 a Ha). destruct a; try discriminate; reflexivity.
  - split; [right; exists (Rmin r r'); split; [reflexivity|apply Rmin_glb; assumption]|]. intros a [<-|Ha]; [apply xle_fin; apply Rmin_l|]. specialize (IH2 a Ha).
    destruct a as [a| | |]; try discriminate; [|reflexivity]. apply xle_fin in IH2. apply xle_fin. assert (Q := Rmin_r r r'). lra.
Qed.
Definition ar : R := xreal ast.
Lemma ast_spec : ast = Fin ar /\ 0 <= ar <= 1 /\ forall i, (i < n)%nat -> xle (Fin ar) (al i) = true.
Proof.
  unfold ar, ast, alpha_star. fold n. assert (F : Forall pinf (tab n al)).
  { apply Forall_forall. intros a Ha. apply in_map_iff in Ha. destruct Ha as (i & <- & Hi). apply in_seq in Hi. apply al_spec. lia. }
  assert (I : forall i, (i < n)%nat -> In (al i) (tab n al)) by (intros i Hi; apply in_map_iff; exists i; split; [reflexivity|apply in_seq; lia]).
  destruct (fold_xmin (tab n al) F) as [[E|(r & E & R0)] Q]; change (tab n (sub_alpha solve x g lower upper xc c theta w m mask)) with (tab n al); rewrite E in *; cbn.
  - split; [reflexivity|]. split; [lra|]. intros i Hi. specialize (Q _ (I i Hi)). destruct (al i); try discriminate; reflexivity.
  - split; [reflexivity|]. split; [split; [apply Rmin_glb; lra|apply Rmin_r]|]. intros i Hi. specialize (Q _ (I i Hi)).
    destruct (al i) as [a| | |]; try discriminate; [|reflexivity]. apply xle_fin in Q. change (xle (Fin (Rmin r 1)) (Fin a) = true). apply xle_fin. assert (M := Rmin_l r 1). lra.
Qed.
(** the move, restricted to the free coordinates *)
Definition duf : vec := tab n (fun i => if fr i then nth i du 0 else 0).
Lemma duf_len : length duf = n. Proof. apply tab_length. Qed.
Lemma sub_eq : minimize_subspace solve x g lower upper xc c theta w m mask = map Fin (vadd xc (smul ar duf)).
Proof.
  assert (L : length (vadd xc (smul ar duf)) = n) by (apply vadd_length_eq; [exact Hxc|rewrite smul_length; apply duf_len]).
  apply (nth_ext _ _ NaN NaN); [unfold minimize_subspace; rewrite map_length, tab_length; symmetry; exact L|]. intros i Hi. unfold minimize_subspace in Hi. rewrite tab_length in Hi. fold n in Hi.
  unfold minimize_subspace. fold n. rewrite nth_tab by exact Hi. rewrite (nth_indep _ NaN (Fin 0)) by (rewrite map_length, L; exact Hi). rewrite (map_nth Fin), nth_vadd, nth_smul.
  unfold duf. rewrite nth_tab by exact Hi. fold ast du (fr i). destruct ast_spec as (-> & _). destruct (fr i); cbn; f_equal; ring.
Qed.
Lemma sub_box : in_bounds lower upper (vadd xc (smul ar duf)).
Proof.
  intros i Hi. rewrite (vadd_length_eq _ _ n) in Hi by (try exact Hxc; rewrite smul_length; apply duf_len). rewrite nth_vadd, nth_smul. unfold duf. rewrite nth_tab by exact Hi.
  destruct ast_spec as (_ & A & Q). destruct (fr i) eqn:F.
  - apply al_spec; [exact Hi|lra|apply Q; exact Hi|exact F].
  - rewrite Rmult_0_r, Rplus_0_r. apply Hbox. rewrite Hxc. exact Hi.
Qed.

(** ** The Newton step on the free coordinates *)
Hypothesis SOL : exact_solver solve.
Hypothesis Hg : length g = n.
Hypothesis Hw : mat_shape n K w.
Hypothesis Hm : mat_shape K K m.
Hypothesis Msym : forall u v, length u = K -> length v = K -> dot (mvec m u) v = dot u (mvec m v).
Hypothesis Th : 0 < theta.
Let b := bform theta w m.
Hypothesis PD : forall z, length z = n -> z <> vzero n -> 0 < b z z.
Let z := vsub xc x.
Hypothesis Hc : c = tvec K w z.
Let wf := w_masked x w mask.
Lemma z_len : length z = n. Proof. apply vsub_length_eq; [exact Hxc|reflexivity]. Qed.
Lemma wf_shape : mat_shape n K wf.
Proof.
  split; [apply tab_length|]. apply Forall_forall. intros r Hr. apply in_map_iff in Hr. destruct Hr as (i & <- & Hi). apply in_seq in Hi. rewrite smul_length. apply (row_length n K); [exact Hw|fold n in Hi; lia].
Qed.
(** restriction to the free coordinates *)
Definition res (v : vec) : vec := tab n (fun i => if fr i then nth i v 0 else 0).
Lemma res_len v : length (res v) = n. Proof. apply tab_length. Qed.
Lemma wf_mvec u : mvec wf u = res (mvec w u).
Proof.
  apply vec_ext; [rewrite mvec_length, res_len; apply wf_shape|]. intros i Hi. rewrite mvec_length in Hi. assert (Li : (i < n)%nat) by (destruct wf_shape as [<- _]; exact Hi).
  rewrite nth_mvec. unfold wf, w_masked, res. fold n. rewrite !nth_tab by exact Li. fold (fr i). rewrite nth_mvec, dot_smul_l. destruct (fr i); ring.
Qed.
Lemma res_dot u v : length u = n -> length v = n -> dot (res u) v = dot u (res v).
Proof. intros Hu Hv. rewrite !(dot_sumn n) by (try assumption; apply res_len). apply sumn_ext. intros i Hi. unfold res. rewrite !nth_tab by exact Hi. destruct (fr i); ring. Qed.
Lemma res_res u : res (res u) = res u.
Proof. apply tab_ext. intros i Hi. destruct (fr i) eqn:F; [|reflexivity]. unfold res. rewrite nth_tab, F by exact Hi. reflexivity. Qed.
Lemma wl' u : length (mvec w u) = n. Proof. rewrite mvec_length. apply Hw. Qed.
Lemma wf_tvec u : length u = n -> tvec K wf u = tvec K w (res u).
Proof.
  intros Hu. apply vec_eq_dot; [rewrite !(tvec_length n) by (try exact Hw; exact wf_shape); reflexivity|]. intros v. rewrite !dot_tvec, wf_mvec. rewrite <- res_dot by (try exact Hu; apply wl'). reflexivity.
Qed.
Let N := sub_n x theta w m mask.
Lemma mwf_shape : mat_shape K K (mmul K (mtrans K wf) wf).
Proof. apply (mmul_shape K K n); [apply mtrans_shape; apply wf_shape|exact wf_shape]. Qed.
Lemma N_shape : mat_shape K K N.
Proof.
  unfold N, sub_n. fold K wf. apply msub_shape; [apply eye_shape|]. apply (mmul_shape K K K); [exact Hm|]. apply msmul_shape. exact mwf_shape.
Qed.
Lemma N_mvec u : length u = K -> mvec N u = vsub u (smul (/ theta) (mvec m (tvec K wf (mvec wf u)))).
Proof.
  intros Hu. unfold N, sub_n. fold K wf. rewrite mvec_msub.
  - rewrite mvec_eye by exact Hu. f_equal. rewrite mvec_mmul, mvec_msmul, mvec_smul, mvec_mmul. f_equal. f_equal. apply (mvec_mtrans n); [exact wf_shape|]. rewrite mvec_length. apply wf_shape.
  - unfold mmul. rewrite map_length. destruct Hm as [_ _]. apply eye_shape.
Qed.
Lemma b_zero u : length u = n -> b u u = 0 -> u = vzero n.
Proof. intros Hu E. destruct (list_eq_dec Req_EM_T u (vzero n)) as [Z|Z]; [exact Z|]. assert (Q := PD u Hu Z). lra. Qed.
Lemma N_nonsingular : nonsingular K N.
Proof.
  split; [exact N_shape|]. intros u Hu E. rewrite N_mvec in E by exact Hu.
  assert (Eu : u = smul (/ theta) (mvec m (tvec K wf (mvec wf u)))).
  { apply vec_ext; [rewrite smul_length, mvec_length; exact Hu|]. intros i _. assert (Q := f_equal (fun l : vec => nth i l 0) E). cbv beta in Q. rewrite nth_vsub, nth_vzero in Q. lra. }
  assert (ZL : length (mvec wf u) = n) by (rewrite mvec_length; apply wf_shape).
  assert (Z0 : mvec wf u = vzero n).
  { apply b_zero; [exact ZL|]. unfold b, bform. fold K.
    assert (R : res (mvec wf u) = mvec wf u) by (rewrite wf_mvec; apply res_res).
    assert (TW : tvec K w (mvec wf u) = tvec K wf (mvec wf u)) by (rewrite wf_tvec, R by exact ZL; reflexivity).
    rewrite TW.
    assert (Q : dot (tvec K wf (mvec wf u)) (mvec m (tvec K wf (mvec wf u))) = theta * dot (tvec K wf (mvec wf u)) u).
    { transitivity (theta * dot (tvec K wf (mvec wf u)) (smul (/ theta) (mvec m (tvec K wf (mvec wf u))))); [rewrite dot_smul_r; field; lra|]. rewrite <- Eu. reflexivity. }
    rewrite Q, dot_tvec. ring. }
  rewrite Eu, Z0. rewrite tvec_vzero by apply wf_shape. rewrite mvec_vzero. fold K. apply vec_ext; [rewrite smul_length, !vzero_length; reflexivity|]. intros i _. rewrite nth_smul, !nth_vzero. ring.
Qed.
Let r := r_c x g xc c theta w m mask.
Lemma mc_len u : length (mvec m u) = K. Proof. apply mvec_length. Qed.
Lemma r_len : length r = n.
Proof.
  unfold r, r_c. apply vsub_length_eq; [apply vadd_length_eq; [exact Hg|rewrite smul_length; exact z_len]|]. fold wf. rewrite mvec_length. apply wf_shape.
Qed.
(** the gradient of the model at z *)
Let gq : vec := vadd g (bapply theta w m z).
Lemma bapply_len u : length u = n -> length (bapply theta w m u) = n.
Proof. intros Hu. unfold bapply. apply vsub_length_eq; [rewrite smul_length; exact Hu|apply wl']. Qed.
Lemma bapply_dot u v : length u = n -> dot (bapply theta w m u) v = b u v.
Proof.
  intros Hu. unfold bapply, b, bform. fold K. rewrite dot_vsub_l, dot_smul_l, (dot_mvec K). rewrite Msym by apply (wl x w m Hw). reflexivity.
Qed.
Lemma r_res : res r = res gq.
Proof.
  apply tab_ext. intros i Hi. destruct (fr i) eqn:F; [|reflexivity]. unfold r, r_c, gq, bapply. fold wf z. rewrite wf_mvec, nth_vsub, !nth_vadd, nth_vsub, nth_smul. unfold res. rewrite nth_tab, F by exact Hi.
  rewrite Hc. fold K. lra.
Qed.
Let v := sub_v solve x g xc c theta w m mask.
Lemma v_spec : length v = K /\ vsub v (smul (/ theta) (mvec m (tvec K wf (mvec wf v)))) = mvec m (tvec K wf r).
Proof.
  destruct (SOL K N (mvec m (tvec K wf r)) N_nonsingular ltac:(rewrite mvec_length; reflexivity)) as [L E].
  split; [exact L|]. rewrite <- N_mvec by exact L. exact E.
Qed.
Lemma duf_eq : duf = vsub (smul (- / theta) (res r)) (smul (/ theta ^ 2) (mvec wf v)).
Proof.
  apply vec_ext; [rewrite duf_len, vsub_length, !smul_length, res_len, mvec_length; destruct wf_shape as [-> _]; lia|]. intros i Hi. rewrite duf_len in Hi.
  rewrite nth_vsub, !nth_smul. unfold duf, res. rewrite !nth_tab by exact Hi. rewrite wf_mvec. unfold res. rewrite nth_tab by exact Hi. destruct (fr i) eqn:F; [|ring].
  unfold du, sub_du. fold wf r v. rewrite nth_vsub, !nth_smul, wf_mvec. unfold res. rewrite nth_tab, F by exact Hi. reflexivity.
Qed.
Lemma duf_res : res duf = duf.
Proof. unfold duf, res. apply tab_ext. intros i Hi. destruct (fr i) eqn:F; [|reflexivity]. rewrite nth_tab, F by exact Hi. reflexivity. Qed.
(** B du = - gradient of the model, on the free coordinates *)
Lemma newton u : length u = n -> res u = u -> b duf u = - dot gq u.
Proof.
  intros Hu Ru. unfold b, bform. fold K.
  assert (Hgq : dot gq u = dot (res r) u). { rewrite r_res, res_dot, Ru by first [exact Hu | unfold gq; apply vadd_length_eq; [exact Hg|apply bapply_len; exact z_len]]. reflexivity. }
  rewrite Hgq.
  assert (TW : tvec K w u = tvec K wf u) by (rewrite wf_tvec, Ru by exact Hu; reflexivity).
  rewrite TW. assert (TD : tvec K w duf = tvec K wf duf) by (rewrite wf_tvec, duf_res by exact duf_len; reflexivity). rewrite TD.
  rewrite <- (Msym (tvec K wf duf)) by (apply (tvec_length n); exact wf_shape). rewrite dot_tvec_r.
  set (P := mvec m (tvec K wf duf)). 
  assert (EP : P = smul (- / theta) v).
  { unfold P. rewrite duf_eq, (tvec_vsub n), !(tvec_smul n) by exact wf_shape. rewrite mvec_vsub, !mvec_smul. rewrite (wf_tvec (res r)), res_res, <- wf_tvec by (try apply r_len; apply res_len).
    destruct v_spec as [Lv Ev]. rewrite <- Ev. apply vec_ext; [rewrite vsub_length, !smul_length, vsub_length, smul_length, !mc_len, Lv; lia|]. intros i _. rewrite nth_vsub, !nth_smul, nth_vsub, nth_smul. field. lra. }
  rewrite EP, mvec_smul, dot_smul_l. rewrite duf_eq, dot_vsub_l, !dot_smul_l. field. lra.
Qed.
Lemma bl_add u u' y : b (vadd u u') y = b u y + b u' y. Proof. apply (b_add_l x theta w m Hw). Qed.
Lemma bl_smul a u y : b (smul a u) y = a * b u y. Proof. apply (b_smul_l x theta w m Hw). Qed.
Lemma bl_sym u y : b u y = b y u. Proof. apply (b_sym x theta w m Hw Msym). Qed.
Lemma q_sub a : qmodel theta w m g (vadd z (smul a duf)) = qmodel theta w m g z - a * (1 - a / 2) * b duf duf.
Proof.
  unfold qmodel. fold b. rewrite dot_vadd_r, dot_smul_r, bl_add, bl_smul, !(bl_sym _ (vadd _ _)), !bl_add, !bl_smul.
  assert (Nn := newton duf duf_len duf_res). unfold gq in Nn. rewrite dot_vadd_l, bapply_dot in Nn by exact z_len. rewrite (bl_sym duf z). 
  replace (dot g duf) with (- b duf duf - b z duf) by lra. field.
Qed.
Lemma q_sub_le : qmodel theta w m g (vadd z (smul ar duf)) <= qmodel theta w m g z.
Proof.
  rewrite q_sub. destruct ast_spec as (_ & A & _). destruct (list_eq_dec Req_EM_T duf (vzero n)) as [E|E].
  - assert (b duf duf = 0). { rewrite E. unfold b, bform. fold K. rewrite dot_vzero_l, tvec_vzero by apply Hw. rewrite dot_vzero_l. ring. } rewrite H. lra.
  - assert (P := PD duf duf_len E). assert (0 <= ar * (1 - ar / 2) * b duf duf) by (apply Rmult_le_pos; [apply Rmult_le_pos; lra|lra]). lra.
Qed.
(** a stationary point of the model on the free coordinates is kept *)
Lemma duf_zero : (forall i, (i < n)%nat -> fr i = true -> nth i gq 0 = 0) -> duf = vzero n.
Proof.
  intros H. apply b_zero; [exact duf_len|]. rewrite newton by (try exact duf_len; exact duf_res).
  rewrite <- duf_res at 1. assert (Lq : length gq = n) by (unfold gq; apply vadd_length_eq; [exact Hg|apply bapply_len; exact z_len]). rewrite <- res_dot by (try exact Lq; exact duf_len).
  replace (res gq) with (vzero n); [rewrite dot_vzero_l; ring|]. apply vec_ext; [rewrite vzero_length, res_len; reflexivity|]. intros i Hi. rewrite vzero_length in Hi. rewrite nth_vzero. unfold res. rewrite nth_tab by exact Hi.
  destruct (fr i) eqn:F; [symmetry; apply H; assumption|reflexivity].
Qed.
End Sub.
