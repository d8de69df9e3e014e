From Coq Require Import Reals List Bool Lra Lia Arith.
From Verif Require Import Prelude Vec Loop Run While Backtracking BacktrackingProofs Zoom ZoomProofs HagerZhang.
Import ListNotations.
Open Scope R_scope.

Lemma xleb_bound v t : xleb v t = true <-> xle_bound v t.
Proof. destruct v; simpl; try (intuition congruence). destruct (Rle_dec r t); intuition congruence. Qed.
Lemma xge0_bound v : xgeb v (Fin 0) = true <-> xge_bound v 0.
Proof. destruct v; simpl; try (intuition congruence). destruct (Rle_dec 0 r); intuition congruence. Qed.
Lemma xgtb_not_le v t : v <> NaN -> xleb v t = false -> xgtb v t = true.
Proof.
  destruct v as [r| | |]; simpl; intros Hn H; try reflexivity; try discriminate; try congruence.
  destruct (Rle_dec r t); [discriminate|]. destruct (Rlt_dec t r); [reflexivity|lra].
Qed.
Lemma neg_slope v : v <> NaN -> xgeb v (Fin 0) = false -> match v with Fin r => r < 0 | NInf => True | _ => False end.
Proof. destruct v as [r| | |]; simpl; auto; try discriminate. intros _. destruct (Rle_dec 0 r); [discriminate|]. intros _. lra. Qed.

Section S.
Context {G : Type}.
Variable cfg : hz_config.
Variable f : vec -> xnum.
Variable gradf : vec -> G.
Variable vdot : G -> vec -> xnum.
Variable nf : bool.
Variables x d : vec.
Variable fx : R.

Notation lv := (lvalue f x d).
Notation ls := (lslope gradf vdot x d).
Notation thr := (threshold cfg fx).
Notation lok := (low_ok cfg f gradf vdot x d fx).
Notation hok := (high_ok cfg f gradf vdot x d fx).
Notation upd_int := (hz_update_interval f gradf vdot nf x d).
Notation ucond := u_cond.
Notation ubody := (u_body f gradf vdot x d thr).

Definition has_nan : Prop := exists c, lv c = NaN \/ ls c = NaN.

Lemma fnan_false v s : failed_nan v s = false <-> v <> NaN /\ s <> NaN.
Proof. unfold failed_nan. destruct v, s; simpl; intuition congruence. Qed.
Lemma fnan_has c : failed_nan (lv c) (ls c) = true -> has_nan.
Proof.
  unfold failed_nan. intros H. exists c. apply orb_true_iff in H.
  destruct H as [H|H]; [left|right]; [destruct (lv c)|destruct (ls c)]; simpl in H; congruence.
Qed.

(** ** The interval update *)
Record uinv (low high m : R) (s : ustate) : Prop := {
  ui_lo : low <= u_low s; ui_ord : u_low s <= u_high s; ui_hi : u_high s <= high;
  ui_lok : lok (u_low s);
  ui_hok : u_high s = high \/ hok (u_high s);
  ui_val : u_value s = lv (u_middle s) /\ u_slope s = ls (u_middle s);
  ui_nan : u_failed s = true -> has_nan;
  ui_nn : u_failed s = false -> u_value s <> NaN /\ u_slope s <> NaN;
  ui_w : (u_low s = low /\ u_high s = high /\ u_middle s = m /\ u_done s = (Rleb high m || Rleb m low)
          /\ u_failed s = failed_nan (lv m) (ls m)) \/
         (low < m < high /\ u_high s - u_low s <= Rmax (m - low) (high - m))
}.

Lemma ubody_inv low high m s s' : uinv low high m s -> ucond s = true -> ubody s = Some s' -> uinv low high m s'.
Proof.
  intros [H1 H2 H3 H4 H5 [Hv Hs] H6 H7 H8] Hc Hb.
  unfold u_cond in Hc. rewrite !andb_true_iff, !Rltb_true, !negb_true_iff in Hc.
  destruct Hc as [[[Hmh Hlm] Hd] Hf].
  destruct (H7 Hf) as [Hnv Hns].
  unfold u_body in Hb. rewrite Hd, Hf in Hb.
  assert (Hw : (low < m < high /\ u_high s - u_middle s <= Rmax (m - low) (high - m) /\
                u_middle s - u_low s <= Rmax (m - low) (high - m))).
  { destruct H8 as [(E1 & E2 & E3 & _)|[E1 E2]].
    - rewrite E1, E2, E3 in *. split; [lra|]. split; [apply Rmax_r|apply Rmax_l].
    - split; [exact E1|]. lra. }
  destruct Hw as (Hm & W1 & W2).
  assert (Hfn : failed_nan (u_value s) (u_slope s) = false) by (apply fnan_false; auto).
  destruct (xgeb (u_slope s) (Fin 0)) eqn:Er; cbn [negb andb orb] in Hb; injection Hb as <-.
  - rewrite Hfn. constructor; cbn [u_low u_high u_middle u_value u_slope u_failed u_done]; auto; try lra; try congruence.
    right. left. apply xge0_bound. rewrite <- Hs. exact Er.
  - destruct (xleb (u_value s) thr) eqn:El; cbn [negb andb orb].
    + rewrite Hfn. constructor; cbn [u_low u_high u_middle u_value u_slope u_failed u_done]; auto; try lra; try congruence.
      split; [apply xleb_bound; rewrite <- Hv; exact El|]. rewrite <- Hs. apply neg_slope; auto.
    + assert (Hg := xgtb_not_le _ _ Hnv El).
      assert (Eni : xisneginf (u_value s) = false) by (destruct (u_value s); auto; discriminate).
      rewrite Eni; cbn [negb andb orb].
      constructor; cbn [u_low u_high u_middle u_value u_slope u_failed u_done]; auto; try lra.
      * right. right. rewrite <- Hv. exact Hg.
      * apply fnan_has.
      * apply fnan_false.
Qed.

Lemma upd_int_spec fuel low high om failed l' h' :
  low <= high -> lok low -> upd_int fuel low high om thr = Some (failed, l', h') ->
  low <= l' /\ l' <= h' /\ h' <= high /\ lok l' /\ (h' = high \/ hok h') /\
  (failed = true -> om <> None -> has_nan) /\
  (forall m, om = Some m -> low < m < high -> ~ has_nan -> h' - l' <= Rmax (m - low) (high - m)).
Proof.
  intros Hlh Hlok. unfold hz_update_interval. destruct om as [m|].
  - set (s0 := {| u_done := _ |}). destruct (while_fuel fuel ucond ubody s0) as [s|] eqn:E; [|discriminate].
    intros H; injection H as <- <- <-.
    assert (H0 : uinv low high m s0).
    { constructor; cbn [s0 u_low u_high u_middle u_value u_slope u_failed u_done]; auto; try lra.
      - apply fnan_has.
      - apply fnan_false.
      - left. repeat split; reflexivity. }
    destruct (while_inv (uinv low high m) ucond ubody (ubody_inv low high m) _ _ _ H0 E) as [[H1 H2 H3 H4 H5 Hv H6 H7 H8] Hx].
    repeat (split; [auto|]). intros m' Em Hm Hnn. injection Em as <-.
    destruct H8 as [(E1 & E2 & E3 & E4 & E5)|[_ EE]]; [|exact EE].
    exfalso. unfold u_cond in Hx. rewrite E1, E2, E3, E4, E5 in Hx.
    destruct (failed_nan (lv m) (ls m)) eqn:En; [apply fnan_has in En; contradiction|].
    assert (A : Rltb m high = true) by (apply Rltb_true; lra).
    assert (B : Rltb low m = true) by (apply Rltb_true; lra).
    assert (C : Rleb high m = false) by (unfold Rleb; destruct (Rle_dec high m); [lra|reflexivity]).
    assert (D : Rleb m low = false) by (unfold Rleb; destruct (Rle_dec m low); [lra|reflexivity]).
    rewrite A, B, C, D in Hx. discriminate.
  - intros H; injection H as <- <- <-. do 3 (split; [lra|]). split; [exact Hlok|]. split; [auto|].
    split; [intros _ Hn; congruence|intros m Hm; discriminate].
Qed.

(** ** secant2 *)
Lemma secant2_spec fuel low high failed l' h' :
  low <= high -> lok low -> hz_secant2 f gradf vdot nf x d fuel low high thr = Some (failed, l', h') ->
  low <= l' /\ l' <= h' /\ h' <= high /\ lok l' /\ (h' = high \/ hok h').
Proof.
  intros Hlh Hlok. unfold hz_secant2.
  destruct (upd_int fuel low high (hz_secant gradf vdot x d low high) thr) as [[[fl nl] nh]|] eqn:E1; [|discriminate].
  destruct (upd_int_spec _ _ _ _ _ _ _ Hlh Hlok E1) as (A1 & A2 & A3 & A4 & A5 & _).
  destruct (_ || _).
  - intros E2. destruct (upd_int_spec _ _ _ _ _ _ _ A2 A4 E2) as (B1 & B2 & B3 & B4 & B5 & _).
    repeat (split; [auto; lra|]). destruct B5 as [->|B5]; auto.
  - intros H; injection H as <- <- <-. repeat (split; [auto; lra|]). auto.
Qed.

(** ** Bracketing *)
Hypothesis Hexp : 1 <= hexp cfg.
Hypothesis Hlok0 : lok 0.

Record binv (c : R) (s : bstate) : Prop := {
  bi_mid : 0 < b_middle s;
  bi_best : 0 <= b_best s <= b_middle s;
  bi_blok : lok (b_best s);
  bi_val : b_value s = lv (b_middle s) /\ b_slope s = ls (b_middle s);
  bi_ord : 0 <= b_low s /\ b_low s <= b_high s;
  bi_pos : 0 < b_high s \/ b_done s = true;
  bi_lok : lok (b_low s);
  bi_done : b_done s = true -> hok (b_high s) \/ lv c = NInf;
  bi_nan : b_failed s = true -> has_nan;
  bi_nn : b_failed s = false -> b_value s <> NaN /\ b_slope s <> NaN;
  bi_live : b_done s = false -> b_low s = 0
}.

Lemma bbody_inv fuel c s s' : binv c s -> b_cond s = true ->
  b_body cfg f gradf vdot nf x d fuel thr s = Some s' -> binv c s'.
Proof.
  intros [Hm Hb Hbl [Hv Hs] Hord Hpos Hlk Hd Hn Hnn Hlive] Hc.
  unfold b_cond in Hc. rewrite andb_true_iff, !negb_true_iff in Hc. destruct Hc as [Ed Ef].
  destruct (Hnn Ef) as [Hnv Hns].
  unfold b_body. rewrite Ed, Ef; cbn [negb andb orb].
  destruct (xgeb (b_slope s) (Fin 0)) eqn:Er; cbn [negb andb orb].
  - intros H; injection H as <-.
    constructor; cbn [b_done b_failed b_low b_middle b_high b_value b_slope b_best]; auto; try lra.
    + intros _. left. left. apply xge0_bound. rewrite <- Hs. exact Er.
    + apply fnan_has.
    + apply fnan_false.
  - destruct (xgtb (b_value s) thr) eqn:Eg; cbn [negb andb orb].
    + destruct (upd_int fuel 0 (b_middle s) (Some (b_middle s / 2)) thr) as [[[fl nl] nh]|] eqn:E1; [|discriminate].
      destruct (upd_int_spec _ _ _ _ _ _ _ (Rlt_le _ _ Hm) Hlok0 E1) as (A1 & A2 & A3 & A4 & A5 & A6 & _).
      intros H; injection H as <-.
      constructor; cbn [b_done b_failed b_low b_middle b_high b_value b_slope b_best]; auto; try lra.
      * intros _. left. destruct A5 as [->|A5]; [|exact A5]. right. rewrite <- Hv. exact Eg.
      * intros H. apply orb_true_iff in H. destruct H as [H|H]; [apply A6; auto; discriminate|apply fnan_has in H; exact H].
      * intros H. apply orb_false_iff in H. apply fnan_false. tauto.
    + intros H; injection H as <-.
      assert (El : xleb (b_value s) thr = true).
      { destruct (xleb (b_value s) thr) eqn:El; auto. rewrite (xgtb_not_le _ _ Hnv El) in Eg. discriminate. }
      rewrite El.
      assert (b_middle s <= hexp cfg * b_middle s) by nra.
      constructor; cbn [b_done b_failed b_low b_middle b_high b_value b_slope b_best]; auto; try lra; try discriminate.
      * split; [apply xleb_bound; rewrite <- Hv; exact El|]. rewrite <- Hs. apply neg_slope; auto.
      * destruct Hpos as [|Hp]; [auto|congruence].
      * apply fnan_has.
      * apply fnan_false.
Qed.

Lemma bracket_spec fuel failed l h :
  hz_bracket cfg f gradf vdot nf x d fuel 1 thr = Some (failed, l, h) ->
  0 <= l /\ l <= h /\ lok l /\ (failed = true -> has_nan) /\ (has_nan \/ hok h \/ lv 1 = NInf).
Proof.
  unfold hz_bracket. set (s0 := {| b_done := _ |}).
  destruct (while_fuel fuel b_cond _ s0) as [s|] eqn:E; [|discriminate].
  intros H; injection H as <- <- <-.
  assert (H0 : binv 1 s0).
  { constructor; cbn [s0 b_done b_failed b_low b_middle b_high b_value b_slope b_best]; auto; try lra.
    - intros H. right. destruct (lv 1); simpl in H; congruence.
    - apply fnan_has.
    - apply fnan_false. }
  destruct (while_inv (binv 1) b_cond _ (bbody_inv fuel 1) _ _ _ H0 E) as [[Hm Hb Hbl Hvs Hord Hpos Hlk Hd Hn Hnn Hlive] Hx].
  split; [lra|]. split; [lra|]. split; [exact Hlk|]. split; [exact Hn|].
  unfold b_cond in Hx. destruct (b_done s); [right; auto|].
  destruct (b_failed s); [left; auto|discriminate].
Qed.

(** ** Acceptance *)
Variable sl : R.
Notation err c := (hz_error cfg c (lv c) (ls c) fx sl thr).

Lemma xle_sub v r t : xle_bound (xsub v r) t <-> xle_bound v (r + t).
Proof. destruct v; simpl; intuition lra. Qed.
Lemma xle_rsub r v t : xle_bound (rsub r v) t <-> xge_bound v (r - t).
Proof. destruct v; simpl; intuition lra. Qed.

Lemma err_ok c t : 0 <= t -> xleb (err c) t = true ->
  wolfe cfg f gradf vdot x d fx sl t c \/ approx_wolfe cfg f gradf vdot x d fx sl t c.
Proof.
  intros Ht H. apply xleb_bound in H. unfold hz_error in H.
  rewrite xle_min2 in H. destruct H as (_ & _ & H).
  rewrite !xle_max2, !xle_sub, !xle_rsub in H.
  destruct H as [[[H1 _] H2]|[[[H1 _] H2] H3]].
  - left. split; auto.
  - right. split; [exact H3|]. split; auto.
Qed.
Lemma ok_err c t : 0 <= t -> lv c <> NaN -> ls c <> NaN ->
  wolfe cfg f gradf vdot x d fx sl t c \/ approx_wolfe cfg f gradf vdot x d fx sl t c -> xleb (err c) t = true.
Proof.
  intros Ht Hv Hs H. apply xleb_bound. unfold hz_error. rewrite xle_min2.
  rewrite !xle_max2, !xle_sub, !xle_rsub, !xmax2_nan.
  assert (Hsub : forall v r, v <> NaN -> xsub v r <> NaN) by (intros [| | |]; simpl; congruence).
  assert (Hrs : forall v r, v <> NaN -> rsub r v <> NaN) by (intros [| | |]; simpl; congruence).
  assert (H0 : xle_bound (Fin 0) t) by (simpl; exact Ht).
  assert (Hf0 : Fin 0 <> NaN) by discriminate.
  repeat (split; [now auto|]).
  destruct H as [[H1 H2]|(H1 & H2 & H3)]; [left|right]; auto.
Qed.

Lemma best_spec l h : let '(bp, bv, bs) := best_point f gradf vdot x d l h in
  (bp = l \/ bp = h) /\ bs = ls bp /\ (bv = lv bp \/ (bv = NaN)).
Proof.
  unfold best_point. destruct (xltb (lv l) (lv h)) eqn:E.
  - split; [auto|]. split; [auto|]. left.
    destruct (lv l) as [u| | |], (lv h) as [v| | |]; simpl in *; try discriminate; auto.
    apply Rltb_true in E. rewrite Rmin_left by lra. reflexivity.
  - split; [auto|]. split; [auto|].
    destruct (lv l) as [u| | |], (lv h) as [v| | |]; simpl in *; try discriminate; auto.
    left. unfold Rltb in E. destruct (Rlt_dec u v); [discriminate|]. rewrite Rmin_right by lra. reflexivity.
Qed.
Lemma hz_error_nan c s v : hz_error cfg c NaN s fx sl v = NaN.
Proof. unfold hz_error; destruct s; reflexivity. Qed.

Lemma best_ok l h t : 0 <= t ->
  let '(bp, bv, bs) := best_point f gradf vdot x d l h in
  xleb (hz_error cfg bp bv bs fx sl thr) t = true ->
  wolfe cfg f gradf vdot x d fx sl t bp \/ approx_wolfe cfg f gradf vdot x d fx sl t bp.
Proof.
  intros Ht. pose proof (best_spec l h) as B.
  destruct (best_point f gradf vdot x d l h) as [[bp bv] bs]. destruct B as (_ & -> & [->| ->]).
  - apply err_ok. exact Ht.
  - rewrite hz_error_nan. discriminate.
Qed.

(** ** Histories *)
Notation init := (hz_init cfg f gradf vdot nf x d).
Notation upd := (hz_update cfg f gradf vdot nf x d).
Notation acc t c := (wolfe cfg f gradf vdot x d fx sl t c \/ approx_wolfe cfg f gradf vdot x d fx sl t c).

Definition okst (st : hz_state G) : Prop :=
  0 <= h_low st /\ h_low st <= h_high st /\ lok (h_low st) /\
  (has_nan \/ hok (h_high st) \/ lv 1 = NInf).

Lemma init_ok fuel g st : init fuel fx g sl = Some st -> okst st.
Proof.
  unfold hz_init. destruct (hz_bracket cfg f gradf vdot nf x d fuel 1 thr) as [[[fl l] h]|] eqn:E; [|discriminate].
  destruct (best_point f gradf vdot x d l h) as [[bp bv] bs]. intros H; injection H as <-.
  destruct (bracket_spec _ _ _ _ E) as (A & B & C & _ & D). unfold okst; simpl. auto.
Qed.

Lemma upd_ok fuel s st s' st' : okst st -> upd fuel fx sl (s, st) = Some (s', st') ->
  okst st' /\ h_low st <= h_low st' /\ h_high st' <= h_high st /\ h_iter st' = S (h_iter st) /\
  (h_done st = true -> s' = s /\ h_low st' = h_low st /\ h_high st' = h_high st /\ h_error st' = h_error st /\ h_done st' = true) /\
  (h_done st = false ->
     (s' = h_low st' \/ s' = h_high st') /\
     h_params st' = line x d s' /\ h_value st' = lv s' /\ h_grad st' = gradf (h_params st') /\
     (h_done st' = xleb (h_error st') (htol cfg)) /\
     (0 <= htol cfg -> h_done st' = true -> acc (htol cfg) s') /\
     (h_iter st' = hmaxiter cfg -> h_done st' = false -> h_failed st' = true) /\
     (~ has_nan -> h_high st' - h_low st' <= Rmax (hshrink cfg) (/ 2) * (h_high st - h_low st))).
Proof.
  intros (O1 & O2 & O3 & O4). unfold hz_update.
  destruct (hz_secant2 f gradf vdot nf x d fuel (h_low st) (h_high st) thr) as [[[fl nl] nh]|] eqn:E; [|discriminate].
  destruct (secant2_spec _ _ _ _ _ _ O2 O3 E) as (A1 & A2 & A3 & A4 & A5).
  destruct (h_done st) eqn:Ed; cbn [negb andb orb].
  - destruct (best_point f gradf vdot x d (h_low st) (h_high st)) as [[bp bv] bs].
    intros H; injection H as <- <-; cbn [h_iter h_done h_low h_high h_value h_error h_params h_grad h_failed].
    split; [unfold okst; cbn; auto|]. split; [lra|]. split; [lra|]. split; [lia|].
    split; [auto|discriminate].
  - destruct (if Rltb _ _ then _ else _) as [[[fl2 nl2] nh2]|] eqn:E2; [|discriminate].
    assert (B : nl <= nl2 /\ nl2 <= nh2 /\ nh2 <= nh /\ lok nl2 /\ (nh2 = nh \/ hok nh2) /\
      (~ has_nan -> nh2 - nl2 <= Rmax (hshrink cfg) (/ 2) * (h_high st - h_low st))).
    { destruct (Rltb (hshrink cfg * (h_high st - h_low st)) (nh - nl)) eqn:Es.
      - destruct (upd_int_spec _ _ _ _ _ _ _ A2 A4 E2) as (B1 & B2 & B3 & B4 & B5 & _ & B6).
        repeat (split; [assumption|]). intros Hnn.
        assert (nh2 - nl2 <= / 2 * (nh - nl)).
        { destruct (Req_dec nl nh) as [->|Hne]; [lra|].
          specialize (B6 _ eq_refl ltac:(lra) Hnn).
          eapply Rle_trans; [exact B6|]. apply Rmax_lub; lra. }
        assert (/ 2 <= Rmax (hshrink cfg) (/ 2)) by apply Rmax_r. nra.
      - injection E2 as <- <- <-. repeat (split; [auto; lra|]). intros _.
        unfold Rltb in Es. destruct (Rlt_dec _ (nh - nl)) as [|Hn]; [discriminate|].
        assert (hshrink cfg <= Rmax (hshrink cfg) (/ 2)) by apply Rmax_l. nra. }
    destruct B as (B1 & B2 & B3 & B4 & B5 & B6).
    pose proof (best_spec nl2 nh2) as Bs. pose proof (best_ok nl2 nh2 (htol cfg)) as Bo.
    destruct (best_point f gradf vdot x d nl2 nh2) as [[bp bv] bs].
    intros H; injection H as <- <-; cbn [h_iter h_done h_low h_high h_value h_error h_params h_grad h_failed].
    split.
    { unfold okst; cbn. split; [lra|]. split; [lra|]. split; [exact B4|]. destruct O4 as [O4|[O4|O4]]; auto.
      right; left. destruct B5 as [->|B5]; auto. destruct A5 as [->|A5]; auto. }
    split; [lra|]. split; [lra|]. split; [lia|]. split; [discriminate|]. intros _.
    split; [tauto|]. split; [reflexivity|]. split; [reflexivity|]. split; [reflexivity|]. split; [reflexivity|].
    split; [exact Bo|]. split.
    + intros Hi Hdn. rewrite Hi, Hdn. rewrite Nat.eqb_refl. cbn. apply orb_true_r.
    + exact B6.
Qed.
End S.

(** ** Fuel *)
Section Fuel.
Context {G : Type}.
Variable cfg : hz_config.
Variable f : vec -> xnum.
Variable gradf : vec -> G.
Variable vdot : G -> vec -> xnum.
Variable nf : bool.
Variables x d : vec.

Lemma upd_int_more n m low high om thr r : (n <= m)%nat ->
  hz_update_interval f gradf vdot nf x d n low high om thr = Some r ->
  hz_update_interval f gradf vdot nf x d m low high om thr = Some r.
Proof.
  intros Hnm. unfold hz_update_interval. destruct om as [c|]; [|auto].
  set (s0 := {| u_done := _ |}). destruct (while_fuel n _ _ s0) as [s|] eqn:E; [|discriminate].
  rewrite (while_more u_cond _ (u_body f gradf vdot x d thr) (fun v r H => H) _ _ _ _ Hnm E). auto.
Qed.
Lemma secant2_more n m low high thr r : (n <= m)%nat ->
  hz_secant2 f gradf vdot nf x d n low high thr = Some r -> hz_secant2 f gradf vdot nf x d m low high thr = Some r.
Proof.
  intros Hnm. unfold hz_secant2.
  destruct (hz_update_interval f gradf vdot nf x d n low high (hz_secant gradf vdot x d low high) thr) as [[[fl nl] nh]|] eqn:E; [|discriminate].
  rewrite (upd_int_more _ _ _ _ _ _ _ Hnm E). destruct (_ || _); [|auto]. apply upd_int_more. exact Hnm.
Qed.
Lemma bracket_more n m c thr r : (n <= m)%nat ->
  hz_bracket cfg f gradf vdot nf x d n c thr = Some r -> hz_bracket cfg f gradf vdot nf x d m c thr = Some r.
Proof.
  intros Hnm. unfold hz_bracket. set (s0 := {| b_done := _ |}).
  destruct (while_fuel n _ _ s0) as [s|] eqn:E; [|discriminate].
  rewrite (while_more b_cond (b_body cfg f gradf vdot nf x d n thr) (b_body cfg f gradf vdot nf x d m thr)) with (fuel := n) (r := s); auto.
  intros v r0. unfold b_body. destruct (negb _ && xgtb _ _); [|auto].
  destruct (hz_update_interval f gradf vdot nf x d n 0 _ _ thr) as [[[fl nl] nh]|] eqn:E1; [|discriminate].
  rewrite (upd_int_more _ _ _ _ _ _ _ Hnm E1). auto.
Qed.
Lemma update_more n m fx sl s r : (n <= m)%nat ->
  hz_update cfg f gradf vdot nf x d n fx sl s = Some r -> hz_update cfg f gradf vdot nf x d m fx sl s = Some r.
Proof.
  intros Hnm. destruct s as [s st]. unfold hz_update.
  destruct (hz_secant2 f gradf vdot nf x d n _ _ _) as [[[fl nl] nh]|] eqn:E; [|discriminate].
  rewrite (secant2_more _ _ _ _ _ _ Hnm E). cbv zeta.
  destruct (negb _ && Rltb _ _); [|auto].
  destruct (hz_update_interval f gradf vdot nf x d n _ _ _ _) as [[[fl2 nl2] nh2]|] eqn:E2; [|discriminate].
  rewrite (upd_int_more _ _ _ _ _ _ _ Hnm E2). auto.
Qed.

(** A line that is a differentiable real function. *)
Variables phi dphi : R -> R.
Hypothesis Hphi : forall c, lvalue f x d c = Fin (phi c).
Hypothesis Hdphi : forall c, lslope gradf vdot x d c = Fin (dphi c).
Hypothesis Hder : forall c, derivable_pt_lim phi c (dphi c).

Lemma slope_neg_right c e : dphi c < 0 -> 0 < e ->
  exists t, 0 < t /\ t <= e /\ forall h, 0 < h -> h < t -> phi (c + h) < phi c.
Proof.
  intros Hn He. destruct (Hder c (- dphi c) ltac:(lra)) as [[dl Hdl] Hd]. simpl in Hd.
  exists (Rmin dl e). split; [apply Rmin_glb_lt; lra|]. split; [apply Rmin_r|].
  intros h Hh Hht. assert (Rmin dl e <= dl) by apply Rmin_l.
  specialize (Hd h ltac:(lra) ltac:(rewrite Rabs_right; lra)).
  apply Rabs_def2 in Hd. destruct Hd as [Hd _].
  assert (E : (phi (c + h) - phi c) / h < 0) by lra.
  assert (phi (c + h) - phi c = (phi (c + h) - phi c) / h * h) by (field; lra). nra.
Qed.
Lemma slope_pos_left c e : 0 < dphi c -> 0 < e ->
  exists t, 0 < t /\ t <= e /\ forall h, 0 < h -> h < t -> phi (c - h) < phi c.
Proof.
  intros Hn He. destruct (Hder c (dphi c) ltac:(lra)) as [[dl Hdl] Hd]. simpl in Hd.
  exists (Rmin dl e). split; [apply Rmin_glb_lt; lra|]. split; [apply Rmin_r|].
  intros h Hh Hht. assert (Rmin dl e <= dl) by apply Rmin_l.
  specialize (Hd (- h) ltac:(lra) ltac:(rewrite Rabs_Ropp, Rabs_right; lra)).
  apply Rabs_def2 in Hd. destruct Hd as [_ Hd].
  assert (E : 0 < (phi (c + - h) - phi c) / - h) by lra.
  assert (phi (c + - h) - phi c = (phi (c + - h) - phi c) / - h * - h) by (field; lra).
  unfold Rminus. nra.
Qed.

Lemma acceptable_in_bracket fx sl l h : sl <= 0 -> hc1 cfg <= / 2 -> 0 <= hc2 cfg -> l <= h ->
  low_ok cfg f gradf vdot x d fx l -> high_ok cfg f gradf vdot x d fx h ->
  exists c, l < c <= h /\ dphi c = 0 /\ approx_wolfe cfg f gradf vdot x d fx sl 0 c.
Proof.
  intros Hsl H1 H2 Hlh [Hlv Hls] Hh. rewrite Hphi in Hlv. rewrite Hdphi in Hls. simpl in Hlv.
  assert (Hh' : 0 <= dphi h \/ fx + hthr cfg * Rabs fx < phi h).
  { destruct Hh as [Hh|Hh].
    - rewrite Hdphi in Hh. left. exact Hh.
    - rewrite Hphi in Hh. simpl in Hh. destruct (Rlt_dec _ (phi h)); [right; lra|discriminate]. }
  assert (Hne : l < h). { destruct (Req_dec l h) as [->|]; lra. }
  destruct (continuity_ab_min phi l h Hlh) as (m & Hm & Hmr).
  { intros c _. apply derivable_continuous_pt. exists (dphi c). apply Hder. }
  assert (Hml : l < m).
  { destruct (Req_dec m l) as [->|]; [|lra]. exfalso.
    destruct (slope_neg_right l (h - l) Hls ltac:(lra)) as (t & Ht0 & Hte & Ht).
    specialize (Ht (t / 2) ltac:(lra) ltac:(lra)). specialize (Hm (l + t / 2) ltac:(lra)). lra. }
  assert (Hd0 : dphi m = 0).
  { destruct (Rlt_dec m h) as [Hmh|Hmh].
    - assert (pr : derivable_pt phi m) by (exists (dphi m); apply Hder).
      assert (E := deriv_minimum phi l h m pr Hml Hmh (fun y Hy1 Hy2 => Hm y (conj (Rlt_le _ _ Hy1) (Rlt_le _ _ Hy2)))).
      rewrite <- E. symmetry. apply derive_pt_eq_0. apply Hder.
    - assert (m = h) by lra. subst m.
      assert (phi h <= phi l) by (apply Hm; lra).
      assert (0 <= dphi h) by lra.
      destruct (Req_dec (dphi h) 0) as [|Hnz]; [assumption|]. exfalso.
      destruct (slope_pos_left h (h - l) ltac:(lra) ltac:(lra)) as (t & Ht0 & Hte & Ht).
      specialize (Ht (t / 2) ltac:(lra) ltac:(lra)). specialize (Hm (h - t / 2) ltac:(lra)). lra. }
  exists m. split; [lra|]. split; [exact Hd0|].
  assert (phi m <= phi l) by (apply Hm; lra).
  unfold approx_wolfe. rewrite Hphi, Hdphi, Hd0. simpl. repeat split; try lra; nra.
Qed.

Lemma upd_int_terminates fx low high om : low_ok cfg f gradf vdot x d fx low ->
  exists N r, hz_update_interval f gradf vdot nf x d N low high om (threshold cfg fx) = Some r.
Proof.
  intros [Hlv Hls]. rewrite Hphi in Hlv. rewrite Hdphi in Hls. simpl in Hlv.
  set (thr := threshold cfg fx). unfold hz_update_interval.
  destruct om as [m0|]; [|exists 0%nat; eexists; reflexivity].
  destruct (slope_neg_right low 1 Hls ltac:(lra)) as (dl & Hd0 & _ & Hd).
  assert (Hsmall : forall n s, u_low s = low -> u_value s = lvalue f x d (u_middle s) ->
     u_high s - low < dl * 2 ^ n ->
     exists N r, while_fuel N u_cond (u_body f gradf vdot x d thr) s = Some r).
  { assert (Hstep : forall s, u_low s = low -> u_value s = lvalue f x d (u_middle s) ->
      (exists r, while_fuel 1 u_cond (u_body f gradf vdot x d thr) s = Some r) \/
      (u_cond s = true /\ dl <= u_middle s - low /\ exists s', u_body f gradf vdot x d thr s = Some s' /\
         u_low s' = low /\ u_value s' = lvalue f x d (u_middle s') /\ u_high s' = u_middle s /\
         u_middle s' = (low + u_high s) / 2)).
    { intros s Hl Hv. simpl. destruct (u_cond s) eqn:Ec; [|left; eexists; reflexivity].
      unfold u_cond in Ec. rewrite !andb_true_iff, !Rltb_true, !negb_true_iff in Ec.
      destruct Ec as [[[Hmh Hlm] Hdn] Hf]. rewrite Hl in Hlm.
      unfold u_body. rewrite Hdn, Hf. cbn [negb andb orb].
      destruct (xgeb (u_slope s) (Fin 0)); cbn [negb andb orb].
      - left. eexists. unfold u_cond; cbn. rewrite !andb_false_r. reflexivity.
      - destruct (xleb (u_value s) thr) eqn:El; cbn [negb andb orb].
        + left. eexists. unfold u_cond; cbn. rewrite !andb_false_r. reflexivity.
        + right. split; [reflexivity|].
          assert (Eni : xisneginf (u_value s) = false) by (rewrite Hv, Hphi; reflexivity).
          rewrite Eni; cbn [negb andb orb]. split.
          * rewrite Hv, Hphi in El. simpl in El. destruct (Rle_dec (phi (u_middle s)) thr) as [|Hn]; [discriminate|].
            apply Rnot_lt_le. intros Hlt. apply Hn.
            specialize (Hd (u_middle s - low) ltac:(lra) ltac:(lra)).
            replace (low + (u_middle s - low)) with (u_middle s) in Hd by ring.
            unfold thr, threshold. lra.
          * eexists. split; [reflexivity|]. cbn. rewrite Hl. repeat split; reflexivity. }
    induction n as [|n IH]; intros s Hl Hv Hw.
    - destruct (Hstep s Hl Hv) as [[r Hr]|(Hc & Hmd & _)]; [eauto|].
      unfold u_cond in Hc. rewrite !andb_true_iff, !Rltb_true in Hc. simpl in Hw. lra.
    - destruct (Hstep s Hl Hv) as [[r Hr]|(Hc & _ & s1 & E1 & A1 & A2 & A3 & A4)]; [eauto|].
      destruct (Hstep s1 A1 A2) as [[r Hr]|(Hc1 & _ & s2 & E2 & B1 & B2 & B3 & B4)].
      + exists 2%nat, r. change (while_fuel 2 u_cond (u_body f gradf vdot x d thr) s) with
          (if u_cond s then match u_body f gradf vdot x d thr s with Some v' => while_fuel 1 u_cond (u_body f gradf vdot x d thr) v' | None => None end else Some s).
        rewrite Hc, E1. exact Hr.
      + destruct (IH s2 B1 B2) as (N & r & Hr).
        { rewrite B3, A4. simpl in Hw. lra. }
        exists (S (S N)), r. cbn [while_fuel]. rewrite Hc, E1. cbn [while_fuel]. rewrite Hc1, E2. exact Hr. }
  destruct (Pow_x_infinity 2 ltac:(rewrite Rabs_right; lra) (Rabs ((high - low) / dl) + 1)) as [n Hn].
  specialize (Hn n ltac:(lia)).
  set (s0 := {| u_done := _ |}).
  destruct (Hsmall n s0) as (N & r & Hr); [reflexivity|reflexivity| |].
  - simpl. rewrite Rabs_right in Hn by (apply Rle_ge, pow_le; lra).
    assert (A := Rle_abs ((high - low) / dl)).
    assert (E : high - low = dl * ((high - low) / dl)) by (field; lra). rewrite E. apply Rmult_lt_compat_l; lra.
  - exists N. rewrite Hr. eexists. reflexivity.
Qed.

Lemma secant2_terminates fx low high : low <= high -> low_ok cfg f gradf vdot x d fx low ->
  exists N r, hz_secant2 f gradf vdot nf x d N low high (threshold cfg fx) = Some r.
Proof.
  intros Hlh Hl. destruct (upd_int_terminates fx low high (hz_secant gradf vdot x d low high) Hl) as (N & [[fl nl] nh] & E).
  destruct (upd_int_spec cfg f gradf vdot nf x d fx _ _ _ _ _ _ _ Hlh Hl E) as (A1 & A2 & A3 & A4 & _).
  set (c := hz_secant gradf vdot x d low high) in *.
  set (c' := if opt_eqb c nl then hz_secant gradf vdot x d low nl else if opt_eqb c nh then hz_secant gradf vdot x d high nh else c).
  destruct (upd_int_terminates fx nl nh c' A4) as (M & r & E').
  exists (Nat.max N M). unfold hz_secant2. fold c.
  rewrite (upd_int_more _ _ _ _ _ _ _ (Nat.le_max_l N M) E). cbv zeta.
  fold c'. rewrite (upd_int_more _ _ _ _ _ _ _ (Nat.le_max_r N M) E').
  destruct (_ || _); eexists; reflexivity.
Qed.

Hypothesis Hexp : 1 < hexp cfg.

Lemma bracket_terminates fx M : low_ok cfg f gradf vdot x d fx 0 ->
  (forall c, M <= c -> 0 <= dphi c \/ threshold cfg fx < phi c) ->
  exists N r, hz_bracket cfg f gradf vdot nf x d N 1 (threshold cfg fx) = Some r.
Proof.
  intros Hl HM. set (thr := threshold cfg fx).
  assert (HB : forall F c s, b_value s = lvalue f x d (b_middle s) -> b_slope s = lslope gradf vdot x d (b_middle s) ->
    b_middle s = hexp cfg ^ c -> b_failed s = false -> b_done s = false ->
    (exists r, hz_update_interval f gradf vdot nf x d F 0 (hexp cfg ^ c) (Some (hexp cfg ^ c / 2)) thr = Some r) ->
    exists s', b_body cfg f gradf vdot nf x d F thr s = Some s' /\
      (b_cond s' = false \/ (b_value s' = lvalue f x d (b_middle s') /\ b_slope s' = lslope gradf vdot x d (b_middle s') /\
       b_middle s' = hexp cfg ^ (S c) /\ b_failed s' = false /\ b_done s' = false)) /\
      (M <= hexp cfg ^ c -> b_cond s' = false)).
  { intros F c s Hv Hs Hm Hf Hd [[[fl nl] nh] Er]. unfold b_body. rewrite Hf, Hd. cbn [negb andb orb].
    destruct (xgeb (b_slope s) (Fin 0)) eqn:Eg; cbn [negb andb orb].
    - eexists. split; [reflexivity|]. split; [left|intros _]; reflexivity.
    - destruct (xgtb (b_value s) thr) eqn:Et; cbn [negb andb orb].
      + rewrite Hm, Er. eexists. split; [reflexivity|]. split; [left|intros _]; reflexivity.
      + eexists. split; [reflexivity|]. split.
        * right. cbn [b_value b_slope b_middle b_failed b_done]. rewrite Hphi, Hdphi, Hm. repeat split; reflexivity.
        * intros HMc. exfalso. rewrite Hs, Hdphi, Hm in Eg. rewrite Hv, Hphi, Hm in Et. simpl in Eg, Et.
          destruct (Rle_dec 0 (dphi (hexp cfg ^ c))); [discriminate|].
          destruct (Rlt_dec thr (phi (hexp cfg ^ c))); [discriminate|].
          destruct (HM _ HMc); fold thr in H; lra. }
  destruct (Pow_x_infinity (hexp cfg) ltac:(rewrite Rabs_right; lra) M) as [K HK].
  assert (HKM : M <= hexp cfg ^ K).
  { specialize (HK K ltac:(lia)). rewrite Rabs_right in HK by (apply Rle_ge, pow_le; lra). lra. }
  assert (HF : exists F, forall c, (c <= K)%nat -> exists r, hz_update_interval f gradf vdot nf x d F 0 (hexp cfg ^ c) (Some (hexp cfg ^ c / 2)) thr = Some r).
  { clear HKM HK. induction K as [|K [F IH]].
    - destruct (upd_int_terminates fx 0 (hexp cfg ^ 0) (Some (hexp cfg ^ 0 / 2)) Hl) as (N & r & E).
      exists N. intros c Hc. assert (c = 0)%nat by lia. subst c. exists r. exact E.
    - destruct (upd_int_terminates fx 0 (hexp cfg ^ S K) (Some (hexp cfg ^ S K / 2)) Hl) as (N & r & E).
      exists (Nat.max F N). intros c Hc. destruct (Nat.eq_dec c (S K)) as [->|Hne].
      + exists r. apply (upd_int_more N); [lia|exact E].
      + destruct (IH c ltac:(lia)) as [r' E']. exists r'. apply (upd_int_more F); [lia|exact E']. }
  destruct HF as [F HF].
  assert (HL : forall n c s, (n + c = K)%nat -> b_value s = lvalue f x d (b_middle s) -> b_slope s = lslope gradf vdot x d (b_middle s) ->
    b_middle s = hexp cfg ^ c -> b_failed s = false -> b_done s = false ->
    exists r, while_fuel (S n) b_cond (b_body cfg f gradf vdot nf x d F thr) s = Some r).
  { induction n as [|n IH]; intros c s Hc Hv Hs Hm Hf Hd.
    - destruct (HB F c s Hv Hs Hm Hf Hd (HF c ltac:(lia))) as (s' & Eb & _ & Hx).
      replace c with K in Hx by lia. specialize (Hx HKM).
      exists s'. cbn [while_fuel]. rewrite Eb, Hx. unfold b_cond. rewrite Hd, Hf. reflexivity.
    - destruct (HB F c s Hv Hs Hm Hf Hd (HF c ltac:(lia))) as (s' & Eb & Hx & _).
      assert (Hcs : b_cond s = true) by (unfold b_cond; rewrite Hd, Hf; reflexivity).
      destruct Hx as [Hx|(B1 & B2 & B3 & B4 & B5)].
      + exists s'. cbn [while_fuel]. rewrite Hcs, Eb, Hx. reflexivity.
      + destruct (IH (S c) s' ltac:(lia) B1 B2 B3 B4 B5) as [r Hr]. exists r.
        cbn [while_fuel] in Hr |- *. rewrite Hcs, Eb. exact Hr. }
  assert (HF0 : exists r, hz_bracket cfg f gradf vdot nf x d (Nat.max F (S K)) 1 thr = Some r).
  { unfold hz_bracket. set (s0 := {| b_done := _ |}).
    destruct (HL K 0%nat s0) as [s Hs].
    - lia.
    - reflexivity.
    - reflexivity.
    - reflexivity.
    - unfold s0. cbn. rewrite Hphi, Hdphi. reflexivity.
    - unfold s0. cbn. rewrite Hphi. reflexivity.
    - rewrite (while_more b_cond (b_body cfg f gradf vdot nf x d F thr) (b_body cfg f gradf vdot nf x d (Nat.max F (S K)) thr)) with (fuel := S K) (r := s);
        [eexists; reflexivity| |lia|exact Hs].
      intros v r0. unfold b_body. destruct (negb _ && xgtb _ _); [|auto].
      destruct (hz_update_interval f gradf vdot nf x d F 0 _ _ thr) as [[[fl nl] nh]|] eqn:E1; [|discriminate].
      rewrite (upd_int_more _ _ _ _ _ _ _ (Nat.le_max_l F (S K)) E1). auto. }
  destruct HF0 as [r Hr]. exists (Nat.max F (S K)), r. exact Hr.
Qed.

Lemma update_terminates fx sl s st : okst cfg f gradf vdot x d fx st ->
  exists N r, hz_update cfg f gradf vdot nf x d N fx sl (s, st) = Some r.
Proof.
  intros (O1 & O2 & O3 & _).
  destruct (secant2_terminates fx (h_low st) (h_high st) O2 O3) as (N & [[fl nl] nh] & E).
  destruct (secant2_spec cfg f gradf vdot nf x d fx _ _ _ _ _ _ O2 O3 E) as (A1 & A2 & A3 & A4 & _).
  set (nl' := if h_done st then h_low st else nl). set (nh' := if h_done st then h_high st else nh).
  assert (Hl' : low_ok cfg f gradf vdot x d fx nl') by (unfold nl'; destruct (h_done st); auto).
  destruct (upd_int_terminates fx nl' nh' (Some ((nl' + nh') / 2)) Hl') as (N2 & [[fl2 nl2] nh2] & E2).
  exists (Nat.max N N2). unfold hz_update.
  rewrite (secant2_more _ _ _ _ _ _ (Nat.le_max_l N N2) E). cbv zeta. fold nl' nh'.
  rewrite (upd_int_more _ _ _ _ _ _ _ (Nat.le_max_r N N2) E2).
  destruct (negb _ && Rltb _ _); destruct (best_point _ _ _ _ _ _ _) as [[bp bv] bs]; eexists; reflexivity.
Qed.
End Fuel.

(** ** Runs *)
Section RunS.
Context {G : Type}.
Variable cfg : hz_config.
Variable f : vec -> xnum.
Variable gradf : vec -> G.
Variable vdot : G -> vec -> xnum.
Variable nf : bool.
Variables x d : vec.
Variables fx sl : R.
Hypothesis Hexp : 1 <= hexp cfg.
Hypothesis Htol : 0 <= htol cfg.
Hypothesis Hlok : low_ok cfg f gradf vdot x d fx 0.
Notation next fuel := (hz_next cfg f gradf vdot nf x d fuel fx sl).
Notation acc c := (wolfe cfg f gradf vdot x d fx sl (htol cfg) c \/ approx_wolfe cfg f gradf vdot x d fx sl (htol cfg) c).

Lemma next_ok fuel st0 s0 k s st : okst cfg f gradf vdot x d fx st0 ->
  Nat.iter k (next fuel) (Some (s0, st0)) = Some (s, st) ->
  okst cfg f gradf vdot x d fx st /\ h_iter st = (h_iter st0 + k)%nat.
Proof.
  intros H0. revert s st. induction k as [|k IH]; intros s st; simpl.
  - intros H; injection H as <- <-. rewrite Nat.add_0_r. auto.
  - destruct (Nat.iter k (next fuel) (Some (s0, st0))) as [[s1 st1]|] eqn:E; [|discriminate].
    cbn [hz_next]. intros Hu. destruct (IH _ _ eq_refl) as [I1 I2].
    destruct (upd_ok cfg f gradf vdot nf x d fx sl _ _ _ _ _ I1 Hu) as (A & _ & _ & B & _).
    split; [exact A|]. rewrite B, I2. lia.
Qed.

Lemma next_done fuel st0 s0 k s st : okst cfg f gradf vdot x d fx st0 -> h_done st0 = true ->
  Nat.iter k (next fuel) (Some (s0, st0)) = Some (s, st) ->
  s = s0 /\ h_done st = true /\ h_error st = h_error st0 /\ h_low st = h_low st0 /\ h_high st = h_high st0.
Proof.
  intros H0 Hd. revert s st. induction k as [|k IH]; intros s st; simpl.
  - intros H; injection H as <- <-. auto.
  - destruct (Nat.iter k (next fuel) (Some (s0, st0))) as [[s1 st1]|] eqn:E; [|discriminate].
    cbn [hz_next]. intros Hu. destruct (IH _ _ eq_refl) as (-> & I2 & I3 & I4 & I5).
    destruct (next_ok _ _ _ _ _ _ H0 E) as [Hok _].
    destruct (upd_ok cfg f gradf vdot nf x d fx sl _ _ _ _ _ Hok Hu) as (_ & _ & _ & _ & B & _).
    destruct (B I2) as (-> & B1 & B2 & B3 & B4). repeat split; congruence.
Qed.

Lemma next_none fuel k : Nat.iter k (next fuel) None = None.
Proof. induction k; simpl; [reflexivity|]. rewrite IHk. reflexivity. Qed.

Lemma run_spec fuel s0 g s st : (0 < hmaxiter cfg)%nat ->
  hz_run cfg f gradf vdot nf x d fuel s0 fx g sl = Some (s, st) ->
  exists st0, hz_init cfg f gradf vdot nf x d fuel fx g sl = Some st0 /\ okst cfg f gradf vdot x d fx st /\
  (h_done st0 = true -> s = s0 /\ h_done st = true /\ h_error st = h_error st0 /\ h_low st = h_low st0 /\ h_high st = h_high st0) /\
  (h_done st0 = false ->
    (s = h_low st \/ s = h_high st) /\ h_params st = line x d s /\ h_value st = lvalue f x d s /\
    h_grad st = gradf (h_params st) /\
    (h_done st = true -> acc s) /\
    (h_done st = false -> h_failed st = true \/ h_error st = NaN)).
Proof.
  intros Hmi. unfold hz_run.
  destruct (hz_init cfg f gradf vdot nf x d fuel fx g sl) as [st0|] eqn:Ei; [|discriminate].
  intros Hr. exists st0. split; [reflexivity|].
  pose proof (init_ok cfg f gradf vdot nf x d fx Hexp Hlok sl _ _ _ Ei) as H0.
  assert (Hi0 : h_iter st0 = 0%nat).
  { clear -Ei. unfold hz_init in Ei. destruct (hz_bracket _ _ _ _ _ _ _ _ _ _) as [[[? ?] ?]|]; [|discriminate].
    destruct (best_point _ _ _ _ _ _ _) as [[? ?] ?]. injection Ei as <-. reflexivity. }
  set (cond := fun o : option (R * hz_state G) => match o with Some s => xgtb (h_error (snd s)) (htol cfg) | None => false end) in Hr.
  change (fun o => match o with Some s => hz_update cfg f gradf vdot nf x d fuel fx sl s | None => None end)
    with (next fuel) in Hr.
  destruct (run_loop_spec (hmaxiter cfg) cond (next fuel) (Some (s0, st0)) Hmi) as (k & Hk & Er & Hc & Hs).
  rewrite Hr in Er. symmetry in Er. destruct (next_ok _ _ _ _ _ _ H0 Er) as [Hok Hit].
  split; [exact Hok|]. split; [intros Hd; exact (next_done _ _ _ _ _ _ H0 Hd Er)|].
  intros Hd0. destruct k as [|k]; [lia|].
  (* the state before the last update is live *)
  assert (Hlive : forall j s1 st1, (j <= k)%nat -> Nat.iter j (next fuel) (Some (s0, st0)) = Some (s1, st1) -> h_done st1 = false).
  { induction j as [|j IH]; intros s1 st1 Hj E.
    - simpl in E. injection E as <- <-. exact Hd0.
    - simpl in E. destruct (Nat.iter j (next fuel) (Some (s0, st0))) as [[s2 st2]|] eqn:E2; [|discriminate].
      assert (Hd2 := IH _ _ ltac:(lia) eq_refl). cbn [hz_next] in E.
      destruct (next_ok _ _ _ _ _ _ H0 E2) as [Hok2 _].
      destruct (upd_ok cfg f gradf vdot nf x d fx sl _ _ _ _ _ Hok2 E) as (_ & _ & _ & _ & _ & B).
      destruct (B Hd2) as (_ & _ & _ & _ & B5 & _). rewrite B5.
      specialize (Hc (S j) ltac:(lia)). simpl in Hc. rewrite E2 in Hc. cbn [hz_next] in Hc. rewrite E in Hc. cbn in Hc.
      destruct (h_error st1) as [r| | |]; cbn in *; try discriminate; auto.
      destruct (Rlt_dec (htol cfg) r); [|discriminate]. destruct (Rle_dec r (htol cfg)); [lra|reflexivity]. }
  assert (Er' := Er). simpl in Er'. destruct (Nat.iter k (next fuel) (Some (s0, st0))) as [[s1 st1]|] eqn:E1; [|discriminate].
  cbn [hz_next] in Er'. destruct (next_ok _ _ _ _ _ _ H0 E1) as [Hok1 _].
  destruct (upd_ok cfg f gradf vdot nf x d fx sl _ _ _ _ _ Hok1 Er') as (_ & _ & _ & _ & _ & B).
  destruct (B (Hlive k _ _ ltac:(lia) E1)) as (B1 & B2 & B3 & B4 & B5 & B6 & B7 & _).
  repeat (split; [now auto|]). intros Hnd. destruct Hs as [Hs|Hs].
  - left. apply B7; [lia|exact Hnd].
  - right. rewrite Er in Hs. unfold cond in Hs. cbn [snd] in Hs. rewrite Hnd in B5.
    destruct (h_error st) as [r| | |]; cbn in *; try discriminate; auto.
    destruct (Rlt_dec (htol cfg) r); [discriminate|]. destruct (Rle_dec r (htol cfg)); [discriminate|lra].
Qed.

Lemma line_0 : length d = length x -> line x d 0 = x.
Proof.
  clear. intros H. unfold line. revert d H.
  induction x as [|a l IH]; intros [|b m] H; simpl in *; try discriminate; [reflexivity|].
  injection H as H. specialize (IH m H). simpl in IH. rewrite IH. f_equal; ring.
Qed.
End RunS.

Section Term.
Context {G : Type}.
Variable cfg : hz_config.
Variable f : vec -> xnum.
Variable gradf : vec -> G.
Variable vdot : G -> vec -> xnum.
Variable nf : bool.
Variables x d : vec.
Variables fx sl : R.
Variables phi dphi : R -> R.
Hypothesis Hphi : forall c, lvalue f x d c = Fin (phi c).
Hypothesis Hdphi : forall c, lslope gradf vdot x d c = Fin (dphi c).
Hypothesis Hder : forall c, derivable_pt_lim phi c (dphi c).
Hypothesis Hexp : 1 < hexp cfg.
Hypothesis Hlok : low_ok cfg f gradf vdot x d fx 0.

Lemma iter_more n m s0 st0 k r : (n <= m)%nat ->
  Nat.iter k (hz_next cfg f gradf vdot nf x d n fx sl) (Some (s0, st0)) = Some r ->
  Nat.iter k (hz_next cfg f gradf vdot nf x d m fx sl) (Some (s0, st0)) = Some r.
Proof.
  intros Hnm. revert r. induction k as [|k IH]; intros r; simpl; [auto|].
  destruct (Nat.iter k (hz_next cfg f gradf vdot nf x d n fx sl) (Some (s0, st0))) as [s1|] eqn:E; [|discriminate].
  rewrite (IH _ eq_refl). cbn [hz_next]. apply update_more. exact Hnm.
Qed.
Lemma iter_terminates s0 st0 k : okst cfg f gradf vdot x d fx st0 ->
  exists N r, Nat.iter k (hz_next cfg f gradf vdot nf x d N fx sl) (Some (s0, st0)) = Some r.
Proof.
  intros H0. induction k as [|k (N & [s st] & E)].
  - exists 0%nat. eexists. reflexivity.
  - destruct (next_ok cfg f gradf vdot nf x d fx sl N st0 s0 k s st H0 E) as [Hok _].
    destruct (update_terminates cfg f gradf vdot nf x d phi dphi Hphi Hdphi Hder fx sl s st Hok) as (M & r & E').
    exists (Nat.max N M), r. simpl. rewrite (iter_more _ _ _ _ _ _ (Nat.le_max_l N M) E).
    cbn [hz_next]. exact (update_more cfg f gradf vdot nf x d _ _ _ _ _ _ (Nat.le_max_r N M) E').
Qed.

Lemma run_terminates s0 g M : (forall c, M <= c -> 0 <= dphi c \/ threshold cfg fx < phi c) ->
  exists N, forall fuel, (N <= fuel)%nat -> exists r, hz_run cfg f gradf vdot nf x d fuel s0 fx g sl = Some r.
Proof.
  intros HM.
  destruct (bracket_terminates cfg f gradf vdot nf x d phi dphi Hphi Hdphi Hder Hexp fx M Hlok HM) as (N0 & [[fl l] h] & E0).
  assert (Hi : exists st0, hz_init cfg f gradf vdot nf x d N0 fx g sl = Some st0 /\
     forall m, (N0 <= m)%nat -> hz_init cfg f gradf vdot nf x d m fx g sl = Some st0).
  { unfold hz_init. rewrite E0. destruct (best_point f gradf vdot x d l h) as [[bp bv] bs] eqn:Eb.
    eexists. split; [reflexivity|]. intros m Hm. rewrite (bracket_more _ _ _ _ _ _ _ _ _ _ _ _ Hm E0), Eb. reflexivity. }
  destruct Hi as (st0 & Ei & Hi).
  pose proof (init_ok cfg f gradf vdot nf x d fx (Rlt_le _ _ Hexp) Hlok sl _ _ _ Ei) as H0.
  assert (HN : exists N, forall k, (k <= hmaxiter cfg)%nat -> exists r, Nat.iter k (hz_next cfg f gradf vdot nf x d N fx sl) (Some (s0, st0)) = Some r).
  { generalize (hmaxiter cfg). induction n as [|n [N IH]].
    - exists 0%nat. intros k Hk. assert (k = 0)%nat by lia. subst k. eexists. reflexivity.
    - destruct (iter_terminates s0 st0 (S n) H0) as (N' & r & E). exists (Nat.max N N').
      intros k Hk. destruct (Nat.eq_dec k (S n)) as [->|Hne].
      + exists r. apply (iter_more N'); [lia|exact E].
      + destruct (IH k ltac:(lia)) as [r' E']. exists r'. apply (iter_more N); [lia|exact E']. }
  destruct HN as [N HN]. exists (Nat.max N0 N). intros fuel Hf. unfold hz_run. rewrite (Hi fuel ltac:(lia)).
  destruct (Nat.eq_dec (hmaxiter cfg) 0) as [E|E]; [rewrite E; simpl; eexists; reflexivity|].
  match goal with |- exists r, run_loop _ ?c ?u _ = Some r => destruct (run_loop_spec (hmaxiter cfg) c u (Some (s0, st0)) ltac:(lia)) as (k & Hk & Er & _) end.
  rewrite Er. destruct (HN k ltac:(lia)) as [r Hr]. exists r.
  apply (iter_more N); [lia|exact Hr].
Qed.
End Term.
