From Coq Require Import String.
From Coq Require Import Reals List Lra Lia Bool Arith Psatz.
From Verif Require Import Prelude Vec Mat Loop Run While Backtracking BacktrackingProofs Zoom ZoomProofs QuasiNewton HagerZhang HagerZhangProofs HzRuns.
Import ListNotations.
Open Scope R_scope.

(** ** The search on a parabola *)
Section Quad.
Context {G : Type}.
Variable cfg : hz_config.
Variable f : vec -> xnum.
Variable gradf : vec -> G.
Variable vdot : G -> vec -> xnum.
Variable nf : bool.
Variables x d : vec.
Variables v s q : R.
Hypothesis Hv : forall c, lvalue f x d c = Fin (v + s * c + q / 2 * (c * c)).
Hypothesis Hs : forall c, lslope gradf vdot x d c = Fin (s + q * c).
Hypothesis Hs0 : s < 0.
Hypothesis Hq : 0 < q.
Hypothesis HC : hz_constants cfg.
Let ts := - s / q.
Let thr := threshold cfg v.
Notation upd_int := (hz_update_interval f gradf vdot nf x d).
Lemma thr_ge : v <= thr.
Proof. unfold thr, threshold. destruct HC as (_ & _ & Ht & _). pose proof (Rabs_pos v). assert (0 <= hthr cfg * Rabs v) by (apply Rmult_le_pos; assumption). lra. Qed.
Lemma ts_slope : s + q * ts = 0.
Proof. unfold ts. field. lra. Qed.
Lemma slope_neg c : c < ts -> s + q * c < 0.
Proof. intros H. pose proof ts_slope. assert (q * c < q * ts) by (apply Rmult_lt_compat_l; assumption). lra. Qed.
Lemma slope_pos c : ts <= c -> 0 <= s + q * c.
Proof. intros H. pose proof ts_slope. assert (q * ts <= q * c) by (apply Rmult_le_compat_l; lra). lra. Qed.
Lemma slope_neg_inv c : s + q * c < 0 -> c < ts.
Proof. intros H. destruct (Rlt_le_dec c ts) as [A|A]; [exact A|]. pose proof (slope_pos c A). lra. Qed.
(** below the minimiser the value is below the value at 0 *)
Lemma value_low c : 0 <= c -> s + q * c < 0 -> v + s * c + q / 2 * (c * c) <= v.
Proof.
  intros H0 H1. assert (A : c * (s + q * c) <= 0) by (assert (0 <= c * - (s + q * c)) by (apply Rmult_le_pos; lra); lra).
  assert (B : c * s <= 0) by (assert (0 <= c * - s) by (apply Rmult_le_pos; lra); lra). lra.
Qed.
Lemma value_min c : v + s * ts + q / 2 * (ts * ts) <= v + s * c + q / 2 * (c * c).
Proof.
  pose proof ts_slope as E. assert (A : 0 <= q / 2 * ((c - ts) * (c - ts))) by (apply Rmult_le_pos; [lra|apply Rle_0_sqr]).
  assert (B : s = - (q * ts)) by lra. rewrite B. lra.
Qed.
Lemma value_min_strict c : c <> ts -> v + s * ts + q / 2 * (ts * ts) < v + s * c + q / 2 * (c * c).
Proof.
  intros N. pose proof ts_slope as E. assert (A : 0 < q / 2 * ((c - ts) * (c - ts))) by (apply Rmult_lt_0_compat; [lra|apply Rsqr_pos_lt; lra]).
  assert (B : s = - (q * ts)) by lra. rewrite B. lra.
Qed.
Ltac dec := repeat match goal with
  | |- context [Rlt_dec ?a ?b] => destruct (Rlt_dec a b); try (exfalso; lra)
  | |- context [Rle_dec ?a ?b] => destruct (Rle_dec a b); try (exfalso; lra)
  | |- context [Req_EM_T ?a ?b] => destruct (Req_EM_T a b); try (exfalso; lra)
  end.
(** the interval update at the minimiser *)
Lemma upd_ts fuel low high : low < ts < high -> upd_int (S fuel) low high (Some ts) thr = Some (false, low, ts).
Proof.
  intros [H1 H2]. unfold hz_update_interval. rewrite Hv, Hs, ts_slope. set (w := v + _ + _).
  rewrite (while_step fuel u_cond _ _ {| u_done := true; u_failed := false; u_low := low; u_middle := ts; u_high := ts; u_value := Fin w; u_slope := Fin 0 |}).
  - rewrite while_stop by (unfold u_cond; cbn; rewrite !andb_false_r; reflexivity). reflexivity.
  - unfold u_cond, Rltb, Rleb, failed_nan. cbn; dec; reflexivity.
  - unfold u_body, Rleb, failed_nan. cbn; dec; reflexivity.
Qed.
Lemma upd_end fuel low : low < ts -> upd_int fuel low ts (Some ts) thr = Some (false, low, ts).
Proof.
  intros H. unfold hz_update_interval. rewrite while_stop; [unfold failed_nan; cbn; rewrite Hv, Hs; reflexivity|].
  unfold u_cond, Rleb. cbn. dec. cbn. rewrite !andb_false_r. reflexivity.
Qed.
Lemma upd_mid fuel low : 0 <= low < ts -> let m := (low + ts) / 2 in upd_int (S fuel) low ts (Some m) thr = Some (false, m, ts).
Proof.
  intros H m. assert (Hm : low < m < ts) by (unfold m; lra). pose proof (slope_neg m (proj2 Hm)) as Sm. pose proof (value_low m ltac:(lra) Sm) as Vm. pose proof thr_ge as Th.
  unfold hz_update_interval. rewrite Hv, Hs. set (w := v + _ + _) in *.
  rewrite (while_step fuel u_cond _ _ {| u_done := true; u_failed := false; u_low := m; u_middle := m; u_high := ts; u_value := Fin w; u_slope := Fin (s + q * m) |}).
  - rewrite while_stop by (unfold u_cond; cbn; rewrite !andb_false_r; reflexivity). reflexivity.
  - unfold u_cond, Rltb, Rleb, failed_nan. cbn; dec; reflexivity.
  - unfold u_body, Rleb, failed_nan. cbn; dec; reflexivity.
Qed.
Lemma secant_ts a b : a <> b -> hz_secant gradf vdot x d a b = Some ts.
Proof.
  intros H. unfold hz_secant. rewrite !Hs. destruct (Req_EM_T (s + q * b) (s + q * a)) as [E|E].
  - exfalso. apply H. apply (Rmult_eq_reg_l q); lra.
  - f_equal. unfold ts. field. split; [|lra]. intros E'. apply E. lra.
Qed.
Lemma secant2_ts fuel low high : low < ts < high -> hz_secant2 f gradf vdot nf x d (S fuel) low high thr = Some (false, low, ts).
Proof.
  intros [H1 H2]. unfold hz_secant2. rewrite (secant_ts low high) by lra. rewrite upd_ts by lra.
  unfold opt_eqb. destruct (Req_EM_T ts low); [lra|]. destruct (Req_EM_T ts ts); [|lra]. cbn [orb].
  rewrite (secant_ts high ts) by lra. apply upd_end. lra.
Qed.
(** the bracket: the first power of the expansion factor beyond the minimiser *)
Definition blow (j : nat) : R := match j with O => 0 | S i => hexp cfg ^ i end.
Lemma bracket_loop fuel : forall J n i l h, (J < n)%nat -> ts <= hexp cfg ^ (i + J) -> blow i < ts ->
  exists st j, while_fuel n b_cond (b_body cfg f gradf vdot nf x d fuel thr)
    {| b_done := false; b_failed := false; b_low := l; b_middle := hexp cfg ^ i; b_high := h; b_value := lvalue f x d (hexp cfg ^ i); b_slope := lslope gradf vdot x d (hexp cfg ^ i); b_best := blow i |} = Some st /\
    b_failed st = false /\ b_low st = blow j /\ b_high st = hexp cfg ^ j /\ blow j < ts /\ ts <= hexp cfg ^ j.
Proof.
  assert (HE : 1 < hexp cfg) by apply HC.
  induction J as [|J IH]; intros n i l h Hf Ht Hi; destruct n as [|n]; try lia; cbn [while_fuel]; unfold b_cond at 1; cbn [b_done b_failed negb andb].
  all: assert (Mp : 1 <= hexp cfg ^ i) by (apply pow_R1_Rle; lra).
  all: assert (Up : ts <= hexp cfg ^ i -> exists st j, match b_body cfg f gradf vdot nf x d fuel thr {| b_done := false; b_failed := false; b_low := l; b_middle := hexp cfg ^ i; b_high := h;
         b_value := lvalue f x d (hexp cfg ^ i); b_slope := lslope gradf vdot x d (hexp cfg ^ i); b_best := blow i |} with Some v' => while_fuel n b_cond (b_body cfg f gradf vdot nf x d fuel thr) v' | None => None end = Some st /\
       b_failed st = false /\ b_low st = blow j /\ b_high st = hexp cfg ^ j /\ blow j < ts /\ ts <= hexp cfg ^ j).
  1,3: intros Hle; pose proof (slope_pos _ Hle) as Sp; unfold b_body; cbn [b_done b_failed b_low b_middle b_high b_value b_slope b_best]; rewrite Hs, Hv; cbn [xgeb]; (destruct (Rle_dec 0 (s + q * hexp cfg ^ i)); [|exfalso; lra]); cbn [negb andb orb]; rewrite Hs, Hv; cbn [failed_nan xisnan orb];
     eexists; exists i; (split; [apply while_stop; unfold b_cond; reflexivity|]); cbn [b_failed b_low b_high]; repeat split; assumption.
  - apply Up. rewrite Nat.add_0_r in Ht. exact Ht.
  - destruct (Rle_lt_dec ts (hexp cfg ^ i)) as [Hle|Hlt]; [apply Up; exact Hle|]. clear Up.
    pose proof (slope_neg _ Hlt) as Sn. pose proof (value_low (hexp cfg ^ i) ltac:(lra) Sn) as Vn. pose proof thr_ge as Th.
    unfold b_body. cbn [b_done b_failed b_low b_middle b_high b_value b_slope b_best]. rewrite Hs, Hv. cbn [xgeb xgtb xleb].
    destruct (Rle_dec 0 (s + q * hexp cfg ^ i)); [exfalso; lra|]. cbn [negb andb orb]. destruct (Rlt_dec thr _); [exfalso; lra|]. cbn [negb andb orb].
    destruct (Rle_dec _ thr); [|exfalso; lra]. cbn [negb andb orb].
    assert (Fn : failed_nan (lvalue f x d (hexp cfg * hexp cfg ^ i)) (lslope gradf vdot x d (hexp cfg * hexp cfg ^ i)) = false) by (rewrite Hv, Hs; reflexivity).
    rewrite Fn. apply (IH n (S i)); [lia| |exact Hlt]. replace (S i + J)%nat with (i + S J)%nat by lia. exact Ht.
Qed.
Lemma ts_pos : 0 < ts.
Proof. unfold ts. apply Rdiv_lt_0_compat; lra. Qed.
Lemma bracket_quad fuel J : (J < fuel)%nat -> ts <= hexp cfg ^ J ->
  exists j, hz_bracket cfg f gradf vdot nf x d fuel 1 thr = Some (false, blow j, hexp cfg ^ j) /\ 0 <= blow j < ts /\ ts <= hexp cfg ^ j.
Proof.
  intros Hf Ht. pose proof ts_pos as T0.
  destruct (bracket_loop fuel J fuel 0 0 1 Hf Ht T0) as (st & j & E & F & L & U & A & B). cbn [pow blow] in E.
  exists j. unfold hz_bracket. assert (X0 : xisneginf (lvalue f x d 1) = false) by (rewrite Hv; reflexivity). assert (X1 : failed_nan (lvalue f x d 1) (lslope gradf vdot x d 1) = false) by (rewrite Hv, Hs; reflexivity).
  rewrite X0, X1, E, F, L, U. split; [reflexivity|]. split; [|exact B]. split; [|exact A]. destruct j; [right; reflexivity|]. left. cbn [blow]. apply pow_lt. assert (1 < hexp cfg) by apply HC. lra.
Qed.
(** the error at a point c > 0 is 0 exactly under Wolfe's conditions *)
Lemma error_wolfe c : 0 <= c -> xleb (hz_error cfg c (Fin (v + s * c + q / 2 * (c * c))) (Fin (s + q * c)) v s thr) (htol cfg) = true ->
  0 < c /\ v + s * c + q / 2 * (c * c) <= v + hc1 cfg * c * s /\ hc2 cfg * s <= s + q * c.
Proof.
  intros Hc. destruct HC as (C1 & C2 & _ & _ & Et & _). rewrite Et. unfold hz_error. cbn [xsub rsub xmax2 xmin2 xleb].
  set (a := v + s * c + q / 2 * (c * c) - (v + hc1 cfg * c * s)). set (k := hc2 cfg * s - (s + q * c)).
  set (p := s + q * c - (2 * hc1 cfg - 1) * s).
  assert (Fin_ : k <= 0 -> (a <= 0 \/ p <= 0) -> 0 < c /\ v + s * c + q / 2 * (c * c) <= v + hc1 cfg * c * s /\ hc2 cfg * s <= s + q * c).
  { intros K A. assert (c <> 0). { intros ->. unfold k in K. assert (0 < (1 - hc2 cfg) * - s) by (apply Rmult_lt_0_compat; lra). lra. }
    assert (Cp : 0 < c) by lra. split; [exact Cp|]. split; [|unfold k in K; lra]. destruct A as [A|A]; [unfold a in A; lra|].
    assert (B : c * p <= 0) by (assert (0 <= c * - p) by (apply Rmult_le_pos; lra); lra). unfold p in B. lra. }
  intros H.
  cbn in H. match type of H with (if Rle_dec ?e 0 then _ else _) = true => destruct (Rle_dec e 0) as [E|E]; [|discriminate] end.
  clear H. fold a k p in E. 
  set (w := v + s * c + q / 2 * (c * c) - thr) in *.
  pose proof (Rmax_l a 0). pose proof (Rmax_l (Rmax a 0) k). pose proof (Rmax_r (Rmax a 0) k).
  pose proof (Rmax_l p 0). pose proof (Rmax_l (Rmax p 0) k). pose proof (Rmax_r (Rmax p 0) k). pose proof (Rmax_l (Rmax (Rmax p 0) k) w).
  unfold Rmin in E. destruct (Rle_dec _ _) in E; apply Fin_; lra.
Qed.
Lemma error_ts : hz_error cfg ts (Fin (v + s * ts + q / 2 * (ts * ts))) (Fin (s + q * ts)) v s thr = Fin 0.
Proof.
  destruct HC as (C1 & C2 & _). rewrite ts_slope. unfold hz_error. cbn. f_equal. set (a := v + _ + _ - _). set (k := hc2 cfg * s - 0). set (p := 0 - (2 * hc1 cfg - 1) * s).
  assert (T0 : 0 < ts) by (unfold ts; apply Rdiv_lt_0_compat; lra).
  assert (A : a <= 0). { unfold a. pose proof ts_slope as E. assert (B : q * (ts * ts) = - (s * ts)) by (replace (q * (ts * ts)) with (q * ts * ts) by ring; replace (q * ts) with (- s) by lra; ring).
    assert (0 <= (1 / 2 - hc1 cfg) * (ts * - s)) by (apply Rmult_le_pos; [lra|apply Rmult_le_pos; lra]). lra. }
  assert (K : k <= 0) by (unfold k; assert (0 <= hc2 cfg * - s) by (apply Rmult_le_pos; lra); lra).
  assert (P : p <= 0) by (unfold p; assert (0 <= (1 - 2 * hc1 cfg) * - s) by (apply Rmult_le_pos; lra); lra).
  assert (T : v + s * ts + q / 2 * (ts * ts) - thr <= 0) by (pose proof thr_ge; pose proof (value_min 0); lra).
  rewrite (Rmax_right a 0), (Rmax_left 0 k), (Rmax_right p 0), (Rmax_left 0 k), (Rmax_left 0 _), Rmin_left by lra. reflexivity.
Qed.
(** the whole search: one update *)
Theorem hz_quad fuel J s0 g : (J < fuel)%nat -> ts <= hexp cfg ^ J ->
  exists j c st step, blow j < ts <= hexp cfg ^ j /\
    hz_run cfg f gradf vdot nf x d fuel s0 v g s = Some (step, st) /\ (step = s0 \/ step = c) /\
    h_iter st = 1%nat /\ h_done st = true /\ h_failed st = (if Req_EM_T ts (hexp cfg ^ j) then nf else false) /\
    h_params st = vadd x (smul c d) /\ h_grad st = gradf (h_params st) /\ h_value st = f (h_params st) /\
    (c = blow j \/ c = hexp cfg ^ j \/ c = ts) /\ (ts = hexp cfg ^ j -> c = ts) /\ 0 < c /\ v + s * c + q / 2 * (c * c) <= v + hc1 cfg * c * s /\ hc2 cfg * s <= s + q * c.
Proof.
  intros Hf Ht. destruct fuel as [|fuel]; [lia|]. destruct (bracket_quad (S fuel) J Hf Ht) as (j & E & HL & HU).
  pose proof HC as (C1 & C2 & Hth & He & Etol & Hmx). set (low := blow j) in *. set (high := hexp cfg ^ j) in *.
  set (bp := fst (fst (best_point f gradf vdot x d low high))).
  assert (Hb : forall a b, best_point f gradf vdot x d a b = let p := fst (fst (best_point f gradf vdot x d a b)) in (p, Fin (v + s * p + q / 2 * (p * p)), Fin (s + q * p))).
  { intros a b. unfold best_point. rewrite !Hv, !Hs. cbn [xltb xmin2]. unfold Rltb. destruct (Rlt_dec _ _); cbn [fst]; do 2 f_equal; f_equal; unfold Rmin; destruct (Rle_dec _ _); lra. }
  assert (Hor : bp = low \/ bp = high) by (unfold bp, best_point; destruct (xltb _ _); cbn [fst]; auto).
  assert (Hbp : best_point f gradf vdot x d low high = (bp, Fin (v + s * bp + q / 2 * (bp * bp)), Fin (s + q * bp))) by (rewrite Hb; reflexivity).
  assert (B0 : 0 <= bp) by (destruct Hor as [->| ->]; lra).
  set (er := hz_error cfg bp (Fin (v + s * bp + q / 2 * (bp * bp))) (Fin (s + q * bp)) v s thr).
  assert (Ei : hz_init cfg f gradf vdot nf x d (S fuel) v g s = Some {| h_iter := 0; h_done := xleb er (htol cfg); h_low := low; h_high := high; h_value := Fin v;
     h_error := er; h_params := x; h_grad := g; h_failed := false |}).
  { unfold hz_init. fold thr. rewrite E, Hbp. reflexivity. }
  assert (Loop : forall u st, hz_update cfg f gradf vdot nf x d (S fuel) v s (s0, {| h_iter := 0; h_done := xleb er (htol cfg); h_low := low; h_high := high; h_value := Fin v;
     h_error := er; h_params := x; h_grad := g; h_failed := false |}) = Some (u, st) -> xgtb (h_error st) (htol cfg) = false ->
     hz_run cfg f gradf vdot nf x d (S fuel) s0 v g s = Some (u, st)).
  { intros u st U1 U2. unfold hz_run. rewrite Ei. destruct (hmaxiter cfg) as [|mi]; [lia|]. cbn [run_loop]. rewrite U1. destruct mi; cbn [python_for snd]; [reflexivity|]. rewrite U2. reflexivity. }
  assert (Bts : forall a, a < ts -> best_point f gradf vdot x d a ts = (ts, Fin (v + s * ts + q / 2 * (ts * ts)), Fin (s + q * ts))).
  { intros a Ha. rewrite Hb. assert (P : fst (fst (best_point f gradf vdot x d a ts)) = ts); [|rewrite P; reflexivity].
    unfold best_point. rewrite !Hv. cbn [xltb]. unfold Rltb. pose proof (value_min a). destruct (Rlt_dec _ _); [lra|reflexivity]. }
  assert (Ets : xleb (Fin 0) (htol cfg) = true) by (rewrite Etol; cbn; destruct (Rle_dec 0 0); [reflexivity|lra]).
  assert (Gts : xgtb (Fin 0) (htol cfg) = false) by (rewrite Etol; cbn; destruct (Rlt_dec 0 0); [lra|reflexivity]).
  assert (Wts : 0 < ts /\ v + s * ts + q / 2 * (ts * ts) <= v + hc1 cfg * ts * s /\ hc2 cfg * s <= s + q * ts).
  { apply error_wolfe; [pose proof ts_pos; lra|]. rewrite error_ts. exact Ets. }
  destruct (Req_EM_T ts high) as [Eh|Nh].
  - (* the end of the bracket is the minimiser *)
    assert (Ebp : bp = ts). { unfold bp. rewrite <- Eh, Bts by apply HL. reflexivity. }
    assert (Eer : er = Fin 0) by (unfold er; rewrite Ebp; apply error_ts).
    exists j, ts. eexists. exists s0. split; [fold low high; lra|]. split.
    { apply Loop.
      - unfold hz_update. cbn [h_low h_high h_done h_failed h_error h_iter]. fold thr. rewrite Eer, Ets. cbn [negb andb orb].
        rewrite <- Eh. unfold hz_secant2. rewrite (secant_ts low ts) by lra. rewrite upd_end by lra.
        unfold opt_eqb at 1 2 3 4. destruct (Req_EM_T ts low); [exfalso; lra|]. destruct (Req_EM_T ts ts); [|exfalso; lra]. cbn [orb].
        assert (Sn : hz_secant gradf vdot x d ts ts = None) by (unfold hz_secant; rewrite !Hs; destruct (Req_EM_T _ _); [reflexivity|lra]).
        rewrite Sn. cbn [hz_update_interval]. rewrite Bts by lra. rewrite andb_false_r, orb_false_r. reflexivity.
      - cbn [h_error]. exact Gts. }
    cbn [h_iter h_done h_failed h_params h_grad h_value]. fold high. split; [auto|]. split; [reflexivity|]. split; [reflexivity|]. split; [destruct (Req_EM_T ts high); [reflexivity|contradiction]|].
    split; [unfold line; rewrite <- ?Eh; reflexivity|]. split; [reflexivity|]. split; [reflexivity|]. split; [auto|]. split; [auto|exact Wts].
  - assert (HU' : ts < high) by lra. pose proof (secant2_ts fuel low high ltac:(lra)) as S2.
    destruct (xleb er (htol cfg)) eqn:Ee.
    + (* an end of the bracket is accepted at once *)
      assert (Ge : xgtb er (htol cfg) = false).
      { destruct er as [e| | |]; cbn in Ee |- *; try discriminate; try reflexivity. destruct (Rle_dec e (htol cfg)); [|discriminate]. destruct (Rlt_dec (htol cfg) e); [lra|reflexivity]. }
      exists j, bp. eexists. exists s0. split; [fold low high; lra|]. split.
      { apply Loop.
        - unfold hz_update. cbn [h_low h_high h_done h_failed h_error h_iter]. fold thr. rewrite S2. cbn [negb andb orb]. rewrite Hbp. rewrite andb_false_r; reflexivity.
        - cbn [h_error]. exact Ge. }
      cbn [h_iter h_done h_failed h_params h_grad h_value]. fold low high. split; [auto|]. split; [reflexivity|]. split; [reflexivity|]. split; [destruct (Req_EM_T ts high); [contradiction|reflexivity]|].
      split; [reflexivity|]. split; [reflexivity|]. split; [reflexivity|]. split; [tauto|]. split; [intros K; contradiction|]. apply error_wolfe; assumption.
    + (* one update reaches the minimiser *)
      set (b := Rltb (hshrink cfg * (high - low)) (ts - low)).
      assert (P : exists a, a < ts /\ (if b then hz_update_interval f gradf vdot nf x d (S fuel) low ts (Some ((low + ts) / 2)) thr else Some (false, low, ts)) = Some (false, a, ts)).
      { destruct b; [exists ((low + ts) / 2); split; [lra|apply upd_mid; lra]|exists low; split; [lra|reflexivity]]. }
      destruct P as (a & Ha & P).
      exists j, ts. eexists. exists ts. split; [fold low high; lra|]. split.
      { apply Loop.
        - unfold hz_update. cbn [h_low h_high h_done h_failed h_error h_iter]. fold thr. rewrite S2. cbn [negb andb orb]. fold b.
          rewrite P. rewrite Bts by exact Ha. rewrite error_ts, Ets. cbn [negb]. rewrite andb_false_r. cbn [orb]. reflexivity.
        - cbn [h_error]. exact Gts. }
      cbn [h_iter h_done h_failed h_params h_grad h_value]. fold low high. split; [auto|]. split; [reflexivity|]. split; [reflexivity|]. split; [destruct (Req_EM_T ts high); [contradiction|reflexivity]|].
      split; [reflexivity|]. split; [reflexivity|]. split; [reflexivity|]. split; [auto|]. split; [intros K; contradiction|exact Wts].
Qed.
End Quad.

(** ** The result of the search *)
Lemma run_loop_rel {A B} (Rel : A -> B -> Prop) maxiter ca ua cb ub (a : A) (b : B) :
  (forall u w, Rel u w -> ca u = cb w) -> (forall u w, Rel u w -> Rel (ua u) (ub w)) -> Rel a b ->
  Rel (run_loop maxiter ca ua a) (run_loop maxiter cb ub b).
Proof.
  intros Hc Hu H0. destruct maxiter as [|m]; [exact H0|]. cbn [run_loop]. assert (H1 : Rel (ua a) (ub b)) by (apply Hu; exact H0).
  clear H0. revert H1. generalize (ua a) (ub b). clear a b. induction m as [|m IH]; intros a b H1; cbn [python_for]; [exact H1|].
  rewrite (Hc _ _ H1). destruct (cb b); [|exact H1]. apply IH, Hu, H1.
Qed.
Section Result.
Context {G : Type}.
Variable cfg : hz_config.
Variable f : vec -> xnum.
Variable gradf : vec -> G.
Variable vdot : G -> vec -> xnum.
Variable nf : bool.
Variables x d : vec.
Definition same_state (o o' : option (R * hz_state G)) : Prop := match o, o' with Some p, Some p' => snd p = snd p' | None, None => True | _, _ => False end.
Lemma run_any_step fuel s0 s1 v g s : same_state (hz_run cfg f gradf vdot nf x d fuel s0 v g s) (hz_run cfg f gradf vdot nf x d fuel s1 v g s).
Proof.
  unfold hz_run. destruct (hz_init _ _ _ _ _ _ _ _ _ _ _) as [st|]; [|exact I]. apply run_loop_rel.
  - intros [u|] [w|] H; cbn in H; try contradiction; [rewrite H|]; reflexivity.
  - intros [[u st1]|] [[w st2]|] H; cbn in H; try contradiction; [subst|exact I]. unfold hz_update.
    destruct (hz_secant2 _ _ _ _ _ _ _ _ _ _) as [[[fl l] h]|]; [|exact I].
    match goal with |- same_state (match ?e with _ => _ end) _ => destruct e as [[[fl' l'] h']|] end; [|exact I].
    destruct (best_point _ _ _ _ _ _ _) as [[bp bv] bs]. cbn. reflexivity.
  - reflexivity.
Qed.
Lemma run_on_line fuel s0 v g s step st : (0 < hmaxiter cfg)%nat -> hz_run cfg f gradf vdot nf x d fuel s0 v g s = Some (step, st) ->
  exists c, h_params st = vadd x (smul c d) /\ h_grad st = gradf (h_params st) /\ h_value st = f (h_params st).
Proof.
  intros Hm. unfold hz_run. destruct (hz_init _ _ _ _ _ _ _ _ _ _ _) as [st0|]; [|discriminate]. intros E.
  destruct (run_loop_spec (hmaxiter cfg) (fun o : option (R * hz_state G) => match o with Some s => xgtb (h_error (snd s)) (htol cfg) | None => false end)
    (fun o => match o with Some s1 => hz_update cfg f gradf vdot nf x d fuel v s s1 | None => None end) (Some (s0, st0)) Hm) as (k & Hk & Er & _).
  rewrite Er in E. destruct k as [|k]; [lia|]. change (Nat.iter (S k)) with (fun (u : option (R * hz_state G) -> option (R * hz_state G)) z => u (Nat.iter k u z)) in E. cbv beta in E. destruct (Nat.iter k _ _) as [[u st1]|]; [|discriminate].
  unfold hz_update in E. destruct (hz_secant2 _ _ _ _ _ _ _ _ _ _) as [[[fl l] h]|]; [|discriminate].
  match type of E with (match ?e with _ => _ end) = _ => destruct e as [[[fl' l'] h']|] end; [|discriminate].
  destruct (best_point _ _ _ _ _ _ _) as [[bp bv] bs]. injection E as _ <-. cbn [h_params h_grad h_value]. exists bp. auto.
Qed.
End Result.

Lemma hz_same_point fuel hcfg f gradf s0 s1 x v g d : same_point (hz_ls fuel hcfg f gradf s0 x v g d) (hz_ls fuel hcfg f gradf s1 x v g d).
Proof.
  unfold hz_ls. pose proof (run_any_step hcfg (fun z => Fin (f z)) gradf (fun a b => Fin (dot a b)) true x d fuel s0 s1 v g (dot g d)) as H. unfold same_state in H.
  destruct (hz_run _ _ _ _ _ _ _ _ s0 _ _ _) as [[u st]|]; destruct (hz_run _ _ _ _ _ _ _ _ s1 _ _ _) as [[u' st']|]; try contradiction; [|repeat split].
  cbn in H. subst. repeat split.
Qed.
Lemma hz_on_line fuel hcfg f gradf s0 x v g d : (0 < hmaxiter hcfg)%nat -> let o := hz_ls fuel hcfg f gradf s0 x v g d in
  exists c, ls_params o = vadd x (smul c d) /\ ls_value o = f (ls_params o) /\ ls_grad o = gradf (ls_params o).
Proof.
  intros Hm. unfold hz_ls. destruct (hz_run _ _ _ _ _ _ _ _ s0 _ _ _) as [[u st]|] eqn:E; cbv zeta; cbn [ls_params ls_value ls_grad]; [|exists 0; auto].
  destruct (run_on_line _ _ _ _ _ _ _ _ _ _ _ _ _ _ Hm E) as (c & A & B & _). exists c. auto.
Qed.
Lemma step_to_line x d c : dot d d <> 0 -> step_to x (vadd x (smul c d)) d = c.
Proof. intros H. unfold step_to. destruct (Req_EM_T _ _); [contradiction|]. autorewrite with vec. field. exact H. Qed.
Lemma line_step_to x d c : vadd x (smul (step_to x (vadd x (smul c d)) d) d) = vadd x (smul c d).
Proof.
  destruct (Req_EM_T (dot d d) 0) as [E|E]; [|rewrite step_to_line by exact E; reflexivity].
  assert (Hd : d = vzero (length d)) by (apply dot_self_zero; exact E).
  apply vec_eq_dot; [rewrite !vadd_length, !smul_length; reflexivity|]. intros w. rewrite Hd. autorewrite with vec. ring.
Qed.
Lemma true_step_consistent f gradf ls : (forall x v g d, let o := ls 1 x v g d in exists c, ls_params o = vadd x (smul c d) /\ ls_value o = f (ls_params o) /\ ls_grad o = gradf (ls_params o)) ->
  ls_consistent f gradf (true_step ls).
Proof.
  intros H s0 x v g d. destruct (H x v g d) as (c & A & B & C). unfold true_step. cbv zeta. cbn [ls_params ls_step ls_value ls_grad]. split; [|split; assumption].
  rewrite A. symmetry. apply line_step_to.
Qed.

(** ** Two searches that differ only in the reported step give the same iterates *)
Definition l_same (p p' : vec * lbfgs_state) : Prop :=
  fst p = fst p' /\ let st := snd p in let st' := snd p' in
  l_iter st = l_iter st' /\ l_value st = l_value st' /\ l_grad st = l_grad st' /\ l_error st = l_error st' /\ l_s st = l_s st' /\ l_y st = l_y st' /\ l_rho st = l_rho st' /\
  l_gamma st = l_gamma st' /\ l_failed st = l_failed st'.
Definition b_same (p p' : vec * bfgs_state) : Prop :=
  fst p = fst p' /\ let st := snd p in let st' := snd p' in
  b_iter st = b_iter st' /\ QuasiNewton.b_value st = QuasiNewton.b_value st' /\ b_grad st = b_grad st' /\ b_error st = b_error st' /\ b_H st = b_H st'.
Definition res_rel {A B} (Rel : A -> B -> Prop) (r : result A) (r' : result B) : Prop :=
  match r, r' with Ok a, Ok b => Rel a b | Err e, Err e' => e = e' | _, _ => False end.
Section Sim.
Variables (f : vec -> R) (gradf : vec -> vec) (cfg : qn_config).
Variables ls ls' : line_search.
Hypothesis Hsame : forall s0 s1 x v g d, same_point (ls s0 x v g d) (ls' s1 x v g d).
Hypothesis Hul : use_linesearch cfg = true.
Lemma take_same x v g d s1 s2 k : res_rel same_point (take_step f gradf ls cfg x v g d s1 k) (take_step f gradf ls' cfg x v g d s2 k).
Proof.
  unfold take_step. rewrite Hul. unfold init_stepsize. destruct (string_dec _ _); [apply Hsame|]. destruct (string_dec _ _); [apply Hsame|]. destruct (string_dec _ _); [apply Hsame|reflexivity].
Qed.
Lemma l_update_same p p' : l_same p p' -> res_rel l_same (lbfgs_update f gradf ls cfg p) (lbfgs_update f gradf ls' cfg p').
Proof.
  destruct p as [x st], p' as [x' st']. intros (E1 & E2). cbn [fst snd] in E1, E2. destruct E2 as (E2 & E3 & E4 & E5 & E6 & E7 & E8 & E9 & E10). subst x'.
  assert (Ed : lbfgs_direction cfg st = lbfgs_direction cfg st') by (unfold lbfgs_direction; rewrite E2, E4, E6, E7, E8, E9; reflexivity).
  unfold lbfgs_update. rewrite <- Ed, <- E2, <- E3, <- E4, <- E6, <- E7, <- E8.
  pose proof (take_same x (l_value st) (l_grad st) (lbfgs_direction cfg st) (l_stepsize st) (l_stepsize st') (l_iter st)) as T.
  destruct (take_step f gradf ls _ _ _ _ _ _ _) as [o|e], (take_step f gradf ls' _ _ _ _ _ _ _) as [o'|e']; cbn in T; try contradiction; [|exact T].
  destruct T as (T1 & T2 & T3 & T4). cbv zeta. rewrite T1, T2, T3, T4. cbn. repeat split.
Qed.
Lemma b_update_same p p' : b_same p p' -> res_rel b_same (bfgs_update f gradf ls cfg p) (bfgs_update f gradf ls' cfg p').
Proof.
  destruct p as [x st], p' as [x' st']. intros (E1 & E2). cbn [fst snd] in E1, E2. destruct E2 as (E2 & E3 & E4 & E5 & E6). subst x'.
  assert (Ed : bfgs_direction st = bfgs_direction st') by (unfold bfgs_direction; rewrite E4, E6; reflexivity).
  unfold bfgs_update. rewrite <- Ed, <- E2, <- E3, <- E4, <- E6.
  pose proof (take_same x (QuasiNewton.b_value st) (b_grad st) (bfgs_direction st) (b_stepsize st) (b_stepsize st') (b_iter st)) as T.
  destruct (take_step f gradf ls _ _ _ _ _ _ _) as [o|e], (take_step f gradf ls' _ _ _ _ _ _ _) as [o'|e']; cbn in T; try contradiction; [|exact T].
  destruct T as (T1 & T2 & T3 & T4). cbv zeta. rewrite T1, T2, T3. cbn. repeat split.
Qed.
End Sim.
