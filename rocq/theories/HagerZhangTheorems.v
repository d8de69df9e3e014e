(** C21: the Hager-Zhang line search. *)
From Coq Require Import Reals List Bool Lra Lia Arith.
From Verif Require Import Prelude Vec Loop Run While Backtracking BacktrackingProofs Zoom ZoomProofs HagerZhang HagerZhangProofs.
Import ListNotations.
Open Scope R_scope.

(** For every objective (values and slopes may be NaN or infinite), every descent
    direction and every configuration: unless the initial bracket already satisfied the
    test, the returned step is a non-negative end of the final bracket, the returned
    parameters, value and gradient are those at that step, a search that reports done
    satisfies the Wolfe or the approximate Wolfe conditions up to tol, and one that does
    not either reports failure or has a NaN error.  If the initial bracket already
    satisfied the test, some end of the bracket satisfies the conditions. *)
Theorem C21_hager_zhang {G} (cfg : hz_config) (f : vec -> xnum) (gradf : vec -> G) vdot nf (x d : vec)
    (value slope0 : R) (g : G) fuel init_stepsize s st :
  0 <= htol cfg -> 0 <= hthr cfg -> 1 <= hexp cfg -> (0 < hmaxiter cfg)%nat -> length d = length x ->
  f x = Fin value -> vdot (gradf x) d = Fin slope0 -> slope0 < 0 ->
  hz_run cfg f gradf vdot nf x d fuel init_stepsize value g slope0 = Some (s, st) ->
  exists st0, hz_init cfg f gradf vdot nf x d fuel value g slope0 = Some st0 /\
  (h_done st0 = false ->
     0 <= s /\ (s = h_low st \/ s = h_high st) /\
     h_params st = vadd x (smul s d) /\ h_value st = f (h_params st) /\ h_grad st = gradf (h_params st) /\
     (h_done st = true -> wolfe cfg f gradf vdot x d value slope0 (htol cfg) s \/
                          approx_wolfe cfg f gradf vdot x d value slope0 (htol cfg) s) /\
     (h_done st = false -> h_failed st = true \/ h_error st = NaN)) /\
  (h_done st0 = true ->
     s = init_stepsize /\ h_done st = true /\
     exists c, (c = h_low st \/ c = h_high st) /\ 0 <= c /\ 
       (wolfe cfg f gradf vdot x d value slope0 (htol cfg) c \/
        approx_wolfe cfg f gradf vdot x d value slope0 (htol cfg) c)).
Proof.
  intros Ht Hth He Hm Hlen Hfx Hsl Hneg Hr.
  assert (Hlok : low_ok cfg f gradf vdot x d value 0).
  { unfold low_ok, lvalue, lslope. rewrite line_0, Hfx, Hsl by exact Hlen. simpl. split; [|exact Hneg].
    assert (0 <= Rabs value) by apply Rabs_pos. nra. }
  destruct (run_spec cfg f gradf vdot nf x d value slope0 He Ht Hlok fuel init_stepsize g s st Hm Hr) as (st0 & Ei & (O1 & O2 & O3 & O4) & HA & HB).
  exists st0. split; [exact Ei|]. split.
  - intros Hd. destruct (HB Hd) as (B1 & B2 & B3 & B4 & B5 & B6).
    split; [lra|]. split; [exact B1|]. split; [exact B2|]. split; [rewrite B2; exact B3|]. auto.
  - intros Hd. destruct (HA Hd) as (A1 & A2 & A3 & A4 & A5). split; [exact A1|]. split; [exact A2|].
    unfold hz_init in Ei. destruct (hz_bracket _ _ _ _ _ _ _ _ _ _) as [[[fl l] h]|] eqn:E; [|discriminate].
    pose proof (best_spec f gradf vdot x d l h) as Bs.
    pose proof (best_ok cfg f gradf vdot x d value slope0 l h (htol cfg) Ht) as Bo.
    destruct (best_point f gradf vdot x d l h) as [[bp bv] bs]. injection Ei as <-.
    simpl in A4, A5, Hd. exists bp. rewrite A4, A5 in *. split; [tauto|]. split; [lra|]. auto.
Qed.
Print Assumptions C21_hager_zhang.

(** Bracket invariants at every reachable state: the bracket is ordered and
    non-negative, nested in the previous one, its low end descends and is not above the
    threshold; if no evaluation is NaN and the value at step 1 is not -inf, its high end
    ascends or is above the threshold, and every update of an unfinished search shrinks
    the bracket by the factor max(shrinkage_factor, 1/2). *)
Theorem C21_bracket {G} (cfg : hz_config) (f : vec -> xnum) (gradf : vec -> G) vdot nf (x d : vec)
    (value slope0 : R) (g : G) fuel init_stepsize st0 k s st :
  0 <= hthr cfg -> 1 <= hexp cfg -> length d = length x ->
  f x = Fin value -> vdot (gradf x) d = Fin slope0 -> slope0 < 0 ->
  hz_init cfg f gradf vdot nf x d fuel value g slope0 = Some st0 ->
  Nat.iter k (hz_next cfg f gradf vdot nf x d fuel value slope0) (Some (init_stepsize, st0)) = Some (s, st) ->
  0 <= h_low st <= h_high st /\ low_ok cfg f gradf vdot x d value (h_low st) /\
  ((forall c, lvalue f x d c <> NaN /\ lslope gradf vdot x d c <> NaN) -> lvalue f x d 1 <> NInf ->
     high_ok cfg f gradf vdot x d value (h_high st)) /\
  forall s' st', hz_update cfg f gradf vdot nf x d fuel value slope0 (s, st) = Some (s', st') ->
    h_low st <= h_low st' /\ h_high st' <= h_high st /\
    ((forall c, lvalue f x d c <> NaN /\ lslope gradf vdot x d c <> NaN) -> h_done st = false ->
     h_high st' - h_low st' <= Rmax (hshrink cfg) (/ 2) * (h_high st - h_low st)).
Proof.
  intros Hth He Hlen Hfx Hsl Hneg Ei Ek.
  assert (Hlok : low_ok cfg f gradf vdot x d value 0).
  { unfold low_ok, lvalue, lslope. rewrite line_0, Hfx, Hsl by exact Hlen. simpl. split; [|exact Hneg].
    assert (0 <= Rabs value) by apply Rabs_pos. nra. }
  pose proof (init_ok cfg f gradf vdot nf x d value He Hlok slope0 _ _ _ Ei) as H0.
  destruct (next_ok cfg f gradf vdot nf x d value slope0 _ _ _ _ _ _ H0 Ek) as [Hok _].
  assert (Hnan : (forall c, lvalue f x d c <> NaN /\ lslope gradf vdot x d c <> NaN) -> ~ has_nan f gradf vdot x d).
  { intros Hn [c [Hc|Hc]]; destruct (Hn c); contradiction. }
  pose proof Hok as (O1 & O2 & O3 & O4).
  split; [lra|]. split; [exact O3|]. split.
  - intros Hn Hi. destruct O4 as [O4|[O4|O4]]; [exfalso; exact (Hnan Hn O4)|exact O4|contradiction].
  - intros s' st' Hu. destruct (upd_ok cfg f gradf vdot nf x d value slope0 _ _ _ _ _ Hok Hu) as (_ & A & B & _ & _ & C).
    split; [exact A|]. split; [exact B|]. intros Hn Hd. apply (C Hd). exact (Hnan Hn).
Qed.
Print Assumptions C21_bracket.

(** On a line where the objective is differentiable, every bracket whose ends satisfy
    the invariants contains a step with zero slope satisfying the approximate Wolfe
    conditions exactly; so the search never discards all acceptable steps. *)
Theorem C21_bracket_has_acceptable_step {G} (cfg : hz_config) (f : vec -> xnum) (gradf : vec -> G) vdot
    (x d : vec) (phi dphi : R -> R) (value slope0 low high : R) :
  (forall c, lvalue f x d c = Fin (phi c)) -> (forall c, lslope gradf vdot x d c = Fin (dphi c)) ->
  (forall c, derivable_pt_lim phi c (dphi c)) ->
  slope0 <= 0 -> hc1 cfg <= / 2 -> 0 <= hc2 cfg -> low <= high ->
  low_ok cfg f gradf vdot x d value low -> high_ok cfg f gradf vdot x d value high ->
  exists c, low < c <= high /\ dphi c = 0 /\ approx_wolfe cfg f gradf vdot x d value slope0 0 c.
Proof.
  intros. eapply acceptable_in_bracket; eauto.
Qed.
Print Assumptions C21_bracket_has_acceptable_step.

(** The unbounded inner loops end, and with them the whole search, on every line where
    the objective is differentiable and, beyond some step, ascends or exceeds the
    threshold; the result does not depend on the fuel. *)
Theorem C21_terminates {G} (cfg : hz_config) (f : vec -> xnum) (gradf : vec -> G) vdot nf
    (x d : vec) (phi dphi : R -> R) (value slope0 : R) (g : G) init_stepsize far :
  (forall c, lvalue f x d c = Fin (phi c)) -> (forall c, lslope gradf vdot x d c = Fin (dphi c)) ->
  (forall c, derivable_pt_lim phi c (dphi c)) -> 0 <= hthr cfg -> 1 < hexp cfg ->
  phi 0 = value -> dphi 0 < 0 ->
  (forall c, far <= c -> 0 <= dphi c \/ value + hthr cfg * Rabs value < phi c) ->
  exists N r, forall fuel, (N <= fuel)%nat ->
    hz_run cfg f gradf vdot nf x d fuel init_stepsize value g slope0 = Some r.
Proof.
  intros Hphi Hdphi Hder Hth He Hv Hs Hfar.
  assert (Hlok : low_ok cfg f gradf vdot x d value 0).
  { unfold low_ok. rewrite Hphi, Hdphi, Hv. simpl. split; [|exact Hs]. assert (0 <= Rabs value) by apply Rabs_pos. nra. }
  destruct (run_terminates cfg f gradf vdot nf x d value slope0 phi dphi Hphi Hdphi Hder He Hlok init_stepsize g far Hfar) as [N HN].
  destruct (HN N (le_n N)) as [r Hr]. exists N, r. intros fuel Hf.
  unfold hz_run in *. destruct (hz_init cfg f gradf vdot nf x d N value g slope0) as [st0|] eqn:Ei; [|discriminate].
  assert (Ei' : hz_init cfg f gradf vdot nf x d fuel value g slope0 = Some st0).
  { unfold hz_init in *. destruct (hz_bracket cfg f gradf vdot nf x d N 1 (threshold cfg value)) as [b|] eqn:Eb; [|discriminate].
    rewrite (bracket_more _ _ _ _ _ _ _ _ _ _ _ _ Hf Eb). exact Ei. }
  rewrite Ei'. clear Ei Ei' HN.
  destruct (hmaxiter cfg) as [|n]; [exact Hr|]. cbn [run_loop] in *.
  assert (Hmono : forall o r, hz_next cfg f gradf vdot nf x d N value slope0 o = Some r ->
     hz_next cfg f gradf vdot nf x d fuel value slope0 o = Some r).
  { intros [o|] q; [|discriminate]. apply update_more. exact Hf. }
  assert (Hfor : forall n (o : option (R * hz_state G)) q,
     python_for (fun o => match o with Some s => xgtb (h_error (snd s)) (htol cfg) | None => false end)
       (fun o => match o with Some s => hz_update cfg f gradf vdot nf x d N value slope0 s | None => None end) n o = Some q ->
     python_for (fun o => match o with Some s => xgtb (h_error (snd s)) (htol cfg) | None => false end)
       (fun o => match o with Some s => hz_update cfg f gradf vdot nf x d fuel value slope0 s | None => None end) n o = Some q).
  { clear -Hf. induction n as [|n IH]; intros [o|] q; simpl; auto.
    destruct (xgtb (h_error (snd o)) (htol cfg)); [|auto].
    destruct (hz_update cfg f gradf vdot nf x d N value slope0 o) as [o'|] eqn:E.
    - rewrite (update_more cfg f gradf vdot nf x d _ _ _ _ _ _ Hf E). apply IH.
    - intros H. exfalso. clear -H. destruct n; discriminate H. }
  destruct (hz_update cfg f gradf vdot nf x d N value slope0 (init_stepsize, st0)) as [o'|] eqn:E.
  - rewrite (update_more cfg f gradf vdot nf x d _ _ _ _ _ _ Hf E). apply Hfor. exact Hr.
  - exfalso. destruct n; discriminate Hr.
Qed.
Print Assumptions C21_terminates.

(** ** What the code does not guarantee *)
(** The default configuration. *)
Definition hz_default : hz_config :=
  {| hc1 := / 10; hc2 := 9 / 10; hexp := 5; hshrink := 66 / 100; hthr := / 1000000; htol := 0; hmaxiter := 30 |}.
Ltac decr := repeat match goal with
  | |- context [Rlt_dec ?a ?b] => destruct (Rlt_dec a b); [try (exfalso; lra)|try (exfalso; lra)]
  | |- context [Rle_dec ?a ?b] => destruct (Rle_dec a b); [try (exfalso; lra)|try (exfalso; lra)]
  | |- context [Req_EM_T ?a ?b] => destruct (Req_EM_T a b); [try (exfalso; lra)|try (exfalso; lra)]
  end.

(** A line function given by its value and slope at each step, in dimension one. *)
Definition f1 (phi : R -> xnum) (v : vec) : xnum := phi (nth 0 v 0).
Definition g1 (dphi : R -> R) (v : vec) : R := dphi (nth 0 v 0).
Definition dot1 (g : R) (d : vec) : xnum := Fin (g * nth 0 d 0).
Lemma lvalue1 phi c : lvalue (f1 phi) [0] [1] c = phi c.
Proof. unfold lvalue, f1, line. simpl. f_equal. ring. Qed.
Lemma lslope1 dphi c : lslope (g1 dphi) dot1 [0] [1] c = Fin (dphi c).
Proof. unfold lslope, g1, dot1, line. simpl. rewrite Rmult_1_r. f_equal. f_equal. ring. Qed.

Lemma secant2_flat phi dphi nf fuel thr : dphi 0 = dphi 1 ->
  hz_secant2 (f1 phi) (g1 dphi) dot1 nf [0] [1] fuel 0 1 thr = Some (nf, 0, 1).
Proof.
  intros H. unfold hz_secant2, hz_secant. rewrite !lslope1, H.
  destruct (Req_EM_T (dphi 1) (dphi 1)) as [_|n]; [|congruence]. reflexivity.
Qed.

Lemma bracket_right cfg phi dphi nf fuel thr : (exists v, phi 1 = Fin v) -> 0 <= dphi 1 ->
  hz_bracket cfg (f1 phi) (g1 dphi) dot1 nf [0] [1] (S fuel) 1 thr = Some (false, 0, 1).
Proof.
  intros [v Hv] Hd. unfold hz_bracket. rewrite lvalue1, lslope1, Hv.
  erewrite while_step.
  2: { reflexivity. }
  2: { unfold b_body. cbn [b_done b_slope xgeb b_failed b_low b_middle b_high b_value b_best].
       destruct (Rle_dec 0 (dphi 1)) as [_|n]; [|contradiction]. cbn [negb andb orb xisneginf]. rewrite lvalue1, lslope1, Hv. reflexivity. }
  rewrite while_stop by reflexivity. reflexivity.
Qed.
Lemma upd_int_outside phi dphi nf fuel low high m thr v : phi m = Fin v -> high <= m ->
  hz_update_interval (f1 phi) (g1 dphi) dot1 nf [0] [1] fuel low high (Some m) thr = Some (false, low, high).
Proof.
  intros Hv Hm. unfold hz_update_interval. rewrite lvalue1, lslope1, Hv.
  rewrite while_stop; [reflexivity|]. unfold u_cond; cbn [u_middle u_high u_low u_done u_failed].
  unfold Rltb. destruct (Rlt_dec m high); [lra|]. reflexivity.
Qed.

Lemma upd_int_right phi dphi nf fuel low high m thr v : phi m = Fin v -> low < m < high -> 0 <= dphi m ->
  hz_update_interval (f1 phi) (g1 dphi) dot1 nf [0] [1] (S fuel) low high (Some m) thr = Some (false, low, m).
Proof.
  intros Hv Hm Hd. unfold hz_update_interval. rewrite lvalue1, lslope1, Hv.
  assert (Ed : (Rleb high m || Rleb m low)%bool = false) by (unfold Rleb; decr; reflexivity).
  rewrite Ed. erewrite while_step.
  2: { unfold u_cond; cbn [u_middle u_high u_low u_done u_failed]. unfold Rltb. decr. reflexivity. }
  2: { unfold u_body. cbn [u_done u_failed u_low u_middle u_high u_value u_slope xgeb].
       destruct (Rle_dec 0 (dphi m)) as [_|n]; [|contradiction]. cbn [negb andb orb]. reflexivity. }
  rewrite while_stop; [reflexivity|]. unfold u_cond; cbn [u_done negb]. rewrite !andb_false_r. reflexivity.
Qed.

Lemma upd_int_left phi dphi nf fuel low high m thr v : phi m = Fin v -> low < m < high -> dphi m < 0 -> v <= thr ->
  hz_update_interval (f1 phi) (g1 dphi) dot1 nf [0] [1] (S fuel) low high (Some m) thr = Some (false, m, high).
Proof.
  intros Hv Hm Hd Ht. unfold hz_update_interval. rewrite lvalue1, lslope1, Hv.
  assert (Ed : (Rleb high m || Rleb m low)%bool = false) by (unfold Rleb; decr; reflexivity).
  rewrite Ed. erewrite while_step.
  2: { unfold u_cond; cbn [u_middle u_high u_low u_done u_failed]. unfold Rltb. decr. reflexivity. }
  2: { unfold u_body. cbn [u_done u_failed u_low u_middle u_high u_value u_slope xgeb xleb].
       destruct (Rle_dec 0 (dphi m)) as [n|_]; [exfalso; exact (Rlt_not_le _ _ Hd n)|].
       destruct (Rle_dec v thr) as [_|n]; [|contradiction]. cbn [negb andb orb]. reflexivity. }
  rewrite while_stop; [reflexivity|]. unfold u_cond; cbn [u_done negb]. rewrite !andb_false_r. reflexivity.
Qed.

(** Finding 1: if the initial bracket already contains an acceptable step, the step
    returned is the caller's initial step, which the documentation says is ignored; it
    is not the step at which the returned parameters were computed.
    f(x) = (x - 3/5)^2 from 0 in direction 1: the returned parameters are [1], the
    returned step is the caller's, and with initial step 100 that step increases f. *)
Theorem C21_returned_step_refuted : exists (f : vec -> xnum) (gradf : vec -> R) fuel s st,
  (forall v, f v = Fin ((nth 0 v 0 - 3 / 5) ^ 2)) /\ (forall v, gradf v = 2 * (nth 0 v 0 - 3 / 5)) /\
  hz_run hz_default f gradf dot1 true [0] [1] fuel 100 (9 / 25) (-6 / 5) (-6 / 5) = Some (s, st) /\
  h_done st = true /\ h_failed st = false /\ s = 100 /\ h_params st = [1].
Proof.
  set (phi := fun c => Fin ((c - 3 / 5) ^ 2)). set (dphi := fun c => 2 * (c - 3 / 5)).
  exists (f1 phi), (g1 dphi), 2%nat.
  set (thr := threshold hz_default (9 / 25)).
  assert (Hthr : thr = 9 / 25 + / 1000000 * (9 / 25)) by (unfold thr, threshold; simpl; rewrite Rabs_right by lra; reflexivity).
  assert (D0 : dphi 0 = -6 / 5) by (unfold dphi; lra).
  assert (D1 : dphi 1 = 4 / 5) by (unfold dphi; lra).
  assert (P0 : phi 0 = Fin (9 / 25)) by (unfold phi; f_equal; lra).
  assert (P1 : phi 1 = Fin (4 / 25)) by (unfold phi; f_equal; lra).
  assert (D6 : dphi (3 / 5) = 0) by (unfold dphi; lra).
  assert (Hb : hz_bracket hz_default (f1 phi) (g1 dphi) dot1 true [0] [1] 2 1 thr = Some (false, 0, 1)).
  { apply bracket_right; [unfold phi; eexists; reflexivity|lra]. }
  assert (Hp : best_point (f1 phi) (g1 dphi) dot1 [0] [1] 0 1 = (1, Fin (4 / 25), Fin (4 / 5))).
  { unfold best_point. rewrite !lvalue1, !lslope1, D0, D1, P0, P1. simpl. unfold Rltb. decr.
    rewrite Rmin_right by lra. reflexivity. }
  assert (He : hz_error hz_default 1 (Fin (4 / 25)) (Fin (4 / 5)) (9 / 25) (-6 / 5) thr = Fin 0).
  { unfold hz_error; rewrite Hthr; simpl. f_equal.
    rewrite (Rmax_right (4 / 25 - (9 / 25 + _)) 0) by lra. rewrite (Rmax_left 0 (9 / 10 * _ - 4 / 5)) by lra.
    rewrite (Rmax_right (4 / 5 - _) 0) by lra. rewrite (Rmax_left 0 (9 / 10 * _ - 4 / 5)) by lra.
    rewrite (Rmax_left 0 _) by lra. apply Rmin_left; lra. }
  assert (Hs2 : hz_secant2 (f1 phi) (g1 dphi) dot1 true [0] [1] 2 0 1 thr = Some (false, 0, 3 / 5)).
  { unfold hz_secant2.
    assert (E1 : hz_secant (g1 dphi) dot1 [0] [1] 0 1 = Some (3 / 5)).
    { unfold hz_secant. rewrite !lslope1, D0, D1. decr. f_equal. field. }
    assert (E2 : hz_secant (g1 dphi) dot1 [0] [1] 1 (3 / 5) = Some (3 / 5)).
    { unfold hz_secant. rewrite !lslope1, D1, D6. decr. f_equal. field. }
    rewrite E1. rewrite upd_int_right with (v := (3 / 5 - 3 / 5) ^ 2) by (reflexivity || lra).
    cbn [opt_eqb]. decr. cbn [orb]. rewrite E2.
    apply upd_int_outside with (v := (3 / 5 - 3 / 5) ^ 2); [reflexivity|lra]. }
  assert (Hrun : exists st, hz_run hz_default (f1 phi) (g1 dphi) dot1 true [0] [1] 2 100 (9 / 25) (-6 / 5) (-6 / 5) = Some (100, st) /\
     h_done st = true /\ h_failed st = false /\ h_params st = [1]).
  { unfold hz_run, hz_init. fold thr. rewrite Hb, Hp. cbv zeta. rewrite He. cbn [xleb htol hz_default hmaxiter run_loop].
    destruct (Rle_dec 0 0) as [_|n]; [|lra].
    unfold hz_update at 2. fold thr. cbn [h_low h_high h_done h_failed h_error h_iter]. rewrite Hs2. cbv zeta.
    cbn [negb andb orb]. rewrite Hp. cbn [python_for snd h_error xgtb htol hz_default].
    destruct (Rlt_dec 0 0) as [n|_]; [lra|].
    eexists. split; [reflexivity|]. cbn. repeat split; auto. unfold line. simpl. f_equal. ring. }
  destruct Hrun as (st & A & B & C & D). exists 100, st. repeat split; auto.
Qed.
Print Assumptions C21_returned_step_refuted.

(** Finding 2: a NaN met after the bracket was formed sets [failed] although an
    acceptable step is known: done and failed are reported together.
    phi(c) = -c + 0.4 c^2 below 5, NaN from 5 on. *)
Theorem C21_done_and_failed_refuted : exists (phi : R -> xnum) (dphi : R -> R) fuel s st,
  (forall c, c < 5 -> phi c = Fin (- c + 4 / 10 * c ^ 2) /\ dphi c = - 1 + 8 / 10 * c) /\
  hz_run hz_default (f1 phi) (g1 dphi) dot1 true [0] [1] fuel 1 0 (-1) (-1) = Some (s, st) /\
  h_done st = true /\ h_failed st = true.
Proof.
  set (phi := fun c => if Rlt_dec c 5 then Fin (- c + 4 / 10 * c ^ 2) else NaN).
  set (dphi := fun c : R => - 1 + 8 / 10 * c).
  exists phi, dphi, 2%nat.
  assert (P0 : phi 0 = Fin 0) by (unfold phi; decr; f_equal; lra).
  assert (P1 : phi 1 = Fin (-6 / 10)) by (unfold phi; decr; f_equal; lra).
  assert (P5 : phi (5 * 1) = NaN) by (unfold phi; decr; reflexivity).
  assert (D1 : dphi 1 = - 2 / 10) by (unfold dphi; lra).
  assert (D0 : dphi 0 = - 1) by (unfold dphi; lra).
  assert (T0 : threshold hz_default 0 = 0) by (unfold threshold; rewrite Rabs_R0; lra).
  assert (Hb : hz_bracket hz_default (f1 phi) (g1 dphi) dot1 true [0] [1] 2 1 0 = Some (true, 0, 1)).
  { unfold hz_bracket. rewrite lvalue1, lslope1, P1, D1.
    erewrite while_step.
    2: { reflexivity. }
    2: { unfold b_body. cbn [b_done b_slope xgeb xgtb xleb b_failed b_low b_middle b_high b_value b_best xisneginf].
         destruct (Rle_dec 0 (-2 / 10)) as [n|_]; [exfalso; clear - n; lra|].
         destruct (Rlt_dec 0 (-6 / 10)) as [n|_]; [exfalso; clear - n; lra|].
         destruct (Rle_dec (-6 / 10) 0) as [_|n]; [|exfalso; clear - n; lra].
         cbn [negb andb orb hexp hz_default]. rewrite lvalue1, lslope1, P5. reflexivity. }
    rewrite while_stop by reflexivity. reflexivity. }
  assert (Hp : best_point (f1 phi) (g1 dphi) dot1 [0] [1] 0 1 = (1, Fin (-6 / 10), Fin (-2 / 10))).
  { unfold best_point. rewrite !lvalue1, !lslope1, P0, P1, D1. simpl. unfold Rltb. decr.
    rewrite Rmin_right by lra. reflexivity. }
  assert (He : xleb (hz_error hz_default 1 (Fin (-6 / 10)) (Fin (-2 / 10)) 0 (-1) 0) 0 = true).
  { unfold hz_error; simpl.
    rewrite (Rmax_right (-6 / 10 - _) 0) by lra. rewrite (Rmax_left 0 (9 / 10 * -1 - _)) by lra.
    match goal with |- context [Rle_dec ?a 0] => destruct (Rle_dec a 0) as [_|n]; [reflexivity|exfalso; apply n; apply Rmin_l] end. }
  assert (Hs2 : exists fl l h, hz_secant2 (f1 phi) (g1 dphi) dot1 true [0] [1] 2 0 1 0 = Some (fl, l, h)).
  { unfold hz_secant2, hz_secant. rewrite !lslope1, D0, D1. decr.
    replace ((0 * (-2 / 10) - 1 * -1) / (-2 / 10 - -1)) with (10 / 8) by field.
    assert (PP : exists v, phi (10 / 8) = Fin v) by (unfold phi; decr; eexists; reflexivity). destruct PP as [v PP].
    rewrite upd_int_outside with (v := v) by (exact PP || lra).
    unfold opt_eqb. decr. do 3 eexists. reflexivity. }
  destruct Hs2 as (fl & l & h & Hs2).
  assert (Hrun : exists st, hz_run hz_default (f1 phi) (g1 dphi) dot1 true [0] [1] 2 1 0 (-1) (-1) = Some (1, st) /\
     h_done st = true /\ h_failed st = true).
  { unfold hz_run, hz_init. rewrite T0, Hb, Hp. cbv zeta.
    change (htol hz_default) with 0. rewrite He. cbn [hmaxiter hz_default run_loop].
    unfold hz_update at 2. rewrite T0. cbn [h_low h_high h_done h_failed h_error h_iter]. rewrite Hs2. cbv zeta.
    cbn [negb andb orb]. rewrite Hp.
    remember (hz_error hz_default 1 (Fin (-6 / 10)) (Fin (-2 / 10)) 0 (-1) 0) as e eqn:Ee.
    cbn [python_for snd h_error].
    assert (Hg : xgtb e 0 = false) by (destruct e as [r| | |]; cbn in *; try discriminate; auto; destruct (Rle_dec r 0); [|discriminate]; decr; reflexivity).
    rewrite Hg. eexists. split; [reflexivity|]. cbn. auto. }
  destruct Hrun as (st & A & B & C). exists 1, st. split; [|auto].
  intros c Hc. unfold phi, dphi. destruct (Rlt_dec c 5); [|lra]. split; reflexivity.
Qed.
Print Assumptions C21_done_and_failed_refuted.

(** Finding 3: when the objective is NaN at step 1 the recorded failure is overwritten:
    the search stops after one update, reports neither done nor failed, and returns
    parameters at which the objective is NaN.  phi(c) = -c below 1, NaN from 1 on. *)
Theorem C21_failure_lost_refuted : exists (phi : R -> xnum) fuel s st,
  (forall c, c < 1 -> phi c = Fin (- c)) /\
  hz_run hz_default (f1 phi) (g1 (fun _ => -1)) dot1 true [0] [1] fuel 1 0 (-1) (-1) = Some (s, st) /\
  h_done st = false /\ h_failed st = false /\ h_value st = NaN.
Proof.
  set (phi := fun c => if Rlt_dec c 1 then Fin (- c) else NaN). set (dphi := fun c : R => - 1).
  exists phi, 2%nat.
  assert (P0 : phi 0 = Fin 0) by (unfold phi; decr; f_equal; lra).
  assert (P1 : phi 1 = NaN) by (unfold phi; decr; reflexivity).
  assert (Ph : phi ((0 + 1) / 2) = Fin (- (1 / 2))) by (unfold phi; decr; f_equal; lra).
  assert (Ph' : phi (1 / 2) = Fin (- (1 / 2))) by (unfold phi; decr; f_equal; lra).
  assert (T0 : threshold hz_default 0 = 0) by (unfold threshold; rewrite Rabs_R0; lra).
  assert (Hb : hz_bracket hz_default (f1 phi) (g1 dphi) dot1 true [0] [1] 2 1 0 = Some (true, 0, 1)).
  { unfold hz_bracket. rewrite lvalue1, lslope1, P1. rewrite while_stop by reflexivity. reflexivity. }
  assert (Hp : forall l, best_point (f1 phi) (g1 dphi) dot1 [0] [1] l 1 = (1, NaN, Fin (-1))).
  { intros l. unfold best_point. rewrite !lvalue1, !lslope1, P1. destruct (phi l); reflexivity. }
  assert (Hu : hz_update_interval (f1 phi) (g1 dphi) dot1 true [0] [1] 2 0 1 (Some ((0 + 1) / 2)) 0 = Some (false, (0 + 1) / 2, 1)).
  { apply upd_int_left with (v := - (1 / 2)); [exact Ph|lra|unfold dphi; lra|lra]. }
  assert (Hrun : exists st, hz_run hz_default (f1 phi) (g1 dphi) dot1 true [0] [1] 2 1 0 (-1) (-1) = Some (1, st) /\
     h_done st = false /\ h_failed st = false /\ h_value st = NaN).
  { unfold hz_run, hz_init. rewrite T0, Hb, Hp. cbv zeta. rewrite hz_error_nan.
    cbn [hmaxiter hz_default run_loop xleb].
    unfold hz_update at 2. rewrite T0. cbn [h_low h_high h_done h_failed h_error h_iter].
    rewrite secant2_flat by reflexivity. cbv zeta.
    cbn [negb andb orb hshrink hz_default]. unfold Rltb. destruct (Rlt_dec (66 / 100 * (1 - 0)) (1 - 0)) as [_|n]; [|lra].
    rewrite Hu, Hp. rewrite hz_error_nan. cbn [python_for snd h_error xgtb xleb].
    eexists. split; [reflexivity|]. cbn. split; [reflexivity|]. split; [reflexivity|].
    change (lvalue (f1 phi) [0] [1] 1 = NaN). rewrite lvalue1. exact P1. }
  destruct Hrun as (st & A & B & C & D). exists 1, st. split; [|auto].
  intros c Hc. unfold phi. destruct (Rlt_dec c 1); [reflexivity|lra].
Qed.
Print Assumptions C21_failure_lost_refuted.

(** Finding 4: the bracket need not satisfy the opposite-slope condition announced in
    the comments: step U3 halves the old interval instead of the new one.
    phi(c) = 2c - 3 sin(4 pi c)/(4 pi): the initial bracket is [0, 1/2] with slope -1 at 1/2. *)
Theorem C21_opposite_slope_refuted : exists (phi dphi : R -> R) fuel,
  (forall c, derivable_pt_lim phi c (dphi c)) /\ phi 0 = 0 /\ dphi 0 = -1 /\
  exists low high,
    hz_bracket hz_default (f1 (fun c => Fin (phi c))) (g1 dphi) dot1 true [0] [1] fuel 1 0 = Some (false, low, high) /\
    dphi high < 0.
Proof.
  set (phi := fun c => 2 * c - 3 / (4 * PI) * sin (4 * PI * c)).
  set (dphi := fun c => 2 - 3 * cos (4 * PI * c)).
  exists phi, dphi, 2%nat. assert (Hpi := PI_RGT_0).
  assert (S2 : sin (2 * PI) = 0) by apply sin_2PI. assert (C2 : cos (2 * PI) = 1) by apply cos_2PI.
  assert (S4 : sin (4 * PI) = 0) by (replace (4 * PI) with (2 * (2 * PI)) by ring; rewrite sin_2a, S2; ring).
  assert (C4 : cos (4 * PI) = 1) by (replace (4 * PI) with (2 * (2 * PI)) by ring; rewrite cos_2a, S2, C2; ring).
  assert (P0 : phi 0 = 0) by (unfold phi; rewrite Rmult_0_r, Rmult_0_r, sin_0; ring).
  assert (D0 : dphi 0 = -1) by (unfold dphi; rewrite Rmult_0_r, cos_0; ring).
  assert (P1 : phi 1 = 2) by (unfold phi; rewrite (Rmult_1_r (4 * PI)), S4; ring).
  assert (D1 : dphi 1 = -1) by (unfold dphi; rewrite Rmult_1_r, C4; ring).
  assert (Ph : phi (1 / 2) = 1) by (unfold phi; replace (4 * PI * (1 / 2)) with (2 * PI) by field; rewrite S2; field; lra).
  assert (Dh : dphi (1 / 2) = -1) by (unfold dphi; replace (4 * PI * (1 / 2)) with (2 * PI) by field; rewrite C2; ring).
  split.
  { intros c. unfold phi, dphi.
    replace (2 - 3 * cos (4 * PI * c)) with (2 * 1 - 3 / (4 * PI) * (cos (4 * PI * c) * (4 * PI * 1))) by (field; lra).
    apply (derivable_pt_lim_minus (fun c => 2 * c) (fun c => 3 / (4 * PI) * sin (4 * PI * c))).
    - apply (derivable_pt_lim_scal id). apply derivable_pt_lim_id.
    - apply (derivable_pt_lim_scal (fun c => sin (4 * PI * c))).
      apply (derivable_pt_lim_comp (fun c => 4 * PI * c) sin).
      + apply (derivable_pt_lim_scal id). apply derivable_pt_lim_id.
      + apply derivable_pt_lim_sin. }
  split; [exact P0|]. split; [exact D0|]. exists 0, (1 / 2). split; [|lra].
  assert (Hu : hz_update_interval (f1 (fun c => Fin (phi c))) (g1 dphi) dot1 true [0] [1] 2 0 1 (Some (1 / 2)) 0 = Some (false, 0, 1 / 2)).
  { unfold hz_update_interval. rewrite lvalue1, lslope1, Ph, Dh.
    erewrite while_step.
    2: { unfold u_cond; cbn [u_middle u_high u_low u_done u_failed]. unfold Rltb, Rleb. decr. reflexivity. }
    2: { unfold u_body. cbn [u_done u_failed u_low u_middle u_high u_value u_slope xgeb xleb xisneginf].
         assert (Ed : (Rleb 1 (1 / 2) || Rleb (1 / 2) 0)%bool = false) by (unfold Rleb; decr; reflexivity).
         rewrite Ed.
         destruct (Rle_dec 0 (-1)) as [n|_]; [exfalso; clear - n; lra|].
         destruct (Rle_dec 1 0) as [n|_]; [exfalso; clear - n; lra|].
         cbn [negb andb orb]. reflexivity. }
    rewrite while_stop.
    - cbn [u_failed u_low u_high]. rewrite lvalue1, lslope1. reflexivity.
    - unfold u_cond; cbn [u_middle u_high u_low u_done u_failed]. unfold Rltb at 1.
      destruct (Rlt_dec ((0 + 1) / 2) (1 / 2)); [lra|reflexivity]. }
  unfold hz_bracket. rewrite lvalue1, lslope1, P1, D1.
  erewrite while_step.
  2: { reflexivity. }
  2: { unfold b_body. cbn [b_done b_slope xgeb xgtb xleb b_failed b_low b_middle b_high b_value b_best xisneginf].
       destruct (Rle_dec 0 (-1)) as [n|_]; [exfalso; clear - n; lra|].
       destruct (Rlt_dec 0 2) as [_|n]; [|exfalso; clear - n; lra].
       cbn [negb andb orb]. rewrite Hu. cbn [negb andb orb]. rewrite lvalue1, lslope1. reflexivity. }
  rewrite while_stop by reflexivity. reflexivity.
Qed.
Print Assumptions C21_opposite_slope_refuted.

(** The hypotheses are met: on the line (c - 1/2)^2 the search terminates, its bracket
    invariants apply, and an acceptable step exists in its initial bracket [0, 1]. *)
Example C21_example :
  let phi := fun c : R => (c - / 2) ^ 2 in
  let dphi := fun c : R => 2 * (c - / 2) in
  let f := f1 (fun c => Fin (phi c)) in
  let g := g1 dphi in
  (exists N r, forall fuel, (N <= fuel)%nat -> hz_run hz_default f g dot1 true [0] [1] fuel 1 (/ 4) (-1) (-1) = Some r) /\
  hz_bracket hz_default f g dot1 true [0] [1] 1 1 (threshold hz_default (/ 4)) = Some (false, 0, 1) /\
  exists c, 0 < c <= 1 /\ dphi c = 0 /\ approx_wolfe hz_default f g dot1 [0] [1] (/ 4) (-1) 0 c.
Proof.
  cbv zeta. set (phi := fun c : R => (c - / 2) ^ 2). set (dphi := fun c : R => 2 * (c - / 2)).
  assert (Hder : forall c, derivable_pt_lim phi c (dphi c)).
  { intros c e He. exists (mkposreal e He). intros h Hh0 Hh. simpl in Hh. unfold phi, dphi.
    replace (((c + h - / 2) ^ 2 - (c - / 2) ^ 2) / h - 2 * (c - / 2)) with h by (field; lra). exact Hh. }
  split; [|split].
  - apply (C21_terminates hz_default _ _ _ true [0] [1] phi dphi (/ 4) (-1) (-1) 1 1); auto.
    + intros c. apply (lvalue1 (fun c => Fin (phi c))).
    + intros c. apply lslope1.
    + simpl; lra.
    + simpl; lra.
    + unfold phi; lra.
    + unfold dphi; lra.
    + intros c Hc. left. unfold dphi. lra.
  - apply bracket_right; [eexists; reflexivity|unfold dphi; lra].
  - apply (C21_bracket_has_acceptable_step hz_default _ _ _ [0] [1] phi dphi); auto; try (simpl; lra).
    + intros c. apply (lvalue1 (fun c => Fin (phi c))).
    + intros c. apply lslope1.
    + unfold low_ok. rewrite lvalue1, lslope1. simpl. unfold phi, dphi. rewrite (Rabs_right (/ 4)) by lra. split; lra.
    + left. rewrite lslope1. simpl. unfold dphi. lra.
Qed.
