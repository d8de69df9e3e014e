(** C19: backtracking line search. *)
From Coq Require Import Reals List Bool Lra Lia Arith.
From Verif Require Import Prelude Vec Loop Run Backtracking BacktrackingProofs.
Import ListNotations.
Open Scope R_scope.

Definition the_direction (direction : option vec) (g : vec) : vec :=
  match direction with Some d => d | None => smul (-1) g end.

(** The k+1 trials are min(max_stepsize, s0) * decrease_factor^j; the last one is
    returned; it is the first that satisfies the condition if [done], and otherwise
    all maxiter trials violate it and [failed]; value, gradient and params are those
    of the returned step. *)
Theorem C19_backtracking :
  forall cfg f gradf given s0 x fx g direction,
  0 <= tol cfg -> 0 < s0 -> 0 < max_stepsize cfg -> 0 < decrease_factor cfg <= 1 -> (0 < maxiter cfg)%nat ->
  let d := the_direction direction g in
  let trial k := Rmin (max_stepsize cfg) s0 * decrease_factor cfg ^ k in
  let '(s, st) := bt_run cfg f gradf given s0 x fx g direction in
  exists k, (k < maxiter cfg)%nat /\ iter_num st = S k /\ s = trial k /\ 0 < s <= max_stepsize cfg /\
    (forall j, (j < k)%nat -> ~ condition_holds cfg f gradf x d g fx (trial j)) /\
    (done st = true <-> condition_holds cfg f gradf x d g fx s) /\
    failed st = negb (done st) /\
    (failed st = true -> S k = maxiter cfg) /\
    st_params st = vadd x (smul s d) /\ st_value st = f (st_params st) /\ st_grad st = gradf (st_params st).
Proof.
  intros cfg f gradf given s0 x fx g direction Ht Hs Hm Hd Hmax d tr.
  pose proof (run_spec cfg f gradf x d g fx s0 Ht Hs Hm Hd given Hmax) as H. cbv zeta in H.
  unfold bt_run. fold (the_direction direction g). fold d.
  destruct (run_loop _ _ _ _) as [s st]. cbn [fst snd] in H.
  destruct H as (k & H1 & H2 & H3 & H4 & H5 & H6 & H7 & H8 & H9 & H10).
  exists k. change (BacktrackingProofs.trial cfg s0) with tr in *. subst s.
  pose proof (trial_bounds cfg s0 Hs Hm Hd k) as Hb. change (BacktrackingProofs.trial cfg s0) with tr in *.
  rewrite H8. repeat (split; [first [exact H1|exact H3|reflexivity|exact Hb|exact H4|exact H5|exact H6|exact H7|exact H9]|]). exact H10.
Qed.
Print Assumptions C19_backtracking.

(** For an objective below its quadratic upper model with constant L along a descent
    direction, Armijo backtracking succeeds as soon as the smallest trial is below
    2 (1 - c1) |slope| / (L |d|^2), and the accepted step is not smaller than
    decrease_factor times that threshold (or is the first trial). *)
Theorem C19_smooth_success :
  forall cfg f gradf given s0 x fx g d L,
  condition cfg = Armijo -> 0 <= c1 cfg < 1 ->
  0 <= tol cfg -> 0 < s0 -> 0 < max_stepsize cfg -> 0 < decrease_factor cfg <= 1 -> (0 < maxiter cfg)%nat ->
  dot g d < 0 -> 0 < L ->
  (forall s, 0 < s <= max_stepsize cfg -> exists v, f (vadd x (smul s d)) = Fin v /\
     v <= fx + s * dot g d + L / 2 * (s * s) * dot d d) ->
  let thr := 2 * (1 - c1 cfg) * (- dot g d) / (L * dot d d) in
  Rmin (max_stepsize cfg) s0 * decrease_factor cfg ^ (maxiter cfg - 1) <= thr ->
  let '(s, st) := bt_run cfg f gradf given s0 x fx g (Some d) in
  done st = true /\ failed st = false /\
  (s = Rmin (max_stepsize cfg) s0 \/ decrease_factor cfg * thr < s).
Proof.
  intros cfg f gradf given s0 x fx g d L Hc Hc1 Ht Hs Hm Hdf Hmax Hsl HL Hup thr Hlast.
  pose proof (C19_backtracking cfg f gradf given s0 x fx g (Some d) Ht Hs Hm Hdf Hmax) as H.
  cbv zeta in H. cbn [the_direction] in H.
  destruct (bt_run cfg f gradf given s0 x fx g (Some d)) as [s st].
  destruct H as (k & H1 & H2 & H3 & H4 & H5 & H6 & H7 & H8 & _).
  assert (Hdd : 0 < dot d d).
  { destruct (Rle_lt_or_eq_dec 0 (dot d d) (dot_self_nonneg d)) as [|E]; [assumption|exfalso].
    symmetry in E. pose proof (cauchy_schwarz_sq g d) as CS. rewrite E in CS. nra. }
  assert (HLd : 0 < L * dot d d) by (apply Rmult_lt_0_compat; assumption).
  assert (Hgood : forall t, 0 < t <= max_stepsize cfg -> t <= thr -> condition_holds cfg f gradf x d g fx t).
  { intros t Htb Hthr. unfold condition_holds. rewrite Hc. split; [|exact I].
    destruct (Hup t Htb) as (v & -> & Hv). simpl.
    assert (Hx : t * (L * dot d d) <= 2 * (1 - c1 cfg) * (- dot g d)).
    { apply Rmult_le_compat_r with (r := L * dot d d) in Hthr; [|lra]. unfold thr in Hthr.
      replace (2 * (1 - c1 cfg) * - dot g d / (L * dot d d) * (L * dot d d)) with (2 * (1 - c1 cfg) * - dot g d) in Hthr by (field; lra).
      exact Hthr. }
    apply Rmult_le_compat_l with (r := t / 2) in Hx; [|lra]. nra. }
  assert (Hdone : done st = true).
  { destruct (done st) eqn:E; [reflexivity|exfalso].
    simpl in H7. specialize (H8 H7). assert (k = (maxiter cfg - 1)%nat) by lia. subst k.
    assert (false = true); [|discriminate]. apply H6. apply Hgood; [exact H4|]. rewrite H3. exact Hlast. }
  rewrite Hdone in *. split; [reflexivity|]. split; [exact H7|].
  destruct k as [|k]; [left; rewrite H3; simpl; ring|right].
  destruct (Rlt_dec (decrease_factor cfg * thr) s) as [|Hn]; [assumption|exfalso].
  apply (H5 k ltac:(lia)). pose proof (trial_bounds cfg s0 Hs Hm Hdf k) as Hb. unfold BacktrackingProofs.trial in Hb.
  apply Hgood; [exact Hb|]. rewrite H3 in Hn. simpl in Hn. apply Rnot_lt_le in Hn.
  apply Rmult_le_reg_l with (decrease_factor cfg); [lra|]. lra.
Qed.
Print Assumptions C19_smooth_success.

(** The evaluation counters count: one function evaluation per trial, plus (for the
    value-only conditions) one gradient and value evaluation at the end. *)
Theorem C19_counters :
  forall cfg f gradf given s0 x fx g direction,
  0 <= tol cfg -> 0 < s0 -> 0 < max_stepsize cfg -> 0 < decrease_factor cfg <= 1 -> (0 < maxiter cfg)%nat ->
  let '(s, st) := bt_run cfg f gradf given s0 x fx g direction in
  let i := if given then 0%nat else 1%nat in
  match condition cfg with
  | Armijo | Goldstein => num_fun_eval st = (i + iter_num st + 1)%nat /\ num_grad_eval st = (i + 1)%nat
  | StrongWolfe | Wolfe => num_fun_eval st = (i + iter_num st)%nat /\ num_grad_eval st = (i + iter_num st)%nat
  end.
Proof.
  intros cfg f gradf given s0 x fx g direction Ht Hs Hm Hd Hmax.
  pose proof (C19_backtracking cfg f gradf given s0 x fx g direction Ht Hs Hm Hd Hmax) as H.
  cbv zeta in H. unfold bt_run in *. fold (the_direction direction g) in *. set (d := the_direction direction g) in *.
  set (upd := bt_update cfg f gradf x d) in *. set (init := (s0, bt_init given x fx g)) in *.
  destruct (run_loop_spec (maxiter cfg) (fun st => xgtb (error (snd st)) (tol cfg)) upd init Hmax) as (k & Hk & Er & _).
  rewrite Er in *.
  destruct (Nat.iter k upd init) as [s st] eqn:Es.
  destruct H as (k' & H1 & H2 & H3 & H4 & H5 & H6 & H7 & H8 & _).
  assert (Hit : forall n, iter_num (snd (Nat.iter n upd init)) = n).
  { induction n; [reflexivity|]. change (Nat.iter (S n) upd init) with (upd (Nat.iter n upd init)).
    destruct (Nat.iter n upd init) as [a b]. unfold upd, bt_update. cbn [snd iter_num] in *. lia. }
  assert (k = S k') by (rewrite <- H2, <- (Hit k), Es; reflexivity). subst k.
  pose proof (count_spec cfg f gradf x d g fx s0 given (S k')) as C. cbv zeta in C. fold upd init in C.
  rewrite Es in C. cbn [snd] in C. rewrite H7 in C.
  destruct C as [C1 C2].
  { intros j Hj. pose proof (iter_spec cfg f gradf x d g fx s0 Ht Hs Hm Hd given j ltac:(lia)) as I.
    cbv zeta in I. fold upd init in I.
    destruct I as (I1 & I2 & _); [intros q Hq; apply H5; lia|]. auto. }
  replace (done st || negb (done st))%bool with true in C1, C2 by (destruct (done st); reflexivity).
  rewrite H2. destruct (condition cfg); simpl in C1, C2; lia.
Qed.
Print Assumptions C19_counters.

(** A concrete run: f(x) = x^2 at x = 1 along -1 with first trial 4, factor 1/2. *)
Example C19_example :
  let cfg := {| condition := Armijo; c1 := 1 / 10; c2 := 9 / 10; decrease_factor := 1 / 2; max_stepsize := 4; tol := 0; maxiter := 10 |} in
  (0 <= tol cfg /\ 0 < 4 /\ 0 < max_stepsize cfg /\ 0 < decrease_factor cfg <= 1 /\ (0 < maxiter cfg)%nat) /\
  ~ condition_holds cfg (fun z => Fin (dot z z)) (fun z => smul 2 z) [1] [-1] [2] 1 4 /\
  condition_holds cfg (fun z => Fin (dot z z)) (fun z => smul 2 z) [1] [-1] [2] 1 1.
Proof. cbv [condition_holds]; simpl. repeat split; try lra; try lia. Qed.
