From Coq Require Import Reals List Bool Lra Lia Arith.
From Verif Require Import Prelude Vec Loop Run Backtracking.
Import ListNotations.
Open Scope R_scope.

Lemma clean_error_le d t : 0 <= t -> (xleb (clean_error d) t = true <-> xle_bound d t).
Proof.
  intros Ht. destruct d as [v| | |]; simpl.
  - destruct (Rle_dec (Rmax v 0) t) as [H|H]; split; intros; try discriminate; auto.
    + pose proof (Rmax_l v 0). lra.
    + exfalso. apply H. apply Rmax_lub; assumption.
  - split; [discriminate|tauto].
  - destruct (Rle_dec 0 t); [tauto|lra].
  - split; [discriminate|tauto].
Qed.
Lemma xmaximum_le a b t : xleb (xmaximum (clean_error a) (clean_error b)) t = true <->
  xleb (clean_error a) t = true /\ xleb (clean_error b) t = true.
Proof.
  destruct (clean_error a) as [u| | |] eqn:Ea, (clean_error b) as [v| | |] eqn:Eb; simpl;
  try (split; [discriminate|intros [H1 H2]; discriminate]);
  try (destruct a; simpl in Ea; discriminate); try (destruct b; simpl in Eb; discriminate).
  pose proof (Rmax_l u v); pose proof (Rmax_r u v).
  destruct (Rle_dec (Rmax u v) t) as [H1|H1], (Rle_dec u t), (Rle_dec v t); try (intuition discriminate); try lra.
  exfalso; apply H1. apply Rmax_lub; assumption.
Qed.
Lemma xgtb_not_leb e t : (e = PInf \/ exists v, e = Fin v) -> xgtb e t = negb (xleb e t).
Proof.
  intros [->|[v ->]]; simpl; [reflexivity|]. destruct (Rlt_dec t v), (Rle_dec v t); simpl; try reflexivity; lra.
Qed.
Lemma clean_error_form d : clean_error d = PInf \/ exists v, clean_error d = Fin v.
Proof. destruct d; simpl; eauto. Qed.
Lemma xmaximum_form a b : xmaximum (clean_error a) (clean_error b) = PInf \/ exists v, xmaximum (clean_error a) (clean_error b) = Fin v.
Proof.
  destruct (clean_error_form a) as [->|[u ->]], (clean_error_form b) as [->|[v ->]]; simpl; eauto.
Qed.

Section S.
Variable cfg : bt_config.
Variable f : vec -> xnum.
Variable gradf : vec -> vec.
Variables x d g : vec.
Variable fx s0 : R.
Hypothesis Htol : 0 <= tol cfg.
Hypothesis Hs0 : 0 < s0.
Hypothesis Hms : 0 < max_stepsize cfg.
Hypothesis Hdf : 0 < decrease_factor cfg <= 1.

(** The step tried at iteration k. *)
Definition trial (k : nat) : R := Rmin (max_stepsize cfg) s0 * decrease_factor cfg ^ k.

Lemma trial_bounds k : 0 < trial k <= max_stepsize cfg.
Proof.
  unfold trial. assert (H0 : 0 < Rmin (max_stepsize cfg) s0) by (apply Rmin_pos; assumption).
  pose proof (Rmin_l (max_stepsize cfg) s0).
  assert (Hp : 0 < decrease_factor cfg ^ k <= 1).
  { induction k; simpl; [lra|]. split; [apply Rmult_lt_0_compat; lra|]. nra. }
  split; [apply Rmult_lt_0_compat; lra|]. nra.
Qed.

Definition hit (s : R) : Prop := condition_holds cfg f gradf x d g fx s.

(** One update at step s, from a state that is neither done nor failed. *)
Lemma update_spec s st : done st = false -> failed st = false -> value_init st = fx -> grad_init st = g ->
  let s' := Rmin (max_stepsize cfg) s in
  let r := bt_update cfg f gradf x d (s, st) in
  (done (snd r) = true <-> hit s') /\
  (xgtb (error (snd r)) (tol cfg) = negb (done (snd r))) /\
  failed (snd r) = (Nat.eqb (iter_num st + 1) (maxiter cfg) && negb (done (snd r)))%bool /\
  iter_num (snd r) = (iter_num st + 1)%nat /\ value_init (snd r) = fx /\ grad_init (snd r) = g /\
  st_params (snd r) = vadd x (smul s' d) /\ st_value (snd r) = f (vadd x (smul s' d)) /\
  (done (snd r) = true \/ failed (snd r) = true -> fst r = s' /\ st_grad (snd r) = gradf (vadd x (smul s' d))) /\
  (done (snd r) = false -> failed (snd r) = false -> fst r = s' * decrease_factor cfg).
Proof.
  intros Hd Hf Hv Hg. cbv zeta. unfold bt_update. cbn [fst snd done failed iter_num value_init grad_init st_params st_value st_grad error].
  rewrite Hd, Hf, Hv, Hg. cbn [orb].
  set (s' := Rmin (max_stepsize cfg) s). set (z := vadd x (smul s' d)).
  match goal with |- context [xleb ?e (tol cfg)] => set (err := e) end.
  assert (Hform : err = PInf \/ exists v, err = Fin v).
  { unfold err. destruct (condition cfg); try apply clean_error_form; apply xmaximum_form. }
  assert (Hhit : xleb err (tol cfg) = true <-> hit s').
  { unfold err, hit, condition_holds. fold z.
    assert (A : forall b, xle_bound (xsub (f z) b) (tol cfg) <-> xle_bound (f z) (b + tol cfg)).
    { intros b. destruct (f z); simpl; split; intros; auto; lra. }
    destruct (condition cfg); rewrite ?xmaximum_le, !clean_error_le by exact Htol; rewrite A; simpl.
    - tauto.
    - destruct (f z); simpl; intuition lra.
    - intuition lra.
    - intuition lra. }
  split; [exact Hhit|]. split; [apply xgtb_not_leb; exact Hform|].
  split; [reflexivity|]. do 5 (split; [reflexivity|]). split.
  - intros H. destruct (xleb err (tol cfg)) eqn:E; simpl in *.
    + split; [reflexivity|]. destruct (condition cfg); reflexivity.
    + destruct H as [H|H]; [discriminate|]. rewrite H. simpl. split; [reflexivity|]. destruct (condition cfg); reflexivity.
  - intros E1 E2. rewrite E1 in *. simpl in *. rewrite E2. reflexivity.
Qed.

Variable given : bool.
Let init := (s0, bt_init given x fx g).
Let upd := bt_update cfg f gradf x d.

(** State after k updates as long as no trial before k succeeded. *)
Lemma iter_spec k : (k < maxiter cfg)%nat ->
  (forall j, (j < k)%nat -> ~ hit (trial j)) ->
  let r := Nat.iter k upd init in
  done (snd r) = false /\ failed (snd r) = false /\ value_init (snd r) = fx /\ grad_init (snd r) = g /\
  iter_num (snd r) = k /\ Rmin (max_stepsize cfg) (fst r) = trial k.
Proof.
  induction k as [|k IH]; intros Hk Hno.
  - cbn. repeat split; try reflexivity. unfold trial. simpl. ring.
  - destruct (IH ltac:(lia) ltac:(intros; apply Hno; lia)) as (Hd & Hf & Hv & Hg & Hi & Hs). cbn zeta.
    change (Nat.iter (S k) upd init) with (upd (Nat.iter k upd init)).
    destruct (Nat.iter k upd init) as [s st]. cbn [fst snd] in *.
    pose proof (update_spec s st Hd Hf Hv Hg) as U. cbv zeta in U. fold upd in U. destruct U as (U1 & _ & U3 & U4 & U5 & U6 & _ & _ & _ & U10). rewrite Hs in *.
    assert (Ed : done (snd (upd (s, st))) = false).
    { destruct (done (snd (upd (s, st)))) eqn:E; [|reflexivity]. exfalso. apply (Hno k ltac:(lia)). apply U1. reflexivity. }
    assert (Ef : failed (snd (upd (s, st))) = false).
    { rewrite U3, Hi. destruct (Nat.eqb_spec (k + 1) (maxiter cfg)); [lia|reflexivity]. }
    repeat split; auto; [rewrite U4; lia|]. rewrite (U10 Ed Ef).
    pose proof (trial_bounds (S k)) as Hb.
    replace (trial k * decrease_factor cfg) with (trial (S k)) by (unfold trial; simpl; ring).
    apply Rmin_right. lra.
Qed.

Lemma run_spec : (0 < maxiter cfg)%nat ->
  let r := run_loop (maxiter cfg) (fun st => xgtb (error (snd st)) (tol cfg)) upd init in
  exists k, (k < maxiter cfg)%nat /\ fst r = trial k /\ iter_num (snd r) = S k /\
    (forall j, (j < k)%nat -> ~ hit (trial j)) /\
    (done (snd r) = true <-> hit (trial k)) /\
    failed (snd r) = negb (done (snd r)) /\ (failed (snd r) = true -> S k = maxiter cfg) /\
    st_params (snd r) = vadd x (smul (trial k) d) /\
    st_value (snd r) = f (vadd x (smul (trial k) d)) /\ st_grad (snd r) = gradf (vadd x (smul (trial k) d)).
Proof.
  intros Hm. cbn zeta.
  destruct (run_loop_spec (maxiter cfg) (fun st => xgtb (error (snd st)) (tol cfg)) upd init Hm) as (k & Hk & Er & Hc & Hs).
  rewrite Er. destruct k as [|k]; [lia|].
  (* none of the trials before k succeeded *)
  assert (Hno : forall n, (n <= k)%nat -> forall j, (j < n)%nat -> ~ hit (trial j)).
  { induction n as [|n IHn]; intros Hn j Hj; [lia|].
    destruct (Nat.eq_dec j n) as [->|]; [|apply IHn; lia].
    destruct (iter_spec n ltac:(lia) (IHn ltac:(lia))) as (Hd & Hf & Hv & Hg & Hi & Hss).
    specialize (Hc (S n) ltac:(lia)). change (Nat.iter (S n) upd init) with (upd (Nat.iter n upd init)) in Hc.
    destruct (Nat.iter n upd init) as [s st]. cbn [fst snd] in *.
    pose proof (update_spec s st Hd Hf Hv Hg) as U. cbv zeta in U. fold upd in U. destruct U as (U1 & U2 & _). rewrite Hss in *.
    cbn beta in Hc. rewrite U2 in Hc. intros Hh. apply U1 in Hh. rewrite Hh in Hc. discriminate. }
  specialize (Hno k (le_n k)).
  destruct (iter_spec k ltac:(lia) Hno) as (Hd & Hf & Hv & Hg & Hi & Hss).
  change (Nat.iter (S k) upd init) with (upd (Nat.iter k upd init)) in *.
  destruct (Nat.iter k upd init) as [s st]. cbn [fst snd] in *.
  pose proof (update_spec s st Hd Hf Hv Hg) as U. cbv zeta in U. fold upd in U. destruct U as (U1 & U2 & U3 & U4 & U5 & U6 & U7 & U8 & U9 & U10). rewrite Hss in *.
  assert (Hfin : failed (snd (upd (s, st))) = negb (done (snd (upd (s, st))))).
  { rewrite U3, Hi. destruct (done (snd (upd (s, st)))) eqn:E; [apply andb_false_r|].
    destruct Hs as [Hs|Hs]; [rewrite <- Hs, Nat.add_1_r, Nat.eqb_refl; reflexivity|].
    rewrite U2 in Hs. discriminate. }
  assert (Hdf2 : done (snd (upd (s, st))) = true \/ failed (snd (upd (s, st))) = true).
  { rewrite Hfin. destruct (done (snd (upd (s, st)))); auto. }
  destruct (U9 Hdf2) as (V1 & V2).
  exists k. split; [lia|]. split; [exact V1|]. split; [rewrite U4; lia|]. split; [exact Hno|].
  split; [exact U1|]. split; [exact Hfin|]. split.
  { intros E. rewrite U3, Hi in E. apply andb_prop in E. destruct E as [E _]. apply Nat.eqb_eq in E. lia. }
  split; [exact U7|]. split; [exact U8|exact V2].
Qed.

(** Counters. *)
Lemma count_spec k : 
  let r := Nat.iter k upd init in
  let vo := match condition cfg with Armijo | Goldstein => true | _ => false end in
  (forall j, (j < k)%nat -> done (snd (Nat.iter j upd init)) = false /\ failed (snd (Nat.iter j upd init)) = false) ->
  let e := if (vo && (done (snd r) || failed (snd r)))%bool then 1%nat else 0%nat in
  let i := if given then 0%nat else 1%nat in
  num_fun_eval (snd r) = (i + k + e)%nat /\ num_grad_eval (snd r) = (i + (if vo then 0 else k) + e)%nat.
Proof.
  induction k as [|k IH]; intros r vo Hno e i.
  - subst r e. simpl. rewrite andb_false_r. subst i vo. destruct given, (condition cfg); simpl; auto.
  - destruct (IH ltac:(intros; apply Hno; lia)) as [I1 I2].
    destruct (Hno k ltac:(lia)) as [Nd Nf].
    subst r e. change (Nat.iter (S k) upd init) with (upd (Nat.iter k upd init)).
    rewrite Nd, Nf in I1, I2. cbn [orb] in I1, I2. rewrite andb_false_r in I1, I2. fold vo i in I1, I2.
    destruct (Nat.iter k upd init) as [s st]. cbn [snd] in *.
    unfold upd, bt_update. cbn [snd num_fun_eval num_grad_eval done failed].
    rewrite I1, I2. fold vo. split; [lia|]. destruct vo; lia.
Qed.
End S.
