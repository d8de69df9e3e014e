(** C74: ArmijoSGD on batches that share a minimiser. *)
From Coq Require Import Reals List Lra Lia Bool Arith.
From Verif Require Import Prelude Vec Loop Run Zoom StochGrad StochGradProofs StochGradTheorems ArmijoInterp.
Import ListNotations.
Open Scope R_scope.

Lemma grad_strong_convex n mu f g : 0 <= mu -> grad_strong n mu f g -> grad_convex n f g.
Proof. intros Hmu H x y Hx Hy. pose proof (H x y Hx Hy). pose proof (Rmult_le_pos (mu / 2) (dist2 y x) ltac:(lra) (dist2_nonneg y x)). lra. Qed.

(** one update from any state with an admissible step size *)
Lemma interp_update cfg n mu L fs gs xs x0 j x st : interp_setting cfg n mu L fs gs xs x0 -> length x = n ->
  0 < ar_stepsize st <= ar_max_stepsize cfg -> armijo_floor cfg L <= ar_stepsize st ->
  let '(x', st') := armijo_update cfg (fs j) (gs j) x st in let s := ar_stepsize st' in
  let c := 1 - aggressiveness cfg in
  length x' = n /\ 0 < s <= ar_max_stepsize cfg /\ armijo_floor cfg L <= s /\
  dist2 x' xs <= (1 - mu * s) * dist2 x xs - s * (2 - / c) * (fs j x - fs j xs) + s * ar_eps cfg / c.
Proof.
  intros (Hrs & Hmom & Hd & Hi & Hm & He & Hag & HL & Hmu & Hbud & Hx0 & (Hxs & Hmin) & Hf) Hx Hst Hfl.
  destruct (Hf j) as (Hsc & Hsm & Hsh).
  assert (Hr : 0 < reset_stepsize cfg (ar_stepsize st) <= ar_max_stepsize cfg /\ armijo_floor cfg L <= reset_stepsize cfg (ar_stepsize st)).
  { unfold reset_stepsize. destruct (reset cfg); try (split; assumption).
    split; [split; [apply Rmin_glb_lt; [apply Rmult_lt_0_compat; lra|lra]|apply Rmin_r]|].
    apply Rmin_glb; [|unfold armijo_floor; apply Rmin_l].
    apply Rle_trans with (ar_stepsize st); [exact Hfl|]. rewrite <- (Rmult_1_r (ar_stepsize st)) at 1. apply Rmult_le_compat_l; lra. }
  destruct Hr as [Hr Hrf]. set (s0 := reset_stepsize cfg (ar_stepsize st)) in *.
  unfold armijo_update. fold s0.
  assert (Hg : (match reset cfg with Goldstein => true | _ => false end) = false) by (destruct (reset cfg); congruence).
  rewrite Hg. destruct (plain_ls_spec cfg (fs j) x (gs j x) s0 Hd Hr) as (k & Hk & E & Hbad & Hok). cbv zeta in E. rewrite E.
  destruct (Req_EM_T (ar_momentum cfg) 0) as [_|]; [|contradiction]. cbv zeta. cbn [ar_stepsize].
  set (s := s0 * decrease_factor cfg ^ k) in *.
  assert (Hpow : forall i, 0 < decrease_factor cfg ^ i <= 1).
  { intros i. split; [apply pow_lt; lra|]. induction i; simpl; [lra|]. assert (0 < decrease_factor cfg ^ i) by (apply pow_lt; lra). nra. }
  assert (Hs : 0 < s <= ar_max_stepsize cfg).
  { unfold s. pose proof (Hpow k). split; [apply Rmult_lt_0_compat; lra|]. nra. }
  assert (Hshort : forall t, 0 < t -> t * L <= 2 * aggressiveness cfg -> armijo_ok (fs j) x (gs j x) (ar_coef cfg) (ar_eps cfg) t).
  { intros t Ht HtL. apply (armijo_short cfg (fs j) x (gs j x) n L (gs j)); auto. unfold ar_coef. lra. }
  assert (Hok' : armijo_ok (fs j) x (gs j x) (ar_coef cfg) (ar_eps cfg) s).
  { destruct Hok as [Hok|Hok]; [|exact Hok]. apply Hshort; [apply Hs|]. unfold s. rewrite Hok.
    apply Rle_trans with (2 := Hbud). apply Rmult_le_compat_r; [lra|]. apply Rmult_le_compat_r; [|apply Hr]. pose proof (Hpow (ar_maxls cfg)); lra. }
  assert (Hsf : armijo_floor cfg L <= s).
  { destruct k as [|k].
    - unfold s. simpl. rewrite Rmult_1_r. exact Hrf.
    - assert (Hn : ~ s0 * decrease_factor cfg ^ k * L <= 2 * aggressiveness cfg).
      { intros Hc. apply (Hbad k); [lia|]. apply Hshort; [apply Rmult_lt_0_compat; [lra|apply Hpow]|exact Hc]. }
      apply Rle_trans with (2 * aggressiveness cfg * decrease_factor cfg / L); [unfold armijo_floor; apply Rmin_r|].
      unfold s. simpl. apply Rmult_le_reg_r with L; [exact HL|]. unfold Rdiv. rewrite Rmult_assoc, Rinv_l by lra. nra. }
  set (g := gs j x) in *. set (x' := vadd x (smul (- s) g)) in *.
  assert (Hgl : length g = n) by (apply Hsh; exact Hx).
  assert (Hx' : length x' = n) by (unfold x'; rewrite vadd_length, smul_length, Hgl, Hx; apply Nat.max_id).
  split; [exact Hx'|]. split; [exact Hs|]. split; [exact Hsf|].
  unfold armijo_ok, ar_coef in Hok'. fold x' in Hok'.
  pose proof (Hmin j x' Hx') as Hlow. pose proof (Hsc x xs Hx Hxs) as Hcv. fold g in Hcv.
  set (c := 1 - aggressiveness cfg) in *. assert (Hc : 0 < c) by (unfold c; lra).
  assert (E1 : dist2 x' xs = dist2 x xs + 2 * s * dot g (vsub xs x) + s * (s * sqnorm g)) by (unfold x'; vring).
  assert (E2 : dist2 xs x = dist2 x xs) by apply dist2_comm. rewrite E2 in Hcv.
  assert (H3 : s * sqnorm g <= (fs j x - fs j xs + ar_eps cfg) / c).
  { apply Rmult_le_reg_r with c; [exact Hc|]. unfold Rdiv. rewrite (Rmult_assoc _ (/ c) c), Rinv_l by lra. lra. }
  assert (H4 : s * (s * sqnorm g) <= s * ((fs j x - fs j xs + ar_eps cfg) / c)) by (apply Rmult_le_compat_l; lra).
  assert (H5 : 2 * s * dot g (vsub xs x) <= 2 * s * (fs j xs - fs j x - mu / 2 * dist2 x xs)) by (apply Rmult_le_compat_l; lra).
  rewrite E1. unfold Rdiv in *. nra.
Qed.

Lemma interp_inv cfg n mu L fs gs xs x0 k : interp_setting cfg n mu L fs gs xs x0 ->
  let st := snd (armijo_iterate cfg fs gs x0 k) in
  length (fst (armijo_iterate cfg fs gs x0 k)) = n /\ 0 < ar_stepsize st <= ar_max_stepsize cfg /\ armijo_floor cfg L <= ar_stepsize st.
Proof.
  intros H. induction k as [|k IH]; cbv zeta in *.
  - destruct H as (_ & _ & _ & _ & Hm & _ & _ & _ & _ & _ & Hx0 & _). cbn. split; [exact Hx0|]. split; [lra|]. unfold armijo_floor. apply Rmin_l.
  - cbn [armijo_iterate]. destruct (armijo_iterate cfg fs gs x0 k) as [x st]. cbn [fst snd] in IH.
    pose proof (interp_update cfg n mu L fs gs xs x0 k x st H (proj1 IH) (proj1 (proj2 IH)) (proj2 (proj2 IH))) as Hu.
    destruct (armijo_update cfg (fs k) (gs k) x st) as [x' st']. cbv zeta in Hu. cbn [fst snd]. tauto.
Qed.

(** Each update: the step size is at least min(max_stepsize, 2 * aggressiveness * decrease_factor / L),
    and the squared distance to the common minimiser shrinks by the loss on the batch. *)
Theorem C74_step : forall cfg n mu L fs gs xs x0 k, interp_setting cfg n mu L fs gs xs x0 ->
  let x := fst (armijo_iterate cfg fs gs x0 k) in
  let x' := fst (armijo_iterate cfg fs gs x0 (S k)) in
  let s := ar_stepsize (snd (armijo_iterate cfg fs gs x0 (S k))) in
  let c := 1 - aggressiveness cfg in
  Rmin (ar_max_stepsize cfg) (2 * aggressiveness cfg * decrease_factor cfg / L) <= s <= ar_max_stepsize cfg /\
  dist2 x' xs <= (1 - mu * s) * dist2 x xs - s * (2 - / c) * (fs k x - fs k xs) + s * ar_eps cfg / c.
Proof.
  intros cfg n mu L fs gs xs x0 k H. cbv zeta.
  pose proof (interp_inv cfg n mu L fs gs xs x0 k H) as Hi. cbv zeta in Hi. cbn [armijo_iterate].
  destruct (armijo_iterate cfg fs gs x0 k) as [x st]. cbn [fst snd] in *. destruct Hi as (Hx & Hs & Hf).
  pose proof (interp_update cfg n mu L fs gs xs x0 k x st H Hx Hs Hf) as Hu.
  destruct (armijo_update cfg (fs k) (gs k) x st) as [x' st']. cbv zeta in Hu. cbn [fst snd]. destruct Hu as (_ & Hs' & Hf' & Hd).
  unfold armijo_floor in Hf'. repeat split; try lra. 
Qed.
Print Assumptions C74_step.

Lemma floor_pos cfg n mu L fs gs xs x0 : interp_setting cfg n mu L fs gs xs x0 -> 0 < armijo_floor cfg L.
Proof.
  intros (_ & _ & Hd & _ & Hm & _ & Ha & HL & _). unfold armijo_floor. apply Rmin_glb_lt; [exact Hm|].
  unfold Rdiv. repeat apply Rmult_lt_0_compat; try lra. apply Rinv_0_lt_compat; exact HL.
Qed.
Lemma inv_c_le2 c : / 2 <= c -> 0 <= 2 - / c.
Proof. intros H. assert (/ c <= / / 2) by (apply Rinv_le_contravar; lra). rewrite Rinv_inv in H0. lra. Qed.
Lemma loss_nonneg cfg n mu L fs gs xs x0 k : interp_setting cfg n mu L fs gs xs x0 ->
  0 <= fs k (fst (armijo_iterate cfg fs gs x0 k)) - fs k xs.
Proof.
  intros H. pose proof (interp_inv cfg n mu L fs gs xs x0 k H) as (Hx & _).
  destruct H as (_ & _ & _ & _ & _ & _ & _ & _ & _ & _ & _ & (_ & Hmin) & _). pose proof (Hmin k _ Hx). lra.
Qed.

(** With aggressiveness at most 1/2 the iterates never move away from the common minimiser
    (in exact arithmetic: the slack of the line search is machine precision). *)
Theorem C74_closer : forall cfg n mu L fs gs xs x0 k, interp_setting cfg n mu L fs gs xs x0 ->
  aggressiveness cfg <= / 2 -> ar_eps cfg = 0 ->
  dist2 (fst (armijo_iterate cfg fs gs x0 (S k))) xs <= dist2 (fst (armijo_iterate cfg fs gs x0 k)) xs.
Proof.
  intros cfg n mu L fs gs xs x0 k H Ha He.
  destruct (C74_step cfg n mu L fs gs xs x0 k H) as [[Hs1 Hs2] Hd]. cbv zeta in *.
  pose proof (loss_nonneg cfg n mu L fs gs xs x0 k H) as Hl. pose proof (floor_pos cfg n mu L fs gs xs x0 H) as Hp. unfold armijo_floor in Hp.
  set (s := ar_stepsize (snd (armijo_iterate cfg fs gs x0 (S k)))) in *.
  assert (Hc : 0 <= 2 - / (1 - aggressiveness cfg)) by (apply inv_c_le2; lra).
  destruct H as (_ & _ & _ & _ & _ & _ & _ & _ & Hmu & _).
  rewrite He in Hd. pose proof (dist2_nonneg (fst (armijo_iterate cfg fs gs x0 k)) xs).
  assert (0 <= s * (2 - / (1 - aggressiveness cfg)) * (fs k (fst (armijo_iterate cfg fs gs x0 k)) - fs k xs)) by (repeat apply Rmult_le_pos; lra).
  assert (0 <= mu * s * dist2 (fst (armijo_iterate cfg fs gs x0 k)) xs) by (repeat apply Rmult_le_pos; lra).
  unfold Rdiv in Hd. rewrite Rmult_0_r, Rmult_0_l in Hd. lra.
Qed.
Print Assumptions C74_closer.

(** The losses of the iterates, each on the batch it is about to see, add up to at most a constant
    (up to the slack): the average loss after K updates is O(1/K), whatever the order of the batches. *)
Theorem C74_total_loss : forall cfg n mu L fs gs xs x0 k, interp_setting cfg n mu L fs gs xs x0 ->
  aggressiveness cfg <= / 2 ->
  let c := 1 - aggressiveness cfg in
  Rmin (ar_max_stepsize cfg) (2 * aggressiveness cfg * decrease_factor cfg / L) * (2 - / c) *
    total_loss fs xs (fun j => fst (armijo_iterate cfg fs gs x0 j)) k
  <= dist2 x0 xs - dist2 (fst (armijo_iterate cfg fs gs x0 k)) xs + INR k * (ar_max_stepsize cfg * ar_eps cfg / c).
Proof.
  intros cfg n mu L fs gs xs x0 k H Ha. cbv zeta.
  pose proof (floor_pos cfg n mu L fs gs xs x0 H) as Hp. unfold armijo_floor in Hp.
  set (fl := Rmin (ar_max_stepsize cfg) (2 * aggressiveness cfg * decrease_factor cfg / L)) in *.
  assert (Hc : 0 <= 2 - / (1 - aggressiveness cfg)) by (apply inv_c_le2; lra).
  assert (Hci : 0 < / (1 - aggressiveness cfg)) by (apply Rinv_0_lt_compat; lra).
  induction k as [|k IH]; [cbn [total_loss armijo_iterate fst INR]; lra|].
  cbn [total_loss]. destruct (C74_step cfg n mu L fs gs xs x0 k H) as [[Hs1 Hs2] Hd]. cbv zeta in *. fold fl in Hs1.
  pose proof (loss_nonneg cfg n mu L fs gs xs x0 k H) as Hl.
  destruct H as (_ & _ & _ & _ & _ & He & _ & _ & Hmu & _). 
  set (s := ar_stepsize (snd (armijo_iterate cfg fs gs x0 (S k)))) in *.
  set (x := fst (armijo_iterate cfg fs gs x0 k)) in *. set (x' := fst (armijo_iterate cfg fs gs x0 (S k))) in *.
  rewrite S_INR.
  assert (H1 : fl * (2 - / (1 - aggressiveness cfg)) * (fs k x - fs k xs) <= s * (2 - / (1 - aggressiveness cfg)) * (fs k x - fs k xs)).
  { apply Rmult_le_compat_r; [exact Hl|]. apply Rmult_le_compat_r; [exact Hc|exact Hs1]. }
  assert (H2 : s * ar_eps cfg / (1 - aggressiveness cfg) <= ar_max_stepsize cfg * ar_eps cfg / (1 - aggressiveness cfg)).
  { unfold Rdiv. apply Rmult_le_compat_r; [lra|]. apply Rmult_le_compat_r; lra. }
  assert (0 <= mu * s * dist2 x xs) by (repeat apply Rmult_le_pos; try lra; apply dist2_nonneg).
  rewrite Rmult_plus_distr_l. lra.
Qed.
Print Assumptions C74_total_loss.

(** Strongly convex batches: linear convergence to the common minimiser, at a rate that does not
    depend on the batches or on their order. *)
Theorem C74_linear : forall cfg n mu L fs gs xs x0 k, interp_setting cfg n mu L fs gs xs x0 ->
  aggressiveness cfg <= / 2 -> 0 < mu <= L ->
  let c := 1 - aggressiveness cfg in
  let fl := Rmin (ar_max_stepsize cfg) (2 * aggressiveness cfg * decrease_factor cfg / L) in
  0 <= 1 - mu * fl < 1 /\
  dist2 (fst (armijo_iterate cfg fs gs x0 k)) xs <= (1 - mu * fl) ^ k * dist2 x0 xs + ar_max_stepsize cfg * ar_eps cfg / (c * mu * fl).
Proof.
  intros cfg n mu L fs gs xs x0 k H Ha HmuL. cbv zeta.
  pose proof (floor_pos cfg n mu L fs gs xs x0 H) as Hp. unfold armijo_floor in Hp.
  assert (HfL : Rmin (ar_max_stepsize cfg) (2 * aggressiveness cfg * decrease_factor cfg / L) * L <= 1).
  { destruct H as (_ & _ & Hd & _ & _ & _ & Hag & HL & _).
    apply Rle_trans with (2 * aggressiveness cfg * decrease_factor cfg / L * L); [apply Rmult_le_compat_r; [lra|apply Rmin_r]|].
    unfold Rdiv. rewrite Rmult_assoc, Rinv_l by lra. nra. }
  set (fl := Rmin (ar_max_stepsize cfg) (2 * aggressiveness cfg * decrease_factor cfg / L)) in *.
  assert (Hr : 0 <= 1 - mu * fl < 1) by (split; nra). split; [exact Hr|].
  set (c := 1 - aggressiveness cfg). assert (Hc0 : 0 < c) by (unfold c; destruct H as (_ & _ & _ & _ & _ & _ & Hag & _); lra).
  assert (Hc : 0 <= 2 - / c) by (apply inv_c_le2; unfold c; lra).
  assert (Hci : 0 < / c) by (apply Rinv_0_lt_compat; lra).
  assert (Hme : 0 <= ar_max_stepsize cfg * ar_eps cfg / c).
  { destruct H as (_ & _ & _ & _ & Hm & He & _). unfold Rdiv. repeat apply Rmult_le_pos; lra. }
  set (B := ar_max_stepsize cfg * ar_eps cfg / (c * mu * fl)).
  assert (EB : B = (1 - mu * fl) * B + ar_max_stepsize cfg * ar_eps cfg / c) by (unfold B; field; repeat split; lra).
  assert (HB : 0 <= B).
  { unfold B. replace (ar_max_stepsize cfg * ar_eps cfg / (c * mu * fl)) with (ar_max_stepsize cfg * ar_eps cfg / c * / (mu * fl)) by (field; repeat split; lra).
    apply Rmult_le_pos; [exact Hme|]. apply Rlt_le, Rinv_0_lt_compat. nra. }
  induction k as [|k IH]; [cbn [pow armijo_iterate fst]; lra|].
  destruct (C74_step cfg n mu L fs gs xs x0 k H) as [[Hs1 Hs2] Hd]. cbv zeta in *. fold fl in Hs1. fold c in Hd.
  pose proof (loss_nonneg cfg n mu L fs gs xs x0 k H) as Hl.
  destruct H as (_ & _ & _ & _ & _ & He & _ & _ & Hmu & _).
  set (s := ar_stepsize (snd (armijo_iterate cfg fs gs x0 (S k)))) in *.
  set (x := fst (armijo_iterate cfg fs gs x0 k)) in *. set (x' := fst (armijo_iterate cfg fs gs x0 (S k))) in *.
  pose proof (dist2_nonneg x xs) as Hdx.
  assert (H1 : 0 <= s * (2 - / c) * (fs k x - fs k xs)) by (repeat apply Rmult_le_pos; lra).
  assert (H2 : s * ar_eps cfg / c <= ar_max_stepsize cfg * ar_eps cfg / c).
  { unfold Rdiv. apply Rmult_le_compat_r; [lra|]. apply Rmult_le_compat_r; lra. }
  assert (H3 : mu * fl * dist2 x xs <= mu * s * dist2 x xs) by (apply Rmult_le_compat_r; [exact Hdx|]; apply Rmult_le_compat_l; lra).
  assert (H4 : (1 - mu * fl) * dist2 x xs <= (1 - mu * fl) * ((1 - mu * fl) ^ k * dist2 x0 xs + B)) by (apply Rmult_le_compat_l; lra).
  cbn [pow]. lra.
Qed.
Print Assumptions C74_linear.

(** The default options do not have this guarantee: aggressiveness 0.9 accepts steps of up to 10 times
    the loss-to-slope ratio.  On two convex, smooth objectives of one variable with the common
    minimiser 0, presented alternately, every default step is 1 and the iterates are (-3)^k. *)
Lemma side_len b x : length (side_g b x) = 1%nat. Proof. reflexivity. Qed.
Lemma len1 (x : vec) : length x = 1%nat -> exists a, x = [a].
Proof. destruct x as [|a [|b x]]; intros H; try discriminate. exists a; reflexivity. Qed.
Ltac sgn_cases a d :=
  try (assert (a * d <= 0) by (assert (0 <= - (a * d)) by (apply Rle_trans with (a * - d); [apply Rmult_le_pos; lra|lra]); lra));
  try (assert (a * d <= 0) by (assert (0 <= - (a * d)) by (apply Rle_trans with (- a * d); [apply Rmult_le_pos; lra|lra]); lra));
  pose proof (Rle_0_sqr a); pose proof (Rle_0_sqr d); pose proof (Rle_0_sqr (a - d)); unfold Rsqr in *; lra.
Lemma side_convex b : grad_convex 1 (side_f b) (side_g b) /\ grad_smooth 1 4 (side_f b) (side_g b).
Proof.
  split; intros x y Hx Hy; destruct (len1 x Hx) as [a ->], (len1 y Hy) as [d ->];
    unfold side_f, side_g, dist2, sqnorm; destruct b; cbn;
    repeat match goal with |- context [Rlt_dec ?u ?v] => destruct (Rlt_dec u v) end; sgn_cases a d.
Qed.
Lemma alt_first eps j a : 0 <= eps -> (if Nat.even j then 0 < a else a < 0) ->
  forall st, ar_stepsize st = 1 ->
  exists st', armijo_update (armijo_default eps) (alt_fs j) (alt_gs j) [a] st = ([-3 * a], st') /\ ar_stepsize st' = 1.
Proof.
  intros He Ha st Hst. unfold armijo_update. cbn [reset armijo_default].
  assert (Er : reset_stepsize (armijo_default eps) (ar_stepsize st) = 1).
  { unfold reset_stepsize. cbn. rewrite Hst. apply Rmin_right. lra. }
  rewrite Er.
  destruct (plain_ls_spec (armijo_default eps) (alt_fs j) [a] (alt_gs j [a]) 1) as (k & Hk & E & Hbad & _); [cbn; lra|cbn; lra|].
  cbv zeta in E. unfold alt_gs in *. rewrite E.
  assert (Eg : side_g (Nat.even j) [a] = [4 * a]).
  { unfold side_g. cbn. destruct (Nat.even j); destruct (Rlt_dec _ _); try lra; f_equal; lra. }
  assert (k = 0%nat).
  { destruct k as [|k]; [reflexivity|]. exfalso. apply (Hbad 0%nat); [lia|]. rewrite Eg.
    unfold armijo_ok, alt_fs, side_f, ar_coef, sqnorm. cbn.
    destruct (Nat.even j); repeat match goal with |- context [Rlt_dec ?u ?v] => destruct (Rlt_dec u v) end; try lra; nra. }
  subst k. rewrite Eg. destruct (Req_EM_T (ar_momentum (armijo_default eps)) 0) as [_|Hm]; [|exfalso; apply Hm; reflexivity].
  eexists. split; [apply (f_equal2 pair); [|reflexivity]|]; cbn; [f_equal; lra|lra].
Qed.
Theorem C74_default_refuted : forall eps, 0 <= eps ->
  (forall j, grad_convex 1 (alt_fs j) (alt_gs j) /\ grad_smooth 1 4 (alt_fs j) (alt_gs j) /\ grad_shape 1 (alt_gs j)) /\
  interpolates 1 alt_fs [0] /\
  (forall k, fst (armijo_iterate (armijo_default eps) alt_fs alt_gs [1] k) = [(-3) ^ k]) /\
  (forall k, alt_fs k (fst (armijo_iterate (armijo_default eps) alt_fs alt_gs [1] k)) = 2 * 9 ^ k).
Proof.
  intros eps He. split; [intros j; destruct (side_convex (Nat.even j)); repeat split; auto; intros x _; reflexivity|].
  split.
  { split; [reflexivity|]. intros j y Hy. destruct (len1 y Hy) as [a ->]. unfold alt_fs, side_f. destruct (Nat.even j); cbn;
      repeat match goal with |- context [Rlt_dec ?u ?v] => destruct (Rlt_dec u v) end; nra. }
  assert (Hsign : forall k, if Nat.even k then 0 < (-3) ^ k else (-3) ^ k < 0).
  { induction k as [|k IH]; [simpl; lra|]. rewrite Nat.even_succ, <- Nat.negb_even. cbn [pow]. destruct (Nat.even k); cbn [negb]; lra. }
  assert (H : forall k, exists st, armijo_iterate (armijo_default eps) alt_fs alt_gs [1] k = ([(-3) ^ k], st) /\ ar_stepsize st = 1).
  { induction k as [|k (st & E & Hs)]; [eexists; split; [reflexivity|reflexivity]|].
    cbn [armijo_iterate]. rewrite E. destruct (alt_first eps k ((-3) ^ k) He (Hsign k) st Hs) as (st' & E' & Hs').
    exists st'. split; [exact E'|exact Hs']. }
  assert (Hx : forall k, fst (armijo_iterate (armijo_default eps) alt_fs alt_gs [1] k) = [(-3) ^ k])
    by (intros k; destruct (H k) as (st & E & _); rewrite E; reflexivity).
  split; [exact Hx|]. intros k. etransitivity; [exact (f_equal (alt_fs k) (Hx k))|].
  pose proof (Hsign k) as Hk. replace 9 with ((-3) * (-3)) by lra. rewrite Rpow_mult_distr.
  unfold alt_fs, side_f. cbn [nth]. destruct (Nat.even k); destruct (Rlt_dec _ _); lra.
Qed.
Print Assumptions C74_default_refuted.

(** The hypotheses hold for the quadratics x^2/2 and 2 x^2 taken in turn (mu = 1, L = 4), with
    aggressiveness 1/2, from the point 5. *)
Definition quad_fs (j : nat) (x : vec) : R := (if Nat.even j then / 2 else 2) * (nth 0 x 0 * nth 0 x 0).
Definition quad_gs (j : nat) (x : vec) : vec := [(if Nat.even j then 1 else 4) * nth 0 x 0].
Definition quad_cfg : armijo_config :=
  {| aggressiveness := / 2; decrease_factor := / 2; increase_factor := 3 / 2; reset := Increase;
     ar_momentum := 0; ar_max_stepsize := 1; ar_maxls := 15; ar_eps := 0 |}.
Example C74_example : interp_setting quad_cfg 1 1 4 quad_fs quad_gs [0] [5] /\
  (forall k, dist2 (fst (armijo_iterate quad_cfg quad_fs quad_gs [5] k)) [0] <= (7 / 8) ^ k * 25).
Proof.
  assert (H : interp_setting quad_cfg 1 1 4 quad_fs quad_gs [0] [5]).
  { unfold interp_setting. cbn [reset ar_momentum decrease_factor increase_factor ar_max_stepsize ar_eps aggressiveness ar_maxls quad_cfg].
    split; [discriminate|]. repeat split; try lra.
    - intros j y Hy. destruct (len1 y Hy) as [a ->]. unfold quad_fs. cbn. destruct (Nat.even j); nra.
    - intros x y Hx Hy. destruct (len1 x Hx) as [a ->], (len1 y Hy) as [d ->]. pose proof (Rle_0_sqr (a - d)) as Hq. unfold Rsqr in Hq. unfold quad_fs, quad_gs, dist2, sqnorm. destruct (Nat.even j); cbn; lra.
    - intros x y Hx Hy. destruct (len1 x Hx) as [a ->], (len1 y Hy) as [d ->]. pose proof (Rle_0_sqr (a - d)) as Hq. unfold Rsqr in Hq. unfold quad_fs, quad_gs, dist2, sqnorm. destruct (Nat.even j); cbn; lra. }
  split; [exact H|]. intros k.
  destruct (C74_linear quad_cfg 1 1 4 quad_fs quad_gs [0] [5] k H) as [_ Hk]; [cbn; lra|lra|].
  cbv zeta in Hk. cbn [aggressiveness decrease_factor ar_max_stepsize ar_eps quad_cfg] in Hk.
  replace (Rmin 1 (2 * / 2 * / 2 / 4)) with (/ 8) in Hk by (rewrite Rmin_right; lra).
  unfold dist2 at 2, sqnorm in Hk. cbn in Hk.
  replace (1 - 1 * / 8) with (7 / 8) in Hk by lra.
  eapply Rle_trans; [exact Hk|]. rewrite Rmult_0_r. unfold Rdiv. rewrite Rmult_0_l. lra.
Qed.
