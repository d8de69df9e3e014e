(** C69: linear convergence of BoxCDQP and BlockCoordinateDescent on strongly convex problems. *)
From Coq Require Import Reals List Lra Lia Bool Arith.
From Verif Require Import Prelude Vec Mat Proj ProjProofs Prox ProxProofs Loss LossProofs Run ProxGrad ProxGradProofs ProxGradTheorems QuasiNewton QuasiNewtonProofs CDQP CDQPProofs CDQPTheorems Objective ObjectiveProofs ObjectiveTheorems BlockCD BlockCDProofs BlockCDTheorems OptError OptErrorProofs CDConvergence CDConvergenceProofs.
Import ListNotations.
Open Scope R_scope.
Lemma iter_S {T} n (g : T -> T) x : Nat.iter (S n) g x = g (Nat.iter n g x).
Proof. reflexivity. Qed.
Lemma iter_S_r {T} n (g : T -> T) x : Nat.iter (S n) g x = Nat.iter n g (g x).
Proof. induction n as [|n IH]; [reflexivity|]. change (g (Nat.iter (S n) g x) = g (Nat.iter n g (g x))). rewrite IH. reflexivity. Qed.

(** ** BoxCDQP: smallest eigenvalue of Q at least mu, entries at most M in absolute value. *)
(** After t epochs the suboptimality against any feasible point has shrunk by factor^t, with a factor
    below 1 that depends only on n M / mu. *)
Theorem C69_cdqp_rate : forall Q c l u n mu M x0 z t, qp_problem Q c l u n -> qp_strongly_convex n mu Q ->
  (forall i j, (i < n)%nat -> (j < n)%nat -> Rabs (entry Q i j) <= M) -> in_box l u x0 -> in_box l u z ->
  let q := cd_factor (cdqp_kappa n mu M) in
  0 <= q < 1 /\
  qp_objective Q c (cdqp_iterate Q c l u x0 t) - qp_objective Q c z <= q ^ t * (qp_objective Q c x0 - qp_objective Q c z).
Proof.
  intros Q c l u n mu M x0 z t HP HS HM Hin Hz q. assert (Hq : 0 <= q < 1) by (apply factor_range, kappa_nonneg). split; [exact Hq|].
  unfold cdqp_iterate. induction t as [|t IH]; [simpl; lra|].
  destruct (cd_iter_inv Q c l u n x0 t HP Hin) as [I1 _]. cbv zeta in I1. rewrite iter_S. destruct (Nat.iter t (cd_update Q c l u) (x0, cd_init)) as [x st]. cbn [fst] in *.
  unfold cd_update. rewrite (cd_epoch_Xk Q c l u n x (in_box_length Q c l u n HP x I1)). cbn [fst].
  pose proof (epoch_gap Q c l u n mu M HP HS HM x z I1 Hz) as G. cbv zeta in G.
  eapply Rle_trans; [apply (factor_step (cdqp_kappa n mu M) (qp_objective Q c x - qp_objective Q c z)); [apply kappa_nonneg|]|].
  - eapply Rle_trans; [exact G|]. right. ring.
  - fold q. simpl pow. rewrite Rmult_assoc. apply Rmult_le_compat_l; [lra|exact IH].
Qed.
Print Assumptions C69_cdqp_rate.
(** Distance to the minimiser, and size of the reported error. *)
Theorem C69_cdqp_distance : forall Q c l u n mu M x0 xs t, qp_problem Q c l u n -> qp_strongly_convex n mu Q ->
  (forall i j, (i < n)%nat -> (j < n)%nat -> Rabs (entry Q i j) <= M) -> in_box l u x0 -> box_minimiser Q c l u xs ->
  let q := cd_factor (cdqp_kappa n mu M) in let gap := qp_objective Q c x0 - qp_objective Q c xs in
  dist2 (cdqp_iterate Q c l u x0 t) xs <= 2 / mu * (q ^ t * gap) /\
  exists er, cd_error (snd (Nat.iter (S t) (cd_update Q c l u) (x0, cd_init))) = Fin er /\ 0 <= er /\ er * er <= 2 * INR n / mu * (q ^ t * gap).
Proof.
  intros Q c l u n mu M x0 xs t HP HS HM Hin Hm q gap. destruct (C69_cdqp_rate Q c l u n mu M x0 xs t HP HS HM Hin (proj1 Hm)) as [Hq Hr]. fold q gap in Hq, Hr. pose proof (proj1 HS) as Hmu.
  destruct (cd_iter_inv Q c l u n x0 t HP Hin) as [I1 _]. cbv zeta in I1. split.
  - pose proof (qp_min_lower Q c l u n mu M (cdqp_iterate Q c l u x0 t) xs HP HS HM Hm I1) as A.
    apply (Rmult_le_reg_l (mu / 2)); [lra|]. replace (mu / 2 * (2 / mu * (q ^ t * gap))) with (q ^ t * gap) by (field; lra). lra.
  - unfold cdqp_iterate in Hr. rewrite iter_S. destruct (Nat.iter t (cd_update Q c l u) (x0, cd_init)) as [x st]. cbn [fst] in *. pose proof (in_box_length Q c l u n HP x I1) as Hx.
    unfold cd_update. rewrite (cd_epoch_Xk Q c l u n x Hx). cbn [snd cd_error]. eexists. split; [reflexivity|].
    pose proof (epoch_descent Q c l u n HP x Hx I1 mu n (le_n n) (diag_ge Q c l u n mu HP HS)) as Dc. pose proof (proj2 Hm _ (epoch_box Q c l u n HP x Hx)) as Hb.
    rewrite (Ek_norm1 Q c l u n HP x Hx n (le_n n)). split; [apply norm1_nonneg|].
    pose proof (norm1_sq (vsub (Xk Q c l u x n) x)) as N. rewrite (vsub_len n) in N by (try exact Hx; apply (Xk_length Q c l u n HP x Hx); lia).
    eapply Rle_trans; [exact N|]. unfold dist2, sqnorm in Dc. set (d := dot _ _) in *. replace (2 * INR n / mu * (q ^ t * gap)) with (INR n * (2 / mu * (q ^ t * gap))) by (field; lra).
    apply Rmult_le_compat_l; [apply pos_INR|]. apply (Rmult_le_reg_l (mu / 2)); [lra|]. replace (mu / 2 * (2 / mu * (q ^ t * gap))) with (q ^ t * gap) by (field; lra). lra.
Qed.
Print Assumptions C69_cdqp_distance.
(** Number of iterations: run stops at tol by iteration K + 1 as soon as q^K is small enough. *)
Theorem C69_cdqp_run : forall Q c l u n mu M x0 xs K maxiter tol, qp_problem Q c l u n -> qp_strongly_convex n mu Q ->
  (forall i j, (i < n)%nat -> (j < n)%nat -> Rabs (entry Q i j) <= M) -> in_box l u x0 -> box_minimiser Q c l u xs ->
  let q := cd_factor (cdqp_kappa n mu M) in let gap := qp_objective Q c x0 - qp_objective Q c xs in
  0 <= tol -> 2 * INR n / mu * (q ^ K * gap) <= tol * tol -> (K < maxiter)%nat ->
  let '(x, st) := cd_run Q c l u maxiter tol x0 in
  (cd_iter st <= S K)%nat /\ exists er, cd_error st = Fin er /\ er <= tol.
Proof.
  intros Q c l u n mu M x0 xs K maxiter tol HP HS HM Hin Hm q gap Ht HK Hmx.
  destruct (cd_run_spec Q c l u maxiter tol x0 ltac:(lia)) as (k & Hk & -> & Hgo & Hstop).
  assert (Hit : forall k, cd_iter (snd (Nat.iter k (cd_update Q c l u) (x0, cd_init))) = k).
  { clear. induction k as [|k IH]; [reflexivity|]. simpl. destruct (Nat.iter k (cd_update Q c l u) (x0, cd_init)) as [x st]. unfold cd_update. destruct (cd_epoch Q c l u x) as [a b]. cbn [snd cd_iter] in *. rewrite IH. reflexivity. }
  destruct (C69_cdqp_distance Q c l u n mu M x0 xs K HP HS HM Hin Hm) as (_ & er & Ee & He0 & He). fold q gap in He.
  assert (Her : er <= tol).
  { apply Rnot_lt_le. intros Hlt. assert (tol * tol < er * er) by (apply Rmult_le_0_lt_compat; lra). lra. }
  assert (HkK : (k <= S K)%nat).
  { destruct (Nat.le_gt_cases k (S K)) as [|Hlt]; [assumption|]. specialize (Hgo (S K) ltac:(lia)). rewrite Ee in Hgo. unfold xgtb in Hgo. destruct (Rlt_dec tol er); [lra|discriminate]. }
  pose proof (Hit k) as Hitk. assert (Hf : xgtb (cd_error (snd (Nat.iter k (cd_update Q c l u) (x0, cd_init)))) tol = false).
  { destruct Hstop as [E|]; [|assumption]. assert (E2 : k = S K) by lia. rewrite E2, Ee. unfold xgtb. destruct (Rlt_dec tol er); [lra|reflexivity]. }
  destruct k as [|k]; [lia|]. rewrite iter_S in *. destruct (Nat.iter k (cd_update Q c l u) (x0, cd_init)) as [x st]. unfold cd_update in *. destruct (cd_epoch Q c l u x) as [x' e].
  cbn [snd cd_iter cd_error] in *. split; [lia|]. exists e. split; [reflexivity|]. unfold xgtb in Hf. destruct (Rlt_dec tol e); [discriminate|lra].
Qed.
Print Assumptions C69_cdqp_run.
(** From any starting point of the right length the iterates converge to the minimiser. *)
Theorem C69_cdqp_converges : forall Q c l u n mu x0 xs, qp_problem Q c l u n -> qp_strongly_convex n mu Q ->
  length x0 = n -> box_minimiser Q c l u xs ->
  forall eps, 0 < eps -> exists N, forall t, (N <= t)%nat -> dist2 (cdqp_iterate Q c l u x0 t) xs < eps.
Proof.
  intros Q c l u n mu x0 xs HP HS Hx Hm eps He. pose proof (proj1 HS) as Hmu.
  set (M := vsum (map norm1 Q)).
  assert (HM : forall i j, (i < n)%nat -> (j < n)%nat -> Rabs (entry Q i j) <= M).
  { intros i j Hi _. pose proof HP as [[HQ _] _]. rewrite <- HQ in Hi. unfold M, entry. clear -Hi. revert i Hi. induction Q as [|r Q' IH]; intros [|i] Hi; simpl in *; try lia.
    - pose proof (norm1_coord r j). assert (0 <= vsum (map norm1 Q')); [|lra]. apply vsum_nonneg, Forall_forall. intros a Ha. apply in_map_iff in Ha. destruct Ha as (b & <- & _). apply norm1_nonneg.
    - specialize (IH i ltac:(lia)). pose proof (norm1_nonneg r). lra. }
  set (x1 := Xk Q c l u x0 n). pose proof (epoch_box Q c l u n HP x0 Hx) as Hb. fold x1 in Hb.
  set (q := cd_factor (cdqp_kappa n mu M)). set (gap := qp_objective Q c x1 - qp_objective Q c xs).
  assert (Hq : 0 <= q < 1) by (apply factor_range, kappa_nonneg). assert (Hg : 0 <= gap) by (pose proof (proj2 Hm _ Hb); unfold gap; lra).
  destruct (pow_lt_1_zero q ltac:(rewrite Rabs_right; lra) (eps / (2 / mu * gap + 1))) as (N & HN).
  { apply Rdiv_lt_0_compat; [exact He|]. assert (0 <= 2 / mu * gap) by (apply Rmult_le_pos; [left; apply Rdiv_lt_0_compat; lra|exact Hg]). lra. }
  exists (S N). intros [|t] Ht; [lia|].
  assert (E : cdqp_iterate Q c l u x0 (S t) = cdqp_iterate Q c l u x1 t).
  { unfold cdqp_iterate. rewrite iter_S_r. unfold cd_update at 2. rewrite (cd_epoch_Xk Q c l u n x0 Hx). fold x1. clear.
    assert (G : forall a b, fst (Nat.iter t (cd_update Q c l u) (x1, a)) = fst (Nat.iter t (cd_update Q c l u) (x1, b))).
    { intros a b. induction t as [|t IH]; [reflexivity|]. rewrite !iter_S. destruct (Nat.iter t (cd_update Q c l u) (x1, a)) as [y sa]. destruct (Nat.iter t (cd_update Q c l u) (x1, b)) as [y' sb].
      cbn [fst] in IH. subst y'. unfold cd_update. destruct (cd_epoch Q c l u y). reflexivity. }
    apply G. }
  rewrite E. destruct (C69_cdqp_distance Q c l u n mu M x1 xs t HP HS HM Hb Hm) as (A & _). cbv zeta in A. fold q gap in A.
  specialize (HN t ltac:(lia)). rewrite Rabs_right in HN by (apply Rle_ge, pow_le; lra). eapply Rle_lt_trans; [exact A|].
  set (w := 2 / mu * gap) in *. assert (W : 0 <= w) by (unfold w; apply Rmult_le_pos; [left; apply Rdiv_lt_0_compat; lra|exact Hg]).
  replace (2 / mu * (q ^ t * gap)) with (q ^ t * w) by (unfold w; ring).
  apply Rle_lt_trans with (q ^ t * (w + 1)); [apply Rmult_le_compat_l; [apply pow_le; lra|lra]|].
  apply (Rmult_lt_compat_r (w + 1)) in HN; [|lra]. unfold Rdiv in HN. rewrite Rmult_assoc, Rinv_l, Rmult_1_r in HN by lra. exact HN.
Qed.
Print Assumptions C69_cdqp_converges.

(** ** BlockCoordinateDescent: smooth part mu-strongly convex with Lf-Lipschitz block gradients, column
    constants in [h, Lmax]; any penalty with its prox. *)
Theorem C69_bcd_rate : forall m n k f D r prox mu h Lmax Lf x0 Z t x st, bcd_problem m n k f D r prox -> bcd_strongly_convex n k mu f ->
  bcd_lipschitz n k Lf f -> 0 < h -> (forall i, (i < n)%nat -> h <= nth i (columnwise f) 0 <= Lmax) ->
  mat_shape n k x0 -> blocks_in D x0 -> mat_shape n k Z -> blocks_in D Z ->
  Nat.iter t (bcd_update k f prox) (Some (x0, bcd_init k f x0)) = Some (x, st) ->
  let q := cd_factor (bcd_kappa n mu h Lmax Lf) in
  0 <= q < 1 /\ bcd_objective k f r x - bcd_objective k f r Z <= q ^ t * (bcd_objective k f r x0 - bcd_objective k f r Z).
Proof.
  intros m n k f D r prox mu h Lmax Lf x0 Z t x st HP HS HLip Hh Hcol Hx HD HZ HDZ E q.
  pose proof (bcd_kappa_nonneg n k f mu h Lmax Lf HS Hh) as K0. assert (Hq : 0 <= q < 1) by (apply factor_range; exact K0). split; [exact Hq|].
  pose proof (problem_pl m n k f D r prox HP) as Hpl. pose proof HP as (Hs & HL & _). revert x st E. induction t as [|t IH]; intros x st E.
  { simpl in E. injection E as <- <-. simpl. lra. }
  destruct (C31_cache m n k f prox x0 t Hs HL Hpl Hx) as (y & sy & Ey & Y1 & _ & Y3 & Y4). destruct (iter_inv m n k f D r prox x0 t HP Hx) as (y' & sy' & Ey' & _ & _ & Y5).
  rewrite Ey in Ey'. injection Ey' as <- <-. destruct (Y5 HD) as [Y6 _]. specialize (IH y sy Ey). rewrite iter_S, Ey in E.
  rewrite (update_consistent m n k f prox Hs Hpl HL y sy Y1 (conj Y3 Y4)) in E. injection E as <- _.
  pose proof (bcd_epoch_gap m n k f D r prox mu h Lmax Lf HP HS HLip Hh Hcol y Z Y1 Y6 HZ HDZ) as G. cbv zeta in G.
  eapply Rle_trans; [apply (factor_step (bcd_kappa n mu h Lmax Lf) (bcd_objective k f r y - bcd_objective k f r Z)); [exact K0|]|].
  - eapply Rle_trans; [exact G|]. right. ring.
  - fold q. simpl pow. rewrite Rmult_assoc. apply Rmult_le_compat_l; [lra|exact IH].
Qed.
Print Assumptions C69_bcd_rate.
Theorem C69_bcd_distance : forall m n k f D r prox mu h Lmax Lf x0 Xs t, bcd_problem m n k f D r prox -> bcd_strongly_convex n k mu f ->
  bcd_lipschitz n k Lf f -> 0 < h -> (forall i, (i < n)%nat -> h <= nth i (columnwise f) 0 <= Lmax) ->
  mat_shape n k x0 -> blocks_in D x0 -> bcd_minimiser n k f D r Xs ->
  let q := cd_factor (bcd_kappa n mu h Lmax Lf) in let gap := bcd_objective k f r x0 - bcd_objective k f r Xs in
  exists x st x' st' er, Nat.iter t (bcd_update k f prox) (Some (x0, bcd_init k f x0)) = Some (x, st) /\
    fdist2 x Xs <= 2 / mu * (q ^ t * gap) /\
    Nat.iter (S t) (bcd_update k f prox) (Some (x0, bcd_init k f x0)) = Some (x', st') /\
    bcd_error st' = Fin er /\ 0 <= er /\ er * er <= 2 / h * (q ^ t * gap).
Proof.
  intros m n k f D r prox mu h Lmax Lf x0 Xs t HP HS HLip Hh Hcol Hx HD Hm q gap. pose proof (proj1 HS) as Hmu.
  destruct (C31_step m n k f D r prox x0 t HP Hx) as (x & st & x' & st' & E & Eu & Ee & Hx' & HD' & Hdec).
  destruct (iter_inv m n k f D r prox x0 t HP Hx) as (y & sy & Ey & Y1 & _ & Y2). rewrite E in Ey. injection Ey as <- <-. destruct (Y2 HD) as [Y3 _].
  pose proof Hm as (M1 & M2 & M3).
  destruct (C69_bcd_rate m n k f D r prox mu h Lmax Lf x0 Xs t x st HP HS HLip Hh Hcol Hx HD M1 M2 E) as [Hq Hr]. fold q gap in Hq, Hr.
  exists x, st, x', st', (sqrt (fdist2 x' x)). split; [exact E|]. split.
  { pose proof (bcd_min_lower m n k f D r prox mu h Lmax Lf x Xs HP HS HLip Hh Hcol Hm Y1 Y3) as A.
    apply (Rmult_le_reg_l (mu / 2)); [lra|]. replace (mu / 2 * (2 / mu * (q ^ t * gap))) with (q ^ t * gap) by (field; lra). lra. }
  split; [rewrite iter_S, E; exact Eu|]. split; [exact Ee|]. split; [apply sqrt_pos|]. rewrite sqrt_sqrt by apply mdot_self_nonneg.
  specialize (Hdec Y3 h (fun i Hi => proj1 (Hcol i Hi))). specialize (M3 x' Hx' HD').
  apply (Rmult_le_reg_l (h / 2)); [lra|]. replace (h / 2 * (2 / h * (q ^ t * gap))) with (q ^ t * gap) by (field; lra). lra.
Qed.
Print Assumptions C69_bcd_distance.
Theorem C69_bcd_run : forall m n k f D r prox mu h Lmax Lf x0 Xs K maxiter tol, bcd_problem m n k f D r prox -> bcd_strongly_convex n k mu f ->
  bcd_lipschitz n k Lf f -> 0 < h -> (forall i, (i < n)%nat -> h <= nth i (columnwise f) 0 <= Lmax) ->
  mat_shape n k x0 -> blocks_in D x0 -> bcd_minimiser n k f D r Xs ->
  let q := cd_factor (bcd_kappa n mu h Lmax Lf) in let gap := bcd_objective k f r x0 - bcd_objective k f r Xs in
  0 <= tol -> 2 / h * (q ^ K * gap) <= tol * tol -> (K < maxiter)%nat ->
  exists x st er, bcd_run k f prox maxiter tol x0 = Some (x, st) /\ (bcd_iter st <= S K)%nat /\ bcd_error st = Fin er /\ er <= tol.
Proof.
  intros m n k f D r prox mu h Lmax Lf x0 Xs K maxiter tol HP HS HLip Hh Hcol Hx HD Hm q gap Ht HK Hmx.
  destruct (bcd_run_spec k f prox maxiter tol x0 ltac:(lia)) as (j & Hj & Er & Hgo & Hstop). cbv zeta in Er, Hgo, Hstop. rewrite Er.
  destruct (C69_bcd_distance m n k f D r prox mu h Lmax Lf x0 Xs K HP HS HLip Hh Hcol Hx HD Hm) as (_ & _ & x' & st' & er & _ & _ & E' & Ee & He0 & He). fold q gap in He.
  assert (Her : er <= tol).
  { apply Rnot_lt_le. intros Hlt. assert (tol * tol < er * er) by (apply Rmult_le_0_lt_compat; lra). lra. }
  assert (HjK : (j <= S K)%nat).
  { destruct (Nat.le_gt_cases j (S K)) as [|Hlt]; [assumption|]. specialize (Hgo (S K) ltac:(lia)). rewrite E', Ee in Hgo. unfold xgtb in Hgo. destruct (Rlt_dec tol er); [lra|discriminate]. }
  pose proof (problem_pl m n k f D r prox HP) as Hpl. pose proof HP as (Hs & HL & _).
  destruct (C31_cache m n k f prox x0 j Hs HL Hpl Hx) as (y & sy & Ey & _ & Ei & _). destruct j as [|j]; [lia|].
  destruct (C31_step m n k f D r prox x0 j HP Hx) as (w & sw & w' & sw' & Ew & Eu & Eew & _). rewrite iter_S, Ew, Eu in Ey. injection Ey as <- <-.
  rewrite iter_S, Ew, Eu in *. exists w', sw', (sqrt (fdist2 w' w)). split; [reflexivity|]. split; [lia|]. split; [exact Eew|].
  destruct Hstop as [Es|Hs0].
  - assert (j = K) by lia. subst j. rewrite Ew, Eu in E'. injection E' as <- <-. rewrite Eew in Ee. injection Ee as <-. exact Her.
  - rewrite Eew in Hs0. unfold xgtb in Hs0. destruct (Rlt_dec tol (sqrt (fdist2 w' w))); [discriminate|lra].
Qed.
Print Assumptions C69_bcd_run.

(** *** When the hypotheses hold: a strongly convex function with Lipschitz gradient of an injective linear
    map; in particular least squares with full column rank. *)
Theorem C69_injective : forall m n k f c s cl, bcd_shapes m n k f -> subfun_strongly_convex m k c f -> subfun_lipschitz m k cl f ->
  bounded_below n k s (linop f) -> 0 < c -> 0 < s ->
  bcd_strongly_convex n k (c * s) f /\ bcd_lipschitz n k (cl * mdot (linop f) (linop f)) f.
Proof. intros. split; [apply (comp_strongly_convex m); assumption|apply (comp_lipschitz m); assumption]. Qed.
Print Assumptions C69_injective.
Theorem C69_least_squares_lasso : forall m n k X Y lam s, mat_shape m n X -> mat_shape m k Y -> (0 < m)%nat -> (0 < k)%nat ->
  (forall i, (i < n)%nat -> col i X <> vzero m) -> 0 <= lam -> 0 < s -> bounded_below n k s X ->
  let f := least_squares n k X Y in
  bcd_problem m n k f (in_dim k) (fun w => lam * norm1 w) (fun v t => prox_lasso_scalar v lam t) /\
  bcd_strongly_convex n k (s / INR (m * k)) f /\ bcd_lipschitz n k (mdot X X / INR (m * k)) f.
Proof.
  intros m n k X Y lam s HX HY Hm Hk Hcol Hlam Hs Hb f. destruct (C31_least_squares_lasso m n k X Y lam HX HY Hm Hk Hcol Hlam) as (HP & _). cbv zeta in HP. fold f in HP. split; [exact HP|].
  assert (HN : 1 <= INR (m * k)) by (change 1 with (INR 1); apply le_INR; nia).
  assert (Hi : 0 < / INR (m * k)) by (apply Rinv_0_lt_compat; lra).
  unfold Rdiv. rewrite (Rmult_comm s), (Rmult_comm (mdot X X)).
  apply (C69_injective m n k f (/ INR (m * k)) s (/ INR (m * k)) (proj1 HP)); try assumption.
  - intros P Q [HPl _] [HQl _]. unfold f, fdist2. simpl. rewrite (shape_length m k Y HY), mdot_msmul_l.
    rewrite (mdot_expand P Q Y) by (rewrite (shape_length m k Y HY); assumption). right. replace 0.5 with (/ 2) by lra. field. lra.
  - split; [lra|]. intros P Q [HPl _] [HQl _]. pose proof (shape_length m k Y HY) as HYl. unfold f, fdist2. simpl. rewrite HYl. set (i := / INR (m * k)). right.
    repeat (rewrite mdot_msub_l || rewrite mdot_msub_r || rewrite mdot_msmul_l || rewrite mdot_msmul_r || unfold msmul at 1; rewrite ?map_length, ?msub_length, ?HPl, ?HQl, ?HYl; try reflexivity). 
    all: fold (msmul i (msub P Y)); ring.
Qed.
Print Assumptions C69_least_squares_lasso.

(** Non-vacuity: a coupled 2 x 2 box problem, and a full rank lasso problem with two blocks. *)
Example C69_example :
  qp_problem [[2; 1]; [1; 2]] [-3; -3] [0; 0] [1; 1] 2 /\ qp_strongly_convex 2 1 [[2; 1]; [1; 2]] /\ box_minimiser [[2; 1]; [1; 2]] [-3; -3] [0; 0] [1; 1] [1; 1] /\
  bounded_below 2 1 (1 / 4) [[1; 1]; [0; 1]] /\
  cd_factor (cdqp_kappa 2 1 2) = 16 / 17.
Proof.
  split; [apply C30_example|]. split.
  { split; [lra|]. intros [|a [|b [|? v]]] H; try discriminate. simpl. pose proof (Rle_0_sqr (a + b)). unfold Rsqr in *. lra. }
  split.
  { split; [split; [reflexivity|]; intros [|[|i]] Hi; simpl in *; try lia; lra|]. intros [|a [|b [|? v]]] [Hl Hz]; try discriminate. pose proof (Hz 0%nat ltac:(simpl; lia)). pose proof (Hz 1%nat ltac:(simpl; lia)).
    simpl in *. unfold qp_objective. simpl. pose proof (Rle_0_sqr (a - 1 + (b - 1) / 2)). pose proof (Rle_0_sqr (b - 1)). unfold Rsqr in *. lra. }
  split.
  { intros W [HW HF]. destruct W as [|u [|v [|? ?]]]; try discriminate. inversion HF as [|? ? H1 HF']; subst. inversion HF' as [|? ? H2 _]; subst.
    destruct u as [|a [|? ?]]; try discriminate. destruct v as [|b [|? ?]]; try discriminate. unfold mdot. simpl. pose proof (Rle_0_sqr (a + 4 / 3 * b)). pose proof (Rle_0_sqr b). unfold Rsqr in *. lra. }
  unfold cd_factor, cdqp_kappa. simpl. field.
Qed.
