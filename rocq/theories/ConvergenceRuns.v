From Coq Require Import String.
From Coq Require Import Reals List Lra Lia Bool Arith Psatz.
From Verif Require Import Prelude Vec Mat Zoom Loss Backtracking BacktrackingTheorems Run QuasiNewton QuasiNewtonProofs Convergence ConvergenceProofs.
Import ListNotations.
Open Scope R_scope.

(** ** L-BFGS runs on a strongly convex function with a Lipschitz gradient *)
Section LbfgsRun.
Variables (n : nat) (mu L : R) (f : vec -> R) (gradf : vec -> vec) (ls : line_search) (cfg : qn_config).
Hypothesis HF : strongly_convex_smooth n mu L f gradf.
Hypothesis Hls : ls_consistent f gradf ls.
Variables (xs : nat -> vec) (sts : nat -> lbfgs_state) (K : nat).
Hypothesis Hx0 : length (xs 0%nat) = n.
Hypothesis Hrun : lbfgs_run f gradf ls cfg xs sts K.
Let m := qn_history_size cfg.
Let gs k := gradf (xs k).
Let HmuL : 0 < mu <= L. Proof. destruct HF as (A & _); exact A. Qed.
Let Hdim : grad_dim n gradf. Proof. destruct HF as (_ & A & _); exact A. Qed.

Lemma run_len k : (k <= K)%nat -> length (xs k) = n.
Proof. intros Hk. destruct Hrun as [R0 R1]. apply (lbfgs_inv f gradf ls cfg n Hdim Hls xs sts K Hx0 R0 R1 k Hk). Qed.
Lemma run_pair_ok j : (j < K)%nat -> pair_ok mu L (pair_at xs gs j).
Proof.
  intros Hj. pose proof (run_len j ltac:(lia)) as A. pose proof (run_len (S j) ltac:(lia)) as B. unfold pair_ok, pair_at, gs. cbn [fst snd].
  split; [apply (ssc_cocoercive n mu L f gradf HF _ _ A B)|apply (ssc_monotone n mu L f gradf HF _ _ A B)].
Qed.
Lemma run_gamma k : (k <= K)%nat -> eig_lower L 0 <= gamma_at (qn_use_gamma cfg) xs gs k <= eig_upper mu L 0.
Proof.
  intros Hk. assert (One : eig_lower L 0 <= 1 <= eig_upper mu L 0).
  { simpl. unfold eig_lower. simpl. pose proof (Rmax_l 1 L). pose proof (Rmax_l 1 (/ mu)). split; [|lra].
    assert (Q : / (Rmax 1 L + 0 * L) <= / 1) by (apply Rinv_le_contravar; lra). rewrite Rinv_1 in Q. exact Q. }
  destruct k as [|k]; [exact One|]. cbn [gamma_at]. destruct (pair_at xs gs k) as [s y] eqn:E.
  destruct (qn_use_gamma cfg); [|exact One]. destruct (Req_EM_T (dot y y) 0) as [Z|Z]; [exact One|].
  pose proof (run_pair_ok k ltac:(lia)) as [P1 P2]. rewrite E in P1, P2. cbn [fst snd] in P1, P2.
  pose proof (dot_self_nonneg y) as Y0. pose proof (dot_self_nonneg s) as S0. pose proof (cauchy_schwarz_sq y s) as CS.
  destruct HmuL as [Hm HL]. assert (Yp : 0 < dot y y) by lra. assert (D0 : 0 < dot y s) by nra.
  unfold eig_lower, eig_upper. simpl INR. rewrite Rmult_0_l, Rplus_0_r. split.
  - eapply Rle_trans; [apply Rinv_le_contravar; [|apply Rmax_r]; lra|].
    apply (Rmult_le_reg_r (dot y y)); [exact Yp|]. unfold Rdiv. rewrite (Rmult_assoc (dot y s)), Rinv_l, Rmult_1_r by lra.
    apply (Rmult_le_reg_l L); [lra|]. rewrite <- Rmult_assoc, Rinv_r, Rmult_1_l by lra. exact P1.
  - eapply Rle_trans; [|apply Rmax_r]. apply (Rmult_le_reg_r (dot y y)); [exact Yp|]. unfold Rdiv. rewrite (Rmult_assoc (dot y s)), Rinv_l, Rmult_1_r by lra.
    apply (Rmult_le_reg_l mu); [lra|]. rewrite <- Rmult_assoc, Rinv_r, Rmult_1_l by lra.
    apply (Rmult_le_reg_r (dot y s)); [exact D0|]. nra.
Qed.
Lemma run_matrix k : (k <= K)%nat -> exists H, mat_shape n n H /\ symmetric n H /\
  eig_bounds n (eig_lower L m) (eig_upper mu L m) H /\ lbfgs_direction cfg (sts k) = smul (-1) (mvec H (gradf (xs k))).
Proof.
  intros Hk. destruct Hrun as [R0 R1]. pose proof (lbfgs_inv f gradf ls cfg n Hdim Hls xs sts K Hx0 R0 R1 k Hk) as (I1 & _ & I3 & _ & _).
  destruct (Nat.eq_dec m 0) as [Em|Em].
  - exists (eye n). split; [apply eye_shape|]. split; [apply eye_sym|]. split.
    + rewrite Em. intros v Hv. rewrite mvec_eye by exact Hv. simpl. pose proof (dot_self_nonneg v) as V0.
      pose proof (run_gamma 0 ltac:(lia)) as G. cbn [gamma_at] in G. simpl in G. nra.
    + unfold lbfgs_direction. fold m. rewrite Em, I3. rewrite mvec_eye by (apply Hdim; exact I1). reflexivity.
  - set (l := last_pairs m k xs gs).
    assert (Hd : pairs_dim n l) by (apply (last_pairs_dim f gradf ls cfg n Hdim Hls xs sts K Hx0 R0 R1 k Hk)).
    exists (bfgs_matrix n (gamma_at (qn_use_gamma cfg) xs gs k) l).
    split; [apply bfgs_matrix_shape; exact Hd|]. split; [apply bfgs_matrix_sym; exact Hd|]. split.
    + assert (Hp : Forall (pair_ok mu L) l).
      { apply Forall_forall. intros p Hp. unfold l, last_pairs in Hp. apply in_map_iff in Hp. destruct Hp as (j & <- & Hj).
        apply in_seq in Hj. apply run_pair_ok. lia. }
      pose proof (eig_matrix n mu L _ l HmuL (run_gamma k Hk) Hd Hp) as B.
      assert (Hlen : (length l <= m)%nat) by (unfold l, last_pairs; rewrite map_length, seq_length; lia).
      apply (eig_weaken n _ _ _ _ _ (eig_lower_mono L _ _ ltac:(lra) Hlen) (eig_upper_mono mu L _ _ HmuL Hlen) B).
    + rewrite (lbfgs_dir f gradf ls cfg n Hdim Hls xs sts K Hx0 R0 R1 k Hk ltac:(unfold m in Em; lia)). fold m gs l. rewrite mvec_smul. reflexivity.
Qed.
Lemma run_next k : (k < K)%nat -> xs (S k) = vadd (xs k) (smul (l_stepsize (sts (S k))) (lbfgs_direction cfg (sts k))).
Proof. intros Hk. destruct Hrun as [R0 R1]. apply (lbfgs_step_facts f gradf ls cfg Hls xs sts K R1 k Hk). Qed.
Lemma run_error k : (k < K)%nat -> l_error (sts (S k)) = Fin (norm2 (gradf (xs (S k)))).
Proof. intros Hk. destruct Hrun as [R0 R1]. apply (lbfgs_step_facts f gradf ls cfg Hls xs sts K R1 k Hk). Qed.

(** Steps above a floor with sufficient decrease give linear convergence. *)
Lemma run_linear c1 floor : 0 < c1 -> 0 < floor -> c1 * floor * (L * eig_upper mu L m) <= 1 / 2 ->
  (forall k, (k < K)%nat -> let t := l_stepsize (sts (S k)) in let d := lbfgs_direction cfg (sts k) in
     0 <= t /\ f (xs (S k)) <= f (xs k) + c1 * t * dot (gradf (xs k)) d /\ (dot (gradf (xs k)) d <> 0 -> floor <= t)) ->
  let r := gap_factor mu c1 floor (eig_lower L m) in
  0 <= r < 1 /\
  (forall z k, length z = n -> (k <= K)%nat -> f (xs k) - f z <= r ^ k * (f (xs 0%nat) - f z)) /\
  (forall k, (k <= K)%nat -> dot (gradf (xs k)) (gradf (xs k)) <= L / mu * r ^ k * dot (gradf (xs 0%nat)) (gradf (xs 0%nat))).
Proof.
  intros Hc Hf Hs Hst r.
  assert (Hr : 0 <= r < 1).
  { apply (factor_range mu L c1 floor _ (eig_upper mu L m)); auto.
    - split; [apply eig_lower_pos; lra|apply eig_lower_le; lra].
    - apply eig_upper_ge; exact HmuL. }
  assert (Hgap : forall z k, length z = n -> (k <= K)%nat -> f (xs k) - f z <= r ^ k * (f (xs 0%nat) - f z)).
  { intros z k Hz Hk. apply (gap_power (fun k => f (xs k) - f z) r K); [lra| |exact Hk]. clear k Hk. intros k Hk.
    destruct (run_matrix k ltac:(lia)) as (H & H1 & H2 & H3 & H4). destruct (Hst k Hk) as (S1 & S2 & S3). rewrite H4 in S2, S3.
    pose proof (run_len k ltac:(lia)) as Hl.
    apply (decrease_gap n mu L f gradf HF (eig_lower L m) (eig_upper mu L m) H (xs k) (eig_lower_pos L m ltac:(lra)) H3 Hl c1 floor (l_stepsize (sts (S k)))); auto.
    intros Q. apply S3. rewrite dot_smul_r. lra. }
  split; [exact Hr|]. split; [exact Hgap|]. intros k Hk.
  destruct (ssc_grad_upper n mu L f gradf HF (xs k) (run_len k Hk)) as (z & Hz & U).
  pose proof (Hgap z k Hz Hk) as G. pose proof (ssc_pl n mu L f gradf HF (xs 0%nat) z Hx0 Hz) as P.
  assert (Rk : 0 <= r ^ k) by (apply pow_le; lra). destruct HmuL as [Hm HL].
  assert (P2 : f (xs 0%nat) - f z <= / (2 * mu) * dot (gradf (xs 0%nat)) (gradf (xs 0%nat))).
  { apply (Rmult_le_reg_l (2 * mu)); [lra|]. rewrite <- Rmult_assoc, Rinv_r, Rmult_1_l by lra. exact P. }
  assert (2 * L * (f (xs k) - f z) <= 2 * L * (r ^ k * (/ (2 * mu) * dot (gradf (xs 0%nat)) (gradf (xs 0%nat))))).
  { apply Rmult_le_compat_l; [lra|]. eapply Rle_trans; [exact G|]. apply Rmult_le_compat_l; assumption. }
  replace (2 * L * (r ^ k * (/ (2 * mu) * dot (gradf (xs 0%nat)) (gradf (xs 0%nat))))) with (L / mu * r ^ k * dot (gradf (xs 0%nat)) (gradf (xs 0%nat))) in H by (field; lra).
  lra.
Qed.
(** Efficient steps. *)
Lemma run_efficient c1 c2 tmin : 0 < c1 -> c1 <= c2 -> c2 < 1 -> 0 < tmin ->
  (forall k, (k < K)%nat -> efficient_step c1 c2 tmin f gradf (xs k) (lbfgs_direction cfg (sts k)) (l_stepsize (sts (S k)))) ->
  let floor := Rmin (wolfe_floor c2 L (eig_upper mu L m)) tmin in
  0 < floor /\ c1 * floor * (L * eig_upper mu L m) <= 1 / 2 /\
  (forall k, (k < K)%nat -> let t := l_stepsize (sts (S k)) in let d := lbfgs_direction cfg (sts k) in
     0 <= t /\ f (xs (S k)) <= f (xs k) + c1 * t * dot (gradf (xs k)) d /\ (dot (gradf (xs k)) d <> 0 -> floor <= t)).
Proof.
  intros Hc1 Hc12 Hc2 Htm Hst floor. destruct HmuL as [Hm HL].
  assert (Hu : 0 < eig_upper mu L m) by (apply eig_upper_pos; split; lra).
  assert (LU : 0 < L * eig_upper mu L m) by nra.
  assert (Wf : wolfe_floor c2 L (eig_upper mu L m) * (L * eig_upper mu L m) = 1 - c2) by (unfold wolfe_floor; field; split; lra).
  assert (Wp : 0 < wolfe_floor c2 L (eig_upper mu L m)) by (unfold wolfe_floor; apply Rdiv_lt_0_compat; lra).
  split; [unfold floor; apply Rmin_glb_lt; assumption|]. split.
  - assert (floor <= wolfe_floor c2 L (eig_upper mu L m)) by apply Rmin_l.
    assert (floor * (L * eig_upper mu L m) <= 1 - c2) by (rewrite <- Wf; apply Rmult_le_compat_r; lra).
    rewrite Rmult_assoc. assert (c1 * (floor * (L * eig_upper mu L m)) <= c1 * (1 - c2)) by (apply Rmult_le_compat_l; lra). nra.
  - intros k Hk t d. destruct (Hst k Hk) as (S1 & S2 & S3). fold t d in S1, S2, S3.
    split; [lra|]. split; [rewrite (run_next k Hk); exact S2|]. intros Q.
    destruct (run_matrix k ltac:(lia)) as (H & H1 & H2 & H3 & H4). pose proof (run_len k ltac:(lia)) as Hl.
    unfold d in *. rewrite H4 in *.
    apply (efficient_floor n mu L f gradf HF (eig_lower L m) (eig_upper mu L m) H (xs k) (eig_lower_pos L m ltac:(lra)) Hu H1 H2 H3 Hl c1 c2 tmin t Hc2).
    + split; [exact S1|]. split; [exact S2|exact S3].
    + intros Z. apply Q. rewrite dot_smul_r. rewrite Z. ring.
Qed.
End LbfgsRun.

(** ** The whole run *)
Lemma run_result_spec {A} maxiter cond (update : A -> result A) (steps : nat -> A) : (0 < maxiter)%nat ->
  (forall k, update (steps k) = Ok (steps (S k))) ->
  exists k, (1 <= k <= maxiter)%nat /\ run_result maxiter cond update (steps 0%nat) = Ok (steps k) /\
    (forall j, (1 <= j < k)%nat -> cond (steps j) = true) /\
    (k = maxiter \/ cond (steps k) = false).
Proof.
  intros Hm Hu. unfold run_result.
  set (upd := fun r => match r with Ok a => update a | Err e => Err e end).
  set (cnd := fun r => match r with Ok a => cond a | Err _ => false end).
  assert (Hit : forall k, Nat.iter k upd (Ok (steps 0%nat)) = Ok (steps k)).
  { induction k as [|k IH]; [reflexivity|]. change (Nat.iter (S k) upd (Ok (steps 0%nat))) with (upd (Nat.iter k upd (Ok (steps 0%nat)))). rewrite IH. apply Hu. }
  destruct (run_loop_spec maxiter cnd upd (Ok (steps 0%nat)) Hm) as (k & Hk & Er & Hc & He).
  exists k. split; [exact Hk|]. split; [rewrite Er; apply Hit|]. split.
  - intros j Hj. specialize (Hc j Hj). rewrite Hit in Hc. exact Hc.
  - destruct He as [He|He]; [left; exact He|right]. rewrite Hit in He. exact He.
Qed.
Lemma pow_small c r eps : 0 <= c -> 0 <= r < 1 -> 0 < eps -> exists N, forall k, (N <= k)%nat -> c * r ^ k <= eps.
Proof.
  intros Hc [Hr0 Hr1] He. destruct (pow_lt_1_zero r ltac:(rewrite Rabs_right; lra) (eps / (c + 1)) ltac:(apply Rdiv_lt_0_compat; lra)) as (N & HN).
  exists N. intros k Hk. specialize (HN k ltac:(lia)). rewrite Rabs_right in HN by (apply Rle_ge, pow_le; exact Hr0).
  assert (c * r ^ k <= c * (eps / (c + 1))) by (apply Rmult_le_compat_l; lra).
  assert (c * (eps / (c + 1)) <= eps). { apply (Rmult_le_reg_r (c + 1)); [lra|]. replace (c * (eps / (c + 1)) * (c + 1)) with (c * eps) by (field; lra). lra. }
  lra.
Qed.

(** ** Armijo backtracking *)
Lemma bt_armijo n mu L f gradf lo hi H x bcfg s0 :
  strongly_convex_smooth n mu L f gradf -> 0 < lo -> 0 < hi -> mat_shape n n H -> symmetric n H -> eig_bounds n lo hi H -> length x = n ->
  condition bcfg = Armijo -> 0 < c1 bcfg < 1 -> tol bcfg = 0 -> 0 < s0 -> 0 < max_stepsize bcfg -> 0 < decrease_factor bcfg <= 1 -> (0 < maxiter bcfg)%nat ->
  max_stepsize bcfg * decrease_factor bcfg ^ (maxiter bcfg - 1) <= 2 * (1 - c1 bcfg) / (L * hi) ->
  let d := smul (-1) (mvec H (gradf x)) in
  let o := bt_line_search bcfg f gradf s0 x (f x) (gradf x) d in
  ls_failed o = false /\ f (vadd x (smul (ls_step o) d)) <= f x + c1 bcfg * ls_step o * dot (gradf x) d /\
  armijo_floor (c1 bcfg) (decrease_factor bcfg) (Rmin (max_stepsize bcfg) s0) L hi <= ls_step o.
Proof.
  intros HF Hlo Hhi HH Hsym HB Hx Hc Hc1 Ht Hs Hm Hdf Hmax Hlast d o.
  assert (HmL : 0 < mu <= L) by (destruct HF as (A & _); exact A).
  assert (Hdim : grad_dim n gradf) by (destruct HF as (_ & A & _); exact A).
  pose proof (step_slope gradf H x) as Sl. pose proof (step_q0 n mu L f gradf HF lo hi H x Hlo HB Hx) as Q0.
  pose proof (step_dd n mu L f gradf HF lo hi H x Hlo Hhi HH Hsym HB Hx) as Dd. fold d in Sl, Dd.
  set (q := dot (gradf x) (mvec H (gradf x))) in *.
  assert (Hdl : length d = n) by (unfold d; rewrite smul_length, mvec_length; apply HH).
  pose proof (C19_backtracking bcfg (fun z => Fin (f z)) gradf true s0 x (f x) (gradf x) (Some d) ltac:(lra) Hs Hm Hdf Hmax) as B.
  cbv zeta in B. cbn [the_direction] in B.
  pose proof (C19_smooth_success bcfg (fun z => Fin (f z)) gradf true s0 x (f x) (gradf x) d L Hc ltac:(lra) ltac:(lra) Hs Hm Hdf Hmax) as S_.
  unfold o, bt_line_search.
  destruct (bt_run bcfg (fun z => Fin (f z)) gradf true s0 x (f x) (gradf x) (Some d)) as [s st]. cbn [ls_failed ls_step].
  destruct B as (k & B1 & B2 & B3 & B4 & B5 & B6 & B7 & B8 & B9 & B10 & B11).
  assert (Dec : done st = true -> f (vadd x (smul s d)) <= f x + c1 bcfg * s * dot (gradf x) d).
  { intros D. apply B6 in D. unfold condition_holds in D. rewrite Hc in D. destruct D as [D _]. cbn [xle_bound] in D. lra. }
  assert (Sm : 0 < Rmin (max_stepsize bcfg) s0) by (apply Rmin_glb_lt; assumption).
  destruct (Req_dec q 0) as [E|E].
  - assert (Zd : d = vzero n).
    { rewrite <- Hdl. apply dot_self_zero. rewrite E in Dd. pose proof (dot_self_nonneg d). lra. }
    assert (Cond : forall t, condition_holds bcfg (fun z => Fin (f z)) gradf x d (gradf x) (f x) t).
    { intros t. unfold condition_holds. rewrite Hc. split; [|exact I]. cbn [xle_bound]. rewrite Sl, E, Zd.
      assert (Ez : vadd x (smul t (vzero n)) = x).
      { apply vec_eq_dot; [rewrite vadd_length, smul_length, vzero_length; lia|]. intros w. autorewrite with vec. ring. }
      rewrite Ez. lra. }
    assert (Dn : done st = true) by (apply B6, Cond).
    assert (k = 0%nat). { destruct k; [reflexivity|]. exfalso. apply (B5 0%nat ltac:(lia)). apply Cond. }
    subst k. split; [rewrite B7, Dn; reflexivity|]. split; [apply Dec; exact Dn|].
    unfold armijo_floor. rewrite B3. simpl. rewrite Rmult_1_r. apply Rmin_l.
  - assert (Qp : 0 < q) by lra.
    assert (Dp : 0 < dot d d).
    { destruct (Rle_lt_or_eq_dec 0 _ (dot_self_nonneg d)) as [P|Z]; [exact P|exfalso].
      pose proof (cauchy_schwarz_sq (gradf x) d) as CS. rewrite <- Z, Sl in CS. nra. }
    assert (LH : 0 < L * hi) by nra.
    assert (Thr : 2 * (1 - c1 bcfg) / (L * hi) <= 2 * (1 - c1 bcfg) * (- dot (gradf x) d) / (L * dot d d)).
    { rewrite Sl. apply (Rmult_le_reg_r (L * hi)); [exact LH|]. unfold Rdiv. rewrite (Rmult_assoc _ (/ (L * hi))), Rinv_l, Rmult_1_r by lra.
      apply (Rmult_le_reg_r (L * dot d d)); [nra|].
      replace (2 * (1 - c1 bcfg) * - - q * / (L * dot d d) * (L * hi) * (L * dot d d)) with (2 * (1 - c1 bcfg) * (L * (hi * q))) by (field; split; lra).
      replace (2 * (1 - c1 bcfg) * (L * dot d d)) with (2 * (1 - c1 bcfg) * (L * dot d d)) by reflexivity.
      apply Rmult_le_compat_l; [lra|]. apply Rmult_le_compat_l; lra. }
    specialize (S_ ltac:(rewrite Sl; lra) ltac:(lra)).
    assert (Up : forall t, 0 < t <= max_stepsize bcfg -> exists v, Fin (f (vadd x (smul t d))) = Fin v /\
        v <= f x + t * dot (gradf x) d + L / 2 * (t * t) * dot d d).
    { intros t Htt. exists (f (vadd x (smul t d))). split; [reflexivity|]. destruct HF as (_ & _ & A).
      assert (Hz : length (vadd x (smul t d)) = n) by (apply vadd_smul_length; assumption).
      destruct (A x _ Hx Hz) as [_ A2].
      assert (E1 : dot (gradf x) (vsub (vadd x (smul t d)) x) = t * dot (gradf x) d) by vring.
      assert (E2 : dist2 (vadd x (smul t d)) x = t * t * dot d d) by vring.
      rewrite E1, E2 in A2. lra. }
    specialize (S_ Up). cbv zeta in S_.
    assert (Hl : Rmin (max_stepsize bcfg) s0 * decrease_factor bcfg ^ (maxiter bcfg - 1) <= 2 * (1 - c1 bcfg) * - dot (gradf x) d / (L * dot d d)).
    { eapply Rle_trans; [|eapply Rle_trans; [exact Hlast|exact Thr]]. apply Rmult_le_compat_r; [apply pow_le; lra|apply Rmin_l]. }
    specialize (S_ Hl). destruct S_ as (S1 & S2 & S3).
    split; [exact S2|]. split; [apply Dec; exact S1|]. unfold armijo_floor. destruct S3 as [S3|S3].
    + rewrite S3. apply Rmin_l.
    + eapply Rle_trans; [apply Rmin_r|]. left. eapply Rle_lt_trans; [|exact S3]. apply Rmult_le_compat_l; [lra|exact Thr].
Qed.

(** ** Searches that are consistent from positive initial steps only *)
Definition guard_ls (f : vec -> R) (gradf : vec -> vec) (ls : line_search) : line_search := fun s0 x v g d =>
  if Rlt_dec 0 s0 then ls s0 x v g d
  else let p := vadd x (smul 0 d) in {| ls_step := 0; ls_params := p; ls_value := f p; ls_grad := gradf p; ls_failed := true |}.
Lemma guard_consistent f gradf ls : ls_consistent_pos f gradf ls -> ls_consistent f gradf (guard_ls f gradf ls).
Proof. intros H s0 x v g d. unfold guard_ls. destruct (Rlt_dec 0 s0) as [P|P]; [apply H; exact P|]. cbn. auto. Qed.
Lemma consistent_pos f gradf ls : ls_consistent f gradf ls -> ls_consistent_pos f gradf ls.
Proof. intros H s0 x v g d _. apply H. Qed.
Lemma guard_take_step f gradf ls cfg x v g d prev k : 0 < qn_max_stepsize cfg -> 0 < qn_increase_factor cfg -> 0 < prev ->
  take_step f gradf (guard_ls f gradf ls) cfg x v g d prev k = take_step f gradf ls cfg x v g d prev k.
Proof.
  intros H1 H2 H3. unfold take_step. destruct (use_linesearch cfg); [|reflexivity].
  destruct (init_stepsize _ _ _ _ _) as [s0|e] eqn:E; [|reflexivity].
  assert (P : 0 < s0).
  { revert E. unfold init_stepsize. destruct (string_dec _ _); [injection 1 as <-; exact H1|]. destruct (string_dec _ _); [injection 1 as <-; exact H3|].
    destruct (string_dec _ _); [|discriminate]. unfold Rleb. destruct (Rle_dec _ _); injection 1 as <-; [exact H1|nra]. }
  unfold guard_ls. destruct (Rlt_dec 0 s0) as [_|N]; [reflexivity|contradiction].
Qed.
Lemma guard_lbfgs_run f gradf ls cfg xs sts K : 0 < qn_max_stepsize cfg -> 0 < qn_increase_factor cfg ->
  (forall k, (k < K)%nat -> 0 < l_stepsize (sts (S k))) ->
  lbfgs_run f gradf ls cfg xs sts K -> lbfgs_run f gradf (guard_ls f gradf ls) cfg xs sts K.
Proof.
  intros H1 H2 Hp [R0 R1]. split; [exact R0|]. intros k Hk. rewrite <- (R1 k Hk). unfold lbfgs_update.
  rewrite guard_take_step; [reflexivity|exact H1|exact H2|]. destruct k as [|k]; [rewrite R0; exact H1|apply Hp; lia].
Qed.
Lemma guard_bfgs_run f gradf ls cfg xs sts K : 0 < qn_max_stepsize cfg -> 0 < qn_increase_factor cfg ->
  (forall k, (k < K)%nat -> 0 < b_stepsize (sts (S k))) ->
  bfgs_run f gradf ls cfg xs sts K -> bfgs_run f gradf (guard_ls f gradf ls) cfg xs sts K.
Proof.
  intros H1 H2 Hp [R0 R1]. split; [exact R0|]. intros k Hk. rewrite <- (R1 k Hk). unfold bfgs_update.
  rewrite guard_take_step; [reflexivity|exact H1|exact H2|]. destruct k as [|k]; [rewrite R0; exact H1|apply Hp; lia].
Qed.

(** ** Distance to a stationary point *)
Lemma ssc_dist n mu L f gradf x z : strongly_convex_smooth n mu L f gradf -> length x = n -> length z = n -> gradf z = vzero n ->
  mu * norm2 (vsub x z) <= norm2 (gradf x).
Proof.
  intros HF Hx Hz Hg. assert (Hm : 0 < mu) by (destruct HF as ((A & _) & _); exact A).
  assert (Hd : grad_dim n gradf) by (destruct HF as (_ & A & _); exact A).
  pose proof (ssc_monotone n mu L f gradf HF z x Hz Hx) as M. cbv zeta in M. rewrite Hg in M.
  assert (Ey : vsub (gradf x) (vzero n) = gradf x).
  { apply vec_eq_dot; [rewrite vsub_length, vzero_length, (Hd x Hx); lia|]. intros w. autorewrite with vec. ring. }
  rewrite Ey in M. pose proof (dot_le_norm (gradf x) (vsub x z)) as C. rewrite <- norm2_sq in M.
  pose proof (norm2_nonneg (vsub x z)) as N0. pose proof (norm2_nonneg (gradf x)) as G0.
  destruct (Rle_lt_or_eq_dec 0 _ N0) as [P|Z]; [nra|]. rewrite <- Z. lra.
Qed.
