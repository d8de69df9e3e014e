(** C77: Anderson acceleration converges on affine contractions. *)
From Coq Require Import Reals List Lra Lia Bool Arith.
From Verif Require Import Prelude Vec Mat LinAlg Prox Zoom Loss LossProofs Run QuasiNewton QuasiNewtonProofs Anderson AndersonProofs FixedPoint AndersonConvergence AndersonConvergenceProofs.
From Verif Require Import AndersonTheorems.
Import ListNotations.
Open Scope R_scope.

Section Apply.
Context {A : Type}.
Variables (solve : mat -> vec -> vec) (f : vec -> vec * A) (cfg : anderson_config) (n : nat) (q : R) (xs : nat -> vec) (sts : nat -> anderson_state A) (K : nat).
Hypothesis Hm : (0 < an_history_size cfg)%nat.
Hypothesis Hrun : anderson_steps solve f cfg xs sts K.
Hypothesis HC : contraction n q (fun x => fst (f x)).
Hypothesis Hx : length (xs 0%nat) = n.
Hypothesis Hs : exact_solver solve.
Hypothesis Hr : 0 < an_ridge cfg.
Let e := es solve cfg xs sts.
Lemma apply_len k : (k < K)%nat -> length (e k) = n.
Proof. intros Hk. apply (run_length solve f cfg xs sts K n Hm Hrun (proj1 HC) Hx k). lia. Qed.
Lemma apply_plain k : (S k < K)%nat -> (S k < an_history_size cfg)%nat \/ (S k mod an_mixing_frequency cfg <> 0)%nat -> e (S k) = fst (f (e k)).
Proof.
  clear Hx Hs Hr HC. intros Hk H. unfold e. rewrite (es_plain solve f cfg xs sts K Hm Hrun (S k) ltac:(lia) H).
  apply (run_step solve f cfg xs sts K Hm Hrun k). lia.
Qed.
Lemma apply_mix k : (k < K)%nat -> (an_history_size cfg <= k)%nat -> (k mod an_mixing_frequency cfg = 0)%nat -> exists w,
  mixing_weights n (an_ridge cfg) (buf (an_history_size cfg) (vzero n) (fun j => residual_at (fun x => fst (f x)) (e j)) k) w /\
  e k = vadd (combination n (buf (an_history_size cfg) (xs 0%nat) e k) w)
    (smul (an_beta cfg) (combination n (buf (an_history_size cfg) (vzero n) (fun j => residual_at (fun x => fst (f x)) (e j)) k) w)).
Proof.
  intros Hk H1 H2. destruct (run_state solve f cfg xs sts K Hm Hrun k ltac:(lia)) as (_ & I2 & I3 & _).
  destruct (es_mix solve f cfg xs sts K n Hm Hrun (proj1 HC) Hx k ltac:(lia) H1 H2 Hs ltac:(lra) (gram_ns solve f cfg xs sts K n Hm Hrun (proj1 HC) Hx k ltac:(lia) Hr)) as (w & Hw & E).
  rewrite I2, I3, Hx in *. exists w. split; [exact Hw|exact E].
Qed.
End Apply.

(** Each update of AndersonAcceleration, on an affine map with Lipschitz constant q < 1: the residual at
    the evaluated point is at most mixing_rate times the largest of the last m residuals, whatever the
    ridge; and its square is at most that of any of them, plus ridge (1 - 1/m), times mixing_rate^2. *)
Theorem C77_step : forall A solve (f : vec -> vec * A) cfg n q xs sts K, (0 < an_history_size cfg)%nat ->
  anderson_steps solve f cfg xs sts K -> let F x := fst (f x) in
  is_affine n F -> contraction n q F -> 0 <= q < 1 -> length (xs 0%nat) = n -> exact_solver solve -> 0 < an_ridge cfg ->
  let theta := mixing_rate (an_beta cfg) q in let m := an_history_size cfg in
  let rho j := residual_at F (evaluated cfg sts j) in
  forall k, (S k < K)%nat ->
  (forall B, (forall j, (j <= k)%nat -> (S k <= j + m)%nat -> norm2 (rho j) <= B) -> norm2 (rho (S k)) <= theta * B) /\
  sqnorm (rho (S k)) <= theta * theta * (sqnorm (rho k) + an_ridge cfg * (1 - / INR m)).
Proof.
  intros A solve f cfg n q xs sts K Hm H F HA HC Hq Hx Hs Hr theta m rho k Hk.
  set (e := es solve cfg xs sts).
  assert (Ee : forall j, (j < K)%nat -> rho j = residual_at F (e j)) by (intros j Hj; unfold rho; rewrite (evaluated_es solve f cfg xs sts K Hm H j Hj); reflexivity).
  pose proof (engine_max n m (an_mixing_frequency cfg) K q (an_beta cfg) (an_ridge cfg) F e (xs 0%nat) Hm Hq HC HA ltac:(lra)
    (apply_len solve f cfg n q xs sts K Hm H HC Hx) Hx (apply_plain solve f cfg xs sts K Hm H)
    (apply_mix solve f cfg n q xs sts K Hm H HC Hx Hs Hr) k) as G1.
  pose proof (engine_step n m (an_mixing_frequency cfg) K q (an_beta cfg) (an_ridge cfg) F e (xs 0%nat) Hm HC HA ltac:(lra)
    (apply_len solve f cfg n q xs sts K Hm H HC Hx) Hx (apply_plain solve f cfg xs sts K Hm H)
    (apply_mix solve f cfg n q xs sts K Hm H HC Hx Hs Hr) k Hk) as G2.
  rewrite !Ee by lia. split.
  - intros B HB. apply (G1 B Hk). intros j J1 J2. rewrite <- Ee by lia. apply HB; assumption.
  - destruct (rate_ge (an_beta cfg) q Hq) as [T1 T2]. fold theta in T1, T2.
    assert (Pm : 0 < INR m) by (apply lt_0_INR; exact Hm).
    assert (Pi : 0 <= an_ridge cfg * (1 - / INR m)).
    { apply Rmult_le_pos; [lra|]. assert (/ INR m <= 1); [|lra]. rewrite <- Rinv_1. apply Rinv_le_contravar; [lra|]. apply (le_INR 1). exact Hm. }
    assert (Sq : forall a b : vec, forall c, 0 <= c -> norm2 a <= c * norm2 b -> sqnorm a <= c * c * sqnorm b).
    { intros a b c Hc Hab. unfold sqnorm. rewrite <- !norm2_sq. pose proof (norm2_nonneg a). pose proof (norm2_nonneg b).
      replace (c * c * (norm2 b * norm2 b)) with ((c * norm2 b) * (c * norm2 b)) by ring. apply Rmult_le_compat; assumption. }
    assert (Pt : 0 <= theta * theta) by (apply Rmult_le_pos; exact T2).
    destruct G2 as [G2|(p & _ & G2 & _ & G3)].
    + apply Sq in G2; [|lra]. eapply Rle_trans; [exact G2|]. pose proof (dot_self_nonneg (residual_at F (e k))) as P.
      apply Rmult_le_compat; [apply Rmult_le_pos; lra|exact P|apply Rmult_le_compat; lra|]. unfold sqnorm. lra.
    + apply Sq in G2; [|exact T2]. eapply Rle_trans; [exact G2|]. apply Rmult_le_compat_l; [exact Pt|]. apply G3; lia.
Qed.
Print Assumptions C77_step.

(** Hence linear convergence of the residuals for every ridge, every history size and mixing frequency. *)
Theorem C77_rate : forall A solve (f : vec -> vec * A) cfg n q xs sts K, (0 < an_history_size cfg)%nat ->
  anderson_steps solve f cfg xs sts K -> let F x := fst (f x) in
  is_affine n F -> contraction n q F -> 0 <= q < 1 -> length (xs 0%nat) = n -> exact_solver solve -> 0 < an_ridge cfg ->
  let theta := mixing_rate (an_beta cfg) q in theta <= 1 ->
  forall k, (k < K)%nat ->
  norm2 (residual_at F (evaluated cfg sts k)) <= theta ^ ceil_div k (an_history_size cfg) * norm2 (residual_at F (xs 0%nat)) /\
  xs (S k) = F (evaluated cfg sts k) /\
  (forall z, length z = n -> F z = z ->
     norm2 (vsub (xs (S k)) z) <= q / (1 - q) * (theta ^ ceil_div k (an_history_size cfg) * norm2 (residual_at F (xs 0%nat)))).
Proof.
  intros A solve f cfg n q xs sts K Hm H F HA HC Hq Hx Hs Hr theta Ht k Hk.
  set (e := es solve cfg xs sts).
  pose proof (engine_rate n (an_history_size cfg) (an_mixing_frequency cfg) K q (an_beta cfg) (an_ridge cfg) F e (xs 0%nat) Hm Hq HC HA ltac:(lra)
    (apply_len solve f cfg n q xs sts K Hm H HC Hx) Hx (apply_plain solve f cfg xs sts K Hm H)
    (apply_mix solve f cfg n q xs sts K Hm H HC Hx Hs Hr) Ht k Hk) as G.
  assert (E0 : e 0%nat = xs 0%nat) by (apply (es_plain solve f cfg xs sts K Hm H 0 ltac:(lia)); left; exact Hm).
  cbv zeta beta in G. change (es solve cfg xs sts 0%nat) with (e 0%nat) in G. rewrite E0 in G. rewrite (evaluated_es solve f cfg xs sts K Hm H k Hk). fold e. fold theta in G. split; [exact G|].
  destruct (run_step solve f cfg xs sts K Hm H k Hk) as (E1 & _). split; [exact E1|]. intros z Hz Ez. rewrite E1. fold e.
  set (B := theta ^ _ * _) in *. assert (Le : length (e k) = n) by (apply (apply_len solve f cfg n q xs sts K Hm H HC Hx k Hk)).
  pose proof (proj2 HC (e k) z Le Hz) as C. unfold vdist in C. change (fst (f z)) with (F z) in C. rewrite Ez in C. change (fst (f (e k))) with (F (e k)) in *.
  assert (T : norm2 (vsub (e k) z) <= norm2 (residual_at F (e k)) + norm2 (vsub (F (e k)) z)).
  { replace (vsub (e k) z) with (vadd (smul (-1) (residual_at F (e k))) (vsub (F (e k)) z)).
    - eapply Rle_trans; [apply norm2_triangle|]. rewrite norm2_smul, (Rabs_left (-1)) by lra. lra.
    - pose proof (proj1 HC (e k) Le) as Lf. change (fst (f (e k))) with (F (e k)) in Lf. unfold residual_at.
      apply vec_eq_dot; [repeat rewrite ?vadd_length, ?smul_length, ?vsub_length; unfold vec in *; lia|]. intros y. vring. }
  set (d := norm2 (vsub (F (e k)) z)) in *. assert (Hd : (1 - q) * d <= q * B).
  { assert (q * norm2 (vsub (e k) z) <= q * (B + d)) by (apply Rmult_le_compat_l; lra). lra. }
  apply (Rmult_le_reg_l (1 - q)); [lra|]. replace ((1 - q) * (q / (1 - q) * B)) with (q * B) by (field; lra). exact Hd.
Qed.
Print Assumptions C77_rate.

(** run reaches every tolerance: at most m N + 1 updates when theta^N |F x0 - x0| <= tol; the result is
    within q/(1-q) tol of the fixed point. *)
Theorem C77_run : forall A solve (f : vec -> vec * A) cfg n q x0 N, (0 < an_history_size cfg)%nat -> let F x := fst (f x) in
  is_affine n F -> contraction n q F -> 0 <= q < 1 -> length x0 = n -> exact_solver solve -> 0 < an_ridge cfg ->
  let theta := mixing_rate (an_beta cfg) q in theta <= 1 ->
  theta ^ N * norm2 (residual_at F x0) <= an_tol cfg -> (an_history_size cfg * N < an_maxiter cfg)%nat ->
  exists x st e, anderson_run solve f cfg x0 = (x, st) /\ (an_iter st <= an_history_size cfg * N + 1)%nat /\
    x = F e /\ an_error st = Fin (norm2 (residual_at F e)) /\ norm2 (residual_at F e) <= an_tol cfg /\
    norm2 (residual_at F x) <= q * an_tol cfg /\
    (forall z, length z = n -> F z = z -> norm2 (vsub x z) <= q / (1 - q) * an_tol cfg).
Proof.
  intros A solve f cfg n q x0 N Hm F HA HC Hq Hx Hs Hr theta Ht HN Hmax. unfold anderson_run.
  match goal with |- context [run_loop _ ?c ?u ?i] => destruct (run_loop_spec (an_maxiter cfg) c u i ltac:(lia)) as (k & Hk & E & Hc & Hst); set (upd := u) in *; set (ini := i) in * end.
  rewrite E. clear E.
  set (xs := fun j => fst (Nat.iter j upd ini)). set (sts := fun j => snd (Nat.iter j upd ini)).
  assert (HR : forall K, anderson_steps solve f cfg xs sts K).
  { intros K. split; [reflexivity|]. intros j _. unfold xs, sts. change (Nat.iter (S j) upd ini) with (upd (Nat.iter j upd ini)).
    destruct (Nat.iter j upd ini) as [a b]. cbn [fst snd]. fold upd. destruct (upd (a, b)). reflexivity. }
  set (T := (an_history_size cfg * N)%nat) in *.
  assert (HkT : (k <= T + 1)%nat).
  { destruct (le_lt_dec k (T + 1)) as [L|L]; [exact L|]. exfalso. specialize (Hc (S T) ltac:(lia)). cbv beta in Hc.
    pose proof (HR (S T)) as HRT. destruct (run_step solve f cfg xs sts (S T) Hm HRT T ltac:(lia)) as (_ & E2 & _). unfold sts at 1 in E2. cbn beta in E2. rewrite E2 in Hc. cbn [xgtb] in Hc.
    destruct (C77_rate A solve f cfg n q xs sts (S T) Hm HRT HA HC Hq Hx Hs Hr Ht T ltac:(lia)) as (G & _).
    rewrite (evaluated_es solve f cfg xs sts (S T) Hm HRT T ltac:(lia)) in G.
    assert (Ec : ceil_div T (an_history_size cfg) = N).
    { unfold ceil_div, T. rewrite (Nat.mul_comm (an_history_size cfg)), Nat.add_comm, Nat.div_add by lia. rewrite Nat.div_small by lia. lia. }
    rewrite Ec in G. fold theta in G. change (norm2 (res solve f cfg xs sts T) <= theta ^ N * norm2 (residual_at F x0)) in G.
    match type of Hc with (if ?d then _ else _) = _ => destruct d as [D|D]; [|discriminate] end. lra. }
  destruct k as [|k]; [lia|]. pose proof (HR (S k)) as HRk.
  destruct (run_state solve f cfg xs sts (S k) Hm HRk (S k) ltac:(lia)) as (I1 & _).
  destruct (run_step solve f cfg xs sts (S k) Hm HRk k ltac:(lia)) as (E1 & E2 & _).
  set (e := es solve cfg xs sts k) in *.
  assert (Herr : norm2 (residual_at F e) <= an_tol cfg).
  { destruct (le_lt_dec (an_maxiter cfg) (S k)) as [L|L].
    - destruct (C77_rate A solve f cfg n q xs sts (S k) Hm HRk HA HC Hq Hx Hs Hr Ht k ltac:(lia)) as (G & _).
      rewrite (evaluated_es solve f cfg xs sts (S k) Hm HRk k ltac:(lia)) in G. fold e theta in G.
      eapply Rle_trans; [exact G|]. eapply Rle_trans; [|exact HN]. apply Rmult_le_compat_r; [apply norm2_nonneg|].
      assert (k = T) by lia. subst k. right. f_equal. unfold ceil_div, T. rewrite (Nat.mul_comm (an_history_size cfg)), Nat.add_comm, Nat.div_add by lia. rewrite Nat.div_small by lia. lia.
    - destruct Hst as [Hst|Hst]; [lia|]. change (snd (Nat.iter (S k) upd ini)) with (sts (S k)) in Hst. rewrite E2 in Hst. cbn [xgtb] in Hst.
      change (res solve f cfg xs sts k) with (residual_at F e) in Hst.
      match type of Hst with (if ?d then _ else _) = _ => destruct d as [D|D]; [discriminate|] end. lra. }
  exists (xs (S k)), (sts (S k)), e. split; [unfold xs, sts; destruct (Nat.iter (S k) upd ini); reflexivity|]. split; [rewrite I1; lia|].
  split; [exact E1|]. split; [exact E2|]. split; [exact Herr|].
  assert (Le : length e = n) by (apply (apply_len solve f cfg n q xs sts (S k) Hm HRk HC Hx k); lia).
  pose proof (proj1 HC e Le) as Lf. cbv beta in Lf. change (fst (f e)) with (F e) in *.
  split.
  { rewrite E1. eapply Rle_trans; [apply (proj2 HC); assumption|]. apply Rmult_le_compat_l; [lra|exact Herr]. }
  intros z Hz Ez. rewrite E1. change (fst (f e)) with (F e).
  pose proof (proj2 HC e z Le Hz) as C. unfold vdist in C. change (fst (f z)) with (F z) in C. rewrite Ez in C. change (fst (f e)) with (F e) in C.
  assert (T' : norm2 (vsub e z) <= norm2 (residual_at F e) + norm2 (vsub (F e) z)).
  { replace (vsub e z) with (vadd (smul (-1) (residual_at F e)) (vsub (F e) z)).
    - eapply Rle_trans; [apply norm2_triangle|]. rewrite norm2_smul, (Rabs_left (-1)) by lra. lra.
    - unfold residual_at. apply vec_eq_dot; [repeat rewrite ?vadd_length, ?smul_length, ?vsub_length; unfold vec in *; lia|]. intros y. vring. }
  set (d := norm2 (vsub (F e) z)) in *. assert (Hd : (1 - q) * d <= q * an_tol cfg).
  { assert (q * norm2 (vsub e z) <= q * (an_tol cfg + d)) by (apply Rmult_le_compat_l; lra). lra. }
  apply (Rmult_le_reg_l (1 - q)); [lra|]. replace ((1 - q) * (q / (1 - q) * an_tol cfg)) with (q * an_tol cfg) by (field; lra). exact Hd.
Qed.
Print Assumptions C77_run.

(** The same for AndersonWrapper around a solver whose updates apply an affine contraction, whatever its
    state (for instance GradientDescent with a constant step on a quadratic). *)
Section ApplyW.
Context {St : Type}.
Variables (solve : mat -> vec -> vec) (ini : vec -> St) (upd : vec -> St -> vec * St) (err : St -> xnum) (cfg : anderson_config) (n : nat) (q : R)
  (F : vec -> vec) (xs : nat -> vec) (sts : nat -> wrapper_state St) (K : nat).
Hypothesis Hm : (0 < an_history_size cfg)%nat.
Hypothesis Hrun : wrapper_steps solve ini upd err cfg xs sts K.
Hypothesis HU : forall x s, length x = n -> fst (upd x s) = F x.
Hypothesis HC : contraction n q F.
Hypothesis Hx : length (xs 0%nat) = n.
Hypothesis Hs : exact_solver solve.
Hypothesis Hr : 0 < an_ridge cfg.
Let m := an_history_size cfg.
Let e := wes solve ini cfg xs sts.
Lemma w_plain k : (k <= K)%nat -> (k < m)%nat \/ (k mod an_mixing_frequency cfg <> 0)%nat -> e k = xs k.
Proof.
  clear Hx Hs Hr HC HU. intros Hk Hc. unfold e, wes, wrapper_extrapolate. destruct (wrapper_state_spec solve ini upd err cfg xs sts K Hm Hrun k Hk) as (-> & _).
  destruct (Nat.eqb_spec (k mod an_mixing_frequency cfg) 0); [|reflexivity]. destruct (Nat.leb_spec (an_history_size cfg) k); [|reflexivity]. unfold m in Hc. lia.
Qed.
Lemma w_mix k : (k <= K)%nat -> length (xs k) = n -> (forall j, (j < k)%nat -> length (e j) = n) -> (m <= k)%nat -> (k mod an_mixing_frequency cfg = 0)%nat ->
  exists w, mixing_weights n (an_ridge cfg) (buf m (vzero n) (fun j => residual_at F (e j)) k) w /\
  e k = vadd (combination n (buf m (xs 0%nat) e k) w) (smul (an_beta cfg) (combination n (buf m (vzero n) (fun j => residual_at F (e j)) k) w)).
Proof.
  intros Hk Lx Le Hc1 Hc2. destruct (wrapper_state_spec solve ini upd err cfg xs sts K Hm Hrun k Hk) as (I1 & I2 & I3 & I4 & _). rewrite Hx in I3.
  assert (Eb : aw_residuals (sts k) = buf m (vzero n) (fun j => residual_at F (e j)) k).
  { rewrite I3. fold m e. clear - Le HU. revert Le. induction k as [|i IH]; intros Le; [reflexivity|]. cbn [buf].
    rewrite IH by (intros; apply Le; lia). f_equal. unfold residual_at, wnext. fold e. rewrite HU by (apply Le; lia). reflexivity. }
  assert (Rr : rows_len n (buf m (vzero n) (fun j => residual_at F (e j)) k)).
  { apply buf_rows; [apply vzero_length|]. intros j Hj. unfold residual_at. rewrite vsub_length, (proj1 HC) by (apply Le; exact Hj). rewrite Le by exact Hj. lia. }
  exists (tl (minimize_residuals solve (aw_gram (sts k)) (an_ridge cfg))). split.
  - rewrite I4, Eb. apply weights_correct; auto; [lra|]. apply (bordered_nonsingular n); auto. rewrite buf_length. exact Hm.
  - unfold e at 1, wes, wrapper_extrapolate. rewrite I1. destruct (Nat.eqb_spec (k mod an_mixing_frequency cfg) 0); [|lia].
    destruct (Nat.leb_spec (an_history_size cfg) k); [|unfold m in Hc1; lia]. cbn [andb fst]. unfold anderson_step, tree_average, combination.
    rewrite Lx, <- Eb, I2. reflexivity.
Qed.
Lemma w_length k : (k <= K)%nat -> length (xs k) = n /\ (forall j, (j <= k)%nat -> length (e j) = n).
Proof.
  induction k as [|k IH]; intros Hk.
  - split; [exact Hx|]. intros j Hj. replace j with 0%nat by lia. rewrite w_plain by (try left; try exact Hm; lia). exact Hx.
  - destruct (IH ltac:(lia)) as [L1 L2].
    assert (Lx : length (xs (S k)) = n).
    { destruct (wrapper_next solve ini upd err cfg xs sts K Hm Hrun k ltac:(lia)) as [-> _]. unfold wnext. fold e. rewrite HU by (apply L2; lia). apply (proj1 HC). apply L2. lia. }
    split; [exact Lx|]. intros j Hj. destruct (Nat.eq_dec j (S k)) as [->|]; [|apply L2; lia].
    destruct (Nat.lt_ge_cases (S k) m) as [C|C]; [rewrite w_plain by (auto; lia); exact Lx|].
    destruct (Nat.eq_dec (S k mod an_mixing_frequency cfg) 0) as [C2|C2]; [|rewrite w_plain by (auto; lia); exact Lx].
    destruct (w_mix (S k) Hk Lx ltac:(intros i Hi; apply L2; lia) C C2) as (w & _ & E). rewrite E.
    rewrite vadd_length, smul_length. unfold combination.
    rewrite !(tvec_length m); [lia| |]; (split; [apply buf_length|]; apply buf_rows; [auto using vzero_length|]); intros i Hi; cbv beta.
    + unfold residual_at. rewrite vsub_length, (proj1 HC) by (apply L2; lia). rewrite L2 by lia. lia.
    + apply L2. lia.
Qed.
End ApplyW.
Theorem C77_wrapper : forall St solve (ini : vec -> St) upd err cfg n q F xs sts K, (0 < an_history_size cfg)%nat ->
  wrapper_steps solve ini upd err cfg xs sts K -> (forall x s, length x = n -> fst (upd x s) = F x) ->
  is_affine n F -> contraction n q F -> 0 <= q < 1 -> length (xs 0%nat) = n -> exact_solver solve -> 0 < an_ridge cfg ->
  let theta := mixing_rate (an_beta cfg) q in theta <= 1 ->
  forall k, (k < K)%nat ->
  xs (S k) = F (wrapper_evaluated cfg sts k) /\
  norm2 (residual_at F (wrapper_evaluated cfg sts k)) <= theta ^ ceil_div k (an_history_size cfg) * norm2 (residual_at F (xs 0%nat)).
Proof.
  intros St solve ini upd err cfg n q F xs sts K Hm H HU HA HC Hq Hx Hs Hr theta Ht k Hk.
  set (e := wes solve ini cfg xs sts).
  assert (Ee : forall j, (j < K)%nat -> wrapper_evaluated cfg sts j = e j).
  { intros j Hj. unfold wrapper_evaluated. destruct (wrapper_state_spec solve ini upd err cfg xs sts K Hm H (S j) Hj) as (_ & -> & _). apply buf_recent; lia. }
  assert (LL : forall j, (j <= K)%nat -> length (xs j) = n /\ length (e j) = n).
  { intros j Hj. destruct (w_length solve ini upd err cfg n q F xs sts K Hm H HU HC Hx Hs Hr j Hj) as [A B]. split; [exact A|]. apply B. lia. }
  assert (En : forall j, (j < K)%nat -> xs (S j) = F (e j)).
  { intros j Hj. destruct (wrapper_next solve ini upd err cfg xs sts K Hm H j Hj) as [-> _]. unfold wnext. fold e. apply HU. apply LL. lia. }
  rewrite Ee by exact Hk. split; [apply En; exact Hk|].
  assert (E0 : e 0%nat = xs 0%nat) by (apply (w_plain solve ini upd err cfg xs sts K Hm H 0); [lia|left; exact Hm]). rewrite <- E0.
  apply (engine_rate n (an_history_size cfg) (an_mixing_frequency cfg) K q (an_beta cfg) (an_ridge cfg) F e (xs 0%nat)); auto; try lra.
  - intros j Hj. apply LL. lia.
  - intros j Hj Hc. rewrite <- En by lia. apply (w_plain solve ini upd err cfg xs sts K Hm H); [lia|exact Hc].
  - intros j Hj H1 H2. apply (w_mix solve ini upd err cfg n q F xs sts K); auto; [lia|apply LL; lia|]. intros i Hi. apply LL. lia.
Qed.
Print Assumptions C77_wrapper.

(** Affinity is needed.  For every ridge > 0 there is a 3/4-contraction of the line, with fixed point 0, on
    which a run with a history of two and mixing at every second update never stops, however large maxiter,
    and never comes within s of the fixed point, where s = sqrt(5/4 ridge). *)
Definition cyc (s : R) (k : nat) : R := match (k mod 4)%nat with 0%nat => 13 * s | 1%nat => 5 * s | 2%nat => - (13 * s) | _ => - (5 * s) end.
Lemma bent_values s : 0 < s -> bent s (13 * s) = 5 * s /\ bent s (5 * s) = - s /\ bent s (- (13 * s)) = - (5 * s) /\ bent s (- (5 * s)) = s.
Proof.
  intros Hs. unfold bent. rewrite (Rabs_right (13 * s)), (Rabs_right (5 * s)), (Rabs_left (- (13 * s))), (Rabs_left (- (5 * s))) by lra.
  destruct (Rle_dec (13 * s) (5 * s)); [lra|]. destruct (Rle_dec (5 * s) (5 * s)); [|lra]. destruct (Rle_dec (- - (13 * s)) (5 * s)); [lra|]. destruct (Rle_dec (- - (5 * s)) (5 * s)); [|lra].
  destruct (Rle_dec 0 (13 * s)); [|lra]. destruct (Rle_dec 0 (- (13 * s))); [lra|]. lra.
Qed.
Lemma bent_contraction s : 0 < s -> contraction 1 (3 / 4) (fun x => fst (bent_map s x)).
Proof.
  intros Hs. split; [intros x _; reflexivity|]. intros x y Hx Hy. destruct x as [|a [|]]; try discriminate. destruct y as [|b [|]]; try discriminate.
  assert (N : forall u : R, norm2 [u] = Rabs u). { intros u. unfold norm2. cbn [dot]. rewrite Rplus_0_r. apply sqrt_Rsqr_abs. }
  unfold vdist, bent_map. cbn [fst nth vsub]. rewrite !N. unfold bent, Rabs.
  destruct (Rcase_abs a), (Rcase_abs b); repeat (match goal with |- context [Rle_dec ?u ?v] => destruct (Rle_dec u v) end);
    repeat (match goal with |- context [Rcase_abs ?u] => destruct (Rcase_abs u) end); lra.
Qed.
Lemma cyc_step s k : 0 < s -> bent s (cyc s k) - cyc s k = (if Nat.even k then - (8 * s) else - (6 * s)) * (if Nat.ltb (k mod 4) 2 then 1 else -1) /\
  (Nat.even k = true -> cyc s (S k) = bent s (cyc s k)).
Proof.
  intros Hs. destruct (bent_values s Hs) as (V1 & V2 & V3 & V4).
  assert (E : (k = 4 * (k / 4) + k mod 4)%nat) by (apply Nat.div_mod; lia). pose proof (Nat.mod_upper_bound k 4 ltac:(lia)) as Hb.
  assert (Ev : Nat.even k = Nat.even (k mod 4)). { rewrite E at 1. rewrite Nat.even_add, Nat.even_mul. cbn [Nat.even orb]. destruct (Nat.even (k mod 4)); reflexivity. }
  assert (Es : (S k mod 4 = S (k mod 4) mod 4)%nat). { rewrite <- Nat.add_1_r, <- (Nat.add_1_r (k mod 4)). rewrite Nat.add_mod_idemp_l by lia. reflexivity. }
  unfold cyc. rewrite Ev, Es. destruct (k mod 4)%nat as [|[|[|[|r]]]]; cbn -[bent] in *; try lia; split; try discriminate; intros; lra.
Qed.
Lemma bent_weights ridge s c : 0 < s -> ridge = 4 / 5 * (s * s) -> c * c = 1 ->
  mixing_weights 1 ridge [[- (8 * s) * c]; [- (6 * s) * c]] [-2; 3].
Proof.
  intros Hs -> Hc. split; [reflexivity|]. split; [cbn; lra|]. intros w Hw Sw. destruct w as [|a [|b [|]]]; try discriminate. cbn in Sw.
  unfold mixing_objective, combination, sqnorm. cbn [tvec dot vadd smul map vzero repeat]. replace b with (1 - a) by lra.
  assert (P : 0 <= s * s * ((a + 2) * (a + 2))) by (apply Rmult_le_pos; apply Rle_0_sqr).
  assert (X : forall u, u * c * (u * c) = u * u) by (intros u; replace (u * c * (u * c)) with (u * u * (c * c)) by ring; rewrite Hc; ring).
  replace ((-2 * (- (8 * s) * c) + (3 * (- (6 * s) * c) + 0)) * (-2 * (- (8 * s) * c) + (3 * (- (6 * s) * c) + 0)) + 0) with (4 * (s * s) * (c * c)) by ring.
  replace ((a * (- (8 * s) * c) + ((1 - a) * (- (6 * s) * c) + 0)) * (a * (- (8 * s) * c) + ((1 - a) * (- (6 * s) * c) + 0)) + 0) with ((6 + 2 * a) * (6 + 2 * a) * (s * s) * (c * c)) by ring.
  rewrite Hc. lra.
Qed.
Lemma odd_mod i : (S (2 * i) mod 2 = 1)%nat.
Proof. replace (S (2 * i)) with (1 + i * 2)%nat by lia. rewrite Nat.mod_add by lia. reflexivity. Qed.
Theorem C77_nonaffine_refuted : forall solve ridge tol, exact_solver solve -> 0 < ridge ->
  let s := sqrt (5 / 4 * ridge) in let F x := fst (bent_map s x) in tol < 6 * s ->
  0 < s /\ contraction 1 (3 / 4) F /\ F [0] = [0] /\
  forall maxiter, (0 < maxiter)%nat ->
  let (x, st) := anderson_run solve (bent_map s) (bent_cfg ridge tol maxiter) [13 * s] in
  an_iter st = maxiter /\ (exists err, an_error st = Fin err /\ 6 * s <= err) /\ s <= norm2 (vsub x [0]).
Proof.
  intros solve ridge tol Hsol Hr s F Ht. assert (Hs : 0 < s) by (apply sqrt_lt_R0; lra).
  assert (Hss : ridge = 4 / 5 * (s * s)). { unfold s. rewrite sqrt_sqrt by lra. lra. }
  pose proof (bent_contraction s Hs) as HC. split; [exact Hs|]. split; [exact HC|]. split.
  { unfold F, bent_map, bent. cbn. rewrite Rabs_R0. destruct (Rle_dec 0 (5 * s)); [|lra]. f_equal. lra. }
  intros maxiter Hmax. set (cfg := bent_cfg ridge tol maxiter). unfold anderson_run.
  match goal with |- context [run_loop _ ?c ?u ?i] => destruct (run_loop_spec (an_maxiter cfg) c u i Hmax) as (k & Hk & E & Hc & Hst); set (upd := u) in *; set (ini := i) in * end.
  rewrite E. clear E.
  set (xs := fun j => fst (Nat.iter j upd ini)). set (sts := fun j => snd (Nat.iter j upd ini)).
  assert (HR : forall K, anderson_steps solve (bent_map s) cfg xs sts K).
  { intros K. split; [reflexivity|]. intros j _. unfold xs, sts. change (Nat.iter (S j) upd ini) with (upd (Nat.iter j upd ini)).
    destruct (Nat.iter j upd ini) as [a b]. cbn [fst snd]. fold upd. destruct (upd (a, b)). reflexivity. }
  assert (Hm : (0 < an_history_size cfg)%nat) by (cbn; lia).
  set (e := es solve cfg xs sts).
  assert (Hx0 : length (xs 0%nat) = 1%nat) by reflexivity.
  assert (Cy : forall j, e j = [cyc s j]).
  { intros j. induction j as [j IH] using lt_wf_ind. destruct j as [|j].
    { unfold e. rewrite (es_plain solve (bent_map s) cfg xs sts 1 Hm (HR 1%nat) 0) by (try lia; left; exact Hm). reflexivity. }
    destruct (Nat.even j) eqn:Ev.
    - assert (Od : (S j mod 2 <> 0)%nat).
      { apply Nat.even_spec in Ev. destruct Ev as [i ->]. rewrite odd_mod. lia. }
      unfold e. rewrite (es_plain solve (bent_map s) cfg xs sts (S j) Hm (HR (S j)) (S j)) by (try lia; right; exact Od).
      destruct (run_step solve (bent_map s) cfg xs sts (S j) Hm (HR (S j)) j ltac:(lia)) as (E1 & _). rewrite E1. fold e. rewrite (IH j) by lia.
      cbn [bent_map fst nth]. f_equal. symmetry. apply cyc_step; assumption.
    - assert (Hj : exists i, S j = S (S (2 * i))).
      { assert (O : Nat.odd j = true) by (rewrite <- Nat.negb_even, Ev; reflexivity). apply Nat.odd_spec in O. destruct O as [i ->]. exists i. lia. }
      destruct Hj as [i Hi]. rewrite Hi in *.
      assert (M2 : (S (S (2 * i)) mod 2 = 0)%nat) by (replace (S (S (2 * i))) with ((1 + i) * 2)%nat by lia; apply Nat.mod_mul; lia).
      destruct (apply_mix solve (bent_map s) cfg 1 (3 / 4) xs sts (S (S (S (2 * i)))) Hm (HR _) HC Hx0 Hsol Hr (S (S (2 * i))) ltac:(lia) ltac:(cbn; lia) M2) as (w & Hw & Ew).
      assert (Bf : forall (A : Type) (z : A) (a : nat -> A), buf 2 z a (S (S (2 * i))) = [a (2 * i)%nat; a (S (2 * i))]).
      { intros A z a. pose proof (buf_length 2 z a (S (S (2 * i)))) as Lb. destruct (buf 2 z a (S (S (2 * i)))) as [|u [|v [|]]] eqn:Eb; try discriminate. f_equal; [|f_equal].
        - pose proof (buf_recent 2 z a (S (S (2 * i))) (2 * i) z ltac:(lia) ltac:(lia) ltac:(lia)) as Q. rewrite Eb in Q. rewrite Nat.mul_comm, Nat.mod_mul in Q by lia. rewrite Nat.mul_comm. exact Q.
        - pose proof (buf_recent 2 z a (S (S (2 * i))) (S (2 * i)) z ltac:(lia) ltac:(lia) ltac:(lia)) as Q. rewrite Eb in Q.
          replace (S (2 * i) mod 2)%nat with 1%nat in Q; [exact Q|]. symmetry. apply odd_mod. }
      change (an_history_size cfg) with 2%nat in Hw, Ew. rewrite !Bf in Hw. rewrite !Bf in Ew. rewrite ?(Bf (list R)) in Ew. fold e in Hw, Ew. cbv beta in Hw, Ew. rewrite (IH (2 * i)%nat), (IH (S (2 * i))) in Hw, Ew by lia.
      unfold residual_at in Hw, Ew. cbn [bent_map fst nth vsub map] in Hw, Ew.
      destruct (cyc_step s (2 * i) Hs) as [V1 _]. destruct (cyc_step s (S (2 * i)) Hs) as [V2 _]. rewrite V1, V2 in Hw, Ew.
      assert (Ev1 : Nat.even (2 * i) = true) by (rewrite Nat.even_mul; reflexivity).
      assert (Ev2 : Nat.even (S (2 * i)) = false) by (rewrite Nat.even_succ, <- Nat.negb_even, Ev1; reflexivity). rewrite Ev1, Ev2 in Hw, Ew.
      assert (Mi : exists c, (2 * i mod 4 = 2 * c)%nat /\ (S (2 * i) mod 4 = S (2 * c))%nat /\ (S (S (2 * i)) mod 4 = (2 + 2 * c) mod 4)%nat /\ (c = 0 \/ c = 1)%nat).
      { exists (i mod 2)%nat. pose proof (Nat.mod_upper_bound i 2 ltac:(lia)) as Hb. pose proof (Nat.div_mod i 2 ltac:(lia)) as Di.
        assert (E4 : forall t, ((t + 2 * i) mod 4 = (t + 2 * (i mod 2)) mod 4)%nat).
        { intros t. rewrite Di at 1. replace (t + 2 * (2 * (i / 2) + i mod 2))%nat with (t + 2 * (i mod 2) + (i / 2) * 4)%nat by lia. apply Nat.mod_add. lia. }
        pose proof (E4 0%nat) as Q0. pose proof (E4 1%nat) as Q1. pose proof (E4 2%nat) as Q2. cbn [Nat.add] in Q0, Q1, Q2.
        split; [rewrite Q0; apply Nat.mod_small; lia|]. split; [rewrite Q1; apply Nat.mod_small; lia|]. split; [exact Q2|]. lia. }
      destruct Mi as (c & M0 & M1 & Mn & Hcc). unfold cyc in Hw, Ew |- *. rewrite M0, M1 in Hw, Ew. rewrite Mn.
      assert (Uw : w = [-2; 3]).
      { destruct Hcc as [-> | ->]; cbn [Nat.mul Nat.add Nat.ltb Nat.leb] in Hw;
          (refine (weights_unique 1 _ ridge _ _ _ Hr Hw _); [repeat constructor|apply (bent_weights ridge s); [exact Hs|exact Hss|lra]]). }
      rewrite Ew, Uw. destruct Hcc as [-> | ->]; cbn -[Rmult Rplus Rminus Ropp]; f_equal; ring. }
  assert (Er : forall j, exists err, an_error (sts (S j)) = Fin err /\ 6 * s <= err /\ s <= norm2 (vsub (xs (S j)) [0])).
  { intros j. destruct (run_step solve (bent_map s) cfg xs sts (S j) Hm (HR (S j)) j ltac:(lia)) as (E1 & E2 & _).
    assert (N : forall u : R, norm2 [u] = Rabs u). { intros u. unfold norm2. cbn [dot]. rewrite Rplus_0_r. apply sqrt_Rsqr_abs. }
    unfold res in E2. fold e in E1, E2. rewrite Cy in E1, E2. cbn [bent_map fst nth vsub] in E1, E2. rewrite N in E2.
    eexists. split; [exact E2|]. rewrite E1. cbn [vsub]. rewrite N. destruct (cyc_step s j Hs) as [V _].
    split.
    - rewrite V, Rabs_mult. assert (Ra : Rabs (if Nat.ltb (j mod 4) 2 then 1 else -1) = 1) by (destruct (Nat.ltb (j mod 4) 2); [apply Rabs_R1|rewrite Rabs_left; lra]).
      rewrite Ra. destruct (Nat.even j); rewrite Rabs_left by lra; lra.
    - destruct (bent_values s Hs) as (V1 & V2 & V3 & V4). unfold cyc. destruct (j mod 4)%nat as [|[|[|?]]]; rewrite ?V1, ?V2, ?V3, ?V4; unfold Rabs; destruct (Rcase_abs _); lra. }
  destruct k as [|k]; [lia|]. destruct (Er k) as (err & Ee & Herr & Hx).
  assert (Ek : S k = maxiter).
  { destruct Hst as [Hst|Hst]; [exact Hst|]. exfalso. change (snd (Nat.iter (S k) upd ini)) with (sts (S k)) in Hst. rewrite Ee in Hst. cbn [xgtb] in Hst.
    change (an_tol cfg) with tol in Hst. match type of Hst with (if ?d then _ else _) = _ => destruct d; [discriminate|] end. lra. }
  pose proof (surjective_pairing (Nat.iter (S k) upd ini)) as Ep. change (fst (Nat.iter (S k) upd ini)) with (xs (S k)) in Ep. change (snd (Nat.iter (S k) upd ini)) with (sts (S k)) in Ep. rewrite Ep.
  split; [destruct (run_state solve (bent_map s) cfg xs sts (S k) Hm (HR (S k)) (S k) ltac:(lia)) as (I1 & _); rewrite I1; exact Ek|].
  split; [exists err; split; assumption|exact Hx].
Qed.
Print Assumptions C77_nonaffine_refuted.

(** An affine contraction of the plane with the default options, Gaussian elimination as solver, and the
    default ridge and tolerance for the counterexample. *)
Definition an_defaults : anderson_config :=
  {| an_history_size := 5; an_mixing_frequency := 1; an_beta := 1; an_maxiter := 100; an_tol := 1 / 100000; an_ridge := 1 / 100000 |}.
Definition shrink (x : vec) : vec * unit := (vadd (mvec [[1 / 10; 0]; [0; - (1 / 10)]] x) [1; 1], tt).
Example C77_example :
  exact_solver gauss_solve /\ is_affine 2 (fun x => fst (shrink x)) /\ contraction 2 (1 / 10) (fun x => fst (shrink x)) /\
  (0 < an_history_size an_defaults)%nat /\ 0 < an_ridge an_defaults /\ mixing_rate (an_beta an_defaults) (1 / 10) = 1 / 10 /\
  (1 / 10) ^ 6 * norm2 (residual_at (fun x => fst (shrink x)) [0; 0]) <= an_tol an_defaults /\ (an_history_size an_defaults * 6 < an_maxiter an_defaults)%nat /\
  1 / 100000 < 6 * sqrt (5 / 4 * (1 / 100000)).
Proof.
  split; [exact gauss_exact|]. split.
  { exists [[1 / 10; 0]; [0; - (1 / 10)]], [1; 1]. split; [split; [reflexivity|repeat constructor]|]. split; reflexivity. }
  split.
  { split; [intros x _; reflexivity|]. intros x y Hx Hy. destruct x as [|a [|b [|]]]; try discriminate. destruct y as [|c [|d [|]]]; try discriminate.
    unfold vdist. right. replace (vsub (fst (shrink [a; b])) (fst (shrink [c; d]))) with [1 / 10 * (a - c); - (1 / 10) * (b - d)] by (cbn; f_equal; [ring|f_equal; ring]).
    unfold norm2. cbn [vsub dot]. replace (1 / 10 * (a - c) * (1 / 10 * (a - c)) + (- (1 / 10) * (b - d) * (- (1 / 10) * (b - d)) + 0)) with ((1 / 10 * (1 / 10)) * ((a - c) * (a - c) + ((b - d) * (b - d) + 0))) by ring.
    rewrite sqrt_mult_alt, sqrt_square by lra. reflexivity. }
  split; [cbn; lia|]. split; [cbn; lra|]. split; [unfold mixing_rate; cbn; replace (1 - 1) with 0 by ring; rewrite Rabs_R0, Rabs_R1; lra|].
  split; [|split; [cbn; lia|]].
  - assert (N : norm2 (residual_at (fun x => fst (shrink x)) [0; 0]) <= 2).
    { apply norm2_le_sq; [lra|]. unfold residual_at. cbn. lra. }
    change (an_tol an_defaults) with (1 / 100000). lra.
  - apply Rlt_le_trans with (6 * (1 / 300)); [lra|]. apply Rmult_le_compat_l; [lra|]. replace (1 / 300) with (sqrt (1 / 300 * (1 / 300))) by (apply sqrt_square; lra). apply sqrt_le_1_alt. lra.
Qed.
