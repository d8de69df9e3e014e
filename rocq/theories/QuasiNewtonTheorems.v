From Coq Require Import String.
From Coq Require Import Reals List Lra Lia Bool Arith.
From Verif Require Import Prelude Vec Mat Zoom Loss LossProofs Backtracking BacktrackingTheorems QuasiNewton QuasiNewtonProofs.
Import ListNotations.
Open Scope R_scope.

(** * C54 *)
(** Strategies. *)
Theorem C54_init_stepsize : forall maxs mins incr s,
  init_stepsize "max" maxs mins incr s = Ok maxs /\
  init_stepsize "current" maxs mins incr s = Ok s /\
  (s <= mins -> init_stepsize "increase" maxs mins incr s = Ok maxs) /\
  (mins < s -> init_stepsize "increase" maxs mins incr s = Ok (s * incr)) /\
  (forall strategy, ~ known_strategy strategy -> init_stepsize strategy maxs mins incr s = Err ValueError).
Proof.
  intros. unfold init_stepsize, known_strategy. split; [reflexivity|]. split; [reflexivity|].
  split; [|split]; [intros H|intros H|intros st H].
  - cbn. unfold Rleb. destruct (Rle_dec s mins); [reflexivity|lra].
  - cbn. unfold Rleb. destruct (Rle_dec s mins); [lra|reflexivity].
  - repeat destruct (string_dec _ _); auto; exfalso; apply H; auto.
Qed.
Print Assumptions C54_init_stepsize.

(** A positive previous step, maximum and factor give a positive initial step, never below
    min_stepsize when the factor is at least one and max_stepsize is above it. *)
Theorem C54_positive : forall strategy maxs mins incr s s0,
  0 < maxs -> 0 < s -> 0 < incr -> init_stepsize strategy maxs mins incr s = Ok s0 ->
  0 < s0 /\ (strategy = "increase"%string -> mins <= maxs -> 1 <= incr -> mins <= s0).
Proof.
  intros st maxs mins incr s s0 H1 H2 H3. unfold init_stepsize.
  destruct (string_dec st "max") as [->|]; [injection 1 as <-; split; [lra|discriminate]|].
  destruct (string_dec st "current") as [->|]; [injection 1 as <-; split; [lra|discriminate]|].
  destruct (string_dec st "increase") as [->|]; [|discriminate].
  unfold Rleb. destruct (Rle_dec s mins); injection 1 as <-; split; try nra; intros _ Ha Hb; nra.
Qed.
Print Assumptions C54_positive.

(** max_stepsize is documented as an upper bound on the step.  The initial guess of the default
    strategy can exceed it; backtracking and zoom receive max_stepsize and cap their steps
    (C19, C20), Hager-Zhang does not receive it. *)
Theorem C54_initial_guess_exceeds_max_refuted :
  exists maxs mins incr s s0, 0 < s <= maxs /\ mins < maxs /\ init_stepsize "increase" maxs mins incr s = Ok s0 /\ maxs < s0.
Proof.
  exists 1, (1/1000000), (3/2), 1, (1 * (3/2)). split; [lra|]. split; [lra|]. split; [|lra].
  apply C54_init_stepsize. lra.
Qed.
Print Assumptions C54_initial_guess_exceeds_max_refuted.

Theorem C54_setup : forall (I : Type) (maxls : nat) (maxs : R),
  setup_linesearch (I := I) (LsName "backtracking") maxls maxs = Ok (BacktrackingLS maxls maxs) /\
  setup_linesearch (I := I) (LsName "zoom") maxls maxs = Ok (ZoomLS maxls maxs) /\
  setup_linesearch (I := I) (LsName "hager-zhang") maxls maxs = Ok (HagerZhangLS maxls) /\
  (forall i : I, setup_linesearch (LsInstance i) maxls maxs = Ok (GivenLS i)) /\
  (forall s, s <> "backtracking"%string -> s <> "zoom"%string -> s <> "hager-zhang"%string ->
     setup_linesearch (I := I) (LsName s) maxls maxs = Err ValueError).
Proof.
  intros. repeat split. intros s H1 H2 H3. unfold setup_linesearch. repeat destruct (string_dec _ _); auto; contradiction.
Qed.
Print Assumptions C54_setup.

(** With backtracking, whatever the strategy, the accepted step stays in (0, max_stepsize]. *)
Theorem C54_backtracking_bound : forall bcfg f gradf strategy mins incr s s0 x v g d,
  0 <= tol bcfg -> 0 < max_stepsize bcfg -> 0 < decrease_factor bcfg <= 1 -> (0 < maxiter bcfg)%nat ->
  0 < s -> 0 < incr -> init_stepsize strategy (max_stepsize bcfg) mins incr s = Ok s0 ->
  0 < ls_step (bt_line_search bcfg f gradf s0 x v g d) <= max_stepsize bcfg.
Proof.
  intros bcfg f gradf strategy mins incr s s0 x v g d H1 H2 H3 H4 H5 H6 H7.
  apply C54_positive in H7; auto. destruct H7 as [H7 _].
  pose proof (C19_backtracking bcfg (fun z => Fin (f z)) gradf true s0 x v g (Some d) H1 H7 H2 H3 H4) as C. cbv zeta in C.
  unfold bt_line_search. destruct (bt_run _ _ _ _ _ _ _ _ _) as [s1 st]. destruct C as (k & _ & _ & _ & C & _). exact C.
Qed.
Print Assumptions C54_backtracking_bound.
Example C54_example : init_stepsize "increase" 1 (1/1000000) (3/2) (1/2) = Ok (1/2 * (3/2)).
Proof. apply C54_init_stepsize. lra. Qed.

(** * C26 BFGS *)
(** An update never fails when the strategy is one of the documented ones, so that runs of any
    length exist from every starting point. *)
Lemma take_step_total f gradf ls cfg x v g d ps k : known_strategy (qn_linesearch_init cfg) ->
  exists o, take_step f gradf ls cfg x v g d ps k = Ok o.
Proof.
  intros H. unfold take_step. destruct (use_linesearch cfg); [|eexists; reflexivity].
  unfold init_stepsize. destruct H as [->|[->| ->]]; cbn; eexists; reflexivity.
Qed.
Theorem C26_runs_exist : forall f gradf ls cfg x0, known_strategy (qn_linesearch_init cfg) ->
  exists xs sts, xs 0%nat = x0 /\ forall K, bfgs_run f gradf ls cfg xs sts K.
Proof.
  intros f gradf ls cfg x0 H.
  set (nx := fun p => match bfgs_update f gradf ls cfg p with Ok q => q | Err _ => p end).
  set (q := fun k => Nat.iter k nx (x0, bfgs_init f gradf cfg x0)).
  exists (fun k => fst (q k)), (fun k => snd (q k)). split; [reflexivity|]. intros K. split; [reflexivity|].
  intros k _. change (q (S k)) with (nx (q k)). unfold nx. destruct (q k) as [x st]. cbn [fst snd].
  unfold bfgs_update. destruct (take_step_total f gradf ls cfg x (b_value st) (b_grad st) (bfgs_direction st) (b_stepsize st) (b_iter st) H) as [o ->].
  reflexivity.
Qed.
Print Assumptions C26_runs_exist.

(** The state after k iterations describes the current point; the matrix is symmetric, of the
    right shape, and maps the last gradient difference to the last step. *)
Theorem C26_secant : forall f gradf ls cfg n xs sts K,
  grad_dim n gradf -> ls_consistent f gradf ls -> length (xs 0%nat) = n ->
  bfgs_run f gradf ls cfg xs sts K ->
  (forall k, (k <= K)%nat ->
     length (xs k) = n /\ b_iter (sts k) = k /\ b_value (sts k) = f (xs k) /\ b_grad (sts k) = gradf (xs k) /\
     mat_shape n n (b_H (sts k)) /\ symmetric n (b_H (sts k))) /\
  (forall k, (k < K)%nat ->
     xs (S k) = vadd (xs k) (smul (- b_stepsize (sts (S k))) (mvec (b_H (sts k)) (gradf (xs k)))) /\
     b_error (sts (S k)) = Fin (norm2 (gradf (xs (S k)))) /\
     let s := vsub (xs (S k)) (xs k) in
     let y := vsub (gradf (xs (S k))) (gradf (xs k)) in
     (dot s y <> 0 -> mvec (b_H (sts (S k))) y = s) /\
     (dot s y = 0 -> b_H (sts (S k)) = b_H (sts k))).
Proof.
  intros f gradf ls cfg n xs sts K Hg Hls Hx [H0 Hstep].
  assert (I := bfgs_inv f gradf ls cfg n Hg Hls xs sts K Hx H0 Hstep).
  split; [intros k Hk; destruct (I k Hk) as (I1 & I2 & I3 & I4 & I5 & I6); auto 10|].
  intros k Hk. destruct (bfgs_step_facts f gradf ls cfg Hls xs sts K Hstep k Hk) as (F1 & _ & _ & _ & F5 & _).
  destruct (I k ltac:(lia)) as (I1 & _ & I3 & _ & I5 & _). destruct (I (S k) ltac:(lia)) as (J1 & _).
  split; [|split; [exact F5|]].
  - rewrite F1 at 1. unfold bfgs_direction. rewrite smul_smul, I3. f_equal. f_equal. ring.
  - cbv zeta. rewrite (bfgs_H_step f gradf ls cfg n Hg Hls xs sts K Hx H0 Hstep k Hk).
    split; intros Hsy.
    + apply (update_secant n); auto using vsub_len. rewrite dot_comm. exact Hsy.
    + unfold bfgs_matrix_update. destruct (Req_EM_T _ 0) as [|E]; [reflexivity|]. rewrite dot_comm in E. contradiction.
Qed.
Print Assumptions C26_secant.

(** One update: the secant equation, symmetry and positive definiteness, for any matrix. *)
Theorem C26_update : forall n H s y,
  mat_shape n n H -> length s = n -> length y = n -> dot s y <> 0 ->
  let H' := bfgs_matrix_update H s y in
  mat_shape n n H' /\ mvec H' y = s /\
  (symmetric n H -> symmetric n H') /\
  (pos_def n H -> 0 < dot s y -> pos_def n H') /\
  (forall v, length v = n -> dot s v = 0 -> dot y (mvec H v) = 0 -> mvec H' v = mvec H v).
Proof.
  intros n H s y HH Hs Hy Hne. cbv zeta. rewrite dot_comm in Hne. split; [apply update_shape; assumption|].
  split; [apply (update_secant n); assumption|]. split; [apply update_symmetric; assumption|].
  split; [intros H1 H2; rewrite dot_comm in H2; apply update_pd; assumption|].
  intros v Hv Hsv Hyv. rewrite (mvec_update n) by assumption.
  assert (E : wt (/ dot y s) s y v = v).
  { apply vec_eq_dot; [rewrite (wt_length n) by assumption; auto|]. intros z. unfold wt. rewrite Hsv. autorewrite with vec. ring. }
  rewrite E. unfold w_op. rewrite Hyv, Hsv. destruct HH as [HH _]. apply vec_eq_dot.
  - rewrite vadd_length, vsub_length, !smul_length, mvec_length. lia.
  - intros z. autorewrite with vec. ring.
Qed.
Print Assumptions C26_update.

(** Positive curvature along a run keeps the matrix positive definite and the next direction a
    descent direction. *)
Theorem C26_positive_definite : forall f gradf ls cfg n xs sts K,
  grad_dim n gradf -> ls_consistent f gradf ls -> length (xs 0%nat) = n ->
  bfgs_run f gradf ls cfg xs sts K ->
  (forall k, (k < K)%nat -> 0 <= dot (vsub (xs (S k)) (xs k)) (vsub (gradf (xs (S k))) (gradf (xs k)))) ->
  forall k, (k <= K)%nat ->
    pos_def n (b_H (sts k)) /\ (gradf (xs k) <> vzero n -> dot (gradf (xs k)) (bfgs_direction (sts k)) < 0).
Proof.
  intros f gradf ls cfg n xs sts K Hg Hls Hx [H0 Hstep] Hc k Hk.
  assert (Hp : pos_def n (b_H (sts k))).
  { apply (bfgs_pd f gradf ls cfg n Hg Hls xs sts K Hx H0 Hstep k Hk). intros j Hj. rewrite dot_comm. apply Hc. lia. }
  split; [exact Hp|]. apply (bfgs_descent f gradf ls cfg n Hg Hls xs sts K Hx H0 Hstep k Hk Hp).
Qed.
Print Assumptions C26_positive_definite.

(** This is the case on every run when the gradient is strictly monotone (strictly convex
    objective), whatever the steps; *)
Theorem C26_convex : forall f gradf ls cfg n xs sts K,
  grad_dim n gradf -> ls_consistent f gradf ls -> length (xs 0%nat) = n -> strictly_monotone n gradf ->
  bfgs_run f gradf ls cfg xs sts K ->
  forall k, (k <= K)%nat ->
    pos_def n (b_H (sts k)) /\ (gradf (xs k) <> vzero n -> dot (gradf (xs k)) (bfgs_direction (sts k)) < 0).
Proof.
  intros f gradf ls cfg n xs sts K Hg Hls Hx Hmono Hrun. apply (C26_positive_definite f gradf ls cfg n xs sts K); auto.
  intros k Hk. destruct (C26_secant f gradf ls cfg n xs sts K Hg Hls Hx Hrun) as [HI _].
  destruct (HI k ltac:(lia)) as (L1 & _). destruct (HI (S k) ltac:(lia)) as (L2 & _).
  destruct (list_eq_dec Req_EM_T (xs (S k)) (xs k)) as [E|E].
  - rewrite E, vsub_self, dot_vzero_l. lra.
  - rewrite dot_comm. left. apply Hmono; auto.
Qed.
Print Assumptions C26_convex.

(** and on every run whose steps meet Wolfe's curvature condition, whatever the objective. *)
Theorem C26_wolfe : forall f gradf ls cfg n xs sts K c2,
  grad_dim n gradf -> ls_consistent f gradf ls -> length (xs 0%nat) = n -> c2 < 1 ->
  bfgs_run f gradf ls cfg xs sts K ->
  (forall k, (k < K)%nat -> wolfe_step c2 (b_stepsize (sts (S k))) (bfgs_direction (sts k)) (gradf (xs k)) (gradf (xs (S k)))) ->
  forall k, (k <= K)%nat ->
    pos_def n (b_H (sts k)) /\ (gradf (xs k) <> vzero n -> dot (gradf (xs k)) (bfgs_direction (sts k)) < 0).
Proof.
  intros f gradf ls cfg n xs sts K c2 Hg Hls Hx Hc2 [H0 Hstep] Hw k Hk.
  assert (Hp : forall j, (j <= k)%nat -> pos_def n (b_H (sts j)) /\
     (forall i, (i < j)%nat -> 0 <= dot (vsub (gradf (xs (S i))) (gradf (xs i))) (vsub (xs (S i)) (xs i)))).
  { induction j as [|j IH]; intros Hj.
    - split; [|intros; lia]. apply (bfgs_pd f gradf ls cfg n Hg Hls xs sts K Hx H0 Hstep 0%nat ltac:(lia)). intros; lia.
    - destruct (IH ltac:(lia)) as [Hpd Hi].
      assert (Hall : forall i, (i < S j)%nat -> 0 <= dot (vsub (gradf (xs (S i))) (gradf (xs i))) (vsub (xs (S i)) (xs i))).
      { intros i Hlt. destruct (Nat.eq_dec i j) as [->|]; [|apply Hi; lia].
        destruct (bfgs_step_facts f gradf ls cfg Hls xs sts K Hstep j ltac:(lia)) as (F1 & _).
        destruct (Hw j ltac:(lia)) as [W1 W2].
        set (d := bfgs_direction (sts j)) in *. set (t := b_stepsize (sts (S j))) in *.
        assert (Hsl : dot (gradf (xs j)) d <= 0).
        { destruct (list_eq_dec Req_EM_T (gradf (xs j)) (vzero n)) as [E|E]; [rewrite E, dot_vzero_l; lra|].
          left. apply (bfgs_descent f gradf ls cfg n Hg Hls xs sts K Hx H0 Hstep j ltac:(lia) Hpd E). }
        assert (E : dot (vsub (gradf (xs (S j))) (gradf (xs j))) (vsub (xs (S j)) (xs j)) = t * (dot (gradf (xs (S j))) d - dot (gradf (xs j)) d)).
        { set (gn := gradf (xs (S j))) in *. rewrite F1. vring. }
        rewrite E. assert (0 <= dot (gradf (xs (S j))) d - dot (gradf (xs j)) d) by nra. nra. }
      split; [|exact Hall]. apply (bfgs_pd f gradf ls cfg n Hg Hls xs sts K Hx H0 Hstep (S j) ltac:(lia)). exact Hall. }
  destruct (Hp k ltac:(lia)) as [Hpd _]. split; [exact Hpd|].
  apply (bfgs_descent f gradf ls cfg n Hg Hls xs sts K Hx H0 Hstep k Hk Hpd).
Qed.
Print Assumptions C26_wolfe.

(** The line-search hypothesis is met by the backtracking search of C19. *)
Theorem C26_backtracking_consistent : forall bcfg f gradf, 0 <= tol bcfg -> (0 < maxiter bcfg)%nat ->
  ls_consistent f gradf (bt_line_search bcfg f gradf).
Proof. exact bt_consistent. Qed.
Print Assumptions C26_backtracking_consistent.

(** Without positive curvature (a constant step on a non-convex function) the matrix can become
    indefinite, and the "descent direction" an ascent direction. *)
Definition neg_cfg : qn_config :=
  {| qn_stepsize := StepConst 1; qn_linesearch_init := "increase"; qn_increase_factor := 3/2; qn_max_stepsize := 1;
     qn_min_stepsize := 1/1000000; qn_tol := 1/1000; qn_stop_if_linesearch_fails := false;
     qn_history_size := 1; qn_use_gamma := true |}.
Lemma neg_cfg_no_ls : use_linesearch neg_cfg = false.
Proof. unfold use_linesearch, Rleb. simpl. destruct (Rle_dec 1 0); [lra|reflexivity]. Qed.
Theorem C26_descent_refuted :
  exists (f : vec -> R) gradf ls xs sts,
    bfgs_run f gradf ls neg_cfg xs sts 1 /\ length (xs 0%nat) = 1%nat /\
    gradf (xs 1%nat) <> vzero 1 /\ 0 < dot (gradf (xs 1%nat)) (bfgs_direction (sts 1%nat)).
Proof.
  set (f := fun x => - dot x x / 2). set (gr := smul (-1)).
  set (ls := fun (s : R) (x : vec) (v : R) (g d : vec) => {| ls_step := 0; ls_params := vadd x (smul 0 d); ls_value := f (vadd x (smul 0 d)); ls_grad := gr (vadd x (smul 0 d)); ls_failed := true |}).
  assert (Hls : ls_consistent f gr ls) by (intros s x v g d; simpl; auto).
  assert (Hgd : grad_dim 1 gr) by (intros x Hx; unfold gr; rewrite smul_length; exact Hx).
  destruct (C26_runs_exist f gr ls neg_cfg [1]) as (xs & sts & E0 & Hrun); [right; right; reflexivity|].
  exists f, gr, ls, xs, sts. specialize (Hrun 1%nat). split; [exact Hrun|]. rewrite E0. split; [reflexivity|].
  destruct (C26_secant f gr ls neg_cfg 1 xs sts 1 Hgd Hls ltac:(rewrite E0; reflexivity) Hrun) as [D1 D2].
  destruct (D2 0%nat ltac:(lia)) as (X1 & _ & Sec & _). destruct (D1 1%nat ltac:(lia)) as (_ & _ & _ & G1 & _).
  assert (Est : b_stepsize (sts 1%nat) = 1).
  { destruct Hrun as [H0 Hs]. specialize (Hs 0%nat ltac:(lia)). unfold bfgs_update, take_step in Hs.
    rewrite neg_cfg_no_ls in Hs. injection Hs as _ Hs1. rewrite <- Hs1. reflexivity. }
  assert (E1 : xs 1%nat = [2]).
  { rewrite X1, Est, E0. destruct Hrun as [-> _]. rewrite E0. cbn [bfgs_init b_H length]. rewrite mvec_eye by reflexivity.
    unfold gr. simpl. f_equal. ring. }
  assert (Eg : gr [2] = [-2]) by (unfold gr; simpl; f_equal; ring).
  assert (Es : vsub [2] [1] = [1]) by (simpl; f_equal; ring).
  assert (Ey : vsub [-2] (gr [1]) = [-1]) by (unfold gr; simpl; f_equal; ring).
  rewrite E1, E0, Eg, Es, Ey in Sec. specialize (Sec ltac:(simpl; lra)).
  unfold bfgs_direction. rewrite G1, E1, Eg. split; [simpl; intros H; injection H; lra|].
  assert (E2 : [-2] = smul 2 [-1]) by (simpl; f_equal; ring).
  rewrite E2, mvec_smul, Sec. simpl. lra.
Qed.
Print Assumptions C26_descent_refuted.

(** A concrete objective with all the hypotheses: f(x) = |x|^2/2 in any dimension. *)
Example C26_example : forall n, exists f gradf xs sts,
  grad_dim n gradf /\ ls_consistent f gradf (bt_line_search {| condition := Armijo; c1 := 1/10; c2 := 9/10; decrease_factor := 8/10; max_stepsize := 1; tol := 0; maxiter := 30 |} f gradf) /\
  length (xs 0%nat) = n /\ strictly_monotone n gradf /\ xs 0%nat = vones n /\
  forall K, bfgs_run f gradf (bt_line_search {| condition := Armijo; c1 := 1/10; c2 := 9/10; decrease_factor := 8/10; max_stepsize := 1; tol := 0; maxiter := 30 |} f gradf) neg_cfg xs sts K.
Proof.
  intros n. set (bc := {| condition := Armijo; c1 := 1/10; c2 := 9/10; decrease_factor := 8/10; max_stepsize := 1; tol := 0; maxiter := 30 |}).
  set (f := fun x => dot x x / 2). set (gr := fun x : vec => x).
  destruct (C26_runs_exist f gr (bt_line_search bc f gr) neg_cfg (vones n)) as (xs & sts & E0 & Hrun); [right; right; reflexivity|].
  exists f, gr, xs, sts. rewrite E0. split; [intros x Hx; exact Hx|]. split; [apply bt_consistent; simpl; [lra|lia]|].
  split; [apply vones_length|]. split; [|auto].
  intros x z Hx Hz Hne. unfold gr. apply (sqnorm_pos n); [apply vsub_len; assumption|]. intros E. apply Hne.
  apply dist2_zero; [congruence|]. unfold dist2, sqnorm. rewrite E. apply dot_vzero_l.
Qed.

(** * C27 L-BFGS *)
Theorem C27_runs_exist : forall f gradf ls cfg x0, known_strategy (qn_linesearch_init cfg) ->
  exists xs sts, xs 0%nat = x0 /\ forall K, lbfgs_run f gradf ls cfg xs sts K.
Proof.
  intros f gradf ls cfg x0 H.
  set (nx := fun p => match lbfgs_update f gradf ls cfg p with Ok q => q | Err _ => p end).
  set (q := fun k => Nat.iter k nx (x0, lbfgs_init f gradf cfg x0)).
  exists (fun k => fst (q k)), (fun k => snd (q k)). split; [reflexivity|]. intros K. split; [reflexivity|].
  intros k _. change (q (S k)) with (nx (q k)). unfold nx. destruct (q k) as [x st]. cbn [fst snd].
  unfold lbfgs_update. destruct (take_step_total f gradf ls cfg x (l_value st) (l_grad st) (lbfgs_direction cfg st) (l_stepsize st) (l_iter st) H) as [o ->].
  reflexivity.
Qed.
Print Assumptions C27_runs_exist.

(** The product with any history, any read position: the BFGS matrix of the stored pairs, read in
    circular order from [start], applied to the vector. *)
Theorem C27_inv_hessian_product : forall n q s_hist y_hist rho_hist gamma start,
  length q = n ->
  let m := length rho_hist in
  let slot i := (nth i s_hist [], nth i y_hist []) in
  (forall i, (i < m)%nat -> length (nth i s_hist []) = n /\ length (nth i y_hist []) = n) ->
  (forall i, (i < m)%nat -> let sy := dot (nth i s_hist []) (nth i y_hist []) in
      nth i rho_hist 0 = if Req_EM_T sy 0 then 0 else 1 / sy) ->
  inv_hessian_product q s_hist y_hist rho_hist gamma start =
  mvec (bfgs_matrix n gamma (map (fun t => slot ((start + t) mod m)%nat) (seq 0 m))) q.
Proof.
  intros n q S_ Y_ P_ g start Hq m sl Hd Hr. unfold inv_hessian_product. fold m.
  assert (Hlt : forall i, In i (buffer_indices start m) -> (i < m)%nat).
  { intros i Hi. apply in_map_iff in Hi. destruct Hi as (t & <- & Ht). apply in_seq in Ht. apply Nat.mod_upper_bound. lia. }
  pose proof (two_loop S_ Y_ P_ n g (buffer_indices start m) q Hq) as T.
  assert (E : map (slot S_ Y_) (buffer_indices start m) = map (fun t => sl ((start + t) mod m)%nat) (seq 0 m)).
  { unfold buffer_indices. rewrite map_map. reflexivity. }
  rewrite E in T. destruct (scan_right _ _ _ _ _) as [r al]. apply T.
  - rewrite <- E. apply Forall_forall. intros p Hp. apply in_map_iff in Hp. destruct Hp as (i & <- & Hi). apply Hd. auto.
  - apply Forall_forall. intros i Hi. unfold rho_ok. rewrite (Hr i (Hlt i Hi)). cbv zeta. rewrite (dot_comm (nth i Y_ [])).
    destruct (Req_EM_T _ 0); [reflexivity|].
    unfold Rdiv. apply Rmult_1_l.
Qed.
Print Assumptions C27_inv_hessian_product.

(** Along a run: the state describes the current point, and the direction is minus the gradient
    multiplied by the BFGS matrix built from gamma I by exactly the last min(k, m) pairs, oldest
    first. *)
Theorem C27_direction : forall f gradf ls cfg n xs sts K,
  grad_dim n gradf -> ls_consistent f gradf ls -> length (xs 0%nat) = n -> (0 < qn_history_size cfg)%nat ->
  lbfgs_run f gradf ls cfg xs sts K ->
  let gs k := gradf (xs k) in
  (forall k, (k <= K)%nat ->
     length (xs k) = n /\ l_iter (sts k) = k /\ l_value (sts k) = f (xs k) /\ l_grad (sts k) = gradf (xs k) /\
     lbfgs_direction cfg (sts k) =
       mvec (bfgs_matrix n (gamma_at (qn_use_gamma cfg) xs gs k) (last_pairs (qn_history_size cfg) k xs gs))
            (smul (-1) (gradf (xs k)))) /\
  (forall k, (k < K)%nat ->
     xs (S k) = vadd (xs k) (smul (l_stepsize (sts (S k))) (lbfgs_direction cfg (sts k))) /\
     l_error (sts (S k)) = Fin (norm2 (gradf (xs (S k))))).
Proof.
  intros f gradf ls cfg n xs sts K Hg Hls Hx Hm [H0 Hstep] gs. split.
  - intros k Hk. destruct (lbfgs_inv f gradf ls cfg n Hg Hls xs sts K Hx H0 Hstep k Hk) as (I1 & I2 & I3 & I4 & _).
    rewrite (lbfgs_dir f gradf ls cfg n Hg Hls xs sts K Hx H0 Hstep k Hk Hm). auto.
  - intros k Hk. destruct (lbfgs_step_facts f gradf ls cfg Hls xs sts K Hstep k Hk) as (F1 & _ & _ & _ & F5 & _). auto.
Qed.
Print Assumptions C27_direction.

(** That matrix is symmetric, satisfies the secant equation for the newest pair, and is positive
    definite when the stored curvatures are positive (pairs with y = 0 are harmless). *)
Theorem C27_matrix : forall f gradf ls cfg n xs sts K,
  grad_dim n gradf -> ls_consistent f gradf ls -> length (xs 0%nat) = n -> (0 < qn_history_size cfg)%nat ->
  lbfgs_run f gradf ls cfg xs sts K ->
  let gs k := gradf (xs k) in
  let m := qn_history_size cfg in
  forall k, (k <= K)%nat ->
  let H := bfgs_matrix n (gamma_at (qn_use_gamma cfg) xs gs k) (last_pairs m k xs gs) in
  mat_shape n n H /\ symmetric n H /\
  (forall j, k = S j -> dot (vsub (xs k) (xs j)) (vsub (gs k) (gs j)) <> 0 -> mvec H (vsub (gs k) (gs j)) = vsub (xs k) (xs j)) /\
  ((forall j, (j < k <= j + m)%nat -> 0 < dot (vsub (xs (S j)) (xs j)) (vsub (gs (S j)) (gs j)) \/ gs (S j) = gs j) ->
    pos_def n H /\ (gradf (xs k) <> vzero n -> dot (gradf (xs k)) (lbfgs_direction cfg (sts k)) < 0)).
Proof.
  intros f gradf ls cfg n xs sts K Hg Hls Hx Hm [H0 Hstep] gs m k Hk H.
  pose proof (last_pairs_dim f gradf ls cfg n Hg Hls xs sts K Hx H0 Hstep) as Hd.
  split; [apply bfgs_matrix_shape; apply Hd; exact Hk|]. split; [apply bfgs_matrix_sym; apply Hd; exact Hk|].
  split.
  - intros j -> Hsy. unfold H, last_pairs.
    assert (E : (S j - (S j - m) = S (j - (S j - m)))%nat) by (unfold m; lia). rewrite E, seq_S, map_app. cbn [map].
    rewrite bfgs_matrix_snoc. replace (S j - m + (j - (S j - m)))%nat with j by lia.
    destruct (lbfgs_inv f gradf ls cfg n Hg Hls xs sts K Hx H0 Hstep j ltac:(lia)) as (L1 & _).
    destruct (lbfgs_inv f gradf ls cfg n Hg Hls xs sts K Hx H0 Hstep (S j) Hk) as (L2 & _).
    unfold pair_at, gs. cbn [fst snd]. apply (update_secant n); auto using vsub_len.
    + apply bfgs_matrix_shape. specialize (Hd (S j) Hk). unfold last_pairs in Hd. fold m in Hd.
      rewrite E, seq_S, map_app in Hd. apply Forall_app in Hd. apply Hd.
    + rewrite dot_comm. exact Hsy.
  - intros Hc. assert (Hpd : pos_def n H).
    { apply (lbfgs_pd f gradf ls cfg n Hg Hls xs sts K Hx H0 Hstep k Hk Hm). intros j Hj1 Hj2.
      destruct (Hc j (conj Hj1 Hj2)) as [C|C]; [left; rewrite dot_comm; exact C|right].
      unfold gs in C. rewrite C. destruct (lbfgs_inv f gradf ls cfg n Hg Hls xs sts K Hx H0 Hstep j ltac:(lia)) as (L1 & _).
      rewrite vsub_self. rewrite Hg by exact L1. reflexivity. }
    split; [exact Hpd|]. intros Hnz.
    rewrite (lbfgs_dir f gradf ls cfg n Hg Hls xs sts K Hx H0 Hstep k Hk Hm). fold gs m H.
    rewrite mvec_smul, dot_smul_r. destruct (lbfgs_inv f gradf ls cfg n Hg Hls xs sts K Hx H0 Hstep k Hk) as (L1 & _).
    specialize (Hpd _ (Hg _ L1) Hnz). lra.
Qed.
Print Assumptions C27_matrix.

(** On a strictly convex objective every direction is a descent direction, whatever the steps. *)
Theorem C27_convex : forall f gradf ls cfg n xs sts K,
  grad_dim n gradf -> ls_consistent f gradf ls -> length (xs 0%nat) = n -> strictly_monotone n gradf ->
  lbfgs_run f gradf ls cfg xs sts K ->
  forall k, (k <= K)%nat -> gradf (xs k) <> vzero n -> dot (gradf (xs k)) (lbfgs_direction cfg (sts k)) < 0.
Proof.
  intros f gradf ls cfg n xs sts K Hg Hls Hx Hmono Hrun k Hk Hnz.
  destruct (Nat.eq_dec (qn_history_size cfg) 0) as [Em|Em].
  - destruct Hrun as [H0 Hstep].
    destruct (lbfgs_inv f gradf ls cfg n Hg Hls xs sts K Hx H0 Hstep k Hk) as (L1 & _ & L3 & _).
    unfold lbfgs_direction. rewrite Em, L3, dot_smul_r. pose proof (sqnorm_pos n _ (Hg _ L1) Hnz). lra.
  - destruct (C27_matrix f gradf ls cfg n xs sts K Hg Hls Hx ltac:(lia) Hrun k Hk) as (_ & _ & _ & C).
    apply C; [|exact Hnz]. intros j Hj. destruct Hrun as [H0 Hstep].
    destruct (lbfgs_inv f gradf ls cfg n Hg Hls xs sts K Hx H0 Hstep j ltac:(lia)) as (L1 & _).
    destruct (lbfgs_inv f gradf ls cfg n Hg Hls xs sts K Hx H0 Hstep (S j) ltac:(lia)) as (L2 & _).
    destruct (list_eq_dec Req_EM_T (xs (S j)) (xs j)) as [E|E]; [right; rewrite E; reflexivity|left].
    rewrite dot_comm. apply Hmono; auto.
Qed.
Print Assumptions C27_convex.

(** With enough memory and use_gamma=False, L-BFGS computes the iterates of BFGS. *)
Theorem C27_equals_bfgs : forall f gradf ls cfg n xb sb xl sl K,
  grad_dim n gradf -> ls_consistent f gradf ls -> length (xb 0%nat) = n -> xl 0%nat = xb 0%nat ->
  qn_use_gamma cfg = false -> (0 < qn_history_size cfg)%nat -> (K <= S (qn_history_size cfg))%nat ->
  bfgs_run f gradf ls cfg xb sb K -> lbfgs_run f gradf ls cfg xl sl K ->
  forall k, (k <= K)%nat -> xl k = xb k /\ l_stepsize (sl k) = b_stepsize (sb k) /\
    l_value (sl k) = b_value (sb k) /\ l_grad (sl k) = b_grad (sb k).
Proof.
  intros f gradf ls cfg n xb sb xl sl K Hg Hls Hx Hx0 Hug Hm HK [HB0 HB] [HL0 HL].
  assert (Hxl : length (xl 0%nat) = n) by (rewrite Hx0; exact Hx).
  assert (Main : forall k, (k <= K)%nat -> (forall j, (j <= k)%nat -> xl j = xb j) /\ l_stepsize (sl k) = b_stepsize (sb k) /\
    l_value (sl k) = b_value (sb k) /\ l_grad (sl k) = b_grad (sb k)).
  { induction k as [|k IH]; intros Hk.
    - split; [intros j Hj; replace j with 0%nat by lia; exact Hx0|]. rewrite HB0, HL0, Hx0. repeat split.
    - destruct (IH ltac:(lia)) as (I0 & I1 & I2 & I3).
      destruct (bfgs_inv f gradf ls cfg n Hg Hls xb sb K Hx HB0 HB k ltac:(lia)) as (B1 & _ & B3 & B4 & B5 & _).
      destruct (lbfgs_inv f gradf ls cfg n Hg Hls xl sl K Hxl HL0 HL k ltac:(lia)) as (_ & _ & L3 & L4 & _).
      assert (Ed : lbfgs_direction cfg (sl k) = bfgs_direction (sb k)).
      { rewrite (lbfgs_dir f gradf ls cfg n Hg Hls xl sl K Hxl HL0 HL k ltac:(lia) Hm).
        rewrite Hug. unfold bfgs_direction. rewrite B3, mvec_smul. rewrite (I0 k) by lia. f_equal. f_equal.
        rewrite (bfgs_H_matrix f gradf ls cfg n Hg Hls xb sb K Hx HB0 HB k ltac:(lia)).
        unfold bfgs_matrix, last_pairs. replace (k - qn_history_size cfg)%nat with 0%nat by lia. rewrite Nat.sub_0_r.
        assert (E1 : gamma_at false xl (fun j => gradf (xl j)) k = 1) by (destruct k; reflexivity). rewrite E1.
        assert (E2 : msmul 1 (eye n) = eye n).
        { unfold msmul. rewrite <- (map_id (eye n)) at 2. apply map_ext. intros r. apply vec_eq_dot; [apply smul_length|].
          intros z. autorewrite with vec. ring. }
        rewrite E2. f_equal. apply map_ext_in. intros j Hj. apply in_seq in Hj. unfold pair_at. rewrite !I0 by lia. reflexivity. }
      pose proof (HB k ltac:(lia)) as UB. pose proof (HL k ltac:(lia)) as UL.
      unfold bfgs_update in UB. unfold lbfgs_update in UL. rewrite Ed, (I0 k), I1, I2, I3, L4 in UL by lia. rewrite B4 in UB.
      destruct (take_step _ _ _ _ _ _ _ _ _ _) as [o|e]; [|discriminate].
      injection UB as UB1 UB2. injection UL as UL1 UL2. split; [|rewrite <- UB2, <- UL2; auto].
      intros j Hj. destruct (Nat.eq_dec j (S k)) as [->|]; [congruence|apply I0; lia]. }
  intros k Hk. destruct (Main k Hk) as (M1 & M2). split; [apply M1; lia|exact M2].
Qed.
Print Assumptions C27_equals_bfgs.

(** history_size=0 is gradient descent. *)
Theorem C27_no_history : forall cfg st, qn_history_size cfg = 0%nat -> lbfgs_direction cfg st = smul (-1) (l_grad st).
Proof. intros cfg st H. unfold lbfgs_direction. rewrite H. reflexivity. Qed.
Print Assumptions C27_no_history.

(** Restarting from a returned (params, state) on the same problem continues the run exactly. *)
Theorem C27_warm_start : forall f gradf ls cfg x st, l_value st = f x -> l_grad st = gradf x ->
  lbfgs_update f gradf ls cfg (lbfgs_warm_init f gradf (x, st)) = lbfgs_update f gradf ls cfg (x, st).
Proof.
  intros f gradf ls cfg x st Hv Hgr. unfold lbfgs_warm_init, lbfgs_update, lbfgs_direction.
  cbn [l_iter l_value l_grad l_stepsize l_s l_y l_rho l_gamma]. rewrite Hv, Hgr. reflexivity.
Qed.
Print Assumptions C27_warm_start.

(** The loop goes on exactly while the gradient norm exceeds tol and, if requested, no line search
    has failed. *)
Theorem C27_stop : forall f gradf ls cfg x st x' st',
  ls_consistent f gradf ls ->
  lbfgs_update f gradf ls cfg (x, st) = Ok (x', st') ->
  (lbfgs_cond cfg st' = false <->
     norm2 (gradf x') <= qn_tol cfg \/ (qn_stop_if_linesearch_fails cfg = true /\ l_failed st' = true)).
Proof.
  intros f gradf ls cfg x st x' st' Hls H. unfold lbfgs_update in H.
  destruct (take_step _ _ _ _ _ _ _ _ _ _) as [o|e] eqn:E; [|discriminate].
  apply (take_step_consistent _ _ _ _ _ _ _ _ _ _ _ Hls) in E. destruct E as (_ & _ & E3).
  injection H as <- <-. unfold lbfgs_cond. cbn [l_error l_failed xgtb]. rewrite E3.
  destruct (Rlt_dec (qn_tol cfg) (norm2 (gradf (ls_params o)))), (qn_stop_if_linesearch_fails cfg), (ls_failed o); simpl;
    split; intros HH; try discriminate; auto; try (left; lra); exfalso; destruct HH as [HH|[HH1 HH2]]; try discriminate; lra.
Qed.
Print Assumptions C27_stop.

(** A pair with zero curvature and y <> 0 is skipped, but still sets gamma to 0: with
    f(a,b) = a + ab, memory 1 and step 1 from (0,0), the second direction is zero although the
    gradient is not. *)
Theorem C27_zero_curvature_refuted :
  exists (f : vec -> R) gradf ls xs sts,
    lbfgs_run f gradf ls neg_cfg xs sts 1 /\ length (xs 0%nat) = 2%nat /\
    0 <= dot (vsub (xs 1%nat) (xs 0%nat)) (vsub (gradf (xs 1%nat)) (gradf (xs 0%nat))) /\
    gradf (xs 1%nat) <> vzero 2 /\ lbfgs_direction neg_cfg (sts 1%nat) = vzero 2.
Proof.
  set (f := fun x => nth 0 x 0 + nth 0 x 0 * nth 1 x 0). set (gr := fun x : vec => [1 + nth 1 x 0; nth 0 x 0]).
  assert (Hgd : grad_dim 2 gr) by (intros x _; reflexivity).
  set (ls := fun (s : R) (x : vec) (v : R) (g d : vec) => {| ls_step := 0; ls_params := vadd x (smul 0 d); ls_value := f (vadd x (smul 0 d)); ls_grad := gr (vadd x (smul 0 d)); ls_failed := true |}).
  assert (Hls : ls_consistent f gr ls) by (intros s x v g d; simpl; auto).
  destruct (C27_runs_exist f gr ls neg_cfg [0; 0]) as (xs & sts & E0 & Hrun); [right; right; reflexivity|].
  specialize (Hrun 1%nat). exists f, gr, ls, xs, sts. split; [exact Hrun|]. rewrite E0. split; [reflexivity|].
  pose proof (C27_direction f gr ls neg_cfg 2 xs sts 1 Hgd Hls ltac:(rewrite E0; reflexivity) ltac:(simpl; lia) Hrun) as [D1 D2].
  assert (E1 : xs 1%nat = [-1; 0]).
  { destruct (D2 0%nat ltac:(lia)) as [-> _]. destruct (D1 0%nat ltac:(lia)) as (_ & _ & _ & _ & ->). rewrite E0.
    destruct Hrun as [H0 Hs]. specialize (Hs 0%nat ltac:(lia)). rewrite E0 in H0. rewrite H0, E0 in Hs.
    unfold lbfgs_update, take_step in Hs. rewrite neg_cfg_no_ls in Hs. injection Hs as _ Hs1. rewrite <- Hs1. cbn [l_stepsize].
    cbn [fixed_step neg_cfg qn_stepsize qn_history_size last_pairs Nat.sub seq map gamma_at qn_use_gamma].
    unfold bfgs_matrix. cbn [fold_left]. rewrite mvec_smul_eye by reflexivity. unfold gr. simpl. repeat f_equal; ring. }
  destruct (D1 1%nat ltac:(lia)) as (_ & _ & _ & _ & ->).
  cbn [neg_cfg qn_history_size qn_use_gamma last_pairs Nat.sub seq map gamma_at pair_at].
  unfold last_pairs. cbn [Nat.sub seq map]. unfold pair_at. rewrite E0, E1. set (y := vsub (gr [-1; 0]) (gr [0; 0])). set (s := vsub [-1; 0] [0; 0]).
  assert (Ey : y = [0; -1]) by (unfold y, gr; simpl; repeat f_equal; ring).
  assert (Es : s = [-1; 0]) by (unfold s; simpl; repeat f_equal; ring).
  rewrite Ey, Es. assert (Hsy : dot [0; -1] [-1; 0] = 0) by (simpl; ring).
  split; [simpl; lra|]. split; [unfold gr; simpl; intros H; injection H; lra|].
  destruct (Req_EM_T (dot [0; -1] [0; -1]) 0) as [Z|_]; [exfalso; simpl in Z; lra|]. rewrite Hsy.
  unfold bfgs_matrix. cbn [fold_left fst snd]. unfold bfgs_matrix_update.
  destruct (Req_EM_T (dot [0; -1] [-1; 0]) 0) as [_|Z]; [|contradiction].
  rewrite mvec_smul_eye by reflexivity. unfold gr. simpl. unfold Rdiv. rewrite !Rmult_0_l. reflexivity.
Qed.
Print Assumptions C27_zero_curvature_refuted.

Example C27_example : forall n, exists f gradf xs sts,
  grad_dim n gradf /\ ls_consistent f gradf (bt_line_search {| condition := Armijo; c1 := 1/10; c2 := 9/10; decrease_factor := 8/10; max_stepsize := 1; tol := 0; maxiter := 30 |} f gradf) /\
  xs 0%nat = vones n /\ strictly_monotone n gradf /\
  forall K, lbfgs_run f gradf (bt_line_search {| condition := Armijo; c1 := 1/10; c2 := 9/10; decrease_factor := 8/10; max_stepsize := 1; tol := 0; maxiter := 30 |} f gradf) neg_cfg xs sts K.
Proof.
  intros n. destruct (C26_example n) as (f & gr & xs0 & sts0 & H1 & H2 & H3 & H4 & H5 & H6).
  destruct (C27_runs_exist f gr (bt_line_search {| condition := Armijo; c1 := 1/10; c2 := 9/10; decrease_factor := 8/10; max_stepsize := 1; tol := 0; maxiter := 30 |} f gr) neg_cfg (vones n)) as (xs & sts & E0 & Hrun); [right; right; reflexivity|].
  exists f, gr, xs, sts. auto.
Qed.
