(** C31: block coordinate descent. *)
From Coq Require Import Reals List Lra Lia Bool Arith.
From Verif Require Import Prelude Vec Mat Proj Prox ProxProofs Loss LossProofs Run ProxGrad ProxGradProofs ProxGradTheorems ProjProofs SimplexTheorems QuasiNewtonProofs CDQP CDQPProofs CDQPTheorems Objective ObjectiveProofs ObjectiveTheorems BlockCD BlockCDProofs.
Import ListNotations.
Open Scope R_scope.

Lemma problem_pl m n k f D r prox : bcd_problem m n k f D r prox -> forall v s, length v = k -> 0 < s -> length (prox v s) = k.
Proof. intros (_ & _ & _ & [Hd _] & Hp) v s Hv Hs. apply Hd. apply (Hp v s Hv Hs). Qed.

(** The caches.  After any number of updates from [init_state] the parameters are finite,
    [state.predictions] is A x and [state.subfun_g] the gradient there. *)
Theorem C31_cache : forall m n k f prox x0 t, bcd_shapes m n k f ->
  (forall i, (i < n)%nat -> 0 < nth i (columnwise f) 0) ->
  (forall v s, length v = k -> 0 < s -> length (prox v s) = k) ->
  mat_shape n k x0 ->
  exists x st, Nat.iter t (bcd_update k f prox) (Some (x0, bcd_init k f x0)) = Some (x, st) /\
    mat_shape n k x /\ bcd_iter st = t /\
    predictions st = mmul k (linop f) x /\ bcd_subfun_g st = grad_subfun f (mmul k (linop f) x).
Proof.
  intros m n k f prox x0 t Hs HL Hpl Hx. induction t as [|t (x & st & E & E1 & E2 & E3 & E4)].
  - exists x0, (bcd_init k f x0). repeat split; try reflexivity; apply Hx.
  - simpl. rewrite E. rewrite (update_consistent m n k f prox Hs Hpl HL x st E1 (conj E3 E4)).
    eexists _, _. split; [reflexivity|]. split; [apply (Bk_shape m n k f prox Hs Hpl HL x n E1 (le_n n))|].
    simpl. rewrite E2. repeat split; reflexivity.
Qed.
Print Assumptions C31_cache.

(** One update of a reachable state: the error is the distance travelled, every block lands in
    the domain of the penalty (even from an infeasible start) and, from a feasible point, the
    objective decreases by at least half the squared distance times any lower bound of the
    constants. *)
Theorem C31_step : forall m n k f D r prox x0 t, bcd_problem m n k f D r prox -> mat_shape n k x0 ->
  exists x st x' st',
    Nat.iter t (bcd_update k f prox) (Some (x0, bcd_init k f x0)) = Some (x, st) /\
    bcd_update k f prox (Some (x, st)) = Some (x', st') /\
    bcd_error st' = Fin (sqrt (fdist2 x' x)) /\
    mat_shape n k x' /\ blocks_in D x' /\
    (blocks_in D x -> forall h, (forall i, (i < n)%nat -> h <= nth i (columnwise f) 0) ->
       bcd_objective k f r x' + h / 2 * fdist2 x' x <= bcd_objective k f r x).
Proof.
  intros m n k f D r prox x0 t HP Hx. pose proof (problem_pl m n k f D r prox HP) as Hpl. destruct HP as (Hs & HL & Hv & Hc & Hp).
  destruct (C31_cache m n k f prox x0 t Hs HL Hpl Hx) as (x & st & E & E1 & _ & E3 & E4).
  exists x, st. rewrite (update_consistent m n k f prox Hs Hpl HL x st E1 (conj E3 E4)). eexists _, _.
  split; [exact E|]. split; [reflexivity|]. split; [reflexivity|].
  split; [apply (Bk_shape m n k f prox Hs Hpl HL x n E1 (le_n n))|].
  split; [apply (epoch_dom m n k f prox Hs Hpl HL D r Hp x E1)|].
  intros HD h Hh. apply (epoch_descent_b m n k f prox Hs Hpl HL D r Hc Hp Hv x h n E1 HD (le_n n) Hh).
Qed.
Print Assumptions C31_step.

Lemma msub_zero n k Y X : mat_shape n k Y -> mat_shape n k X -> (all_zero (msub Y X) <-> Y = X).
Proof.
  intros HY HX. split.
  - intros H. apply (fdist_zero n k); auto. revert H. generalize (msub Y X). intros Z. unfold all_zero. induction 1 as [|z Z Hz HZ IH]; [reflexivity|]. simpl.
    rewrite IH. assert (E : dot z z = 0) by (clear -Hz; induction Hz as [|a z Ha Hz IH]; [reflexivity|simpl; rewrite IH, Ha; ring]). rewrite E. ring.
  - intros ->. clear HY. unfold all_zero, msub, madd, msmul. clear HX. induction X as [|x X IH]; simpl; constructor; [|exact IH].
    induction x as [|a x IHx]; simpl; constructor; [ring|exact IHx].
Qed.

(** [optimality_fun] vanishes exactly at the minimisers. *)
Theorem C31_optimality : forall m n k f D r prox X, bcd_problem m n k f D r prox ->
  mconvex m k (subfun f) (grad_subfun f) -> mat_shape n k X ->
  all_zero (bcd_optimality_fun k f prox X) <-> bcd_minimiser n k f D r X.
Proof.
  intros m n k f D r prox X HP Hm HX. pose proof (problem_pl m n k f D r prox HP) as Hpl. destruct HP as (Hs & HL & Hv & Hc & Hp).
  assert (HF : mat_shape n k (bcd_fixed_point_fun k f prox X)).
  { split; [unfold bcd_fixed_point_fun; rewrite map_length, seq_length; apply (shape_length n k X HX)|].
    apply Forall_forall. intros v Hin. apply in_map_iff in Hin. destruct Hin as (i & <- & Hi). apply in_seq in Hi. rewrite (shape_length n k X HX) in Hi.
    apply (prox_at_one m n k f prox Hs Hpl D r Hc Hp X i HX ltac:(lia)). }
  unfold bcd_optimality_fun. rewrite (msub_zero n k _ X HF HX), (opt_zero m n k f prox Hs Hpl D r Hc Hp X HX). split.
  - apply (stationary_minimiser m n k f D r X Hs Hm HX).
  - intros (_ & HB & Hmin). apply (fixed_stationary m n k f prox Hs HL D r Hc Hp X HX).
    intros i Hi. pose proof (nth_shape n k X i HX Hi) as Hxi.
    assert (HDi : D (nth i X [])) by (apply (blocks_nth D); [exact HB|rewrite (shape_length n k X HX); exact Hi]).
    pose proof (bstep_descent m n k f prox Hs Hpl HL D r Hc Hp Hv X i HX Hi HDi) as Hd.
    pose proof (bstep_shape m n k f prox Hs Hpl HL X i HX Hi) as Hsh.
    assert (HB' : blocks_in D (bstep k f prox i X)).
    { unfold bstep. apply Forall_forall. intros v Hin. destruct (In_nth _ v [] Hin) as (j & Hj & <-).
      rewrite nth_set_mat by (rewrite (shape_length n k X HX); exact Hi). destruct (Nat.eq_dec i j).
      - apply (new_block_dom m n k f prox Hs HL D r Hp X i HX Hi).
      - apply (blocks_nth D); [exact HB|]. rewrite set_nth_length in Hj. exact Hj. }
    specialize (Hmin _ Hsh HB'). pose proof (HL i Hi) as HLi.
    apply dist2_zero; [rewrite (new_block_length m n k f prox Hs Hpl HL) by assumption; lia|].
    unfold dist2. set (q := sqnorm _) in *. assert (0 <= q) by apply dot_self_nonneg.
    destruct (Req_dec q 0); [assumption|]. exfalso. assert (0 < nth i (columnwise f) 0 / 2 * q) by (apply Rmult_lt_0_compat; lra). lra.
Qed.
Print Assumptions C31_optimality.

(** An update with error 0 did not move, and its point is a global minimiser. *)
Theorem C31_error_zero : forall m n k f D r prox x0 t x st x' st', bcd_problem m n k f D r prox -> mat_shape n k x0 ->
  Nat.iter t (bcd_update k f prox) (Some (x0, bcd_init k f x0)) = Some (x, st) ->
  bcd_update k f prox (Some (x, st)) = Some (x', st') -> bcd_error st' = Fin 0 ->
  x' = x /\ (mconvex m k (subfun f) (grad_subfun f) -> bcd_minimiser n k f D r x').
Proof.
  intros m n k f D r prox x0 t x st x' st' HP Hx E Eu E0.
  pose proof (problem_pl m n k f D r prox HP) as Hpl. pose proof HP as (Hs & HL & Hv & Hc & Hp).
  destruct (C31_cache m n k f prox x0 t Hs HL Hpl Hx) as (x1 & st1 & E' & E1 & _ & E3 & E4).
  rewrite E in E'. injection E' as <- <-. rewrite (update_consistent m n k f prox Hs Hpl HL x st E1 (conj E3 E4)) in Eu.
  injection Eu as <- <-. simpl in E0. injection E0 as E0. apply sqrt_eq_0 in E0; [|apply mdot_self_nonneg].
  assert (HB : forall j, (j <= n)%nat -> mat_shape n k (Bk k f prox x j)) by (intros j Hj; apply (Bk_shape m n k f prox Hs Hpl HL x j E1 Hj)).
  assert (EX : Bk k f prox x n = x) by (apply (fdist_zero n k); auto). split; [exact EX|]. rewrite EX. intros Hm.
  apply (stationary_minimiser m n k f D r x Hs Hm E1). apply (fixed_stationary m n k f prox Hs HL D r Hc Hp x E1).
  assert (Hj : forall j, (j <= n)%nat -> Bk k f prox x j = x).
  { induction j as [|j IH]; intros Hj; [reflexivity|]. specialize (IH ltac:(lia)).
    change (Bk k f prox x (S j)) with (bstep k f prox j (Bk k f prox x j)). rewrite IH. unfold bstep.
    pose proof (nth_Bk_final m n k f prox Hs Hpl HL x n j E1 ltac:(lia)) as En. rewrite EX, IH in En. rewrite <- En.
    apply mat_nth_ext; [apply set_nth_length|]. intros i Hi. rewrite nth_set_mat by (rewrite (shape_length n k x E1); lia).
    destruct (Nat.eq_dec j i) as [->|]; reflexivity. }
  intros i Hi. pose proof (nth_Bk_final m n k f prox Hs Hpl HL x n i E1 ltac:(lia)) as En. rewrite EX, Hj in En by lia. symmetry. exact En.
Qed.
Print Assumptions C31_error_zero.

Lemma bcd_run_spec k f prox maxiter tol x0 : (0 < maxiter)%nat ->
  let it j := Nat.iter j (bcd_update k f prox) (Some (x0, bcd_init k f x0)) in
  let go s := match s with Some (_, st) => xgtb (bcd_error st) tol | None => false end in
  exists j, (1 <= j <= maxiter)%nat /\ bcd_run k f prox maxiter tol x0 = it j /\
    (forall i, (1 <= i < j)%nat -> go (it i) = true) /\ (j = maxiter \/ go (it j) = false).
Proof. intros H. apply (run_loop_spec maxiter (fun s => match s with Some (_, st) => xgtb (bcd_error st) tol | None => false end) (bcd_update k f prox) (Some (x0, bcd_init k f x0)) H). Qed.

Lemma iter_inv m n k f D r prox x0 t : bcd_problem m n k f D r prox -> mat_shape n k x0 ->
  exists x st, Nat.iter t (bcd_update k f prox) (Some (x0, bcd_init k f x0)) = Some (x, st) /\ mat_shape n k x /\
    ((0 < t)%nat -> blocks_in D x) /\
    (blocks_in D x0 -> blocks_in D x /\ bcd_objective k f r x <= bcd_objective k f r x0).
Proof.
  intros HP Hx. induction t as [|t (x & st & E & E1 & E2 & E3)].
  - exists x0, (bcd_init k f x0). simpl. split; [reflexivity|]. split; [exact Hx|]. split; [lia|]. intros; split; [assumption|lra].
  - destruct (C31_step m n k f D r prox x0 t HP Hx) as (y & st1 & x' & st' & F1 & F2 & _ & F4 & F5 & F6).
    rewrite E in F1. injection F1 as <- <-. exists x', st'. split; [simpl; rewrite E; exact F2|]. split; [exact F4|]. split; [auto|].
    intros H0. destruct (E3 H0) as [G1 G2]. split; [exact F5|].
    specialize (F6 G1 0 ltac:(intros i Hi; left; apply HP, Hi)). lra.
Qed.
(** [run]: finite, exact caches, feasible after at least one iteration, and never worse than a
    feasible start. *)
Theorem C31_run : forall m n k f D r prox maxiter tol x0, bcd_problem m n k f D r prox -> mat_shape n k x0 ->
  exists x st, bcd_run k f prox maxiter tol x0 = Some (x, st) /\ mat_shape n k x /\
    predictions st = mmul k (linop f) x /\ bcd_subfun_g st = grad_subfun f (mmul k (linop f) x) /\
    (bcd_iter st <= maxiter)%nat /\
    ((0 < maxiter)%nat -> blocks_in D x) /\
    (blocks_in D x0 -> blocks_in D x /\ bcd_objective k f r x <= bcd_objective k f r x0).
Proof.
  intros m n k f D r prox maxiter tol x0 HP Hx. pose proof (problem_pl m n k f D r prox HP) as Hpl.
  assert (Hex : exists j, (j <= maxiter)%nat /\ ((0 < maxiter)%nat -> (0 < j)%nat) /\ bcd_run k f prox maxiter tol x0 = Nat.iter j (bcd_update k f prox) (Some (x0, bcd_init k f x0))).
  { destruct maxiter as [|mx]; [exists 0%nat; repeat split; lia|].
    destruct (bcd_run_spec k f prox (S mx) tol x0 ltac:(lia)) as (j & Hj & E & _). exists j. split; [lia|]. split; [lia|exact E]. }
  destruct Hex as (j & Hj & Hj0 & ->).
  destruct (iter_inv m n k f D r prox x0 j HP Hx) as (x & st & E & E1 & E2 & E3).
  destruct HP as (Hs & HL & _). destruct (C31_cache m n k f prox x0 j Hs HL Hpl Hx) as (x1 & st1 & F & _ & F2 & F3 & F4).
  rewrite E in F. injection F as <- <-. exists x, st. repeat split; auto; try apply E1; try lia; apply E3; assumption.
Qed.
Print Assumptions C31_run.

(** Termination.  If the objective is bounded below on the domain, [run] meets any positive
    tolerance within a number of iterations that does not depend on maxiter. *)
Theorem C31_terminates : forall m n k f D r prox x0 tol Fmin, bcd_problem m n k f D r prox -> mat_shape n k x0 ->
  0 < tol -> (forall Z, mat_shape n k Z -> blocks_in D Z -> Fmin <= bcd_objective k f r Z) ->
  exists N, forall maxiter, (N <= maxiter)%nat ->
    exists x st e, bcd_run k f prox maxiter tol x0 = Some (x, st) /\ bcd_error st = Fin e /\ e <= tol.
Proof.
  intros m n k f D r prox x0 tol Fmin HP Hx Htol HF.
  assert (Hh : exists h, 0 < h /\ forall i, (i < n)%nat -> h <= nth i (columnwise f) 0).
  { pose proof HP as (_ & HL & _). clear -HL. induction n as [|n IH]; [exists 1; split; [lra|lia]|].
    destruct IH as (h & Hh & Hle); [intros i Hi; apply HL; lia|]. pose proof (HL n ltac:(lia)) as HLn.
    exists (Rmin h (nth n (columnwise f) 0)). split; [apply Rmin_pos; assumption|]. intros i Hi.
    destruct (Nat.eq_dec i n) as [->|]; [apply Rmin_r|]. eapply Rle_trans; [apply Rmin_l|apply Hle; lia]. }
  destruct Hh as (h & Hh & Hle).
  set (it j := Nat.iter j (bcd_update k f prox) (Some (x0, bcd_init k f x0))).
  destruct (iter_inv m n k f D r prox x0 1 HP Hx) as (x1 & st1 & E1 & S1 & B1 & _). specialize (B1 ltac:(lia)).
  set (c := h / 2 * (tol * tol)). assert (Hc : 0 < c) by (unfold c; apply Rmult_lt_0_compat; [lra|nra]).
  destruct (nat_above ((bcd_objective k f r x1 - Fmin) / c)) as (K & HK).
  exists (S (S K)). intros maxiter Hmax.
  destruct (bcd_run_spec k f prox maxiter tol x0 ltac:(lia)) as (j & Hj & E & Hgo & Hstop).
  cbv zeta in E, Hgo, Hstop. change (bcd_run k f prox maxiter tol x0 = it j) in E.
  change (forall i, (1 <= i < j)%nat -> match it i with Some (_, st) => xgtb (bcd_error st) tol | None => false end = true) in Hgo.
  change (j = maxiter \/ match it j with Some (_, st) => xgtb (bcd_error st) tol | None => false end = false) in Hstop.
  assert (Hdec : forall t, (t < j)%nat -> exists x st, it (S t) = Some (x, st) /\ mat_shape n k x /\ blocks_in D x /\
      bcd_objective k f r x + INR t * c <= bcd_objective k f r x1 + (if (S t =? j)%nat then c else 0)).
  { induction t as [|t IH]; intros Ht.
    - exists x1, st1. split; [exact E1|]. split; [exact S1|]. split; [exact B1|]. simpl (INR 0). destruct (1 =? j)%nat; lra.
    - destruct (IH ltac:(lia)) as (x & st & Ex & Sx & Bx & Dx). rewrite (proj2 (Nat.eqb_neq (S t) j)) in Dx by lia.
      destruct (C31_step m n k f D r prox x0 (S t) HP Hx) as (y & sty & x' & st' & F1 & F2 & F3 & F4 & F5 & F6).
      unfold it in Ex. rewrite Ex in F1. injection F1 as <- <-. exists x', st'.
      assert (Ei : it (S (S t)) = Some (x', st')) by (unfold it; change (Nat.iter (S (S t)) (bcd_update k f prox) (Some (x0, bcd_init k f x0))) with (bcd_update k f prox (Nat.iter (S t) (bcd_update k f prox) (Some (x0, bcd_init k f x0)))); rewrite Ex; exact F2).
      split; [exact Ei|]. split; [exact F4|]. split; [exact F5|]. specialize (F6 Bx h Hle). rewrite (S_INR t).
      assert (Hd0 : 0 <= fdist2 x' x) by apply mdot_self_nonneg.
      destruct (Nat.eqb_spec (S (S t)) j) as [Ej|Ej].
      + assert (0 <= h / 2 * fdist2 x' x) by (apply Rmult_le_pos; lra). lra.
      + specialize (Hgo (S (S t)) ltac:(lia)). rewrite Ei in Hgo. cbn [xgtb] in Hgo. rewrite F3 in Hgo. simpl in Hgo.
        assert (Hgt : tol < sqrt (fdist2 x' x)).
        { destruct (Rlt_dec tol (sqrt (fdist2 x' x))); [assumption|]. exfalso.
          destruct (Rlt_dec tol (sqrt (fdist2 x' x))); [contradiction|discriminate]. }
        assert (tol * tol <= fdist2 x' x).
        { rewrite <- (sqrt_sqrt (fdist2 x' x) Hd0). apply Rmult_le_compat; lra. }
        assert (c <= h / 2 * fdist2 x' x) by (unfold c; apply Rmult_le_compat_l; lra). lra. }
  destruct j as [|j]; [lia|]. destruct (Hdec j ltac:(lia)) as (x & st & Ex & Sx & Bx & Dx). rewrite Nat.eqb_refl in Dx.
  exists x, st.
  assert (He : exists e, bcd_error st = Fin e).
  { destruct (C31_step m n k f D r prox x0 j HP Hx) as (y & sty & x' & st' & F1 & F2 & F3 & _).
    unfold it in Ex. change (Nat.iter (S j) (bcd_update k f prox) (Some (x0, bcd_init k f x0))) with (bcd_update k f prox (Nat.iter j (bcd_update k f prox) (Some (x0, bcd_init k f x0)))) in Ex.
    rewrite F1, F2 in Ex. injection Ex as <- <-. eauto. }
  destruct He as (e & He). exists e. rewrite E. split; [exact Ex|]. split; [exact He|].
  destruct Hstop as [Hm|Hs].
  - exfalso. specialize (HF x Sx Bx).
    assert (INR j * c <= bcd_objective k f r x1 - Fmin + c) by lra.
    assert (Hj2 : INR (S K) <= INR j) by (apply le_INR; lia). rewrite S_INR in Hj2.
    assert (HK2 : bcd_objective k f r x1 - Fmin < INR K * c).
    { apply Rmult_lt_reg_r with (/ c); [apply Rinv_0_lt_compat; exact Hc|]. unfold Rdiv in HK. rewrite Rmult_assoc, Rinv_r, Rmult_1_r by lra. exact HK. }
    assert ((INR K + 1) * c <= INR j * c) by (apply Rmult_le_compat_r; lra). lra.
  - rewrite Ex, He in Hs. simpl in Hs. destruct (Rlt_dec tol e); [discriminate|lra].
Qed.
Print Assumptions C31_terminates.

(** ** Instances *)
Lemma ls_shapes m n k X Y : mat_shape m n X -> mat_shape m k Y -> bcd_shapes m n k (least_squares n k X Y).
Proof.
  intros HX HY. split; [exact HX|]. split; [|split; [simpl; discriminate|]].
  - intros P HP. simpl. apply msmul_shape, msub_shape; assumption.
  - simpl. rewrite smul_length. unfold lo_column_sq_norms. rewrite map_length, seq_length. reflexivity.
Qed.
(** Least squares with no zero column and an l1 penalty on every row. *)
Theorem C31_least_squares_lasso : forall m n k X Y l, mat_shape m n X -> mat_shape m k Y -> (0 < m)%nat -> (0 < k)%nat ->
  (forall i, (i < n)%nat -> col i X <> vzero m) -> 0 <= l ->
  let f := least_squares n k X Y in
  bcd_problem m n k f (in_dim k) (fun w => l * norm1 w) (fun v s => prox_lasso_scalar v l s) /\
  mconvex m k (subfun f) (grad_subfun f).
Proof.
  intros m n k X Y l HX HY Hm Hk Hcol Hl f. destruct (C32_least_squares m n k X Y HX HY Hm Hk) as (H1 & _ & H3).
  split; [|exact H1]. split; [apply ls_shapes; assumption|].
  destruct (C23_lasso k (fun _ => 0) (fun v => vzero (length v)) l Hl) as (_ & _ & Hc & Hp).
  { intros x Hx. unfold in_dim, vzero in *. rewrite repeat_length. exact Hx. }
  { intros x y Hx Hy. rewrite dot_vzero_l. lra. }
  split; [|split; [exact H3|split; [exact Hc|exact Hp]]].
  intros i Hi. unfold f. simpl. rewrite nth_smul, Rmult_1_l. unfold lo_column_sq_norms. rewrite nth_map_seq by exact Hi.
  apply (sqnorm_pos m); [rewrite col_length; apply HX|apply Hcol, Hi].
Qed.
Print Assumptions C31_least_squares_lasso.

Example C31_example : 
  let f := least_squares 2 1 [[1; 2]; [3; 4]] [[5]; [6]] in
  bcd_problem 2 2 1 f (in_dim 1) (fun w => 1 * norm1 w) (fun v s => prox_lasso_scalar v 1 s) /\
  mconvex 2 1 (subfun f) (grad_subfun f) /\ mat_shape 2 1 [[0]; [0]] /\
  (forall Z, mat_shape 2 1 Z -> 0 <= bcd_objective 1 f (fun w => 1 * norm1 w) Z).
Proof.
  intros f. assert (HX : mat_shape 2 2 [[1; 2]; [3; 4]]) by (split; [reflexivity|repeat constructor]).
  assert (HY : mat_shape 2 1 [[5]; [6]]) by (split; [reflexivity|repeat constructor]).
  assert (Hc : forall i, (i < 2)%nat -> col i [[1; 2]; [3; 4]] <> vzero 2).
  { intros [|[|i]] Hi; [| |lia]; unfold col; simpl; intros E; injection E; lra. }
  destruct (C31_least_squares_lasso 2 2 1 _ _ 1 HX HY ltac:(lia) ltac:(lia) Hc ltac:(lra)) as [H1 H2].
  split; [exact H1|]. split; [exact H2|]. split; [split; [reflexivity|repeat constructor]|].
  intros Z HZ. unfold bcd_objective, comp_call. unfold f. cbn [linear_term subfun least_squares linop].
  match goal with |- context [mdot ?r ?r] => set (R0 := r) end. pose proof (mdot_self_nonneg R0) as Hq.
  assert (Hv : 0 <= vsum (map (fun w => 1 * norm1 w) Z)).
  { clear. induction Z as [|z Z IH]; simpl; [lra|]. pose proof (norm1_nonneg z). lra. }
  assert (Hr : 0 <= mdot R0 R0 / INR (length [[5]; [6]] * 1)) by (apply Rdiv_nonneg; [exact Hq|simpl; lra]).
  rewrite Rplus_0_r. apply Rplus_le_le_0_compat; [apply Rmult_le_pos; [lra|exact Hr]|exact Hv].
Qed.

(** ** What is false *)
Lemma fori_none k f prox j : fori j (bcd_body k f prox) None = None.
Proof. induction j as [|j IH]; [reflexivity|]. simpl. rewrite IH. reflexivity. Qed.
Lemma fori_none_after k f prox j i s : (i <= j)%nat -> fori i (bcd_body k f prox) s = None -> fori j (bcd_body k f prox) s = None.
Proof. induction 1 as [|j Hj IH]; intros E; [exact E|]. simpl. rewrite (IH E). reflexivity. Qed.
Lemma block_point_inf x g : (0 < length x)%nat -> length x = length g -> all_finite (block_point 0 x g) = None.
Proof.
  destruct x as [|a x], g as [|b g]; simpl; try lia. intros _ _. unfold xrecip. destruct (Req_EM_T 0 0); [|lra]. simpl.
  destruct (Rlt_dec 0 b); [reflexivity|]. destruct (Rlt_dec b 0); reflexivity.
Qed.
(** A zero constant (a zero column in the data) makes the step size infinite: the first update
    loses the parameters, from every starting point, state and prox, although the problem is
    perfectly well posed. *)
Theorem C31_zero_column_refuted : forall m n k f prox x0 i, bcd_shapes m n k f -> (0 < k)%nat ->
  (forall v s, length v = k -> length (prox v s) = k) -> mat_shape n k x0 ->
  (i < n)%nat -> nth i (columnwise f) 0 = 0 ->
  bcd_update k f prox (Some (x0, bcd_init k f x0)) = None.
Proof.
  intros m n k f prox x0 i Hs Hk Hpl Hx Hi HL. unfold bcd_update. rewrite (shape_length n k x0 Hx).
  assert (H : fori (S i) (bcd_body k f prox) (Some (x0, bcd_subfun_g (bcd_init k f x0), predictions (bcd_init k f x0), 0)) = None).
  2:{ rewrite (fori_none_after k f prox n (S i) _ Hi H). reflexivity. }
  destruct Hs as (S1 & S2 & S3 & S4).
  assert (Hgl : forall x G j, mat_shape n k x -> mat_shape m k G -> (j < n)%nat ->
     length (match linear_term f with Some b => vadd (lo_rmatvec_element k (linop f) G j) (nth j b []) | None => lo_rmatvec_element k (linop f) G j end) = k).
  { intros x G j Hx' HG Hj. unfold lo_rmatvec_element. pose proof (tvec_length m k G (col j (linop f)) HG) as Ht.
    destruct (linear_term f) as [b|]; [|exact Ht]. rewrite vadd_length, Ht, (nth_shape n k b j (S3 b eq_refl) Hj). lia. }
  assert (Hmap : forall L x g v, all_finite (block_point L x g) = Some v -> length v = length (block_point L x g)).
  { intros L x g v. generalize (block_point L x g). intros l. revert v. induction l as [|[a| | |] l IH]; intros v E; simpl in E; try discriminate.
    - injection E as <-. reflexivity.
    - destruct (all_finite l) as [w|]; [|discriminate]. injection E as <-. simpl. rewrite (IH w eq_refl). reflexivity. }
  assert (Inv : forall j, (j <= n)%nat -> match fori j (bcd_body k f prox) (Some (x0, bcd_subfun_g (bcd_init k f x0), predictions (bcd_init k f x0), 0)) with
     | None => True | Some (x, G, P, _) => mat_shape n k x /\ mat_shape m k G /\ mat_shape m k P end).
  { induction j as [|j IH]; intros Hj.
    - simpl. assert (HP : mat_shape m k (lo_matvec k (linop f) x0)) by (apply (mmul_shape m k n); assumption). auto.
    - specialize (IH ltac:(lia)). cbn [fori]. destruct (fori j _ _) as [[[[x G] P] sq]|]; [|exact I]. destruct IH as (I1 & I2 & I3).
      unfold bcd_body. specialize (Hgl x G j I1 I2 ltac:(lia)). set (g := match linear_term f with Some _ => _ | None => _ end) in *.
      destruct (all_finite _) as [v|] eqn:Ev; [|exact I]. apply Hmap in Ev.
      pose proof (nth_shape n k x j I1 ltac:(lia)) as Hxj.
      assert (Hv : length v = k) by (rewrite Ev; unfold block_point; rewrite ProxProofs.map2_length, Hxj, Hgl; lia).
      pose proof (Hpl v (1 / nth j (columnwise f) 0) Hv) as Hpv.
      assert (HP' : mat_shape m k (lo_update_matvec (linop f) P (vsub (prox v (1 / nth j (columnwise f) 0)) (nth j x [])) j)).
      { unfold lo_update_matvec. apply madd_shape; [exact I3|]. apply outer_shape'; [rewrite col_length; apply S1|]. rewrite vsub_length, Hpv, Hxj. lia. }
      split; [apply set_nth_shape; assumption|]. split; [apply S2; exact HP'|exact HP']. }
  specialize (Inv i ltac:(lia)). cbn [fori]. destruct (fori i _ _) as [[[[x G] P] sq]|]; [|reflexivity].
  destruct Inv as (I1 & I2 & I3). unfold bcd_body. specialize (Hgl x G i I1 I2 Hi).
  pose proof (nth_shape n k x i I1 Hi) as Hxi.
  rewrite HL, block_point_inf; [reflexivity|rewrite Hxi; exact Hk|rewrite Hxi; symmetry; exact Hgl].
Qed.
Print Assumptions C31_zero_column_refuted.
Example C31_zero_column_example :
  let f := least_squares 2 1 [[0; 1]] [[1]] in
  bcd_shapes 1 2 1 f /\ nth 0 (columnwise f) 0 = 0 /\ (forall v s, length v = 1%nat -> length (prox_lasso_scalar v 1 s) = 1%nat).
Proof.
  intros f. split; [apply ls_shapes; split; [reflexivity|repeat constructor|reflexivity|repeat constructor]|]. split; [unfold f, col; simpl; ring|].
  intros v s Hv. unfold prox_lasso_scalar, prox_lasso. rewrite map2_length, repeat_length. lia.
Qed.

(** With the constants of the SVM dual (C32) the objective can increase: one update of the
    documented set-up, projection onto the simplex, takes it from 0 to 2. *)
Theorem C31_svm_dual_refuted :
  let f := multiclass_linear_svm_dual 1 2 (/ 10) [[1]] [[1; 0]] in
  let prox := fun v (_ : R) => projection_simplex v 1 in
  let x0 := [[1; 0]] in
  exists x st, bcd_update 2 f prox (Some (x0, bcd_init 2 f x0)) = Some (x, st) /\
    blocks_in (simplex 2 1) x0 /\ blocks_in (simplex 2 1) x /\
    bcd_objective 2 f (fun _ => 0) x0 = 0 /\ bcd_objective 2 f (fun _ => 0) x = 2.
Proof.
  intros f prox x0.
  assert (Ep : projection_simplex [1; 1] 1 = [/ 2; / 2]).
  { destruct (C06_simplex [1; 1] 1 ltac:(discriminate) ltac:(lra)) as (H1 & _ & H3). symmetry.
    apply H3; [split; [reflexivity|split; [intros [|[|i]] Hi; simpl in *; try lra; lia|simpl; lra]]|].
    destruct H1 as (L1 & L2 & L3). set (p := projection_simplex [1; 1] 1) in *.
    destruct p as [|a [|b [|c p]]]; try discriminate. simpl in L3. assert (Eb : b = 1 - a) by lra. unfold dist2, sqnorm. simpl. rewrite Eb. pose proof (Rle_0_sqr (a - / 2)). unfold Rsqr in *. lra. }
  eexists [[/ 2; / 2]], _. split; [|split; [|split; [|split]]].
  - unfold bcd_update. cbn [length x0 fori]. unfold bcd_body.
    assert (EL : nth 0 (columnwise f) 0 = 1) by (unfold f, col, lo_column_sq_norms; simpl; ring).
    rewrite EL. rewrite block_point_finite; [|lra|reflexivity].
    match goal with |- context [prox ?v _] => replace v with [1; 1] end.
    2:{ unfold f, x0, lo_rmatvec_element, lo_matvec, col. simpl. f_equal; [field|f_equal; field]. }
    unfold prox. rewrite Ep. reflexivity.
  - constructor; [|constructor]. split; [reflexivity|]. split; [intros [|[|i]] Hi; simpl in *; try lra; lia|simpl; lra].
  - constructor; [|constructor]. split; [reflexivity|]. split; [intros [|[|i]] Hi; simpl in *; try lra; lia|simpl; lra].
  - unfold bcd_objective, comp_call, f, x0, lo_matvec, mtrans, col. simpl. lra.
  - unfold bcd_objective, comp_call, f, x0, lo_matvec, mtrans, col. simpl. lra.
Qed.
Print Assumptions C31_svm_dual_refuted.
