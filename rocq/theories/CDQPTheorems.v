(** C30: BoxCDQP. *)
From Coq Require Import Reals List Lra Lia Bool Arith.
From Verif Require Import Prelude Vec Mat Proj ProjProofs Loss LossProofs Run QuasiNewtonProofs CDQP CDQPProofs.
Import ListNotations.
Open Scope R_scope.

(** *** One epoch *)
Theorem C30_epoch : forall Q c l u n x, qp_problem Q c l u n -> length x = n ->
  let '(x', error) := cd_epoch Q c l u x in
  (* the new point is feasible, wherever the epoch started *)
  in_box l u x' /\
  (* the reported error is the l1 distance travelled *)
  error = norm1 (vsub x' x) /\
  (* the objective does not increase, and drops in proportion to the squared distance *)
  (in_box l u x ->
   qp_objective Q c x' <= qp_objective Q c x /\
   forall h, (forall i, (i < n)%nat -> h <= entry Q i i) ->
     qp_objective Q c x' + h / 2 * dist2 x' x <= qp_objective Q c x).
Proof.
  intros Q c l u n x HP Hx. rewrite (cd_epoch_Xk Q c l u n x Hx).
  split; [apply (epoch_box Q c l u n HP x Hx)|].
  split; [apply (Ek_norm1 Q c l u n HP x Hx n (le_n n))|].
  intros Hin. split.
  - pose proof (epoch_descent Q c l u n HP x Hx Hin 0 n (le_n n)) as H.
    assert (0 / 2 * dist2 (Xk Q c l u x n) x = 0) by (unfold Rdiv; ring).
    assert (forall i, (i < n)%nat -> 0 <= entry Q i i) by apply HP. specialize (H H1). lra.
  - intros h Hh. apply (epoch_descent Q c l u n HP x Hx Hin h n (le_n n) Hh).
Qed.
Print Assumptions C30_epoch.

Lemma epoch_zero_error Q c l u n x : qp_problem Q c l u n -> length x = n ->
  snd (cd_epoch Q c l u x) = 0 -> forall k, (k <= n)%nat -> Xk Q c l u x k = x.
Proof.
  intros HP Hx. rewrite (cd_epoch_Xk Q c l u n x Hx). simpl. intros E.
  rewrite (Ek_norm1 Q c l u n HP x Hx n (le_n n)) in E.
  assert (Hn : forall j, (j < n)%nat -> newton Q c l u x j = nth j x 0).
  { intros j Hj. pose proof (norm1_zero _ E j) as H. rewrite nth_vsub, (nth_Xk_final Q c l u n HP x Hx n j) in H by lia. lra. }
  intros k Hk. apply vec_ext; [rewrite (Xk_length Q c l u n HP x Hx k Hk); auto|].
  intros j Hj. rewrite (Xk_length Q c l u n HP x Hx k Hk) in Hj. destruct (Nat.lt_ge_cases j k).
  - rewrite (nth_Xk_final Q c l u n HP x Hx k j) by lia. auto.
  - apply (nth_Xk_untouched Q c l u n HP x Hx); lia.
Qed.

(** First-order condition for a box. *)
Definition box_stationary Q c l u (n : nat) (x : vec) : Prop :=
  forall i v, (i < n)%nat -> nth i l 0 <= v <= nth i u 0 -> 0 <= nth i (grad Q c x) 0 * (v - nth i x 0).

Lemma stationary_coord Q c l u n x : qp_problem Q c l u n -> in_box l u x -> box_stationary Q c l u n x ->
  coordinatewise_optimal Q c l u x.
Proof.
  intros HP Hin HS. pose proof (in_box_length Q c l u n HP x Hin) as Hx. split; [exact Hin|]. intros i v Hi Hv. rewrite Hx in Hi.
  rewrite (objective_coord Q c l u n HP x i v Hx Hi). specialize (HS i v Hi Hv).
  assert (0 <= entry Q i i) by (apply HP; exact Hi). set (t := v - nth i x 0) in *. assert (0 <= t * t) by nra. nra.
Qed.
Lemma stationary_min Q c l u n x : qp_problem Q c l u n -> pos_semidef n Q -> in_box l u x -> box_stationary Q c l u n x ->
  box_minimiser Q c l u x.
Proof.
  intros HP Hpsd Hin HS. pose proof (in_box_length Q c l u n HP x Hin) as Hx. split; [exact Hin|]. intros z Hz.
  pose proof (in_box_length Q c l u n HP z Hz) as Hzl.
  pose proof (objective_convex_ineq Q c l u n HP x z Hx Hzl Hpsd) as H.
  assert (0 <= dot (grad Q c x) (vsub z x)); [|lra]. apply dot_nonneg_coords. intros i Hi _.
  rewrite (grad_length Q c l u n HP) in Hi. rewrite nth_vsub. apply HS; [exact Hi|]. apply Hz. lia.
Qed.

(** *** An epoch that moves nothing *)
Theorem C30_no_move : forall Q c l u n x, qp_problem Q c l u n -> length x = n ->
  (forall i, (i < n)%nat -> 0 < entry Q i i) ->
  snd (cd_epoch Q c l u x) = 0 ->
  fst (cd_epoch Q c l u x) = x /\ coordinatewise_optimal Q c l u x /\
  (pos_semidef n Q -> box_minimiser Q c l u x).
Proof.
  intros Q c l u n x HP Hx Hh E. pose proof (epoch_zero_error Q c l u n x HP Hx E) as HX.
  assert (E1 : fst (cd_epoch Q c l u x) = x) by (rewrite (cd_epoch_Xk Q c l u n x Hx); apply HX; lia).
  split; [exact E1|].
  assert (Hin : in_box l u x) by (rewrite <- (HX n (le_n n)); apply (epoch_box Q c l u n HP x Hx)).
  assert (HS : box_stationary Q c l u n x).
  { intros i v Hi Hv. pose proof (newton_opt Q c l u n HP x Hx i v Hi (Hh i Hi) Hv) as V.
    rewrite (HX i) in V by lia. assert (En : newton Q c l u x i = nth i x 0).
    { rewrite <- (nth_Xk_final Q c l u n HP x Hx n i) by lia. rewrite (HX n) by lia. reflexivity. }
    rewrite En in V. replace (nth i (grad Q c x) 0) with (nth i (grad Q c x) 0 + entry Q i i * (nth i x 0 - nth i x 0)) by ring. exact V. }
  split; [apply (stationary_coord Q c l u n); assumption|]. intros Hp. apply (stationary_min Q c l u n); assumption.
Qed.
Print Assumptions C30_no_move.

(** A coordinate with a zero diagonal entry is never moved inside the box: on
    min x over [-1, 1], written with Q = 0 (a symmetric PSD matrix), the solver started
    at 0 stays there and reports error 0, although -1 is better. *)
Theorem C30_zero_diagonal_refuted : exists Q c l u x0, qp_problem Q c l u 1 /\ pos_semidef 1 Q /\ in_box l u x0 /\
  (forall maxiter tol, 0 <= tol -> (0 < maxiter)%nat ->
    cd_run Q c l u maxiter tol x0 = (x0, {| cd_iter := 1; cd_error := Fin 0 |})) /\
  ~ coordinatewise_optimal Q c l u x0 /\ ~ box_minimiser Q c l u x0.
Proof.
  exists [[0]], [1], [-1], [1], [0].
  assert (Hb : forall a, -1 <= a <= 1 -> in_box [-1] [1] [a]).
  { intros a Ha. split; [reflexivity|]. intros [|i] Hi; simpl in *; [exact Ha|lia]. }
  split.
  { split; [split; [reflexivity|repeat constructor]|]. split.
    { intros [|i] [|j] Hi Hj; try lia. reflexivity. }
    repeat (split; [reflexivity|]). split; intros [|i] Hi; try lia; unfold entry; simpl; lra. }
  split. { intros [|a [|b v]] H; try discriminate. simpl. lra. }
  split; [apply Hb; lra|]. split.
  - intros [|m] tol Ht Hm; [lia|]. unfold cd_run, run_loop.
    assert (E : cd_update [[0]] [1] [-1] [1] ([0], cd_init) = ([0], {| cd_iter := 1; cd_error := Fin 0 |})).
    { unfold cd_update, cd_epoch. simpl. unfold entry. simpl. destruct (Req_EM_T 0 0); [|contradiction].
      destruct (clip_cases (0 - 0) (-1) 1) as [[A ->]|[[A ->]|[A ->]]]; try lra.
      replace (0 - 0 - 0) with 0 by ring. rewrite Rabs_R0. replace (0 - 0) with 0 by ring. replace (0 + 0) with 0 by ring. reflexivity. }
    etransitivity; [apply (f_equal (Loop.python_for (fun s : vec * cd_state => xgtb (cd_error (snd s)) tol) (cd_update [[0]] [1] [-1] [1]) m)); exact E|].
    destruct m; simpl; [reflexivity|]. unfold xgtb. simpl. destruct (Rlt_dec tol 0); [lra|]. reflexivity.
  - split.
    + intros [_ H]. specialize (H 0%nat (-1) ltac:(simpl; lia) ltac:(simpl; lra)). unfold qp_objective in H. simpl in H. lra.
    + intros [_ H]. specialize (H [-1] (Hb (-1) ltac:(lra))). unfold qp_objective in H. simpl in H. lra.
Qed.
Print Assumptions C30_zero_diagonal_refuted.

(** *** The optimality function used for implicit differentiation *)
Theorem C30_optimality_fun : forall Q c l u n x, qp_problem Q c l u n -> length x = n ->
  (cd_optimality_fun Q c l u x = vzero n <-> coordinatewise_optimal Q c l u x) /\
  (pos_semidef n Q -> (cd_optimality_fun Q c l u x = vzero n <-> box_minimiser Q c l u x)).
Proof.
  intros Q c l u n x HP Hx.
  assert (Hdims : length l = n /\ length u = n) by (split; apply HP).
  destruct Hdims as [Hl Hu].
  assert (Hle : forall i, (i < n)%nat -> nth i l 0 <= nth i u 0) by apply HP.
  assert (Hgl : length (grad Q c x) = n) by apply (grad_length Q c l u n HP).
  assert (Hnth : forall i, (i < n)%nat -> nth i (cd_optimality_fun Q c l u x) 0 =
     clip (nth i x 0 - nth i (grad Q c x) 0) (nth i l 0) (nth i u 0) - nth i x 0).
  { intros i Hi. unfold cd_optimality_fun, cd_fixed_point_fun, projection_box. fold (grad Q c x).
    rewrite nth_vsub. rewrite (nth_map3 clip _ _ _ i 0 0 0 0) by (rewrite ?vsub_length; lia). rewrite nth_vsub. reflexivity. }
  assert (Hlen : length (cd_optimality_fun Q c l u x) = n).
  { unfold cd_optimality_fun, cd_fixed_point_fun, projection_box. fold (grad Q c x). apply vsub_len; [|exact Hx]. apply map3_length; [apply vsub_len; assumption|assumption..]. }
  assert (Fwd : cd_optimality_fun Q c l u x = vzero n -> in_box l u x /\ box_stationary Q c l u n x).
  { intros E. assert (Hc : forall i, (i < n)%nat -> clip (nth i x 0 - nth i (grad Q c x) 0) (nth i l 0) (nth i u 0) = nth i x 0).
    { intros i Hi. pose proof (Hnth i Hi) as H. rewrite E in H. unfold vzero in H. rewrite nth_repeat in H. lra. }
    split.
    - split; [lia|]. intros i Hi. rewrite Hx in Hi. rewrite <- (Hc i Hi). apply clip_range, Hle, Hi.
    - intros i v Hi Hv. pose proof (clip_vi (nth i x 0 - nth i (grad Q c x) 0) _ _ v Hv) as V. rewrite (Hc i Hi) in V. nra. }
  assert (Bwd : coordinatewise_optimal Q c l u x -> cd_optimality_fun Q c l u x = vzero n).
  { intros [Hin Hopt]. apply vec_ext; [rewrite Hlen; unfold vzero; rewrite repeat_length; reflexivity|].
    intros i Hi. rewrite Hlen in Hi. rewrite (Hnth i Hi). unfold vzero. rewrite nth_repeat.
    assert (Hxi : nth i l 0 <= nth i x 0 <= nth i u 0) by (apply Hin; lia).
    pose proof (clip_vi (nth i x 0 - nth i (grad Q c x) 0) _ _ _ Hxi) as V.
    pose proof (clip_range (nth i x 0 - nth i (grad Q c x) 0) _ _ (Hle i Hi)) as Rg.
    set (v := clip _ _ _) in *. set (g := nth i (grad Q c x) 0) in *. set (xi := nth i x 0) in *.
    assert (Hh : 0 <= entry Q i i) by (apply HP; exact Hi). set (h := entry Q i i) in *.
    assert (Ht : 0 < / (h + 1) <= 1).
    { split; [apply Rinv_0_lt_compat; lra|]. rewrite <- Rinv_1. apply Rinv_le_contravar; lra. }
    assert (Hth : h * / (h + 1) <= 1).
    { apply Rmult_le_reg_r with (h + 1); [lra|]. rewrite Rmult_assoc, Rinv_l by lra. lra. }
    set (t := / (h + 1)) in *.
    assert (Hv : nth i l 0 <= xi + t * (v - xi) <= nth i u 0) by nra.
    specialize (Hopt i (xi + t * (v - xi)) ltac:(lia) Hv).
    rewrite (objective_coord Q c l u n HP x i _ Hx Hi) in Hopt. fold g xi h in Hopt.
    replace (xi + t * (v - xi) - xi) with (t * (v - xi)) in Hopt by ring. set (d := v - xi) in *.
    assert (V' : g * d <= - (d * d)) by (unfold d; nra).
    assert (Hd : t * (d * d) * (1 - h * t / 2) <= 0).
    { assert (0 <= t * (g * d) + h / 2 * (t * d * (t * d))) by nra. assert (t * (g * d) <= t * - (d * d)) by (apply Rmult_le_compat_l; lra). nra. }
    assert (0 <= d * d) by nra. assert (Hpos : 0 < t * (1 - h * t / 2)) by nra.
    assert (d * d <= 0) by nra. nra. }
  split; [split|].
  - intros E. destruct (Fwd E) as [H1 H2]. apply (stationary_coord Q c l u n); assumption.
  - exact Bwd.
  - intros Hp. split.
    + intros E. destruct (Fwd E) as [H1 H2]. apply (stationary_min Q c l u n); assumption.
    + intros [Hin Hmin]. apply Bwd. split; [exact Hin|]. intros i v Hi Hv. apply Hmin.
      destruct Hin as [Hlx Hin]. split; [rewrite set_nth_length; exact Hlx|]. intros j Hj. rewrite set_nth_length in Hj.
      rewrite nth_set_nth. destruct (Nat.eq_dec i j) as [->|]; [|apply Hin; exact Hj].
      destruct (Nat.ltb_spec j (length x)); [exact Hv|lia].
Qed.
Print Assumptions C30_optimality_fun.

(** *** Runs *)
Lemma cd_run_spec Q c l u maxiter tol x0 : (0 < maxiter)%nat ->
  exists k, (1 <= k <= maxiter)%nat /\ cd_run Q c l u maxiter tol x0 = Nat.iter k (cd_update Q c l u) (x0, cd_init) /\
    (forall j, (1 <= j < k)%nat -> xgtb (cd_error (snd (Nat.iter j (cd_update Q c l u) (x0, cd_init)))) tol = true) /\
    (k = maxiter \/ xgtb (cd_error (snd (Nat.iter k (cd_update Q c l u) (x0, cd_init)))) tol = false).
Proof. apply (run_loop_spec maxiter (fun s => xgtb (cd_error (snd s)) tol) (cd_update Q c l u) (x0, cd_init)). Qed.
Lemma cd_iter_inv Q c l u n x0 k : qp_problem Q c l u n -> in_box l u x0 ->
  let s := Nat.iter k (cd_update Q c l u) (x0, cd_init) in
  in_box l u (fst s) /\ qp_objective Q c (fst s) <= qp_objective Q c x0.
Proof.
  intros HP Hin. induction k as [|k IH]; simpl in *; [split; [exact Hin|lra]|].
  destruct (Nat.iter k (cd_update Q c l u) (x0, cd_init)) as [x st]. simpl in IH. destruct IH as [I1 I2].
  unfold cd_update. pose proof (C30_epoch Q c l u n x HP (in_box_length Q c l u n HP x I1)) as E.
  destruct (cd_epoch Q c l u x) as [x' e]. simpl. destruct E as (E1 & _ & E3). destruct (E3 I1) as [E4 _]. split; [exact E1|lra].
Qed.

(** Every run from a feasible point returns a feasible point that is no worse; a run from
    an infeasible point returns a feasible one (if it does anything). *)
Theorem C30_run : forall Q c l u n maxiter tol x0, qp_problem Q c l u n -> length x0 = n ->
  let x := fst (cd_run Q c l u maxiter tol x0) in
  ((0 < maxiter)%nat -> in_box l u x) /\
  (in_box l u x0 -> in_box l u x /\ qp_objective Q c x <= qp_objective Q c x0).
Proof.
  intros Q c l u n maxiter tol x0 HP Hx. cbv zeta. split.
  - intros Hm. destruct (cd_run_spec Q c l u maxiter tol x0 Hm) as (k & Hk & -> & _).
    assert (H : forall k, in_box l u (fst (Nat.iter (S k) (cd_update Q c l u) (x0, cd_init)))).
    { clear k Hk. induction k as [|k IH].
      - simpl. pose proof (C30_epoch Q c l u n x0 HP Hx) as E. destruct (cd_epoch Q c l u x0) as [x' e]. simpl. apply E.
      - change (Nat.iter (S (S k)) (cd_update Q c l u) (x0, cd_init)) with (cd_update Q c l u (Nat.iter (S k) (cd_update Q c l u) (x0, cd_init))).
        destruct (Nat.iter (S k) (cd_update Q c l u) (x0, cd_init)) as [x st]. simpl in IH. unfold cd_update.
        pose proof (C30_epoch Q c l u n x HP (in_box_length Q c l u n HP x IH)) as E. destruct (cd_epoch Q c l u x) as [x' e]. simpl. apply E. }
    destruct k; [lia|]. apply H.
  - intros Hin. destruct maxiter as [|m]; [simpl; split; [exact Hin|lra]|].
    destruct (cd_run_spec Q c l u (S m) tol x0 ltac:(lia)) as (k & _ & -> & _).
    apply (cd_iter_inv Q c l u n x0 k HP Hin).
Qed.
Print Assumptions C30_run.

(** The last epoch's error bounds the distance to the optimum: for PSD Q with positive
    diagonal and entries at most M in absolute value, any epoch's result is within
    M * error * |z - x'|_1 of the value at every feasible z. *)
Theorem C30_suboptimality : forall Q c l u n maxiter tol x0 M z, qp_problem Q c l u n -> length x0 = n ->
  (0 < maxiter)%nat -> pos_semidef n Q ->
  (forall i, (i < n)%nat -> 0 < entry Q i i) ->
  (forall i j, (i < n)%nat -> (j < n)%nat -> Rabs (entry Q i j) <= M) ->
  in_box l u z ->
  let '(x, st) := cd_run Q c l u maxiter tol x0 in
  exists error, cd_error st = Fin error /\
    qp_objective Q c x <= qp_objective Q c z + M * error * norm1 (vsub z x).
Proof.
  intros Q c l u n maxiter tol x0 M z HP Hx Hm Hp Hh HM Hz. destruct (cd_run_spec Q c l u maxiter tol x0 Hm) as (k & Hk & -> & _).
  destruct k as [|k]; [lia|].
  change (Nat.iter (S k) (cd_update Q c l u) (x0, cd_init)) with (cd_update Q c l u (Nat.iter k (cd_update Q c l u) (x0, cd_init))).
  assert (Hlen : length (fst (Nat.iter k (cd_update Q c l u) (x0, cd_init))) = n).
  { clear Hk. induction k as [|k IH]; [exact Hx|]. simpl. destruct (Nat.iter k (cd_update Q c l u) (x0, cd_init)) as [x st]. simpl in IH.
    unfold cd_update. rewrite (cd_epoch_Xk Q c l u n x IH). simpl. apply (Xk_length Q c l u n HP x IH). lia. }
  destruct (Nat.iter k (cd_update Q c l u) (x0, cd_init)) as [x st]. simpl in Hlen. unfold cd_update.
  rewrite (cd_epoch_Xk Q c l u n x Hlen). eexists. split; [reflexivity|].
  apply (epoch_suboptimality Q c l u n HP x M z Hlen Hh HM Hp Hz).
Qed.
Print Assumptions C30_suboptimality.

Lemma norm1_coord v i : Rabs (nth i v 0) <= norm1 v.
Proof.
  unfold norm1. revert i. induction v as [|a v IH]; intros [|i]; simpl; try (rewrite Rabs_R0; lra).
  - pose proof (norm1_nonneg v). unfold norm1 in H. lra.
  - specialize (IH i). pose proof (Rabs_pos a). lra.
Qed.
Lemma box_objective_bounded Q c l u n : qp_problem Q c l u n ->
  exists m, forall z, in_box l u z -> m <= qp_objective Q c z.
Proof.
  intros HP. set (B := norm1 l + norm1 u). set (T := vsum (map norm1 Q)).
  assert (HB : 0 <= B) by (unfold B; pose proof (norm1_nonneg l); pose proof (norm1_nonneg u); lra).
  assert (HT : forall i, (i < n)%nat -> norm1 (nth i Q []) <= T).
  { intros i Hi. unfold T. destruct HP as [[HQ _] _]. rewrite <- HQ in Hi. clear -Hi. revert i Hi.
    induction Q as [|r q IH]; intros [|i] Hi; simpl in *; try lia.
    - assert (0 <= vsum (map norm1 q)); [|lra]. apply vsum_nonneg. apply Forall_forall. intros a Ha. apply in_map_iff in Ha. destruct Ha as (b & <- & _). apply norm1_nonneg.
    - specialize (IH i ltac:(lia)). pose proof (norm1_nonneg r). lra. }
  assert (HT0 : 0 <= T).
  { unfold T. apply vsum_nonneg. apply Forall_forall. intros a Ha. apply in_map_iff in Ha. destruct Ha as (b & <- & _). apply norm1_nonneg. }
  exists (- (T * B * B / 2) - norm1 c * B). intros z Hz.
  pose proof (in_box_length Q c l u n HP z Hz) as Hzl.
  assert (Hl : length l = n /\ length u = n /\ length c = n) by (repeat split; apply HP). destruct Hl as (Hl & Hu & Hc).
  assert (Hn : norm1 z <= B).
  { unfold B. replace (norm1 l + norm1 u) with (norm1 (vadd (map Rabs l) (map Rabs u))).
    - apply norm1_le_coords; [rewrite vadd_length, !map_length; lia|]. intros i Hi. rewrite nth_vadd, !nth_map_abs.
      destruct Hz as [_ Hz]. specialize (Hz i Hi). pose proof (Rabs_pos (nth i l 0)). pose proof (Rabs_pos (nth i u 0)).
      rewrite (Rabs_right (_ + _)) by lra. unfold Rabs. repeat destruct (Rcase_abs _); lra.
    - unfold norm1. assert (E : length l = length u) by lia. clear -E. revert u E. induction l as [|a l' IH]; intros [|b u'] E; simpl in *; try discriminate; [ring|].
      rewrite IH by lia. rewrite Rabs_right; [ring|]. pose proof (Rabs_pos a). pose proof (Rabs_pos b). lra. }
  pose proof (norm1_nonneg z) as Hz0.
  assert (H1 : Rabs (dot c z) <= norm1 c * norm1 z) by (apply dot_abs_norm1; [intros; apply norm1_coord|lia]).
  assert (H2 : Rabs (dot (mvec Q z) z) <= T * norm1 z * norm1 z).
  { destruct HP as [HQ _]. apply dot_abs_norm1; [|rewrite mvec_length; destruct HQ; lia]. rewrite mvec_length. intros i Hi.
    assert (Hi' : (i < n)%nat) by (destruct HQ; lia). rewrite nth_mvec. eapply Rle_trans.
    - apply (dot_abs_norm1 _ z (norm1 (nth i Q []))); [intros; apply norm1_coord|]. rewrite (row_length n n Q i HQ Hi'). exact Hzl.
    - apply Rmult_le_compat_r; auto. }
  rewrite dot_comm in H2. unfold qp_objective. pose proof (norm1_nonneg c).
  assert (norm1 c * norm1 z <= norm1 c * B) by (apply Rmult_le_compat_l; assumption).
  assert (T * norm1 z * norm1 z <= T * B * B).
  { rewrite !Rmult_assoc. apply Rmult_le_compat_l; [exact HT0|]. apply Rmult_le_compat; assumption. }
  unfold Rabs in H1, H2. destruct (Rcase_abs (dot c z)), (Rcase_abs (dot z (mvec Q z))); lra.
Qed.

Lemma nat_above r : exists k, r < INR k.
Proof.
  exists (Z.to_nat (up r)). destruct (archimed r) as [H _]. destruct (Z.le_gt_cases 0 (up r)) as [Hz|Hz].
  - rewrite INR_IZR_INZ, Z2Nat.id by exact Hz. lra.
  - apply IZR_lt in Hz. pose proof (pos_INR (Z.to_nat (up r))). lra.
Qed.
(** *** Termination: with diagonal entries at least h > 0, the tolerance is met as soon as
    maxiter * (h/2) * tol^2/n exceeds the gap between the starting value and any lower
    bound of the objective on the box, and such a bound exists. *)
Theorem C30_terminates : forall Q c l u n x0 h tol, qp_problem Q c l u n -> in_box l u x0 ->
  0 < h -> (forall i, (i < n)%nat -> h <= entry Q i i) -> 0 < tol ->
  (forall m maxiter, (forall z, in_box l u z -> m <= qp_objective Q c z) ->
    INR maxiter * (h / 2 * (tol * tol / INR n)) > qp_objective Q c x0 - m ->
    xgtb (cd_error (snd (cd_run Q c l u (S maxiter) tol x0))) tol = false) /\
  exists K, forall maxiter, (K <= maxiter)%nat ->
    xgtb (cd_error (snd (cd_run Q c l u maxiter tol x0))) tol = false.
Proof.
  intros Q c l u n x0 h tol HP Hin Hh Hd Ht.
  assert (Main : forall m maxiter, (forall z, in_box l u z -> m <= qp_objective Q c z) ->
    INR maxiter * (h / 2 * (tol * tol / INR n)) > qp_objective Q c x0 - m ->
    xgtb (cd_error (snd (cd_run Q c l u (S maxiter) tol x0))) tol = false).
  { intros m maxiter Hm Hbig. destruct (cd_run_spec Q c l u (S maxiter) tol x0 ltac:(lia)) as (k & Hk & -> & Hc & Hs).
    destruct Hs as [->|Hs]; [|exact Hs].
    set (it := fun j => Nat.iter j (cd_update Q c l u) (x0, cd_init)) in *.
    destruct (xgtb (cd_error (snd (it (S maxiter)))) tol) eqn:Elast; [exfalso|exact Elast].
    assert (Hall : forall j, (1 <= j <= S maxiter)%nat -> xgtb (cd_error (snd (it j))) tol = true).
    { intros j Hj. destruct (Nat.eq_dec j (S maxiter)) as [->|]; [exact Elast|]. apply Hc. lia. }
    assert (Hdrop : forall j, (j <= S maxiter)%nat ->
      qp_objective Q c (fst (it j)) + INR j * (h / 2 * (tol * tol / INR n)) <= qp_objective Q c x0).
    { induction j as [|j IH]; intros Hj; [simpl; lra|]. specialize (IH ltac:(lia)). rewrite S_INR.
      specialize (Hall (S j) ltac:(lia)).
      pose proof (cd_iter_inv Q c l u n x0 j HP Hin) as [I1 _]. fold (it j) in I1.
      change (it (S j)) with (cd_update Q c l u (it j)) in *. destruct (it j) as [x st]. simpl in I1, IH.
      pose proof (in_box_length Q c l u n HP x I1) as Hxl.
      pose proof (C30_epoch Q c l u n x HP Hxl) as E. unfold cd_update in *. destruct (cd_epoch Q c l u x) as [x' e].
      destruct E as (E1 & E2 & E3). destruct (E3 I1) as [_ E4]. specialize (E4 h Hd). simpl in Hall |- *.
      unfold xgtb in Hall. simpl in Hall. destruct (Rlt_dec tol e) as [He|]; [|discriminate].
      pose proof (norm1_sq (vsub x' x)) as Hq. rewrite <- E2 in Hq. rewrite (vsub_len n x' x) in Hq by (auto; apply (in_box_length Q c l u n HP x' E1)).
      fold (sqnorm (vsub x' x)) in Hq. fold (dist2 x' x) in Hq.
      assert (Hee : tol * tol < e * e) by nra.
      assert (Hn : 0 < INR n). { destruct n; [simpl in Hq; nra|]. apply lt_0_INR. lia. }
      assert (Hdist : tol * tol / INR n <= dist2 x' x).
      { apply Rmult_le_reg_r with (INR n); [exact Hn|]. unfold Rdiv. rewrite Rmult_assoc, Rinv_l by lra. lra. }
      assert (h / 2 * (tol * tol / INR n) <= h / 2 * dist2 x' x) by (apply Rmult_le_compat_l; lra). lra. }
    specialize (Hdrop maxiter ltac:(lia)).
    pose proof (cd_iter_inv Q c l u n x0 maxiter HP Hin) as [I1 _]. fold (it maxiter) in I1. specialize (Hm _ I1). lra. }
  split; [exact Main|].
  destruct (box_objective_bounded Q c l u n HP) as [m Hm].
  destruct (Nat.eq_dec n 0) as [En|En].
  { exists 1%nat. intros [|K] HK; [lia|]. destruct (cd_run_spec Q c l u (S K) tol x0 ltac:(lia)) as (k & Hk & -> & _).
    destruct k as [|k]; [lia|]. pose proof (cd_iter_inv Q c l u n x0 k HP Hin) as [I1 _].
    change (Nat.iter (S k) (cd_update Q c l u) (x0, cd_init)) with (cd_update Q c l u (Nat.iter k (cd_update Q c l u) (x0, cd_init))).
    destruct (Nat.iter k (cd_update Q c l u) (x0, cd_init)) as [x st]. simpl in I1.
    pose proof (in_box_length Q c l u n HP x I1) as Hxl. rewrite En in Hxl. destruct x; [|discriminate].
    unfold cd_update, cd_epoch. simpl. unfold xgtb. simpl. destruct (Rlt_dec tol 0); [lra|reflexivity]. }
  assert (Hn : 0 < INR n) by (apply lt_0_INR; lia).
  set (d := h / 2 * (tol * tol / INR n)).
  assert (Hdp : 0 < d).
  { unfold d. apply Rmult_lt_0_compat; [lra|]. apply Rdiv_lt_0_compat; [nra|exact Hn]. }
  destruct (nat_above ((qp_objective Q c x0 - m) / d)) as [K HK].
  exists (S K). intros [|maxiter] Hmi; [lia|]. apply (Main m maxiter Hm). fold d.
  assert (Hle : INR K <= INR maxiter) by (apply le_INR; lia).
  assert ((qp_objective Q c x0 - m) / d * d < INR maxiter * d) by (apply Rmult_lt_compat_r; lra).
  unfold Rdiv in H. rewrite Rmult_assoc, Rinv_l in H by lra. lra.
Qed.
Print Assumptions C30_terminates.

(** A coupled problem meets the hypotheses, and one epoch moves both coordinates. *)
Example C30_example : 
  qp_problem [[2; 1]; [1; 2]] [-3; -3] [0; 0] [1; 1] 2 /\ pos_semidef 2 [[2; 1]; [1; 2]] /\
  in_box [0; 0] [1; 1] [0; 0] /\
  cd_epoch [[2; 1]; [1; 2]] [-3; -3] [0; 0] [1; 1] [0; 0] = ([1; 1], 2).
Proof.
  split.
  { split; [split; [reflexivity|repeat constructor]|]. split.
    { intros [|[|i]] [|[|j]] Hi Hj; try lia; reflexivity. }
    repeat (split; [reflexivity|]). split; intros [|[|i]] Hi; try lia; unfold entry; simpl; lra. }
  split. { intros [|a [|b [|? v]]] H; try discriminate. simpl. nra. }
  split. { split; [reflexivity|]. intros [|[|i]] Hi; simpl in *; try lia; lra. }
  unfold cd_epoch. simpl. unfold entry. simpl. destruct (Req_EM_T 2 0); [lra|].
  destruct (clip_cases (0 - (2 * 0 + (1 * 0 + 0) + -3) / 2) 0 1) as [[A ->]|[[A ->]|[A ->]]]; try lra.
  destruct (clip_cases (0 - (1 * 1 + (2 * 0 + 0) + -3) / 2) 0 1) as [[A' ->]|[[A' B']|[A' ->]]]; try lra.
  rewrite B'. replace (0 - (1 * 1 + (2 * 0 + 0) + -3) / 2) with 1 by lra. rewrite !Rabs_right by lra.
  replace (0 + (1 - 0) + (1 - 0)) with 2 by lra. reflexivity.
Qed.
