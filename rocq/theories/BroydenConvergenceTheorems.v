(** C79: convergence of Broyden's method with unit steps. *)
From Coq Require Import Reals List Lra Lia Bool Arith.
From Verif Require Import Prelude Vec Mat Zoom Loss Run QuasiNewton QuasiNewtonProofs Broyden BroydenProofs BroydenTheorems BroydenConvergence BroydenConvergenceProofs.
Import ListNotations.
Open Scope R_scope.

(** Near a zero with a nonsingular Jacobian that I / gamma approximates, every run whose steps have
    length 1 converges linearly with factor r as long as no row of the history is overwritten:
    the error after k updates is at most r^k times the initial error. *)
Theorem C79_local : forall F ls cfg m n xs sts K M xstar a delta L r rho, (0 < m)%nat -> (K <= S m)%nat ->
  by_ls_consistent (one_leaf F) ls -> length (xs 0%nat) = n -> broyden_steps F ls cfg m xs sts K -> by_gamma0 cfg <> 0 ->
  (forall k, (k < K)%nat -> by_stepsize (sts (S k)) = 1) ->
  jacobian_near n F M xstar rho L -> bounded_below n M a -> start_within n M (by_gamma0 cfg) delta -> 0 <= delta ->
  norm2 (vsub (xs 0%nat) xstar) <= rho -> broyden_basin a delta L r (norm2 (vsub (xs 0%nat) xstar)) ->
  forall k, (k <= K)%nat -> norm2 (vsub (xs k) xstar) <= r ^ k * norm2 (vsub (xs 0%nat) xstar).
Proof.
  intros F ls cfg m n xs sts K M xstar a delta L r rho Hm HK Hls Hx Hr Hg Hu Hn Hb Hs Hd Hrho Hbas k Hk.
  exact (proj1 (local_all F ls cfg m n xs sts K Hm (proj1 Hn) Hls Hx Hr Hg M xstar a delta L r rho Hn Hb Hs Hd Hrho Hbas HK Hu k Hk)).
Qed.
Print Assumptions C79_local.

(** [run] with stepsize 1 from such a point: if r^J times the initial error is small enough, it
    returns after at most J updates, with the residual below the tolerance and no NaN. *)
Theorem C79_run : forall F ls cfg m n x0 M xstar a delta L r rho J, (0 < m)%nat -> by_history_size cfg = Some m ->
  by_ls_consistent (one_leaf F) ls -> length x0 = n -> by_gamma0 cfg <> 0 -> by_cfg_stepsize cfg = StepConst 1 -> 0 <= by_tol cfg ->
  jacobian_near n F M xstar rho L -> bounded_below n M a -> start_within n M (by_gamma0 cfg) delta -> 0 <= delta ->
  norm2 (vsub x0 xstar) <= rho -> broyden_basin a delta L r (norm2 (vsub x0 xstar)) ->
  (1 <= J <= by_maxiter cfg)%nat -> (J <= S m)%nat ->
  (/ Rabs (by_gamma0 cfg) + delta + L / 2 * norm2 (vsub x0 xstar)) * (r ^ J * norm2 (vsub x0 xstar)) <= by_tol cfg ->
  exists x st, broyden_run (one_leaf F) ls cfg [x0] = Ok (Some ([x], st)) /\ (1 <= by_iter st <= J)%nat /\
    norm2 (F x) <= by_tol cfg /\ by_error st = Fin (norm2 (F x)) /\
    norm2 (vsub x xstar) <= r ^ (by_iter st) * norm2 (vsub x0 xstar).
Proof.
  intros F ls cfg m n x0 M xstar a delta L r rho J Hm Hmc Hls Hx Hg Hsz Ht Hn Hb Hs Hd Hrho Hbas HJ HJm Hsm.
  assert (Hi : exists st0, broyden_init (one_leaf F) cfg [x0] = Ok st0) by (unfold broyden_init; rewrite Hmc; eexists; reflexivity).
  destruct Hi as [st0 Hi].
  exact (tot_run F ls cfg m n x0 Hm Hmc Hls Hx Hg Hsz Ht M xstar a delta L r rho Hn Hb Hs Hd Hrho Hbas st0 Hi J ltac:(lia) HJm ltac:(lia) Hsm).
Qed.
Print Assumptions C79_run.

(** With the default history size the only limit on J is maxiter. *)
Theorem C79_default_history : forall F ls cfg n x0 M xstar a delta L r rho J, by_history_size cfg = None ->
  by_ls_consistent (one_leaf F) ls -> length x0 = n -> by_gamma0 cfg <> 0 -> by_cfg_stepsize cfg = StepConst 1 -> 0 <= by_tol cfg ->
  jacobian_near n F M xstar rho L -> bounded_below n M a -> start_within n M (by_gamma0 cfg) delta -> 0 <= delta ->
  norm2 (vsub x0 xstar) <= rho -> broyden_basin a delta L r (norm2 (vsub x0 xstar)) ->
  (1 <= J <= by_maxiter cfg)%nat ->
  (/ Rabs (by_gamma0 cfg) + delta + L / 2 * norm2 (vsub x0 xstar)) * (r ^ J * norm2 (vsub x0 xstar)) <= by_tol cfg ->
  exists x st, broyden_run (one_leaf F) ls (broyden_post_init cfg) [x0] = Ok (Some ([x], st)) /\ (1 <= by_iter st <= J)%nat /\
    norm2 (F x) <= by_tol cfg /\ by_error st = Fin (norm2 (F x)) /\
    norm2 (vsub x xstar) <= r ^ (by_iter st) * norm2 (vsub x0 xstar).
Proof.
  intros F ls cfg n x0 M xstar a delta L r rho J Hh Hls Hx Hg Hsz Ht Hn Hb Hs Hd Hrho Hbas HJ Hsm.
  apply (C79_run F ls (broyden_post_init cfg) (by_maxiter cfg) n x0 M xstar a delta L r rho J); try assumption; try lia.
  unfold broyden_post_init. cbn. rewrite Hh. reflexivity.
Qed.
Print Assumptions C79_default_history.

(** On an affine system M x = b the squared ratios of the new residual to the step add up to at
    most the squared Frobenius error of the initial approximation. *)
Theorem C79_residual_sum : forall F ls cfg m n xs sts K M b a delta, (0 < m)%nat -> (K <= S m)%nat ->
  mat_shape n n M -> length b = n -> (forall x, length x = n -> F x = vsub (mvec M x) b) ->
  by_ls_consistent (one_leaf F) ls -> length (xs 0%nat) = n -> broyden_steps F ls cfg m xs sts K -> by_gamma0 cfg <> 0 ->
  (forall k, (k < K)%nat -> by_stepsize (sts (S k)) = 1) ->
  start_within n M (by_gamma0 cfg) delta -> 0 <= delta < a -> F (xs K) <> vzero n ->
  vsum (map (fun k => sqnorm (F (xs (S k))) / sqnorm (vsub (xs (S k)) (xs k))) (seq 0 K)) <= start_error_sq n M (by_gamma0 cfg).
Proof.
  intros F ls cfg m n xs sts K M b a delta Hm HK HM Hb HFa Hls Hx Hr Hg Hu Hs Hd HFK.
  pose proof (aff_sum F ls cfg m n xs sts K Hm M b a delta HM Hb HFa Hls Hx Hr Hg Hs Hd HK Hu HFK K (le_n K)) as H.
  unfold sqnorm at 2. rewrite H. pose proof (frob_nonneg n (by_gamma0 cfg) (fun j => xs (Nat.min j K)) (fun j => F (xs (Nat.min j K))) M K).
  change (start_error_sq n M (by_gamma0 cfg)) with (frob n (by_gamma0 cfg) (fun j => xs (Nat.min j K)) (fun j => F (xs (Nat.min j K))) M 0). lra.
Qed.
Print Assumptions C79_residual_sum.

(** On an affine system convergence is superlinear from any starting point: with S the squared
    Frobenius error of the initial approximation, delta < a,
    |F(x_K)|^2 <= (S / (K (a - delta)^2))^K |F(x_0)|^2. *)
Theorem C79_superlinear : forall F ls cfg m n xs sts K M b a delta, (0 < m)%nat -> (0 < K <= S m)%nat ->
  mat_shape n n M -> length b = n -> (forall x, length x = n -> F x = vsub (mvec M x) b) ->
  by_ls_consistent (one_leaf F) ls -> length (xs 0%nat) = n -> broyden_steps F ls cfg m xs sts K -> by_gamma0 cfg <> 0 ->
  (forall k, (k < K)%nat -> by_stepsize (sts (S k)) = 1) ->
  bounded_below n M a -> start_within n M (by_gamma0 cfg) delta -> 0 <= delta < a ->
  sqnorm (F (xs K)) <= (start_error_sq n M (by_gamma0 cfg) / (INR K * (a - delta) ^ 2)) ^ K * sqnorm (F (xs 0%nat)).
Proof.
  intros F ls cfg m n xs sts K M b a delta Hm HK HM Hb HFa Hls Hx Hr Hg Hu Hbe Hs Hd.
  exact (aff_superlinear F ls cfg m n xs sts K Hm M b a delta HM Hb HFa Hls Hx Hr Hg Hbe Hs Hd ltac:(lia) Hu ltac:(lia)).
Qed.
Print Assumptions C79_superlinear.

(** ** Concrete cases *)
Definition c79_cfg : broyden_config :=
  {| by_cfg_stepsize := StepConst 1; by_maxiter := 100; by_tol := / 1000; by_stop_if_fails := true;
     by_max_stepsize := 1; by_min_stepsize := / 1000000; by_increase_factor := 3 / 2; by_history_size := Some 20%nat; by_gamma0 := 1 |}.
Definition c79_ls F : R -> tree -> tree -> by_ls_out :=
  fun s x d => {| byl_step := s; byl_params := tree_add_scalar_mul x s d; byl_value := one_leaf F (tree_add_scalar_mul x s d); byl_failed := false |}.
(** x + x^2 / 8 near 0, from 1/2. *)
Definition c79_F (v : vec) : vec := map (fun x => x + x * x / 8) v.
Lemma norm2_one x : norm2 [x] = Rabs x.
Proof. unfold norm2, sqnorm. simpl. replace (x * x + 0) with (Rsqr x) by (unfold Rsqr; ring). apply sqrt_Rsqr_abs. Qed.
Lemma len1 (v : vec) : length v = 1%nat -> exists x, v = [x].
Proof. destruct v as [|x [|y v]]; try discriminate. exists x. reflexivity. Qed.
Example C79_example :
  jacobian_near 1 c79_F [[1]] [0] 1 (1 / 4) /\ bounded_below 1 [[1]] 1 /\ start_within 1 [[1]] 1 0 /\
  broyden_basin 1 0 (1 / 4) (1 / 2) (norm2 (vsub [1 / 2] [0])) /\
  by_ls_consistent (one_leaf c79_F) (c79_ls c79_F) /\
  exists x st, broyden_run (one_leaf c79_F) (c79_ls c79_F) c79_cfg [[1 / 2]] = Ok (Some ([x], st)) /\
    (1 <= by_iter st <= 10)%nat /\ norm2 (c79_F x) <= / 1000.
Proof.
  assert (E0 : norm2 (vsub [1 / 2] [0]) = 1 / 2) by (cbn [vsub vadd smul map]; simpl; rewrite norm2_one, Rabs_pos_eq; lra).
  assert (H1 : jacobian_near 1 c79_F [[1]] [0] 1 (1 / 4)).
  { split; [intros x Hx; unfold c79_F; rewrite map_length; exact Hx|]. split; [split; repeat constructor|]. split; [reflexivity|].
    split; [unfold c79_F; simpl; unfold vzero; simpl; f_equal; field|]. split; [lra|]. intros u v Hu Hv _ _.
    destruct (len1 u Hu) as [x ->]. destruct (len1 v Hv) as [y ->]. unfold c79_F. simpl. rewrite !norm2_one.
    match goal with |- Rabs ?z <= _ => replace z with (/ 8 * ((x + y) * (y - x))) by field end.
    rewrite !Rminus_0_r.
    rewrite !Rabs_mult, (Rabs_pos_eq (/ 8)) by lra. pose proof (Rabs_triang x y) as T. pose proof (Rabs_pos (y - x)) as P.
    apply Rle_trans with (/ 8 * ((Rabs x + Rabs y) * Rabs (y - x))); [|right; field].
    apply Rmult_le_compat_l; [lra|]. apply Rmult_le_compat_r; assumption. }
  assert (H2 : bounded_below 1 [[1]] 1).
  { intros v Hv. destruct (len1 v Hv) as [x ->]. unfold mvec. simpl. rewrite !norm2_one. replace (1 * x + 0) with x by ring. lra. }
  assert (H3 : start_within 1 [[1]] 1 0).
  { intros v Hv. destruct (len1 v Hv) as [x ->]. unfold mvec. simpl. rewrite !norm2_one. rewrite Rinv_1. match goal with |- Rabs ?z <= _ => replace z with 0 by ring end. rewrite Rabs_R0. lra. }
  assert (H4 : broyden_basin 1 0 (1 / 4) (1 / 2) (norm2 (vsub [1 / 2] [0]))).
  { rewrite E0. unfold broyden_basin, jacobian_error. lra. }
  assert (H5 : by_ls_consistent (one_leaf c79_F) (c79_ls c79_F)) by (split; reflexivity).
  repeat (split; [assumption|]).
  destruct (C79_run c79_F (c79_ls c79_F) c79_cfg 20 1 [1 / 2] [[1]] [0] 1 0 (1 / 4) (1 / 2) 1 10) as (x & st & E & Hit & HF & _); try assumption; try reflexivity; try (simpl; lia); try (simpl; lra).
  - rewrite E0. lra.
  - rewrite E0. simpl. rewrite Rabs_R1. lra.
  - exists x, st. split; [exact E|]. split; [exact Hit|exact HF].
Qed.
(** An affine system that is not diagonal: delta = 1/4, a = 3/4, S = 1/16. *)
Definition c79_M : mat := [[1; 1 / 4]; [0; 1]].
Example C79_affine_example :
  mat_shape 2 2 c79_M /\ bounded_below 2 c79_M (3 / 4) /\ start_within 2 c79_M 1 (1 / 4) /\ start_error_sq 2 c79_M 1 = 1 / 16.
Proof.
  assert (H2 : start_within 2 c79_M 1 (1 / 4)).
  { intros v Hv. destruct v as [|x [|y [|z v]]]; try discriminate. unfold mvec. simpl. rewrite Rinv_1.
    apply Rle_trans with (norm2 (smul (1 / 4) [x; y])); [|rewrite norm2_smul, Rabs_pos_eq; lra]. unfold norm2. apply sqrt_le_1_alt. unfold sqnorm. simpl.
    pose proof (Rle_0_sqr x) as P. unfold Rsqr in P. apply Rle_trans with (y * y / 16); [right; field|].
    apply Rle_trans with (x * x / 16 + y * y / 16); [lra|right; field]. }
  split; [split; repeat constructor|]. split; [|split; [exact H2|]].
  - intros v Hv. pose proof (H2 v Hv) as H. pose proof (norm2_triangle (mvec c79_M v) (vsub (smul (/ 1) v) (mvec c79_M v))) as T.
    assert (E : vadd (mvec c79_M v) (vsub (smul (/ 1) v) (mvec c79_M v)) = v).
    { apply vec_eq_dot; [rewrite vadd_length, vsub_length, smul_length, mvec_length, Hv; reflexivity|]. intros z. autorewrite with vec. rewrite Rinv_1. ring. }
    rewrite E in T. lra.
  - unfold start_error_sq, unit_vec, sqnorm, mvec. simpl. lra.
Qed.
(** A run that meets C79_superlinear's hypotheses: 2 x = 0 from 1, two updates. *)
Example C79_superlinear_example :
  broyden_steps lin (plain_ls (one_leaf lin)) (lin_cfg (Some 2%nat)) 2 lin_xs (lin_st 2) 2 /\
  (forall k, (k < 2)%nat -> by_stepsize (lin_st 2 (S k)) = 1) /\
  (forall x, length x = 1%nat -> lin x = vsub (mvec [[2]] x) [0]) /\
  bounded_below 1 [[2]] 2 /\ start_within 1 [[2]] 1 1 /\
  lin (lin_xs 1) <> vzero 1 /\ sqnorm (lin (lin_xs 1)) / sqnorm (vsub (lin_xs 1) (lin_xs 0)) = start_error_sq 1 [[2]] 1.
Proof.
  split; [apply lin_steps; auto|]. split; [intros [|[|k]] Hk; try reflexivity; lia|].
  split; [intros v Hv; destruct (len1 v Hv) as [x ->]; unfold lin, mvec; simpl; f_equal; ring|].
  split; [intros v Hv; destruct (len1 v Hv) as [x ->]; unfold mvec; simpl; rewrite !norm2_one, Rplus_0_r, Rabs_mult, (Rabs_pos_eq 2) by lra; lra|].
  split; [intros v Hv; destruct (len1 v Hv) as [x ->]; unfold mvec; simpl; rewrite !norm2_one; replace (/ 1 * x - (2 * x + 0)) with (- x) by field; rewrite Rabs_Ropp; lra|].
  split; [unfold lin, vzero; simpl; intros H; injection H as H; lra|].
  unfold start_error_sq, unit_vec, sqnorm, mvec, lin. simpl. field.
Qed.
