(** C28: Broyden's method. *)
From Coq Require Import Reals List Lra Lia Bool Arith.
From Verif Require Import Prelude Vec Mat Prox Zoom Loss LossProofs Run Backtracking BacktrackingTheorems QuasiNewton QuasiNewtonProofs Broyden BroydenProofs.
Import ListNotations.
Open Scope R_scope.

(** The product and the transposed product are adjoint, for every pytree and every history of
    matching shapes (dims: the sizes of the leaves; m rows per leaf). *)
Theorem C28_adjoint : forall dims m u v dh ch gamma start,
  tree_ok dims u -> tree_ok dims v -> hist_ok dims m dh -> hist_ok dims m ch ->
  tree_vdot (inv_jacobian_product u dh ch gamma start) v = tree_vdot u (inv_jacobian_rproduct v dh ch gamma start).
Proof. intros. eapply tree_adjoint; eassumption. Qed.
Print Assumptions C28_adjoint.

(** What a run computes (one array): the state is consistent with the parameters, the step goes
    along minus the stored inverse Jacobian times the residual, and the error is the residual
    norm. *)
Theorem C28_consistent : forall F ls cfg m n xs sts K, (0 < m)%nat ->
  (forall x, length x = n -> length (F x) = n) -> by_ls_consistent (one_leaf F) ls -> length (xs 0%nat) = n ->
  broyden_steps F ls cfg m xs sts K ->
  (forall k, (k <= K)%nat -> length (xs k) = n /\ by_iter (sts k) = k /\ by_value (sts k) = [F (xs k)]) /\
  (forall k, (k < K)%nat ->
     xs (S k) = vadd (xs k) (smul (- by_stepsize (sts (S k))) (inv_jac m (sts k) (F (xs k)))) /\
     by_error (sts (S k)) = Fin (norm2 (F (xs (S k)))) /\
     (by_hist (sts (S k)) = None <->
        dot (vsub (xs (S k)) (xs k)) (inv_jac m (sts k) (vsub (F (xs (S k))) (F (xs k)))) = 0)).
Proof.
  intros F ls cfg m n xs sts K Hm HF Hls Hx Hr. split.
  - intros k Hk. destruct (run_inv F ls cfg m n xs sts K Hm HF Hls Hx Hr k Hk) as ((I1 & I2 & _ & I4) & _). auto.
  - intros k Hk. destruct (run_inv F ls cfg m n xs sts K Hm HF Hls Hx Hr (S k) Hk) as ((_ & _ & _ & L1) & H & _).
    destruct (run_inv F ls cfg m n xs sts K Hm HF Hls Hx Hr k ltac:(lia)) as ((_ & _ & _ & L0) & _).
    destruct (H k ltac:(lia)) as (HG & _ & _ & Ld & E & Ee & En).
    split; [|split; [exact Ee|]].
    + rewrite E at 1. unfold dir in *. apply vec_eq_dot; [rewrite !vadd_length, !smul_length in *; lia|]. intros z. autorewrite with vec. ring.
    + rewrite En. rewrite dot_comm.
      assert (Ha : dot (inv_jac m (sts k) (vsub (F (xs (S k))) (F (xs k)))) (vsub (xs (S k)) (xs k)) =
                   dot (vsub (F (xs (S k))) (F (xs k))) (inv_jac_t m (sts k) (vsub (xs (S k)) (xs k)))).
      { eapply (inv_jac_adjoint F ls cfg m n xs sts K); auto; [lia|apply vsub_len; auto|apply vsub_len; auto]. }
      rewrite <- Ha, dot_comm. reflexivity.
Qed.
Print Assumptions C28_consistent.

(** The state holds exactly the last m rank-one terms: with c_j = dx_j - H_j dF_j and
    d_j = H_j' dx_j / (dF_j . H_j' dx_j) of step j, it represents gamma I + sum c_j d_j' over the
    last min(k, m) steps. *)
Theorem C28_memory : forall F ls cfg m n xs sts K, (0 < m)%nat ->
  (forall x, length x = n -> length (F x) = n) -> by_ls_consistent (one_leaf F) ls -> length (xs 0%nat) = n ->
  broyden_steps F ls cfg m xs sts K ->
  let dx k := vsub (xs (S k)) (xs k) in
  let dF k := vsub (F (xs (S k))) (F (xs k)) in
  let c j := vsub (dx j) (inv_jac m (sts j) (dF j)) in
  let d j := smul (/ dot (dF j) (inv_jac_t m (sts j) (dx j))) (inv_jac_t m (sts j) (dx j)) in
  forall k v z, (k <= K)%nat -> by_hist (sts k) <> None -> length v = n ->
  dot z (inv_jac m (sts k) v) =
    by_gamma0 cfg * dot z v + vsum (map (fun j => dot (d j) v * dot (c j) z) (seq (k - m) (Nat.min k m))).
Proof.
  intros F ls cfg m n xs sts K Hm HF Hls Hx Hr dx dF c d k v z Hk HH Hv.
  pose proof (hist_good F ls cfg m n xs sts K Hm HF Hls Hx Hr k Hk HH) as HG.
  destruct (inv_jac_sum F ls cfg m n xs sts K Hm HF Hls Hx Hr k v z Hk HG Hv) as [-> _].
  replace (Nat.min k m) with (k - (k - m))%nat by lia. f_equal. f_equal. apply map_ext. intros j. f_equal.
  unfold d, dvec. fold (dx j) (dF j). rewrite (dot_comm (dF j)). unfold Rdiv. rewrite Rmult_1_l. reflexivity.
Qed.
Print Assumptions C28_memory.

(** The secant equation, as long as the buffer has not wrapped. *)
Theorem C28_secant : forall F ls cfg m n xs sts K, (0 < m)%nat ->
  (forall x, length x = n -> length (F x) = n) -> by_ls_consistent (one_leaf F) ls -> length (xs 0%nat) = n ->
  broyden_steps F ls cfg m xs sts K ->
  forall k, (k < K)%nat -> (k < m)%nat -> by_hist (sts (S k)) <> None ->
  inv_jac m (sts (S k)) (vsub (F (xs (S k))) (F (xs k))) = vsub (xs (S k)) (xs k).
Proof.
  intros F ls cfg m n xs sts K Hm HF Hls Hx Hr k Hk Hkm HH. apply (secant F ls cfg m n xs sts K Hm HF Hls Hx Hr k Hk ltac:(lia) HH).
Qed.
Print Assumptions C28_secant.

(** It is Broyden's method: the stored operator is the exact inverse of Broyden's Jacobian
    approximations B_0 = I / gamma, B_{k+1} = B_k + (dF - B_k dx) dx' / |dx|^2. *)
Theorem C28_inverse : forall F ls cfg m n xs sts K, (0 < m)%nat ->
  (forall x, length x = n -> length (F x) = n) -> by_ls_consistent (one_leaf F) ls -> length (xs 0%nat) = n ->
  broyden_steps F ls cfg m xs sts K -> by_gamma0 cfg <> 0 ->
  forall k v, (k <= K)%nat -> (k <= m)%nat -> by_hist (sts k) <> None -> length v = n ->
  inv_jac m (sts k) (broyden_jacobian (by_gamma0 cfg) xs (fun j => F (xs j)) k v) = v.
Proof.
  intros F ls cfg m n xs sts K Hm HF Hls Hx Hr Hg k v Hk Hkm HH Hv.
  apply (inverse F ls cfg m n xs sts K Hm HF Hls Hx Hr k v Hg Hk Hkm HH Hv).
Qed.
Print Assumptions C28_inverse.

(** [run], for any pytrees: the result's state holds its residual and residual norm, and a run
    that stops before maxiter met the tolerance (or, if asked to stop then, failed a line
    search). *)
Theorem C28_run : forall fun_ ls cfg x0 x st, by_ls_consistent fun_ ls -> (0 < by_maxiter cfg)%nat ->
  broyden_run fun_ ls cfg x0 = Ok (Some (x, st)) ->
  by_value st = fun_ x /\ by_error st = Fin (tree_l2_norm (fun_ x)) /\ (1 <= by_iter st <= by_maxiter cfg)%nat /\
  ((by_iter st < by_maxiter cfg)%nat ->
     tree_l2_norm (fun_ x) <= by_tol cfg \/ (by_stop_if_fails cfg = true /\ by_failed st = true)).
Proof.
  intros fun_ ls cfg x0 x st Hls Hmax H. unfold broyden_run in H.
  destruct (by_history_size cfg) as [m|] eqn:Em; [|destruct (broyden_init _ _ _); discriminate].
  unfold broyden_init in H. rewrite Em in H. injection H as H.
  match type of H with run_loop _ ?c ?u ?i = _ => destruct (run_loop_spec (by_maxiter cfg) c u i Hmax) as (k & Hk & E & _ & Hs); set (upd := u) in *; set (ini := i) in * end.
  rewrite E in H. clear E.
  assert (Inv : forall j, match Nat.iter j upd ini with None => True | Some (y, sy) =>
     by_iter sy = j /\ by_value sy = fun_ y /\ ((0 < j)%nat -> by_error sy = Fin (tree_l2_norm (fun_ y))) end).
  { induction j as [|j IH]; [simpl; split; [reflexivity|split; [reflexivity|lia]]|].
    cbn [Nat.iter nat_rect]. change (nat_rect (fun _ => option (tree * broyden_state)) ini (fun _ => upd) j) with (Nat.iter j upd ini).
    destruct (Nat.iter j upd ini) as [[y sy]|]; [|exact I]. destruct IH as (I1 & I2 & _).
    unfold upd, broyden_update. destruct (by_hist sy) as [[dh ch]|]; [|exact I]. cbv zeta. cbn [by_iter by_value by_error].
    set (o := by_take_step _ _ _ _ _ _ _).
    assert (Ho : byl_value o = fun_ (byl_params o)).
    { unfold o, by_take_step. destruct (by_cfg_stepsize cfg) as [r|h]; [|reflexivity]. destruct (Rleb r 0); [apply Hls|reflexivity]. }
    rewrite Ho, I1. auto. }
  specialize (Inv k). rewrite H in Inv, Hs. destruct Inv as (I1 & I2 & I3). rewrite I1. rewrite (I3 ltac:(lia)).
  split; [exact I2|]. split; [reflexivity|]. split; [lia|]. intros Hlt. destruct Hs as [->|Hs]; [lia|].
  unfold broyden_cond in Hs. rewrite (I3 ltac:(lia)) in Hs. cbn [xgtb] in Hs.
  destruct (Rlt_dec (by_tol cfg) (tree_l2_norm (fun_ x))); [|left; lra]. right.
  destruct (by_stop_if_fails cfg), (by_failed st); simpl in Hs; try discriminate. auto.
Qed.
Print Assumptions C28_run.

(** The line search that is used: it stays on the line, and when it succeeds the squared residual
    norm satisfies the sufficient-decrease inequality up to the search's tolerance. *)
Theorem C28_line_search : forall bcfg F grad2 s0 x d, 0 <= tol bcfg -> (0 < maxiter bcfg)%nat ->
  0 < s0 -> 0 < max_stepsize bcfg -> 0 < decrease_factor bcfg <= 1 -> 
  let o := broyden_bt bcfg (one_leaf F) grad2 s0 [x] [d] in
  let r z := dot (F z) (F z) in
  let x' := vadd x (smul (byl_step o) d) in
  byl_params o = [x'] /\ byl_value o = [F x'] /\ 0 < byl_step o <= max_stepsize bcfg /\
  (byl_failed o = false -> r x' <= r x + c1 bcfg * byl_step o * dot (grad2 x) d + tol bcfg).
Proof.
  intros bcfg F grad2 s0 x d Ht Hm Hs Hmx Hd. unfold broyden_bt. cbn [nth].
  assert (ER : forall z, tree_vdot (one_leaf F [z]) (one_leaf F [z]) = dot (F z) (F z)) by (intros z; unfold tree_vdot, one_leaf; simpl; ring).
  pose proof (C19_backtracking bcfg (fun z => Fin (tree_vdot (one_leaf F [z]) (one_leaf F [z]))) grad2 false s0 x (tree_vdot (one_leaf F [x]) (one_leaf F [x])) (grad2 x) (Some d) Ht Hs Hmx Hd Hm) as C.
  cbv zeta in C. destruct (bt_run _ _ _ _ _ _ _ _ _) as [s st]. destruct C as (k & _ & _ & _ & Hb & _ & Hdone & Hf & _ & Hp & _).
  cbn [byl_params byl_step byl_value byl_failed]. cbn [the_direction] in Hp. rewrite Hp. split; [reflexivity|]. split; [reflexivity|]. split; [exact Hb|].
  intros E. rewrite E in Hf. destruct (done st) eqn:Ed; [|discriminate]. destruct (proj1 Hdone eq_refl) as [H _]. cbn [xle_bound the_direction] in H.
  rewrite !ER in H. lra.
Qed.
Print Assumptions C28_line_search.

(** ** Concrete runs: F(x) = 2 x from 1, unit steps, gamma = 1. *)
Definition lin_cfg (h : option nat) : broyden_config :=
  {| by_cfg_stepsize := StepConst 1; by_maxiter := 100; by_tol := 1/1000; by_stop_if_fails := false;
     by_max_stepsize := 1; by_min_stepsize := 1/1000000; by_increase_factor := 3/2;
     by_history_size := h; by_gamma0 := 1 |}.
Definition lin (x : vec) : vec := smul 2 x.
Definition plain_ls (fun_ : tree -> tree) : R -> tree -> tree -> by_ls_out := fun s x d =>
  {| byl_step := s; byl_params := tree_add_scalar_mul x s d; byl_value := fun_ (tree_add_scalar_mul x s d); byl_failed := false |}.
Definition lin_xs (k : nat) : vec := match k with 0%nat => [1] | 1%nat => [-1] | _ => [0] end.
Definition lin_st (m k : nat) : broyden_state :=
  match k with
  | 0%nat => {| by_iter := 0; by_value := [[2]]; by_stepsize := 1; by_error := PInf;
     by_hist := Some ([repeat [0] m], [repeat [0] m]); by_gamma := 1; by_failed := false |}
  | 1%nat => {| by_iter := 1; by_value := [[-2]]; by_stepsize := 1; by_error := Fin 2;
     by_hist := Some ([set_nth (repeat [0] m) 0 [-/4]], [set_nth (repeat [0] m) 0 [2]]); by_gamma := 1; by_failed := false |}
  | _ => {| by_iter := 2; by_value := [[0]]; by_stepsize := 1; by_error := Fin 0;
     by_hist := Some (match m with 1%nat => ([[[/2]]], [[[0]]]) | _ => ([[[-/4]; [/2]]], [[[2]; [0]]]) end); by_gamma := 1; by_failed := false |}
  end.
Ltac nums := repeat (progress (f_equal; try reflexivity)); try field; try lra.
Lemma lin_steps m : m = 1%nat \/ m = 2%nat -> broyden_steps lin (plain_ls (one_leaf lin)) (lin_cfg (Some m)) m lin_xs (lin_st m) 2.
Proof.
  intros Hm. split; [reflexivity|]. split.
  { unfold broyden_init, lin_cfg, lin_st, one_leaf, lin. cbn -[repeat]. replace (2 * 1) with 2 by ring. reflexivity. }
  intros k Hk. destruct k as [|[|k]]; [| |lia].
  - destruct Hm as [-> | ->]; unfold broyden_update, lin_st, lin_xs; cbn [by_hist by_iter by_value by_gamma by_stepsize]; unfold by_take_step, lin_cfg; cbn [by_cfg_stepsize];
      unfold Rleb; (destruct (Rle_dec 1 0); [lra|]); unfold tree_l2_norm, one_leaf, lin; cbn -[sqrt Req_EM_T];
      match goal with |- context [Req_EM_T ?a 0] => replace a with 8 by field end;
      (destruct (Req_EM_T 8 0); [lra|]);
      match goal with |- context [sqrt ?a] => replace a with (2 * 2) by field end; rewrite sqrt_square by lra; nums.
  - destruct Hm as [-> | ->]; unfold broyden_update, lin_st, lin_xs; cbn [by_hist by_iter by_value by_gamma by_stepsize]; unfold by_take_step, lin_cfg; cbn [by_cfg_stepsize];
      unfold Rleb; (destruct (Rle_dec 1 0); [lra|]); unfold tree_l2_norm, one_leaf, lin; cbn -[sqrt Req_EM_T];
      match goal with |- context [Req_EM_T ?a 0] => replace a with 1 by field end;
      (destruct (Req_EM_T 1 0); [lra|]);
      match goal with |- context [sqrt ?a] => replace a with 0 by field end; rewrite sqrt_0; nums.
Qed.

(** After the buffer wraps (k >= history_size) the secant equation is lost: with one stored pair,
    the second update no longer maps dF to dx. *)
Theorem C28_wrap_refuted :
  let cfg := lin_cfg (Some 1%nat) in
  broyden_steps lin (plain_ls (one_leaf lin)) cfg 1 lin_xs (lin_st 1) 2 /\
  by_hist (lin_st 1 2) <> None /\
  inv_jac 1 (lin_st 1 2) (vsub (lin (lin_xs 2)) (lin (lin_xs 1))) <> vsub (lin_xs 2) (lin_xs 1).
Proof.
  split; [apply lin_steps; auto|]. split; [discriminate|].
  unfold inv_jac, lin_st, lin, inv_jacobian_product, inv_jacobian_product_leaf, matvec. cbn. intros H. injection H. lra.
Qed.
Print Assumptions C28_wrap_refuted.

(** With parameters spread over two leaves the secant equation fails at the first update: the
    products are taken leaf by leaf, so the inner product d.v lacks the other leaves' parts.  The
    same problem in one array satisfies it (C28_secant). *)
Theorem C28_multi_leaf_refuted :
  let double : tree -> tree := map (smul 2) in
  let cfg := lin_cfg (Some 1%nat) in
  exists st0 x1 st1 dh ch,
    broyden_init double cfg [[1]; [1]] = Ok st0 /\
    broyden_update double (plain_ls double) cfg 1 ([[1]; [1]], st0) = Some (x1, st1) /\
    by_hist st1 = Some (dh, ch) /\
    inv_jacobian_product (tree_sub (double x1) (double [[1]; [1]])) dh ch (by_gamma st1) (by_iter st1 mod 1)
      <> tree_sub x1 [[1]; [1]].
Proof.
  do 5 eexists. split; [reflexivity|]. unfold broyden_update; cbn [by_hist by_iter by_value by_gamma by_stepsize]; unfold by_take_step, lin_cfg; cbn [by_cfg_stepsize].
  unfold Rleb. destruct (Rle_dec 1 0); [lra|]. unfold tree_l2_norm. cbn -[sqrt Req_EM_T].
  match goal with |- context [Req_EM_T ?a 0] => replace a with 16 by field end. destruct (Req_EM_T 16 0); [lra|].
  split; [reflexivity|]. split; [reflexivity|].
  cbn. intros H. injection H. intros _ H1. field_simplify in H1. lra.
Qed.
Print Assumptions C28_multi_leaf_refuted.

(** A constructed solver always has a history size, so init_state and run do not raise; the default
    is maxiter, and then the buffer never wraps during a run: the secant equation and the inverse
    hold at every update. *)
Theorem C28_default_history : forall cfg, let built := broyden_post_init cfg in
  (forall fun_ ls x0, (exists st, broyden_init fun_ built x0 = Ok st) /\ exists o, broyden_run fun_ ls built x0 = Ok o) /\
  (by_history_size cfg = None -> (0 < by_maxiter cfg)%nat ->
   by_history_size built = Some (by_maxiter cfg) /\
   forall F ls n xs sts K, (K <= by_maxiter cfg)%nat ->
   (forall x, length x = n -> length (F x) = n) -> by_ls_consistent (one_leaf F) ls -> length (xs 0%nat) = n ->
   broyden_steps F ls built (by_maxiter cfg) xs sts K ->
   (forall k, (k < K)%nat -> by_hist (sts (S k)) <> None ->
      inv_jac (by_maxiter cfg) (sts (S k)) (vsub (F (xs (S k))) (F (xs k))) = vsub (xs (S k)) (xs k)) /\
   (by_gamma0 cfg <> 0 -> forall k v, (k <= K)%nat -> by_hist (sts k) <> None -> length v = n ->
      inv_jac (by_maxiter cfg) (sts k) (broyden_jacobian (by_gamma0 cfg) xs (fun j => F (xs j)) k v) = v)).
Proof.
  intros cfg built. assert (Hs : exists m, by_history_size built = Some m) by (unfold built, broyden_post_init; cbn; destruct (by_history_size cfg); eexists; reflexivity).
  split.
  - intros fun_ ls x0. destruct Hs as [m Hs]. unfold broyden_run, broyden_init. rewrite Hs. split; eexists; reflexivity.
  - intros Hn Hpos. split; [unfold built, broyden_post_init; cbn; rewrite Hn; reflexivity|].
    intros F ls n xs sts K HK HF Hls Hx Hr. split.
    + intros k Hk HH. apply (C28_secant F ls built (by_maxiter cfg) n xs sts K Hpos HF Hls Hx Hr k Hk ltac:(lia) HH).
    + intros Hg k v Hk HH Hv. apply (C28_inverse F ls built (by_maxiter cfg) n xs sts K Hpos HF Hls Hx Hr Hg k v Hk ltac:(lia) HH Hv).
Qed.
Print Assumptions C28_default_history.
Example C28_default_history_example :
  by_history_size (lin_cfg None) = None /\ by_history_size (broyden_post_init (lin_cfg None)) = Some 100%nat /\
  by_history_size (broyden_post_init (lin_cfg (Some 2%nat))) = Some 2%nat.
Proof. repeat split. Qed.

Example C28_example :
  broyden_steps lin (plain_ls (one_leaf lin)) (lin_cfg (Some 2%nat)) 2 lin_xs (lin_st 2) 2 /\
  by_ls_consistent (one_leaf lin) (plain_ls (one_leaf lin)) /\
  by_hist (lin_st 2 2) <> None /\
  inv_jac 2 (lin_st 2 1) [2] = [1] /\ lin (lin_xs 2) = [0] /\
  (exists dh, by_hist (lin_st 2 2) = Some (dh, [[[2]; [0]]]) /\ hist_ok [1%nat] 2 dh /\ tree_ok [1%nat] [[3]]).
Proof.
  split; [apply lin_steps; auto|]. split; [split; reflexivity|]. split; [discriminate|].
  split; [unfold inv_jac, lin_st, inv_jacobian_product, inv_jacobian_product_leaf, matvec; cbn; f_equal; lra|].
  split; [unfold lin; cbn; f_equal; lra|]. eexists. split; [reflexivity|]. unfold hist_ok, tree_ok. split; repeat constructor.
Qed.
(** The backtracking search of [broyden_bt] meets C28_line_search's hypotheses. *)
Example C28_line_search_example :
  let bcfg := {| maxiter := 30; tol := 0; decrease_factor := 4/5; max_stepsize := 1; c1 := 1/10000; c2 := 9/10; condition := Armijo |} in
  0 <= tol bcfg /\ (0 < maxiter bcfg)%nat /\ 0 < 1 /\ 0 < max_stepsize bcfg /\ 0 < decrease_factor bcfg <= 1.
Proof. simpl. repeat split; try lra; lia. Qed.
