From Coq Require Import Reals List Lra Lia Bool Arith.
From Verif Require Import Prelude Vec Mat Prox Zoom Loss LossProofs ProxProofs Run Backtracking QuasiNewton QuasiNewtonProofs Broyden.
Import ListNotations.
Open Scope R_scope.

(** ** One leaf *)
Lemma rows_nth n h i : rows_dim n h -> (i < length h)%nat -> length (nth i h []) = n.
Proof. intros H Hi. unfold rows_dim in H. rewrite Forall_forall in H. apply H, nth_In, Hi. Qed.
Lemma indices_lt start m i : In i (buffer_indices start m) -> (i < m)%nat.
Proof. intros Hi. apply in_map_iff in Hi. destruct Hi as (t & <- & Ht). apply in_seq in Ht. apply Nat.mod_upper_bound. lia. Qed.

(** z . (C D' v) = sum of (d_j . v) (c_j . z) *)
Lemma dot_matvec n dh ch v z idx : length v = n -> (forall j, In j idx -> length (nth j ch []) = n) ->
  dot z (matvec dh ch v idx) = vsum (map (fun j => dot (nth j dh []) v * dot (nth j ch []) z) idx).
Proof.
  intros Hv Hc. unfold matvec. rewrite dot_comm. induction idx as [|j idx IH]; simpl.
  - apply dot_vzero_l.
  - rewrite dot_vadd_l, dot_smul_l, IH by (intros i Hi; apply Hc; right; exact Hi). reflexivity.
Qed.
Lemma matvec_length n dh ch v idx : length v = n -> (forall j, In j idx -> length (nth j ch []) = n) ->
  length (matvec dh ch v idx) = n.
Proof.
  intros Hv Hc. unfold matvec. rewrite Hv. clear Hv. induction idx as [|j idx IH]; simpl; [apply vzero_length|].
  rewrite vadd_length, smul_length, IH by (intros i Hi; apply Hc; right; exact Hi). rewrite Hc by (left; reflexivity). lia.
Qed.
Lemma leaf_length n v dh ch g s : length v = n -> rows_dim n ch -> length dh = length ch ->
  length (inv_jacobian_product_leaf v dh ch g s) = n.
Proof.
  intros Hv Hc Hl. unfold inv_jacobian_product_leaf. rewrite vadd_length, smul_length, (matvec_length n); auto; [lia|].
  intros j Hj. apply indices_lt in Hj. apply rows_nth; auto. lia.
Qed.
Lemma dot_leaf n v z dh ch g s : length v = n -> rows_dim n ch -> length dh = length ch ->
  dot z (inv_jacobian_product_leaf v dh ch g s) =
  g * dot z v + vsum (map (fun j => dot (nth j dh []) v * dot (nth j ch []) z) (buffer_indices s (length dh))).
Proof.
  intros Hv Hc Hl. unfold inv_jacobian_product_leaf. rewrite dot_vadd_r, dot_smul_r, (dot_matvec n); auto.
  intros j Hj. apply indices_lt in Hj. apply rows_nth; auto. lia.
Qed.
Lemma leaf_adjoint n u v dh ch g s : length u = n -> length v = n -> rows_dim n dh -> rows_dim n ch -> length dh = length ch ->
  dot (inv_jacobian_product_leaf u dh ch g s) v = dot u (inv_jacobian_product_leaf v ch dh g s).
Proof.
  intros Hu Hv Hd Hc Hl. rewrite dot_comm, (dot_leaf n), (dot_leaf n) by auto. rewrite Hl, (dot_comm v u). f_equal. f_equal.
  apply map_ext. intros j. ring.
Qed.

(** Sums over the buffer do not depend on the starting point. *)
Lemma vsum_app a b : vsum (a ++ b) = vsum a + vsum b.
Proof. induction a as [|x a IH]; simpl; [ring|]. rewrite IH. ring. Qed.
Lemma vsum_repeat a k : vsum (repeat a k) = INR k * a.
Proof. induction k as [|k IH]; [simpl; ring|]. rewrite S_INR. simpl repeat. simpl vsum. rewrite IH. ring. Qed.

(** ** Trees *)
Lemma tree_adjoint dims m u v dh ch g s : tree_ok dims u -> tree_ok dims v -> hist_ok dims m dh -> hist_ok dims m ch ->
  tree_vdot (inv_jacobian_product u dh ch g s) v = tree_vdot u (inv_jacobian_rproduct v dh ch g s).
Proof.
  unfold tree_vdot, inv_jacobian_rproduct, inv_jacobian_product.
  revert u v dh ch. induction dims as [|n dims IH]; intros u v dh ch Hu Hv Hd Hc.
  - inversion Hu; inversion Hv; inversion Hd; inversion Hc; reflexivity.
  - inversion Hu as [|? ya ? u1 U1 U2]; inversion Hv as [|? yb ? v1 V1 V2]; inversion Hd as [|? yc ? d1 [D1 D1'] D2]; inversion Hc as [|? yd ? c1 [C1 C1'] C2].
    cbn [combine map2 vsum fst snd]. rewrite (IH u1 v1 d1 c1) by assumption. f_equal. apply (leaf_adjoint n); auto; lia.
Qed.

(** ** Runs with one leaf *)
Section Run.
Variables (F : vec -> vec) (ls : R -> tree -> tree -> by_ls_out) (cfg : broyden_config) (m n : nat).
Variables (xs : nat -> vec) (sts : nat -> broyden_state) (K : nat).
Hypothesis Hm : (0 < m)%nat.
Hypothesis HF : forall x, length x = n -> length (F x) = n.
Hypothesis Hls : by_ls_consistent (one_leaf F) ls.
Hypothesis Hx0 : length (xs 0%nat) = n.
Hypothesis Hrun : broyden_steps F ls cfg m xs sts K.
Let dx k := vsub (xs (S k)) (xs k).
Let dg k := vsub (F (xs (S k))) (F (xs k)).

Lemma take_step_line x d prev it : let o := by_take_step (one_leaf F) ls cfg x d prev it in
  byl_params o = tree_add_scalar_mul x (byl_step o) d /\ byl_value o = one_leaf F (byl_params o).
Proof.
  unfold by_take_step. destruct (by_cfg_stepsize cfg) as [r|h]; [|simpl; auto].
  destruct (Rleb r 0); [apply Hls|simpl; auto].
Qed.
Definition dir k := smul (-1) (inv_jac m (sts k) (F (xs k))).
Definition dvec k := smul (1 / dot (inv_jac_t m (sts k) (dx k)) (dg k)) (inv_jac_t m (sts k) (dx k)).
Definition cvec k := vsub (dx k) (inv_jac m (sts k) (dg k)).
Definition good k := by_hist (sts k) = Some ([buf m (vzero n) dvec k], [buf m (vzero n) cvec k]).
Definition base_inv k := by_iter (sts k) = k /\ by_value (sts k) = [F (xs k)] /\ by_gamma (sts k) = by_gamma0 cfg /\ length (xs k) = n.

Lemma buf_rows (a : nat -> vec) k : (forall j, (j < k)%nat -> length (a j) = n) -> rows_dim n (buf m (vzero n) a k).
Proof.
  induction k as [|k IH]; intros H; cbn [buf].
  - apply Forall_forall. intros r Hr. apply repeat_spec in Hr. subst r. apply vzero_length.
  - apply Forall_forall. intros r Hr. destruct (In_nth _ r [] Hr) as (i & Hi & <-). rewrite set_nth_length, buf_length in Hi.
    rewrite nth_set_nth, buf_length. destruct (Nat.eq_dec (k mod m) i) as [E|E].
    + destruct (Nat.ltb_spec (k mod m) m) as [_|Hc]; [apply H; lia|]. pose proof (Nat.mod_upper_bound k m ltac:(lia)). lia.
    + apply rows_nth; [apply IH; intros j Hj; apply H; lia|]. rewrite buf_length. exact Hi.
Qed.
Lemma inv_jac_good k v : base_inv k -> good k ->
  inv_jac m (sts k) v = inv_jacobian_product_leaf v (buf m (vzero n) dvec k) (buf m (vzero n) cvec k) (by_gamma0 cfg) (k mod m) /\
  inv_jac_t m (sts k) v = inv_jacobian_product_leaf v (buf m (vzero n) cvec k) (buf m (vzero n) dvec k) (by_gamma0 cfg) (k mod m).
Proof.
  intros (I1 & I2 & I3 & I4) HG. unfold inv_jac, inv_jac_t. rewrite HG, I1, I3. split; reflexivity.
Qed.
Lemma run_inv k : (k <= K)%nat ->
  base_inv k /\ (forall j, (j < k)%nat -> good j /\ length (dvec j) = n /\ length (cvec j) = n /\ length (dir j) = n /\
     xs (S j) = vadd (xs j) (smul (by_stepsize (sts (S j))) (dir j)) /\
     by_error (sts (S j)) = Fin (norm2 (F (xs (S j)))) /\
     (by_hist (sts (S j)) = None <-> dot (inv_jac_t m (sts j) (dx j)) (dg j) = 0)) /\
  (by_hist (sts k) <> None -> good k).
Proof.
  destruct Hrun as (R1 & R2 & R3). induction k as [|k IH]; intros Hk.
  - unfold broyden_init in R2. rewrite R1 in R2. injection R2 as E0. split; [|split; [intros j Hj; lia|]].
    + unfold base_inv. rewrite <- E0. cbn [by_iter by_value by_gamma]. auto.
    + intros _. unfold good. rewrite <- E0. cbn [by_hist init_history map]. rewrite Hx0. reflexivity.
  - destruct (IH ltac:(lia)) as (B & Hpast & HG). pose proof (R3 k ltac:(lia)) as E. pose proof B as (I1 & I2 & I3 & I4).
    unfold broyden_update in E. destruct (by_hist (sts k)) as [[dh ch]|] eqn:Eh; [|discriminate].
    specialize (HG ltac:(discriminate)). pose proof HG as HG'. unfold good in HG'. rewrite Eh in HG'. injection HG' as -> ->.
    set (bd := buf m (vzero n) dvec k) in *. set (bc := buf m (vzero n) cvec k) in *.
    rewrite I1, I2, I3 in E.
    assert (Hbd : rows_dim n bd) by (apply buf_rows; intros j Hj; apply Hpast, Hj).
    assert (Hbc : rows_dim n bc) by (apply buf_rows; intros j Hj; apply Hpast, Hj).
    assert (Lbd : length bd = m) by apply buf_length. assert (Lbc : length bc = m) by apply buf_length.
    assert (Ep : forall v, inv_jacobian_product [v] [bd] [bc] (by_gamma0 cfg) (k mod m) = [inv_jac m (sts k) v]).
    { intros v. rewrite (proj1 (inv_jac_good k v B HG)). reflexivity. }
    assert (Er : forall v, inv_jacobian_rproduct [v] [bd] [bc] (by_gamma0 cfg) (k mod m) = [inv_jac_t m (sts k) v]).
    { intros v. rewrite (proj2 (inv_jac_good k v B HG)). reflexivity. }
    assert (Lp : forall v, length v = n -> length (inv_jac m (sts k) v) = n).
    { intros v Hv. rewrite (proj1 (inv_jac_good k v B HG)). apply leaf_length; auto. fold bd bc. congruence. }
    assert (Lr : forall v, length v = n -> length (inv_jac_t m (sts k) v) = n).
    { intros v Hv. rewrite (proj2 (inv_jac_good k v B HG)). apply leaf_length; auto. fold bd bc. congruence. }
    rewrite Ep in E. cbn [tree_scalar_mul map] in E. fold (dir k) in E.
    pose proof (take_step_line [xs k] [dir k] (by_stepsize (sts k)) k) as (T1 & T2). cbv zeta in E.
    set (o := by_take_step (one_leaf F) ls cfg [xs k] [dir k] (by_stepsize (sts k)) k) in *.
    injection E as Ex Es. unfold one_leaf in T2. rewrite Ex in T1, T2. cbn [nth] in T2. cbn [tree_add_scalar_mul map2] in T1. injection T1 as T1.
    assert (Ldir : length (dir k) = n) by (unfold dir; rewrite smul_length; apply Lp, HF, I4).
    assert (Lx : length (xs (S k)) = n) by (rewrite T1; apply vadd_smul_length; assumption).
    assert (Ldx : length (dx k) = n) by (apply vsub_len; assumption).
    assert (Ldg : length (dg k) = n) by (apply vsub_len; apply HF; assumption).
    assert (Ld : length (dvec k) = n) by (unfold dvec; rewrite smul_length; apply Lr, Ldx).
    assert (Lc : length (cvec k) = n) by (unfold cvec; apply vsub_len; auto).
    rewrite T2, Ex in Es. cbn [tree_sub map2] in Es. fold (dx k) (dg k) in Es. rewrite Er, Ep in Es.
    cbn [tree_vdot map2 vsum map tree_sub update_history] in Es. fold (cvec k) in Es.
    replace (dot (inv_jac_t m (sts k) (dx k)) (dg k) + 0) with (dot (inv_jac_t m (sts k) (dx k)) (dg k)) in Es by ring.
    fold (dvec k) in Es.
    assert (Elast : (((k mod m) + m) mod m = k mod m)%nat).
    { rewrite <- Nat.add_mod_idemp_r, Nat.mod_same, Nat.add_0_r, Nat.mod_mod by lia. reflexivity. }
    rewrite Elast in Es. rewrite <- Es. cbn [by_iter by_value by_gamma by_hist by_error by_stepsize].
    assert (Eerr : tree_l2_norm [F (xs (S k))] = norm2 (F (xs (S k)))).
    { unfold tree_l2_norm, tree_vdot, norm2, sqnorm. simpl. f_equal. ring. }
    split; [|split].
    + unfold base_inv. rewrite <- Es. cbn [by_iter by_value by_gamma]. auto.
    + intros j Hj. destruct (Nat.eq_dec j k) as [->|Hne].
      * rewrite <- Es. cbn [by_stepsize by_error by_hist]. rewrite Eerr, <- T1.
        split; [exact HG|]. split; [exact Ld|]. split; [exact Lc|]. split; [exact Ldir|]. split; [reflexivity|]. split; [reflexivity|].
        destruct (Req_EM_T _ 0); split; intros; auto; try discriminate; contradiction.
      * apply Hpast. lia.
    + destruct (Req_EM_T _ 0) as [E0|E0]; [intros C; exfalso; apply C; reflexivity|]. intros _. unfold good. rewrite <- Es. cbn [by_hist].
      reflexivity.
Qed.

Lemma good_all k : (k < K)%nat -> good k.
Proof. intros Hk. apply (run_inv K (le_n K)). exact Hk. Qed.
Lemma hist_good k : (k <= K)%nat -> by_hist (sts k) <> None -> good k.
Proof. intros Hk. apply (run_inv k Hk). Qed.

(** The stored approximation: gamma I plus the last m rank-one terms. *)
Lemma inv_jac_sum k v z : (k <= K)%nat -> good k -> length v = n ->
  dot z (inv_jac m (sts k) v) = by_gamma0 cfg * dot z v +
    vsum (map (fun j => dot (dvec j) v * dot (cvec j) z) (seq (k - m) (k - (k - m)))) /\
  length (inv_jac m (sts k) v) = n.
Proof.
  intros Hk HG Hv. destruct (run_inv k Hk) as (B & Hp & _). rewrite (proj1 (inv_jac_good k v B HG)).
  assert (Hbc : rows_dim n (buf m (vzero n) cvec k)) by (apply buf_rows; intros j Hj; apply Hp, Hj).
  assert (El : length (buf m (vzero n) dvec k) = length (buf m (vzero n) cvec k)) by (rewrite !buf_length; reflexivity).
  split; [|apply leaf_length; assumption].
  rewrite (dot_leaf n) by assumption. rewrite buf_length. f_equal.
  rewrite (read_gen (fun j => dot (nth j (buf m (vzero n) dvec k) []) v * dot (nth j (buf m (vzero n) cvec k) []) z) m k 0
     (fun j => dot (dvec j) v * dot (cvec j) z) Hm).
  - rewrite vsum_app, vsum_repeat. ring.
  - intros i Hi. rewrite !buf_unused by lia. rewrite !dot_vzero_l. ring.
  - intros j H1 H2. rewrite !buf_recent by lia. reflexivity.
Qed.
Lemma inv_jac_step k v : (k < K)%nat -> (S k <= m)%nat -> good (S k) -> length v = n ->
  inv_jac m (sts (S k)) v = vadd (inv_jac m (sts k) v) (smul (dot (dvec k) v) (cvec k)).
Proof.
  intros Hk Hkm HG Hv. destruct (run_inv (S k) ltac:(lia)) as (_ & Hp & _). destruct (Hp k ltac:(lia)) as (_ & Ld & Lc & _).
  destruct (inv_jac_sum (S k) v (vzero n) ltac:(lia) HG Hv) as [_ L1]. destruct (inv_jac_sum k v (vzero n) ltac:(lia) (good_all k Hk) Hv) as [_ L0].
  apply vec_eq_dot; [rewrite vadd_length, smul_length; lia|]. intros z. rewrite dot_comm, dot_vadd_l, dot_smul_l, (dot_comm (inv_jac m (sts k) v)).
  destruct (inv_jac_sum (S k) v z ltac:(lia) HG Hv) as [-> _]. destruct (inv_jac_sum k v z ltac:(lia) (good_all k Hk) Hv) as [-> _].
  replace (S k - m)%nat with 0%nat by lia. replace (k - m)%nat with 0%nat by lia. rewrite !Nat.sub_0_r, seq_S, map_app, vsum_app. simpl. ring.
Qed.
Lemma inv_jac_adjoint k u v : (k <= K)%nat -> good k -> length u = n -> length v = n ->
  dot (inv_jac m (sts k) u) v = dot u (inv_jac_t m (sts k) v).
Proof.
  intros Hk HG Hu Hv. destruct (run_inv k Hk) as (B & Hp & _). rewrite (proj1 (inv_jac_good k u B HG)), (proj2 (inv_jac_good k v B HG)).
  apply (leaf_adjoint n); auto; try (apply buf_rows; intros j Hj; apply Hp, Hj). rewrite !buf_length. reflexivity.
Qed.
Lemma inv_jac_linear k a u v : (k <= K)%nat -> good k -> length u = n -> length v = n ->
  inv_jac m (sts k) (vadd u (smul a v)) = vadd (inv_jac m (sts k) u) (smul a (inv_jac m (sts k) v)).
Proof.
  intros Hk HG Hu Hv. destruct (inv_jac_sum k u (vzero n) Hk HG Hu) as [_ L1]. destruct (inv_jac_sum k v (vzero n) Hk HG Hv) as [_ L2].
  assert (Hw : length (vadd u (smul a v)) = n) by (apply vadd_smul_length; assumption).
  destruct (inv_jac_sum k _ (vzero n) Hk HG Hw) as [_ L3].
  apply vec_eq_dot; [rewrite vadd_length, smul_length; lia|]. intros z. rewrite dot_comm, dot_vadd_l, dot_smul_l.
  rewrite (dot_comm (inv_jac m (sts k) u)), (dot_comm (inv_jac m (sts k) v)).
  destruct (inv_jac_sum k _ z Hk HG Hw) as [-> _]. destruct (inv_jac_sum k u z Hk HG Hu) as [-> _]. destruct (inv_jac_sum k v z Hk HG Hv) as [-> _].
  rewrite dot_vadd_r, dot_smul_r. generalize (seq (k - m) (k - (k - m))). intros l.
  assert (E : vsum (map (fun j => dot (dvec j) (vadd u (smul a v)) * dot (cvec j) z) l) =
     vsum (map (fun j => dot (dvec j) u * dot (cvec j) z) l) + a * vsum (map (fun j => dot (dvec j) v * dot (cvec j) z) l)).
  { induction l as [|j l IH]; simpl; [ring|]. rewrite IH, dot_vadd_r, dot_smul_r. ring. }
  rewrite E. ring.
Qed.
Lemma secant k : (k < K)%nat -> (S k <= m)%nat -> by_hist (sts (S k)) <> None -> inv_jac m (sts (S k)) (dg k) = dx k.
Proof.
  intros Hk Hkm HH. pose proof (hist_good (S k) ltac:(lia) HH) as HG. destruct (run_inv (S k) ltac:(lia)) as ((_ & _ & _ & Lx) & Hp & _).
  destruct (run_inv k ltac:(lia)) as ((_ & _ & _ & Lx0) & _).
  destruct (Hp k ltac:(lia)) as (HGk & Ld & Lc & _ & _ & _ & Hnone).
  assert (Ldg : length (dg k) = n) by (apply vsub_len; apply HF; assumption).
  assert (Ldx : length (dx k) = n) by (apply vsub_len; assumption).
  assert (Hne : dot (inv_jac_t m (sts k) (dx k)) (dg k) <> 0) by (intros C; apply HH, Hnone, C).
  rewrite inv_jac_step by assumption. unfold dvec, cvec. rewrite dot_smul_l.
  replace (1 / dot (inv_jac_t m (sts k) (dx k)) (dg k) * dot (inv_jac_t m (sts k) (dx k)) (dg k)) with 1 by (field; exact Hne).
  destruct (inv_jac_sum k (dg k) (vzero n) ltac:(lia) HGk Ldg) as [_ L0].
  apply vec_eq_dot; [rewrite vadd_length, smul_length, vsub_length; lia|]. intros z. autorewrite with vec. ring.
Qed.
Lemma jac_length k v : (k <= K)%nat -> length v = n -> length (broyden_jacobian (by_gamma0 cfg) xs (fun j => F (xs j)) k v) = n.
Proof.
  revert v. induction k as [|k IH]; intros v Hk Hv; cbn [broyden_jacobian]; [rewrite smul_length; exact Hv|].
  destruct (run_inv k ltac:(lia)) as ((_ & _ & _ & L1) & _). destruct (run_inv (S k) ltac:(lia)) as ((_ & _ & _ & L2) & _).
  apply vadd_smul_length; [apply IH; auto; lia|]. apply vsub_len; [apply vsub_len; apply HF; assumption|]. apply IH; [lia|apply vsub_len; assumption].
Qed.
Lemma inverse k v : by_gamma0 cfg <> 0 -> (k <= K)%nat -> (k <= m)%nat -> by_hist (sts k) <> None -> length v = n ->
  inv_jac m (sts k) (broyden_jacobian (by_gamma0 cfg) xs (fun j => F (xs j)) k v) = v.
Proof.
  intros Hg. revert v. induction k as [|k IH]; intros v Hk Hkm HH Hv.
  - pose proof (hist_good 0 Hk HH) as HG. cbn [broyden_jacobian].
    destruct (inv_jac_sum 0 (smul (/ by_gamma0 cfg) v) (vzero n) Hk HG ltac:(rewrite smul_length; exact Hv)) as [_ L].
    apply vec_eq_dot; [lia|]. intros z. rewrite dot_comm.
    destruct (inv_jac_sum 0 (smul (/ by_gamma0 cfg) v) z Hk HG ltac:(rewrite smul_length; exact Hv)) as [-> _].
    simpl. rewrite dot_smul_r, (dot_comm v z). field. exact Hg.
  - pose proof (hist_good (S k) Hk HH) as HG. pose proof (good_all k ltac:(lia)) as HGk.
    assert (HHk : by_hist (sts k) <> None) by (unfold good in HGk; rewrite HGk; discriminate).
    specialize (fun w => IH w ltac:(lia) ltac:(lia) HHk).
    destruct (run_inv (S k) ltac:(lia)) as ((_ & _ & _ & Lx) & Hp & _).
    destruct (run_inv k ltac:(lia)) as ((_ & _ & _ & Lx0) & _).
    destruct (Hp k ltac:(lia)) as (_ & Ld & Lc & _ & _ & _ & Hnone).
    assert (Ldg : length (dg k) = n) by (apply vsub_len; apply HF; assumption).
    assert (Ldx : length (dx k) = n) by (apply vsub_len; assumption).
    assert (Hne : dot (inv_jac_t m (sts k) (dx k)) (dg k) <> 0) by (intros C; apply HH, Hnone, C).
    cbn [broyden_jacobian]. fold (dx k) (dg k). set (B := broyden_jacobian (by_gamma0 cfg) xs (fun j => F (xs j)) k) in *.
    assert (LB : forall w, length w = n -> length (B w) = n) by (intros w Hw; apply jac_length; [lia|exact Hw]).
    set (tau := dot (dx k) v / dot (dx k) (dx k)).
    assert (Hdx : dot (dx k) (dx k) <> 0).
    { intros C. apply Hne. rewrite (dot_comm _ (dg k)). rewrite <- inv_jac_adjoint by (auto; lia).
      rewrite dot_comm. apply dot_self_zero in C. rewrite C. apply dot_vzero_l. }
    set (w := vadd (B v) (smul tau (vsub (dg k) (B (dx k))))).
    assert (Lw : length w = n) by (apply vadd_smul_length; [auto|apply vsub_len; auto]).
    rewrite inv_jac_step by (auto; lia).
    assert (EH : inv_jac m (sts k) w = vadd v (smul tau (vsub (inv_jac m (sts k) (dg k)) (dx k)))).
    { unfold w. rewrite inv_jac_linear by (auto using vsub_len; lia). rewrite IH by exact Hv.
      assert (E2 : inv_jac m (sts k) (vsub (dg k) (B (dx k))) = vsub (inv_jac m (sts k) (dg k)) (dx k)).
      { rewrite vsub_as_vadd, inv_jac_linear by (auto; lia). rewrite IH by exact Ldx. rewrite <- vsub_as_vadd. reflexivity. }
      rewrite E2. reflexivity. }
    rewrite EH. unfold dvec. rewrite dot_smul_l.
    assert (Ed : dot (inv_jac_t m (sts k) (dx k)) w = tau * dot (inv_jac_t m (sts k) (dx k)) (dg k)).
    { rewrite (dot_comm _ w), <- inv_jac_adjoint by (auto; lia). rewrite EH.
      rewrite (dot_comm _ (dg k)), <- (inv_jac_adjoint k (dg k)) by (auto; lia).
      autorewrite with vec. rewrite (dot_comm v (dx k)). unfold tau. field. exact Hdx. }
    rewrite Ed. unfold cvec.
    destruct (inv_jac_sum k (dg k) (vzero n) ltac:(lia) HGk Ldg) as [_ L0].
    apply vec_eq_dot; [rewrite !vadd_length, !smul_length, !vsub_length; lia|]. intros z. autorewrite with vec. field. exact Hne.
Qed.
End Run.
