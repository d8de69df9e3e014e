(** Proofs about the convergence of Broyden's method. *)
From Coq Require Import Reals List Lra Lia Bool Arith.
From Verif Require Import Prelude Vec Mat Zoom Loss Run QuasiNewton QuasiNewtonProofs Broyden BroydenProofs BroydenTheorems BroydenConvergence.
Import ListNotations.
Open Scope R_scope.

Lemma norm2_vsub_le x y : norm2 (vsub x y) <= norm2 x + norm2 y.
Proof.
  rewrite vsub_as_vadd. eapply Rle_trans; [apply norm2_triangle|]. rewrite norm2_smul.
  rewrite Rabs_left by lra. lra.
Qed.
Lemma norm2_vsub_comm x y : norm2 (vsub x y) = norm2 (vsub y x).
Proof. pose proof (dist2_comm x y) as H. unfold dist2, sqnorm in H. unfold norm2. rewrite H. reflexivity. Qed.

(** Removing the component along s does not lengthen v, and that component is at most |v|. *)
Lemma proj_out s v : norm2 (vsub v (smul (dot s v / dot s s) s)) <= norm2 v /\
  Rabs (dot s v / dot s s) * norm2 s <= norm2 v.
Proof.
  pose proof (dot_self_nonneg s) as Hs. pose proof (cauchy_schwarz_sq s v) as Hc.
  destruct (Req_EM_T (dot s s) 0) as [E|E].
  - assert (E0 : dot s v = 0) by (rewrite E in Hc; nra). rewrite E0. unfold Rdiv. rewrite Rmult_0_l, Rabs_R0, Rmult_0_l.
    split; [|apply norm2_nonneg]. unfold norm2. apply sqrt_le_1_alt. autorewrite with vec. nra.
  - assert (Hp : 0 < dot s s) by lra. set (t := dot s v / dot s s).
    assert (Et : t * dot s s = dot s v) by (unfold t; field; exact E). split.
    + unfold norm2. apply sqrt_le_1_alt. autorewrite with vec. rewrite (dot_comm v s), <- Et.
      assert (0 <= t * t * dot s s) by (apply Rmult_le_pos; [apply Rle_0_sqr|lra]). lra.
    + apply Rsqr_incr_0_var; [|apply norm2_nonneg]. unfold Rsqr.
      replace (Rabs t * norm2 s * (Rabs t * norm2 s)) with ((Rabs t * Rabs t) * (norm2 s * norm2 s)) by ring.
      rewrite !norm2_sq. replace (Rabs t * Rabs t) with (t * t) by (unfold Rabs; destruct (Rcase_abs t); ring).
      apply (Rmult_le_reg_r (dot s s)); [exact Hp|].
      replace (t * t * dot s s * dot s s) with ((t * dot s s) * (t * dot s s)) by ring. rewrite Et. lra.
Qed.

Section Jac.
Variables (n : nat) (gamma : R) (xs gs : nat -> vec) (M : mat).
Let B := broyden_jacobian gamma xs gs.
Hypothesis Hxs : forall k, length (xs k) = n.
Hypothesis Hgs : forall k, length (gs k) = n.
Hypothesis HM : mat_shape n n M.

Lemma jac_len k v : length v = n -> length (B k v) = n.
Proof.
  revert v. induction k as [|k IH]; intros v Hv; unfold B; cbn [broyden_jacobian]; [rewrite smul_length; exact Hv|].
  fold B. rewrite vadd_length, smul_length, !vsub_length, !Hgs, (IH v Hv), IH by (rewrite vsub_length, !Hxs; apply Nat.max_id).
  rewrite !Nat.max_id. reflexivity.
Qed.
Lemma jac_linear k a u v : length u = n -> length v = n -> B k (vadd u (smul a v)) = vadd (B k u) (smul a (B k v)).
Proof.
  revert a u v. induction k as [|k IH]; intros a u v Hu Hv; unfold B; cbn [broyden_jacobian].
  - apply vec_eq_dot; [rewrite ?smul_length, ?vadd_length, ?smul_length; lia|]. intros z. autorewrite with vec. ring.
  - fold B. rewrite IH by assumption. set (dx := vsub (xs (S k)) (xs k)). set (c := vsub (vsub (gs (S k)) (gs k)) (B k dx)).
    assert (Lc : length c = n).
    { unfold c. rewrite !vsub_length, !Hgs, jac_len by (unfold dx; rewrite vsub_length, !Hxs; apply Nat.max_id). rewrite !Nat.max_id. reflexivity. }
    apply vec_eq_dot; [rewrite ?vadd_length, ?smul_length, ?vadd_length, ?smul_length, !jac_len, Lc by assumption; lia|].
    intros z. autorewrite with vec. unfold Rdiv. ring.
Qed.
Definition jerr k v := vsub (B k v) (mvec M v).
Lemma jerr_len k v : length v = n -> length (jerr k v) = n.
Proof. intros H. unfold jerr. rewrite vsub_length, jac_len, mvec_length by exact H. destruct HM as [-> _]. apply Nat.max_id. Qed.
Lemma jerr_linear k a u v : length u = n -> length v = n -> jerr k (vadd u (smul a v)) = vadd (jerr k u) (smul a (jerr k v)).
Proof.
  intros Hu Hv. unfold jerr. rewrite jac_linear, mvec_vadd, mvec_smul by assumption.
  apply vec_eq_dot; [rewrite ?vsub_length, ?vadd_length, ?smul_length, ?vsub_length, ?jac_len, ?mvec_length by assumption; lia|].
  intros z. autorewrite with vec. ring.
Qed.
(** One correction: the old error without the component along dx, plus the curvature term. *)
Lemma jerr_step k v : length v = n ->
  let s := vsub (xs (S k)) (xs k) in
  let t := dot s v / dot s s in
  jerr (S k) v = vadd (jerr k (vsub v (smul t s))) (smul t (vsub (vsub (gs (S k)) (gs k)) (mvec M s))).
Proof.
  intros Hv s t. assert (Ls : length s = n) by (unfold s; rewrite vsub_length, !Hxs; apply Nat.max_id).
  assert (E : vsub v (smul t s) = vadd v (smul (- t) s)).
  { apply vec_eq_dot; [rewrite vsub_length, vadd_length, !smul_length; reflexivity|]. intros z. autorewrite with vec. ring. }
  rewrite E, jerr_linear by assumption. unfold jerr. unfold B. cbn [broyden_jacobian]. fold B. fold s. fold t.
  apply vec_eq_dot.
  - repeat rewrite ?vsub_length, ?vadd_length, ?smul_length, ?mvec_length, ?Hgs. rewrite !jac_len by assumption. lia.
  - intros z. autorewrite with vec. ring.
Qed.
Lemma jerr_bound k v d c : length v = n ->
  let s := vsub (xs (S k)) (xs k) in
  (forall u, length u = n -> norm2 (jerr k u) <= d * norm2 u) -> 0 <= d ->
  norm2 (vsub (vsub (gs (S k)) (gs k)) (mvec M s)) <= c * norm2 s -> 0 <= c ->
  norm2 (jerr (S k) v) <= (d + c) * norm2 v.
Proof.
  intros Hv s Hd Hd0 Hc Hc0. assert (Ls : length s = n) by (unfold s; rewrite vsub_length, !Hxs; apply Nat.max_id).
  rewrite (jerr_step k v Hv). cbv zeta. fold s. set (t := dot s v / dot s s).
  destruct (proj_out s v) as [P1 P2]. fold t in P1, P2.
  eapply Rle_trans; [apply norm2_triangle|]. rewrite norm2_smul.
  assert (H1 : norm2 (jerr k (vsub v (smul t s))) <= d * norm2 v).
  { eapply Rle_trans; [apply Hd; rewrite vsub_length, smul_length, Ls, Hv; apply Nat.max_id|]. apply Rmult_le_compat_l; assumption. }
  assert (H2 : Rabs t * norm2 (vsub (vsub (gs (S k)) (gs k)) (mvec M s)) <= c * norm2 v).
  { eapply Rle_trans; [apply Rmult_le_compat_l; [apply Rabs_pos|exact Hc]|].
    replace (Rabs t * (c * norm2 s)) with (c * (Rabs t * norm2 s)) by ring. apply Rmult_le_compat_l; assumption. }
  lra.
Qed.

(** Squared Frobenius norm of the error, and what one correction takes away when the increments
    are exact. *)
Definition frob k := vsum (map (fun j => sqnorm (jerr k (unit_vec n j))) (seq 0 n)).
Lemma frob_nonneg k : 0 <= frob k.
Proof. unfold frob. induction (seq 0 n) as [|j l IH]; simpl; [lra|]. pose proof (dot_self_nonneg (jerr k (unit_vec n j))). unfold sqnorm in *. lra. Qed.
End Jac.

(** A linear functional is the sum of its values at the unit vectors. *)
Lemma functional_sum n (phi : vec -> R) s : length s = n ->
  (forall a u v, length u = n -> length v = n -> phi (vadd u (smul a v)) = phi u + a * phi v) ->
  phi s = vsum (map (fun j => nth j s 0 * phi (unit_vec n j)) (seq 0 n)).
Proof.
  intros Hs Hl.
  assert (H0 : phi (vzero n) = 0).
  { pose proof (Hl 1 (vzero n) (vzero n) (vzero_length n) (vzero_length n)) as H.
    assert (E : vadd (vzero n) (smul 1 (vzero n)) = vzero n).
    { apply vec_ext; [rewrite vadd_length, smul_length, !vzero_length; apply Nat.max_id|]. intros i Hi. rewrite nth_vadd, nth_smul, nth_vzero. ring. }
    rewrite E in H. lra. }
  assert (K : forall i, (i <= n)%nat -> exists p, length p = n /\ (forall j, nth j p 0 = if (j <? i)%nat then nth j s 0 else 0) /\
     phi p = vsum (map (fun j => nth j s 0 * phi (unit_vec n j)) (seq 0 i))).
  { induction i as [|i IH]; intros Hi.
    - exists (vzero n). split; [apply vzero_length|]. split; [intros j; apply nth_vzero|]. exact H0.
    - destruct (IH ltac:(lia)) as (p & P1 & P2 & P3). exists (vadd p (smul (nth i s 0) (unit_vec n i))). split; [|split].
      + rewrite vadd_length, smul_length, unit_vec_length, P1. apply Nat.max_id.
      + intros j. rewrite nth_vadd, nth_smul, P2. destruct (Nat.lt_ge_cases j n) as [Hj|Hj].
        * rewrite nth_unit_vec by exact Hj. destruct (Nat.eq_dec i j) as [->|Hne].
          -- assert ((j <? j)%nat = false) as -> by (apply Nat.ltb_ge; lia). assert ((j <? S j)%nat = true) as -> by (apply Nat.ltb_lt; lia). ring.
          -- assert ((j <? S i)%nat = (j <? i)%nat) as -> by (destruct (Nat.ltb_spec j i); [apply Nat.ltb_lt|apply Nat.ltb_ge]; lia). ring.
        * rewrite (nth_overflow (unit_vec n i)) by (rewrite unit_vec_length; exact Hj).
          assert ((j <? i)%nat = false) as -> by (apply Nat.ltb_ge; lia). assert ((j <? S i)%nat = false) as -> by (apply Nat.ltb_ge; lia). ring.
      + rewrite Hl by (auto; apply unit_vec_length). rewrite P3, seq_S, map_app, vsum_app. simpl. ring. }
  destruct (K n (le_n n)) as (p & P1 & P2 & P3). assert (E : p = s); [|rewrite <- E at 1; exact P3].
  apply vec_ext; [congruence|]. intros j Hj. rewrite P2. assert ((j <? n)%nat = true) as -> by (apply Nat.ltb_lt; lia). reflexivity.
Qed.

Section Frob.
Variables (n : nat) (gamma : R) (xs gs : nat -> vec) (M : mat).
Hypothesis Hxs : forall k, length (xs k) = n.
Hypothesis Hgs : forall k, length (gs k) = n.
Hypothesis HM : mat_shape n n M.
Let E := jerr gamma xs gs M.
Lemma jerr_sum k s z : length s = n -> dot z (E k s) = vsum (map (fun j => nth j s 0 * dot z (E k (unit_vec n j))) (seq 0 n)).
Proof.
  intros Hs. apply (functional_sum n (fun s => dot z (E k s)) s Hs). intros a u v Hu Hv. unfold E.
  rewrite (jerr_linear n) by assumption. rewrite dot_vadd_r, dot_smul_r. reflexivity.
Qed.
Lemma frob_step k : let s := vsub (xs (S k)) (xs k) in
  dot s s <> 0 -> vsub (gs (S k)) (gs k) = mvec M s ->
  frob n gamma xs gs M (S k) = frob n gamma xs gs M k - sqnorm (E k s) / dot s s.
Proof.
  intros s Hs Eg. assert (Ls : length s = n) by (unfold s; rewrite vsub_length, !Hxs; apply Nat.max_id).
  assert (Es : forall j, (j < n)%nat -> E (S k) (unit_vec n j) = vadd (E k (unit_vec n j)) (smul (- (nth j s 0 / dot s s)) (E k s))).
  { intros j Hj. unfold E. rewrite (jerr_step n gamma xs gs M Hxs Hgs k (unit_vec n j) (unit_vec_length n j)). cbv zeta. fold s. rewrite Eg.
    rewrite (dot_comm s), (dot_unit_vec n j s Ls Hj). set (t := nth j s 0 / dot s s).
    assert (Ev : vsub (unit_vec n j) (smul t s) = vadd (unit_vec n j) (smul (- t) s)).
    { apply vec_eq_dot; [rewrite vsub_length, vadd_length, !smul_length; reflexivity|]. intros z. autorewrite with vec. ring. }
    rewrite Ev, (jerr_linear n) by (auto; apply unit_vec_length).
    apply vec_eq_dot; [repeat rewrite ?vsub_length, ?vadd_length, ?smul_length, ?mvec_length; rewrite !(jerr_len n) by (auto; apply unit_vec_length); destruct HM as [-> _]; lia|].
    intros z. autorewrite with vec. ring. }
  unfold frob. fold E.
  transitivity (vsum (map (fun j => sqnorm (E k (unit_vec n j)) + ((- 2 / dot s s) * (nth j s 0 * dot (E k s) (E k (unit_vec n j)))
     + (sqnorm (E k s) / (dot s s * dot s s)) * (nth j s 0 * nth j s 0))) (seq 0 n))).
  { f_equal. apply map_ext_in. intros j Hj. apply in_seq in Hj. fold E. rewrite Es by lia. unfold sqnorm. autorewrite with vec.
    rewrite (dot_comm (E k (unit_vec n j)) (E k s)). field. exact Hs. }
  assert (Hv : forall (f g h : nat -> R) a b l, vsum (map (fun j => f j + (a * g j + b * h j)) l) = vsum (map f l) + a * vsum (map g l) + b * vsum (map h l)).
  { clear. intros f g h a b l. induction l as [|x l IH]; simpl; [ring|]. rewrite IH. ring. }
  rewrite (Hv (fun j => sqnorm (E k (unit_vec n j))) (fun j => nth j s 0 * dot (E k s) (E k (unit_vec n j))) (fun j => nth j s 0 * nth j s 0)).
  rewrite <- (jerr_sum k s (E k s) Ls).
  assert (Ess : vsum (map (fun j => nth j s 0 * nth j s 0) (seq 0 n)) = dot s s).
  { symmetry. rewrite (functional_sum n (fun u => dot s u) s Ls).
    - f_equal. apply map_ext_in. intros j Hj. apply in_seq in Hj. rewrite dot_comm, (dot_unit_vec n j s Ls) by lia. reflexivity.
    - intros a u v _ _. rewrite dot_vadd_r, dot_smul_r. reflexivity. }
  rewrite Ess. unfold sqnorm. field. exact Hs.
Qed.
End Frob.

Lemma jacobian_ext gamma xs xs' gs gs' k v : (forall j, (j <= k)%nat -> xs j = xs' j) -> (forall j, (j <= k)%nat -> gs j = gs' j) ->
  broyden_jacobian gamma xs gs k v = broyden_jacobian gamma xs' gs' k v.
Proof.
  revert v. induction k as [|k IH]; intros v Hx Hg; [reflexivity|]. cbn [broyden_jacobian].
  rewrite !(Hx (S k)), !(Hx k), !(Hg (S k)), !(Hg k) by lia.
  rewrite (IH v), (IH (vsub (xs' (S k)) (xs' k))) by (intros; (apply Hx || apply Hg); lia). reflexivity.
Qed.

Section Run.
Variable F : vec -> vec.
Variable ls : R -> tree -> tree -> by_ls_out.
Variable cfg : broyden_config.
Variables (m n : nat) (xs : nat -> vec) (sts : nat -> broyden_state) (K : nat).
Hypothesis Hm : (0 < m)%nat.
Hypothesis HF : forall x, length x = n -> length (F x) = n.
Hypothesis Hls : by_ls_consistent (one_leaf F) ls.
Hypothesis Hx0 : length (xs 0%nat) = n.
Hypothesis Hrun : broyden_steps F ls cfg m xs sts K.
Hypothesis Hg0 : by_gamma0 cfg <> 0.
Let B := broyden_jacobian (by_gamma0 cfg) xs (fun j => F (xs j)).

(** The approximation is also a right inverse. *)
Lemma right_inverse k v : (k <= K)%nat -> (k <= m)%nat -> by_hist (sts k) <> None -> length v = n ->
  B k (inv_jac m (sts k) v) = v.
Proof.
  revert v. induction k as [|k IH]; intros v Hk Hkm HH Hv.
  - pose proof (hist_good F ls cfg m n xs sts K Hm HF Hls Hx0 Hrun 0 Hk HH) as HG. unfold B. cbn [broyden_jacobian].
    destruct (inv_jac_sum F ls cfg m n xs sts K Hm HF Hls Hx0 Hrun 0 v (vzero n) Hk HG Hv) as [_ L].
    apply vec_eq_dot; [rewrite smul_length; lia|]. intros z. rewrite dot_smul_l, dot_comm.
    destruct (inv_jac_sum F ls cfg m n xs sts K Hm HF Hls Hx0 Hrun 0 v z Hk HG Hv) as [-> _]. simpl. rewrite (dot_comm v z). field. exact Hg0.
  - pose proof (hist_good F ls cfg m n xs sts K Hm HF Hls Hx0 Hrun (S k) Hk HH) as HG.
    pose proof (good_all F ls cfg m n xs sts K Hm HF Hls Hx0 Hrun k ltac:(lia)) as HGk.
    assert (HHk : by_hist (sts k) <> None) by (unfold good in HGk; rewrite HGk; discriminate).
    destruct (run_inv F ls cfg m n xs sts K Hm HF Hls Hx0 Hrun (S k) ltac:(lia)) as ((_ & _ & _ & Lx) & Hp & _).
    destruct (run_inv F ls cfg m n xs sts K Hm HF Hls Hx0 Hrun k ltac:(lia)) as ((_ & _ & _ & Lx0) & _).
    destruct (Hp k ltac:(lia)) as (_ & Ld & Lc & _ & _ & _ & Hnone).
    set (dxk := vsub (xs (S k)) (xs k)) in *. set (dgk := vsub (F (xs (S k))) (F (xs k))) in *.
    assert (Ldg : length dgk = n) by (apply vsub_len; apply HF; assumption).
    assert (Ldx : length dxk = n) by (apply vsub_len; assumption).
    assert (Hne : dot (inv_jac_t m (sts k) dxk) dgk <> 0) by (intros C; apply HH, Hnone, C).
    assert (LB : forall w, length w = n -> length (B k w) = n) by (intros w Hw; unfold B; apply (jac_length F ls cfg m n xs sts K Hm HF Hls Hx0 Hrun); [lia|exact Hw]).
    assert (BL : forall a u w, length u = n -> length w = n -> B k (vadd u (smul a w)) = vadd (B k u) (smul a (B k w))).
    { intros a u w Hu Hw. unfold B.
      rewrite !(jacobian_ext (by_gamma0 cfg) xs (fun j => xs (Nat.min j k)) (fun j => F (xs j)) (fun j => F (xs (Nat.min j k))) k) by (intros j Hj; rewrite Nat.min_l by exact Hj; reflexivity).
      assert (Lmin : forall j, length (xs (Nat.min j k)) = n).
      { intros j. destruct (run_inv F ls cfg m n xs sts K Hm HF Hls Hx0 Hrun (Nat.min j k) ltac:(lia)) as ((_ & _ & _ & L) & _). exact L. }
      apply (jac_linear n); auto. }
    set (H := inv_jac m (sts k)) in *.
    assert (LH : forall w, length w = n -> length (H w) = n) by (intros w Hw; apply (inv_jac_sum F ls cfg m n xs sts K Hm HF Hls Hx0 Hrun k w (vzero n) ltac:(lia) HGk Hw)).
    assert (Had : forall u w, length u = n -> length w = n -> dot (H u) w = dot u (inv_jac_t m (sts k) w)) by (intros u w Hu Hw; apply (inv_jac_adjoint F ls cfg m n xs sts K Hm HF Hls Hx0 Hrun); auto; lia).
    assert (Hdx : dot dxk dxk <> 0).
    { intros C. apply Hne. rewrite dot_comm, <- Had by assumption. rewrite dot_comm. apply dot_self_zero in C. rewrite C. apply dot_vzero_l. }
    rewrite (inv_jac_step F ls cfg m n xs sts K Hm HF Hls Hx0 Hrun k v) by (auto; lia). fold H.
    set (c := cvec F m xs sts k) in *. set (d := dvec F m xs sts k) in *.
    assert (Ec : c = vsub dxk (H dgk)) by reflexivity.
    assert (Ed : dot d v = dot dxk (H v) / dot dxk (H dgk)).
    { unfold d, dvec. fold dxk dgk.
      assert (T : forall u, length u = n -> dot (inv_jac_t m (sts k) dxk) u = dot dxk (H u)).
      { intros u Hu. rewrite dot_comm, <- Had by assumption. apply dot_comm. }
      rewrite dot_smul_l, !T by assumption. unfold Rdiv. ring. }
    assert (Hne' : dot dxk (H dgk) <> 0) by (intros C; apply Hne; rewrite dot_comm, <- Had, dot_comm by assumption; exact C).
    set (w := vadd (H v) (smul (dot d v) c)).
    assert (Lw : length w = n) by (unfold w; rewrite vadd_length, smul_length, Lc, LH by exact Hv; apply Nat.max_id).
    change (B (S k) w) with (vadd (B k w) (smul (dot dxk w / dot dxk dxk) (vsub dgk (B k dxk)))).
    assert (E1 : B k w = vadd v (smul (dot d v) (vsub (B k dxk) dgk))).
    { unfold w. rewrite BL by (auto). rewrite (IH v) by (auto; lia). f_equal. f_equal. rewrite Ec, vsub_as_vadd, BL by auto.
      rewrite (IH dgk) by (auto; lia). rewrite <- vsub_as_vadd. reflexivity. }
    rewrite E1.
    assert (E2 : dot dxk w = dot dxk (H v) + dot d v * (dot dxk dxk - dot dxk (H dgk))).
    { unfold w. rewrite Ec, dot_vadd_r, dot_smul_r. autorewrite with vec. ring. }
    rewrite E2, Ed. apply vec_eq_dot.
    + repeat rewrite ?vadd_length, ?smul_length, ?vsub_length. rewrite LB by exact Ldx. lia.
    + intros z. autorewrite with vec. field. split; assumption.
Qed.

Variables (M : mat) (xstar : vec) (a delta L r rho : R).
Hypothesis Hnear : jacobian_near n F M xstar rho L.
Hypothesis Hbelow : bounded_below n M a.
Hypothesis Hstart : start_within n M (by_gamma0 cfg) delta.
Hypothesis Hd0 : 0 <= delta.
Let e k := norm2 (vsub (xs k) xstar).
Hypothesis Hrho : e 0%nat <= rho.
Hypothesis Hbasin : broyden_basin a delta L r (e 0%nat).
Hypothesis HKm : (K <= S m)%nat.
Hypothesis Hunit : forall k, (k < K)%nat -> by_stepsize (sts (S k)) = 1.

Lemma xs_len k : (k <= K)%nat -> length (xs k) = n.
Proof. intros Hk. apply (run_inv F ls cfg m n xs sts K Hm HF Hls Hx0 Hrun k Hk). Qed.
Definition kerr k v := vsub (B k v) (mvec M v).
Lemma kerr_min k v : (k <= K)%nat -> kerr k v = jerr (by_gamma0 cfg) (fun j => xs (Nat.min j K)) (fun j => F (xs (Nat.min j K))) M k v.
Proof.
  intros Hk. unfold kerr, jerr, B. f_equal. apply jacobian_ext; intros j Hj; rewrite Nat.min_l by lia; reflexivity.
Qed.
Lemma min_len j : length (xs (Nat.min j K)) = n.
Proof. apply xs_len. lia. Qed.
Lemma step_eq k : (k < K)%nat -> B k (vsub (xs (S k)) (xs k)) = smul (-1) (F (xs k)).
Proof.
  intros Hk. destruct (run_inv F ls cfg m n xs sts K Hm HF Hls Hx0 Hrun (S k) ltac:(lia)) as (_ & Hp & _).
  destruct (Hp k ltac:(lia)) as (HG & _ & _ & Ldir & Es & _). rewrite (Hunit k Hk) in Es.
  assert (HH : by_hist (sts k) <> None) by (unfold good in HG; rewrite HG; discriminate).
  pose proof (xs_len k ltac:(lia)) as Lx.
  assert (E : vsub (xs (S k)) (xs k) = inv_jac m (sts k) (smul (-1) (F (xs k)))).
  { assert (E1 : inv_jac m (sts k) (smul (-1) (F (xs k))) = smul (-1) (inv_jac m (sts k) (F (xs k)))).
    { destruct (inv_jac_sum F ls cfg m n xs sts K Hm HF Hls Hx0 Hrun k (smul (-1) (F (xs k))) (vzero n) ltac:(lia) HG ltac:(rewrite smul_length; auto)) as [_ L1].
      destruct (inv_jac_sum F ls cfg m n xs sts K Hm HF Hls Hx0 Hrun k (F (xs k)) (vzero n) ltac:(lia) HG ltac:(auto)) as [_ L2].
      apply vec_eq_dot; [rewrite smul_length; lia|]. intros z. rewrite dot_smul_l, !(dot_comm _ z).
      destruct (inv_jac_sum F ls cfg m n xs sts K Hm HF Hls Hx0 Hrun k (smul (-1) (F (xs k))) z ltac:(lia) HG ltac:(rewrite smul_length; auto)) as [-> _].
      destruct (inv_jac_sum F ls cfg m n xs sts K Hm HF Hls Hx0 Hrun k (F (xs k)) z ltac:(lia) HG ltac:(auto)) as [-> _].
      rewrite dot_smul_r. generalize (seq (k - m) (k - (k - m))). intros l.
      assert (Ev : vsum (map (fun j => dot (dvec F m xs sts j) (smul (-1) (F (xs k))) * dot (cvec F m xs sts j) z) l) = - vsum (map (fun j => dot (dvec F m xs sts j) (F (xs k)) * dot (cvec F m xs sts j) z) l)).
      { induction l as [|j l IH]; simpl; [ring|]. rewrite IH, dot_smul_r. ring. }
      rewrite Ev. ring. }
    rewrite E1. unfold dir in Es, Ldir. rewrite Es. apply vec_eq_dot; [rewrite vsub_length, vadd_length, !smul_length in *; lia|].
    intros z. autorewrite with vec. ring. }
  rewrite E. apply right_inverse; auto; try lia. rewrite smul_length. auto.
Qed.

Let D := jacobian_error delta L r (e 0%nat).
Let E0 := e 0%nat.
Lemma e_nonneg k : 0 <= e k.
Proof. apply norm2_nonneg. Qed.
Lemma D_split k : 0 <= L -> 0 < r < 1 -> delta + L / 2 * (1 + r) * E0 * ((1 - r ^ k) / (1 - r)) <= D.
Proof.
  intros HL Hr. unfold D, jacobian_error. fold E0. pose proof (e_nonneg 0) as He. fold E0 in He.
  assert (Hp : 0 <= r ^ k) by (apply pow_le; lra).
  replace (L * (1 + r) * E0 / (2 * (1 - r))) with (L / 2 * (1 + r) * E0 * (/ (1 - r))) by (field; lra).
  apply Rplus_le_compat_l. apply Rmult_le_compat_l; [apply Rmult_le_pos; [apply Rmult_le_pos; lra|exact He]|].
  unfold Rdiv. rewrite <- (Rmult_1_l (/ (1 - r))) at 2. apply Rmult_le_compat_r; [left; apply Rinv_0_lt_compat; lra|lra].
Qed.
(** The approximation error is at most d, so one unit step contracts. *)
Lemma one_step k d : (k < K)%nat -> (forall u, length u = n -> norm2 (kerr k u) <= d * norm2 u) -> d <= D ->
  e k <= E0 -> e (S k) <= r * e k.
Proof.
  intros Hk Hd HdD Hek. destruct Hnear as (_ & HM & Lst & Fst & HL & HJ). destruct Hbasin as (Hr & Hda & Hc). fold D in Hda, Hc. fold E0 in Hc.
  pose proof (xs_len k ltac:(lia)) as L0. pose proof (xs_len (S k) Hk) as L1.
  set (u0 := vsub (xs k) xstar). set (u1 := vsub (xs (S k)) xstar). set (s := vsub (xs (S k)) (xs k)).
  assert (Lu0 : length u0 = n) by (unfold u0; rewrite vsub_length, L0, Lst; apply Nat.max_id).
  assert (Lu1 : length u1 = n) by (unfold u1; rewrite vsub_length, L1, Lst; apply Nat.max_id).
  assert (Ls : length s = n) by (unfold s; rewrite vsub_length, L0, L1; apply Nat.max_id).
  assert (Eu : u1 = vadd u0 (smul 1 s)).
  { apply vec_eq_dot; [rewrite vadd_length, smul_length, Lu0, Lu1, Ls; symmetry; apply Nat.max_id|]. intros z. unfold u0, u1, s. autorewrite with vec. ring. }
  (* |F(x_k) - M u0| *)
  pose proof (HJ xstar (xs k) Lst L0) as HJ0. rewrite Fst in HJ0. fold (e k) in HJ0.
  assert (Z : norm2 (vsub xstar xstar) = 0).
  { unfold norm2. assert (E : dot (vsub xstar xstar) (vsub xstar xstar) = 0) by (autorewrite with vec; ring). rewrite E. apply sqrt_0. }
  rewrite Z in HJ0. specialize (HJ0 ltac:(pose proof (e_nonneg 0); unfold E0 in *; lra) ltac:(unfold E0 in *; lra)).
  fold u0 in HJ0. rewrite Rplus_0_l in HJ0. fold (e k) in HJ0.
  assert (Ek : norm2 u0 = e k) by reflexivity. assert (Ek1 : norm2 u1 = e (S k)) by reflexivity.
  try rewrite Ek in HJ0.
  (* M u1 = kerr u0 + (M u0 - F) - kerr u1 *)
  assert (BL : kerr k u1 = vadd (kerr k u0) (smul 1 (kerr k s))).
  { rewrite !kerr_min by lia. rewrite Eu. apply (jerr_linear n); auto using min_len. }
  assert (Es : kerr k s = vsub (smul (-1) (F (xs k))) (mvec M s)) by (unfold kerr; pose proof (step_eq k Hk) as Q; fold s in Q; rewrite Q; reflexivity).
  assert (EM : mvec M u1 = vsub (vsub (kerr k u0) (kerr k u1)) (vsub (vsub (F (xs k)) (vzero n)) (mvec M u0))).
  { rewrite BL, Es, Eu, mvec_vadd, mvec_smul. destruct HM as [HM1 HM2].
    assert (Lk : length (kerr k u0) = n). { rewrite kerr_min by lia. apply (jerr_len n); auto using min_len. split; assumption. }
    apply vec_eq_dot.
    - repeat rewrite ?vadd_length, ?smul_length, ?vsub_length, ?mvec_length, ?vzero_length. rewrite Lk, HM1, HF by exact L0. lia.
    - intros z. autorewrite with vec. rewrite ?dot_vzero_l. ring. }
  pose proof (Hbelow u1 Lu1) as Hb. rewrite EM in Hb.
  pose proof (norm2_vsub_le (vsub (kerr k u0) (kerr k u1)) (vsub (vsub (F (xs k)) (vzero n)) (mvec M u0))) as T1.
  pose proof (norm2_vsub_le (kerr k u0) (kerr k u1)) as T2.
  pose proof (Hd u0 Lu0) as D0. pose proof (Hd u1 Lu1) as D1. rewrite Ek in D0. rewrite Ek1 in D1, Hb.
  pose proof (e_nonneg k) as P0. pose proof (e_nonneg (S k)) as P1. pose proof (e_nonneg 0) as P2. fold E0 in P2.
  assert (H1 : (a - D) * e (S k) <= (D + L / 2 * (1 + r) * E0) * e k).
  { assert (d * e k <= D * e k) by (apply Rmult_le_compat_r; assumption).
    assert (d * e (S k) <= D * e (S k)) by (apply Rmult_le_compat_r; assumption).
    assert (L / 2 * e k * e k <= L / 2 * (1 + r) * E0 * e k).
    { apply Rmult_le_compat_r; [exact P0|]. apply Rle_trans with (L / 2 * E0); [apply Rmult_le_compat_l; lra|].
      replace (L / 2 * (1 + r) * E0) with (L / 2 * E0 + r * (L / 2 * E0)) by ring.
      assert (0 <= r * (L / 2 * E0)) by (apply Rmult_le_pos; [lra|apply Rmult_le_pos; lra]). lra. }
    lra. }
  assert (H2 : (D + L / 2 * (1 + r) * E0) * e k <= r * (a - D) * e k) by (apply Rmult_le_compat_r; assumption).
  apply (Rmult_le_reg_l (a - D)); [lra|]. lra.
Qed.
Lemma local_all k : (k <= K)%nat ->
  e k <= r ^ k * E0 /\
  forall u, length u = n -> norm2 (kerr k u) <= (delta + L / 2 * (1 + r) * E0 * ((1 - r ^ k) / (1 - r))) * norm2 u.
Proof.
  destruct Hnear as (_ & HM & Lst & Fst & HL & HJ). destruct Hbasin as (Hr & Hda & Hc).
  pose proof (e_nonneg 0) as P0. fold E0 in P0.
  induction k as [|k IH]; intros Hk.
  - simpl. split; [unfold E0; lra|]. intros u Hu. replace (delta + L / 2 * (1 + r) * E0 * ((1 - 1) / (1 - r))) with delta by (field; lra).
    unfold kerr, B. cbn [broyden_jacobian]. apply Hstart. exact Hu.
  - destruct (IH ltac:(lia)) as [I1 I2]. set (d := delta + L / 2 * (1 + r) * E0 * ((1 - r ^ k) / (1 - r))) in *.
    assert (Hp : 0 <= r ^ k <= 1). { split; [apply pow_le; lra|]. rewrite <- (pow1 k). apply pow_incr. lra. }
    assert (HkE : e k <= E0). { eapply Rle_trans; [exact I1|]. rewrite <- (Rmult_1_l E0) at 2. apply Rmult_le_compat_r; lra. }
    pose proof (one_step k d ltac:(lia) I2 (D_split k HL Hr) HkE) as H1.
    assert (HrE : r * e k <= e k) by (pose proof (e_nonneg k); assert (r * e k <= 1 * e k) by (apply Rmult_le_compat_r; lra); lra).
    split.
    + simpl. eapply Rle_trans; [exact H1|]. rewrite Rmult_assoc. apply Rmult_le_compat_l; lra.
    + intros u Hu. rewrite kerr_min by lia.
      eapply Rle_trans; [apply (jerr_bound n (by_gamma0 cfg) _ _ M min_len ltac:(intros j; apply HF, min_len) k u d (L / 2 * (e k + e (S k))) Hu)|].
      * intros v Hv. rewrite <- kerr_min by lia. apply I2. exact Hv.
      * unfold d. apply Rplus_le_le_0_compat; [exact Hd0|]. apply Rmult_le_pos; [apply Rmult_le_pos; [apply Rmult_le_pos; lra|exact P0]|].
        apply Rmult_le_pos; [lra|left; apply Rinv_0_lt_compat; lra].
      * rewrite !Nat.min_l by lia. apply HJ; try apply xs_len; try lia; fold (e k) (e (S k)); unfold E0 in *; lra.
      * apply Rmult_le_pos; [lra|]. pose proof (e_nonneg k). pose proof (e_nonneg (S k)). lra.
      * apply Rmult_le_compat_r; [apply norm2_nonneg|]. unfold d. simpl.
        replace ((1 - r * r ^ k) / (1 - r)) with ((1 - r ^ k) / (1 - r) + r ^ k) by (field; lra).
        assert (Hs : e k + e (S k) <= (1 + r) * (r ^ k * E0)) by (replace ((1 + r) * (r ^ k * E0)) with (r ^ k * E0 + r * (r ^ k * E0)) by ring; assert (r * e k <= r * (r ^ k * E0)) by (apply Rmult_le_compat_l; lra); lra).
        assert (L / 2 * (e k + e (S k)) <= L / 2 * ((1 + r) * (r ^ k * E0))) by (apply Rmult_le_compat_l; lra). lra.
Qed.
Lemma kerr_D k u : (k <= K)%nat -> length u = n -> norm2 (kerr k u) <= D * norm2 u.
Proof.
  intros Hk Hu. destruct (local_all k Hk) as [_ H]. destruct Hnear as (_ & _ & _ & _ & HL & _). destruct Hbasin as (Hr & _).
  eapply Rle_trans; [apply H, Hu|]. apply Rmult_le_compat_r; [apply norm2_nonneg|apply D_split; assumption].
Qed.
(** No breakdown: as long as the parameters move, the denominator of the update is positive. *)
Lemma no_breakdown k : (k < K)%nat -> by_hist (sts (S k)) = None -> vsub (xs (S k)) (xs k) = vzero n.
Proof.
  intros Hk HN. destruct Hnear as (_ & HM & Lst & Fst & HL & HJ). destruct Hbasin as (Hr & Hda & Hc). fold D E0 in Hda, Hc.
  destruct (run_inv F ls cfg m n xs sts K Hm HF Hls Hx0 Hrun (S k) ltac:(lia)) as (_ & Hp & _).
  destruct (Hp k ltac:(lia)) as (HG & _ & _ & _ & _ & _ & Hnone). pose proof (proj1 Hnone HN) as Hz.
  assert (HH : by_hist (sts k) <> None) by (unfold good in HG; rewrite HG; discriminate).
  pose proof (xs_len k ltac:(lia)) as L0. pose proof (xs_len (S k) Hk) as L1.
  set (s := vsub (xs (S k)) (xs k)) in *. set (y := vsub (F (xs (S k))) (F (xs k))) in *.
  assert (Ls : length s = n) by (unfold s; rewrite vsub_length, L0, L1; apply Nat.max_id).
  assert (Ly : length y = n) by (unfold y; rewrite vsub_length, !HF by assumption; apply Nat.max_id).
  set (h := inv_jac m (sts k) y).
  assert (Lh : length h = n) by (apply (inv_jac_sum F ls cfg m n xs sts K Hm HF Hls Hx0 Hrun k y (vzero n) ltac:(lia) HG Ly)).
  assert (Hsh : dot s h = 0).
  { rewrite dot_comm. unfold h. rewrite (inv_jac_adjoint F ls cfg m n xs sts K Hm HF Hls Hx0 Hrun k y s ltac:(lia) HG Ly Ls), dot_comm. exact Hz. }
  assert (EB : B k h = y) by (apply right_inverse; auto; lia).
  (* w = h - s satisfies M w + kerr w = y - M s - kerr s *)
  set (w := vsub h s). assert (Lw : length w = n) by (unfold w; rewrite vsub_length, Lh, Ls; apply Nat.max_id).
  assert (Lk : forall u, length u = n -> length (kerr k u) = n).
  { intros u Hu. rewrite kerr_min by lia. apply (jerr_len n); auto using min_len. }
  assert (Ew : kerr k w = vadd (kerr k h) (smul (-1) (kerr k s))).
  { rewrite !kerr_min by lia. unfold w. rewrite vsub_as_vadd. apply (jerr_linear n); auto using min_len. }
  assert (EM : mvec M w = vsub (vsub (vsub y (mvec M s)) (kerr k s)) (kerr k w)).
  { assert (Ekh : kerr k h = vsub y (mvec M h)) by (unfold kerr; rewrite EB; reflexivity).
    rewrite Ew, Ekh. unfold w. rewrite mvec_vsub. destruct HM as [HM1 _].
    apply vec_eq_dot; [repeat rewrite ?vadd_length, ?smul_length, ?vsub_length, ?mvec_length; rewrite HM1, Ly, Lk by exact Ls; lia|].
    intros z. autorewrite with vec. ring. }
  pose proof (Hbelow w Lw) as Hb. rewrite EM in Hb.
  pose proof (norm2_vsub_le (vsub (vsub y (mvec M s)) (kerr k s)) (kerr k w)) as T1.
  pose proof (norm2_vsub_le (vsub y (mvec M s)) (kerr k s)) as T2.
  pose proof (kerr_D k s ltac:(lia) Ls) as D1. pose proof (kerr_D k w ltac:(lia) Lw) as D2.
  destruct (local_all k ltac:(lia)) as [A1 _]. destruct (local_all (S k) ltac:(lia)) as [A2 _].
  pose proof (e_nonneg 0) as P0. fold E0 in P0.
  assert (Hpk : 0 <= r ^ k <= 1). { split; [apply pow_le; lra|]. rewrite <- (pow1 k). apply pow_incr. lra. }
  assert (HkE : r ^ k * E0 <= E0) by (rewrite <- (Rmult_1_l E0) at 2; apply Rmult_le_compat_r; lra).
  assert (HkE2 : r ^ S k * E0 <= r * E0) by (simpl; rewrite Rmult_assoc; apply Rmult_le_compat_l; lra).
  assert (HrE : r * E0 <= E0) by (rewrite <- (Rmult_1_l E0) at 2; apply Rmult_le_compat_r; lra).
  pose proof (HJ (xs k) (xs (S k)) L0 L1 ltac:(fold (e k); unfold E0 in *; lra) ltac:(fold (e (S k)); unfold E0 in *; lra)) as HJ1.
  fold (e k) (e (S k)) s y in HJ1.
  pose proof (norm2_nonneg s) as Ns. pose proof (norm2_nonneg w) as Nw.
  assert (HJ2 : norm2 (vsub y (mvec M s)) <= L / 2 * (1 + r) * E0 * norm2 s).
  { eapply Rle_trans; [exact HJ1|]. apply Rmult_le_compat_r; [exact Ns|]. rewrite Rmult_assoc. apply Rmult_le_compat_l; lra. }
  assert (H1 : (a - D) * norm2 w <= (D + L / 2 * (1 + r) * E0) * norm2 s) by lra.
  assert (H2 : (D + L / 2 * (1 + r) * E0) * norm2 s <= r * (a - D) * norm2 s) by (apply Rmult_le_compat_r; assumption).
  assert (H3 : norm2 w <= r * norm2 s) by (apply (Rmult_le_reg_l (a - D)); lra).
  (* |w|^2 = |h|^2 + |s|^2 >= |s|^2 *)
  assert (H4 : norm2 s * norm2 s <= norm2 w * norm2 w).
  { rewrite !norm2_sq. unfold w. pose proof (dot_self_nonneg h). autorewrite with vec. rewrite (dot_comm h s), Hsh. lra. }
  assert (H5 : norm2 w * norm2 w <= (r * norm2 s) * (r * norm2 s)) by (apply Rmult_le_compat; lra).
  assert (H6 : norm2 s = 0).
  { destruct (Req_EM_T (norm2 s) 0) as [E|E]; [exact E|exfalso]. assert (0 < norm2 s * norm2 s) by (apply Rmult_lt_0_compat; lra).
    assert (r * r * (norm2 s * norm2 s) < 1 * (norm2 s * norm2 s)) by (apply Rmult_lt_compat_r; [assumption|nra]). lra. }
  apply norm2_zero_iff in H6. rewrite Ls in H6. exact H6.
Qed.
End Run.

(** ** Affine systems *)
Lemma amgm (t : nat -> R) K : (0 < K)%nat -> (forall k, (k < K)%nat -> 0 <= t k) ->
  fold_right Rmult 1 (map t (seq 0 K)) <= (vsum (map t (seq 0 K)) / INR K) ^ K.
Proof.
  intros HK Ht. assert (HKr : 0 < INR K) by (apply lt_0_INR; exact HK).
  set (A := vsum (map t (seq 0 K)) / INR K).
  assert (Hl : forall l, (forall k, In k l -> (k < K)%nat) -> 0 <= vsum (map t l) /\ 0 <= fold_right Rmult 1 (map t l)).
  { induction l as [|k l IH]; intros Hin; simpl; [lra|]. destruct IH as [I1 I2]; [intros j Hj; apply Hin; right; exact Hj|].
    pose proof (Ht k (Hin k (or_introl eq_refl))). split; [lra|apply Rmult_le_pos; assumption]. }
  assert (Hin : forall k, In k (seq 0 K) -> (k < K)%nat) by (intros k Hk; apply in_seq in Hk; lia).
  destruct (Hl _ Hin) as [HS _].
  assert (HA : 0 <= A) by (apply Rmult_le_pos; [exact HS|left; apply Rinv_0_lt_compat; exact HKr]).
  destruct (Req_EM_T A 0) as [E|E].
  - assert (E0 : vsum (map t (seq 0 K)) = 0). { apply (Rmult_eq_reg_r (/ INR K)); [unfold A, Rdiv in E; rewrite E; ring|apply Rinv_neq_0_compat; lra]. }
    rewrite E, pow_i by exact HK. destruct K as [|K']; [lia|]. simpl in E0 |- *.
    destruct (Hl (seq 1 K')) as [H1 _]; [intros k Hk; apply in_seq in Hk; lia|]. pose proof (Ht 0%nat HK).
    assert (t 0%nat = 0) as -> by lra. lra.
  - assert (HA' : 0 < A) by lra.
    assert (P : forall l, (forall k, In k l -> (k < K)%nat) ->
       fold_right Rmult 1 (map t l) <= A ^ length l * exp (vsum (map t l) / A - INR (length l))).
    { induction l as [|k l IH]; intros Hi; cbn [map fold_right length vsum].
      - simpl. replace (0 / A - 0) with 0 by (field; lra). rewrite exp_0. lra.
      - assert (Hi' : forall j, In j l -> (j < K)%nat) by (intros j Hj; apply Hi; right; exact Hj). specialize (IH Hi').
        destruct (Hl l Hi') as [_ Hp]. pose proof (Ht k (Hi k (or_introl eq_refl))) as Hk0.
        assert (Hk : t k <= A * exp (t k / A - 1)).
        { pose proof (exp_ineq1_le (t k / A - 1)) as Hx. apply Rle_trans with (A * (t k / A)); [right; field; lra|]. apply Rmult_le_compat_l; lra. }
        rewrite S_INR. replace ((t k + vsum (map t l)) / A - (INR (length l) + 1)) with ((t k / A - 1) + (vsum (map t l) / A - INR (length l))) by (field; lra).
        rewrite exp_plus. cbn [pow].
        replace (A * A ^ length l * (exp (t k / A - 1) * exp (vsum (map t l) / A - INR (length l)))) with ((A * exp (t k / A - 1)) * (A ^ length l * exp (vsum (map t l) / A - INR (length l)))) by ring.
        apply Rmult_le_compat; assumption. }
    eapply Rle_trans; [apply (P _ Hin)|]. rewrite seq_length.
    replace (vsum (map t (seq 0 K)) / A - INR K) with 0 by (unfold A in *; field; split; [lra|intros C; apply E; rewrite C; unfold Rdiv; ring]).
    rewrite exp_0. lra.
Qed.

Section Affine.
Variable F : vec -> vec.
Variable ls : R -> tree -> tree -> by_ls_out.
Variable cfg : broyden_config.
Variables (m n : nat) (xs : nat -> vec) (sts : nat -> broyden_state) (K : nat).
Hypothesis Hm : (0 < m)%nat.
Variables (M : mat) (b : vec) (a delta : R).
Hypothesis HM : mat_shape n n M.
Hypothesis Hb : length b = n.
Hypothesis HFa : forall x, length x = n -> F x = vsub (mvec M x) b.
Hypothesis Hls : by_ls_consistent (one_leaf F) ls.
Hypothesis Hx0 : length (xs 0%nat) = n.
Hypothesis Hrun : broyden_steps F ls cfg m xs sts K.
Hypothesis Hg0 : by_gamma0 cfg <> 0.
Hypothesis Hbelow : bounded_below n M a.
Hypothesis Hstart : start_within n M (by_gamma0 cfg) delta.
Hypothesis Hd0 : 0 <= delta < a.
Hypothesis HKm : (K <= S m)%nat.
Hypothesis Hunit : forall k, (k < K)%nat -> by_stepsize (sts (S k)) = 1.
Let B := broyden_jacobian (by_gamma0 cfg) xs (fun j => F (xs j)).
Let X j := xs (Nat.min j K).
Let G j := F (xs (Nat.min j K)).
Let E := jerr (by_gamma0 cfg) X G M.

Lemma aff_len x : length x = n -> length (F x) = n.
Proof. intros H. rewrite HFa, vsub_length, mvec_length, Hb by exact H. destruct HM as [-> _]. apply Nat.max_id. Qed.
Lemma X_len j : length (X j) = n.
Proof. unfold X. apply (run_inv F ls cfg m n xs sts K Hm aff_len Hls Hx0 Hrun). lia. Qed.
Lemma G_len j : length (G j) = n.
Proof. unfold G. apply aff_len. apply X_len. Qed.
Lemma aff_diff x y : length x = n -> length y = n -> vsub (F y) (F x) = mvec M (vsub y x).
Proof.
  intros Lx Ly. rewrite !HFa, mvec_vsub by assumption. apply vec_eq_dot; [rewrite !vsub_length, !mvec_length, Hb; destruct HM as [-> _]; rewrite !Nat.max_id; reflexivity|].
  intros z. autorewrite with vec. ring.
Qed.
Lemma aff_err k u : length u = n -> norm2 (E k u) <= delta * norm2 u.
Proof.
  revert u. induction k as [|k IH]; intros u Hu.
  - unfold E, jerr. cbn [broyden_jacobian]. apply Hstart. exact Hu.
  - replace delta with (delta + 0) by ring. unfold E.
    apply (jerr_bound n (by_gamma0 cfg) X G M X_len G_len k u delta 0 Hu); [exact IH|lra| |lra].
    unfold G. rewrite aff_diff by apply X_len. fold (X (S k)) (X k). rewrite Rmult_0_l. right.
    assert (Z : forall v, norm2 (vsub v v) = 0) by (intros v; unfold norm2; replace (dot (vsub v v) (vsub v v)) with 0 by (autorewrite with vec; ring); apply sqrt_0).
    apply Z.
Qed.
Lemma aff_step k : (k < K)%nat -> E k (vsub (xs (S k)) (xs k)) = smul (-1) (F (xs (S k))).
Proof.
  intros Hk. pose proof (step_eq F ls cfg m n xs sts K Hm aff_len Hls Hx0 Hrun Hg0 HKm Hunit k Hk) as Hs.
  unfold E, jerr. rewrite (jacobian_ext _ X xs G (fun j => F (xs j))) by (intros j Hj; unfold X, G; rewrite Nat.min_l by lia; reflexivity).
  pose proof (X_len k) as L0. pose proof (X_len (S k)) as L1. unfold X in L0, L1. rewrite Nat.min_l in L0, L1 by lia.
  rewrite Hs, <- aff_diff by assumption.
  apply vec_eq_dot; [rewrite !vsub_length, !smul_length, !aff_len by assumption; rewrite !Nat.max_id; reflexivity|].
  intros z. autorewrite with vec. ring.
Qed.
(** the step is at most |F(x_k)| / (a - delta) *)
Lemma aff_step_len k : (k < K)%nat -> (a - delta) * norm2 (vsub (xs (S k)) (xs k)) <= norm2 (F (xs k)).
Proof.
  intros Hk. pose proof (step_eq F ls cfg m n xs sts K Hm aff_len Hls Hx0 Hrun Hg0 HKm Hunit k Hk) as Hs.
  set (s := vsub (xs (S k)) (xs k)) in *. pose proof (X_len k) as L0. pose proof (X_len (S k)) as L1. unfold X in L0, L1. rewrite Nat.min_l in L0, L1 by lia.
  assert (Ls : length s = n) by (unfold s; rewrite vsub_length, L0, L1; apply Nat.max_id).
  assert (EM : mvec M s = vsub (smul (-1) (F (xs k))) (E k s)).
  { unfold E, jerr. rewrite (jacobian_ext _ X xs G (fun j => F (xs j))) by (intros j Hj; unfold X, G; rewrite Nat.min_l by lia; reflexivity).
    rewrite Hs. apply vec_eq_dot; [rewrite !vsub_length, !smul_length, mvec_length, aff_len by exact L0; destruct HM as [-> _]; lia|].
    intros z. autorewrite with vec. ring. }
  pose proof (Hbelow s Ls) as Hbs. rewrite EM in Hbs. pose proof (norm2_vsub_le (smul (-1) (F (xs k))) (E k s)) as T.
  rewrite norm2_smul in T. rewrite Rabs_left in T by lra. pose proof (aff_err k s Ls). lra.
Qed.
Lemma aff_moves k : (k < K)%nat -> F (xs K) <> vzero n -> dot (vsub (xs (S k)) (xs k)) (vsub (xs (S k)) (xs k)) <> 0.
Proof.
  intros Hk HFK C. pose proof (X_len k) as L0. pose proof (X_len (S k)) as L1. unfold X in L0, L1. rewrite Nat.min_l in L0, L1 by lia.
  set (s := vsub (xs (S k)) (xs k)) in *. assert (Ls : length s = n) by (unfold s; rewrite vsub_length, L0, L1; apply Nat.max_id).
  assert (Ez : s = vzero n) by (apply dot_self_zero in C; rewrite C, Ls; reflexivity).
  destruct (Nat.eq_dec (S k) K) as [EK|NK].
  - apply HFK. rewrite <- EK. pose proof (aff_step k Hk) as Hs. fold s in Hs.
    assert (Hn : norm2 (E k s) <= delta * norm2 s) by (apply aff_err; exact Ls). rewrite Hs, norm2_smul in Hn. rewrite Rabs_left in Hn by lra.
    assert (norm2 s = 0) by (unfold norm2; rewrite C; apply sqrt_0). pose proof (norm2_nonneg (F (xs (S k)))).
    assert (HZ : norm2 (F (xs (S k))) = 0) by nra. apply norm2_zero_iff in HZ. rewrite aff_len in HZ by exact L1. exact HZ.
  - destruct (run_inv F ls cfg m n xs sts K Hm aff_len Hls Hx0 Hrun (S k) ltac:(lia)) as (_ & Hp & _).
    destruct (Hp k ltac:(lia)) as (HG & _ & _ & _ & _ & _ & Hnone).
    pose proof (good_all F ls cfg m n xs sts K Hm aff_len Hls Hx0 Hrun (S k) ltac:(lia)) as HGS. unfold good in HGS.
    rewrite (proj2 Hnone) in HGS; [discriminate|]. fold s. unfold s in *. rewrite aff_diff by assumption. fold s. fold s in Ez. rewrite Ez.
    assert (mvec M (vzero n) = smul 0 (mvec M (vzero n))) as ->.
    { rewrite <- mvec_smul. f_equal. apply vec_ext; [rewrite smul_length; reflexivity|]. intros i Hi. rewrite nth_smul, nth_vzero. ring. }
    rewrite dot_smul_r. ring.
Qed.
Lemma aff_sum : F (xs K) <> vzero n -> forall k, (k <= K)%nat ->
  vsum (map (fun j => sqnorm (F (xs (S j))) / dot (vsub (xs (S j)) (xs j)) (vsub (xs (S j)) (xs j))) (seq 0 k))
  = frob n (by_gamma0 cfg) X G M 0 - frob n (by_gamma0 cfg) X G M k.
Proof.
  intros HFK. induction k as [|k IH]; intros Hk; [simpl; ring|].
  rewrite seq_S, map_app, vsum_app, IH by lia. cbn [map vsum Nat.add].
  assert (EX : X (S k) = xs (S k)) by (unfold X; rewrite Nat.min_l by lia; reflexivity).
  assert (EX0 : X k = xs k) by (unfold X; rewrite Nat.min_l by lia; reflexivity).
  pose proof (frob_step n (by_gamma0 cfg) X G M X_len G_len HM k) as H. cbv zeta in H. rewrite EX, EX0 in H. fold E in H.
  rewrite H; [|apply aff_moves; [lia|exact HFK]|].
  - rewrite (aff_step k) by lia. unfold sqnorm. rewrite dot_smul_l, dot_smul_r. unfold Rdiv. ring.
  - unfold G. rewrite !Nat.min_l by lia. rewrite <- EX, <- EX0. apply aff_diff; apply X_len.
Qed.
Lemma aff_superlinear : (0 < K)%nat ->
  sqnorm (F (xs K)) <= (start_error_sq n M (by_gamma0 cfg) / (INR K * (a - delta) ^ 2)) ^ K * sqnorm (F (xs 0%nat)).
Proof.
  intros HK. assert (HKr : 0 < INR K) by (apply lt_0_INR; exact HK).
  assert (HS0 : start_error_sq n M (by_gamma0 cfg) = frob n (by_gamma0 cfg) X G M 0) by reflexivity.
  pose proof (frob_nonneg n (by_gamma0 cfg) X G M 0) as HS1.
  assert (Hc : 0 < (a - delta) ^ 2) by (apply pow_lt; lra).
  assert (HQ : forall q, 0 <= q -> 0 <= q / (INR K * (a - delta) ^ 2)).
  { intros q Hq. apply Rmult_le_pos; [exact Hq|left; apply Rinv_0_lt_compat, Rmult_lt_0_compat; assumption]. }
  destruct (list_eq_dec Req_EM_T (F (xs K)) (vzero n)) as [Z|HFK].
  { rewrite Z. unfold sqnorm. rewrite dot_vzero_l. apply Rmult_le_pos; [apply pow_le, HQ; rewrite HS0; exact HS1|apply dot_self_nonneg]. }
  pose proof (aff_sum HFK K (le_n K)) as Hsum. pose proof (frob_nonneg n (by_gamma0 cfg) X G M K) as HS2.
  set (t j := sqnorm (F (xs (S j))) / dot (vsub (xs (S j)) (xs j)) (vsub (xs (S j)) (xs j))) in *.
  assert (Hpos : forall j, (j < K)%nat -> 0 < dot (vsub (xs (S j)) (xs j)) (vsub (xs (S j)) (xs j))).
  { intros j Hj. pose proof (dot_self_nonneg (vsub (xs (S j)) (xs j))). pose proof (aff_moves j Hj HFK). lra. }
  assert (Ht : forall j, (j < K)%nat -> 0 <= t j).
  { intros j Hj. apply Rmult_le_pos; [apply dot_self_nonneg|left; apply Rinv_0_lt_compat, Hpos, Hj]. }
  pose proof (amgm t K HK Ht) as Ha.
  assert (Hprod : forall k, (k <= K)%nat ->
     sqnorm (F (xs k)) * ((a - delta) ^ 2) ^ k <= fold_right Rmult 1 (map t (seq 0 k)) * sqnorm (F (xs 0%nat)) /\ 0 <= fold_right Rmult 1 (map t (seq 0 k))).
  { induction k as [|k IH]; intros Hk; [simpl; lra|]. destruct (IH ltac:(lia)) as [I1 I2].
    assert (Efr : fold_right Rmult 1 (map t (seq 0 (S k))) = fold_right Rmult 1 (map t (seq 0 k)) * t k).
    { rewrite seq_S, map_app. cbn [map Nat.add]. generalize (map t (seq 0 k)). intros l. induction l as [|z l IHl]; simpl; [ring|]. rewrite IHl. ring. }
    rewrite Efr. pose proof (Ht k ltac:(lia)) as Htk. split; [|apply Rmult_le_pos; assumption].
    set (q := dot (vsub (xs (S k)) (xs k)) (vsub (xs (S k)) (xs k))).
    assert (Hq : 0 < q) by (apply Hpos; lia). assert (Et : sqnorm (F (xs (S k))) = t k * q) by (unfold t; fold q; field; lra).
    assert (Hlen : (a - delta) ^ 2 * q <= sqnorm (F (xs k))).
    { pose proof (aff_step_len k ltac:(lia)) as Hl. unfold q, sqnorm. rewrite <- !norm2_sq.
      set (u := norm2 (vsub (xs (S k)) (xs k))) in *. pose proof (norm2_nonneg (vsub (xs (S k)) (xs k))) as Hu. fold u in Hu.
      replace ((a - delta) ^ 2 * (u * u)) with (((a - delta) * u) * ((a - delta) * u)) by ring.
      assert (0 <= (a - delta) * u) by (apply Rmult_le_pos; lra). apply Rmult_le_compat; assumption. }
    clearbody t q. rewrite Et. rewrite <- (tech_pow_Rmult ((a - delta) ^ 2) k).
    replace (t k * q * ((a - delta) ^ 2 * ((a - delta) ^ 2) ^ k)) with (t k * (((a - delta) ^ 2 * q) * ((a - delta) ^ 2) ^ k)) by ring.
    apply Rle_trans with (t k * (sqnorm (F (xs k)) * ((a - delta) ^ 2) ^ k)).
    - apply Rmult_le_compat_l; [exact Htk|]. apply Rmult_le_compat_r; [apply pow_le; lra|exact Hlen].
    - replace (fold_right Rmult 1 (map t (seq 0 k)) * t k * sqnorm (F (xs 0%nat))) with (t k * (fold_right Rmult 1 (map t (seq 0 k)) * sqnorm (F (xs 0%nat)))) by ring.
      apply Rmult_le_compat_l; assumption. }
  destruct (Hprod K (le_n K)) as [H1 H2].
  assert (HcK : 0 < ((a - delta) ^ 2) ^ K) by (apply pow_lt; exact Hc).
  apply (Rmult_le_reg_r (((a - delta) ^ 2) ^ K)); [exact HcK|].
  eapply Rle_trans; [exact H1|].
  assert (Hmean : (vsum (map t (seq 0 K)) / INR K) ^ K <= (start_error_sq n M (by_gamma0 cfg) / INR K) ^ K).
  { apply pow_incr. split.
    - apply Rmult_le_pos; [rewrite Hsum|left; apply Rinv_0_lt_compat; exact HKr].
      rewrite <- Hsum. clear -Ht. assert (forall l, (forall j, In j l -> (j < K)%nat) -> 0 <= vsum (map t l)).
      { induction l as [|j l IH]; intros Hin; simpl; [lra|]. pose proof (Ht j (Hin j (or_introl eq_refl))). assert (0 <= vsum (map t l)) by (apply IH; intros i Hi; apply Hin; right; exact Hi). lra. }
      apply H. intros j Hj. apply in_seq in Hj. lia.
    - apply Rmult_le_compat_r; [left; apply Rinv_0_lt_compat; exact HKr|]. rewrite Hsum, HS0. lra. }
  replace ((start_error_sq n M (by_gamma0 cfg) / (INR K * (a - delta) ^ 2)) ^ K * sqnorm (F (xs 0%nat)) * ((a - delta) ^ 2) ^ K)
    with ((start_error_sq n M (by_gamma0 cfg) / INR K) ^ K * sqnorm (F (xs 0%nat))).
  - apply Rmult_le_compat_r; [apply dot_self_nonneg|]. lra.
  - replace (start_error_sq n M (by_gamma0 cfg) / (INR K * (a - delta) ^ 2)) with ((start_error_sq n M (by_gamma0 cfg) / INR K) * / ((a - delta) ^ 2)) by (field; split; lra).
    rewrite (Rpow_mult_distr _ (/ _)). rewrite <- Rinv_pow by lra. field. lra.
Qed.
End Affine.

(** ** [run] *)
Lemma update_unit F ls cfg m x st x' st' : by_cfg_stepsize cfg = StepConst 1 ->
  broyden_update (one_leaf F) ls cfg m ([x], st) = Some (x', st') -> by_stepsize st' = 1 /\ by_failed st' = false.
Proof.
  intros Hc H. unfold broyden_update, by_take_step in H. rewrite Hc in H. destruct (by_hist st) as [[dh ch]|]; [|discriminate].
  unfold Rleb in H. destruct (Rle_dec 1 0) as [E|E]; [lra|]. injection H as <- <-. split; reflexivity.
Qed.
Lemma iter_S {A} (f : A -> A) k x : Nat.iter (S k) f x = f (Nat.iter k f x).
Proof. reflexivity. Qed.

Lemma jac_zero n gamma xs gs (Hx : forall i, length (xs i) = n) (Hg : forall i, length (gs i) = n) k :
  norm2 (broyden_jacobian gamma xs gs k (vzero n)) = 0.
Proof.
  pose proof (jac_linear n gamma xs gs Hx Hg k (-1) (vzero n) (vzero n) (vzero_length n) (vzero_length n)) as H.
  assert (E : vadd (vzero n) (smul (-1) (vzero n)) = vzero n).
  { apply vec_ext; [rewrite vadd_length, smul_length, vzero_length; apply Nat.max_id|]. intros i Hi. rewrite nth_vadd, nth_smul, nth_vzero. ring. }
  rewrite E in H. unfold norm2, sqnorm. set (w := broyden_jacobian gamma xs gs k (vzero n)) in *.
  assert (Hd : dot w w = 0) by (rewrite H at 1; autorewrite with vec; ring). rewrite Hd. apply sqrt_0.
Qed.

Section Total.
Variable F : vec -> vec.
Variable ls : R -> tree -> tree -> by_ls_out.
Variable cfg : broyden_config.
Variables (m n : nat) (x0 : vec).
Hypothesis Hm : (0 < m)%nat.
Hypothesis Hmc : by_history_size cfg = Some m.
Hypothesis Hls : by_ls_consistent (one_leaf F) ls.
Hypothesis Hx0 : length x0 = n.
Hypothesis Hg0 : by_gamma0 cfg <> 0.
Hypothesis Hsz : by_cfg_stepsize cfg = StepConst 1.
Hypothesis Htol : 0 <= by_tol cfg.
Variables (M : mat) (xstar : vec) (a delta L r rho : R).
Hypothesis Hnear : jacobian_near n F M xstar rho L.
Hypothesis Hbelow : bounded_below n M a.
Hypothesis Hstart : start_within n M (by_gamma0 cfg) delta.
Hypothesis Hd0 : 0 <= delta.
Hypothesis Hrho : norm2 (vsub x0 xstar) <= rho.
Hypothesis Hbasin : broyden_basin a delta L r (norm2 (vsub x0 xstar)).
Variable st0 : broyden_state.
Hypothesis Hinit : broyden_init (one_leaf F) cfg [x0] = Ok st0.
Let upd (s : option (tree * broyden_state)) := match s with Some s => broyden_update (one_leaf F) ls cfg m s | None => None end.
Let cnd (s : option (tree * broyden_state)) := match s with Some (_, st) => broyden_cond cfg st | None => false end.
Let A j := Nat.iter j upd (Some ([x0], st0)).
Let xs j := match A j with Some (t, _) => nth 0 t [] | None => [] end.
Let sts j := match A j with Some (_, s) => s | None => st0 end.
Let Alive j := forall i, (i <= j)%nat -> A i = Some ([xs i], sts i).

Lemma tot_F x : length x = n -> length (F x) = n.
Proof. apply Hnear. Qed.
Lemma tot_steps j : Alive j -> broyden_steps F ls cfg m xs sts j.
Proof.
  intros H. split; [exact Hmc|]. split; [exact Hinit|]. intros k Hk.
  pose proof (H k ltac:(lia)) as H1. pose proof (H (S k) ltac:(lia)) as H2. unfold A in H2 at 1. rewrite iter_S in H2. fold (A k) in H2. rewrite H1 in H2. exact H2.
Qed.
Lemma tot_unit j : Alive j -> forall k, (k < j)%nat -> by_stepsize (sts (S k)) = 1 /\ by_failed (sts (S k)) = false.
Proof. intros H k Hk. destruct (tot_steps j H) as (_ & _ & Hs). apply (update_unit F ls cfg m _ _ _ _ Hsz (Hs k Hk)). Qed.
Lemma tot_local j : Alive j -> (j <= S m)%nat -> norm2 (vsub (xs j) xstar) <= r ^ j * norm2 (vsub x0 xstar).
Proof.
  intros H Hj.
  exact (proj1 (local_all F ls cfg m n xs sts j Hm tot_F Hls Hx0 (tot_steps j H) Hg0 M xstar a delta L r rho Hnear Hbelow Hstart Hd0 Hrho Hbasin Hj (fun k Hk => proj1 (tot_unit j H k Hk)) j (le_n j))).
Qed.
Lemma tot_residual x : length x = n -> norm2 (vsub x xstar) <= rho ->
  norm2 (F x) <= (/ Rabs (by_gamma0 cfg) + delta + L / 2 * norm2 (vsub x xstar)) * norm2 (vsub x xstar).
Proof.
  intros Hx Hr. destruct Hnear as (HF & HM & Lx & HZ & HL & HJ).
  set (u := vsub x xstar). assert (Lu : length u = n) by (unfold u; rewrite vsub_length, Hx, Lx; apply Nat.max_id).
  assert (Hrho0 : norm2 (vsub xstar xstar) = 0) by (unfold norm2; replace (dot (vsub xstar xstar) (vsub xstar xstar)) with 0 by (autorewrite with vec; ring); apply sqrt_0).
  pose proof (norm2_nonneg u) as Hu.
  pose proof (HJ xstar x Lx Hx ltac:(rewrite Hrho0; unfold u in Hu; lra) Hr) as H. rewrite Hrho0 in H. fold u in H. rewrite Rplus_0_l in H.
  rewrite HZ in H. pose proof (Hstart u Lu) as Hs.
  assert (E : F x = vadd (vsub (vsub (F x) (vzero n)) (mvec M u)) (vsub (smul (/ by_gamma0 cfg) u) (vsub (smul (/ by_gamma0 cfg) u) (mvec M u)))).
  { apply vec_eq_dot; [rewrite vadd_length, !vsub_length, smul_length, mvec_length, HF, Lu by exact Hx; destruct HM as [-> _]; unfold vzero; rewrite repeat_length; lia|].
    intros z. autorewrite with vec. ring. }
  rewrite E. eapply Rle_trans; [apply norm2_triangle|].
  pose proof (norm2_vsub_le (smul (/ by_gamma0 cfg) u) (vsub (smul (/ by_gamma0 cfg) u) (mvec M u))) as T.
  rewrite norm2_smul, Rabs_inv in T. lra.
Qed.
Lemma tot_xlen j : Alive j -> length (xs j) = n.
Proof. intros H. destruct (run_inv F ls cfg m n xs sts j Hm tot_F Hls Hx0 (tot_steps j H) j (le_n j)) as ((_ & _ & _ & I) & _). exact I. Qed.
Lemma tot_shrink j : r ^ j * norm2 (vsub x0 xstar) <= norm2 (vsub x0 xstar).
Proof.
  destruct Hbasin as ((H1 & H2) & _). pose proof (norm2_nonneg (vsub x0 xstar)).
  assert (r ^ j <= 1) by (rewrite <- (pow1 j); apply pow_incr; lra). assert (0 <= r ^ j) by (apply pow_le; lra). nra.
Qed.
Lemma tot_small j C : Alive j -> (j <= S m)%nat -> C = / Rabs (by_gamma0 cfg) + delta + L / 2 * norm2 (vsub x0 xstar) ->
  norm2 (F (xs j)) <= C * (r ^ j * norm2 (vsub x0 xstar)).
Proof.
  intros H Hj ->. pose proof (tot_local j H Hj) as He. pose proof (tot_shrink j) as Hs. pose proof (tot_xlen j H) as Hl.
  pose proof (tot_residual (xs j) Hl ltac:(lra)) as HR. pose proof (norm2_nonneg (vsub (xs j) xstar)) as Hp.
  assert (0 < / Rabs (by_gamma0 cfg)) by (apply Rinv_0_lt_compat, Rabs_pos_lt; exact Hg0).
  destruct Hnear as (_ & _ & _ & _ & HL & _).
  assert (0 <= L / 2 * norm2 (vsub (xs j) xstar)) by (apply Rmult_le_pos; lra).
  eapply Rle_trans; [exact HR|]. apply Rmult_le_compat; [lra|exact Hp| |exact He].
  apply Rplus_le_compat_l. apply Rmult_le_compat_l; lra.
Qed.
(** a live state whose condition holds, or the initial one, can be updated *)
Lemma tot_alive_S j : Alive j -> (j <= S m)%nat -> ((1 <= j)%nat -> cnd (A j) = true) -> Alive (S j).
Proof.
  intros H Hj Hc i Hi. destruct (Nat.eq_dec i (S j)) as [->|Hne]; [|apply H; lia].
  pose proof (tot_steps j H) as Hst.
  destruct (run_inv F ls cfg m n xs sts j Hm tot_F Hls Hx0 Hst j (le_n j)) as ((Iv1 & Iv2 & Iv3 & Iv4) & Ip & Ig).
  assert (Hh : by_hist (sts j) <> None).
  { destruct j as [|j]; [destruct Hst as (_ & Hi0 & _); unfold broyden_init in Hi0; rewrite Hmc in Hi0; injection Hi0 as <-; discriminate|].
    intros C. specialize (Hc ltac:(lia)). rewrite (H (S j) (le_n _)) in Hc. unfold cnd, broyden_cond in Hc. apply andb_prop in Hc as [Hc _].
    destruct (Ip j ltac:(lia)) as (_ & _ & _ & _ & _ & Ee & _). rewrite Ee in Hc. unfold xgtb in Hc. 
    pose proof (no_breakdown F ls cfg m n xs sts (S j) Hm tot_F Hls Hx0 Hst Hg0 M xstar a delta L r rho Hnear Hbelow Hstart Hd0 Hrho Hbasin Hj (fun k Hk => proj1 (tot_unit (S j) H k Hk)) j ltac:(lia) C) as Hz.
    pose proof (step_eq F ls cfg m n xs sts (S j) Hm tot_F Hls Hx0 Hst Hg0 Hj (fun k Hk => proj1 (tot_unit (S j) H k Hk)) j ltac:(lia)) as Hs.
    rewrite Hz in Hs.
    assert (Lj : length (xs j) = n) by (apply tot_xlen; intros i' Hi'; apply H; lia).
    assert (Ex : xs (S j) = xs j).
    { apply vec_eq_dot; [rewrite Lj; exact Iv4|]. intros z. assert (Hd : dot z (vsub (xs (S j)) (xs j)) = 0) by (rewrite Hz; apply dot_vzero_r). autorewrite with vec in Hd. rewrite !(dot_comm z) in Hd. lra. }
    assert (HF0 : norm2 (F (xs (S j))) = 0).
    { rewrite Ex. replace (F (xs j)) with (smul (-1) (smul (-1) (F (xs j)))) by (apply vec_eq_dot; [rewrite !smul_length; reflexivity|]; intros z; autorewrite with vec; ring).
      rewrite <- Hs, norm2_smul. 
      assert (LG : forall i, length ((fun i => F (xs (Nat.min i (S j)))) i) = n) by (intros i0; apply tot_F, tot_xlen; intros i' Hi'; apply H; lia).
      assert (LX : forall i, length ((fun i => xs (Nat.min i (S j))) i) = n) by (intros i0; apply tot_xlen; intros i' Hi'; apply H; lia).
      rewrite (jacobian_ext _ xs (fun i => xs (Nat.min i (S j))) (fun j => F (xs j)) (fun i => F (xs (Nat.min i (S j))))) by (intros i0 Hi0; rewrite Nat.min_l by lia; reflexivity).
      rewrite (jac_zero n (by_gamma0 cfg) _ _ LX LG). ring. }
    rewrite HF0 in Hc. destruct (Rlt_dec (by_tol cfg) 0); [lra|discriminate]. }
  specialize (Ig Hh). unfold good in Ig.
  assert (Ex : exists p s', A (S j) = Some ([p], s')).
  { unfold A. rewrite iter_S. fold (A j). rewrite (H j (le_n _)). cbn [upd]. unfold broyden_update, by_take_step. rewrite Ig, Hsz, Iv2.
    unfold Rleb. destruct (Rle_dec 1 0) as [E1|E1]; [lra|]. cbn. eexists. eexists. reflexivity. }
  destruct Ex as (p & s' & Ex). unfold xs, sts. rewrite Ex. reflexivity.
Qed.

Lemma tot_run J : (1 <= J)%nat -> (J <= S m)%nat -> (J <= by_maxiter cfg)%nat ->
  (/ Rabs (by_gamma0 cfg) + delta + L / 2 * norm2 (vsub x0 xstar)) * (r ^ J * norm2 (vsub x0 xstar)) <= by_tol cfg ->
  exists x st, broyden_run (one_leaf F) ls cfg [x0] = Ok (Some ([x], st)) /\ (1 <= by_iter st <= J)%nat /\
    norm2 (F x) <= by_tol cfg /\ by_error st = Fin (norm2 (F x)) /\
    norm2 (vsub x xstar) <= r ^ (by_iter st) * norm2 (vsub x0 xstar).
Proof.
  intros HJ1 HJm HJx Hsmall. set (C := / Rabs (by_gamma0 cfg) + delta + L / 2 * norm2 (vsub x0 xstar)) in *.
  destruct (run_loop_spec (by_maxiter cfg) cnd upd (Some ([x0], st0)) ltac:(lia)) as (k & Hk & Er & Hc & Hstop).
  assert (Hal : forall j, (j <= k)%nat -> (j <= J)%nat -> Alive j).
  { induction j as [|j IH]; intros Hjk HjJ.
    - intros i Hi. assert (i = 0)%nat as -> by lia. reflexivity.
    - apply tot_alive_S; [apply IH; lia|lia|]. intros Hj1. apply Hc. lia. }
  assert (Herr : forall j, (1 <= j <= k)%nat -> (j <= J)%nat -> by_error (sts j) = Fin (norm2 (F (xs j))) /\ by_iter (sts j) = j).
  { intros j Hj HjJ. pose proof (Hal j ltac:(lia) HjJ) as H.
    destruct (run_inv F ls cfg m n xs sts j Hm tot_F Hls Hx0 (tot_steps j H) j (le_n j)) as ((I1 & _) & Ip & _).
    destruct j as [|j]; [lia|]. destruct (Ip j ltac:(lia)) as (_ & _ & _ & _ & _ & Ee & _). split; [exact Ee|exact I1]. }
  assert (HkJ : (k <= J)%nat).
  { destruct (le_lt_dec k J) as [Hle|Hlt]; [exact Hle|exfalso].
    pose proof (Hc J ltac:(lia)) as Hcj. fold (A J) in Hcj. pose proof (Hal J ltac:(lia) (le_n J)) as HaJ. rewrite (HaJ J (le_n J)) in Hcj.
    unfold cnd, broyden_cond in Hcj. apply andb_prop in Hcj as [Hcj _]. destruct (Herr J ltac:(lia) (le_n J)) as [Ee _]. rewrite Ee in Hcj.
    simpl in Hcj. pose proof (tot_small J C HaJ HJm eq_refl) as Hsm. destruct (Rlt_dec (by_tol cfg) (norm2 (F (xs J)))); [lra|discriminate]. }
  pose proof (Hal k (le_n k) HkJ) as Hak. destruct (Herr k ltac:(lia) HkJ) as [Ee Ei].
  exists (xs k), (sts k). split.
  { unfold broyden_run. rewrite Hmc, Hinit. f_equal. etransitivity; [exact Er|]. apply Hak. lia. }
  rewrite Ei. split; [lia|]. split; [|split; [exact Ee|apply tot_local; [exact Hak|lia]]].
  destruct Hstop as [Hmx|Hf].
  - assert (k = J) as -> by lia. pose proof (tot_small J C Hak HJm eq_refl). lra.
  - fold (A k) in Hf. rewrite (Hak k (le_n k)) in Hf. unfold cnd, broyden_cond in Hf. destruct k as [|k]; [lia|].
    destruct (tot_unit (S k) Hak k ltac:(lia)) as [_ Hfl]. rewrite Hfl, Ee in Hf. rewrite orb_true_r, andb_true_r in Hf. simpl in Hf.
    destruct (Rlt_dec (by_tol cfg) (norm2 (F (xs (S k))))); [discriminate|lra].
Qed.
End Total.
