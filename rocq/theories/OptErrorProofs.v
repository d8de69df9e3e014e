(** Proofs for C68. *)
From Coq Require Import Reals List Lra Lia Bool Arith.
From Verif Require Import Prelude Vec Mat Proj ProjProofs Prox ProxProofs Loss LossProofs Run ProxGrad ProxGradProofs ProxGradTheorems SimplexTheorems FixedPoint FixedPointTheorems QuasiNewton QuasiNewtonProofs Convergence ConvergenceProofs NcgConvergence CDQP CDQPProofs CDQPTheorems Objective ObjectiveProofs ObjectiveTheorems BlockCD BlockCDProofs BlockCDTheorems OptError.
Import ListNotations.
Open Scope R_scope.

Lemma sq_le_norm (v : vec) c : 0 <= c -> dot v v <= c * c -> norm2 v <= c.
Proof. intros Hc H. unfold norm2. rewrite <- (sqrt_square c Hc). apply sqrt_le_1_alt. exact H. Qed.
Lemma norm_mul_sq (v : vec) : norm2 v * norm2 v = dot v v.
Proof. unfold norm2. apply sqrt_sqrt. apply dot_self_nonneg. Qed.
Lemma norm_nonneg (v : vec) : 0 <= norm2 v.
Proof. apply sqrt_pos. Qed.
Lemma dot_le_norms (u v : vec) : dot u v <= norm2 u * norm2 v.
Proof.
  pose proof (cauchy_schwarz_sq u v) as H. pose proof (norm_nonneg u). pose proof (norm_nonneg v).
  rewrite <- (norm_mul_sq u), <- (norm_mul_sq v) in H.
  destruct (Rle_dec (dot u v) 0) as [|Hn]; [apply Rle_trans with 0; [assumption|apply Rmult_le_pos; assumption]|].
  apply Rsqr_incr_0_var; [unfold Rsqr; lra|apply Rmult_le_pos; assumption].
Qed.

(** ** Gradients *)
Section Gradient.
Variables (n : nat) (mu L : R) (f : vec -> R) (gradf : vec -> vec).
Hypothesis HF : strongly_convex_smooth n mu L f gradf.
Let Hmu : 0 < mu <= L := proj1 HF.
Lemma ssc_min_grad xs : length xs = n -> (forall z, length z = n -> f xs <= f z) -> dot (gradf xs) (gradf xs) = 0.
Proof.
  intros Hl Hm. destruct (ssc_grad_upper n mu L f gradf HF xs Hl) as (z & Hz & H). specialize (Hm z Hz). pose proof (dot_self_nonneg (gradf xs)).
  assert (2 * L * (f xs - f z) <= 0) by (assert (0 <= (2 * L) * (f z - f xs)) by (apply Rmult_le_pos; lra); lra). lra.
Qed.
Lemma ssc_lipschitz x z : length x = n -> length z = n -> norm2 (vsub (gradf z) (gradf x)) <= L * norm2 (vsub z x).
Proof.
  intros Hx Hz. pose proof (proj1 (proj2 HF)) as Hgd. pose proof (ssc_cocoercive n mu L f gradf HF x z Hx Hz) as C. cbv zeta in C.
  set (y := vsub (gradf z) (gradf x)) in *. set (s := vsub z x) in *.
  assert (El : length y = length s) by (unfold y, s; rewrite !vsub_length, (Hgd z Hz), (Hgd x Hx); lia).
  pose proof (dot_le_norms y s) as B. rewrite <- norm_mul_sq in C. pose proof (norm_nonneg y). pose proof (norm_nonneg s).
  destruct (Rle_lt_or_eq_dec 0 (norm2 y) H) as [P|E]; [|rewrite <- E; apply Rmult_le_pos; lra].
  apply (Rmult_le_reg_l (norm2 y)); [exact P|]. assert (L * dot y s <= L * (norm2 y * norm2 s)) by (apply Rmult_le_compat_l; lra). lra.
Qed.
Lemma ssc_strong_norm x z : length x = n -> length z = n -> mu * norm2 (vsub z x) <= norm2 (vsub (gradf z) (gradf x)).
Proof.
  intros Hx Hz. pose proof (proj1 (proj2 HF)) as Hgd. pose proof (ssc_monotone n mu L f gradf HF x z Hx Hz) as C. cbv zeta in C.
  set (y := vsub (gradf z) (gradf x)) in *. set (s := vsub z x) in *.
  assert (El : length y = length s) by (unfold y, s; rewrite !vsub_length, (Hgd z Hz), (Hgd x Hx); lia).
  pose proof (dot_le_norms y s) as B. rewrite <- norm_mul_sq in C. pose proof (norm_nonneg y). pose proof (norm_nonneg s).
  destruct (Rle_lt_or_eq_dec 0 (norm2 s) H0) as [P|E]; [|rewrite <- E; lra].
  apply (Rmult_le_reg_l (norm2 s)); [exact P|]. lra.
Qed.
End Gradient.

(** ** Proximal gradient residuals *)
Section ProxRes.
Variables (n : nat) (D : vec -> Prop) (f g : vec -> R) (gradf : vec -> vec) (prox : vec -> R -> vec).
Hypothesis HP : composite_problem n D f g gradf prox.
Lemma fp_dim x : in_dim n x -> in_dim n (vsub x (gradf x)).
Proof. intros Hx. destruct HP as (Hgl & _). unfold in_dim in *. rewrite vsub_length, (Hgl x Hx), Hx. lia. Qed.
Lemma fp_out x : in_dim n x -> D (pg_fixed_point_fun gradf prox x) /\ in_dim n (pg_fixed_point_fun gradf prox x).
Proof.
  intros Hx. destruct HP as (_ & _ & Hg & Hp). destruct (Hp _ 1 (fp_dim x Hx) ltac:(lra)) as (HD & _). split; [exact HD|]. apply Hg. exact HD.
Qed.
(** If u - gradf y is a subgradient of g at y, the residual at y is at most ||u||. *)
Lemma residual_le y u : in_dim n y -> D y -> length u = n ->
  (forall z, D z -> g y + dot (vsub u (gradf y)) (vsub z y) <= g z) ->
  norm2 (pg_optimality_fun gradf prox y) <= norm2 u.
Proof.
  intros Hy HDy Hu Hsub. destruct HP as (Hgl & Hf & Hg & Hp). unfold pg_optimality_fun. destruct (fp_out y Hy) as (HDp & Hpl).
  set (p := pg_fixed_point_fun gradf prox y) in *. pose proof (Hsub p HDp) as A.
  pose proof (prox_subgrad n D g prox Hg Hp (vsub y (gradf y)) 1 y (fp_dim y Hy) ltac:(lra) HDy) as B. fold (pg_fixed_point_fun gradf prox y) in B. fold p in B.
  assert (E : dot (vsub (vsub y (gradf y)) p) (vsub y p) / 1 + dot (vsub u (gradf y)) (vsub p y) = dot (vsub p y) (vsub p y) + dot u (vsub p y)) by (unfold Rdiv; rewrite Rinv_1, Rmult_1_r; vring).
  assert (K : dot (vsub p y) (vsub p y) <= - dot u (vsub p y)) by lra.
  assert (Eu : - dot u (vsub p y) = dot (smul (-1) u) (vsub p y)) by vring. rewrite Eu in K.
  assert (Hlp : length (vsub p y) = n) by (unfold in_dim in *; apply vsub_len; assumption).
  pose proof (dot_le_norms (smul (-1) u) (vsub p y)) as C.
  assert (En : norm2 (smul (-1) u) = norm2 u) by (unfold norm2; f_equal; vring). rewrite En in C. rewrite <- norm_mul_sq in K.
  pose proof (norm_nonneg (vsub p y)). destruct (Rle_lt_or_eq_dec 0 (norm2 (vsub p y)) H) as [P|Ez]; [|rewrite <- Ez; apply norm_nonneg].
  apply (Rmult_le_reg_r (norm2 (vsub p y))); [exact P|]. lra.
Qed.
(** The residual after a proximal gradient step of size s. *)
Lemma step_residual L x s : lipschitz_gradient n L gradf -> in_dim n x -> 0 < s ->
  let x' := prox_grad prox x (gradf x) s in
  norm2 (pg_optimality_fun gradf prox x') <= (/ s + L) * norm2 (vsub x' x).
Proof.
  intros (HL & Hgd & Hlip) Hx Hs x'. destruct HP as (Hgl & Hf & Hg & Hp). pose proof (prox_grad_dom n D g gradf prox Hgl Hp x s Hx Hs) as HD. fold x' in HD.
  assert (Hx' : in_dim n x') by (apply Hg; exact HD).
  assert (Hv : in_dim n (vadd x (smul (- s) (gradf x)))) by (unfold in_dim in *; rewrite vadd_length, smul_length, (Hgl x Hx), Hx; lia).
  set (u := vadd (smul (/ s) (vsub x x')) (vsub (gradf x') (gradf x))).
  assert (Hu : length u = n) by (unfold u, in_dim in *; rewrite vadd_length, smul_length, !vsub_length, (Hgl x Hx), (Hgl x' Hx'), Hx, Hx'; lia).
  eapply Rle_trans; [apply (residual_le x' u Hx' HD Hu)|].
  - intros z Hz. pose proof (prox_subgrad n D g prox Hg Hp _ s z Hv Hs Hz) as B. fold (prox_grad prox x (gradf x) s) in B. fold x' in B.
    assert (E : dot (vsub (vadd x (smul (- s) (gradf x))) x') (vsub z x') / s = dot (vsub u (gradf x')) (vsub z x')).
    { unfold u. autorewrite with vec. field. lra. }
    rewrite E in B. exact B.
  - unfold u. eapply Rle_trans; [apply norm2_triangle|].
    assert (E1 : norm2 (smul (/ s) (vsub x x')) = / s * norm2 (vsub x' x)).
    { rewrite norm2_smul, (Rabs_right (/ s)) by (left; apply Rinv_0_lt_compat; exact Hs). f_equal. unfold norm2. f_equal. vring. }
    rewrite E1, Rmult_plus_distr_r. apply Rplus_le_compat_l. apply sq_le_norm; [apply Rmult_le_pos; [lra|apply norm_nonneg]|].
    eapply Rle_trans; [apply (Hlip x x' Hx Hx')|]. replace (L * norm2 (vsub x' x) * (L * norm2 (vsub x' x))) with (L * L * (norm2 (vsub x' x) * norm2 (vsub x' x))) by ring.
    rewrite norm_mul_sq. unfold dist2, sqnorm. lra.
Qed.
End ProxRes.
(** Error bound *)
Lemma prox_error_bound n D f g gradf prox mu L x xs : composite_problem n D f g gradf prox -> strongly_convex_smooth n mu L f gradf ->
  in_dim n x -> minimiser D f g xs ->
  mu * vdist x xs <= (1 + L) * norm2 (pg_optimality_fun gradf prox x) /\ norm2 (pg_optimality_fun gradf prox x) <= (1 + L) * vdist x xs.
Proof.
  intros HP HF Hx Hm. pose proof HP as (Hgl & Hf & Hg & Hp). pose proof HF as (Hmu & Hgd & HS). assert (HD : D xs) by apply Hm. assert (Hxs : in_dim n xs) by (apply Hg; exact HD).
  assert (Hsm : smooth n f gradf L) by (intros a b Ha Hb; apply HS; assumption).
  pose proof (min_fixed_point n D f g gradf prox Hgl Hg Hp L xs 1 Hsm ltac:(lra) ltac:(lra) Hm) as Efix.
  assert (Hvs : in_dim n (vadd xs (smul (- (1)) (gradf xs)))) by (unfold in_dim in *; rewrite vadd_length, smul_length, (Hgl xs Hxs), Hxs; lia).
  destruct (fp_out n D f g gradf prox HP x Hx) as (HDp & Hpl). set (p := pg_fixed_point_fun gradf prox x) in *.
  pose proof (prox_subgrad n D g prox Hg Hp _ 1 p Hvs ltac:(lra) HDp) as A. fold (prox_grad prox xs (gradf xs) 1) in A. rewrite Efix in A.
  pose proof (prox_subgrad n D g prox Hg Hp _ 1 xs (fp_dim n D f g gradf prox HP x Hx) ltac:(lra) HD) as B. fold (pg_fixed_point_fun gradf prox x) in B. fold p in B.
  unfold pg_optimality_fun. fold p. set (e := vsub p x). unfold vdist. set (d := vsub x xs). set (y := vsub (gradf x) (gradf xs)).
  assert (He : length e = n) by (unfold e, in_dim in *; apply vsub_len; assumption).
  assert (Hd : length d = n) by (unfold d, in_dim in *; apply vsub_len; assumption).
  assert (Hy : length y = n) by (unfold y, in_dim in *; rewrite vsub_length, (Hgl x Hx), (Hgl xs Hxs); lia).
  assert (M1 : mu * dot d d <= dot y d) by (pose proof (ssc_monotone n mu L f gradf HF xs x Hxs Hx) as M; exact M).
  assert (Ly : norm2 y <= L * norm2 d) by (apply (ssc_lipschitz n mu L f gradf HF); assumption).
  assert (K : dot e e + dot y d <= - dot y e - dot e d).
  { assert (E : dot (vsub (vadd xs (smul (- (1)) (gradf xs))) xs) (vsub p xs) / 1 + dot (vsub (vsub x (gradf x)) p) (vsub xs p) / 1 = dot e e + dot e d + dot y d + dot y e).
    { unfold Rdiv. rewrite Rinv_1, !Rmult_1_r. unfold e, d, y. vring. }
    lra. }
  pose proof (norm_nonneg e) as N1. pose proof (norm_nonneg d) as N2. pose proof (norm_nonneg y) as N3.
  assert (A1 : - dot y e <= norm2 y * norm2 e).
  { assert (Q : - dot y e = dot (smul (-1) y) e) by vring. rewrite Q. eapply Rle_trans; [apply dot_le_norms|]. assert (Q2 : norm2 (smul (-1) y) = norm2 y) by (unfold norm2; f_equal; vring). rewrite Q2. lra. }
  assert (A2 : - dot e d <= norm2 e * norm2 d).
  { assert (Q : - dot e d = dot (smul (-1) e) d) by vring. rewrite Q. eapply Rle_trans; [apply dot_le_norms|]. assert (Q2 : norm2 (smul (-1) e) = norm2 e) by (unfold norm2; f_equal; vring). rewrite Q2. lra. }
  assert (A3 : norm2 y * norm2 e <= L * norm2 d * norm2 e) by (apply Rmult_le_compat_r; assumption).
  pose proof (dot_self_nonneg e) as S0. split.
  - destruct (Rle_lt_or_eq_dec 0 (norm2 d) N2) as [P|Ez]; [|rewrite <- Ez; assert (0 <= (1 + L) * norm2 e) by (apply Rmult_le_pos; lra); lra].
    apply (Rmult_le_reg_r (norm2 d)); [exact P|]. rewrite <- norm_mul_sq in M1. lra.
  - (* ||e||^2 <= -<y,e> - <e,d> - <y,d> <= (L + 1) ||d|| ||e|| *)
    assert (S1 : 0 <= dot y d) by (pose proof (dot_self_nonneg d); assert (0 <= mu * dot d d) by (apply Rmult_le_pos; lra); lra).
    rewrite <- norm_mul_sq in K. assert (K2 : norm2 e * norm2 e <= (1 + L) * norm2 d * norm2 e) by lra.
    destruct (Rle_lt_or_eq_dec 0 (norm2 e) N1) as [P|Ez]; [|rewrite <- Ez; apply Rmult_le_pos; lra].
    apply (Rmult_le_reg_r (norm2 e)); [exact P|]. exact K2.
Qed.

(** ** BoxCDQP *)
Lemma norm_le_sqrt (v : vec) c : 0 <= c -> (forall i, (i < length v)%nat -> Rabs (nth i v 0) <= c) -> norm2 v <= sqrt (INR (length v)) * c.
Proof.
  intros Hc H. apply sq_le_norm; [apply Rmult_le_pos; [apply sqrt_pos|exact Hc]|].
  replace (sqrt (INR (length v)) * c * (sqrt (INR (length v)) * c)) with (sqrt (INR (length v)) * sqrt (INR (length v)) * (c * c)) by ring.
  rewrite sqrt_sqrt by apply pos_INR. revert H. induction v as [|a v IH]; intros H; [simpl; lra|].
  change (length (a :: v)) with (S (length v)). rewrite S_INR. change (dot (a :: v) (a :: v)) with (a * a + dot v v).
  assert (A : dot v v <= INR (length v) * (c * c)) by (apply IH; intros i Hi; apply (H (S i)); simpl; lia).
  specialize (H 0%nat ltac:(simpl; lia)). simpl in H. assert (a * a <= c * c).
  { replace (a * a) with (Rabs a * Rabs a) by (rewrite <- Rabs_mult; apply Rabs_right; apply Rle_ge, Rle_0_sqr). apply Rmult_le_compat; auto; apply Rabs_pos. }
  lra.
Qed.
Section Box.
Variables (Q : mat) (c l u : vec) (n : nat).
Hypothesis HPq : qp_problem Q c l u n.
Notation grad := (grad Q c).
Lemma cd_certificate x M : length x = n ->
  (forall i, (i < n)%nat -> 0 < entry Q i i) -> (forall i j, (i < n)%nat -> (j < n)%nat -> Rabs (entry Q i j) <= M) ->
  let x' := Xk Q c l u x n in
  exists gp : vec, length gp = n /\
    (forall i v, (i < n)%nat -> nth i l 0 <= v <= nth i u 0 -> 0 <= nth i gp 0 * (v - nth i x' 0)) /\
    (forall i, (i < n)%nat -> Rabs (nth i (grad x') 0 - nth i gp 0) <= M * Ek Q c l u x n).
Proof.
  intros Hx Hh HM x'. assert (HQ : mat_shape n n Q) by apply HPq.
  assert (Hx' : length x' = n) by (apply (Xk_length Q c l u n HPq); auto).
  set (gp := map (fun i => nth i (grad (Xk Q c l u x i)) 0 + entry Q i i * (newton Q c l u x i - nth i x 0)) (seq 0 n)).
  assert (Hgp : length gp = n) by (unfold gp; rewrite map_length, seq_length; reflexivity).
  assert (Hn : forall i, (i < n)%nat -> nth i gp 0 = nth i (grad (Xk Q c l u x i)) 0 + entry Q i i * (newton Q c l u x i - nth i x 0)).
  { intros i Hi. unfold gp. rewrite (nth_map_lt _ (seq 0 n) i 0%nat 0) by (rewrite seq_length; exact Hi). rewrite seq_nth by exact Hi. reflexivity. }
  exists gp. split; [exact Hgp|]. split.
  - intros i v Hi Hv. rewrite Hn by exact Hi. unfold x'. rewrite (nth_Xk_final Q c l u n HPq x Hx n i) by lia. apply (newton_opt Q c l u n HPq); auto.
  - intros i Hi'. rewrite Hn by exact Hi'.
    assert (E1 : nth i (grad (Xk Q c l u x i)) 0 + entry Q i i * (newton Q c l u x i - nth i x 0) = nth i (grad (Xk Q c l u x (S i))) 0).
    { rewrite !(nth_grad Q c n) by exact Hi'. rewrite (Xk_S Q c l u n) by (auto; lia).
      rewrite (set_nth_unit n) by (auto; apply (Xk_length Q c l u n HPq); auto; lia). rewrite dot_vadd_r, dot_smul_r.
      rewrite dot_unit_r by (auto; apply (row_length n n Q i HQ Hi')). fold (entry Q i i).
      rewrite (nth_Xk_untouched Q c l u n HPq x Hx i i) by lia. ring. }
    rewrite E1, !(nth_grad Q c n) by exact Hi'.
    replace (dot (nth i Q []) x' + nth i c 0 - (dot (nth i Q []) (Xk Q c l u x (S i)) + nth i c 0)) with (dot (nth i Q []) (vsub x' (Xk Q c l u x (S i)))) by (rewrite dot_vsub_r; ring).
    assert (HL : length (Xk Q c l u x (S i)) = n) by (apply (Xk_length Q c l u n HPq); auto; lia).
    eapply Rle_trans; [apply (dot_abs_norm1 _ _ M)|].
    + rewrite (row_length n n Q i HQ Hi'). intros j Hj. apply (HM i j Hi' Hj).
    + rewrite (row_length n n Q i HQ Hi'). apply vsub_len; assumption.
    + apply Rmult_le_compat_l; [eapply Rle_trans; [apply Rabs_pos|apply (HM i i Hi' Hi')]|].
      rewrite (Ek_norm1 Q c l u n HPq x Hx n (le_n n)). fold x'. apply norm1_le_coords; [rewrite !vsub_length; lia|].
      rewrite vsub_length. intros j Hj. rewrite !nth_vsub.
      destruct (Nat.lt_ge_cases j (S i)) as [Hlt|Hge].
      * unfold x'. rewrite (nth_Xk_final Q c l u n HPq x Hx n j), (nth_Xk_final Q c l u n HPq x Hx (S i) j) by lia.
        replace (newton Q c l u x j - newton Q c l u x j) with 0 by ring. rewrite Rabs_R0. apply Rabs_pos.
      * rewrite (nth_Xk_untouched Q c l u n HPq x Hx (S i) j) by lia. lra.
Qed.
Lemma cd_residual x M : length x = n ->
  (forall i, (i < n)%nat -> 0 < entry Q i i) -> (forall i j, (i < n)%nat -> (j < n)%nat -> Rabs (entry Q i j) <= M) ->
  norm2 (cd_optimality_fun Q c l u (Xk Q c l u x n)) <= sqrt (INR n) * (M * Ek Q c l u x n).
Proof.
  intros Hx Hh HM. destruct (cd_certificate x M Hx Hh HM) as (gp & Hgp & H1 & H2). set (x' := Xk Q c l u x n) in *.
  assert (Hx' : length x' = n) by (apply (Xk_length Q c l u n HPq); auto).
  assert (Hl : length l = n) by apply HPq. assert (Hu : length u = n) by apply HPq.
  assert (Hle : forall i, (i < n)%nat -> nth i l 0 <= nth i u 0) by apply HPq.
  assert (Hgl : length (grad x') = n) by apply (grad_length Q c l u n HPq).
  assert (Hnth : forall i, (i < n)%nat -> nth i (cd_optimality_fun Q c l u x') 0 =
     clip (nth i x' 0 - nth i (grad x') 0) (nth i l 0) (nth i u 0) - nth i x' 0).
  { intros i Hi. unfold cd_optimality_fun, cd_fixed_point_fun, projection_box. fold (grad x').
    rewrite nth_vsub. rewrite (nth_map3 clip _ _ _ i 0 0 0 0) by (rewrite ?vsub_length; lia). rewrite nth_vsub. reflexivity. }
  assert (Hlen : length (cd_optimality_fun Q c l u x') = n).
  { unfold cd_optimality_fun, cd_fixed_point_fun, projection_box. fold (grad x'). apply vsub_len; [|exact Hx']. apply map3_length; [apply vsub_len; assumption|assumption..]. }
  pose proof (epoch_box Q c l u n HPq x Hx) as [_ HB]. fold x' in HB.
  destruct n as [|n0] eqn:En.
  { destruct (cd_optimality_fun Q c l u x'); [|discriminate]. unfold norm2. simpl. rewrite sqrt_0. lra. }
  rewrite <- En in *. rewrite <- Hlen at 1. apply norm_le_sqrt.
  - eapply Rle_trans; [apply Rabs_pos|]. apply (H2 0%nat). lia.
  - intros i Hi. rewrite Hlen in Hi. rewrite Hnth by exact Hi. eapply Rle_trans; [|apply (H2 i Hi)].
    assert (Hxi : nth i l 0 <= nth i x' 0 <= nth i u 0) by (apply HB; lia).
    pose proof (clip_range (nth i x' 0 - nth i (grad x') 0) _ _ (Hle i Hi)) as Rg.
    pose proof (clip_vi (nth i x' 0 - nth i (grad x') 0) _ _ _ Hxi) as V. set (q := clip _ _ _) in *.
    pose proof (H1 i q Hi Rg) as W. set (a := nth i x' 0) in *. set (g := nth i (grad x') 0) in *. set (p := nth i gp 0) in *.
    assert (K : (q - a) * (q - a) <= (p - g) * (q - a)) by lra.
    rewrite <- (Rabs_Ropp (g - p)). replace (- (g - p)) with (p - g) by ring.
    destruct (Req_dec (q - a) 0) as [E|E]; [rewrite E, Rabs_R0; apply Rabs_pos|].
    apply (Rmult_le_reg_r (Rabs (q - a))); [apply Rabs_pos_lt; exact E|]. rewrite <- !Rabs_mult. rewrite (Rabs_right ((q - a) * (q - a))) by (apply Rle_ge, Rle_0_sqr).
    eapply Rle_trans; [exact K|apply Rle_abs].
Qed.
End Box.

(** ** BlockCoordinateDescent *)
Lemma nth_msub n k X Y i : mat_shape n k X -> mat_shape n k Y -> (i < n)%nat -> nth i (msub X Y) [] = vsub (nth i X []) (nth i Y []).
Proof.
  intros HX HY. pose proof (shape_length n k X HX) as EX. pose proof (shape_length n k Y HY) as EY. clear HX HY. revert X Y i EX EY. induction n as [|n IH]; intros [|x X] [|y Y] i EX EY Hi; try discriminate; [lia|].
  destruct i as [|i]; [unfold msub, madd, msmul; simpl; rewrite vsub_as_vadd; reflexivity|].
  assert (E : nth (S i) (msub (x :: X) (y :: Y)) [] = nth i (msub X Y) []) by reflexivity. rewrite E. refine (IH X Y i _ _ _); simpl in *; lia.
Qed.
Lemma fdist_sum n k X Y : mat_shape n k X -> mat_shape n k Y ->
  fdist2 X Y = vsum (map (fun i => sqnorm (vsub (nth i X []) (nth i Y []))) (seq 0 n)).
Proof.
  intros HX HY. pose proof (msub_shape n k X Y HX HY) as HS. unfold fdist2. rewrite (mdot_seq n) by apply (shape_length n k _ HS).
  apply vsum_map_eq. intros i Hi. apply in_seq in Hi. rewrite (nth_msub n k X Y i HX HY) by lia. reflexivity.
Qed.
Lemma vsum_map_scal {T} c (g : T -> R) l : vsum (map (fun i => c * g i) l) = c * vsum (map g l).
Proof. induction l as [|a l IH]; simpl; [ring|rewrite IH; ring]. Qed.
Lemma vsum_const {T} c (l : list T) : vsum (map (fun _ => c) l) = INR (length l) * c.
Proof. induction l as [|a l IH]; [simpl; ring|]. change (length (a :: l)) with (S (length l)). rewrite S_INR. simpl. rewrite IH. ring. Qed.
Section Blocks.
Variables (m n k : nat) (f : composite) (D : vec -> Prop) (r : vec -> R) (prox : vec -> R -> vec) (Lmax Lf : R).
Hypothesis HP : bcd_problem m n k f D r prox.
Hypothesis HLip : bcd_lipschitz n k Lf f.
Hypothesis HLm : forall i, (i < n)%nat -> nth i (columnwise f) 0 <= Lmax.
Let Hs : bcd_shapes m n k f := proj1 HP.
Let HL : forall i, (i < n)%nat -> 0 < nth i (columnwise f) 0 := proj1 (proj2 HP).
Let Hpl := problem_pl m n k f D r prox HP.
Notation B := (Bk k f prox).
Notation G := (full_grad_block k f).
Definition cert (X : mat) (i : nat) : vec :=
  vadd (vsub (G (B X n) i) (G (B X i) i)) (smul (nth i (columnwise f) 0) (vsub (nth i X []) (nth i (B X n) []))).
Lemma cert_length X i : mat_shape n k X -> (i < n)%nat -> length (cert X i) = k.
Proof.
  intros HX Hi. unfold cert. pose proof (Bk_shape m n k f prox Hs Hpl HL X n HX (le_n n)) as H1. pose proof (Bk_shape m n k f prox Hs Hpl HL X i HX ltac:(lia)) as H2.
  rewrite vadd_length, smul_length, !vsub_length, !(full_grad_length m n k f Hs) by assumption.
  rewrite (nth_shape n k X i HX Hi), (nth_shape n k _ i H1 Hi). lia.
Qed.
Lemma cert_subgrad X i z : mat_shape n k X -> (i < n)%nat -> D z ->
  let p := nth i (B X n) [] in r p + dot (vsub (cert X i) (G (B X n) i)) (vsub z p) <= r z.
Proof.
  intros HX Hi Hz p. pose proof (Bk_shape m n k f prox Hs Hpl HL X i HX ltac:(lia)) as H2. pose proof HP as (_ & _ & _ & Hc & Hp).
  pose proof (new_block_subgrad m n k f prox Hs HL D r Hc Hp (B X i) i z H2 Hi Hz) as A. cbv zeta in A.
  rewrite <- (nth_Bk_final m n k f prox Hs Hpl HL X n i HX ltac:(lia)) in A. rewrite (nth_Bk_untouched m n k f prox Hs Hpl HL X i i HX ltac:(lia) (le_n i)) in A. fold p in A.
  assert (E : dot (vsub (cert X i) (G (B X n) i)) (vsub z p) = nth i (columnwise f) 0 * dot (vsub (nth i X []) p) (vsub z p) - dot (G (B X i) i) (vsub z p)) by (unfold cert; fold p; vring).
  rewrite E. lra.
Qed.
Lemma partial_dist X i : mat_shape n k X -> (i <= n)%nat -> fdist2 (B X n) (B X i) <= fdist2 (B X n) X.
Proof.
  intros HX Hi. pose proof (Bk_shape m n k f prox Hs Hpl HL X n HX (le_n n)) as H1. pose proof (Bk_shape m n k f prox Hs Hpl HL X i HX Hi) as H2.
  rewrite (fdist_sum n k _ _ H1 H2), (fdist_sum n k _ _ H1 HX). apply vsum_map_le. intros j Hj. apply in_seq in Hj.
  destruct (Nat.lt_ge_cases j i) as [Hlt|Hge].
  - rewrite (nth_Bk_final m n k f prox Hs Hpl HL X n j HX ltac:(lia)), (nth_Bk_final m n k f prox Hs Hpl HL X i j HX ltac:(lia)).
    assert (E : forall v : vec, sqnorm (vsub v v) = 0) by (intros v; unfold sqnorm; vring). rewrite E. apply dot_self_nonneg.
  - rewrite (nth_Bk_untouched m n k f prox Hs Hpl HL X i j HX Hi Hge). lra.
Qed.
Lemma cert_bound X : mat_shape n k X ->
  vsum (map (fun i => sqnorm (cert X i)) (seq 0 n)) <= 2 * (Lmax * Lmax + INR n * (Lf * Lf)) * fdist2 (B X n) X.
Proof.
  intros HX. pose proof (Bk_shape m n k f prox Hs Hpl HL X n HX (le_n n)) as H1.
  apply Rle_trans with (vsum (map (fun i => 2 * (Lf * Lf) * fdist2 (B X n) X + 2 * (Lmax * Lmax) * sqnorm (vsub (nth i (B X n) []) (nth i X []))) (seq 0 n))).
  - apply vsum_map_le. intros i Hi. apply in_seq in Hi. pose proof (Bk_shape m n k f prox Hs Hpl HL X i HX ltac:(lia)) as H2.
    pose proof HLip as (_ & HL2). pose proof (HL2 _ _ i H1 H2 ltac:(lia)) as A. pose proof (partial_dist X i HX ltac:(lia)) as A2.
    assert (A3 : Lf * Lf * fdist2 (B X n) (B X i) <= Lf * Lf * fdist2 (B X n) X) by (apply Rmult_le_compat_l; [apply Rle_0_sqr|exact A2]).
    unfold cert. set (y := vsub (G (B X n) i) (G (B X i) i)) in *. set (Li := nth i (columnwise f) 0). set (d := vsub (nth i (B X n) []) (nth i X [])).
    assert (E : sqnorm (vadd y (smul Li (vsub (nth i X []) (nth i (B X n) [])))) = dot y y - 2 * Li * dot y d + Li * Li * dot d d) by (unfold sqnorm, d; vring).
    assert (S0 : 0 <= dot (vadd y (smul Li d)) (vadd y (smul Li d))) by apply dot_self_nonneg.
    assert (E2 : dot (vadd y (smul Li d)) (vadd y (smul Li d)) = dot y y + 2 * Li * dot y d + Li * Li * dot d d) by vring.
    assert (S1 : Li * Li * dot d d <= Lmax * Lmax * dot d d).
    { apply Rmult_le_compat_r; [apply dot_self_nonneg|]. pose proof (HL i ltac:(lia)). pose proof (HLm i ltac:(lia)). apply Rmult_le_compat; unfold Li; lra. }
    rewrite E. unfold sqnorm in *. lra.
  - rewrite vsum_map_plus, vsum_const, seq_length, vsum_map_scal, <- (fdist_sum n k _ _ H1 HX). lra.
Qed.
(** blockwise residual *)
Lemma block_residual X i : mat_shape n k X -> (i < n)%nat ->
  let p := nth i (B X n) [] in
  sqnorm (vsub (prox (vsub p (G (B X n) i)) 1) p) <= sqnorm (cert X i).
Proof.
  intros HX Hi p. pose proof (Bk_shape m n k f prox Hs Hpl HL X n HX (le_n n)) as H1. pose proof (full_grad_length m n k f Hs (B X n) i H1 Hi) as Hgl. set (g := G (B X n) i) in *.
  pose proof HP as (_ & _ & _ & Hc & Hp).
  assert (HC : composite_problem k D (fun v => dot g v) r (fun _ => g) prox).
  { split; [intros v _; exact Hgl|]. split; [|split; [exact Hc|exact Hp]]. intros v w Hv Hw. right. vring. }
  assert (HDp : D p) by (apply (blocks_nth D); [apply (epoch_dom m n k f prox Hs Hpl HL D r Hp X HX)|rewrite (shape_length n k _ H1); exact Hi]).
  pose proof (residual_le k D (fun v => dot g v) r (fun _ => g) prox HC p (cert X i) (nth_shape n k _ i H1 Hi) HDp (cert_length X i HX Hi)) as A.
  specialize (A (fun z Hz => cert_subgrad X i z HX Hi Hz)). unfold pg_optimality_fun, pg_fixed_point_fun in A.
  unfold sqnorm. rewrite <- !norm_mul_sq. apply Rmult_le_compat; try apply norm_nonneg; exact A.
Qed.
Lemma bcd_residual X : mat_shape n k X ->
  bcd_l2_optimality_error k f prox (B X n) <= bcd_constant n Lmax Lf * sqrt (fdist2 (B X n) X).
Proof.
  intros HX. pose proof (Bk_shape m n k f prox Hs Hpl HL X n HX (le_n n)) as H1. pose proof HP as (_ & _ & _ & Hc & Hp).
  unfold bcd_l2_optimality_error, bcd_constant. rewrite <- sqrt_mult_alt.
  2:{ assert (0 <= Lmax * Lmax) by apply Rle_0_sqr. assert (0 <= INR n * (Lf * Lf)) by (apply Rmult_le_pos; [apply pos_INR|apply Rle_0_sqr]). lra. }
  apply sqrt_le_1_alt. eapply Rle_trans; [|apply (cert_bound X HX)]. unfold bcd_optimality_fun.
  assert (HF : mat_shape n k (bcd_fixed_point_fun k f prox (B X n))).
  { split; [unfold bcd_fixed_point_fun; rewrite map_length, seq_length; apply (shape_length n k _ H1)|].
    apply Forall_forall. intros v Hin. apply in_map_iff in Hin. destruct Hin as (i & <- & Hi). apply in_seq in Hi. rewrite (shape_length n k _ H1) in Hi.
    apply (prox_at_one m n k f prox Hs Hpl D r Hc Hp (B X n) i H1 ltac:(lia)). }
  fold (fdist2 (bcd_fixed_point_fun k f prox (B X n)) (B X n)). rewrite (fdist_sum n k _ _ HF H1).
  apply vsum_map_le. intros i Hi. apply in_seq in Hi. rewrite (opt_nth n k f prox (B X n) i H1 ltac:(lia)). apply (block_residual X i HX). lia.
Qed.
End Blocks.
