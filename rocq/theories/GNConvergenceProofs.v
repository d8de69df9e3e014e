(** Lemmas for C72. *)
From Coq Require Import Reals List Lra Lia Bool Arith.
From Verif Require Import Prelude Vec Mat LinAlg LinSolve LinSolveProofs LinSolveTheorems Run GaussNewton GaussNewtonTheorems GNConvergence.
Import ListNotations.
Open Scope R_scope.

Lemma norm_sub_comm (x y : vec) : length x = length y -> norm2 (vsub x y) = norm2 (vsub y x).
Proof.
  intros H. replace (vsub x y) with (smul (-1) (vsub y x)); [rewrite norm2_smul, Rabs_left by lra; ring|].
  apply vec_ext; [rewrite smul_length, !vsub_length; unfold vec in *; lia|]. intros i Hi. rewrite nth_smul, !nth_vsub. ring.
Qed.
Lemma le_of_sq_le a c : 0 <= a -> 0 <= c -> a * a <= a * c -> a <= c.
Proof. intros Ha Hc H. destruct (Rle_lt_dec a c); [assumption|]. exfalso. assert (a * c < a * a) by (apply Rmult_lt_compat_l; lra). lra. Qed.

Lemma poly2_deriv f c0 c1 c2 t d : (forall u, f u = c0 + c1 * u + c2 * u * u) -> d = c1 + 2 * c2 * t -> derivable_pt_lim f t d.
Proof.
  intros Hf -> eps He. pose proof (Rabs_pos c2) as P. assert (Hd : 0 < eps / (Rabs c2 + 1)) by (apply Rdiv_lt_0_compat; lra). exists (mkposreal _ Hd). cbn [pos]. intros h Hh Hb.
  rewrite !Hf. replace ((c0 + c1 * (t + h) + c2 * (t + h) * (t + h) - (c0 + c1 * t + c2 * t * t)) / h - (c1 + 2 * c2 * t)) with (c2 * h) by (field; exact Hh).
  rewrite Rabs_mult. pose proof (Rabs_pos h) as Ph. apply Rle_lt_trans with ((Rabs c2 + 1) * Rabs h); [apply Rmult_le_compat_r; lra|].
  apply Rlt_le_trans with ((Rabs c2 + 1) * (eps / (Rabs c2 + 1))); [apply Rmult_lt_compat_l; lra|]. right. field. lra.
Qed.
(** first-order expansion with a Jacobian that is Lipschitz along the segment *)
Lemma linearisation_bound m n res jac L (x y : vec) : residual_shapes m n res jac -> is_jacobian m n res jac -> length x = n -> length y = n -> 0 <= L ->
  (forall t, 0 <= t <= 1 -> norm2 (vsub (mvec (jac (vadd x (smul t (vsub y x)))) (vsub y x)) (mvec (jac x) (vsub y x))) <= L * (t * norm2 (vsub y x)) * norm2 (vsub y x)) ->
  norm2 (vsub (vsub (res y) (res x)) (mvec (jac x) (vsub y x))) <= L / 2 * (norm2 (vsub y x) * norm2 (vsub y x)).
Proof.
  intros HS HJ Lx Ls PL HL. destruct (HS x Lx) as [Lr HM]. destruct (HS y Ls) as [Lrs HMs].
  set (d := vsub y x) in *. assert (Ld : length d = n) by (unfold d; rewrite vsub_length; unfold vec in *; lia).
  set (w := vsub (vsub (res y) (res x)) (mvec (jac x) d)). assert (Lw : length w = m) by (unfold w; rewrite !vsub_length, mvec_length, (proj1 HM); unfold vec in *; lia).
  pose proof (norm2_nonneg w) as Pw. pose proof (norm2_nonneg d) as Pd.
  set (z := fun t => vadd x (smul t d)) in *. assert (Lz : forall t, length (z t) = n) by (intros t; unfold z; rewrite vadd_length, smul_length; unfold vec in *; lia).
  set (phi := fun t => dot w (res (z t)) - t * dot w (mvec (jac x) d) - t * t * (L / 2 * (norm2 w * (norm2 d * norm2 d)))).
  set (phi' := fun t => dot w (mvec (jac (z t)) d) - dot w (mvec (jac x) d) - 2 * t * (L / 2 * (norm2 w * (norm2 d * norm2 d)))).
  assert (Hd : forall t, derivable_pt_lim phi t (phi' t)).
  { intros t. unfold phi, phi'. replace (2 * t) with (1 * t + t * 1) by ring.
    apply derivable_pt_lim_minus; [apply derivable_pt_lim_minus; [exact (HJ x d w t Lx Ld Lw)|]|].
    - set (c0 := dot w (mvec (jac x) d)). pose proof (derivable_pt_lim_mult id (fun _ => c0) t 1 0 (derivable_pt_lim_id t) (derivable_pt_lim_const _ t)) as HH.
      cbv beta in HH. assert (Ec : 1 * c0 + id t * 0 = c0) by (unfold id; ring). rewrite Ec in HH. exact HH.
    - set (c := L / 2 * (norm2 w * (norm2 d * norm2 d))). replace ((1 * t + t * 1) * c) with ((1 * t + t * 1) * c + (t * t) * 0) by ring.
      exact (derivable_pt_lim_mult (fun u => u * u) (fun _ => c) t _ 0 (derivable_pt_lim_mult id id t 1 1 (derivable_pt_lim_id t) (derivable_pt_lim_id t)) (derivable_pt_lim_const _ t)). }
  destruct (MVT_cor2 phi phi' 0 1 Rlt_0_1 ltac:(intros; apply Hd)) as (c & E & Hc).
  assert (Hphi' : phi' c <= 0).
  { unfold phi'. rewrite <- dot_vsub_r. pose proof (dot_le_norm w (vsub (mvec (jac (z c)) d) (mvec (jac x) d))) as CS. specialize (HL c ltac:(lra)). fold (z c) in HL.
    assert (B : norm2 w * norm2 (vsub (mvec (jac (z c)) d) (mvec (jac x) d)) <= norm2 w * (L * (c * norm2 d) * norm2 d)) by (apply Rmult_le_compat_l; assumption). unfold vec in *. lra. }
  assert (E1 : z 1 = y).
  { apply vec_ext; [rewrite Lz; unfold vec in *; lia|]. intros i Hi. unfold z, d. rewrite nth_vadd, nth_smul, nth_vsub. ring. }
  assert (E0 : z 0 = x).
  { apply vec_ext; [rewrite Lz; unfold vec in *; lia|]. intros i Hi. unfold z, d. rewrite nth_vadd, nth_smul, nth_vsub. ring. }
  unfold phi in E. rewrite E1, E0 in E.
  assert (K : norm2 w * norm2 w <= norm2 w * (L / 2 * (norm2 d * norm2 d))).
  { rewrite norm2_sq. unfold sqnorm. assert (Ew : dot w w = dot w (res y) - dot w (res x) - dot w (mvec (jac x) d)). { unfold w at 2. rewrite !dot_vsub_r. reflexivity. }
    rewrite Ew. lra. }
  apply le_of_sq_le; [exact Pw| |exact K]. apply Rmult_le_pos; [lra|apply Rmult_le_pos; assumption].
Qed.
(** mean-value bound *)
Lemma residual_lipschitz m n res jac B (x y : vec) : residual_shapes m n res jac -> is_jacobian m n res jac -> length x = n -> length y = n -> 0 <= B ->
  (forall t, 0 <= t <= 1 -> norm2 (mvec (jac (vadd x (smul t (vsub y x)))) (vsub y x)) <= B * norm2 (vsub y x)) ->
  norm2 (vsub (res y) (res x)) <= B * norm2 (vsub y x).
Proof.
  intros HS HJ Lx Ls PB HB. destruct (HS x Lx) as [Lr HM]. destruct (HS y Ls) as [Lrs HMs].
  set (d := vsub y x) in *. assert (Ld : length d = n) by (unfold d; rewrite vsub_length; unfold vec in *; lia).
  set (w := vsub (res y) (res x)). assert (Lw : length w = m) by (unfold w; rewrite !vsub_length; unfold vec in *; lia).
  pose proof (norm2_nonneg w) as Pw. pose proof (norm2_nonneg d) as Pd.
  set (z := fun t => vadd x (smul t d)) in *. assert (Lz : forall t, length (z t) = n) by (intros t; unfold z; rewrite vadd_length, smul_length; unfold vec in *; lia).
  destruct (MVT_cor2 (fun t => dot w (res (z t))) (fun t => dot w (mvec (jac (z t)) d)) 0 1 Rlt_0_1 ltac:(intros c _; exact (HJ x d w c Lx Ld Lw))) as (c & E & Hc).
  assert (E1 : z 1 = y).
  { apply vec_ext; [rewrite Lz; unfold vec in *; lia|]. intros i Hi. unfold z, d. rewrite nth_vadd, nth_smul, nth_vsub. ring. }
  assert (E0 : z 0 = x).
  { apply vec_ext; [rewrite Lz; unfold vec in *; lia|]. intros i Hi. unfold z, d. rewrite nth_vadd, nth_smul, nth_vsub. ring. }
  rewrite E1, E0 in E. apply le_of_sq_le; [exact Pw|apply Rmult_le_pos; assumption|]. rewrite norm2_sq. unfold sqnorm.
  assert (Ew : dot w w = dot w (res y) - dot w (res x)) by (unfold w at 2; rewrite dot_vsub_r; reflexivity). rewrite Ew, E.
  specialize (HB c ltac:(lra)). fold (z c) in HB. pose proof (dot_le_norm w (mvec (jac (z c)) d)) as CS.
  assert (Q : norm2 w * norm2 (mvec (jac (z c)) d) <= norm2 w * (B * norm2 d)) by (apply Rmult_le_compat_l; assumption). lra.
Qed.
Section GN.
Variables (m n : nat) (res : vec -> vec) (jac : vec -> mat) (xs : vec) (rho s L : R).
Hypothesis HP : gn_problem m n res jac xs rho s L.

Lemma near_self : near n xs rho xs.
Proof.
  split; [apply (gp_len _ _ _ _ _ _ _ _ HP)|]. rewrite vsub_self. assert (E : norm2 (vzero (length xs)) = 0) by (apply norm2_zero_iff; rewrite vzero_length; reflexivity).
  rewrite E. left. apply (gp_rho _ _ _ _ _ _ _ _ HP).
Qed.
Lemma near_rank x : near n xs rho x -> full_column_rank m n (jac x).
Proof.
  intros Hx. destruct (gp_shapes _ _ _ _ _ _ _ _ HP x (proj1 Hx)) as [_ HM]. split; [exact HM|]. intros v Hv E.
  pose proof (gp_rank _ _ _ _ _ _ _ _ HP x v Hx Hv) as B. rewrite E in B. assert (Z : norm2 (vzero m) = 0) by (apply norm2_zero_iff; rewrite vzero_length; reflexivity).
  rewrite Z in B. assert (N : norm2 v = 0). { pose proof (norm2_nonneg v). pose proof (gp_s _ _ _ _ _ _ _ _ HP). destruct (Req_dec (norm2 v) 0); [assumption|]. exfalso. assert (0 < s * norm2 v) by (apply Rmult_lt_0_compat; lra). lra. }
  apply norm2_zero_iff in N. rewrite N, Hv. reflexivity.
Qed.
(** the linearisation error at x of the residual at the solution *)
Definition lin_err (x : vec) : vec := vsub (vsub (res xs) (res x)) (mvec (jac x) (vsub xs x)).
Lemma lin_err_bound x : near n xs rho x -> norm2 (lin_err x) <= L / 2 * (norm2 (vsub x xs) * norm2 (vsub x xs)).
Proof.
  intros Hx. pose proof (gp_len _ _ _ _ _ _ _ _ HP) as Ls. pose proof (proj1 Hx) as Lx. rewrite (norm_sub_comm x xs) by (unfold vec in *; lia).
  apply (linearisation_bound m n); [apply (gp_shapes _ _ _ _ _ _ _ _ HP)|apply (gp_jac _ _ _ _ _ _ _ _ HP)|exact Lx|exact Ls|apply (gp_L _ _ _ _ _ _ _ _ HP)|].
  intros t Ht. set (d := vsub xs x). assert (Ld : length d = n) by (unfold d; rewrite vsub_length; unfold vec in *; lia). set (z := vadd x (smul t d)).
  assert (Lz : length z = n) by (unfold z; rewrite vadd_length, smul_length; unfold vec in *; lia).
  assert (Hz : near n xs rho z).
  { split; [exact Lz|]. replace (vsub z xs) with (smul (1 - t) (vsub x xs)); [rewrite norm2_smul, Rabs_pos_eq by lra; destruct Hx as [_ Hx]; pose proof (norm2_nonneg (vsub x xs)); nra|].
    apply vec_ext; [rewrite smul_length, !vsub_length, Lz; unfold vec in *; lia|]. intros i Hi. unfold z, d. rewrite nth_smul, !nth_vsub, nth_vadd, nth_smul, nth_vsub. ring. }
  assert (Hdiff : norm2 (vsub z x) = t * norm2 d).
  { replace (vsub z x) with (smul t d); [rewrite norm2_smul, Rabs_pos_eq by lra; reflexivity|].
    apply vec_ext; [rewrite smul_length, vsub_length, Lz; unfold vec in *; lia|]. intros i Hi. unfold z. rewrite nth_smul, nth_vsub, nth_vadd, nth_smul. ring. }
  pose proof (gp_lip _ _ _ _ _ _ _ _ HP z x d Hz Hx Ld) as HL. rewrite Hdiff in HL. exact HL.
Qed.
(** one step *)
Lemma gn_step_bound cg x st : exact_on_positive cg -> near n xs rho x ->
  let x' := fst (gn_update cg n res jac (x, st)) in length x' = n /\
  gn_error (snd (gn_update cg n res jac (x, st))) = Fin (norm2 (vsub x x')) /\
  norm2 (vsub x' xs) <= gn_rate s L (norm2 (res xs)) (norm2 (vsub x xs)) * norm2 (vsub x xs).
Proof.
  intros HE Hx. pose proof (gp_len _ _ _ _ _ _ _ _ HP) as Ls. pose proof (proj1 Hx) as Lx. destruct (gp_shapes _ _ _ _ _ _ _ _ HP x Lx) as [Lr HM]. destruct (gp_shapes _ _ _ _ _ _ _ _ HP xs Ls) as [Lrs HMs].
  pose proof (gp_L _ _ _ _ _ _ _ _ HP) as PL. pose proof (gp_s _ _ _ _ _ _ _ _ HP) as Ps.
  destruct (gn_step cg m n res jac x st HE (gp_shapes _ _ _ _ _ _ _ _ HP) Lx (near_rank x Hx)) as (d & Ld & Ed & ->). cbn [fst snd gn_error].
  set (x' := vsub x d). assert (Lx' : length x' = n) by (unfold x'; rewrite vsub_length; unfold vec in *; lia). split; [exact Lx'|]. split.
  { do 2 f_equal. apply vec_ext; [rewrite vsub_length; unfold vec in *; lia|]. intros i Hi. unfold x'. rewrite !nth_vsub. ring. }
  set (u := vsub x' xs). assert (Lu : length u = n) by (unfold u; rewrite vsub_length; unfold vec in *; lia).
  set (dl := norm2 (vsub x xs)). set (e := lin_err x). set (Ju := mvec (jac x) u). set (rs := res xs).
  pose proof (lin_err_bound x Hx) as Be. fold dl e in Be.
  assert (K1 : dot Ju Ju = dot Ju e - dot Ju rs).
  { assert (A : dot Ju (mvec (jac x) d) = dot Ju (res x)). { unfold Ju. rewrite (dot_comm (mvec (jac x) u)), (dot_comm (mvec (jac x) u) (res x)), <- !(dot_tvec n) by exact HM. rewrite Ed. reflexivity. }
    unfold e, lin_err. fold rs. rewrite !dot_vsub_r.
    assert (B : dot Ju Ju = dot Ju (mvec (jac x) (vsub x xs)) - dot Ju (mvec (jac x) d)).
    { unfold Ju at 2. rewrite <- dot_vsub_r, <- mvec_vsub. do 2 f_equal. apply vec_ext; [rewrite !vsub_length; unfold vec in *; lia|]. intros i Hi. unfold u, x'. rewrite !nth_vsub. ring. }
    assert (C : dot Ju (mvec (jac x) (vsub xs x)) = - dot Ju (mvec (jac x) (vsub x xs))) by (rewrite !mvec_vsub, !dot_vsub_r; ring). lra. }
  assert (K2 : - dot Ju rs <= L * dl * norm2 u * norm2 rs).
  { assert (Z : dot (mvec (jac xs) u) rs = 0). { rewrite dot_comm, <- (dot_tvec n) by exact HMs. pose proof (gp_stationary _ _ _ _ _ _ _ _ HP) as G. unfold gn_optimality, jt_op in G. unfold rs. rewrite G. apply dot_vzero_l. }
    assert (A : - dot Ju rs = dot (vsub (mvec (jac xs) u) Ju) rs) by (rewrite dot_vsub_l; rewrite Z; ring). rewrite A.
    pose proof (dot_le_norm (vsub (mvec (jac xs) u) Ju) rs) as CS. pose proof (gp_lip _ _ _ _ _ _ _ _ HP xs x u near_self Hx Lu) as HL. fold Ju in HL. rewrite (norm_sub_comm xs x) in HL by (unfold vec in *; lia). fold dl in HL.
    eapply Rle_trans; [exact CS|]. apply Rmult_le_compat_r; [apply norm2_nonneg|exact HL]. }
  pose proof (dot_le_norm Ju e) as K3. pose proof (gp_rank _ _ _ _ _ _ _ _ HP x u Hx Lu) as K4. fold Ju in K4.
  pose proof (norm2_nonneg u) as Pu. pose proof (norm2_nonneg Ju) as PJ. pose proof (norm2_nonneg e) as Pe. pose proof (norm2_nonneg rs) as Prs. assert (Pdl : 0 <= dl) by apply norm2_nonneg.
  assert (Pc : 0 <= L * dl * norm2 rs) by (repeat apply Rmult_le_pos; assumption).
  assert (K5 : norm2 Ju <= norm2 e + L * dl * norm2 rs / s).
  { apply le_of_sq_le; [exact PJ|apply Rplus_le_le_0_compat; [exact Pe|apply Rmult_le_pos; [exact Pc|left; apply Rinv_0_lt_compat; exact Ps]]|].
    rewrite norm2_sq. unfold sqnorm. rewrite K1.
    assert (Q : norm2 u <= norm2 Ju / s). { apply Rmult_le_reg_l with s; [exact Ps|]. replace (s * (norm2 Ju / s)) with (norm2 Ju) by (field; lra). exact K4. }
    assert (Q2 : L * dl * norm2 u * norm2 rs <= norm2 Ju * (L * dl * norm2 rs / s)).
    { replace (L * dl * norm2 u * norm2 rs) with ((L * dl * norm2 rs) * norm2 u) by ring. replace (norm2 Ju * (L * dl * norm2 rs / s)) with ((L * dl * norm2 rs) * (norm2 Ju / s)) by (unfold Rdiv; ring). apply Rmult_le_compat_l; assumption. }
    lra. }
  apply Rmult_le_reg_l with s; [exact Ps|]. unfold gn_rate.
  replace (s * ((L / (2 * s) * dl + L * norm2 rs / (s * s)) * dl)) with (L / 2 * (dl * dl) + L * dl * norm2 rs / s) by (field; lra). lra.
Qed.
Lemma gn_rate_mono e d d' : 0 <= d <= d' -> gn_rate s L e d <= gn_rate s L e d'.
Proof.
  intros H. unfold gn_rate. apply Rplus_le_compat_r. apply Rmult_le_compat_l; [|lra]. pose proof (gp_L _ _ _ _ _ _ _ _ HP). pose proof (gp_s _ _ _ _ _ _ _ _ HP).
  apply Rmult_le_pos; [lra|left; apply Rinv_0_lt_compat; lra].
Qed.
Lemma gn_rate_nonneg e d : 0 <= e -> 0 <= d -> 0 <= gn_rate s L e d.
Proof.
  intros He Hd. unfold gn_rate. pose proof (gp_L _ _ _ _ _ _ _ _ HP). pose proof (gp_s _ _ _ _ _ _ _ _ HP).
  assert (0 <= L / (2 * s)) by (apply Rmult_le_pos; [lra|left; apply Rinv_0_lt_compat; lra]).
  assert (0 <= L * e / (s * s)) by (apply Rmult_le_pos; [apply Rmult_le_pos; assumption|left; apply Rinv_0_lt_compat; nra]).
  assert (0 <= L / (2 * s) * d) by (apply Rmult_le_pos; assumption). lra.
Qed.
(** contraction along the iterates *)
Lemma gn_decay cg x0 k : exact_on_positive cg -> near n xs rho x0 -> gn_rate s L (norm2 (res xs)) (norm2 (vsub x0 xs)) < 1 ->
  let q := gn_rate s L (norm2 (res xs)) (norm2 (vsub x0 xs)) in let xk := gn_iterate cg n res jac x0 k in
  near n xs rho xk /\ norm2 (vsub xk xs) <= q ^ k * norm2 (vsub x0 xs) /\ norm2 (vsub xk xs) <= norm2 (vsub x0 xs).
Proof.
  intros HE H0 Hq q. pose proof (norm2_nonneg (vsub x0 xs)) as P0. pose proof (gn_rate_nonneg (norm2 (res xs)) _ (norm2_nonneg _) P0) as Pq. fold q in Pq, Hq.
  induction k as [|k IH]; [cbv zeta; change (gn_iterate cg n res jac x0 0) with x0; split; [exact H0|split; [rewrite pow_O|]; lra]|]. cbv zeta in IH. destruct IH as (N & D & M). cbv zeta.
  assert (Es : gn_iterate cg n res jac x0 (S k) = fst (gn_update cg n res jac (gn_iterate cg n res jac x0 k, snd (Nat.iter k (gn_update cg n res jac) (x0, gn_init_state n res jac x0))))).
  { unfold gn_iterate. simpl Nat.iter. f_equal. f_equal. destruct (Nat.iter k _ _); reflexivity. }
  destruct (gn_step_bound cg _ (snd (Nat.iter k (gn_update cg n res jac) (x0, gn_init_state n res jac x0))) HE N) as (L' & _ & B). rewrite <- Es in L', B.
  set (xk := gn_iterate cg n res jac x0 k) in *. set (x1 := gn_iterate cg n res jac x0 (S k)) in *.
  pose proof (norm2_nonneg (vsub xk xs)) as Pk. pose proof (gn_rate_mono (norm2 (res xs)) (norm2 (vsub xk xs)) (norm2 (vsub x0 xs)) (conj Pk M)) as Rm. fold q in Rm.
  assert (B2 : norm2 (vsub x1 xs) <= q * norm2 (vsub xk xs)) by (eapply Rle_trans; [exact B|apply Rmult_le_compat_r; assumption]).
  assert (B3 : q * norm2 (vsub xk xs) <= 1 * norm2 (vsub xk xs)) by (apply Rmult_le_compat_r; lra).
  split; [split; [exact L'|destruct N as [_ N]; lra]|]. split; [|lra]. simpl pow. rewrite Rmult_assoc. eapply Rle_trans; [exact B2|]. apply Rmult_le_compat_l; assumption.
Qed.
End GN.
