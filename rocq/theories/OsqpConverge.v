(** Convergence of BoxOSQP with a constant step size: the ADMM step as an averaged operator. *)
From Coq Require Import Reals List Lra Lia Bool Arith.
From Verif Require Import Prelude Vec Mat XArith Loop Run Osqp OsqpProofs.
Import ListNotations.
Open Scope R_scope.

(** z + y/rho *)
Definition zy (r : R) (z y : vec) : vec := vadd z (smul (1 / r) y).
(** distance to a primal-dual solution *)
Definition potential (sig r : R) (A : mat) (x z y xs ys : vec) : R := sig * dist2 x xs + r * dist2 (zy r z y) (zy r (mvec A xs) ys).
Lemma dist2_step x d t b : dist2 (vadd x (smul t d)) b = dist2 x b + 2 * t * dot d (vsub x b) + t * t * dot d d.
Proof. vring. Qed.
Lemma dist2_norm x y : dist2 x y = norm2 (vsub x y) * norm2 (vsub x y).
Proof. rewrite norm2_sq. reflexivity. Qed.
(** sum of the norms of the rows *)
Definition rows_norm (M : mat) : R := fold_right (fun r s => norm2 r + s) 0 M.
Lemma rows_norm_nonneg M : 0 <= rows_norm M.
Proof. induction M as [|r M IH]; simpl; [lra|]. assert (N := norm2_nonneg r). lra. Qed.
Lemma rows_norm_nth M i : norm2 (nth i M []) <= rows_norm M.
Proof.
  revert i. induction M as [|r M IH]; intros [|i]; simpl; try (unfold norm2; simpl; rewrite sqrt_0; lra).
  - assert (N := rows_norm_nonneg M). lra.
  - specialize (IH i). assert (N := norm2_nonneg r). lra.
Qed.
Lemma mvec_entry_bound M v i : Rabs (nth i (mvec M v) 0) <= rows_norm M * norm2 v.
Proof.
  rewrite nth_mvec. eapply Rle_trans; [apply dot_abs_le_norm|]. apply Rmult_le_compat_r; [apply norm2_nonneg|apply rows_norm_nth].
Qed.
Lemma entry_bound v i : Rabs (nth i v 0) <= norm2 v.
Proof.
  destruct (lt_dec i (length v)) as [H|H].
  - rewrite <- (dot_unit_vec (length v) i v eq_refl H). eapply Rle_trans; [apply dot_abs_le_norm|].
    assert (E : norm2 (unit_vec (length v) i) = 1).
    { unfold norm2. rewrite dot_unit_vec, nth_unit_vec by (try apply unit_vec_length; exact H). destruct (Nat.eq_dec i i); [apply sqrt_1|congruence]. }
    rewrite E. lra.
  - rewrite nth_overflow by lia. rewrite Rabs_R0. apply norm2_nonneg.
Qed.
Lemma inf_norm_le v e b : is_inf_norm v e -> (forall i, (i < length v)%nat -> Rabs (nth i v 0) <= b) -> e <= b.
Proof. intros [_ (i & Hi & ->)] H. apply H. exact Hi. Qed.

Section Conv.
Variables (m n : nat) (Q : mat) (c : vec) (A : mat) (l u : xvec) (sig alpha r : R).
Hypothesis HP : qp_problem m n Q c A l u.
Let HA := qp_A _ _ _ _ _ _ _ HP.
Let HQ := qp_Q _ _ _ _ _ _ _ HP.
Hypothesis Hr : 0 < r.
Hypothesis Hsig : 0 < sig.
Hypothesis Hal : 0 < alpha < 2.
(** one exact ADMM step from (x, z, y), with s the solution of the linear system *)
Record exact_step (x z y s x' z' y' : vec) : Prop := {
  es_s : length s = n;
  es_lin : vadd (vadd (mvec Q s) (smul sig s)) (smul r (tvec n A (mvec A s))) = vsub (vsub (smul sig x) c) (tvec n A (vadd y (smul (- r) z)));
  es_x : x' = vadd x (smul alpha (vsub s x));
  es_box : in_box l u z';
  es_normal : normal_to_box l u y' z';
  es_v : zy r z' y' = vadd (zy r z y) (smul alpha (vsub (mvec A s) z))
}.
Lemma monotone_normal y z y' z' : in_box l u z -> in_box l u z' -> normal_to_box l u y z -> normal_to_box l u y' z' -> 0 <= dot (vsub y y') (vsub z z').
Proof.
  intros I1 I2 [_ N1] [_ N2]. specialize (N1 z' I2). specialize (N2 z I1). rewrite dot_vsub_r in N1, N2. rewrite dot_vsub_l, !dot_vsub_r. lra.
Qed.
Lemma lyapunov x z y s x' z' y' xs ys : exact_step x z y s x' z' y' -> length x = n -> in_box l u z -> normal_to_box l u y z -> qp_kkt n Q c A l u xs ys ->
  potential sig r A x' z' y' xs ys + alpha * (2 - alpha) * (sig * dot (vsub s x) (vsub s x) + r * dot (vsub (mvec A s) z) (vsub (mvec A s) z)) <= potential sig r A x z y xs ys.
Proof.
  intros [Ls El -> Hb Hn Ev] Lx Iz Ny (Lxs & If & Ns & Es). unfold potential. rewrite Ev, !dist2_step. unfold qp_feasible in If.
  set (D := vsub s x). set (E := vsub (mvec A s) z). set (zs := mvec A xs) in *. set (e := vsub s xs).
  assert (M := monotone_normal y z ys zs Iz If Ny Ns).
  assert (P : 0 <= dot e (mvec Q e)) by (apply (qp_psd _ _ _ _ _ _ _ HP); unfold e; apply vsub_length_eq; assumption).
  assert (K1 := f_equal (fun v => dot v e) El). cbv beta in K1. assert (K2 := f_equal (fun v => dot v e) Es). cbv beta in K2.
  rewrite ?dot_vadd_l, ?dot_vsub_l, ?dot_smul_l, ?dot_vadd_l, ?dot_tvec, ?dot_vzero_l, ?dot_vadd_l, ?dot_smul_l in K1.
  rewrite ?dot_vadd_l, ?dot_tvec, ?dot_vzero_l in K2.
  assert (Ee : mvec A e = vsub (mvec A s) zs) by (unfold e; apply mvec_vsub).
  assert (Eq : dot e (mvec Q e) = dot (mvec Q s) e - dot (mvec Q xs) e) by (rewrite dot_comm; unfold e at 1; rewrite mvec_vsub, dot_vsub_l; reflexivity).
  rewrite Ee in K1, K2.
  assert (K3 : sig * dot D e + dot (vsub y ys) (vsub (mvec A s) zs) + r * dot E (vsub (mvec A s) zs) <= 0).
  { unfold D, E. rewrite !dot_vsub_l. rewrite Eq in P. lra. }
  assert (K4 : sig * dot D (vsub x xs) = sig * dot D e - sig * dot D D) by (unfold D, e; vring).
  assert (K5 : r * dot E (vsub (zy r z y) (zy r zs ys)) = r * dot E (vsub z zs) + dot E (vsub y ys)).
  { unfold zy. rewrite !dot_vsub_r, !dot_vadd_r, !dot_smul_r. field. lra. }
  assert (K6 : r * dot E (vsub (mvec A s) zs) = r * dot E (vsub z zs) + r * dot E E) by (unfold E at 4; rewrite !dot_vsub_r; ring).
  assert (K7 : dot (vsub y ys) (vsub (mvec A s) zs) = dot E (vsub y ys) + dot (vsub y ys) (vsub z zs)).
  { unfold E. rewrite (dot_comm (vsub (mvec A s) z) (vsub y ys)). rewrite !dot_vsub_r. ring. }
  assert (K8 : sig * dot D (vsub x xs) + r * dot E (vsub (zy r z y) (zy r zs ys)) <= - (sig * dot D D + r * dot E E)) by (rewrite K4, K5; lra).
  assert (K9 : alpha * (sig * dot D (vsub x xs) + r * dot E (vsub (zy r z y) (zy r zs ys))) <= alpha * - (sig * dot D D + r * dot E E)) by (apply Rmult_le_compat_l; lra).
  lra.
Qed.
Lemma nonexpansive x z y s x' z' y' : exact_step x z y s x' z' y' -> in_box l u z -> normal_to_box l u y z ->
  norm2 (vsub z' z) <= alpha * norm2 (vsub (mvec A s) z) /\ norm2 (vsub y' y) <= r * (alpha * norm2 (vsub (mvec A s) z)).
Proof.
  intros [Ls El Ex Hb Hn Ev] Iz Ny. assert (M := monotone_normal y' z' y z Hb Iz Hn Ny).
  assert (Lz : length z = m) by (destruct Iz as [L _]; rewrite L; apply (qp_l _ _ _ _ _ _ _ HP)). assert (Lz' : length z' = m) by (destruct Hb as [L _]; rewrite L; apply (qp_l _ _ _ _ _ _ _ HP)).
  assert (Ly : length y = m) by (destruct Ny as [L _]; rewrite L; exact Lz). assert (Ly' : length y' = m) by (destruct Hn as [L _]; rewrite L; exact Lz').
  assert (La : length (mvec A s) = m) by (rewrite mvec_length; apply HA).
  assert (Ed : smul alpha (vsub (mvec A s) z) = vadd (vsub z' z) (smul (1 / r) (vsub y' y))).
  { apply vec_eq_dot; [rewrite ?smul_length, ?vadd_length, ?smul_length, ?vsub_length; unfold vec in *; lia|]. intros w. assert (K := f_equal (fun v => dot v w) Ev). cbv beta in K. unfold zy in K.
    autorewrite with vec in K. autorewrite with vec. lra. }
  assert (Sq : alpha * alpha * dot (vsub (mvec A s) z) (vsub (mvec A s) z) = dot (vsub z' z) (vsub z' z) + 2 / r * dot (vsub y' y) (vsub z' z) + 1 / r * (1 / r) * dot (vsub y' y) (vsub y' y)).
  { assert (K := f_equal (fun v => dot v v) Ed). cbv beta in K. rewrite dot_smul_l, dot_smul_r in K. rewrite <- Rmult_assoc in K. rewrite K.
    rewrite dot_vadd_l, !dot_vadd_r, !dot_smul_l, !dot_smul_r. rewrite (dot_comm (vsub z' z) (vsub y' y)). field. lra. }
  assert (C : 0 <= 2 / r * dot (vsub y' y) (vsub z' z)) by (apply Rmult_le_pos; [apply Rlt_le, Rdiv_lt_0_compat; lra|exact M]).
  assert (S1 := dot_self_nonneg (vsub z' z)). assert (S2 := dot_self_nonneg (vsub y' y)).
  assert (I1 : 0 < 1 / r) by (apply Rdiv_lt_0_compat; lra). assert (I2 : 0 <= 1 / r * (1 / r) * dot (vsub y' y) (vsub y' y)) by (apply Rmult_le_pos; [apply Rlt_le, Rmult_lt_0_compat; assumption|exact S2]).
  assert (N := norm2_nonneg (vsub (mvec A s) z)). assert (Sn := norm2_sq (vsub (mvec A s) z)).
  split.
  - apply norm2_le_sq; [apply Rmult_le_pos; lra|]. replace (alpha * norm2 (vsub (mvec A s) z) * (alpha * norm2 (vsub (mvec A s) z))) with (alpha * alpha * (norm2 (vsub (mvec A s) z) * norm2 (vsub (mvec A s) z))) by ring. rewrite Sn. lra.
  - apply norm2_le_sq; [repeat apply Rmult_le_pos; lra|].
    replace (r * (alpha * norm2 (vsub (mvec A s) z)) * (r * (alpha * norm2 (vsub (mvec A s) z)))) with (r * r * (alpha * alpha * (norm2 (vsub (mvec A s) z) * norm2 (vsub (mvec A s) z)))) by ring. rewrite Sn.
    replace (dot (vsub y' y) (vsub y' y)) with (r * r * (1 / r * (1 / r) * dot (vsub y' y) (vsub y' y))) by (field; lra). apply Rmult_le_compat_l; [nra|]. lra.
Qed.
(** the residuals are bounded by the displacements *)
Definition res_const : R := 3 + alpha + (1 + alpha) * rows_norm A + sig + (1 + alpha) * rows_norm Q + rows_norm (mtrans n A) * (r * (1 + alpha)).
Lemma res_const_pos : 0 < res_const.
Proof.
  unfold res_const. assert (N1 := rows_norm_nonneg A). assert (N2 := rows_norm_nonneg Q). assert (N3 := rows_norm_nonneg (mtrans n A)).
  assert (0 <= (1 + alpha) * rows_norm A) by (apply Rmult_le_pos; lra). assert (0 <= (1 + alpha) * rows_norm Q) by (apply Rmult_le_pos; lra).
  assert (0 <= rows_norm (mtrans n A) * (r * (1 + alpha))) by (apply Rmult_le_pos; [lra|apply Rmult_le_pos; lra]). lra.
Qed.
Lemma residual_bound x z y s x' z' y' : exact_step x z y s x' z' y' -> length x = n -> in_box l u z -> normal_to_box l u y z ->
  (forall i, Rabs (nth i (vsub (mvec A x') z') 0) <= res_const * (norm2 (vsub s x) + norm2 (vsub (mvec A s) z))) /\
  (forall i, Rabs (nth i (vadd (vadd (mvec Q x') c) (tvec n A y')) 0) <= res_const * (norm2 (vsub s x) + norm2 (vsub (mvec A s) z))).
Proof.
  intros HS Lx Iz Ny. destruct (nonexpansive _ _ _ _ _ _ _ HS Iz Ny) as [B1 B2]. destruct HS as [Ls El Ex Hb Hn Ev].
  assert (Lz : length z = m) by (destruct Iz as [L _]; rewrite L; apply (qp_l _ _ _ _ _ _ _ HP)). assert (Lz' : length z' = m) by (destruct Hb as [L _]; rewrite L; apply (qp_l _ _ _ _ _ _ _ HP)).
  assert (Ly : length y = m) by (destruct Ny as [L _]; rewrite L; exact Lz). assert (Ly' : length y' = m) by (destruct Hn as [L _]; rewrite L; exact Lz').
  assert (La : length (mvec A s) = m) by (rewrite mvec_length; apply HA). assert (Lc := qp_c _ _ _ _ _ _ _ HP).
  set (D := vsub s x) in *. set (E := vsub (mvec A s) z) in *. assert (LE : length E = m) by (unfold E; apply vsub_length_eq; assumption).
  assert (ND := norm2_nonneg D). assert (NE := norm2_nonneg E).
  assert (N1 := rows_norm_nonneg A). assert (N2 := rows_norm_nonneg Q). assert (N3 := rows_norm_nonneg (mtrans n A)).
  assert (Hc1 : 0 <= (1 + alpha) * rows_norm A) by (apply Rmult_le_pos; lra). assert (Hc2 : 0 <= (1 + alpha) * rows_norm Q) by (apply Rmult_le_pos; lra).
  assert (Hc3 : 0 <= rows_norm (mtrans n A) * (r * (1 + alpha))) by (apply Rmult_le_pos; [lra|apply Rmult_le_pos; lra]).
  assert (Hal1 : Rabs (alpha - 1) <= 1 + alpha) by (apply Rabs_le; lra).
  split; intros i.
  - assert (Eq : vsub (mvec A x') z' = vsub (vadd E (smul (alpha - 1) (mvec A D))) (vsub z' z)).
    { apply vec_eq_dot; [rewrite ?vsub_length, ?vadd_length, ?smul_length, ?vsub_length, ?mvec_length; unfold mat, vec in *; destruct HA as [H _]; unfold mat, vec in *; lia|]. intros w.
      rewrite Ex. unfold E, D. rewrite ?dot_vsub_l, ?dot_vadd_l, ?dot_smul_l, ?dot_vsub_l, ?mvec_vadd, ?mvec_smul, ?mvec_vsub, ?dot_vadd_l, ?dot_smul_l, ?dot_vsub_l. ring. }
    rewrite Eq, nth_vsub, nth_vadd, nth_smul.
    assert (T1 := entry_bound E i). assert (T2 := mvec_entry_bound A D i). assert (T3 := entry_bound (vsub z' z) i).
    assert (T4 : Rabs ((alpha - 1) * nth i (mvec A D) 0) <= (1 + alpha) * rows_norm A * norm2 D).
    { rewrite Rabs_mult, Rmult_assoc. apply Rmult_le_compat; try apply Rabs_pos; assumption. }
    eapply Rle_trans; [apply Rabs_triang|]. rewrite Rabs_Ropp. eapply Rle_trans; [apply Rplus_le_compat_r; apply Rabs_triang|]. unfold res_const. nra.
  - assert (Eq : vadd (vadd (mvec Q x') c) (tvec n A y') = vadd (vadd (smul (- sig) D) (smul (alpha - 1) (mvec Q D))) (mvec (mtrans n A) (vsub (vsub y' y) (smul r E)))).
    { rewrite (mvec_mtrans m) by (try exact HA; rewrite !vsub_length, smul_length; unfold vec in *; lia).
      apply vec_eq_dot; [rewrite ?vadd_length, ?smul_length, ?(tvec_length m), ?mvec_length by exact HA; unfold D; rewrite ?vsub_length; destruct HQ as [H _]; unfold mat, vec in *; lia|]. intros w.
      assert (K := f_equal (fun v => dot v w) El). cbv beta in K.
      rewrite ?dot_vadd_l, ?dot_vsub_l, ?dot_smul_l, ?dot_vadd_l, ?dot_tvec, ?dot_vadd_l, ?dot_smul_l in K.
      rewrite Ex. unfold D, E. rewrite ?mvec_vadd, ?mvec_smul, ?mvec_vsub. rewrite ?dot_vadd_l, ?dot_tvec, ?dot_smul_l, ?dot_vsub_l, ?dot_smul_l, ?dot_vsub_l. lra. }
    rewrite Eq, !nth_vadd, !nth_smul.
    assert (T1 := entry_bound D i). assert (T2 := mvec_entry_bound Q D i). assert (T3 := mvec_entry_bound (mtrans n A) (vsub (vsub y' y) (smul r E)) i).
    assert (T4 : Rabs ((alpha - 1) * nth i (mvec Q D) 0) <= (1 + alpha) * rows_norm Q * norm2 D).
    { rewrite Rabs_mult, Rmult_assoc. apply Rmult_le_compat; try apply Rabs_pos; assumption. }
    assert (T5 : Rabs (- sig * nth i D 0) <= sig * norm2 D) by (rewrite Rabs_mult, Rabs_Ropp, (Rabs_pos_eq sig) by lra; apply Rmult_le_compat_l; lra).
    assert (T6 : norm2 (vsub (vsub y' y) (smul r E)) <= r * (1 + alpha) * norm2 E).
    { rewrite vsub_as_vadd. eapply Rle_trans; [apply norm2_triangle|]. rewrite smul_smul, norm2_smul. replace (Rabs (-1 * r)) with r by (rewrite Rabs_left; lra). lra. }
    assert (T7 : rows_norm (mtrans n A) * norm2 (vsub (vsub y' y) (smul r E)) <= rows_norm (mtrans n A) * (r * (1 + alpha)) * norm2 E) by (rewrite Rmult_assoc; apply Rmult_le_compat_l; [lra|exact T6]).
    eapply Rle_trans; [apply Rabs_triang|]. eapply Rle_trans; [apply Rplus_le_compat_r; apply Rabs_triang|]. unfold res_const. nra.
Qed.
End Conv.

Section Model.
Variables (m n : nat) (Q : mat) (c : vec) (A : mat) (l u : xvec) (eps_div : R) (lin_solve : xnum -> xvec -> xvec -> xvec) (cfg : osqp_config).
Hypothesis HP : qp_problem m n Q c A l u.
Hypothesis HE : lin_exact n Q A (sigma cfg) lin_solve.
Let HA := qp_A _ _ _ _ _ _ _ HP.
Let HQ := qp_Q _ _ _ _ _ _ _ HP.
Lemma admm_exact p ss r x z y : 0 < r -> finite_params m n p x z y -> ss_rho ss = Fin r ->
  exists s x' z' y', admm_step n c A l u lin_solve cfg p (Fin r) ss = (fin x', fin z', fin y', {| ss_prev := fin s; ss_rho := Fin r |}) /\
    length x' = n /\ length z' = m /\ length y' = m /\ exact_step n Q c A l u (sigma cfg) (momentum cfg) r x z y s x' z' y'.
Proof.
  intros Hr (Ex & Ez & Ey & Lx & Lz & Ly) Es. assert (La := proj1 HA). assert (Lc := qp_c _ _ _ _ _ _ _ HP). assert (Ll := qp_l _ _ _ _ _ _ _ HP).
  set (b := vsub (vsub (smul (sigma cfg) x) c) (tvec n A (vadd y (smul (- r) z)))).
  assert (Lb : length b = n) by (unfold b; rewrite !vsub_length, smul_length, (tvec_length m) by exact HA; unfold vec in *; lia).
  destruct (HE r (ss_prev ss) b Hr Lb) as (s & Esol & Ls & Elin).
  set (zm := vadd z (smul (momentum cfg) (vsub (mvec A s) z))).
  assert (Lzm : length zm = m) by (unfold zm; rewrite vadd_length, smul_length, vsub_length, mvec_length; unfold mat, vec in *; lia).
  destruct (box_clip_fin l u (vadd zm (smul (1 / r) y)) (bounds_fine _ _ _ _ _ _ _ HP)) as (z' & Ec & _ & _); [rewrite vadd_length, smul_length; unfold xvec, vec in *; lia|].
  assert (EN : exists y', xvadd (fin y) (xsmul (Fin r) (xvsub (fin zm) (fin z'))) = fin y') by (rewrite xvsub_fin, xsmul_fin, xvadd_fin; eexists; reflexivity). destruct EN as (y' & EN).
  assert (Ec' : box_clip (xvadd (fin zm) (xsmul (xdivx (Fin 1) (Fin r)) (fin y))) l u = fin z') by (rewrite xdiv1, xsmul_fin, xvadd_fin by exact Hr; exact Ec).
  destruct (normal_step m n Q c A l u HP (fin zm) (fin y) r y') as (y0 & zm0 & z0 & E1 & E2 & E3 & E4 & HI & HN); [rewrite fin_length; exact Lzm|rewrite fin_length; exact Ly|exact Hr|rewrite Ec'; exact EN|].
  rewrite Ec' in E3. apply fin_inj in E1. apply fin_inj in E2. apply fin_inj in E3. subst y0 zm0 z0.
  assert (Lz' : length z' = m) by (destruct HI as [L _]; congruence). assert (Ly' : length y' = m) by (destruct HN as [L _]; congruence).
  exists s, (vadd x (smul (momentum cfg) (vsub s x))), z', y'. split.
  - unfold admm_step. cbv zeta. rewrite Ex, Ez, Ey, Es.
    assert (Erhs : linear_rhs n c A cfg (fin x) (fin z) (fin y) (Fin r) = fin b).
    { unfold linear_rhs. cbv zeta. change (xopp (Fin r)) with (Fin (- r)). rewrite !xsmul_fin, xvsub_fin, xvadd_fin, xtvec_fin, xvsub_fin. reflexivity. }
    rewrite Erhs, Esol, xmvec_fin, !xvsub_fin, xsmul_fin, xvadd_fin, xsmul_fin, xvadd_fin. fold zm. rewrite Ec', EN. reflexivity.
  - split; [rewrite vadd_length, smul_length, vsub_length; unfold vec in *; lia|]. split; [exact Lz'|]. split; [exact Ly'|]. split; try assumption; [reflexivity|].
    rewrite E4. unfold zy. apply vec_eq_dot; [rewrite ?vadd_length, ?smul_length, ?vadd_length, ?smul_length, ?vsub_length, ?mvec_length; unfold mat, vec in *; lia|]. intros w.
    unfold zm. autorewrite with vec. field. lra.
Qed.
Definition fin_state (r : R) (k : nat) (p : box_params) (st : box_state) (x z y : vec) : Prop :=
  finite_params m n p x z y /\ in_box l u z /\ normal_to_box l u y z /\ o_rho st = Fin r /\ ss_rho (o_lin st) = Fin r /\ o_iter st = k.
Lemma update_exact p st r k x z y : check_infeas cfg = false -> 0 < r -> finite_params m n p x z y -> o_rho st = Fin r -> ss_rho (o_lin st) = Fin r -> o_iter st = k ->
  (o_status st = UNSOLVED \/ o_status st = SOLVED) ->
  exists s x' z' y' st' e f, box_step n Q c A l u eps_div lin_solve cfg (Ok (p, st)) = Ok (full_kkt (fin x') (fin z') (fin y'), st') /\
    length x' = n /\ length z' = m /\ length y' = m /\ exact_step n Q c A l u (sigma cfg) (momentum cfg) r x z y s x' z' y' /\
    o_iter st' = S k /\ ss_rho (o_lin st') = o_rho st' /\ (o_status st' = UNSOLVED \/ o_status st' = SOLVED) /\
    o_rho st' = (if Nat.eqb (Nat.modulo k (step_freq cfg)) 0 then new_rho n Q c A eps_div cfg (Fin r) (fin (vsub (mvec A x') z')) (fin (vadd (vadd (mvec Q x') c) (tvec n A y'))) (fin x') (fin y') else Fin r) /\
    is_inf_norm (vsub (mvec A x') z') e /\ is_inf_norm (vadd (vadd (mvec Q x') c) (tvec n A y')) f /\
    (if Nat.eqb (Nat.modulo k (term_freq cfg)) 0 then o_error st' = Fin (Rmax e f) /\ (o_status st' = SOLVED <-> Rmax e f <= osqp_tol cfg) else o_error st' = o_error st /\ o_status st' = o_status st).
Proof.
  intros Hck Hr Hf Er Es Ek Hst. destruct (admm_exact p (o_lin st) r x z y Hr Hf Es) as (s & x' & z' & y' & Ea & Lx & Lz & Ly & HS).
  assert (Hpos := qp_pos _ _ _ _ _ _ _ HP). assert (La := proj1 HA). assert (Lq := proj1 HQ). assert (Lc := qp_c _ _ _ _ _ _ _ HP).
  set (pr := vsub (mvec A x') z'). set (dr := vadd (vadd (mvec Q x') c) (tvec n A y')).
  assert (Lp : length pr = m) by (unfold pr; rewrite vsub_length, mvec_length; unfold mat, vec in *; lia).
  assert (Ld : length dr = n) by (unfold dr; rewrite !vadd_length, mvec_length, (tvec_length m) by exact HA; unfold mat, vec in *; lia).
  destruct (xinf_norm_fin pr) as (e & Ee & He); [intros C; rewrite C in Lp; simpl in Lp; lia|]. destruct (xinf_norm_fin dr) as (f & Ef & Hf'); [intros C; rewrite C in Ld; simpl in Ld; lia|].
  assert (Eres : residuals n Q c A (fin x') (fin z') (fin y') = (fin pr, fin dr)) by (unfold residuals; rewrite !xmvec_fin, xvsub_fin, xvadd_fin, xtvec_fin, xvadd_fin; reflexivity).
  exists s, x', z', y'. unfold box_step, box_update. rewrite Er, Ea, Eres.
  assert (Ect : check_termination n Q c A l u cfg (fin pr) (fin dr) p (full_kkt (fin x') (fin z') (fin y')) = (Fin (Rmax e f), if Rle_dec (Rmax e f) (osqp_tol cfg) then SOLVED else UNSOLVED)).
  { unfold check_termination. rewrite Hck. unfold compute_error. rewrite Ee, Ef. simpl. destruct (Rle_dec _ _); reflexivity. }
  rewrite Ect, Ek. unfold update_stepsize.
  set (st1 := if Nat.eqb (k mod term_freq cfg) 0 then (Fin (Rmax e f), if Rle_dec (Rmax e f) (osqp_tol cfg) then SOLVED else UNSOLVED) else (o_error st, o_status st)).
  assert (Hs1 : snd st1 = UNSOLVED \/ snd st1 = SOLVED) by (unfold st1; destruct (Nat.eqb _ 0); [simpl; destruct (Rle_dec _ _); auto|exact Hst]).
  assert (Hs2 : if Nat.eqb (Nat.modulo k (term_freq cfg)) 0 then fst st1 = Fin (Rmax e f) /\ (snd st1 = SOLVED <-> Rmax e f <= osqp_tol cfg) else fst st1 = o_error st /\ snd st1 = o_status st).
  { unfold st1. destruct (Nat.eqb _ 0); [|split; reflexivity]. split; [reflexivity|]. simpl. destruct (Rle_dec _ _); split; try tauto; discriminate. }
  destruct st1 as [er1 s1]. simpl in Hs1, Hs2.
  destruct (Nat.eqb (k mod step_freq cfg) 0);
    (assert (E : (negb (osqp_jit cfg) && match s1 with UNSOLVED | SOLVED => false | _ => true end)%bool = false) by (destruct Hs1 as [-> | ->]; apply andb_false_r));
    eexists; exists e, f; rewrite E; (split; [reflexivity|]); cbn [o_iter o_lin o_rho o_status o_error ss_rho]; repeat (split; [assumption || reflexivity|]); exact Hs2.
Qed.
End Model.

(** ** Termination with a constant step size *)
Section Term.
Variables (m n : nat) (Q : mat) (c : vec) (A : mat) (l u : xvec) (eps_div : R) (lin_solve : xnum -> xvec -> xvec -> xvec) (cfg : osqp_config) (r : R) (xs ys : vec).
Hypothesis HP : qp_problem m n Q c A l u.
Hypothesis HE : lin_exact n Q A (sigma cfg) lin_solve.
Hypothesis HG : good_options cfg.
Hypothesis Hck : check_infeas cfg = false.
Hypothesis Hr : 0 < r.
Hypothesis HK : qp_kkt n Q c A l u xs ys.
Notation step := (box_step n Q c A l u eps_div lin_solve cfg).
Notation pot x z y := (potential (sigma cfg) r A x z y xs ys).
Definition alive (k : nat) (s : result (box_params * box_state)) (x z y : vec) : Prop :=
  exists p st, s = Ok (p, st) /\ fin_state m n l u r k p st x z y /\ (o_status st = UNSOLVED \/ o_status st = SOLVED) /\
    (o_status st = SOLVED \/ xgtb (o_error st) (osqp_tol cfg) = true).
Definition kappa : R := momentum cfg * (2 - momentum cfg).
(** displacements this small make the residuals at most tol *)
Definition small : R := let t := osqp_tol cfg / (2 * res_const n Q A (sigma cfg) (momentum cfg) r) in Rmin (sigma cfg) r * (t * t).
Lemma rc_pos : 0 < res_const n Q A (sigma cfg) (momentum cfg) r.
Proof. destruct HG as (G1 & G2 & _). apply res_const_pos; assumption. Qed.
Lemma small_pos : 0 < small.
Proof.
  unfold small. cbv zeta. destruct HG as (G1 & G2 & G3 & G4 & G5 & G6 & _). assert (P := rc_pos).
  assert (0 < osqp_tol cfg / (2 * res_const n Q A (sigma cfg) (momentum cfg) r)) by (apply Rdiv_lt_0_compat; lra).
  apply Rmult_lt_0_compat; [unfold Rmin; destruct (Rle_dec _ _); assumption|apply Rmult_lt_0_compat; assumption].
Qed.
Lemma kappa_pos : 0 < kappa.
Proof. unfold kappa. destruct HG as (G1 & G2 & _). apply Rmult_lt_0_compat; lra. Qed.
Lemma norm_small v w s1 s2 t : 0 < s1 -> 0 < s2 -> 0 <= t -> s1 * dot v v + s2 * dot w w < Rmin s1 s2 * (t * t) -> norm2 v <= t /\ norm2 w <= t.
Proof.
  intros H1 H2 Ht H. assert (Pv := dot_self_nonneg v). assert (Pw := dot_self_nonneg w). assert (M1 := Rmin_l s1 s2). assert (M2 := Rmin_r s1 s2).
  assert (0 <= t * t) by nra. assert (0 <= s1 * dot v v) by (apply Rmult_le_pos; lra). assert (0 <= s2 * dot w w) by (apply Rmult_le_pos; lra).
  split; apply norm2_le_sq; try exact Ht.
  - apply Rmult_le_reg_l with s1; [exact H1|]. assert (Rmin s1 s2 * (t * t) <= s1 * (t * t)) by (apply Rmult_le_compat_r; lra). lra.
  - apply Rmult_le_reg_l with s2; [exact H2|]. assert (Rmin s1 s2 * (t * t) <= s2 * (t * t)) by (apply Rmult_le_compat_r; lra). lra.
Qed.
Lemma alive_step k s x z y : alive k s x z y -> Nat.modulo k (step_freq cfg) <> 0%nat ->
  exists x' z' y', alive (S k) (step s) x' z' y' /\ pot x' z' y' <= pot x z y /\
    (Nat.modulo k (term_freq cfg) = 0%nat -> pot x' z' y' <= pot x z y - kappa * small \/ box_cond cfg (step s) = false).
Proof.
  intros (p & st & -> & (Hf & Iz & Ny & Er & Es & Ek) & Hst & Herr) Hk.
  destruct (update_exact m n Q c A l u eps_div lin_solve cfg HP HE p st r k x z y Hck Hr Hf Er Es Ek Hst) as (s & x' & z' & y' & st' & e & f & Eu & Lx & Lz & Ly & HS & E1 & E2 & E3 & E4 & He & Hf' & Ht).
  assert (Hk' : Nat.eqb (Nat.modulo k (step_freq cfg)) 0 = false) by (apply Nat.eqb_neq; exact Hk). rewrite Hk' in E4.
  destruct HG as (G1 & G2 & G3 & G4 & G5 & G6 & G7). assert (Lx0 : length x = n) by apply Hf.
  assert (LY := lyapunov m n Q c A l u (sigma cfg) (momentum cfg) r HP Hr G2 x z y s x' z' y' xs ys HS Lx0 Iz Ny HK).
  assert (KP := kappa_pos). fold kappa in LY.
  set (a := sigma cfg * dot (vsub s x) (vsub s x) + r * dot (vsub (mvec A s) z) (vsub (mvec A s) z)) in *.
  assert (Pa : 0 <= a) by (assert (S1 := dot_self_nonneg (vsub s x)); assert (S2 := dot_self_nonneg (vsub (mvec A s) z)); apply Rplus_le_le_0_compat; apply Rmult_le_pos; lra).
  assert (Pka : 0 <= kappa * a) by (apply Rmult_le_pos; lra).
  exists x', z', y'. rewrite Eu. split; [|split; [lra|]].
  - exists (full_kkt (fin x') (fin z') (fin y')), st'. split; [reflexivity|]. split; [|split; [exact E3|]].
    + split; [repeat split; assumption|]. split; [apply (es_box _ _ _ _ _ _ _ _ _ _ _ _ _ _ _ _ HS)|]. split; [apply (es_normal _ _ _ _ _ _ _ _ _ _ _ _ _ _ _ _ HS)|]. split; [exact E4|]. split; [congruence|exact E1].
    + destruct (Nat.eqb (Nat.modulo k (term_freq cfg)) 0); destruct Ht as [T1 T2]; [|rewrite T1, T2; exact Herr].
      destruct (Rle_dec (Rmax e f) (osqp_tol cfg)) as [L|L]; [left; apply T2; exact L|right]. rewrite T1. simpl. destruct (Rlt_dec _ _); [reflexivity|lra].
  - intros Hm. rewrite Hm in Ht. simpl in Ht. destruct Ht as [T1 T2]. destruct (Rlt_dec a small) as [Sm|Sm].
    + right. simpl. rewrite T1. simpl. destruct (Rlt_dec _ _) as [C|]; [exfalso|reflexivity]. unfold small in Sm. cbv zeta in Sm. assert (P := rc_pos). set (K := res_const n Q A (sigma cfg) (momentum cfg) r) in *.
      assert (Pt : 0 < osqp_tol cfg / (2 * K)) by (apply Rdiv_lt_0_compat; lra).
      destruct (norm_small _ _ _ _ _ G1 Hr (Rlt_le _ _ Pt) Sm) as [N1 N2].
      destruct (residual_bound m n Q c A l u (sigma cfg) (momentum cfg) r HP Hr G1 G2 x z y s x' z' y' HS Lx0 Iz Ny) as [B1 B2]. fold K in B1, B2.
      assert (Bt : K * (norm2 (vsub s x) + norm2 (vsub (mvec A s) z)) <= osqp_tol cfg).
      { replace (osqp_tol cfg) with (K * (osqp_tol cfg / (2 * K) + osqp_tol cfg / (2 * K))) by (field; lra). apply Rmult_le_compat_l; lra. }
      assert (e <= osqp_tol cfg) by (apply (inf_norm_le _ _ _ He); intros i _; eapply Rle_trans; [apply B1|exact Bt]).
      assert (f <= osqp_tol cfg) by (apply (inf_norm_le _ _ _ Hf'); intros i _; eapply Rle_trans; [apply B2|exact Bt]).
      unfold Rmax in C. destruct (Rle_dec e f); lra.
    + left. assert (kappa * small <= kappa * a) by (apply Rmult_le_compat_l; lra). lra.
Qed.
Lemma iter_shift {V} (g : V -> V) j v : Nat.iter j g (g v) = Nat.iter (S j) g v.
Proof. induction j; simpl; [reflexivity|]. rewrite IHj. reflexivity. Qed.
Lemma iter_add {V} (g : V -> V) i j v : Nat.iter i g (Nat.iter j g v) = Nat.iter (i + j) g v.
Proof. induction i; simpl; [reflexivity|]. rewrite IHi. reflexivity. Qed.
Lemma advance i : forall k s x z y, alive k s x z y -> (1 <= k)%nat -> (k + i <= step_freq cfg)%nat ->
  exists x' z' y', alive (k + i) (Nat.iter i step s) x' z' y' /\ pot x' z' y' <= pot x z y.
Proof.
  induction i as [|i IH]; intros k s x z y Ha Hk Hi.
  - exists x, z, y. rewrite Nat.add_0_r. split; [exact Ha|lra].
  - destruct (alive_step k s x z y Ha) as (x1 & z1 & y1 & H1 & H2 & _); [rewrite Nat.mod_small; lia|].
    destruct (IH (S k) (step s) x1 z1 y1 H1 ltac:(lia) ltac:(lia)) as (x2 & z2 & y2 & H3 & H4). exists x2, z2, y2. rewrite iter_shift in H3.
    split; [replace (k + S i)%nat with (S k + i)%nat by lia; exact H3|lra].
Qed.
Lemma next_check k f : (0 < f)%nat -> exists i, (i < f)%nat /\ Nat.modulo (k + i) f = 0%nat.
Proof.
  intros Hf. destruct (Nat.eq_dec (Nat.modulo k f) 0) as [E|E]; [exists 0%nat; rewrite Nat.add_0_r; split; assumption|].
  assert (B := Nat.mod_upper_bound k f ltac:(lia)). exists (f - Nat.modulo k f)%nat. split; [lia|].
  assert (D := Nat.div_mod k f ltac:(lia)). replace (k + (f - Nat.modulo k f))%nat with ((k / f + 1) * f)%nat by nia. apply Nat.mod_mul. lia.
Qed.
Lemma reach N : forall k s x z y, alive k s x z y -> (1 <= k)%nat -> (k + N * term_freq cfg <= step_freq cfg)%nat -> pot x z y < INR N * (kappa * small) ->
  exists j, (j <= N * term_freq cfg)%nat /\ box_cond cfg (Nat.iter j step s) = false.
Proof.
  induction N as [|N IH]; intros k s x z y Ha Hk Hb Hp.
  - exfalso. simpl in Hp. rewrite Rmult_0_l in Hp. unfold potential in Hp. destruct HG as (G1 & _). assert (D1 := dist2_nonneg x xs). assert (D2 := dist2_nonneg (zy r z y) (zy r (mvec A xs) ys)).
    assert (0 <= sigma cfg * dist2 x xs) by (apply Rmult_le_pos; lra). assert (0 <= r * dist2 (zy r z y) (zy r (mvec A xs) ys)) by (apply Rmult_le_pos; lra). lra.
  - destruct (next_check k (term_freq cfg)) as (i & Hi & Hm); [apply HG|].
    destruct (advance i k s x z y Ha Hk ltac:(nia)) as (x1 & z1 & y1 & H1 & H2).
    destruct (alive_step (k + i) _ x1 z1 y1 H1) as (x2 & z2 & y2 & H3 & H4 & H5); [rewrite Nat.mod_small by nia; lia|].
    change (step (Nat.iter i step s)) with (Nat.iter (S i) step s) in *.
    destruct (H5 Hm) as [L|L]; [|exists (S i); split; [nia|exact L]].
    destruct (IH (S (k + i)) _ x2 z2 y2 H3 ltac:(lia) ltac:(nia)) as (j & Hj & Hc).
    { rewrite S_INR in Hp. lra. }
    exists (j + S i)%nat. split; [nia|]. rewrite <- iter_add. exact Hc.
Qed.
Lemma alive_stop k s x z y : alive k s x z y -> box_cond cfg s = false -> exists p st, s = Ok (p, st) /\ o_status st = SOLVED.
Proof. intros (p & st & -> & _ & _ & [Hs|He]) Hc; [exists p, st; split; [reflexivity|exact Hs]|]. simpl in Hc. congruence. Qed.
End Term.
