From Coq Require Import String.
From Coq Require Import Reals List Lra Lia Bool Arith.
From Verif Require Import Prelude Vec Mat Zoom Loss LossProofs Backtracking QuasiNewton.
Import ListNotations.
Open Scope R_scope.

(** ** The matrix update *)
Definition wt (rho : R) (s y v : vec) : vec := vsub v (smul (rho * dot s v) y).
Definition w_op (rho : R) (s y u : vec) : vec := vsub u (smul (rho * dot y u) s).

Lemma wt_length n rho s y v : length y = n -> length v = n -> length (wt rho s y v) = n.
Proof. intros H1 H2. unfold wt. rewrite vsub_length, smul_length. lia. Qed.

Section Update.
Variables (n : nat) (H : mat) (s y : vec).
Hypothesis HH : mat_shape n n H.
Hypothesis Hs : length s = n.
Hypothesis Hy : length y = n.

Lemma w_shape rho : mat_shape n n (msub (eye n) (msmul rho (outer s y))).
Proof.
  apply msub_shape; [apply eye_shape|]. apply msmul_shape. rewrite <- Hs at 1. rewrite <- Hy. apply outer_shape.
Qed.
Lemma update_shape : mat_shape n n (bfgs_matrix_update H s y).
Proof.
  unfold bfgs_matrix_update. rewrite Hs. destruct (Req_EM_T (dot y s) 0); [exact HH|]. cbv zeta.
  pose proof (w_shape (/ dot y s)) as Hw. apply madd_shape.
  - apply mmul_t_shape; [apply (mmul_shape n n n)|]; [exact Hw|exact HH|apply Hw].
  - apply msmul_shape. rewrite <- Hs. apply outer_shape.
Qed.
Lemma mvec_w rho u : length u = n -> mvec (msub (eye n) (msmul rho (outer s y))) u = w_op rho s y u.
Proof.
  intros Hu. rewrite mvec_msub.
  - rewrite mvec_eye, mvec_msmul, mvec_outer, smul_smul by exact Hu. reflexivity.
  - unfold msmul, outer. rewrite !map_length. destruct (eye_shape n) as [-> _]. symmetry; exact Hs.
Qed.
Lemma tvec_w rho v : length v = n -> tvec n (msub (eye n) (msmul rho (outer s y))) v = wt rho s y v.
Proof.
  intros Hv. apply vec_eq_dot_len.
  - rewrite (tvec_length n n _ v (w_shape rho)), (wt_length n) by assumption. reflexivity.
  - rewrite (tvec_length n n _ v (w_shape rho)). intros z Hz. rewrite dot_tvec, mvec_w by exact Hz.
    unfold wt, w_op. vring.
Qed.
Lemma mvec_update v : length v = n -> dot y s <> 0 ->
  mvec (bfgs_matrix_update H s y) v =
  vadd (w_op (/ dot y s) s y (mvec H (wt (/ dot y s) s y v))) (smul (/ dot y s * dot s v) s).
Proof.
  intros Hv Hne. unfold bfgs_matrix_update. rewrite Hs. destruct (Req_EM_T (dot y s) 0); [contradiction|]. cbv zeta.
  set (rho := / dot y s). pose proof (w_shape rho) as Hw. rewrite mvec_madd.
  - rewrite (mvec_mmul_t n), mvec_mmul, tvec_w, mvec_w, mvec_msmul, mvec_outer, smul_smul by (auto; rewrite mvec_length; apply HH).
    reflexivity.
  - unfold mmul_t, mmul, msmul, outer. rewrite !map_length. rewrite Hs. apply Hw.
Qed.
Lemma dot_update z v : length z = n -> length v = n -> dot y s <> 0 ->
  dot z (mvec (bfgs_matrix_update H s y) v) =
  dot (wt (/ dot y s) s y z) (mvec H (wt (/ dot y s) s y v)) + / dot y s * dot s v * dot s z.
Proof. intros Hz Hv Hne. rewrite mvec_update by assumption. set (u := mvec H _). unfold w_op, wt. vring. Qed.

Lemma update_symmetric : symmetric n H -> symmetric n (bfgs_matrix_update H s y).
Proof.
  intros Hsym. destruct (Req_EM_T (dot y s) 0) as [E|E].
  - unfold bfgs_matrix_update. destruct (Req_EM_T (dot y s) 0); [exact Hsym|contradiction].
  - apply (symmetric_adjoint n _ update_shape). intros a b Ha Hb.
    rewrite dot_comm, !dot_update by assumption.
    rewrite (sym_dot n H (wt (/ dot y s) s y b)) by (auto using (wt_length n)). ring.
Qed.
Lemma update_secant : dot y s <> 0 -> mvec (bfgs_matrix_update H s y) y = s.
Proof.
  intros Hne. rewrite mvec_update by assumption.
  assert (E : wt (/ dot y s) s y y = vzero n).
  { apply vec_eq_dot; [rewrite (wt_length n), vzero_length by assumption; reflexivity|].
    intros z. rewrite dot_vzero_l. unfold wt. rewrite dot_vsub_l, dot_smul_l, (dot_comm s y). field. exact Hne. }
  rewrite E, mvec_vzero. destruct HH as [-> _]. apply vec_eq_dot.
  - unfold w_op. rewrite vadd_length, vsub_length, !smul_length, vzero_length. lia.
  - intros z. unfold w_op. rewrite (dot_comm s y). autorewrite with vec. rewrite ?dot_vzero_l, ?dot_vzero_r. field. exact Hne.
Qed.
Lemma update_pd : pos_def n H -> 0 < dot y s -> pos_def n (bfgs_matrix_update H s y).
Proof.
  intros Hpd Hpos v Hv Hnz. rewrite dot_update by (auto; lra).
  set (rho := / dot y s). assert (Hr : 0 < rho) by (apply Rinv_0_lt_compat; exact Hpos).
  destruct (list_eq_dec Req_EM_T (wt rho s y v) (vzero n)) as [E|E].
  - assert (Hsv : dot s v <> 0).
    { intros Z. apply Hnz. rewrite <- E. apply vec_eq_dot; [rewrite (wt_length n) by assumption; exact Hv|].
      intros z. unfold wt. rewrite Z. autorewrite with vec. ring. }
    assert (0 < rho * dot s v * dot s v) by (assert (0 < dot s v * dot s v) by nra; nra).
    rewrite E, mvec_vzero, dot_vzero_l. lra.
  - specialize (Hpd _ (wt_length n rho s y v Hy Hv) E). assert (0 <= dot s v * dot s v) by nra. nra.
Qed.
Lemma update_psd : pos_semidef n H -> 0 < dot y s -> pos_semidef n (bfgs_matrix_update H s y).
Proof.
  intros Hpd Hpos v Hv. rewrite dot_update by (auto; lra).
  assert (Hr : 0 < / dot y s) by (apply Rinv_0_lt_compat; exact Hpos).
  specialize (Hpd _ (wt_length n (/ dot y s) s y v Hy Hv)). assert (0 <= dot s v * dot s v) by nra. nra.
Qed.
End Update.

Lemma update_pd_any n H s y : mat_shape n n H -> length s = n -> length y = n ->
  pos_def n H -> 0 <= dot y s -> pos_def n (bfgs_matrix_update H s y).
Proof.
  intros H1 H2 H3 H4 H5. destruct (Req_EM_T (dot y s) 0) as [E|E].
  - unfold bfgs_matrix_update. destruct (Req_EM_T (dot y s) 0); [exact H4|contradiction].
  - apply update_pd; auto. lra.
Qed.
Lemma smul_eye_shape n g : mat_shape n n (msmul g (eye n)).
Proof. apply msmul_shape, eye_shape. Qed.
Lemma mvec_smul_eye n g v : length v = n -> mvec (msmul g (eye n)) v = smul g v.
Proof. intros H. rewrite mvec_msmul, mvec_eye by exact H. reflexivity. Qed.
Lemma smul_eye_sym n g : symmetric n (msmul g (eye n)).
Proof.
  apply (symmetric_adjoint n _ (smul_eye_shape n g)). intros x z Hx Hz. rewrite !mvec_smul_eye by assumption. vring.
Qed.
Lemma sqnorm_pos n v : length v = n -> v <> vzero n -> 0 < dot v v.
Proof.
  intros Hv Hnz. pose proof (dot_self_nonneg v). destruct (Req_dec (dot v v) 0) as [E|E]; [|lra].
  exfalso. apply Hnz. rewrite <- Hv. apply dot_self_zero. exact E.
Qed.
Lemma smul_eye_pd n g : 0 < g -> pos_def n (msmul g (eye n)).
Proof.
  intros Hg v Hv Hnz. rewrite mvec_smul_eye, dot_smul_r by exact Hv. pose proof (sqnorm_pos n v Hv Hnz). nra.
Qed.
Lemma eye_sym n : symmetric n (eye n).
Proof. apply (symmetric_adjoint n _ (eye_shape n)). intros x z Hx Hz. rewrite !mvec_eye by assumption. reflexivity. Qed.
Lemma eye_pd n : pos_def n (eye n).
Proof. intros v Hv Hnz. rewrite mvec_eye by exact Hv. apply (sqnorm_pos n); assumption. Qed.

(** ** The whole matrix *)
Definition pairs_dim (n : nat) (l : list (vec * vec)) : Prop := Forall (fun p => length (fst p) = n /\ length (snd p) = n) l.
Lemma bfgs_matrix_snoc n g l p : bfgs_matrix n g (l ++ [p]) = bfgs_matrix_update (bfgs_matrix n g l) (fst p) (snd p).
Proof. unfold bfgs_matrix. rewrite fold_left_app. reflexivity. Qed.
Lemma pairs_dim_snoc n l p : pairs_dim n (l ++ [p]) -> pairs_dim n l /\ length (fst p) = n /\ length (snd p) = n.
Proof. intros H. apply Forall_app in H. destruct H as [H1 H2]. inversion H2; subst. tauto. Qed.
Lemma bfgs_matrix_shape n g l : pairs_dim n l -> mat_shape n n (bfgs_matrix n g l).
Proof.
  induction l as [|p l IH] using rev_ind; intros H; [apply smul_eye_shape|].
  apply pairs_dim_snoc in H. destruct H as (H & H1 & H2). rewrite bfgs_matrix_snoc. apply update_shape; auto.
Qed.
Lemma bfgs_matrix_sym n g l : pairs_dim n l -> symmetric n (bfgs_matrix n g l).
Proof.
  induction l as [|p l IH] using rev_ind; intros H; [apply smul_eye_sym|].
  apply pairs_dim_snoc in H. destruct H as (H & H1 & H2). rewrite bfgs_matrix_snoc.
  apply update_symmetric; auto using bfgs_matrix_shape.
Qed.
Lemma bfgs_matrix_pd n g l : 0 < g -> pairs_dim n l -> Forall (fun p => 0 <= dot (snd p) (fst p)) l ->
  pos_def n (bfgs_matrix n g l).
Proof.
  intros Hg. induction l as [|p l IH] using rev_ind; intros H Hp; [apply smul_eye_pd; exact Hg|].
  apply pairs_dim_snoc in H. destruct H as (H & H1 & H2). rewrite bfgs_matrix_snoc.
  apply Forall_app in Hp. destruct Hp as [Hp1 Hp2]. inversion Hp2; subst.
  apply update_pd_any; auto using bfgs_matrix_shape.
Qed.

(** ** Two-loop recursion *)
Section TwoLoop.
Variables (S_ Y_ : list vec) (P_ : list R) (n : nat).
(** what slot i holds *)
Definition slot (i : nat) : vec * vec := (nth i S_ [], nth i Y_ []).
Definition rho_ok (i : nat) : Prop :=
  nth i P_ 0 = if Req_EM_T (dot (nth i Y_ []) (nth i S_ [])) 0 then 0 else / dot (nth i Y_ []) (nth i S_ []).

Lemma scan_right_snoc idx i r :
  scan_right S_ Y_ P_ r (idx ++ [i]) =
  let alpha := nth i P_ 0 * dot (nth i S_ []) r in
  let '(r1, al) := scan_right S_ Y_ P_ (vadd r (smul (- alpha) (nth i Y_ []))) idx in
  (r1, al ++ [alpha]).
Proof.
  cbv zeta. induction idx as [|j idx IH]; [reflexivity|]. cbn [app scan_right]. rewrite IH.
  destruct (scan_right S_ Y_ P_ _ idx) as [r1 al]. reflexivity.
Qed.
Lemma scan_right_length r idx : length (snd (scan_right S_ Y_ P_ r idx)) = length idx.
Proof.
  induction idx as [|i idx IH]; [reflexivity|]. cbn [scan_right]. destruct (scan_right S_ Y_ P_ r idx) as [r1 al].
  simpl in *. congruence.
Qed.
Lemma scan_left_snoc idx i al alpha r : length idx = length al ->
  scan_left S_ Y_ P_ r (idx ++ [i]) (al ++ [alpha]) =
  let r1 := scan_left S_ Y_ P_ r idx al in
  vadd r1 (smul (alpha - nth i P_ 0 * dot (nth i Y_ []) r1) (nth i S_ [])).
Proof.
  cbv zeta. revert al r. induction idx as [|j idx IH]; intros [|a al] r H; try discriminate; [reflexivity|].
  cbn [app scan_left]. rewrite IH by (simpl in H; lia). reflexivity.
Qed.
Lemma two_loop g idx q : length q = n ->
  pairs_dim n (map slot idx) -> Forall rho_ok idx ->
  let '(r, al) := scan_right S_ Y_ P_ q idx in
  scan_left S_ Y_ P_ (smul g r) idx al = mvec (bfgs_matrix n g (map slot idx)) q.
Proof.
  revert q. induction idx as [|i idx IH] using rev_ind; intros q Hq Hd Hr.
  - simpl. symmetry. apply mvec_smul_eye. exact Hq.
  - rewrite map_app in Hd. cbn [map] in Hd. apply pairs_dim_snoc in Hd. destruct Hd as (Hd & Hs & Hy). cbn [slot fst snd] in Hs, Hy.
    apply Forall_app in Hr. destruct Hr as [Hr Hri]. inversion Hri as [|? ? Hi _]; subst.
    rewrite scan_right_snoc. cbv zeta. set (alpha := nth i P_ 0 * dot (nth i S_ []) q).
    set (q1 := vadd q (smul (- alpha) (nth i Y_ []))).
    assert (Hq1 : length q1 = length q) by (unfold q1; rewrite vadd_length, smul_length; lia).
    specialize (IH q1 Hq1 Hd Hr).
    pose proof (scan_right_length q1 idx) as Hl.
    destruct (scan_right S_ Y_ P_ q1 idx) as [r1 al]. simpl in Hl.
    rewrite scan_left_snoc by auto. cbv zeta. rewrite IH.
    rewrite map_app. cbn [map]. rewrite bfgs_matrix_snoc. cbn [slot fst snd].
    set (H := bfgs_matrix (length q) g (map slot idx)).
    assert (HH : mat_shape (length q) (length q) H) by (apply bfgs_matrix_shape; exact Hd).
    unfold rho_ok in Hi.
    destruct (Req_EM_T (dot (nth i Y_ []) (nth i S_ [])) 0) as [E|E].
    + unfold bfgs_matrix_update. destruct (Req_EM_T (dot (nth i Y_ []) (nth i S_ [])) 0); [|contradiction].
      assert (Ea : alpha = 0) by (unfold alpha; rewrite Hi; ring).
      assert (Eq : q1 = q).
      { apply vec_eq_dot; [exact Hq1|]. intros z. unfold q1. rewrite Ea. autorewrite with vec. ring. }
      rewrite Eq, Hi, Ea. apply vec_eq_dot.
      * rewrite vadd_length, smul_length, mvec_length. destruct HH as [-> _]. lia.
      * intros z. autorewrite with vec. ring.
    + rewrite (mvec_update (length q)) by auto.
      set (y := nth i Y_ []) in *. set (s := nth i S_ []) in *. rewrite <- Hi. set (rho := nth i P_ 0) in *.
      assert (Eq : q1 = wt rho s y q).
      { apply vec_eq_dot; [rewrite (wt_length (length q)) by auto; exact Hq1|]. intros z. unfold q1, wt, alpha. vring. }
      rewrite <- Eq. set (u := mvec H q1). unfold w_op. assert (Hu : length u = length q) by (unfold u; rewrite mvec_length; apply HH).
      apply vec_eq_dot; [rewrite !vadd_length, !vsub_length, !smul_length; lia|]. intros z. unfold alpha. vring.
Qed.
End TwoLoop.

(** ** The circular buffer *)
Lemma nth_set_nth {A} (l : list A) i j v d :
  nth j (set_nth l i v) d = if Nat.eq_dec i j then (if Nat.ltb i (length l) then v else d) else nth j l d.
Proof.
  revert i j. induction l as [|a l IH]; intros i j; simpl.
  - destruct (Nat.eq_dec i j), j; reflexivity.
  - destruct i as [|i], j as [|j]; simpl; try reflexivity. rewrite IH.
    destruct (Nat.eq_dec i j), (Nat.eq_dec (S i) (S j)); try reflexivity; lia.
Qed.
Fixpoint buf {A} (m : nat) (z : A) (a : nat -> A) (k : nat) : list A :=
  match k with O => repeat z m | S k' => set_nth (buf m z a k') (k' mod m) (a k') end.
Lemma buf_length {A} m (z : A) a k : length (buf m z a k) = m.
Proof. induction k; simpl; [apply repeat_length|]. rewrite set_nth_length. exact IHk. Qed.
Lemma mod_neq m j k : (0 < m)%nat -> (j < k < j + m)%nat -> (k mod m <> j mod m)%nat.
Proof.
  intros Hm H E. pose proof (Nat.div_mod k m ltac:(lia)). pose proof (Nat.div_mod j m ltac:(lia)).
  pose proof (Nat.mod_upper_bound k m ltac:(lia)). pose proof (Nat.mod_upper_bound j m ltac:(lia)).
  assert ((k / m = j / m \/ k / m < j / m \/ j / m < k / m)%nat) as [C|[C|C]] by lia; nia.
Qed.
Lemma buf_recent {A} m (z : A) a k j d : (0 < m)%nat -> (j < k)%nat -> (k <= j + m)%nat -> nth (j mod m) (buf m z a k) d = a j.
Proof.
  intros Hm. induction k as [|k IH]; intros H1 H2; [lia|]. cbn [buf]. rewrite nth_set_nth, buf_length.
  destruct (Nat.eq_dec j k) as [->|Hne].
  - destruct (Nat.eq_dec (k mod m) (k mod m)); [|lia].
    destruct (Nat.ltb_spec (k mod m) m); [reflexivity|]. pose proof (Nat.mod_upper_bound k m ltac:(lia)). lia.
  - destruct (Nat.eq_dec (k mod m) (j mod m)) as [E|E]; [|apply IH; lia].
    exfalso. apply (mod_neq m j k Hm); [lia|exact E].
Qed.
Lemma buf_unused {A} m (z : A) a k i d : (k <= i < m)%nat -> nth i (buf m z a k) d = z.
Proof.
  induction k as [|k IH]; intros H; cbn [buf].
  - rewrite (nth_indep _ d z) by (rewrite repeat_length; lia). apply nth_repeat.
  - rewrite nth_set_nth. destruct (Nat.eq_dec (k mod m) i) as [E|E]; [|apply IH; lia].
    rewrite Nat.mod_small in E by lia. lia.
Qed.
Lemma read_gen {B} (F : nat -> B) m k zb (b : nat -> B) : (0 < m)%nat ->
  (forall i, (k <= i < m)%nat -> F i = zb) ->
  (forall j, (j < k)%nat -> (k <= j + m)%nat -> F (j mod m)%nat = b j) ->
  map F (buffer_indices (k mod m) m) = repeat zb (m - k) ++ map b (seq (k - m) (k - (k - m))).
Proof.
  intros Hm H1 H2. unfold buffer_indices. rewrite map_map. apply (nth_ext _ _ zb zb).
  - rewrite app_length, repeat_length, !map_length, !seq_length. lia.
  - intros t Ht. rewrite map_length, seq_length in Ht.
    rewrite (nth_indep _ zb ((fun t => F ((k mod m + t) mod m)%nat) 0%nat)) by (rewrite map_length, seq_length; lia).
    rewrite (map_nth (fun t => F ((k mod m + t) mod m)%nat)), seq_nth by lia. cbn [Nat.add].
    assert (E : ((k mod m + t) mod m = (k + t) mod m)%nat) by (rewrite Nat.add_mod_idemp_l; lia). rewrite E.
    destruct (Nat.lt_ge_cases (k + t) m) as [Hlt|Hge].
    + rewrite Nat.mod_small by lia. rewrite H1 by lia. rewrite app_nth1 by (rewrite repeat_length; lia).
      symmetry. apply nth_repeat.
    + assert (E2 : ((k + t) mod m = (k + t - m) mod m)%nat).
      { replace (k + t)%nat with (k + t - m + 1 * m)%nat at 1 by lia. apply Nat.mod_add. lia. }
      rewrite E2, H2 by lia. rewrite app_nth2 by (rewrite repeat_length; lia). rewrite repeat_length.
      rewrite (nth_indep _ zb (b 0%nat)) by (rewrite map_length, seq_length; lia).
      rewrite map_nth, seq_nth by lia. f_equal. lia.
Qed.
Lemma bfgs_matrix_skip n g z k l : dot (snd z) (fst z) = 0 -> bfgs_matrix n g (repeat z k ++ l) = bfgs_matrix n g l.
Proof.
  intros H. unfold bfgs_matrix. rewrite fold_left_app. f_equal. induction k as [|k IH]; [reflexivity|].
  cbn [repeat fold_left]. unfold bfgs_matrix_update at 2. destruct (Req_EM_T (dot (snd z) (fst z)) 0); [exact IH|contradiction].
Qed.

(** ** Steps *)
Lemma take_step_consistent f gradf ls cfg x v g d ps k o : ls_consistent f gradf ls ->
  take_step f gradf ls cfg x v g d ps k = Ok o ->
  ls_params o = vadd x (smul (ls_step o) d) /\ ls_value o = f (ls_params o) /\ ls_grad o = gradf (ls_params o).
Proof.
  intros Hls. unfold take_step. destruct (use_linesearch cfg).
  - destruct (init_stepsize _ _ _ _ _) as [s0|e]; [|discriminate]. injection 1 as <-. apply Hls.
  - injection 1 as <-. simpl. auto.
Qed.

Lemma vadd_smul_length n x a d : length x = n -> length d = n -> length (vadd x (smul a d)) = n.
Proof. intros H1 H2. rewrite vadd_length, smul_length. lia. Qed.
Lemma vsub_len n x z : length x = n -> length z = n -> length (vsub x z) = n.
Proof. intros H1 H2. rewrite vsub_length. lia. Qed.

(** ** Runs *)
Section Runs.
Variable f : vec -> R.
Variable gradf : vec -> vec.
Variable ls : line_search.
Variable cfg : qn_config.
Variable n : nat.
Hypothesis Hg : grad_dim n gradf.
Hypothesis Hls : ls_consistent f gradf ls.

Section Bfgs.
Variables (xs : nat -> vec) (sts : nat -> bfgs_state) (K : nat).
Hypothesis Hx0 : length (xs 0%nat) = n.
Hypothesis H0 : sts 0%nat = bfgs_init f gradf cfg (xs 0%nat).
Hypothesis Hstep : forall k, (k < K)%nat -> bfgs_update f gradf ls cfg (xs k, sts k) = Ok (xs (S k), sts (S k)).

Lemma bfgs_step_facts k : (k < K)%nat ->
  xs (S k) = vadd (xs k) (smul (b_stepsize (sts (S k))) (bfgs_direction (sts k))) /\
  b_value (sts (S k)) = f (xs (S k)) /\ b_grad (sts (S k)) = gradf (xs (S k)) /\
  b_iter (sts (S k)) = S (b_iter (sts k)) /\ b_error (sts (S k)) = Fin (norm2 (gradf (xs (S k)))) /\
  b_H (sts (S k)) = bfgs_matrix_update (b_H (sts k)) (vsub (xs (S k)) (xs k)) (vsub (gradf (xs (S k))) (b_grad (sts k))).
Proof.
  intros Hk. pose proof (Hstep k Hk) as H. unfold bfgs_update in H.
  destruct (take_step _ _ _ _ _ _ _ _ _ _) as [o|e] eqn:E; [|discriminate].
  apply (take_step_consistent _ _ _ _ _ _ _ _ _ _ _ Hls) in E. destruct E as (E1 & E2 & E3).
  injection H as Ex Es. rewrite <- Ex, <- Es. cbn [b_stepsize b_value b_grad b_iter b_error b_H].
  rewrite <- E3. auto 7.
Qed.
Lemma bfgs_inv k : (k <= K)%nat ->
  length (xs k) = n /\ b_value (sts k) = f (xs k) /\ b_grad (sts k) = gradf (xs k) /\ b_iter (sts k) = k /\
  mat_shape n n (b_H (sts k)) /\ symmetric n (b_H (sts k)).
Proof.
  induction k as [|k IH]; intros Hk.
  - rewrite H0. cbn [bfgs_init b_value b_grad b_iter b_H]. rewrite Hx0. auto 10 using eye_shape, eye_sym.
  - destruct (IH ltac:(lia)) as (I1 & I2 & I3 & I4 & I5 & I6).
    destruct (bfgs_step_facts k ltac:(lia)) as (F1 & F2 & F3 & F4 & F5 & F6).
    assert (Hx : length (xs (S k)) = n).
    { rewrite F1. apply vadd_smul_length; [exact I1|]. unfold bfgs_direction. rewrite smul_length, mvec_length. apply I5. }
    assert (Hsl : length (vsub (xs (S k)) (xs k)) = n) by (apply vsub_len; assumption).
    assert (Hyl : length (vsub (gradf (xs (S k))) (b_grad (sts k))) = n) by (rewrite I3; apply vsub_len; apply Hg; assumption).
    repeat split; auto; try congruence.
    + rewrite F6. apply update_shape; assumption.
    + rewrite F6. apply update_shape; assumption.
    + rewrite F6. apply update_symmetric; assumption.
Qed.
Lemma bfgs_dir_length k : (k <= K)%nat -> length (bfgs_direction (sts k)) = n.
Proof.
  intros Hk. destruct (bfgs_inv k Hk) as (_ & _ & _ & _ & I5 & _). unfold bfgs_direction.
  rewrite smul_length, mvec_length. apply I5.
Qed.
Lemma bfgs_H_step k : (k < K)%nat ->
  b_H (sts (S k)) = bfgs_matrix_update (b_H (sts k)) (vsub (xs (S k)) (xs k)) (vsub (gradf (xs (S k))) (gradf (xs k))).
Proof.
  intros Hk. destruct (bfgs_step_facts k Hk) as (_ & _ & _ & _ & _ & ->).
  destruct (bfgs_inv k ltac:(lia)) as (_ & _ & -> & _). reflexivity.
Qed.
(** The matrix of BFGS is the product of all the pairs. *)
Lemma bfgs_H_matrix k : (k <= K)%nat ->
  b_H (sts k) = fold_left (fun H p => bfgs_matrix_update H (fst p) (snd p)) (map (pair_at xs (fun j => gradf (xs j))) (seq 0 k)) (eye n).
Proof.
  induction k as [|k IH]; intros Hk.
  - rewrite H0. cbn [bfgs_init b_H]. rewrite Hx0. reflexivity.
  - rewrite bfgs_H_step, IH by lia. rewrite seq_S, map_app, fold_left_app. reflexivity.
Qed.
Lemma bfgs_pd k : (k <= K)%nat ->
  (forall j, (j < k)%nat -> 0 <= dot (vsub (gradf (xs (S j))) (gradf (xs j))) (vsub (xs (S j)) (xs j))) ->
  pos_def n (b_H (sts k)).
Proof.
  induction k as [|k IH]; intros Hk Hc.
  - rewrite H0. cbn [bfgs_init b_H]. rewrite Hx0. apply eye_pd.
  - rewrite bfgs_H_step by lia. destruct (bfgs_inv k ltac:(lia)) as (I1 & _ & _ & _ & I5 & _).
    destruct (bfgs_inv (S k) ltac:(lia)) as (J1 & _). apply update_pd_any; auto using vsub_len.
    + apply IH; [lia|]. intros j Hj. apply Hc. lia.
Qed.
Lemma bfgs_descent k : (k <= K)%nat -> pos_def n (b_H (sts k)) -> gradf (xs k) <> vzero n ->
  dot (gradf (xs k)) (bfgs_direction (sts k)) < 0.
Proof.
  intros Hk Hpd Hnz. destruct (bfgs_inv k Hk) as (I1 & _ & I3 & _). unfold bfgs_direction. rewrite I3, dot_smul_r.
  specialize (Hpd _ (Hg _ I1) Hnz). lra.
Qed.
End Bfgs.

Section Lbfgs.
Variables (xs : nat -> vec) (sts : nat -> lbfgs_state) (K : nat).
Hypothesis Hx0 : length (xs 0%nat) = n.
Hypothesis H0 : sts 0%nat = lbfgs_init f gradf cfg (xs 0%nat).
Hypothesis Hstep : forall k, (k < K)%nat -> lbfgs_update f gradf ls cfg (xs k, sts k) = Ok (xs (S k), sts (S k)).
Let gs k := gradf (xs k).
Let m := qn_history_size cfg.
Let rho_at k := let '(s, y) := pair_at xs gs k in if Req_EM_T (dot s y) 0 then 0 else 1 / dot s y.

Lemma lbfgs_step_facts k : (k < K)%nat ->
  xs (S k) = vadd (xs k) (smul (l_stepsize (sts (S k))) (lbfgs_direction cfg (sts k))) /\
  l_value (sts (S k)) = f (xs (S k)) /\ l_grad (sts (S k)) = gradf (xs (S k)) /\
  l_iter (sts (S k)) = S (l_iter (sts k)) /\ l_error (sts (S k)) = Fin (norm2 (gradf (xs (S k)))) /\
  (let s := vsub (xs (S k)) (xs k) in
   let y := vsub (gradf (xs (S k))) (l_grad (sts k)) in
   let i := (l_iter (sts k) mod m)%nat in
   (0 < m)%nat ->
   l_s (sts (S k)) = set_nth (l_s (sts k)) i s /\ l_y (sts (S k)) = set_nth (l_y (sts k)) i y /\
   l_rho (sts (S k)) = set_nth (l_rho (sts k)) i (if Req_EM_T (dot s y) 0 then 0 else 1 / dot s y) /\
   l_gamma (sts (S k)) = if qn_use_gamma cfg then compute_gamma (l_s (sts (S k))) (l_y (sts (S k))) i else 1).
Proof.
  intros Hk. pose proof (Hstep k Hk) as H. unfold lbfgs_update in H.
  destruct (take_step _ _ _ _ _ _ _ _ _ _) as [o|e] eqn:E; [|discriminate].
  apply (take_step_consistent _ _ _ _ _ _ _ _ _ _ _ Hls) in E. destruct E as (E1 & E2 & E3).
  injection H as Ex Es. rewrite <- Ex, <- Es. cbn [l_stepsize l_value l_grad l_iter l_error l_s l_y l_rho l_gamma].
  rewrite <- E3. repeat (split; [auto; fail|]). cbv zeta. intros Hm. fold m.
  apply Nat.ltb_lt in Hm. rewrite Hm. simpl. auto.
Qed.
Lemma dir_len_hist st : length (l_grad st) = n ->
  (forall i, (i < length (l_rho st))%nat -> (length (nth i (l_s st) []) <= n)%nat /\ (length (nth i (l_y st) []) <= n)%nat) ->
  length (lbfgs_direction cfg st) = n.
Proof.
  intros H1 H2. unfold lbfgs_direction. destruct (qn_history_size cfg) as [|m'] eqn:Em; [rewrite smul_length; exact H1|].
  unfold inv_hessian_product. set (idx := buffer_indices _ _).
  assert (Hidx : Forall (fun i => (i < length (l_rho st))%nat) idx).
  { unfold idx, buffer_indices. apply Forall_forall. intros i Hi. apply in_map_iff in Hi. destruct Hi as (t & <- & Ht).
    apply in_seq in Ht. apply Nat.mod_upper_bound. lia. }
  clearbody idx.
  assert (Hr : forall r, length r = n -> length (fst (scan_right (l_s st) (l_y st) (l_rho st) r idx)) = n).
  { intros r Hr. induction Hidx as [|i idx Hi _ IH]; [exact Hr|]. cbn [scan_right].
    destruct (scan_right _ _ _ _ idx) as [r1 al]. simpl in *. rewrite vadd_length, smul_length. destruct (H2 i Hi). lia. }
  assert (Hl : forall r al, length r = n -> length (scan_left (l_s st) (l_y st) (l_rho st) r idx al) = n).
  { clear Hr. induction Hidx as [|i idx Hi _ IH]; intros r [|a al] Hr; try exact Hr. cbn [scan_left]. apply IH.
    rewrite vadd_length, smul_length. destruct (H2 i Hi). lia. }
  specialize (Hr (smul (-1) (l_grad st)) ltac:(rewrite smul_length; exact H1)).
  destruct (scan_right _ _ _ _ idx) as [r al]. apply Hl. rewrite smul_length. exact Hr.
Qed.
Lemma lbfgs_inv k : (k <= K)%nat ->
  length (xs k) = n /\ l_value (sts k) = f (xs k) /\ l_grad (sts k) = gradf (xs k) /\ l_iter (sts k) = k /\
  ((0 < m)%nat -> l_s (sts k) = buf m (vzero n) (fun j => fst (pair_at xs gs j)) k /\
                  l_y (sts k) = buf m (vzero n) (fun j => snd (pair_at xs gs j)) k /\
                  l_rho (sts k) = buf m 0 rho_at k).
Proof.
  induction k as [k IHk] using lt_wf_ind. intros Hk. destruct k as [|k].
  - rewrite H0. cbn [lbfgs_init l_value l_grad l_iter l_s l_y l_rho buf]. rewrite Hx0. auto 7.
  - destruct (IHk k ltac:(lia) ltac:(lia)) as (I1 & I2 & I3 & I4 & I5).
    destruct (lbfgs_step_facts k ltac:(lia)) as (F1 & F2 & F3 & F4 & F5 & F6).
    assert (Hx : length (xs (S k)) = n).
    { rewrite F1. apply vadd_smul_length; [exact I1|]. apply dir_len_hist.
      - rewrite I3. apply Hg. exact I1.
      - intros i Hi. destruct (Nat.eq_dec m 0) as [Em|Em].
        + exfalso. assert (El : forall j, (j <= k)%nat -> l_rho (sts j) = []).
          { intros j. induction j as [|j IHj]; intros Hj.
            - rewrite H0. cbn [lbfgs_init l_rho]. fold m. rewrite Em. reflexivity.
            - pose proof (Hstep j ltac:(lia)) as Hu. unfold lbfgs_update in Hu. fold m in Hu. rewrite Em in Hu.
              destruct (take_step _ _ _ _ _ _ _ _ _ _); [|discriminate]. injection Hu as _ <-. cbn [l_rho]. apply IHj. lia. }
          rewrite El in Hi by lia. simpl in Hi. lia.
        + destruct (I5 ltac:(lia)) as (J1 & J2 & J3). rewrite J1, J2. rewrite J3, buf_length in Hi.
          assert (Hall : forall (a : nat -> vec) z, length z = n -> (forall j, (j < k)%nat -> length (a j) = n) ->
             (length (nth i (buf m z a k) []) <= n)%nat).
          { intros a z Hz Ha. clear - Hz Ha Hi. induction k as [|k IH]; cbn [buf].
            - rewrite (nth_indep _ [] z) by (rewrite repeat_length; lia). rewrite nth_repeat. lia.
            - rewrite nth_set_nth. destruct (Nat.eq_dec (k mod m) i); [|apply IH; intros; apply Ha; lia].
              destruct (Nat.ltb _ _); [rewrite Ha; lia|simpl; lia]. }
          assert (Hlen : forall j, (j <= k)%nat -> length (xs j) = n) by (intros j Hj; apply (IHk j); lia).
          split; apply Hall; try apply vzero_length; intros j Hj; unfold pair_at, gs; simpl; apply vsub_len; auto; try apply Hg; apply Hlen; lia. }
    repeat split; auto; try congruence.
    + destruct (I5 H) as (J1 & _). destruct (F6 H) as (G1 & _). rewrite G1, J1, I4. reflexivity.
    + destruct (I5 H) as (_ & J1 & _). destruct (F6 H) as (_ & G1 & _). rewrite G1, J1, I4, I3. reflexivity.
    + destruct (I5 H) as (_ & _ & J1). destruct (F6 H) as (_ & _ & G1 & _). rewrite G1, J1, I4, I3. reflexivity.
Qed.
Lemma lbfgs_gamma k : (k <= K)%nat -> (0 < m)%nat -> l_gamma (sts k) = gamma_at (qn_use_gamma cfg) xs gs k.
Proof.
  intros Hk Hm. destruct k as [|k]; [rewrite H0; reflexivity|].
  destruct (lbfgs_step_facts k ltac:(lia)) as (_ & _ & _ & _ & _ & F6). destruct (F6 Hm) as (_ & _ & _ & ->).
  unfold gamma_at, pair_at. destruct (qn_use_gamma cfg); [|reflexivity].
  destruct (lbfgs_inv (S k) Hk) as (_ & _ & _ & _ & I). destruct (I Hm) as (-> & -> & _).
  destruct (lbfgs_inv k ltac:(lia)) as (_ & _ & _ & -> & _). unfold compute_gamma.
  rewrite !buf_recent by lia. cbn [pair_at fst snd]. unfold gs. unfold Rltb.
  set (y := vsub (gradf (xs (S k))) (gradf (xs k))). pose proof (dot_self_nonneg y).
  destruct (Rlt_dec 0 (dot y y)), (Req_EM_T (dot y y) 0); try reflexivity; lra.
Qed.
Lemma last_pairs_dim k : (k <= K)%nat -> pairs_dim n (last_pairs m k xs gs).
Proof.
  intros Hk. apply Forall_forall. intros p Hp. unfold last_pairs in Hp. apply in_map_iff in Hp. destruct Hp as (j & <- & Hj).
  apply in_seq in Hj. unfold pair_at, gs. simpl.
  destruct (lbfgs_inv j ltac:(lia)) as (A & _), (lbfgs_inv (S j) ltac:(lia)) as (B & _).
  split; apply vsub_len; auto.
Qed.
Lemma lbfgs_dir k : (k <= K)%nat -> (0 < m)%nat ->
  lbfgs_direction cfg (sts k) = mvec (bfgs_matrix n (gamma_at (qn_use_gamma cfg) xs gs k) (last_pairs m k xs gs)) (smul (-1) (gradf (xs k))).
Proof.
  intros Hk Hm. destruct (lbfgs_inv k Hk) as (I1 & _ & I3 & I4 & I5). destruct (I5 Hm) as (J1 & J2 & J3).
  unfold lbfgs_direction. fold m. rewrite I3, I4. rewrite (lbfgs_gamma k Hk Hm).
  destruct m as [|m'] eqn:Em; [lia|]. rewrite <- Em in *.
  unfold inv_hessian_product. rewrite J3, buf_length.
  set (idx := buffer_indices (k mod m) m).
  assert (Hread : map (slot (l_s (sts k)) (l_y (sts k))) idx = repeat (vzero n, vzero n) (m - k) ++ last_pairs m k xs gs).
  { unfold idx, last_pairs. apply read_gen; [exact Hm| |]; unfold slot; rewrite J1, J2.
    - intros i Hi. rewrite !buf_unused by exact Hi. reflexivity.
    - intros j Hj1 Hj2. rewrite !buf_recent by lia. reflexivity. }
  assert (Hrho : Forall (rho_ok (l_s (sts k)) (l_y (sts k)) (buf m 0 rho_at k)) idx).
  { apply Forall_forall. intros i Hi. unfold rho_ok. rewrite J1, J2.
    unfold idx, buffer_indices in Hi. apply in_map_iff in Hi. destruct Hi as (t & <- & Ht). apply in_seq in Ht.
    assert (E : ((k mod m + t) mod m = (k + t) mod m)%nat) by (rewrite Nat.add_mod_idemp_l; lia). rewrite E.
    destruct (Nat.lt_ge_cases (k + t) m) as [Hlt|Hge].
    - rewrite Nat.mod_small by lia. rewrite !buf_unused by lia. rewrite dot_vzero_l.
      destruct (Req_EM_T 0 0); [reflexivity|lra].
    - assert (E2 : ((k + t) mod m = (k + t - m) mod m)%nat).
      { replace (k + t)%nat with (k + t - m + 1 * m)%nat at 1 by lia. apply Nat.mod_add. lia. }
      rewrite E2, !buf_recent by lia. unfold rho_at, pair_at. simpl. rewrite (dot_comm (vsub (gs _) _)).
      destruct (Req_EM_T _ 0); [reflexivity|]. unfold Rdiv. ring. }
  pose proof (two_loop (l_s (sts k)) (l_y (sts k)) (buf m 0 rho_at k) n (gamma_at (qn_use_gamma cfg) xs gs k) idx (smul (-1) (gradf (xs k)))) as T.
  rewrite Hread in T.
  assert (Hd : pairs_dim n (repeat (vzero n, vzero n) (m - k) ++ last_pairs m k xs gs)).
  { apply Forall_app. split; [|apply last_pairs_dim; exact Hk]. apply Forall_forall. intros p Hp.
    apply repeat_spec in Hp. subst p. simpl. rewrite vzero_length. auto. }
  specialize (T ltac:(rewrite smul_length; apply Hg; exact I1) Hd Hrho).
  rewrite bfgs_matrix_skip in T by (simpl; apply dot_vzero_l).
  destruct (scan_right _ _ _ _ idx) as [r al]. exact T.
Qed.
Lemma lbfgs_pd k : (k <= K)%nat -> (0 < m)%nat ->
  (forall j, (j < k)%nat -> (k <= j + m)%nat -> 0 < dot (vsub (gradf (xs (S j))) (gradf (xs j))) (vsub (xs (S j)) (xs j))
       \/ vsub (gradf (xs (S j))) (gradf (xs j)) = vzero n) ->
  pos_def n (bfgs_matrix n (gamma_at (qn_use_gamma cfg) xs gs k) (last_pairs m k xs gs)).
Proof.
  intros Hk Hm Hc. apply bfgs_matrix_pd.
  - destruct k as [|k]; [simpl; lra|]. cbn [gamma_at pair_at]. destruct (qn_use_gamma cfg); [|lra].
    destruct (Req_EM_T _ 0) as [E|E]; [lra|]. destruct (Hc k ltac:(lia) ltac:(lia)) as [H|H].
    + apply Rdiv_lt_0_compat; [exact H|]. pose proof (dot_self_nonneg (vsub (gs (S k)) (gs k))). lra.
    + exfalso. apply E. unfold gs. rewrite H. apply dot_vzero_l.
  - apply last_pairs_dim. exact Hk.
  - apply Forall_forall. intros p Hp. unfold last_pairs in Hp. apply in_map_iff in Hp. destruct Hp as (j & <- & Hj).
    apply in_seq in Hj. unfold pair_at, gs. simpl. destruct (Hc j ltac:(lia) ltac:(lia)) as [H|H]; [lra|].
    rewrite H, dot_vzero_l. lra.
Qed.
End Lbfgs.
End Runs.

(** ** The backtracking search is consistent *)
From Verif Require Import Run BacktrackingProofs.
Lemma bt_update_facts bcfg f gradf x d s st : 0 <= tol bcfg ->
  let '(s', st') := bt_update bcfg f gradf x d (s, st) in
  iter_num st' = (iter_num st + 1)%nat /\ st_value st' = f (st_params st') /\
  (iter_num st' = maxiter bcfg -> done st' || failed st' = true)%bool /\
  (xgtb (error st') (tol bcfg) = false -> done st' = true) /\
  ((done st' || failed st')%bool = true -> st_params st' = vadd x (smul s' d) /\ st_grad st' = gradf (st_params st')).
Proof.
  intros Ht. cbn [bt_update]. cbv zeta.
  cbn [iter_num st_value st_params done failed error st_grad].
  set (err := match condition bcfg with Armijo => _ | _ => _ end).
  assert (Hf : err = PInf \/ exists v, err = Fin v).
  { unfold err. destruct (condition bcfg); auto using clean_error_form, xmaximum_form. }
  split; [reflexivity|]. split; [reflexivity|]. split; [|split].
  - intros E. apply Nat.eqb_eq in E. rewrite E. destruct (done st || xleb err (tol bcfg))%bool, (failed st); reflexivity.
  - rewrite (xgtb_not_leb _ _ Hf). intros E. apply negb_false_iff in E. rewrite E. apply orb_true_r.
  - intros E. rewrite E. destruct (condition bcfg); auto.
Qed.
Lemma bt_consistent bcfg f gradf : 0 <= tol bcfg -> (0 < maxiter bcfg)%nat ->
  ls_consistent f gradf (bt_line_search bcfg f gradf).
Proof.
  intros Ht Hm s0 x v g d. unfold bt_line_search.
  destruct (bt_run bcfg (fun z => Fin (f z)) gradf true s0 x v g (Some d)) as [s st] eqn:E. cbv zeta.
  cbn [ls_params ls_step ls_value ls_grad].
  unfold bt_run in E.
  destruct (run_loop_spec (maxiter bcfg) (fun st => xgtb (error (snd st)) (tol bcfg)) (bt_update bcfg (fun z => Fin (f z)) gradf x d)
     (s0, bt_init true x v g) Hm) as (k & Hk & Ek & _ & Hend).
  rewrite E in Ek.
  assert (Hit : forall j, iter_num (snd (Nat.iter j (bt_update bcfg (fun z => Fin (f z)) gradf x d) (s0, bt_init true x v g))) = j).
  { induction j as [|j IH]; [reflexivity|]. simpl.
    destruct (Nat.iter j _ _) as [s1 st1]. pose proof (bt_update_facts bcfg (fun z => Fin (f z)) gradf x d s1 st1 Ht) as F.
    destruct (bt_update _ _ _ _ _ _) as [s2 st2]. simpl in *. lia. }
  pose proof (Hit k) as Hitk. rewrite <- Ek in Hitk, Hend. simpl in Hitk, Hend.
  destruct k as [|k]; [lia|]. simpl in Ek. destruct (Nat.iter k _ _) as [s1 st1].
  pose proof (bt_update_facts bcfg (fun z => Fin (f z)) gradf x d s1 st1 Ht) as F. rewrite <- Ek in F.
  destruct F as (_ & F2 & F3 & F4 & F5).
  assert (Hdf : (done st || failed st)%bool = true).
  { destruct Hend as [He|He]; [apply F3; lia|rewrite (F4 He); reflexivity]. }
  destruct (F5 Hdf) as [G1 G2]. rewrite F2. auto.
Qed.
