From Coq Require Import Reals List Lra Lia Bool Arith.
From Verif Require Import Prelude Vec Mat LinAlg LinSolve LinSolveProofs IterRefine IterRefineTheorems Kkt KktTheorems EqQP.
Import ListNotations.
Open Scope R_scope.

(** ** Concatenation *)
Lemma dot_app x1 x2 y1 y2 : length x1 = length y1 -> dot (x1 ++ x2) (y1 ++ y2) = dot x1 y1 + dot x2 y2.
Proof. revert y1; induction x1 as [|a x1 IH]; intros [|c y1] H; try discriminate; simpl; [ring|]. rewrite IH by (simpl in H; lia). ring. Qed.
Lemma vadd_app x1 x2 y1 y2 : length x1 = length y1 -> vadd (x1 ++ x2) (y1 ++ y2) = vadd x1 y1 ++ vadd x2 y2.
Proof. revert y1; induction x1 as [|a x1 IH]; intros [|c y1] H; try discriminate; simpl; [reflexivity|]. rewrite IH by (simpl in H; lia). reflexivity. Qed.
Lemma vsub_app x1 x2 y1 y2 : length x1 = length y1 -> vsub (x1 ++ x2) (y1 ++ y2) = vsub x1 y1 ++ vsub x2 y2.
Proof. revert y1; induction x1 as [|a x1 IH]; intros [|c y1] H; try discriminate; simpl; [reflexivity|]. rewrite IH by (simpl in H; lia). reflexivity. Qed.
Lemma smul_app a x y : smul a (x ++ y) = smul a x ++ smul a y.
Proof. unfold smul. apply map_app. Qed.
Lemma vzero_app n m : vzero (n + m) = vzero n ++ vzero m.
Proof. unfold vzero. apply repeat_app. Qed.
Lemma firstn_app_l {T} n (x y : list T) : length x = n -> firstn n (x ++ y) = x.
Proof. intros <-. rewrite firstn_app, firstn_all, Nat.sub_diag. simpl. apply app_nil_r. Qed.
Lemma skipn_app_l {T} n (x y : list T) : length x = n -> skipn n (x ++ y) = y.
Proof. intros <-. rewrite skipn_app, skipn_all, Nat.sub_diag. reflexivity. Qed.
Lemma split_len {T} n m (u : list T) : length u = (n + m)%nat -> length (firstn n u) = n /\ length (skipn n u) = m.
Proof. intros H. rewrite firstn_length, skipn_length. lia. Qed.
Lemma split_vec n m (u : vec) : length u = (n + m)%nat -> exists x y : vec, u = x ++ y /\ length x = n /\ length y = m.
Proof. intros H. exists (firstn n u), (skipn n u). rewrite firstn_skipn. destruct (split_len n m u H). auto. Qed.
Lemma app_inj {T} (x1 x2 y1 y2 : list T) : length x1 = length y1 -> x1 ++ x2 = y1 ++ y2 -> x1 = y1 /\ x2 = y2.
Proof. revert y1; induction x1 as [|a x1 IH]; intros [|c y1] H E; try discriminate; simpl in *; [auto|]. injection E as -> E. destruct (IH y1) as [-> ->]; auto. Qed.
Lemma firstn_vadd n x y : length x = length y -> firstn n (vadd x y) = vadd (firstn n x) (firstn n y).
Proof. revert x y; induction n as [|n IH]; intros [|a x] [|c y] H; try discriminate; simpl; try reflexivity. rewrite IH by (simpl in H; lia). reflexivity. Qed.
Lemma skipn_vadd n x y : length x = length y -> skipn n (vadd x y) = vadd (skipn n x) (skipn n y).
Proof. revert x y; induction n as [|n IH]; intros [|a x] [|c y] H; try discriminate; simpl; try reflexivity. apply IH. simpl in H; lia. Qed.
Lemma firstn_smul n a x : firstn n (smul a x) = smul a (firstn n x).
Proof. unfold smul. apply firstn_map. Qed.
Lemma skipn_smul n a x : skipn n (smul a x) = smul a (skipn n x).
Proof. unfold smul. apply skipn_map. Qed.

(** ** Orthogonal complement of the row space *)
Lemma row_projection n (M : mat) : Forall (fun r => length r = n) M -> forall v, length v = n ->
  exists y, length y = length M /\ mvec M (vsub v (tvec n M y)) = vzero (length M).
Proof.
  induction M as [|r M IH]; intros HF v Hv.
  - exists []. split; reflexivity.
  - pose proof (Forall_inv HF) as Hr. pose proof (Forall_inv_tail HF) as HF'. cbv beta in Hr. specialize (IH HF').
    assert (HM : mat_shape (length M) n M) by (split; [reflexivity|exact HF']).
    assert (HM' : mat_shape (S (length M)) n (r :: M)) by (split; [reflexivity|exact HF]).
    destruct (IH v Hv) as (y & Ly & Ey). destruct (IH r Hr) as (z & Lz & Ez).
    set (v' := vsub v (tvec n M y)) in *. set (r' := vsub r (tvec n M z)) in *.
    assert (Lt : forall w, length (tvec n M w) = n) by (intros; apply (tvec_length (length M)); exact HM).
    assert (Lv' : length v' = n) by (unfold v'; rewrite vsub_length, Lt; unfold vec in *; lia).
    assert (Lr' : length r' = n) by (unfold r'; rewrite vsub_length, Lt; unfold vec in *; lia).
    set (t := if Req_EM_T (dot r' r') 0 then 0 else dot v' r' / dot r' r').
    exists (t :: vsub y (smul t z)). split; [simpl; rewrite vsub_length, smul_length; unfold mat, vec in *; lia|].
    assert (Ew : vsub v (tvec n (r :: M) (t :: vsub y (smul t z))) = vsub v' (smul t r')).
    { simpl. rewrite (tvec_vsub (length M) n M y (smul t z) HM), (tvec_smul (length M)) by exact HM. unfold v', r'.
      apply vec_eq_dot; [rewrite !vsub_length, !vadd_length, !smul_length, !vsub_length, !smul_length, !Lt; unfold vec in *; lia|]. intros w. vring. }
    rewrite Ew. 
    assert (EM : mvec M (vsub v' (smul t r')) = vzero (length M)).
    { rewrite mvec_vsub, mvec_smul, Ey, Ez. apply vec_eq_dot; [rewrite vsub_length, smul_length, !vzero_length; lia|]. intros w. autorewrite with vec. ring. }
    change (mvec (r :: M) ?q) with (dot r q :: mvec M q). rewrite EM. change (vzero (length (r :: M))) with (0 :: vzero (length M)). f_equal.
    assert (Er : r = vadd r' (tvec n M z)). { unfold r'. apply vec_eq_dot; [rewrite vadd_length, vsub_length, !Lt; unfold vec in *; lia|]. intros w. vring. }
    transitivity (dot r' (vsub v' (smul t r'))).
    { rewrite Er at 1. rewrite dot_vadd_l, dot_tvec, EM, dot_vzero_r. ring. }
    rewrite dot_vsub_r, dot_smul_r, (dot_comm r' v'). unfold t. destruct (Req_EM_T (dot r' r') 0) as [E0|E0].
    + assert (Z : r' = vzero n) by (apply sqnorm_zero_vec; assumption). rewrite Z, dot_vzero_r. ring.
    + field. exact E0.
Qed.
(** v orthogonal to the kernel of M is a combination of its rows *)
Lemma kernel_complement m n M v : mat_shape m n M -> length v = n ->
  (forall x, length x = n -> mvec M x = vzero m -> dot v x = 0) -> exists y, length y = m /\ tvec n M y = v.
Proof.
  intros HM Hv H. destruct HM as [Hm HF]. destruct (row_projection n M HF v Hv) as (y & Ly & Ey). rewrite Hm in *.
  assert (HM : mat_shape m n M) by (split; assumption).
  assert (Lt : length (tvec n M y) = n) by (apply (tvec_length m); exact HM).
  set (w := vsub v (tvec n M y)) in *. assert (Lw : length w = n) by (unfold w; rewrite vsub_length; unfold vec in *; lia).
  exists y. split; [exact Ly|].
  assert (Z : w = vzero n). { apply sqnorm_zero_vec; [exact Lw|]. unfold w at 1. rewrite dot_vsub_l, dot_tvec, Ey, dot_vzero_r, (H w Lw Ey). ring. }
  apply vec_eq_dot; [unfold vec in *; lia|]. intros z. assert (D : dot w z = 0) by (rewrite Z; apply dot_vzero_l). unfold w in D. rewrite dot_vsub_l in D. lra.
Qed.

(** ** The KKT operator *)
Section Op.
Variables (n m : nat) (Q : vec -> vec) (A : mat).
Hypothesis HQ : is_linear n Q.
Hypothesis HA : mat_shape m n A.
Let T w : length (tvec n A w) = n. Proof. apply (tvec_length m), HA. Qed.
Let M w : length (mvec A w) = m. Proof. rewrite mvec_length. apply HA. Qed.
Let QL x : length x = n -> length (Q x) = n. Proof. apply HQ. Qed.
Lemma kkt_matvec_app x y : length x = n -> kkt_matvec n A Q (x ++ y) = vadd (Q x) (tvec n A y) ++ mvec A x.
Proof. intros H. unfold kkt_matvec. rewrite firstn_app_l, skipn_app_l by exact H. reflexivity. Qed.
Lemma kkt_top_len x y : length x = n -> length (vadd (Q x) (tvec n A y)) = n.
Proof. intros H. rewrite vadd_length, T, QL by exact H. lia. Qed.
Lemma kkt_linear : is_linear (n + m) (kkt_matvec n A Q).
Proof.
  destruct HQ as (_ & Qa & Qs). split; [|split].
  - intros u Hu. destruct (split_len n m u Hu) as [H1 H2]. unfold kkt_matvec. rewrite app_length, M, kkt_top_len by exact H1. reflexivity.
  - intros u v Hu Hv. destruct (split_len n m u Hu) as [U1 U2]. destruct (split_len n m v Hv) as [V1 V2].
    unfold kkt_matvec. rewrite firstn_vadd, skipn_vadd by congruence. rewrite Qa, mvec_vadd, (tvec_vadd m) by assumption.
    rewrite vadd_app by (rewrite !kkt_top_len by assumption; reflexivity). f_equal.
    apply vec_eq_dot; [rewrite !vadd_length, !T, !QL by assumption; lia|]. intros w. vring.
  - intros a u Hu. destruct (split_len n m u Hu) as [U1 U2]. unfold kkt_matvec. rewrite firstn_smul, skipn_smul, Qs, mvec_smul, (tvec_smul m) by assumption.
    rewrite smul_app. f_equal. apply vec_eq_dot; [rewrite !vadd_length, !smul_length, !vadd_length, !T, !QL by assumption; lia|]. intros w. vring.
Qed.
Lemma kkt_reg_app r x y : length x = n -> length y = m -> kkt_matvec_reg n A Q r (x ++ y) =
  vadd (vadd (Q x) (tvec n A y)) (smul r x) ++ vadd (mvec A x) (smul (- r) y).
Proof.
  intros Hx Hy. unfold kkt_matvec_reg. rewrite kkt_matvec_app by exact Hx. cbv zeta.
  rewrite !firstn_app_l, !skipn_app_l by (try exact Hx; apply kkt_top_len; exact Hx). reflexivity.
Qed.
Lemma kkt_reg_linear r : is_linear (n + m) (kkt_matvec_reg n A Q r).
Proof.
  assert (HL := kkt_linear). destruct HL as (Ll & La & Ls).
  assert (D : forall u : vec, length u = (n + m)%nat -> exists x y : vec, u = x ++ y /\ length x = n /\ length y = m).
  { intros u Hu. exists (firstn n u), (skipn n u). rewrite firstn_skipn. destruct (split_len n m u Hu). auto. }
  destruct HQ as (_ & Qa & Qs). split; [|split].
  - intros u Hu. destruct (D u Hu) as (x & y & -> & Hx & Hy). rewrite kkt_reg_app by assumption.
    rewrite app_length, !vadd_length, !smul_length, T, QL, M by assumption. unfold vec in *; lia.
  - intros u v Hu Hv. destruct (D u Hu) as (x & y & -> & Hx & Hy). destruct (D v Hv) as (x' & y' & -> & Hx' & Hy').
    rewrite vadd_app by congruence.
    assert (L1 : length (vadd x x') = n) by (apply vadd_length_eq; assumption). assert (L2 : length (vadd y y') = m) by (apply vadd_length_eq; assumption).
    rewrite !kkt_reg_app by assumption. rewrite Qa, mvec_vadd, (tvec_vadd m) by assumption.
    rewrite vadd_app by (rewrite !vadd_length, !smul_length, !T, !QL by assumption; unfold vec in *; lia). f_equal.
    + apply vec_eq_dot; [rewrite !vadd_length, !smul_length, !vadd_length, !T, !QL by assumption; unfold vec in *; lia|]. intros w. vring.
    + apply vec_eq_dot; [rewrite !vadd_length, !smul_length, !vadd_length, !M; unfold vec in *; lia|]. intros w. vring.
  - intros a u Hu. destruct (D u Hu) as (x & y & -> & Hx & Hy). rewrite smul_app.
    rewrite !kkt_reg_app by (rewrite ?smul_length; assumption). rewrite Qs, mvec_smul, (tvec_smul m) by assumption. rewrite smul_app. f_equal.
    + apply vec_eq_dot; [repeat (rewrite vadd_length || rewrite smul_length); rewrite ?T, ?M, ?QL by assumption; unfold vec in *; lia|]. intros w. vring.
    + apply vec_eq_dot; [repeat (rewrite vadd_length || rewrite smul_length); rewrite ?T, ?M, ?QL by assumption; unfold vec in *; lia|]. intros w. vring.
Qed.
End Op.
