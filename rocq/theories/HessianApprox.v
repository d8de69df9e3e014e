(** The inverse of the BFGS matrix: its update, trace and determinant. *)
From Coq Require Import String.
From Coq Require Import Reals List Lra Lia Arith Psatz.
From Verif Require Import Prelude Vec Mat QuasiNewton QuasiNewtonProofs Pivots.
Import ListNotations.
Open Scope R_scope.

(** ** From lists to functions *)
Definition fm (B : mat) : fmat := entry B.
Lemma fsum_dot x : forall y, fsum (length x) (fun i => nth i x 0 * nth i y 0) = dot x y.
Proof.
  induction x as [|a x IH]; intros y; [destruct y; reflexivity|]. simpl fsum. destruct y as [|b y].
  - rewrite (fsum_ext (length x) _ (fun _ => 0)); [rewrite fsum_zero; simpl; ring|]. intros i _. simpl. ring.
  - change (nth 0 (b :: y) 0) with b. rewrite (fsum_ext (length x) _ (fun i => nth i x 0 * nth i y 0)) by reflexivity. rewrite IH. simpl. ring.
Qed.
Lemma fm_row n B z i : mat_shape n n B -> length z = n -> fsum n (fun j => fm B i j * nth j z 0) = nth i (mvec B z) 0.
Proof.
  intros HB Hz. rewrite nth_mvec. unfold fm, entry. destruct (lt_dec i n) as [Hi|Hi].
  - rewrite <- (row_length n n B i HB Hi) at 1. apply fsum_dot.
  - rewrite (nth_overflow B) by (destruct HB as [-> _]; lia). rewrite (fsum_ext n _ (fun _ => 0)); [rewrite fsum_zero; destruct z; reflexivity|].
    intros j _. destruct j; simpl; ring.
Qed.
Lemma fm_quad n B v : mat_shape n n B -> length v = n -> fquad n (fm B) (fun i => nth i v 0) = dot v (mvec B v).
Proof.
  intros HB Hv. unfold fquad. rewrite <- Hv at 1. rewrite <- fsum_dot. apply fsum_ext. intros i _. f_equal. apply fm_row; assumption.
Qed.
Lemma entry_out n B i j : mat_shape n n B -> ~ ((i < n)%nat /\ (j < n)%nat) -> entry B i j = 0.
Proof.
  intros HB H. unfold entry. destruct (lt_dec i n) as [Hi|Hi].
  - apply nth_overflow. rewrite (row_length n n B i HB Hi). lia.
  - rewrite (nth_overflow B) by (destruct HB as [-> _]; lia). destruct j; reflexivity.
Qed.
Lemma fm_sym n B : mat_shape n n B -> symmetric n B -> fsym (fm B).
Proof.
  intros HB Hs i j. unfold fm. destruct (lt_dec i n) as [Hi|Hi], (lt_dec j n) as [Hj|Hj]; [apply Hs; assumption| | |];
  rewrite !(entry_out n) by (assumption || lia); reflexivity.
Qed.
Lemma fm_pd n B : mat_shape n n B -> pos_def n B -> fpd n (fm B).
Proof.
  intros HB Hp v (i & Hi & Hv). set (l := map v (seq 0 n)).
  assert (Hl : length l = n) by (unfold l; rewrite map_length, seq_length; reflexivity).
  assert (Hn : forall j, (j < n)%nat -> nth j l 0 = v j).
  { intros j Hj. unfold l. rewrite (nth_indep _ 0 (v 0%nat)) by (rewrite map_length, seq_length; exact Hj). rewrite map_nth, seq_nth by exact Hj. reflexivity. }
  assert (Hq : fquad n (fm B) v = fquad n (fm B) (fun i => nth i l 0)).
  { unfold fquad. apply fsum_ext. intros j Hj. rewrite (Hn j Hj). f_equal. apply fsum_ext. intros k Hk. rewrite (Hn k Hk). reflexivity. }
  rewrite Hq, fm_quad by assumption. apply Hp; [exact Hl|]. intros E. apply Hv. rewrite <- (Hn i Hi), E. unfold vzero. apply nth_repeat.
Qed.
Lemma entry_rank1 n B sigma v i j : mat_shape n n B -> length v = n ->
  entry (madd B (msmul sigma (outer v v))) i j = entry B i j + sigma * (nth i v 0 * nth j v 0).
Proof.
  intros [HB1 _] Hv. unfold entry. revert v Hv i. revert n HB1. 
  assert (G : forall B u w i, length B = length u -> nth i (madd B (msmul sigma (outer u w))) [] = vadd (nth i B []) (smul sigma (smul (nth i u 0) w)) \/ (length u <= i)%nat).
  { clear. induction B as [|r B IH]; intros [|a u] w i; simpl; intros H; try discriminate; [right; lia|].
    destruct i as [|i]; [left; reflexivity|]. destruct (IH u w i ltac:(lia)) as [E|E]; [left; exact E|right; lia]. }
  intros n HB1 v Hv i. destruct (G B v v i ltac:(lia)) as [E|E].
  - rewrite E, nth_vadd, !nth_smul. ring.
  - rewrite (nth_overflow v) by exact E. rewrite (nth_overflow B) by lia.
    rewrite (nth_overflow (madd _ _)); [destruct j; simpl; ring|].
    assert (Hlen : forall A C, length A = length C -> length (madd A C) = length A).
    { clear. induction A as [|a A IH]; intros [|c C] H; try discriminate; [reflexivity|]. simpl. rewrite IH by (simpl in H; lia). reflexivity. }
    rewrite Hlen; [lia|]. unfold msmul, outer. rewrite !map_length. lia.
Qed.
Definition trace (n : nat) (B : mat) : R := ftrace n (fm B).
Definition pivot_product (n : nat) (B : mat) : R := pivots n (fm B).
Lemma trace_rank1 n B sigma v : mat_shape n n B -> length v = n ->
  trace n (madd B (msmul sigma (outer v v))) = trace n B + sigma * dot v v.
Proof.
  intros HB Hv. unfold trace, ftrace, fm. rewrite (fsum_ext n _ (fun i => entry B i i + sigma * (nth i v 0 * nth i v 0))) by (intros i _; apply (entry_rank1 n); assumption).
  rewrite fsum_plus, fsum_scal. rewrite <- (fsum_dot v v), Hv. reflexivity.
Qed.
Lemma trace_eye n : trace n (eye n) = INR n.
Proof.
  unfold trace, ftrace, fm. rewrite (fsum_ext n _ (fun _ => 1)).
  - induction n as [|n IH]; [reflexivity|]. cbn [fsum]. rewrite IH, S_INR. ring.
  - intros i Hi. unfold entry, eye. rewrite (nth_indep _ [] (unit_vec n 0)) by (rewrite map_length, seq_length; exact Hi).
    rewrite map_nth, seq_nth by exact Hi. rewrite nth_unit_vec by exact Hi. destruct (Nat.eq_dec (0 + i) i); [reflexivity|lia].
Qed.
Lemma pivot_product_eye n : pivot_product n (eye n) = 1.
Proof.
  apply pivots_eye. intros i j. unfold fm. destruct (lt_dec i n) as [Hi|Hi], (lt_dec j n) as [Hj|Hj].
  - unfold entry, eye. rewrite (nth_indep _ [] (unit_vec n 0)) by (rewrite map_length, seq_length; exact Hi).
    rewrite map_nth, seq_nth by exact Hi. rewrite nth_unit_vec by exact Hj. simpl. reflexivity.
  - rewrite (entry_out n) by (apply eye_shape || lia). destruct (Nat.eq_dec i j); [lia|reflexivity].
  - rewrite (entry_out n) by (apply eye_shape || lia). destruct (Nat.eq_dec i j); reflexivity.
  - rewrite (entry_out n) by (apply eye_shape || lia). destruct (Nat.eq_dec i j); reflexivity.
Qed.
Lemma pivot_product_rank1 n B sigma v z : mat_shape n n B -> symmetric n B -> pos_def n B -> length v = n -> length z = n ->
  symmetric n (madd B (msmul sigma (outer v v))) -> pos_def n (madd B (msmul sigma (outer v v))) -> mvec B z = v ->
  pivot_product n (madd B (msmul sigma (outer v v))) = pivot_product n B * (1 + sigma * dot v z).
Proof.
  intros HB Hs Hp Hv Hz Hs' Hp' E. unfold pivot_product.
  assert (HB' : mat_shape n n (madd B (msmul sigma (outer v v)))).
  { apply madd_shape; [exact HB|]. apply msmul_shape. rewrite <- Hv. apply outer_shape. }
  set (F := fun i j => fm B i j + sigma * (nth i v 0 * nth j v 0)).
  assert (EF : forall i j, fm (madd B (msmul sigma (outer v v))) i j = F i j) by (intros i j; apply (entry_rank1 n); assumption).
  rewrite (pivots_ext n _ F EF). rewrite <- (fsum_dot v z), Hv. unfold F.
  apply pivots_rank1 with (v := fun i => nth i v 0) (z := fun i => nth i z 0).
  - apply (fm_sym n); assumption.
  - apply fpd_pivots; [apply (fm_sym n); assumption|apply fm_pd; assumption].
  - apply (pivots_pos_ext n _ _ EF). apply fpd_pivots; [apply (fm_sym n); assumption|apply fm_pd; assumption].
  - intros i. rewrite (fm_row n) by assumption. rewrite E. reflexivity.
Qed.
Lemma pivot_product_trace n B : mat_shape n n B -> symmetric n B -> pos_def n B ->
  0 < pivot_product n B <= trace n B ^ n /\ 0 <= trace n B.
Proof.
  intros HB Hs Hp. assert (P : pivots_pos n (fm B)) by (apply fpd_pivots; [apply (fm_sym n); assumption|apply fm_pd; assumption]).
  destruct (pivots_trace n (fm B) (fm_sym n B HB Hs) P) as [T1 T2]. split; [split; [apply pivots_positive; exact P|exact T2]|exact T1].
Qed.

(** ** The update of the inverse *)
Section Inverse.
Variables (n : nat) (B H : mat) (s y : vec).
Hypothesis HB : mat_shape n n B.
Hypothesis SB : symmetric n B.
Hypothesis PB : pos_def n B.
Hypothesis HH : mat_shape n n H.
Hypothesis Inv : forall v, length v = n -> mvec B (mvec H v) = v.
Hypothesis Hs : length s = n.
Hypothesis Hy : length y = n.
Hypothesis Hys : 0 < dot y s.
Let bs := mvec B s.
Let q := dot s bs.
Definition hess1 : mat := madd B (msmul (/ dot y s) (outer y y)).
Definition hess2 : mat := madd hess1 (msmul (- / dot s (mvec B s)) (outer (mvec B s) (mvec B s))).

Lemma hess_bs : length bs = n. Proof. unfold bs. rewrite mvec_length. apply HB. Qed.
Lemma hess_q : 0 < q.
Proof. apply PB; [exact Hs|]. intros E. rewrite E, dot_vzero_r in Hys. lra. Qed.
Lemma hess1_shape : mat_shape n n hess1.
Proof. apply madd_shape; [exact HB|]. apply msmul_shape. rewrite <- Hy. apply outer_shape. Qed.
Lemma hess2_shape : mat_shape n n hess2.
Proof. apply madd_shape; [apply hess1_shape|]. apply msmul_shape. pose proof hess_bs as E. unfold bs in E. rewrite <- E at 1 2. apply outer_shape. Qed.
Lemma mvec_rank1 A sigma v w : mat_shape n n A -> length v = n -> mvec (madd A (msmul sigma (outer v v))) w = vadd (mvec A w) (smul (sigma * dot v w) v).
Proof.
  intros [HA _] Hv. rewrite mvec_madd; [|unfold msmul, outer; rewrite !map_length; unfold vec, mat in *; lia].
  rewrite mvec_msmul, mvec_outer, smul_smul. reflexivity.
Qed.
Lemma rank1_sym A sigma v : mat_shape n n A -> length v = n -> symmetric n A -> symmetric n (madd A (msmul sigma (outer v v))).
Proof. intros HA Hv Hs' i j Hi Hj. rewrite !(entry_rank1 n) by assumption. rewrite (Hs' i j Hi Hj). ring. Qed.
Lemma hess1_sym : symmetric n hess1. Proof. apply rank1_sym; assumption. Qed.
Lemma hess2_sym : symmetric n hess2. Proof. apply rank1_sym; [apply hess1_shape|apply hess_bs|apply hess1_sym]. Qed.
Lemma hess1_pd : pos_def n hess1.
Proof.
  intros v Hv Hn. unfold hess1. rewrite mvec_rank1 by assumption. rewrite dot_vadd_r, dot_smul_r, (dot_comm y v).
  specialize (PB v Hv Hn). assert (0 <= / dot y s * dot v y * dot v y).
  { rewrite Rmult_assoc. apply Rmult_le_pos; [left; apply Rinv_0_lt_compat; exact Hys|apply Rle_0_sqr]. }
  lra.
Qed.
Lemma hess2_pd : pos_def n hess2.
Proof.
  intros v Hv Hn. unfold hess2. fold bs q. rewrite mvec_rank1 by (apply hess1_shape || apply hess_bs). unfold hess1. rewrite mvec_rank1 by assumption.
  rewrite !dot_vadd_r, !dot_smul_r, (dot_comm y v), (dot_comm bs v). pose proof hess_q as Q0.
  set (al := dot v bs / q). set (u := vsub v (smul al s)).
  assert (Hu : length u = n) by (unfold u; rewrite vsub_length, smul_length; lia).
  assert (E : dot u (mvec B u) = dot v (mvec B v) + - / q * dot v bs * dot v bs).
  { unfold u. rewrite mvec_vsub, mvec_smul. fold bs.
    assert (Sy : dot s (mvec B v) = dot v bs) by (unfold bs; apply (sym_dot n); assumption).
    rewrite !dot_vsub_l, !dot_vsub_r, !dot_smul_l, !dot_smul_r, Sy. fold q. unfold al. field. lra. }
  assert (Y0 : 0 <= / dot y s * dot v y * dot v y).
  { rewrite Rmult_assoc. apply Rmult_le_pos; [left; apply Rinv_0_lt_compat; exact Hys|apply Rle_0_sqr]. }
  destruct (Req_dec (dot u u) 0) as [Z|Z].
  - assert (U0 : forall w, dot u w = 0).
    { intros w. pose proof (dot_self_zero u Z) as Eu. rewrite Eu. apply dot_vzero_l. }
    pose proof (U0 (mvec B u)) as U1. pose proof (U0 y) as U2. unfold u in U2. rewrite dot_vsub_l, dot_smul_l, (dot_comm s y) in U2.
    assert (Al : al <> 0).
    { intros Al. apply Hn. assert (Ev : dot v v = 0).
      { pose proof (U0 v) as U3. unfold u in U3. rewrite dot_vsub_l, dot_smul_l, Al in U3. lra. }
      pose proof (dot_self_zero v Ev) as R0. rewrite Hv in R0. exact R0. }
    assert (V0 : dot v y = al * dot y s) by lra.
    assert (0 < / dot y s * dot v y * dot v y).
    { rewrite V0. replace (/ dot y s * (al * dot y s) * (al * dot y s)) with (al * al * dot y s) by (field; lra).
      apply Rmult_lt_0_compat; [nra|exact Hys]. }
    lra.
  - assert (0 < dot u (mvec B u)).
    { apply PB; [exact Hu|]. intros Eu. apply Z. rewrite Eu. apply dot_vzero_l. }
    lra.
Qed.
Lemma hess2_inverse v : length v = n -> mvec hess2 (mvec (bfgs_matrix_update H s y) v) = v.
Proof.
  intros Hv. pose proof hess_q as Q0. rewrite (mvec_update n) by (assumption || lra).
  set (rho := / dot y s). set (u := wt rho s y v). assert (Hu : length u = n) by (apply wt_length; assumption).
  set (hu := mvec H u). assert (Hhu : length hu = n) by (unfold hu; rewrite mvec_length; apply HH).
  set (w := vadd (w_op rho s y hu) (smul (rho * dot s v) s)).
  assert (Rho : rho * dot y s = 1) by (apply Rinv_l; lra).
  assert (Hw : length w = n) by (unfold w, w_op; rewrite vadd_length, vsub_length, !smul_length; lia).
  assert (Bw : mvec B w = vadd (vsub u (smul (rho * dot y hu) bs)) (smul (rho * dot s v) bs)).
  { unfold w, w_op. rewrite mvec_vadd, mvec_vsub, !mvec_smul. unfold hu at 1. rewrite Inv by exact Hu. reflexivity. }
  assert (Yw : dot y w = dot s v).
  { unfold w, w_op. rewrite dot_vadd_r, dot_vsub_r, !dot_smul_r.
    replace (dot y hu - rho * dot y hu * dot y s + rho * dot s v * dot y s) with (dot y hu - (rho * dot y s) * dot y hu + (rho * dot y s) * dot s v) by ring. rewrite Rho. ring. }
  assert (Su : dot s u = 0).
  { unfold u, wt. rewrite dot_vsub_r, dot_smul_r, (dot_comm s y). replace (rho * dot s v * dot y s) with ((rho * dot y s) * dot s v) by ring. rewrite Rho. ring. }
  assert (Sw : dot bs w = (rho * dot s v - rho * dot y hu) * q).
  { rewrite dot_comm. unfold bs. rewrite (sym_dot n B w s) by assumption. rewrite Bw, dot_vadd_r, dot_vsub_r, !dot_smul_r, Su. fold q. ring. }
  unfold hess2. fold bs q. rewrite mvec_rank1 by (apply hess1_shape || apply hess_bs). unfold hess1. rewrite mvec_rank1 by assumption.
  rewrite Bw, Yw, Sw. fold rho. replace (- / q * ((rho * dot s v - rho * dot y hu) * q)) with (rho * dot y hu - rho * dot s v) by (field; lra).
  pose proof hess_bs as Hb. apply vec_eq_dot_len.
  - rewrite !vadd_length, vsub_length, !smul_length. lia.
  - intros x _. unfold u, wt. vring.
Qed.
Lemma hess2_trace : trace n hess2 = trace n B + dot y y / dot y s - dot bs bs / q.
Proof.
  unfold hess2. rewrite trace_rank1 by (apply hess1_shape || apply hess_bs). unfold hess1. rewrite trace_rank1 by assumption. fold bs q. unfold Rdiv. ring.
Qed.
Lemma hess2_pivots : pivot_product n hess2 = pivot_product n B * (dot y s / q).
Proof.
  pose proof hess_q as Q0. set (hy := mvec H y). assert (Hhy : length hy = n) by (unfold hy; rewrite mvec_length; apply HH).
  assert (P1 : pivot_product n hess1 = pivot_product n B * (1 + / dot y s * dot y hy)).
  { apply pivot_product_rank1; auto; [apply hess1_sym|apply hess1_pd|apply Inv; exact Hy]. }
  set (tau := / dot y s * dot y hy) in *.
  assert (T0 : 0 <= dot y hy).
  { replace (dot y hy) with (dot hy (mvec B hy)) by (unfold hy at 2; rewrite Inv by exact Hy; apply dot_comm).
    destruct (Req_dec (dot hy hy) 0) as [Z|Z].
    - pose proof (dot_self_zero hy Z) as E. rewrite E at 1. rewrite dot_vzero_l. lra.
    - left. apply PB; [exact Hhy|]. intros E. apply Z. rewrite E. apply dot_vzero_l. }
  assert (Tau : 0 <= tau) by (apply Rmult_le_pos; [left; apply Rinv_0_lt_compat; exact Hys|exact T0]).
  set (z := vsub s (smul (/ (1 + tau)) hy)).
  assert (Hz : length z = n) by (unfold z; rewrite vsub_length, smul_length; lia).
  assert (Ez : mvec hess1 z = bs).
  { unfold hess1. rewrite mvec_rank1 by assumption. unfold z. rewrite mvec_vsub, mvec_smul. unfold hy at 1. rewrite Inv by exact Hy. fold bs.
    rewrite dot_vsub_r, dot_smul_r. pose proof hess_bs as Hb.
    replace (/ dot y s * (dot y s - / (1 + tau) * dot y hy)) with (/ (1 + tau)).
    - apply vec_eq_dot_len; [rewrite vadd_length, vsub_length, !smul_length; lia|]. intros x _. vring.
    - assert (Et : dot y hy = tau * dot y s) by (unfold tau; field; lra). rewrite Et. field. split; lra. }
  unfold hess2. fold bs q.
  assert (P2 : pivot_product n (madd hess1 (msmul (- / q) (outer bs bs))) = pivot_product n hess1 * (1 + - / q * dot bs z)).
  { apply pivot_product_rank1; [apply hess1_shape|apply hess1_sym|apply hess1_pd|apply hess_bs|exact Hz|apply hess2_sym|apply hess2_pd|exact Ez]. }
  rewrite P2, P1. assert (Bz : dot bs z = q - / (1 + tau) * dot y s).
  { unfold z. rewrite dot_vsub_r, dot_smul_r, (dot_comm bs s). fold q. rewrite (dot_comm bs hy). unfold bs. rewrite (sym_dot n B hy s) by assumption.
    unfold hy. rewrite Inv by exact Hy. rewrite (dot_comm s y). ring. }
  rewrite Bz. field. split; lra.
Qed.
End Inverse.
