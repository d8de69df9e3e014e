(** The compact L-BFGS matrix of lbfgsb.py:412-447 is well defined, symmetric and positive definite. *)
From Coq Require Import String Reals List Bool Arith Lra Lia.
From Verif Require Import Prelude Base Vec Mat XArith LinAlg Loss LossProofs QuasiNewton QuasiNewtonProofs Lbfgsb.
Import ListNotations.
Open Scope R_scope.

Lemma tab_length {A} n (f : nat -> A) : length (tab n f) = n. Proof. unfold tab. rewrite map_length, seq_length. reflexivity. Qed.
Lemma nth_tab {A} n (f : nat -> A) i d : (i < n)%nat -> nth i (tab n f) d = f i.
Proof. intros H. unfold tab. rewrite (nth_indep _ d (f 0%nat)) by (rewrite map_length, seq_length; exact H). rewrite map_nth. f_equal. apply seq_nth. exact H. Qed.
Lemma tab_ext {A} n (f g : nat -> A) : (forall i, (i < n)%nat -> f i = g i) -> tab n f = tab n g.
Proof. intros H. apply map_ext_in. intros i Hi. apply H. apply in_seq in Hi. lia. Qed.
Lemma tab_S {A} n (f : nat -> A) : tab (S n) f = tab n f ++ [f n].
Proof. unfold tab. rewrite seq_S, map_app. reflexivity. Qed.
Lemma tab_nth n (v : vec) : length v = n -> tab n (fun i => nth i v 0) = v.
Proof. intros H. apply vec_ext; [rewrite tab_length; congruence|]. intros i Hi. rewrite tab_length in Hi. rewrite nth_tab by exact Hi. reflexivity. Qed.

Definition sumn (n : nat) (f : nat -> R) : R := vsum (tab n f).
Lemma sumn_S n f : sumn (S n) f = sumn n f + f n.
Proof. unfold sumn. rewrite tab_S, vsum_app. cbn [vsum]. lra. Qed.
Lemma sumn_0 f : sumn 0 f = 0. Proof. reflexivity. Qed.
Lemma sumn_ext n f g : (forall i, (i < n)%nat -> f i = g i) -> sumn n f = sumn n g.
Proof. intros H. unfold sumn. f_equal. apply tab_ext. exact H. Qed.
Lemma sumn_zero n f : (forall i, (i < n)%nat -> f i = 0) -> sumn n f = 0.
Proof. intros H. induction n as [|n IH]; [reflexivity|]. rewrite sumn_S, IH by (intros; apply H; lia). rewrite H by lia. lra. Qed.
Lemma sumn_plus n f g : sumn n (fun i => f i + g i) = sumn n f + sumn n g.
Proof. induction n as [|n IH]; [rewrite !sumn_0; lra|]. rewrite !sumn_S, IH. lra. Qed.
Lemma sumn_minus n f g : sumn n (fun i => f i - g i) = sumn n f - sumn n g.
Proof. induction n as [|n IH]; [rewrite !sumn_0; lra|]. rewrite !sumn_S, IH. lra. Qed.
Lemma sumn_scal n a f : sumn n (fun i => a * f i) = a * sumn n f.
Proof. induction n as [|n IH]; [rewrite !sumn_0; lra|]. rewrite !sumn_S, IH. lra. Qed.
Lemma sumn_swap n k (a : nat -> nat -> R) : sumn n (fun i => sumn k (a i)) = sumn k (fun j => sumn n (fun i => a i j)).
Proof.
  induction n as [|n IH]; [rewrite sumn_0; symmetry; apply sumn_zero; reflexivity|].
  rewrite sumn_S, IH, <- sumn_plus. apply sumn_ext. intros j _. rewrite sumn_S. reflexivity.
Qed.
Lemma sumn_nonneg n f : (forall i, (i < n)%nat -> 0 <= f i) -> 0 <= sumn n f.
Proof. intros H. induction n as [|n IH]; [rewrite sumn_0; lra|]. rewrite sumn_S. assert (0 <= f n) by (apply H; lia). assert (0 <= sumn n f) by (apply IH; intros; apply H; lia). lra. Qed.
Lemma sumn_nonneg_zero n f : (forall i, (i < n)%nat -> 0 <= f i) -> sumn n f = 0 -> forall i, (i < n)%nat -> f i = 0.
Proof.
  intros H. induction n as [|n IH]; intros E i Hi; [lia|]. rewrite sumn_S in E.
  assert (H1 : 0 <= f n) by (apply H; lia). assert (H2 : 0 <= sumn n f) by (apply sumn_nonneg; intros; apply H; lia).
  destruct (Nat.eq_dec i n) as [->|N]; [lra|]. apply IH; [intros; apply H; lia|lra|lia].
Qed.
Lemma sumn_single n i f : (i < n)%nat -> (forall j, (j < n)%nat -> j <> i -> f j = 0) -> sumn n f = f i.
Proof.
  induction n as [|n IH]; intros Hi H; [lia|]. rewrite sumn_S. destruct (Nat.eq_dec i n) as [->|N].
  - rewrite sumn_zero by (intros; apply H; lia). lra.
  - rewrite IH by (try lia; intros; apply H; lia). rewrite (H n) by lia. lra.
Qed.
Lemma dot_sumn n (u v : vec) : length u = n -> length v = n -> dot u v = sumn n (fun i => nth i u 0 * nth i v 0).
Proof.
  revert u v. induction n as [|n IH]; intros u v Hu Hv; [destruct u; [reflexivity|discriminate]|].
  destruct u as [|a u _] using rev_ind; [discriminate|]. destruct v as [|b v _] using rev_ind; [discriminate|].
  rewrite app_length in Hu, Hv. cbn in Hu, Hv. assert (Lu : length u = n) by lia. assert (Lv : length v = n) by lia.
  rewrite dot_app by congruence. rewrite sumn_S, (IH u v) by assumption.
  rewrite !app_nth2 by lia. rewrite Lu, Lv, Nat.sub_diag. cbn [nth dot]. f_equal; [|lra].
  apply sumn_ext. intros i Hi. rewrite !app_nth1 by lia. reflexivity.
Qed.
Lemma tvec_sumn h n S (a z : vec) : mat_shape h n S -> length a = h -> dot (tvec n S a) z = sumn h (fun i => nth i a 0 * dot (nth i S []) z).
Proof.
  intros HS Ha. rewrite dot_tvec. rewrite (dot_sumn h) by (rewrite ?mvec_length; try apply HS; assumption).
  apply sumn_ext. intros i _. rewrite nth_mvec. reflexivity.
Qed.
Lemma app_tab (q : vec) h : length q = (2 * h)%nat -> q = tab h (fun i => nth i q 0) ++ tab h (fun i => nth (h + i) q 0).
Proof.
  intros H. apply vec_ext; [rewrite app_length, !tab_length; lia|]. intros i Hi. rewrite H in Hi.
  destruct (Nat.lt_ge_cases i h) as [C|C].
  - rewrite app_nth1 by (rewrite tab_length; exact C). rewrite nth_tab by exact C. reflexivity.
  - rewrite app_nth2 by (rewrite tab_length; lia). rewrite tab_length, nth_tab by lia. f_equal. lia.
Qed.
Lemma hcat_nth A B i : length A = length B -> nth i (hcat A B) [] = nth i A [] ++ nth i B [].
Proof.
  revert B i. induction A as [|a A IH]; intros [|b B] i H; try discriminate; [destruct i; reflexivity|].
  destruct i; [reflexivity|]. cbn [hcat nth]. apply IH. injection H. auto.
Qed.
Lemma hcat_length A B : length A = length B -> length (hcat A B) = length A.
Proof. revert B. induction A as [|a A IH]; intros [|b B] H; try discriminate; [reflexivity|]. cbn. f_equal. apply IH. injection H. auto. Qed.

Section Inv.
Variables (n h k : nat) (theta : R) (sh yh : list vec).
Hypothesis G : good_history n h k theta sh yh.
Let s := s_at sh. Let y := y_at yh.
Let T : 0 < theta := gh_theta _ _ _ _ _ _ G.
Lemma s_len i : (i < h)%nat -> length (s i) = n. Proof. intros H. apply (row_length h n); [apply (gh_s _ _ _ _ _ _ G)|exact H]. Qed.
Lemma y_len i : (i < h)%nat -> length (y i) = n. Proof. intros H. apply (row_length h n); [apply (gh_y _ _ _ _ _ _ G)|exact H]. Qed.

(** the diagonal of the first block: -s.y, or the positive fill value *)
Definition dg i := -1 * dot (s i) (y i) + unused k i * fill_diag_syt h k sh yh.
Definition adj i := unused k i * fill_diag_sst h k sh * theta.
Lemma prev_used i : (i < h)%nat -> (k <= i)%nat -> (0 < k)%nat -> (prev_ind h k < h)%nat /\ (prev_ind h k < k)%nat.
Proof. intros H1 H2 H3. unfold prev_ind. rewrite Nat.mod_small by lia. destruct k; lia. Qed.
Lemma s_nonzero i : (i < h)%nat -> (i < k)%nat -> 0 < dot (s i) (s i).
Proof.
  intros H1 H2. destruct (dot_self_nonneg (s i)) as [P|P]; [exact P|]. exfalso. symmetry in P. apply dot_self_zero in P.
  assert (Q := gh_used _ _ _ _ _ _ G i H1 H2). fold (s i) (y i) in Q. rewrite P, dot_vzero_l in Q. lra.
Qed.
Lemma dg_used i : (i < h)%nat -> (i < k)%nat -> dg i = - dot (s i) (y i) /\ adj i = 0.
Proof. intros H1 H2. unfold dg, adj, unused. replace (Nat.leb k i) with false by (symmetry; apply Nat.leb_gt; lia). split; lra. Qed.
Lemma dg_unused i : (i < h)%nat -> (k <= i)%nat -> 0 < dg i /\ 0 < adj i.
Proof.
  intros H1 H2. unfold dg, adj, unused. replace (Nat.leb k i) with true by (symmetry; apply Nat.leb_le; lia).
  destruct (gh_unused _ _ _ _ _ _ G i H1 H2) as [Es _]. fold (s i) in Es. rewrite Es, dot_vzero_l.
  assert (F1 : 0 < fill_diag_syt h k sh yh).
  { unfold fill_diag_syt. destruct (Nat.ltb 0 k) eqn:E; [|lra]. apply Nat.ltb_lt in E. destruct (prev_used i H1 H2 E). apply (gh_used _ _ _ _ _ _ G); assumption. }
  assert (F2 : 0 < fill_diag_sst h k sh).
  { unfold fill_diag_sst. destruct (Nat.ltb 0 k) eqn:E; [|lra]. apply Nat.ltb_lt in E. destruct (prev_used i H1 H2 E). apply s_nonzero; assumption. }
  split; [lra|]. rewrite Rmult_1_l. apply Rmult_lt_0_compat; [exact F2|exact T].
Qed.

Lemma m_inv_shape : mat_shape (2 * h) (2 * h) (m_inv h k theta sh yh).
Proof.
  unfold m_inv.
  assert (L1 : length (diag_block h k sh yh) = h) by apply tab_length. assert (L2 : length (lower_tril h sh yh) = h) by apply tab_length.
  assert (L3 : length (sst_block h k theta sh) = h) by apply tab_length.
  assert (LT : length (mtrans h (lower_tril h sh yh)) = h) by (unfold mtrans; rewrite map_length, seq_length; reflexivity).
  split.
  - rewrite app_length, !hcat_length by congruence. lia.
  - apply Forall_forall. intros r Hr. apply in_app_or in Hr. destruct Hr as [Hr|Hr].
    + apply (In_nth _ _ []) in Hr. destruct Hr as (i & Hi & <-). rewrite hcat_length in Hi by congruence. rewrite hcat_nth by congruence.
      rewrite app_length. unfold diag_block at 1. rewrite nth_tab by lia. rewrite tab_length.
      rewrite (row_length h h) by (try lia; apply mtrans_shape; apply tab_length). lia.
    + apply (In_nth _ _ []) in Hr. destruct Hr as (i & Hi & <-). rewrite hcat_length in Hi by congruence. rewrite hcat_nth by congruence.
      rewrite app_length. unfold lower_tril, sst_block. rewrite !nth_tab by lia. rewrite !tab_length. lia.
Qed.

(** sum of q2_j s_j *)
Definition sq2 (q : vec) : vec := tvec n sh (tab h (fun j => nth (h + j) q 0)).
Lemma sq2_dot q z : dot (sq2 q) z = sumn h (fun j => nth (h + j) q 0 * dot (s j) z).
Proof.
  unfold sq2. rewrite (tvec_sumn h n) by (try apply (gh_s _ _ _ _ _ _ G); apply tab_length).
  apply sumn_ext. intros i Hi. rewrite nth_tab by exact Hi. reflexivity.
Qed.
Lemma sq2_length q : length (sq2 q) = n. Proof. apply (tvec_length h). apply (gh_s _ _ _ _ _ _ G). Qed.

(** the two block rows of the system m_inv q = r *)
Lemma row1 q i : length q = (2 * h)%nat -> (i < h)%nat ->
  nth i (mvec (m_inv h k theta sh yh) q) 0 = dg i * nth i q 0 + sumn h (fun j => (if Nat.ltb i j then dot (s j) (y i) else 0) * nth (h + j) q 0).
Proof.
  intros Hq Hi. rewrite nth_mvec. unfold m_inv.
  assert (LT : length (mtrans h (lower_tril h sh yh)) = h) by (unfold mtrans; rewrite map_length, seq_length; reflexivity).
  assert (L1 : length (diag_block h k sh yh) = h) by apply tab_length.
  rewrite app_nth1 by (rewrite hcat_length by congruence; lia). rewrite hcat_nth by congruence.
  rewrite (app_tab q h) at 1 by exact Hq. unfold diag_block. rewrite nth_tab by exact Hi. rewrite dot_app by (rewrite !tab_length; reflexivity).
  f_equal.
  - rewrite (dot_sumn h) by apply tab_length. rewrite (sumn_single h i) by (try exact Hi; intros j Hj N; rewrite !nth_tab by exact Hj;
      replace (Nat.eqb i j) with false by (symmetry; apply Nat.eqb_neq; congruence); lra).
    rewrite !nth_tab by exact Hi. rewrite Nat.eqb_refl. reflexivity.
  - rewrite (dot_sumn h) by (first [apply tab_length | apply (row_length h h); [apply mtrans_shape; apply tab_length|exact Hi]]).
    apply sumn_ext. intros j Hj. rewrite nth_tab by exact Hj. f_equal.
    unfold mtrans. change (map (fun j0 : nat => map (fun r : list R => nth j0 r 0) (lower_tril h sh yh)) (seq 0 h))
      with (tab h (fun j0 : nat => map (fun r : list R => nth j0 r 0) (lower_tril h sh yh))).
    rewrite nth_tab by exact Hi. unfold lower_tril, tab at 1. rewrite map_map.
    change (nth j (tab h (fun x => nth i (tab h (fun j0 => if (j0 <? x)%nat then dot (s_at sh x) (y_at yh j0) else 0)) 0)) 0 = if Nat.ltb i j then dot (s j) (y i) else 0).
    rewrite nth_tab by exact Hj. rewrite nth_tab by exact Hi. reflexivity.
Qed.
Lemma row2 q i : length q = (2 * h)%nat -> (i < h)%nat ->
  nth (h + i) (mvec (m_inv h k theta sh yh) q) 0 =
  sumn h (fun j => (if Nat.ltb j i then dot (s i) (y j) else 0) * nth j q 0) + adj i * nth (h + i) q 0 + theta * dot (sq2 q) (s i).
Proof.
  intros Hq Hi. rewrite nth_mvec. unfold m_inv.
  assert (LT : length (mtrans h (lower_tril h sh yh)) = h) by (unfold mtrans; rewrite map_length, seq_length; reflexivity).
  assert (L1 : length (diag_block h k sh yh) = h) by apply tab_length. assert (L2 : length (lower_tril h sh yh) = h) by apply tab_length.
  assert (L3 : length (sst_block h k theta sh) = h) by apply tab_length.
  rewrite app_nth2 by (rewrite hcat_length by congruence; lia). rewrite hcat_length by congruence. rewrite hcat_nth by congruence.
  replace (h + i - length (diag_block h k sh yh))%nat with i by lia.
  rewrite (app_tab q h) at 1 by exact Hq. unfold lower_tril, sst_block. rewrite !nth_tab by exact Hi. rewrite dot_app by (rewrite !tab_length; reflexivity).
  rewrite Rplus_assoc. f_equal.
  - rewrite (dot_sumn h) by apply tab_length. apply sumn_ext. intros j Hj. rewrite !nth_tab by exact Hj. reflexivity.
  - rewrite (dot_sumn h) by apply tab_length. rewrite sq2_dot, <- sumn_scal.
    transitivity (sumn h (fun j => (if Nat.eqb i j then adj i else 0) * nth (h + j) q 0) + sumn h (fun j => theta * (nth (h + j) q 0 * dot (s j) (s i)))).
    + rewrite <- sumn_plus. apply sumn_ext. intros j Hj. rewrite !nth_tab by exact Hj.
      rewrite (dot_comm (s j) (s i)). unfold adj, s. destruct (Nat.eqb i j); ring.
    + f_equal. rewrite (sumn_single h i) by (try exact Hi; intros j Hj N; replace (Nat.eqb i j) with false by (symmetry; apply Nat.eqb_neq; congruence); lra).
      rewrite Nat.eqb_refl. reflexivity.
Qed.

(** q2.r2 - q1.r1 for r = m_inv q *)
Lemma quad_id q : length q = (2 * h)%nat -> let r := mvec (m_inv h k theta sh yh) q in
  sumn h (fun i => nth (h + i) r 0 * nth (h + i) q 0) - sumn h (fun i => nth i r 0 * nth i q 0) =
  theta * dot (sq2 q) (sq2 q) + sumn h (fun i => adj i * nth (h + i) q 0 ^ 2) - sumn h (fun i => dg i * nth i q 0 ^ 2).
Proof.
  intros Hq r.
  rewrite (sumn_ext h (fun i => nth (h + i) r 0 * nth (h + i) q 0)
    (fun i => sumn h (fun j => (if Nat.ltb j i then dot (s i) (y j) else 0) * nth j q 0 * nth (h + i) q 0) + adj i * nth (h + i) q 0 ^ 2 + theta * (nth (h + i) q 0 * dot (s i) (sq2 q)))).
  2:{ intros i Hi. unfold r. rewrite row2 by assumption. rewrite (dot_comm (sq2 q)).
      rewrite (sumn_ext h (fun j => (if Nat.ltb j i then dot (s i) (y j) else 0) * nth j q 0 * nth (h + i) q 0) (fun j => nth (h + i) q 0 * ((if Nat.ltb j i then dot (s i) (y j) else 0) * nth j q 0))) by (intros; ring).
      rewrite sumn_scal. ring. }
  rewrite !sumn_plus, sumn_scal, <- sq2_dot.
  rewrite (sumn_ext h (fun i => nth i r 0 * nth i q 0)
    (fun i => dg i * nth i q 0 ^ 2 + sumn h (fun j => (if Nat.ltb i j then dot (s j) (y i) else 0) * nth i q 0 * nth (h + j) q 0))).
  2:{ intros i Hi. unfold r. rewrite row1 by assumption.
      rewrite (sumn_ext h (fun j => (if Nat.ltb i j then dot (s j) (y i) else 0) * nth i q 0 * nth (h + j) q 0) (fun j => nth i q 0 * ((if Nat.ltb i j then dot (s j) (y i) else 0) * nth (h + j) q 0))) by (intros; ring).
      rewrite sumn_scal. ring. }
  rewrite sumn_plus. rewrite (sumn_swap h h (fun i j => (if Nat.ltb j i then dot (s i) (y j) else 0) * nth j q 0 * nth (h + i) q 0)). ring.
Qed.

(** forward substitution: a lower triangular system with positive diagonal *)
Lemma forward (a : nat -> nat -> R) (v : nat -> R) :
  (forall i, (i < h)%nat -> sumn h (fun j => (if Nat.leb j i then a i j else 0) * v j) = 0) ->
  (forall i, (i < h)%nat -> a i i <> 0 \/ v i = 0) -> forall i, (i < h)%nat -> v i = 0.
Proof.
  intros E D i. induction i as [i IH] using (well_founded_induction lt_wf). intros Hi. destruct (D i Hi) as [A|A]; [|exact A].
  specialize (E i Hi). rewrite (sumn_single h i) in E.
  - rewrite Nat.leb_refl in E. apply Rmult_integral in E. destruct E; [contradiction|assumption].
  - exact Hi.
  - intros j Hj N. destruct (Nat.leb j i) eqn:L; [|ring]. apply Nat.leb_le in L. rewrite (IH j) by lia. ring.
Qed.

(** If m_inv q = (Y z, theta S z) then z B z = theta |z - S^T q2|^2 + sum (s.y) q1^2, and it vanishes only for z = 0, q = 0. *)
Definition wz (z : vec) : vec := mvec (w_rows theta sh yh) z.
Lemma wz_length z : length (wz z) = (2 * h)%nat.
Proof. unfold wz, w_rows. rewrite mvec_length, app_length, map_length. destruct (gh_s _ _ _ _ _ _ G) as [-> _], (gh_y _ _ _ _ _ _ G) as [-> _]. lia. Qed.
Lemma wz1 z i : (i < h)%nat -> nth i (wz z) 0 = dot (y i) z.
Proof. intros Hi. unfold wz, w_rows. rewrite nth_mvec, app_nth1 by (destruct (gh_y _ _ _ _ _ _ G) as [-> _]; exact Hi). reflexivity. Qed.
Lemma wz2 z i : (i < h)%nat -> nth (h + i) (wz z) 0 = theta * dot (s i) z.
Proof.
  intros Hi. unfold wz, w_rows. destruct (gh_y _ _ _ _ _ _ G) as [Ly _]. rewrite nth_mvec, app_nth2 by lia. rewrite Ly. replace (h + i - h)%nat with i by lia.
  change (@nil R) with (smul theta []). rewrite map_nth. apply dot_smul_l.
Qed.
Section Sys.
Variables (z q : vec).
Hypothesis Hz : length z = n.
Hypothesis Hq : length q = (2 * h)%nat.
Hypothesis E : mvec (m_inv h k theta sh yh) q = wz z.
Lemma unused_zero i : (i < h)%nat -> (k <= i)%nat -> nth i q 0 = 0 /\ nth (h + i) q 0 = 0.
Proof.
  intros Hi Ki. destruct (dg_unused i Hi Ki) as [D A]. destruct (gh_unused _ _ _ _ _ _ G i Hi Ki) as [Es Ey]. fold (s i) in Es. fold (y i) in Ey. split.
  - assert (Q := row1 q i Hq Hi). rewrite E, wz1 in Q by exact Hi. rewrite Ey, dot_vzero_l in Q. rewrite sumn_zero in Q.
    + assert (P : dg i * nth i q 0 = 0) by lra. apply Rmult_integral in P. destruct P; lra.
    + intros j Hj. destruct (Nat.ltb i j); [|ring]. rewrite dot_vzero_r. ring.
  - assert (Q := row2 q i Hq Hi). rewrite E, wz2 in Q by exact Hi. rewrite Es, dot_vzero_l, dot_vzero_r in Q. rewrite sumn_zero in Q.
    + assert (P : adj i * nth (h + i) q 0 = 0) by lra. apply Rmult_integral in P. destruct P; lra.
    + intros j Hj. destruct (Nat.ltb j i); [|ring]. rewrite dot_vzero_l. ring.
Qed.
Definition curv i := if Nat.ltb i k then dot (s i) (y i) * nth i q 0 ^ 2 else 0.
Lemma bzz : theta * dot z z - dot (wz z) q = theta * dot (vsub z (sq2 q)) (vsub z (sq2 q)) + sumn h curv.
Proof.
  assert (Q := quad_id q Hq). cbv zeta in Q. rewrite E in Q.
  assert (A : sumn h (fun i => adj i * nth (h + i) q 0 ^ 2) = 0).
  { apply sumn_zero. intros i Hi. destruct (Nat.lt_ge_cases i k) as [C|C]; [destruct (dg_used i Hi C) as [_ ->]; ring|].
    destruct (unused_zero i Hi C) as [_ ->]. ring. }
  assert (D : sumn h (fun i => dg i * nth i q 0 ^ 2) = - sumn h curv).
  { replace (- sumn h curv) with (sumn h (fun i => -1 * curv i)) by (rewrite sumn_scal; ring). apply sumn_ext. intros i Hi. unfold curv. destruct (Nat.ltb i k) eqn:C.
    - apply Nat.ltb_lt in C. destruct (dg_used i Hi C) as [-> _]. ring.
    - apply Nat.ltb_ge in C. destruct (unused_zero i Hi C) as [-> _]. ring. }
  assert (W2 : sumn h (fun i => nth (h + i) (wz z) 0 * nth (h + i) q 0) = theta * dot (sq2 q) z).
  { rewrite sq2_dot, <- sumn_scal. apply sumn_ext. intros i Hi. rewrite wz2 by exact Hi. ring. }
  assert (W : dot (wz z) q = sumn h (fun i => nth i (wz z) 0 * nth i q 0) + sumn h (fun i => nth (h + i) (wz z) 0 * nth (h + i) q 0)).
  { rewrite (app_tab (wz z) h) at 1 by apply wz_length. rewrite (app_tab q h) at 1 by exact Hq. rewrite dot_app by (rewrite !tab_length; reflexivity).
    rewrite !(dot_sumn h) by apply tab_length. f_equal; apply sumn_ext; intros i Hi; rewrite !nth_tab by exact Hi; reflexivity. }
  rewrite dot_vsub_l, !dot_vsub_r. rewrite (dot_comm z (sq2 q)). lra.
Qed.
Lemma curv_nonneg i : (i < h)%nat -> 0 <= curv i.
Proof. intros Hi. unfold curv. destruct (Nat.ltb i k) eqn:C; [|lra]. apply Nat.ltb_lt in C. apply Rmult_le_pos; [left; apply (gh_used _ _ _ _ _ _ G); assumption|apply pow2_ge_0]. Qed.
Lemma bzz_nonneg : 0 <= theta * dot z z - dot (wz z) q.
Proof.
  rewrite bzz. assert (P := dot_self_nonneg (vsub z (sq2 q))). assert (Q := sumn_nonneg h curv curv_nonneg).
  assert (0 <= theta * dot (vsub z (sq2 q)) (vsub z (sq2 q))) by (apply Rmult_le_pos; lra). lra.
Qed.
Lemma bzz_zero : theta * dot z z - dot (wz z) q = 0 -> z = vzero n /\ q = vzero (2 * h).
Proof.
  intros Z. rewrite bzz in Z. assert (P := dot_self_nonneg (vsub z (sq2 q))). assert (Q := sumn_nonneg h curv curv_nonneg).
  assert (P' : 0 <= theta * dot (vsub z (sq2 q)) (vsub z (sq2 q))) by (apply Rmult_le_pos; lra).
  assert (C0 : forall i, (i < h)%nat -> curv i = 0) by (apply sumn_nonneg_zero; [exact curv_nonneg|lra]).
  assert (Ez : z = sq2 q).
  { apply dist2_zero; [rewrite sq2_length; exact Hz|]. unfold dist2, sqnorm.
    assert (X : theta * dot (vsub z (sq2 q)) (vsub z (sq2 q)) = 0) by lra. apply Rmult_integral in X. destruct X; [lra|assumption]. }
  assert (Q1 : forall i, (i < h)%nat -> nth i q 0 = 0).
  { intros i Hi. destruct (Nat.lt_ge_cases i k) as [C|C]; [|apply unused_zero; assumption].
    specialize (C0 i Hi). unfold curv in C0. replace (Nat.ltb i k) with true in C0 by (symmetry; apply Nat.ltb_lt; exact C).
    assert (U := gh_used _ _ _ _ _ _ G i Hi C). fold (s i) (y i) in U. apply Rmult_integral in C0. destruct C0 as [C0|C0]; [lra|].
    destruct (Rmult_integral _ _ C0) as [X|X]; [exact X|]. lra. }
  assert (Q2 : forall i, (i < h)%nat -> nth (h + i) q 0 = 0).
  { apply (forward (fun i j => dot (s j) (y i)) (fun j => nth (h + j) q 0)).
    - intros i Hi. assert (R1 := row1 q i Hq Hi). rewrite E, wz1, (Q1 i) in R1 by exact Hi.
      rewrite Ez in R1. rewrite (dot_comm (y i)), sq2_dot in R1.
      rewrite (sumn_ext h (fun j => nth (h + j) q 0 * dot (s j) (y i))
        (fun j => (if Nat.leb j i then dot (s j) (y i) else 0) * nth (h + j) q 0 + (if Nat.ltb i j then dot (s j) (y i) else 0) * nth (h + j) q 0)) in R1.
      + rewrite sumn_plus in R1. lra.
      + intros j Hj. destruct (Nat.leb_spec j i), (Nat.ltb_spec i j); try lia; ring.
    - intros i Hi. destruct (Nat.lt_ge_cases i k) as [C|C]; [left|right; apply unused_zero; assumption].
      assert (U := gh_used _ _ _ _ _ _ G i Hi C). fold (s i) (y i) in U. lra. }
  assert (Eq : q = vzero (2 * h)).
  { apply vec_ext; [rewrite vzero_length; exact Hq|]. intros i Hi. rewrite nth_vzero. rewrite Hq in Hi.
    destruct (Nat.lt_ge_cases i h) as [C|C]; [apply Q1; exact C|]. replace i with (h + (i - h))%nat by lia. apply Q2. lia. }
  split; [|exact Eq]. rewrite Ez. unfold sq2. rewrite (tab_ext h _ (fun _ => 0)) by (intros i Hi; apply Q2; exact Hi).
  replace (tab h (fun _ => 0)) with (vzero h). { apply tvec_vzero. apply (gh_s _ _ _ _ _ _ G). }
  apply vec_ext; [rewrite vzero_length, tab_length; reflexivity|]. intros i Hi. rewrite vzero_length in Hi. rewrite nth_vzero, nth_tab by exact Hi. reflexivity.
Qed.
End Sys.

Lemma wz_zero : wz (vzero n) = vzero (2 * h).
Proof. apply vec_ext; [rewrite wz_length, vzero_length; reflexivity|]. intros i _. unfold wz. rewrite nth_mvec, dot_vzero_r, nth_vzero. reflexivity. Qed.
Lemma m_inv_nonsingular : nonsingular (2 * h) (m_inv h k theta sh yh).
Proof.
  split; [exact m_inv_shape|]. intros q Hq E. rewrite <- wz_zero in E.
  apply (bzz_zero (vzero n) q (vzero_length n) Hq E). rewrite dot_vzero_l, wz_zero, dot_vzero_l. ring.
Qed.

Lemma m_inv_sym u v : length u = (2 * h)%nat -> length v = (2 * h)%nat ->
  dot (mvec (m_inv h k theta sh yh) u) v = dot u (mvec (m_inv h k theta sh yh) v).
Proof.
  intros Hu Hv.
  assert (X : forall a b, length a = (2 * h)%nat -> length b = (2 * h)%nat -> dot (mvec (m_inv h k theta sh yh) a) b =
    sumn h (fun i => dg i * (nth i a 0 * nth i b 0)) + sumn h (fun i => sumn h (fun j => (if Nat.ltb i j then dot (s j) (y i) else 0) * (nth (h + j) a 0 * nth i b 0)))
    + sumn h (fun i => sumn h (fun j => (if Nat.ltb j i then dot (s i) (y j) else 0) * (nth j a 0 * nth (h + i) b 0))) + sumn h (fun i => adj i * (nth (h + i) a 0 * nth (h + i) b 0))
    + theta * dot (sq2 a) (sq2 b)).
  { clear u v Hu Hv. intros a b Ha Hb. assert (L := m_inv_shape). destruct L as [L _].
    rewrite (app_tab (mvec _ a) h) by (rewrite mvec_length; exact L). rewrite (app_tab b h) at 1 by exact Hb. rewrite dot_app by (rewrite !tab_length; reflexivity).
    rewrite !(dot_sumn h) by apply tab_length.
    rewrite !Rplus_assoc, <- (Rplus_assoc (sumn h (fun i => dg i * _))). f_equal.
    - rewrite <- sumn_plus. apply sumn_ext. intros i Hi. rewrite !nth_tab by exact Hi. rewrite row1 by assumption.
      rewrite (sumn_ext h (fun j => (if Nat.ltb i j then dot (s j) (y i) else 0) * (nth (h + j) a 0 * nth i b 0)) (fun j => nth i b 0 * ((if Nat.ltb i j then dot (s j) (y i) else 0) * nth (h + j) a 0))) by (intros; ring).
      rewrite sumn_scal. ring.
    - rewrite (dot_comm (sq2 a) (sq2 b)), (sq2_dot b), <- sumn_scal, <- !sumn_plus. apply sumn_ext. intros i Hi. rewrite !nth_tab by exact Hi. rewrite row2 by assumption.
      rewrite (sumn_ext h (fun j => (if Nat.ltb j i then dot (s i) (y j) else 0) * (nth j a 0 * nth (h + i) b 0)) (fun j => nth (h + i) b 0 * ((if Nat.ltb j i then dot (s i) (y j) else 0) * nth j a 0))) by (intros; ring).
      rewrite sumn_scal. rewrite (dot_comm (sq2 a)). ring. }
  rewrite (dot_comm u). rewrite !X by assumption. rewrite (dot_comm (sq2 u)).
  rewrite (sumn_swap h h (fun i j => (if Nat.ltb i j then dot (s j) (y i) else 0) * (nth (h + j) u 0 * nth i v 0))).
  rewrite (sumn_swap h h (fun i j => (if Nat.ltb i j then dot (s j) (y i) else 0) * (nth (h + j) v 0 * nth i u 0))).
  rewrite (sumn_ext h (fun i => dg i * (nth i u 0 * nth i v 0)) (fun i => dg i * (nth i v 0 * nth i u 0))) by (intros; ring).
  rewrite (sumn_ext h (fun i => adj i * (nth (h + i) u 0 * nth (h + i) v 0)) (fun i => adj i * (nth (h + i) v 0 * nth (h + i) u 0))) by (intros; ring).
  rewrite (sumn_ext h (fun j => sumn h (fun i => (if Nat.ltb i j then dot (s j) (y i) else 0) * (nth (h + j) u 0 * nth i v 0)))
     (fun i => sumn h (fun j => (if Nat.ltb j i then dot (s i) (y j) else 0) * (nth j v 0 * nth (h + i) u 0)))) by (intros; apply sumn_ext; intros; ring).
  rewrite (sumn_ext h (fun j => sumn h (fun i => (if Nat.ltb i j then dot (s j) (y i) else 0) * (nth (h + j) v 0 * nth i u 0)))
     (fun i => sumn h (fun j => (if Nat.ltb j i then dot (s i) (y j) else 0) * (nth j u 0 * nth (h + i) v 0)))) by (intros; apply sumn_ext; intros; ring).
  ring.
Qed.

(** the inverse *)
Variable solve : mat -> vec -> vec.
Hypothesis SOL : exact_solver solve.
Definition minv : mat := linalg_inv solve (2 * h) (m_inv h k theta sh yh).
Lemma col_solve i : (i < 2 * h)%nat -> length (solve (m_inv h k theta sh yh) (unit_vec (2 * h) i)) = (2 * h)%nat /\
  mvec (m_inv h k theta sh yh) (solve (m_inv h k theta sh yh) (unit_vec (2 * h) i)) = unit_vec (2 * h) i.
Proof. intros Hi. apply SOL; [exact m_inv_nonsingular|apply unit_vec_length]. Qed.
Lemma cols_shape : mat_shape (2 * h) (2 * h) (map (solve (m_inv h k theta sh yh)) (eye (2 * h))).
Proof.
  split; [rewrite map_length; apply eye_shape|]. apply Forall_forall. intros r Hr. apply in_map_iff in Hr. destruct Hr as (e & <- & He).
  unfold eye in He. apply in_map_iff in He. destruct He as (i & <- & Hi). apply in_seq in Hi. apply col_solve. lia.
Qed.
Lemma minv_shape : mat_shape (2 * h) (2 * h) minv.
Proof. apply mtrans_shape. rewrite map_length. apply eye_shape. Qed.
Lemma minv_spec r : length r = (2 * h)%nat -> length (mvec minv r) = (2 * h)%nat /\ mvec (m_inv h k theta sh yh) (mvec minv r) = r.
Proof.
  intros Hr. split; [rewrite mvec_length; apply minv_shape|].
  unfold minv, linalg_inv. rewrite (mvec_mtrans (2 * h)) by (try apply cols_shape; exact Hr).
  apply vec_eq_dot_len; [rewrite mvec_length; transitivity (2 * h)%nat; [apply m_inv_shape|congruence]|].
  intros v Hv. rewrite mvec_length in Hv. assert (Lm : length (m_inv h k theta sh yh) = (2 * h)%nat) by apply m_inv_shape.
  assert (Hv' : length v = (2 * h)%nat) by (etransitivity; [exact Hv|exact Lm]).
  rewrite m_inv_sym by (try exact Hv'; apply (tvec_length (2 * h)); apply cols_shape).
  rewrite (tvec_sumn (2 * h)) by (try apply cols_shape; exact Hr). rewrite (dot_sumn (2 * h)) by assumption.
  apply sumn_ext. intros i Hi. f_equal.
  rewrite (nth_indep _ [] (solve (m_inv h k theta sh yh) [])) by (rewrite map_length; replace (length (eye (2 * h))) with (2 * h)%nat by (symmetry; apply eye_shape); exact Hi).
  rewrite map_nth. change (eye (2 * h)) with (tab (2 * h) (unit_vec (2 * h))). rewrite nth_tab by exact Hi.
  destruct (col_solve i Hi) as [L1 E1]. rewrite <- m_inv_sym by assumption. rewrite E1. apply dot_unit_vec; assumption.
Qed.
Lemma minv_sym u v : length u = (2 * h)%nat -> length v = (2 * h)%nat -> dot (mvec minv u) v = dot u (mvec minv v).
Proof.
  intros Hu Hv. destruct (minv_spec u Hu) as [Lu Eu], (minv_spec v Hv) as [Lv Ev].
  rewrite <- Ev at 1. rewrite <- m_inv_sym by assumption. rewrite Eu. reflexivity.
Qed.

(** W^T z *)
Definition wmat : mat := w_flat theta sh yh n.
Lemma w_rows_shape : mat_shape (2 * h) n (w_rows theta sh yh).
Proof.
  destruct (gh_s _ _ _ _ _ _ G) as [Ls Fs], (gh_y _ _ _ _ _ _ G) as [Ly Fy]. split; [unfold w_rows; rewrite app_length, map_length; lia|].
  unfold w_rows. apply Forall_app. split; [exact Fy|]. apply Forall_forall. intros r Hr. apply in_map_iff in Hr. destruct Hr as (e & <- & He).
  rewrite smul_length. rewrite Forall_forall in Fs. apply Fs. exact He.
Qed.
Lemma wmat_shape : mat_shape n (2 * h) wmat.
Proof. apply mtrans_shape. apply w_rows_shape. Qed.
Lemma wmat_mvec u : length u = (2 * h)%nat -> mvec wmat u = tvec n (w_rows theta sh yh) u.
Proof. intros Hu. apply (mvec_mtrans (2 * h)); [apply w_rows_shape|exact Hu]. Qed.
Lemma wmat_tvec z : length z = n -> tvec (2 * h) wmat z = wz z.
Proof.
  intros Hz. apply vec_eq_dot_len; [rewrite wz_length; apply (tvec_length n); apply wmat_shape|].
  intros u Hu. rewrite (tvec_length n) in Hu by apply wmat_shape. rewrite dot_tvec, wmat_mvec by exact Hu.
  rewrite dot_comm, dot_tvec, dot_comm. reflexivity.
Qed.
Lemma minv_len : length minv = (2 * h)%nat. Proof. apply minv_shape. Qed.
Lemma bform_pd z : length z = n -> z <> vzero n -> 0 < bform theta wmat minv z z.
Proof.
  intros Hz Nz. unfold bform. rewrite minv_len, wmat_tvec by exact Hz.
  destruct (minv_spec (wz z) (wz_length z)) as [L E].
  destruct (bzz_nonneg z _ L E) as [P|P]; [exact P|]. exfalso. apply Nz. apply (bzz_zero z _ Hz L E). symmetry. exact P.
Qed.
End Inv.
