(** C44: fixed-point iteration. *)
From Coq Require Import Reals List Lra Lia Bool Arith.
From Verif Require Import Prelude Vec Mat Run FixedPoint.
Import ListNotations.
Open Scope R_scope.

Lemma fp_update_eq {X} (u : fp_user X) x s : fp_update u (x, s) =
  (the_map u x, {| fp_iter := S (fp_iter s); fp_error := Fin (vdist (the_map u x) x); fp_aux := the_aux u x; fp_num_fun_eval := S (fp_num_fun_eval s) |}).
Proof. unfold fp_update, fp_fun, the_map, the_aux. destruct u as [T|T]; [reflexivity|]. destruct (T x); reflexivity. Qed.
(** After k+1 updates: the (k+1)-fold application of the map, with the residual (and auxiliary
    output) at the k-th iterate. *)
Theorem C44_update : forall X (u : fp_user X) (x0 : vec) k,
  Nat.iter (S k) (fp_update u) (x0, fp_init_state) =
  (Nat.iter (S k) (the_map u) x0,
   {| fp_iter := S k; fp_error := Fin (vdist (the_map u (Nat.iter k (the_map u) x0)) (Nat.iter k (the_map u) x0));
      fp_aux := the_aux u (Nat.iter k (the_map u) x0); fp_num_fun_eval := S k |}).
Proof.
  intros X u x0 k. induction k as [|k IH]; [apply fp_update_eq|].
  change (Nat.iter (S (S k)) (fp_update u) (x0, fp_init_state)) with (fp_update u (Nat.iter (S k) (fp_update u) (x0, fp_init_state))).
  rewrite IH, fp_update_eq. reflexivity.
Qed.
Print Assumptions C44_update.
(** optimality_fun vanishes exactly at the fixed points. *)
Theorem C44_optimality : forall X (u : fp_user X) x, length (the_map u x) = length x ->
  (fp_optimality u x = vzero (length x) <-> the_map u x = x).
Proof.
  intros X u x L. assert (E : fp_optimality u x = vsub (the_map u x) x).
  { unfold fp_optimality, fp_fun, the_map. destruct u as [T|T]; [reflexivity|]. destruct (T x); reflexivity. }
  rewrite E. split; intros H; [|rewrite H; apply vsub_self].
  apply vec_eq_dot; [exact L|]. intros w. assert (Ew : dot (vsub (the_map u x) x) w = 0) by (rewrite H; apply dot_vzero_l). rewrite dot_vsub_l in Ew. lra.
Qed.
Print Assumptions C44_optimality.

Section Contr.
Variables (n : nat) (q : R) (T : vec -> vec).
Hypothesis Hq : 0 <= q < 1.
Hypothesis HT : contraction n q T.
Lemma iter_len x k : length x = n -> length (Nat.iter k T x) = n.
Proof. intros H. induction k; simpl; [exact H|apply HT; exact IHk]. Qed.
Lemma step_decay x k : length x = n -> vdist (Nat.iter (S k) T x) (Nat.iter k T x) <= q ^ k * vdist (T x) x.
Proof.
  intros H. induction k as [|k IH]; [simpl; lra|]. simpl pow. rewrite Rmult_assoc.
  change (Nat.iter (S (S k)) T x) with (T (Nat.iter (S k) T x)). change (Nat.iter (S k) T x) with (T (Nat.iter k T x)) at 2.
  eapply Rle_trans; [apply HT; apply iter_len; exact H|]. apply Rmult_le_compat_l; [lra|exact IH].
Qed.
Lemma dist_decay x xs k : length x = n -> length xs = n -> T xs = xs -> vdist (Nat.iter k T x) xs <= q ^ k * vdist x xs.
Proof.
  intros H Hs E. induction k as [|k IH]; [simpl; lra|]. simpl pow. rewrite Rmult_assoc. simpl Nat.iter. rewrite <- E at 1.
  eapply Rle_trans; [apply HT; [apply iter_len; exact H|exact Hs]|]. apply Rmult_le_compat_l; [lra|exact IH].
Qed.
Lemma dist_nonneg x y : 0 <= vdist x y.
Proof. apply norm2_nonneg. Qed.
Lemma dist_tri x y z : length x = n -> length y = n -> length z = n -> vdist x z <= vdist x y + vdist y z.
Proof.
  intros Hx Hy Hz. unfold vdist. replace (vsub x z) with (vadd (vsub x y) (vsub y z)).
  - apply norm2_triangle.
  - apply vec_eq_dot; [rewrite vadd_length, !vsub_length; unfold vec in *; lia|]. intros w. vring.
Qed.
Lemma dist_sym x y : vdist x y = vdist y x.
Proof.
  unfold vdist. replace (vsub x y) with (smul (-(1)) (vsub y x)).
  - rewrite norm2_smul, Rabs_Ropp, Rabs_R1. ring.
  - apply vec_eq_dot; [rewrite smul_length, !vsub_length; unfold vec in *; lia|]. intros w. vring.
Qed.
Lemma posteriori x xs : length x = n -> length xs = n -> T xs = xs -> (1 - q) * vdist (T x) xs <= q * vdist (T x) x.
Proof.
  intros H Hs E. assert (LT := proj1 HT x H). assert (B := proj2 HT x xs H Hs). rewrite E in B.
  assert (D := dist_tri x (T x) xs H LT Hs). rewrite (dist_sym x (T x)) in D. assert (P := dist_nonneg x xs). nra.
Qed.
End Contr.
(** For a contraction with factor q and fixed point xs: linear convergence, geometric decay of the
    reported error, and the a-posteriori bound q/(1-q) * error. *)
Theorem C44_contraction : forall X (u : fp_user X) n q (x0 xs : vec) k, 0 <= q < 1 -> contraction n q (the_map u) -> length x0 = n -> length xs = n -> the_map u xs = xs ->
  let '(x, st) := Nat.iter (S k) (fp_update u) (x0, fp_init_state) in
  exists e, fp_error st = Fin e /\ vdist x xs <= q ^ S k * vdist x0 xs /\ e <= q ^ k * vdist (the_map u x0) x0 /\ vdist x xs <= q / (1 - q) * e.
Proof.
  intros X u n q x0 xs k Hq HT H0 Hs E. rewrite C44_update. eexists. split; [reflexivity|]. split; [|split].
  - exact (dist_decay n q (the_map u) Hq HT x0 xs (S k) H0 Hs E).
  - exact (step_decay n q (the_map u) Hq HT x0 k H0).
  - assert (P := posteriori n q (the_map u) Hq HT (Nat.iter k (the_map u) x0) xs (iter_len n q _ HT x0 k H0) Hs E).
    simpl Nat.iter. unfold Rdiv. apply Rmult_le_reg_l with (1 - q); [lra|]. eapply Rle_trans; [exact P|]. right. field. lra.
Qed.
Print Assumptions C44_contraction.

(** The logarithmic bound: run stops, within tolerance, after at most N updates as soon as
    q^(N-1) |T x0 - x0| <= tol (if the iteration limit allows N); such an N exists for tol > 0; and
    the point returned is within q/(1-q) tol of the fixed point. *)
Theorem C44_run : forall X (u : fp_user X) n q (x0 xs : vec) tol maxiter N, 0 <= q < 1 -> contraction n q (the_map u) -> length x0 = n -> length xs = n -> the_map u xs = xs ->
  (1 <= N <= maxiter)%nat -> q ^ (N - 1) * vdist (the_map u x0) x0 <= tol ->
  let '(x, st) := fp_run u tol maxiter x0 in
  (1 <= fp_iter st <= N)%nat /\ (exists e, fp_error st = Fin e /\ e <= tol) /\ vdist x xs <= q / (1 - q) * tol.
Proof.
  intros X u n q x0 xs tol maxiter N Hq HT H0 Hs E HN Htol. unfold fp_run.
  destruct (run_loop_spec maxiter (fun s => xgtb (fp_error (snd s)) tol) (fp_update u) (x0, fp_init_state) ltac:(lia)) as (k & Hk & -> & Hc & Hend).
  assert (Hst : forall j, (N <= j)%nat -> xgtb (fp_error (snd (Nat.iter j (fp_update u) (x0, fp_init_state)))) tol = false).
  { intros [|j] Hj; [lia|]. rewrite C44_update. cbn [snd fp_error]. unfold xgtb. destruct (Rlt_dec _ _) as [C|]; [|reflexivity]. exfalso.
    assert (B := step_decay n q (the_map u) Hq HT x0 j H0). simpl Nat.iter in B.
    assert (Pq : q ^ j <= q ^ (N - 1)).
    { replace j with ((N - 1) + (j - (N - 1)))%nat by lia. rewrite pow_add. assert (P1 : 0 <= q ^ (N - 1)) by (apply pow_le; lra).
      assert (P2 : q ^ (j - (N - 1)) <= 1) by (rewrite <- (pow1 (j - (N - 1))); apply pow_incr; lra). nra. }
    assert (Pd := dist_nonneg (the_map u x0) x0). nra. }
  assert (HkN : (k <= N)%nat).
  { destruct (Nat.le_gt_cases k N) as [|C]; [assumption|]. specialize (Hc N ltac:(lia)). rewrite Hst in Hc by lia. discriminate. }
  destruct k as [|k]; [lia|].
  assert (Hstop : xgtb (fp_error (snd (Nat.iter (S k) (fp_update u) (x0, fp_init_state)))) tol = false).
  { destruct Hend as [Hend|Hend]; [apply Hst; lia|exact Hend]. }
  assert (HC := C44_contraction X u n q x0 xs k Hq HT H0 Hs E). rewrite C44_update in *. cbn [snd fp_error fp_iter] in *.
  destruct HC as (e & Ee & _ & _ & B). split; [lia|]. injection Ee as Ee. rewrite Ee in Hstop |- *.
  assert (Hle : e <= tol) by (unfold xgtb in Hstop; destruct (Rlt_dec tol e); [discriminate|lra]).
  split; [exists e; auto|]. eapply Rle_trans; [exact B|]. apply Rmult_le_compat_l; [|exact Hle]. apply Rmult_le_pos; [lra|]. left. apply Rinv_0_lt_compat. lra.
Qed.
Print Assumptions C44_run.
Theorem C44_run_terminates : forall q d tol, 0 <= q < 1 -> 0 < tol -> exists N, (1 <= N)%nat /\ q ^ (N - 1) * d <= tol.
Proof.
  intros q d tol Hq Ht. destruct (pow_lt_1_zero q ltac:(rewrite Rabs_pos_eq; lra) (tol / (Rabs d + 1))) as [N0 HN0].
  { apply Rdiv_lt_0_compat; [exact Ht|]. assert (P := Rabs_pos d). lra. }
  exists (S N0). split; [lia|]. replace (S N0 - 1)%nat with N0 by lia. specialize (HN0 N0 (Nat.le_refl _)). rewrite Rabs_pos_eq in HN0 by (apply pow_le; lra).
  assert (P := Rabs_pos d). assert (P2 := Rle_abs d). assert (P3 : 0 <= q ^ N0) by (apply pow_le; lra).
  assert (B : q ^ N0 * (Rabs d + 1) < tol).
  { apply Rmult_lt_compat_r with (r := Rabs d + 1) in HN0; [|lra]. unfold Rdiv in HN0. rewrite Rmult_assoc, Rinv_l in HN0 by lra. lra. }
  nra.
Qed.
Print Assumptions C44_run_terminates.

(** Banach: a contraction has exactly one fixed point, so the theorems above always have one to
    converge to. *)
Lemma nth_le_norm (v : vec) i : Rabs (nth i v 0) <= norm2 v.
Proof.
  apply Rsqr_incr_0_var; [|apply norm2_nonneg]. rewrite <- Rsqr_abs. unfold Rsqr. rewrite norm2_sq.
  revert i; induction v as [|a v IH]; intros [|i]; simpl; try lra; fold (dot v v); try fold (sqnorm v).
  - assert (P := sqnorm_nonneg v). unfold sqnorm in *. lra.
  - specialize (IH i). unfold sqnorm in *. assert (P := Rle_0_sqr a). unfold Rsqr in P. lra.
Qed.
Lemma norm_le_coords (v : vec) c : 0 <= c -> (forall i, Rabs (nth i v 0) <= c) -> norm2 v <= INR (length v) * c.
Proof.
  intros Hc. induction v as [|a v IH]; intros H.
  - unfold norm2. simpl. rewrite sqrt_0. lra.
  - assert (Ha := H O). simpl in Ha. assert (Hv := IH (fun i => H (S i))). rewrite (S_INR (length v) : INR (length (a :: v)) = _).
    assert (N : norm2 (a :: v) <= Rabs a + norm2 v).
    { assert (P1 := Rabs_pos a). assert (P2 := norm2_nonneg v). apply norm2_le_sq; [lra|]. simpl. fold (dot v v). rewrite <- (norm2_sq v).
      assert (Ea : a * a = Rabs a * Rabs a). { rewrite <- Rabs_mult. rewrite Rabs_pos_eq; [reflexivity|]. apply Rle_0_sqr. } rewrite Ea. nra. }
    lra.
Qed.
Theorem C44_banach : forall n q T, 0 <= q < 1 -> contraction n q T ->
  exists xs, length xs = n /\ T xs = xs /\ forall y, length y = n -> T y = y -> y = xs.
Proof.
  intros n q T Hq HT. set (x := fun k => Nat.iter k T (vzero n)). assert (L0 : length (vzero n) = n) by apply vzero_length.
  assert (Lx : forall k, length (x k) = n) by (intros k; apply (iter_len n q); assumption).
  set (d := vdist (T (vzero n)) (vzero n)). assert (Pd : 0 <= d) by apply norm2_nonneg.
  assert (Hc : forall k m, vdist (x (k + m)%nat) (x k) <= q ^ k * d / (1 - q)).
  { intros k m. assert (B : (1 - q) * vdist (x (k + m)%nat) (x k) <= q ^ k * d * (1 - q ^ m)).
    { induction m as [|m IH].
      - rewrite Nat.add_0_r. unfold vdist at 1. rewrite vsub_self. assert (Z : norm2 (vzero (length (x k))) = 0) by (apply norm2_zero_iff; rewrite vzero_length; reflexivity). simpl pow. unfold vec in *. rewrite Z. lra.
      - replace (k + S m)%nat with (S (k + m)) by lia.
        assert (D := dist_tri n (x (S (k + m))) (x (k + m)%nat) (x k) (Lx _) (Lx _) (Lx _)). assert (S1 := step_decay n q T Hq HT (vzero n) (k + m) L0). fold d in S1. change (vdist (x (S (k + m))) (x (k + m)%nat) <= q ^ (k + m) * d) in S1.
        rewrite pow_add in S1. simpl pow. nra. }
    assert (Pq : 0 <= q ^ m) by (apply pow_le; lra). assert (Pk : 0 <= q ^ k) by (apply pow_le; lra).
    apply Rmult_le_reg_l with (1 - q); [lra|]. eapply Rle_trans; [exact B|]. unfold Rdiv. replace ((1 - q) * (q ^ k * d * / (1 - q))) with (q ^ k * d) by (field; lra).
    assert (Pkd : 0 <= q ^ k * d) by (apply Rmult_le_pos; assumption). nra. }
  assert (Hsmall : forall eps, 0 < eps -> exists N, forall k, (N <= k)%nat -> q ^ k * d / (1 - q) <= eps).
  { intros eps He. destruct (C44_run_terminates q (d / (1 - q)) eps Hq He) as (N & HN & B). exists (N - 1)%nat. intros k Hk.
    eapply Rle_trans; [|exact B]. unfold Rdiv. rewrite Rmult_assoc. apply Rmult_le_compat_r; [apply Rmult_le_pos; [exact Pd|left; apply Rinv_0_lt_compat; lra]|].
    replace k with ((N - 1) + (k - (N - 1)))%nat by lia. rewrite pow_add. assert (P1 : 0 <= q ^ (N - 1)) by (apply pow_le; lra).
    assert (P2 : q ^ (k - (N - 1)) <= 1) by (rewrite <- (pow1 (k - (N - 1))); apply pow_incr; lra). nra. }
  assert (nsub : forall a c i, length a = n -> length c = n -> nth i (vsub a c) 0 = nth i a 0 - nth i c 0) by (intros; apply nth_vsub).
  assert (Hcau : forall i, Cauchy_crit (fun k => nth i (x k) 0)).
  { intros i eps He. destruct (Hsmall (eps / 3) ltac:(lra)) as (N & HN). exists N. intros a c Ha Hcc.
    assert (Hn : forall k, (N <= k)%nat -> Rabs (nth i (x k) 0 - nth i (x N) 0) <= eps / 3).
    { intros k Hk. rewrite <- nsub by apply Lx. eapply Rle_trans; [apply nth_le_norm|]. fold (vdist (x k) (x N)).
      replace k with (N + (k - N))%nat by lia. eapply Rle_trans; [apply Hc|]. apply HN. lia. }
    assert (A1 := Hn a ltac:(lia)). assert (A2 := Hn c ltac:(lia)). unfold R_dist.
    replace (nth i (x a) 0 - nth i (x c) 0) with ((nth i (x a) 0 - nth i (x N) 0) - (nth i (x c) 0 - nth i (x N) 0)) by ring.
    eapply Rle_lt_trans; [apply Rabs_triang|]. rewrite Rabs_Ropp. lra. }
  set (lim := fun i => proj1_sig (R_complete _ (Hcau i))).
  set (xs := map lim (seq 0 n)). assert (Ls : length xs = n) by (unfold xs; rewrite map_length, seq_length; reflexivity).
  assert (Hlim : forall eps, 0 < eps -> exists N, forall k, (N <= k)%nat -> vdist (x k) xs <= eps).
  { intros eps He. destruct (Hsmall (eps / (2 * (INR n + 1))) ltac:(apply Rdiv_lt_0_compat; [exact He|assert (P := pos_INR n); lra])) as (N & HN).
    exists N. intros k Hk. set (e1 := eps / (2 * (INR n + 1))). assert (Pn := pos_INR n).
    assert (He1 : 0 < e1) by (apply Rdiv_lt_0_compat; lra).
    assert (Hco : forall i, Rabs (nth i (vsub (x k) xs) 0) <= 2 * e1).
    { intros i. rewrite nth_vsub. destruct (Nat.lt_ge_cases i n) as [Hi|Hi].
      - assert (Exs : nth i xs 0 = lim i).
        { unfold xs. rewrite (nth_indep (map lim (seq 0 n)) 0 (lim 0%nat)) by (rewrite map_length, seq_length; exact Hi). rewrite map_nth, seq_nth by exact Hi. reflexivity. }
        rewrite Exs.
        unfold lim. destruct (R_complete _ (Hcau i)) as [l Hl]. cbn [proj1_sig]. destruct (Hl e1 He1) as (M & HM).
        assert (A1 := HM (Nat.max M k) ltac:(lia)). unfold R_dist in A1.
        assert (A2 : Rabs (nth i (x (Nat.max M k)) 0 - nth i (x k) 0) <= e1).
        { rewrite <- nsub by apply Lx. eapply Rle_trans; [apply nth_le_norm|]. fold (vdist (x (Nat.max M k)) (x k)).
          replace (Nat.max M k) with (k + (Nat.max M k - k))%nat by lia. eapply Rle_trans; [apply Hc|]. apply HN. exact Hk. }
        replace (nth i (x k) 0 - l) with ((nth i (x (Nat.max M k)) 0 - l) - (nth i (x (Nat.max M k)) 0 - nth i (x k) 0)) by ring.
        eapply Rle_trans; [apply Rabs_triang|]. rewrite Rabs_Ropp. lra.
      - rewrite !nth_overflow by (rewrite ?Lx, ?Ls; exact Hi). rewrite Rminus_0_r, Rabs_R0. lra. }
    unfold vdist. eapply Rle_trans; [apply (norm_le_coords _ (2 * e1)); [lra|exact Hco]|].
    rewrite vsub_length, Lx, Ls, Nat.max_id. unfold e1. apply Rmult_le_reg_r with (INR n + 1); [lra|].
    replace (INR n * (2 * (eps / (2 * (INR n + 1)))) * (INR n + 1)) with (INR n * eps) by (field; lra). nra. }
  assert (Hfix : T xs = xs).
  { assert (Lt := proj1 HT xs Ls).
    assert (Hz : vdist (T xs) xs = 0).
    { apply Rle_antisym; [|apply norm2_nonneg]. apply Rnot_lt_le. intros C. destruct (Hlim (vdist (T xs) xs / 4) ltac:(lra)) as (N & HN).
      assert (A1 := HN N (Nat.le_refl _)). assert (A2 := HN (S N) ltac:(lia)).
      assert (A3 := proj2 HT xs (x N) Ls (Lx N)). change (T (x N)) with (x (S N)) in A3. rewrite (dist_sym xs (x N)) in A3.
      assert (A4 := dist_tri n (T xs) (x (S N)) xs Lt (Lx _) Ls). assert (P := norm2_nonneg (vsub (x N) xs)). fold (vdist (x N) xs) in P. nra. }
    apply vec_eq_dot; [unfold vec in *; lia|]. intros w. apply norm2_zero_iff in Hz. assert (Ew : dot (vsub (T xs) xs) w = 0) by (rewrite Hz; apply dot_vzero_l). rewrite dot_vsub_l in Ew. lra. }
  exists xs. split; [exact Ls|]. split; [exact Hfix|]. intros y Ly Ey.
  assert (A := proj2 HT y xs Ly Ls). rewrite Ey, Hfix in A. assert (P := norm2_nonneg (vsub y xs)). fold (vdist y xs) in P.
  assert (Hz : vdist y xs = 0) by nra. apply norm2_zero_iff in Hz.
  apply vec_eq_dot; [unfold vec in *; lia|]. intros w. assert (Ew : dot (vsub y xs) w = 0) by (rewrite Hz; apply dot_vzero_l). rewrite dot_vsub_l in Ew. lra.
Qed.
Print Assumptions C44_banach.

(** Hypotheses met: T x = x/2 + 1 on R^3 is a 1/2-contraction with fixed point (2,2,2). *)
Example C44_example : contraction 3 (1 / 2) (fun x => vadd (smul (1 / 2) x) (vones 3)) /\ (fun x => vadd (smul (1 / 2) x) (vones 3)) [2; 2; 2] = [2; 2; 2].
Proof.
  split; [|cbv; repeat f_equal; lra]. split; [intros x Hx; rewrite vadd_length, smul_length, Hx; reflexivity|].
  intros x y Hx Hy. unfold vdist. replace (vsub (vadd (smul (1 / 2) x) (vones 3)) (vadd (smul (1 / 2) y) (vones 3))) with (smul (1 / 2) (vsub x y)).
  - rewrite norm2_smul, Rabs_pos_eq; lra.
  - apply vec_eq_dot; [rewrite smul_length, !vsub_length, !vadd_length, !smul_length, Hx, Hy; reflexivity|]. intros w. vring.
Qed.
