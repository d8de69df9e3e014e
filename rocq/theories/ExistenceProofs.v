(** Proofs for C81: minimisers exist. *)
From Coq Require Import Reals List Lra Lia Bool Arith.
From Verif Require Import Prelude Vec Mat Run Objective Proj ProjProofs ProxGrad ProxGradProofs BlockCD BlockCDProofs CDQP CDQPProofs SvmDual SvmDualProofs CDConvergence CDConvergenceProofs CDSublinear CDSublinearProofs OptError OptErrorProofs Existence Compact.
Import ListNotations.
Open Scope R_scope.

Lemma Rabs_limit a b : (forall eps, 0 < eps -> Rabs (a - b) < eps) -> a = b.
Proof.
  intros H. destruct (Req_dec a b) as [E|E]; [exact E|]. pose proof (Rabs_pos_lt (a - b) ltac:(lra)) as P.
  specialize (H _ P). lra.
Qed.
Lemma le_limit a b : (forall eps, 0 < eps -> a < b + eps) -> a <= b.
Proof. intros H. apply Rnot_lt_le. intros L. specialize (H (a - b) ltac:(lra)). lra. Qed.

(** Linear functions of the coordinates move little. *)
Lemma dot_near n g d eps : length d = n -> length g = n -> 0 <= eps -> (forall i, (i < n)%nat -> Rabs (nth i d 0) < eps) -> Rabs (dot d g) <= eps * norm1 g.
Proof.
  intros Ld Lg He. subst n. revert g Lg. induction d as [|a d IH]; intros [|b g] Lg H; try discriminate.
  - unfold norm1; simpl. rewrite Rabs_R0. lra.
  - unfold norm1 in *. simpl. eapply Rle_trans; [apply Rabs_triang|]. rewrite Rabs_mult, Rmult_plus_distr_l. apply Rplus_le_compat.
    + apply Rmult_le_compat_r; [apply Rabs_pos|]. left. apply (H 0%nat). simpl; lia.
    + apply IH; [simpl in Lg; lia|]. intros i Hi. apply (H (S i)). simpl; lia.
Qed.
Lemma norm1_nn v : 0 <= norm1 v.
Proof. unfold norm1. induction v as [|a v IH]; simpl; [lra|]. pose proof (Rabs_pos a). lra. Qed.

(** A function with a subgradient at every point is lower semi-continuous. *)
Lemma subgradient_lsc n (K : vec -> Prop) f : (forall c, K c -> length c = n) ->
  (forall c, K c -> exists g, length g = n /\ forall x, K x -> f c + dot (vsub x c) g <= f x) -> lsc_on n K f.
Proof.
  intros HL HS c Hc eps He. destruct (HS c Hc) as (g & Lg & H). pose proof (norm1_nn g) as N.
  set (dl := eps / (2 * (norm1 g + 1))). assert (P : 0 < dl) by (apply Rdiv_lt_0_compat; lra). exists dl. split; [exact P|]. intros x Hx Nr. specialize (H x Hx).
  assert (Ld : length (vsub x c) = n) by (rewrite vsub_length, (HL x Hx), (HL c Hc); apply Nat.max_id).
  assert (A : Rabs (dot (vsub x c) g) <= dl * norm1 g).
  { apply (dot_near n); auto; [lra|]. intros i Hi. rewrite nth_vsub. apply Nr. exact Hi. }
  assert (B : dl * norm1 g < eps). { assert (E : dl * (norm1 g + 1) = eps / 2) by (unfold dl; field; lra). assert (dl * norm1 g <= dl * (norm1 g + 1)) by (apply Rmult_le_compat_l; lra). lra. }
  pose proof (Rle_abs (- dot (vsub x c) g)) as C. rewrite Rabs_Ropp in C. lra.
Qed.

(** The cube of half-width B, and a convex-like function that exceeds one of its values outside it. *)
Lemma cube_bounded n B : bounded_set n (fun x => length x = n /\ forall i, (i < n)%nat -> Rabs (nth i x 0) <= B).
Proof. exists B. intros x H. exact H. Qed.
Lemma cube_closed n B : closed_set n (fun x => length x = n /\ forall i, (i < n)%nat -> Rabs (nth i x 0) <= B).
Proof.
  intros c Lc H. split; [exact Lc|]. intros i Hi. apply le_limit. intros eps He. destruct (H eps He) as (x & (_ & Hx) & Nr). specialize (Hx i Hi). specialize (Nr i Hi).
  pose proof (Rabs_triang (nth i x 0) (- (nth i x 0 - nth i c 0))) as T. rewrite Rabs_Ropp in T. replace (nth i x 0 + - (nth i x 0 - nth i c 0)) with (nth i c 0) in T by ring. lra.
Qed.
Lemma coercive_minimum n f x0 B : length x0 = n ->
  (forall x, length x = n -> exists g, length g = n /\ forall z, length z = n -> f x + dot (vsub z x) g <= f z) ->
  (forall x, length x = n -> f x <= f x0 -> forall i, (i < n)%nat -> Rabs (nth i x 0) <= B) ->
  exists xs, length xs = n /\ forall z, length z = n -> f xs <= f z.
Proof.
  intros L0 HS HB. set (K := fun x : vec => length x = n /\ forall i, (i < n)%nat -> Rabs (nth i x 0) <= B).
  assert (K0 : K x0) by (split; [exact L0|apply HB; [exact L0|lra]]).
  destruct (attains_minimum n K f) as (xs & [Ls Hs] & Hm).
  - exists x0. exact K0.
  - apply cube_bounded.
  - apply cube_closed.
  - apply subgradient_lsc; [intros c Hc; apply Hc|]. intros c [Lc _]. destruct (HS c Lc) as (g & Lg & H). exists g. split; [exact Lg|]. intros x [Lx _]. apply H; exact Lx.
  - exists xs. split; [exact Ls|]. intros z Lz. destruct (Rle_dec (f z) (f x0)) as [H|H]; [apply Hm; split; [exact Lz|apply HB; assumption]|].
    pose proof (Hm x0 K0). lra.
Qed.

(** ** Matrices *)
Definition mnear (n k : nat) (eps : R) (C X : mat) : Prop := forall i j, (i < n)%nat -> (j < k)%nat -> Rabs (entry X i j - entry C i j) < eps.
Definition unflat (n k : nat) (v : vec) : mat := map (fun i => map (fun j => nth (i * k + j) v 0) (seq 0 k)) (seq 0 n).
Definition flat (n k : nat) (X : mat) : vec := map (fun q => entry X (q / k) (q mod k)) (seq 0 (n * k)).
Lemma nth_map_seq {A} (d : A) f n i : (i < n)%nat -> nth i (map f (seq 0 n)) d = f i.
Proof. intros H. rewrite (nth_indep _ d (f 0%nat)) by (rewrite map_length, seq_length; exact H). rewrite (map_nth f), seq_nth by exact H. reflexivity. Qed.
Lemma unflat_shape n k v : mat_shape n k (unflat n k v).
Proof.
  unfold unflat. split; [rewrite map_length, seq_length; reflexivity|]. apply Forall_forall. intros r Hr. apply in_map_iff in Hr. destruct Hr as (i & <- & _).
  rewrite map_length, seq_length. reflexivity.
Qed.
Lemma entry_unflat n k v i j : (i < n)%nat -> (j < k)%nat -> entry (unflat n k v) i j = nth (i * k + j) v 0.
Proof. intros Hi Hj. unfold entry, unflat. rewrite nth_map_seq by exact Hi. rewrite nth_map_seq by exact Hj. reflexivity. Qed.
Lemma flat_length n k X : length (flat n k X) = (n * k)%nat.
Proof. unfold flat. rewrite map_length, seq_length. reflexivity. Qed.
Lemma shape_ext n k X Y : mat_shape n k X -> mat_shape n k Y -> (forall i j, (i < n)%nat -> (j < k)%nat -> entry X i j = entry Y i j) -> X = Y.
Proof.
  intros [LX RX] [LY RY] H. apply (nth_ext X Y [] []); [congruence|]. intros i Hi. rewrite LX in Hi.
  assert (A : length (nth i X []) = k) by (rewrite Forall_forall in RX; apply RX, nth_In; lia).
  assert (B : length (nth i Y []) = k) by (rewrite Forall_forall in RY; apply RY, nth_In; lia).
  apply vec_ext; [congruence|]. intros j Hj. apply H; [exact Hi|congruence].
Qed.
Lemma flat_index n k i j : (i < n)%nat -> (j < k)%nat -> (i * k + j < n * k)%nat /\ ((i * k + j) / k = i)%nat /\ ((i * k + j) mod k = j)%nat.
Proof.
  intros Hi Hj. split; [nia|]. replace (i * k + j)%nat with (j + i * k)%nat by lia. split.
  - rewrite Nat.div_add by lia. rewrite Nat.div_small by lia. lia.
  - rewrite Nat.mod_add by lia. apply Nat.mod_small. lia.
Qed.
Lemma unflat_flat n k X : mat_shape n k X -> unflat n k (flat n k X) = X.
Proof.
  intros HX. apply (shape_ext n k); [apply unflat_shape|exact HX|]. intros i j Hi Hj. rewrite entry_unflat by assumption.
  destruct (flat_index n k i j Hi Hj) as (A & B & C). unfold flat. rewrite nth_map_seq by exact A. rewrite B, C. reflexivity.
Qed.
Lemma flat_unindex n k q : (q < n * k)%nat -> (q / k < n)%nat /\ (q mod k < k)%nat /\ q = (q / k * k + q mod k)%nat.
Proof.
  intros H. assert (k <> 0)%nat by nia. split; [apply Nat.div_lt_upper_bound; [assumption|lia]|]. split; [apply Nat.mod_upper_bound; assumption|].
  pose proof (Nat.div_mod q k H0). lia.
Qed.

Theorem attains_minimum_mat n k (K : mat -> Prop) f B : (exists X, K X) ->
  (forall X, K X -> mat_shape n k X /\ forall i j, (i < n)%nat -> (j < k)%nat -> Rabs (entry X i j) <= B) ->
  (forall C, mat_shape n k C -> (forall eps, 0 < eps -> exists X, K X /\ mnear n k eps C X) -> K C) ->
  (forall C, K C -> forall eps, 0 < eps -> exists delta, 0 < delta /\ forall X, K X -> mnear n k delta C X -> f C - eps < f X) ->
  exists C, K C /\ forall X, K X -> f C <= f X.
Proof.
  intros (X0 & H0) HB HC HF.
  destruct (attains_minimum (n * k) (fun v => length v = (n * k)%nat /\ K (unflat n k v)) (fun v => f (unflat n k v))) as (c & [Lc Hc] & Hm).
  - exists (flat n k X0). split; [apply flat_length|]. rewrite unflat_flat by apply (HB X0 H0). exact H0.
  - exists B. intros v [Lv Hv]. split; [exact Lv|]. intros q Hq. destruct (flat_unindex n k q Hq) as (A1 & A2 & A3). rewrite A3, <- (entry_unflat n k v) by assumption. apply (HB _ Hv); assumption.
  - intros c Lc H. split; [exact Lc|]. apply HC; [apply unflat_shape|]. intros eps He. destruct (H eps He) as (x & [Lx Hx] & Nr). exists (unflat n k x). split; [exact Hx|].
    intros i j Hi Hj. rewrite !entry_unflat by assumption. apply Nr. apply flat_index; assumption.
  - intros c [Lc Hc] eps He. destruct (HF _ Hc eps He) as (dl & Hd & H). exists dl. split; [exact Hd|]. intros x [Lx Hx] Nr. apply H; [exact Hx|].
    intros i j Hi Hj. rewrite !entry_unflat by assumption. apply Nr. apply flat_index; assumption.
  - exists (unflat n k c). split; [exact Hc|]. intros X HX. specialize (Hm (flat n k X)). rewrite (unflat_flat n k X) in Hm by apply (HB X HX). apply Hm. split; [apply flat_length|exact HX].
Qed.

(** ** Block coordinate descent problems *)
Lemma uniform_delta n (P : nat -> R -> Prop) : (forall i d d', P i d -> 0 < d' <= d -> P i d') ->
  (forall i, (i < n)%nat -> exists d, 0 < d /\ P i d) -> exists d, 0 < d /\ forall i, (i < n)%nat -> P i d.
Proof.
  intros Hm. induction n as [|n IH]; intros H; [exists 1; split; [lra|intros i Hi; lia]|].
  destruct IH as (d & Hd & H1); [intros i Hi; apply H; lia|]. destruct (H n ltac:(lia)) as (d' & Hd' & H2).
  assert (P0 : 0 < Rmin d d') by (apply Rmin_glb_lt; assumption). exists (Rmin d d'). split; [exact P0|]. intros i Hi.
  destruct (Nat.eq_dec i n) as [->|]; [apply (Hm n d'); [exact H2|split; [exact P0|apply Rmin_r]]|apply (Hm i d); [apply H1; lia|split; [exact P0|apply Rmin_l]]].
Qed.
Lemma row_length n k X i : mat_shape n k X -> (i < n)%nat -> length (nth i X []) = k.
Proof. intros [LX RX] Hi. rewrite Forall_forall in RX. apply RX, nth_In. lia. Qed.
Lemma vsum_rows n k (r : vec -> R) X : mat_shape n k X -> vsum (map r X) = vsum (map (fun i => r (nth i X [])) (seq 0 n)).
Proof.
  intros [LX _]. f_equal. apply (nth_ext _ _ 0 0); [rewrite !map_length, seq_length; exact LX|]. intros i Hi. rewrite map_length in Hi.
  rewrite nth_map_seq by congruence. rewrite (nth_indep _ 0 (r [])) by (rewrite map_length; exact Hi). apply map_nth.
Qed.
Lemma vsum_seq_lt n (u w : nat -> R) eps : (forall i, (i < n)%nat -> w i - eps <= u i) -> vsum (map w (seq 0 n)) - INR n * eps <= vsum (map u (seq 0 n)).
Proof.
  intros H. assert (E : INR n * eps = vsum (map (fun _ : nat => eps) (seq 0 n))).
  { rewrite <- (seq_length n 0) at 1. induction (seq 0 n) as [|a l IH]; [simpl; ring|]. cbn [length map vsum fold_right]. rewrite S_INR. unfold vsum in *. lra. }
  rewrite E. apply Rplus_le_reg_r with (vsum (map (fun _ : nat => eps) (seq 0 n))). rewrite <- vsum_map_plus.
  match goal with |- ?a - ?b + ?b <= _ => replace (a - b + b) with a by ring end. apply vsum_map_le. intros i Hi. apply in_seq in Hi. specialize (H i ltac:(lia)). lra.
Qed.

Section Bcd.
Variables (m n k : nat) (f : composite) (D : vec -> Prop) (r : vec -> R).
Hypothesis Hs : bcd_shapes m n k f.
Hypothesis Hc : mconvex m k (subfun f) (grad_subfun f).
Hypothesis HDl : forall x, D x -> length x = k.
Hypothesis HDc : closed_set k D.
Hypothesis Hr : lsc_on k D r.
Lemma rows_lsc C eps : mat_shape n k C -> blocks_in D C -> 0 < eps -> exists dl, 0 < dl /\ forall X, mat_shape n k X -> blocks_in D X -> mnear n k dl C X ->
  vsum (map r C) - eps < vsum (map r X).
Proof.
  intros HC HDC He. set (e := eps / (INR n + 1)). assert (In0 : 0 <= INR n) by apply pos_INR. assert (He' : 0 < e) by (apply Rdiv_lt_0_compat; lra).
  destruct (uniform_delta n (fun i dl => forall x, D x -> near k dl (nth i C []) x -> r (nth i C []) - e < r x)) as (dl & Hd & H).
  - intros i d d' H [_ Hle] x Hx Nr. apply H; [exact Hx|]. intros j Hj. specialize (Nr j Hj). lra.
  - intros i Hi. apply Hr; [|exact He']. unfold blocks_in in HDC. rewrite Forall_forall in HDC. apply HDC, nth_In. rewrite (proj1 HC). exact Hi.
  - exists dl. split; [exact Hd|]. intros X HX HDX Nr. rewrite !(vsum_rows n k) by assumption.
    assert (A : vsum (map (fun i => r (nth i C [])) (seq 0 n)) - INR n * e <= vsum (map (fun i => r (nth i X [])) (seq 0 n))).
    { apply vsum_seq_lt. intros i Hi. left. apply (H i Hi); [unfold blocks_in in HDX; rewrite Forall_forall in HDX; apply HDX, nth_In; rewrite (proj1 HX); exact Hi|].
      intros j Hj. apply Nr; assumption. }
    assert (B : INR n * e < eps). { assert (E : (INR n + 1) * e = eps) by (unfold e; field; lra). lra. } lra.
Qed.
Lemma comp_lsc C eps : mat_shape n k C -> 0 < eps -> exists dl, 0 < dl /\ forall X, mat_shape n k X -> mnear n k dl C X -> comp_call k f C - eps < comp_call k f X.
Proof.
  intros HC He. set (g := fun i => norm1 (full_grad_block k f C i)). set (G := vsum (map g (seq 0 n))).
  assert (G0 : 0 <= G). { unfold G. induction (seq 0 n) as [|a l IH]; cbn [map vsum]; [lra|]. pose proof (norm1_nn (full_grad_block k f C a)). unfold g at 1. lra. }
  set (dl := eps / (G + 1)). assert (P : 0 < dl) by (apply Rdiv_lt_0_compat; lra). exists dl. split; [exact P|]. intros X HX Nr.
  pose proof (comp_convex m n k f C X Hs Hc HC HX) as A.
  assert (B : - (dl * G) <= vsum (map (fun i => dot (full_grad_block k f C i) (vsub (nth i X []) (nth i C []))) (seq 0 n))).
  { assert (E : vsum (map (fun i => (- dl) * g i) (seq 0 n)) = (- dl) * G) by apply vsum_map_scal.
    replace (- (dl * G)) with (vsum (map (fun i => (- dl) * g i) (seq 0 n))) by lra. apply vsum_map_le. intros i Hi. apply in_seq in Hi.
    pose proof (row_length n k X i HX ltac:(lia)) as L1. pose proof (row_length n k C i HC ltac:(lia)) as L2.
    assert (Q : Rabs (dot (vsub (nth i X []) (nth i C [])) (full_grad_block k f C i)) <= dl * g i).
    { apply (dot_near k); [rewrite vsub_length, L1, L2; apply Nat.max_id|apply (full_grad_length m n); [exact Hs|exact HC|lia]|lra|]. intros j Hj. rewrite nth_vsub. apply Nr; [lia|exact Hj]. }
    rewrite dot_comm. apply abs_bounds in Q. lra. }
  assert (E : dl * (G + 1) = eps) by (unfold dl; field; lra). lra.
Qed.
Lemma bcd_attains X0 B : mat_shape n k X0 -> blocks_in D X0 ->
  (forall X, mat_shape n k X -> blocks_in D X -> bcd_objective k f r X <= bcd_objective k f r X0 -> forall i j, (i < n)%nat -> (j < k)%nat -> Rabs (entry X i j) <= B) ->
  exists X, bcd_minimiser n k f D r X.
Proof.
  intros H0 HD0 HB. set (K := fun X => mat_shape n k X /\ blocks_in D X /\ forall i j, (i < n)%nat -> (j < k)%nat -> Rabs (entry X i j) <= B).
  assert (K0 : K X0) by (split; [exact H0|split; [exact HD0|apply HB; [exact H0|exact HD0|lra]]]).
  destruct (attains_minimum_mat n k K (bcd_objective k f r) B) as (C & (C1 & C2 & C3) & Hm).
  - exists X0. exact K0.
  - intros X (A1 & _ & A3). split; assumption.
  - intros C HC H. split; [exact HC|]. split.
    + unfold blocks_in. apply Forall_forall. intros c Hin. apply (In_nth _ _ []) in Hin. destruct Hin as (i & Hi & <-). assert (Hi' : (i < n)%nat) by (rewrite <- (proj1 HC); exact Hi); clear Hi; rename Hi' into Hi.
      apply HDc; [apply (row_length n k); assumption|]. intros eps He. destruct (H eps He) as (X & (A1 & A2 & _) & Nr). exists (nth i X []). split.
      * unfold blocks_in in A2. rewrite Forall_forall in A2. apply A2, nth_In. rewrite (proj1 A1). exact Hi.
      * intros j Hj. apply Nr; assumption.
    + intros i j Hi Hj. apply le_limit. intros eps He. destruct (H eps He) as (X & (_ & _ & A3) & Nr). specialize (A3 i j Hi Hj). specialize (Nr i j Hi Hj).
      pose proof (Rabs_triang (entry X i j) (- (entry X i j - entry C i j))) as T. rewrite Rabs_Ropp in T. replace (entry X i j + - (entry X i j - entry C i j)) with (entry C i j) in T by ring. lra.
  - intros C (C1 & C2 & _) eps He. destruct (comp_lsc C (eps / 2) C1 ltac:(lra)) as (d1 & P1 & Q1). destruct (rows_lsc C (eps / 2) C1 C2 ltac:(lra)) as (d2 & P2 & Q2).
    exists (Rmin d1 d2). split; [apply Rmin_glb_lt; assumption|]. intros X (X1 & X2 & _) Nr. unfold bcd_objective.
    specialize (Q1 X X1). specialize (Q2 X X1 X2). pose proof (Rmin_l d1 d2). pose proof (Rmin_r d1 d2).
    assert (comp_call k f C - eps / 2 < comp_call k f X) by (apply Q1; intros i j Hi Hj; specialize (Nr i j Hi Hj); lra).
    assert (vsum (map r C) - eps / 2 < vsum (map r X)) by (apply Q2; intros i j Hi Hj; specialize (Nr i j Hi Hj); lra). lra.
  - exists C. split; [exact C1|]. split; [exact C2|]. intros Z HZ HDZ. destruct (Rle_dec (bcd_objective k f r Z) (bcd_objective k f r X0)) as [Hle|Hgt].
    + apply Hm. split; [exact HZ|]. split; [exact HDZ|apply HB; assumption].
    + pose proof (Hm X0 K0). lra.
Qed.
End Bcd.
