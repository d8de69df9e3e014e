(** Theorems for C34 (make_kkt_optimality_fun). *)
From Coq Require Import Reals List Lra Lia Bool Arith.
From Verif Require Import Prelude Vec Mat LinSolveProofs Kkt.
Import ListNotations.
Open Scope R_scope.

Lemma partials_tvec m n J w j : mat_shape m n J -> (j < n)%nat -> length w = m -> nth j (tvec n J w) 0 = partials J w j.
Proof.
  intros HJ Hj Hw. unfold partials. rewrite <- (mvec_mtrans m n J w HJ Hw). unfold mvec, mtrans. rewrite map_map.
  erewrite (nth_indep _ 0) by (rewrite map_length, seq_length; exact Hj).
  rewrite (map_nth (fun x => dot (map (fun r => nth x r 0) J) w) (seq 0 n) 0%nat j), seq_nth by exact Hj. simpl. apply dot_comm.
Qed.
Lemma partials_nil_w J j : partials J [] j = 0. Proof. reflexivity. Qed.

Lemma stationarity_nth n m k p s : kkt_shapes n m k p -> length (primal s) = n -> dual_ok m (dual_eq s) -> dual_ok k (dual_ineq s) ->
  length (primal (kkt_optimality n p s)) = n /\
  forall j, (j < n)%nat -> nth j (primal (kkt_optimality n p s)) 0 =
    nth j (obj_grad p (primal s)) 0 + partials (eq_jac p (primal s)) (ovec (dual_eq s)) j + partials (ineq_jac p (primal s)) (ovec (dual_ineq s)) j.
Proof.
  intros HS Hx He Hi. destruct (HS _ Hx) as (L1 & _ & J1 & _ & J2). unfold kkt_optimality.
  assert (T1 : forall w, length (tvec n (eq_jac p (primal s)) w) = n) by (intros; apply (tvec_length m); exact J1).
  assert (T2 : forall w, length (tvec n (ineq_jac p (primal s)) w) = n) by (intros; apply (tvec_length k); exact J2).
  destruct (dual_eq s) as [lam|], (dual_ineq s) as [mu|]; simpl in *.
  - split; [rewrite !vadd_length, T1, T2; unfold vec in *; lia|]. intros j Hj. rewrite !nth_vadd, (partials_tvec m), (partials_tvec k) by assumption. reflexivity.
  - split; [rewrite !vadd_length, T1; unfold vec in *; lia|]. intros j Hj. rewrite nth_vadd, (partials_tvec m), partials_nil_w by assumption. ring.
  - split; [rewrite !vadd_length, T2; unfold vec in *; lia|]. intros j Hj. rewrite nth_vadd, (partials_tvec k), partials_nil_w by assumption. ring.
  - split; [exact L1|]. intros j Hj. rewrite !partials_nil_w. ring.
Qed.
Lemma nth_nil_any {A} i (d : A) : nth i [] d = d. Proof. destruct i; reflexivity. Qed.
Lemma nth_hmul_gen x y i : nth i (hmul x y) 0 = nth i x 0 * nth i y 0.
Proof.
  revert y i; induction x as [|a x IH]; intros [|b y] [|i]; simpl; try ring. apply IH.
Qed.
Lemma eq_part n p s : dual_eq (kkt_optimality n p s) = match dual_eq s with Some _ => Some (eq_fun p (primal s)) | None => None end.
Proof. unfold kkt_optimality. destruct (dual_eq s), (dual_ineq s); reflexivity. Qed.
Lemma ineq_part n p s : dual_ineq (kkt_optimality n p s) = match dual_ineq s with Some mu => Some (hmul (ineq_fun p (primal s)) mu) | None => None end.
Proof. unfold kkt_optimality. destruct (dual_eq s), (dual_ineq s); reflexivity. Qed.

(** C34: the optimality function vanishes exactly when stationarity, the equalities and
    complementary slackness hold. *)
Theorem C34_zero_iff : forall n m k p s, kkt_shapes n m k p -> length (primal s) = n -> dual_ok m (dual_eq s) -> dual_ok k (dual_ineq s) ->
  let x := primal s in let lam := ovec (dual_eq s) in let mu := ovec (dual_ineq s) in
  (all_zero (kkt_optimality n p s) <->
   (forall j, (j < n)%nat -> nth j (obj_grad p x) 0 + partials (eq_jac p x) lam j + partials (ineq_jac p x) mu j = 0) /\
   (forall i, nth i (eq_fun p x) 0 = 0) /\
   (forall i, nth i mu 0 * nth i (ineq_fun p x) 0 = 0)).
Proof.
  intros n m k p s HS Hx He Hi x lam mu. destruct (stationarity_nth n m k p s HS Hx He Hi) as [L1 S1].
  assert (E0 : forall i, nth i (ovec (dual_eq (kkt_optimality n p s))) 0 = nth i (eq_fun p x) 0).
  { intros i. rewrite eq_part. destruct (dual_eq s) eqn:E; [reflexivity|]. destruct (HS _ Hx) as (_ & L2 & _). fold x in L2. unfold dual_ok in He.
    cbn [ovec]. rewrite nth_nil_any, nth_overflow; [reflexivity|]. unfold vec in *; lia. }
  assert (E1 : forall i, nth i (ovec (dual_ineq (kkt_optimality n p s))) 0 = nth i mu 0 * nth i (ineq_fun p x) 0).
  { intros i. rewrite ineq_part. unfold mu. destruct (dual_ineq s) as [w|] eqn:E; cbn [ovec]; [rewrite nth_hmul_gen; apply Rmult_comm|].
    rewrite nth_nil_any. ring. }
  unfold all_zero. split.
  - intros (H1 & H2 & H3). repeat split.
    + intros j Hj. specialize (H1 j). rewrite S1 in H1 by exact Hj. exact H1.
    + intros i. rewrite <- E0. apply H2.
    + intros i. rewrite <- E1. apply H3.
  - intros (H1 & H2 & H3). repeat split.
    + intros j. destruct (Nat.lt_ge_cases j n) as [Hj|Hj]; [rewrite S1 by exact Hj; apply H1, Hj|]. apply nth_overflow. unfold vec in *; lia.
    + intros i. rewrite E0. apply H2.
    + intros i. rewrite E1. apply H3.
Qed.
Print Assumptions C34_zero_iff.

(** C34: zero at every KKT point; a zero with primal and dual feasibility is a KKT point. *)
Theorem C34_kkt : forall n m k p s, kkt_shapes n m k p -> length (primal s) = n -> dual_ok m (dual_eq s) -> dual_ok k (dual_ineq s) ->
  let x := primal s in let lam := ovec (dual_eq s) in let mu := ovec (dual_ineq s) in
  (is_kkt_point n p x lam mu -> all_zero (kkt_optimality n p s)) /\
  (all_zero (kkt_optimality n p s) -> (forall i, nth i (ineq_fun p x) 0 <= 0) -> (forall i, 0 <= nth i mu 0) ->
   is_kkt_point n p x lam mu).
Proof.
  intros n m k p s HS Hx He Hi x lam mu. assert (HZ := C34_zero_iff n m k p s HS Hx He Hi). cbv zeta in HZ. fold x lam mu in HZ.
  split.
  - intros (H1 & (H2 & _) & _ & H4). apply HZ. auto.
  - intros H Hf Hm. apply HZ in H. destruct H as (H1 & H2 & H3). split; [exact H1|]. split; [split; assumption|]. auto.
Qed.
Print Assumptions C34_kkt.

(** C34: KKT points of convex problems are global minimisers. *)
Theorem C34_convex : forall n m k p f x lam mu, kkt_shapes n m k p -> convex_problem n f p -> length x = n -> length lam = m -> length mu = k ->
  is_kkt_point n p x lam mu -> forall y, length y = n -> feasible p y -> f x <= f y.
Proof.
  intros n m k p f x lam mu HS HC Hx Hl Hm (H1 & (H2 & H2') & H3 & H4) y Hy [F1 F2].
  destruct (HC x y Hx Hy) as (C1 & C2 & C3). destruct (HS x Hx) as (L1 & L2 & J1 & L3 & J2).
  set (d := vsub y x) in *. assert (Ld : length d = n) by (unfold d; rewrite vsub_length; unfold vec in *; lia).
  assert (S0 : dot (obj_grad p x) d + dot lam (mvec (eq_jac p x) d) + dot mu (mvec (ineq_jac p x) d) = 0).
  { rewrite <- (dot_tvec n), <- (dot_tvec n (ineq_jac p x)), <- !dot_vadd_l.
    replace (vadd (vadd (obj_grad p x) (tvec n (eq_jac p x) lam)) (tvec n (ineq_jac p x) mu)) with (vzero n); [apply dot_vzero_l|].
    symmetry. apply vec_ext; [rewrite !vadd_length, vzero_length, (tvec_length m n), (tvec_length k n) by assumption; unfold vec in *; lia|].
    intros i Hi0. assert (Hi : (i < n)%nat). { rewrite !vadd_length, (tvec_length m n), (tvec_length k n) in Hi0 by assumption. unfold vec in *; lia. }
    rewrite !nth_vadd, nth_vzero, (partials_tvec m), (partials_tvec k) by assumption. apply H1, Hi. }
  assert (E1 : dot lam (mvec (eq_jac p x) d) = 0).
  { replace (mvec (eq_jac p x) d) with (vzero m); [apply dot_vzero_r|]. symmetry. apply vec_ext; [rewrite mvec_length, vzero_length; apply J1|].
    intros i Hi. rewrite mvec_length in Hi. rewrite nth_mvec by exact Hi. rewrite nth_vzero. specialize (C2 i). rewrite H2, F1 in C2. lra. }
  assert (E2 : dot mu (mvec (ineq_jac p x) d) <= 0).
  { assert (G : forall mu' J, length mu' = length J -> (forall i, (i < length J)%nat -> nth i mu' 0 * dot (nth i J []) d <= 0) -> dot mu' (mvec J d) <= 0).
    { clear. induction mu' as [|a w IH]; intros [|r J] Hlen Hle; try discriminate; [simpl; lra|].
      assert (A := Hle 0%nat ltac:(simpl; lia)). cbn [nth] in A.
      assert (Q := IH J ltac:(simpl in Hlen; lia) ltac:(intros i Hi; exact (Hle (S i) ltac:(simpl; lia)))).
      change (dot (a :: w) (mvec (r :: J) d)) with (a * dot r d + dot w (mvec J d)). lra. }
    apply (G mu (ineq_jac p x)).
    - transitivity k; [exact Hm|symmetry; apply J2].
    - intros i Hi. specialize (C3 i). specialize (H3 i). specialize (H4 i). specialize (F2 i).
      set (D := dot (nth i (ineq_jac p x) []) d) in *. set (w := nth i mu 0) in *. set (g := nth i (ineq_fun p x) 0) in *.
      assert (HD : D <= - g) by (apply Rplus_le_reg_l with g; apply Rle_trans with (1 := C3); apply Rle_trans with (1 := F2); right; ring). assert (P := Rmult_le_compat_l w D (- g) H3 HD). change (w * D <= 0). lra. }
  lra.
Qed.
Print Assumptions C34_convex.

(** The same from the optimality function: a feasible zero with non-negative multipliers is a global
    minimiser of a convex problem. *)
Theorem C34_zero_minimises : forall n m k p f s, kkt_shapes n m k p -> convex_problem n f p -> length (primal s) = n ->
  dual_ok m (dual_eq s) -> dual_ok k (dual_ineq s) -> all_zero (kkt_optimality n p s) ->
  (forall i, nth i (ineq_fun p (primal s)) 0 <= 0) -> (forall i, 0 <= nth i (ovec (dual_ineq s)) 0) ->
  feasible p (primal s) /\ forall y, length y = n -> feasible p y -> f (primal s) <= f y.
Proof.
  intros n m k p f s HS HC Hx He Hi HZ Hf Hm.
  destruct (C34_kkt n m k p s HS Hx He Hi) as [_ H]. specialize (H HZ Hf Hm). split; [apply H|].
  apply (C34_convex n m k p f (primal s) (ovec (dual_eq s)) (ovec (dual_ineq s)) HS HC Hx); [| |exact H].
  - destruct (dual_eq s); simpl in *; congruence.
  - destruct (dual_ineq s); simpl in *; congruence.
Qed.
Print Assumptions C34_zero_minimises.

(** Zero alone implies neither feasibility nor optimality: minimise x^2/2 subject to x + 1 <= 0, at
    x = 0 with multiplier 0 (infeasible), and subject to x - 1 <= 0, at x = 1 with multiplier -1
    (feasible, not optimal). *)
Definition ex_kkt (s : R) : kkt_problem :=
  {| obj_grad := fun x => [nth 0 x 0]; eq_fun := fun _ => []; eq_jac := fun _ => [];
     ineq_fun := fun x => [nth 0 x 0 + s]; ineq_jac := fun _ => [[1]] |}.
Definition ex_obj (x : vec) : R := nth 0 x 0 * nth 0 x 0 / 2.
Lemma ex_kkt_ok s : kkt_shapes 1 0 1 (ex_kkt s) /\ convex_problem 1 ex_obj (ex_kkt s).
Proof.
  split.
  - intros x Hx. simpl. repeat split; repeat constructor.
  - intros [|x [|]] [|y [|]]; try discriminate. intros _ _. unfold ex_obj; simpl. split; [assert (P := Rle_0_sqr (x - y)); unfold Rsqr in P; lra|]. split.
    + intros [|i]; simpl; lra.
    + intros [|[|i]]; simpl; lra.
Qed.
Theorem C34_zero_alone_refuted :
  (exists p f s, kkt_shapes 1 0 1 p /\ convex_problem 1 f p /\ length (primal s) = 1%nat /\ dual_ok 1 (dual_ineq s) /\
     all_zero (kkt_optimality 1 p s) /\ ~ feasible p (primal s)) /\
  (exists p f s y, kkt_shapes 1 0 1 p /\ convex_problem 1 f p /\ length (primal s) = 1%nat /\ dual_ok 1 (dual_ineq s) /\
     all_zero (kkt_optimality 1 p s) /\ feasible p (primal s) /\ length y = 1%nat /\ feasible p y /\ f y < f (primal s)).
Proof.
  split.
  - exists (ex_kkt 1), ex_obj, {| primal := [0]; dual_eq := None; dual_ineq := Some [0] |}.
    destruct (ex_kkt_ok 1) as [H1 H2]. repeat (split; [assumption||reflexivity|]). split.
    + repeat split; intros [|[|i]]; simpl; lra.
    + intros [_ H]. specialize (H 0%nat). simpl in H. lra.
  - exists (ex_kkt (-1)), ex_obj, {| primal := [1]; dual_eq := None; dual_ineq := Some [-1] |}, [0].
    destruct (ex_kkt_ok (-1)) as [H1 H2]. repeat (split; [assumption||reflexivity|]). split; [|split; [|split; [|split]]].
    + repeat split; intros [|[|i]]; simpl; lra.
    + split; intros [|[|i]]; simpl; lra.
    + reflexivity.
    + split; intros [|[|i]]; simpl; lra.
    + unfold ex_obj; simpl; lra.
Qed.
Print Assumptions C34_zero_alone_refuted.

(** Instance: x^2/2 subject to x + 1 <= 0 has the KKT point x = -1, mu = 1. *)
Example C34_example : kkt_shapes 1 0 1 (ex_kkt 1) /\ convex_problem 1 ex_obj (ex_kkt 1) /\ is_kkt_point 1 (ex_kkt 1) [-1] [] [1].
Proof.
  destruct (ex_kkt_ok 1) as [H1 H2]. split; [exact H1|]. split; [exact H2|]. split; [|split; [split|split]].
  - intros [|j] Hj; [|lia]. unfold partials, dot; simpl. lra.
  - intros [|i]; simpl; lra.
  - intros [|[|i]]; simpl; lra.
  - intros [|[|i]]; simpl; lra.
  - intros [|[|i]]; simpl; lra.
Qed.
