(** C61: CvxpyQP returns the solutions of quadratic programs, and quadratic programs (CvxpyQP, EqualityConstrainedQP)
    are differentiated correctly with respect to all their data. *)
From Coq Require Import String.
From Coq Require Import Reals List Lra Lia Bool Arith Permutation.
From Verif Require Import Prelude Vec Mat LinAlg LinSolve LinSolveProofs LinSolveTheorems Kkt KktTheorems EqQP EqQPTheorems ImplicitDiff ImplicitDiffProofs ImplicitDiffTheorems ImplicitRun ImplicitRunProofs ImplicitRunTheorems Cvxpy CvxpyProofs.
Import ListNotations.
Open Scope R_scope.

(** ** Checks *)
(** Data of the wrong shapes are rejected with a ValueError, whatever CVXPY would do; otherwise CVXPY gets exactly the
    quadratic program of the data. *)
Theorem C61_check : forall cvx none solver obj eq ineq,
  (forall n o, obj = Some o -> ~ shapes_fit n o eq ineq) -> cvxpy_run cvx none solver obj eq ineq = Err ValueError.
Proof.
  intros cvx none solver obj eq ineq H. unfold cvxpy_run. assert (E : check_params obj eq ineq = Err ValueError); [|rewrite E; reflexivity].
  destruct obj as [[Q c]|]; [|reflexivity]. specialize (H (length c) (Q, c) eq_refl). unfold check_params, shapes_fit in *. cbn [fst snd] in H.
  destruct (Nat.eqb_spec (a_rows Q) (a_cols Q)) as [E1|]; cbn [negb check seqr]; [|reflexivity].
  destruct (Nat.eqb_spec (a_cols Q) (length c)) as [E2|]; cbn [negb check seqr]; [|reflexivity].
  destruct eq as [[A b]|].
  - destruct (Nat.eqb_spec (a_rows A) (length b)) as [E3|]; cbn [negb check seqr]; [|reflexivity].
    destruct (Nat.eqb_spec (a_cols A) (a_cols Q)) as [E4|]; cbn [negb check seqr]; [|reflexivity].
    destruct ineq as [[G h]|]; [|exfalso; apply H; repeat split; congruence].
    destruct (Nat.eqb_spec (a_rows G) (length h)) as [E5|]; cbn [negb check seqr]; [|reflexivity].
    destruct (Nat.eqb_spec (a_cols G) (a_cols Q)) as [E6|]; cbn [negb check seqr]; [|reflexivity]. exfalso; apply H; repeat split; congruence.
  - cbn [seqr]. destruct ineq as [[G h]|]; [|exfalso; apply H; repeat split; congruence].
    destruct (Nat.eqb_spec (a_rows G) (length h)) as [E5|]; cbn [negb check seqr]; [|reflexivity].
    destruct (Nat.eqb_spec (a_cols G) (a_cols Q)) as [E6|]; cbn [negb check seqr]; [|reflexivity]. exfalso; apply H; repeat split; congruence.
Qed.
Print Assumptions C61_check.
Lemma check_ok n o eq ineq : shapes_fit n o eq ineq -> check_params (Some o) eq ineq = Ok tt.
Proof.
  destruct o as [Q c]. intros (E1 & E2 & E3 & E4 & E5). cbn [fst snd] in *. unfold check_params. rewrite E1, E2, E3, Nat.eqb_refl. cbn [negb check seqr].
  destruct eq as [[A b]|]; [destruct E4 as [E4 E4']; rewrite E4, E4', !Nat.eqb_refl|]; destruct ineq as [[G h]|]; try (destruct E5 as [E5 E5']; rewrite E5, E5', !Nat.eqb_refl); reflexivity.
Qed.
Lemma run_unfold cvx none solver n o eq ineq : shapes_fit n o eq ineq ->
  cvxpy_run cvx none solver (Some o) eq ineq =
  bindr (cvx solver (qp_of n o eq ineq)) (fun pb =>
      match cv_status pb with
      | Infeasible | Unbounded => Err ValueError
      | _ =>
          bindr (match eq with None => Ok None | Some _ => bindr (first_of (cv_duals pb)) (fun d => bindr (jnp_array none d) (fun v => Ok (Some v))) end) (fun dual_eq =>
          bindr (match ineq with None => Ok None | Some _ => bindr (last_of (cv_duals pb)) (fun d => bindr (jnp_array none d) (fun v => Ok (Some v))) end) (fun dual_ineq =>
          bindr (jnp_array none (cv_x pb)) (fun x => Ok {| primal := x; dual_eq := dual_eq; dual_ineq := dual_ineq |})))
      end).
Proof.
  intros H. unfold cvxpy_run. rewrite (check_ok n o eq ineq H). destruct o as [Q c]. destruct H as (_ & _ & E & _). cbn [snd] in E. cbn [bindr].
  replace {| cp_n := length c; cp_Q := a_mat Q; cp_c := c; cp_constraints := (match eq with Some (A, b) => [CEq (a_mat A) b] | None => [] end) ++ match ineq with Some (G, h) => [CLe (a_mat G) h] | None => [] end |}
    with (qp_of n (Q, c) eq ineq); [reflexivity|].
  unfold qp_of. cbn [fst snd]. rewrite E. destruct eq as [[A b]|], ineq as [[G h]|]; reflexivity.
Qed.

(** ** Solutions *)
Lemma qp_shapes n obj eq ineq : data_ok n obj eq ineq -> kkt_shapes n (sz (osize eq)) (sz (osize ineq)) (qp_problem n (a_mat (fst obj)) (snd obj) (opt_mat eq) (opt_vec eq) (opt_mat ineq) (opt_vec ineq)).
Proof.
  intros HD x Hx. destruct (data_sizes n obj eq ineq HD) as (_ & _ & _ & SQ & Lc). destruct (data_eq_sizes n obj eq ineq HD) as ((_ & _ & _ & SA & Lb) & (_ & _ & _ & SG & Lh)).
  cbn [obj_grad eq_fun eq_jac ineq_fun ineq_jac qp_problem]. rewrite vadd_length, smul_length, vadd_length, !vsub_length, !mvec_length, (tvec_length _ _ _ _ SQ), (proj1 SQ), (proj1 SA), (proj1 SG), Lc, Lb, Lh.
  split; [lia|]. split; [lia|]. split; [exact SA|]. split; [lia|exact SG].
Qed.
Lemma sym_grad n Q x : mat_shape n n Q -> symmetric n Q -> length x = n -> smul (1 / 2) (vadd (mvec Q x) (tvec n Q x)) = mvec Q x.
Proof. intros S1 S2 Hx. rewrite (tvec_sym n Q x S1 S2 Hx). apply vec_eq_dot; [rewrite smul_length, vadd_length; lia|]. intros w. autorewrite with vec. field. Qed.
Lemma qp_convex n obj eq ineq : data_ok n obj eq ineq -> symmetric n (a_mat (fst obj)) -> pos_semidef n (a_mat (fst obj)) ->
  convex_problem n (qp_value (a_mat (fst obj)) (snd obj)) (qp_problem n (a_mat (fst obj)) (snd obj) (opt_mat eq) (opt_vec eq) (opt_mat ineq) (opt_vec ineq)).
Proof.
  intros HD Hs Hp x y Hx Hy. destruct (data_sizes n obj eq ineq HD) as (_ & _ & _ & SQ & Lc). set (Q := a_mat (fst obj)) in *. set (c := snd obj) in *.
  cbn [obj_grad eq_fun eq_jac ineq_fun ineq_jac qp_problem]. rewrite (sym_grad n Q x SQ Hs Hx).
  set (d := vsub y x). assert (Ld : length d = n) by (unfold d; rewrite vsub_length; unfold vec in *; lia).
  assert (Ey : y = vadd x d) by (unfold d; symmetry; apply vsub_vadd_cancel; congruence).
  assert (AFF : forall M v i, nth i (vsub (mvec M y) v) 0 = nth i (vsub (mvec M x) v) 0 + dot (nth i M []) d).
  { intros M v i. rewrite Ey, mvec_vadd, !nth_vsub, nth_vadd. assert (E : nth i (mvec M d) 0 = dot (nth i M []) d) by apply nth_mvec. rewrite E. ring. }
  split; [|split; intros i; [apply AFF|rewrite <- AFF; lra]].
  unfold qp_value. rewrite Ey, mvec_vadd, !dot_vadd_l, !dot_vadd_r. assert (P := Hp d Ld). assert (E : dot x (mvec Q d) = dot d (mvec Q x)).
  { rewrite <- (dot_tvec n), (tvec_sym n Q x SQ Hs Hx). apply dot_comm. }
  rewrite E, (dot_comm (mvec Q x) d). lra.
Qed.
Lemma fits_dual n eq ineq s : kkt_fits n eq ineq s -> dual_ok (sz (osize eq)) (dual_eq s) /\ dual_ok (sz (osize ineq)) (dual_ineq s).
Proof. intros (_ & A & B). split; [destruct eq as [[]|], (dual_eq s)|destruct ineq as [[]|], (dual_ineq s)]; cbn in *; (assumption || contradiction || reflexivity). Qed.
Lemma feasible_iff n obj eq ineq x : data_ok n obj eq ineq ->
  (feasible (qp_problem n (a_mat (fst obj)) (snd obj) (opt_mat eq) (opt_vec eq) (opt_mat ineq) (opt_vec ineq)) x <-> qp_feasible eq ineq x).
Proof.
  intros HD. destruct (data_eq_sizes n obj eq ineq HD) as ((_ & _ & _ & SA & Lb) & (_ & _ & _ & SG & Lh)). unfold feasible, qp_feasible. cbn [eq_fun ineq_fun qp_problem].
  assert (LA : length (mvec (opt_mat eq) x) = sz (osize eq)) by (rewrite mvec_length; apply SA). assert (LG : length (mvec (opt_mat ineq) x) = sz (osize ineq)) by (rewrite mvec_length; apply SG).
  assert (A : (forall i, nth i (vsub (mvec (opt_mat eq) x) (opt_vec eq)) 0 = 0) <-> match eq with Some (M, b) => mvec (a_mat M) x = b | None => True end).
  { destruct eq as [[M b]|]; cbn [opt_mat opt_vec] in *; [|split; [trivial|intros _ [|i]; reflexivity]]. split.
    - intros H. apply vec_ext; [unfold vec in *; lia|]. intros i _. specialize (H i). rewrite nth_vsub in H. lra.
    - intros <- i. rewrite nth_vsub. lra. }
  assert (B : (forall i, nth i (vsub (mvec (opt_mat ineq) x) (opt_vec ineq)) 0 <= 0) <-> match ineq with Some (G, h) => forall i, (i < length h)%nat -> nth i (mvec (a_mat G) x) 0 <= nth i h 0 | None => True end).
  { destruct ineq as [[M b]|]; cbn [opt_mat opt_vec] in *; [|split; [trivial|intros _ [|i]; cbn; lra]]. split.
    - intros H i _. specialize (H i). rewrite nth_vsub in H. lra.
    - intros H i. rewrite nth_vsub. destruct (Nat.lt_ge_cases i (length b)) as [L|L]; [specialize (H i L); lra|]. rewrite !nth_overflow by (unfold vec in *; lia). lra. }
  tauto.
Qed.

Lemma f2_cons {T U} (P : T -> U -> Prop) a l b m : Forall2 P (a :: l) (b :: m) -> P a b /\ Forall2 P l m.
Proof. intros H. inversion H; subst. auto. Qed.
(** When CVXPY keeps its contract and reports an optimum: run returns, in the parts of a KKTSolution, a global solution
    of the quadratic program and multipliers that satisfy the KKT conditions; there is a multiplier part exactly for
    each constraint that was given; optimality_fun vanishes and l2_optimality_error is 0. *)
Theorem C61_solution : forall cvx none solver n obj eq ineq a,
  data_ok n obj eq ineq -> symmetric n (a_mat (fst obj)) -> pos_semidef n (a_mat (fst obj)) ->
  cvx solver (qp_of n obj eq ineq) = Ok a -> cvx_answer_ok (qp_of n obj eq ineq) a -> cv_status a = Optimal ->
  exists s, cvxpy_run cvx none solver (Some obj) eq ineq = Ok s /\ kkt_zero n obj eq ineq s /\ cvxpy_l2_error s obj eq ineq = 0 /\
    (forall i, 0 <= nth i (ovec (dual_ineq s)) 0) /\ qp_solution n obj eq ineq (primal s).
Proof.
  intros cvx none solver n obj eq ineq a HD Hs Hp Ha HC HO. unfold cvx_answer_ok in HC. rewrite HO in HC. destruct HC as (x & duals & Ex & Ed & Hx & HF & HG). cbn [cp_n cp_Q cp_c cp_constraints qp_of] in *.
  assert (H0 : data_ok n obj eq ineq) by exact HD. destruct H0 as (Hfit & _). destruct (data_sizes n obj eq ineq HD) as (_ & _ & _ & SQ & Lc). destruct (data_eq_sizes n obj eq ineq HD) as ((_ & _ & _ & SA & Lb) & (_ & _ & _ & SG & Lh)).
  set (ye := match eq with Some _ => Some (hd [] duals) | None => None end). set (zi := match ineq with Some _ => Some (last duals []) | None => None end).
  set (s := {| primal := x; dual_eq := ye; dual_ineq := zi |}). exists s.
  assert (HL : length duals = length (match eq with Some _ => [tt] | None => [] end ++ match ineq with Some _ => [tt] | None => [] end)).
  { clear -HF. destruct eq as [[]|], ineq as [[]|]; repeat (match goal with H : Forall2 _ _ _ |- _ => inversion H; clear H; subst end); reflexivity. }
  assert (HR : cvxpy_run cvx none solver (Some obj) eq ineq = Ok s).
  { rewrite (run_unfold cvx none solver n obj eq ineq Hfit), Ha. cbn [bindr]. rewrite HO, Ex, Ed. unfold s, ye, zi.
    destruct eq as [[A b]|], ineq as [[G h]|]; cbn [app length] in HL; destruct duals as [|d1 [|d2 [|]]]; try discriminate; reflexivity. }
  assert (Z0 : forall v, length v = n -> vadd v (vzero n) = v) by (intros v Hv; apply vadd_vzero_r'; exact Hv).
  assert (HKF : kkt_fits n eq ineq s /\ (forall i, 0 <= nth i (ovec zi) 0) /\ qp_feasible eq ineq x /\
     (forall i, nth i (ovec zi) 0 * (nth i (mvec (opt_mat ineq) x) 0 - nth i (opt_vec ineq) 0) = 0) /\
     vadd (mvec (a_mat (fst obj)) x) (vadd (snd obj) (vadd (tvec n (opt_mat eq) (ovec ye)) (tvec n (opt_mat ineq) (ovec zi)))) = vzero n).
  { assert (Cmp : forall G h d, length h = length (mvec (a_mat G) x) -> con_ok n x (CLe (a_mat G) h) d ->
      (forall i, 0 <= nth i d 0) /\ (forall i, nth i d 0 * (nth i (mvec (a_mat G) x) 0 - nth i h 0) = 0)).
    { intros G h d Lhh [Ld Hd]. split; intros i; (destruct (Nat.lt_ge_cases i (length h)) as [Li|Li]; [apply (Hd i Li)|]).
      - rewrite nth_overflow by (unfold vec in *; lia). lra.
      - rewrite (nth_overflow d) by (unfold vec in *; lia). ring. }
    unfold kkt_fits, s, qp_feasible. cbn [primal dual_eq dual_ineq].
    destruct eq as [[A b]|], ineq as [[G h]|]; cbn [app length] in HL; destruct duals as [|d1 [|d2 [|]]]; try discriminate; unfold ye, zi; cbn [hd last ovec opt_mat opt_vec osize sz] in *;
      repeat (match goal with H : Forall2 _ (_ :: _) (_ :: _) |- _ => apply f2_cons in H; destruct H end);
      repeat (match goal with H : con_ok _ _ (CEq _ _) _ |- _ => destruct H end);
      cbn [combine map fold_right fst snd con_grad] in HG.
    - match goal with H : con_ok n x (CLe _ _) _ |- _ => pose proof H as HI end. destruct (Cmp G h d2) as [C1 C2]; [rewrite mvec_length; symmetry; apply SG|exact HI|]. destruct HI as [HI1 HI2].
      split; [split; [exact Hx|split; assumption]|]. split; [exact C1|]. split; [split; [assumption|intros i Hi; apply (HI2 i Hi)]|]. split; [exact C2|]. rewrite Z0 in HG by (eapply tvec_length; eassumption). exact HG.
    - split; [split; [exact Hx|split; [assumption|exact I]]|]. split; [intros [|i]; cbn; lra|]. split; [split; [assumption|exact I]|]. split; [intros [|i]; cbn; ring|]. rewrite tvec_nil. exact HG.
    - match goal with H : con_ok n x (CLe _ _) _ |- _ => pose proof H as HI end. destruct (Cmp G h d1) as [C1 C2]; [rewrite mvec_length; symmetry; apply SG|exact HI|]. destruct HI as [HI1 HI2].
      split; [split; [exact Hx|split; [exact I|assumption]]|]. split; [exact C1|]. split; [split; [exact I|intros i Hi; apply (HI2 i Hi)]|]. split; [exact C2|]. rewrite tvec_nil, vadd_vzero_l' by (eapply tvec_length; eassumption). rewrite Z0 in HG by (eapply tvec_length; eassumption). exact HG.
    - split; [split; [exact Hx|split; exact I]|]. split; [intros [|i]; cbn; lra|]. split; [split; exact I|]. split; [intros [|i]; cbn; ring|]. rewrite !tvec_nil, vadd_vzero2. exact HG. }
  destruct HKF as (HK & Hz & Hfe & Hcs & Hst). set (P := qp_problem n (a_mat (fst obj)) (snd obj) (opt_mat eq) (opt_vec eq) (opt_mat ineq) (opt_vec ineq)).
  assert (HSh := qp_shapes n obj eq ineq HD). fold P in HSh. destruct (fits_dual n eq ineq s HK) as [D1 D2].
  assert (HKP : is_kkt_point n P (primal s) (ovec (dual_eq s)) (ovec (dual_ineq s))).
  { unfold is_kkt_point. cbn [primal dual_eq dual_ineq s]. split; [|split; [apply (feasible_iff n obj eq ineq x HD); exact Hfe|split; [exact Hz|]]].
    - intros j Hj. cbn [obj_grad eq_jac ineq_jac qp_problem P]. rewrite (sym_grad n _ x SQ Hs Hx). assert (X := f_equal (fun v => nth j v 0) Hst). cbv beta in X. rewrite !nth_vadd, nth_vzero in X.
      assert (T : forall r M w, mat_shape r n M -> length w = r -> nth j (tvec n M w) 0 = partials M w j).
      { intros r M w HM Hw. apply (partials_tvec r); assumption. }
      destruct (kkt_flat_length n eq ineq s HK) as (_ & Ly & Lz). cbn [dual_eq dual_ineq s] in Ly, Lz.
      rewrite <- (T _ _ _ SA Ly), <- (T _ _ _ SG Lz), nth_vadd. lra.
    - intros i. cbn [ineq_fun qp_problem P]. rewrite nth_vsub. apply Hcs. }
  assert (HZ : all_zero (cvxpy_optimality_fun s obj eq ineq)).
  { unfold cvxpy_optimality_fun. rewrite Lc. apply (proj1 (C34_kkt n _ _ P s HSh Hx D1 D2)). exact HKP. }
  split; [exact HR|]. split; [split; assumption|]. split; [|split; [exact Hz|]].
  - unfold cvxpy_l2_error. apply all_zero_flat in HZ. rewrite HZ. apply norm2_vzero.
  - split; [exact Hx|]. split; [exact Hfe|]. intros y Hy Hfy.
    destruct (kkt_flat_length n eq ineq s HK) as (_ & Ly & Lz).
    apply (C34_convex n _ _ P (qp_value (a_mat (fst obj)) (snd obj)) x (ovec (dual_eq s)) (ovec (dual_ineq s)) HSh (qp_convex n obj eq ineq HD Hs Hp) Hx Ly Lz HKP y Hy). apply (feasible_iff n obj eq ineq y HD). exact Hfy.
Qed.
Print Assumptions C61_solution.

Lemma con_feasible_iff n obj eq ineq x : Forall (con_feasible x) (cp_constraints (qp_of n obj eq ineq)) <-> qp_feasible eq ineq x.
Proof.
  unfold qp_feasible, qp_of. cbn [cp_constraints]. destruct eq as [[A b]|], ineq as [[G h]|]; split; intros H.
  - inversion H as [|? ? H1 H2]; subst. inversion H2; subst. split; assumption.
  - destruct H. constructor; [assumption|constructor; [assumption|constructor]].
  - inversion H; subst. split; [assumption|exact I].
  - destruct H. constructor; [assumption|constructor].
  - inversion H; subst. split; [exact I|assumption].
  - destruct H. constructor; [assumption|constructor].
  - split; exact I.
  - constructor.
Qed.
(** A problem that CVXPY reports infeasible or unbounded gives a ValueError, and it has no solution; errors of CVXPY
    pass through. *)
Theorem C61_status : forall cvx none solver n obj eq ineq, data_ok n obj eq ineq ->
  (forall a, cvx solver (qp_of n obj eq ineq) = Ok a -> cvx_answer_ok (qp_of n obj eq ineq) a -> cv_status a = Infeasible \/ cv_status a = Unbounded ->
     cvxpy_run cvx none solver (Some obj) eq ineq = Err ValueError /\ ~ has_solution n obj eq ineq) /\
  (forall e, cvx solver (qp_of n obj eq ineq) = Err e -> cvxpy_run cvx none solver (Some obj) eq ineq = Err e).
Proof.
  intros cvx none solver n obj eq ineq HD. assert (Hf := proj1 HD). split.
  - intros a Ha HC HS. rewrite (run_unfold cvx none solver n obj eq ineq Hf), Ha. cbn [bindr]. split; [destruct HS as [-> | ->]; reflexivity|].
    intros (x & Hx & Hfx & Hmin). unfold cvx_answer_ok in HC. destruct HS as [HS|HS]; rewrite HS in HC.
    + apply (HC x Hx). apply (con_feasible_iff n obj eq ineq x). exact Hfx.
    + destruct (HC (qp_value (a_mat (fst obj)) (snd obj) x)) as (y & Hy & Hfy & Hv). apply con_feasible_iff in Hfy. specialize (Hmin y Hy Hfy). cbn [cp_Q cp_c qp_of] in Hv. lra.
  - intros e He. rewrite (run_unfold cvx none solver n obj eq ineq Hf), He. reflexivity.
Qed.
Print Assumptions C61_status.

(** Only the exact strings "infeasible" and "unbounded" are tested.  For CVXPY's "infeasible_inaccurate" (also
    "unbounded_inaccurate", "infeasible_or_unbounded") there is no error: where jnp.array(None) is NaN, run returns
    NaN as the solution of a problem that has none. *)
Definition inf_obj : pair2 := ({| a_rows := 1; a_cols := 1; a_mat := [[1]] |}, [0]).
Definition inf_ineq : option pair2 := Some ({| a_rows := 2; a_cols := 1; a_mat := [[1]; [-1]] |}, [0; -1]).
Definition inf_answer : cvx_answer := {| cv_status := InfeasibleInaccurate; cv_x := None; cv_duals := [None] |}.
Theorem C61_inaccurate_refuted :
  data_ok 1 inf_obj None inf_ineq /\ symmetric 1 (a_mat (fst inf_obj)) /\ pos_semidef 1 (a_mat (fst inf_obj)) /\
  cvx_answer_ok (qp_of 1 inf_obj None inf_ineq) inf_answer /\ cvx_none inf_answer /\ ~ has_solution 1 inf_obj None inf_ineq /\
  forall cvx solver nan, cvx solver (qp_of 1 inf_obj None inf_ineq) = Ok inf_answer ->
    cvxpy_run cvx (Ok nan) solver (Some inf_obj) None inf_ineq = Ok {| primal := nan; dual_eq := None; dual_ineq := Some nan |}.
Proof.
  split; [repeat split; repeat constructor|]. split; [|split].
  - intros i j Hi Hj. replace i with 0%nat by lia. replace j with 0%nat by lia. reflexivity.
  - intros v Hv. destruct v as [|a [|]]; try discriminate. cbn. nra.
  - split; [exact I|]. split; [repeat constructor|]. split.
    + intros (x & Hx & (_ & H) & _). destruct x as [|a [|]]; try discriminate. assert (H0 := H 0%nat ltac:(cbn; lia)). assert (H1 := H 1%nat ltac:(cbn; lia)). cbn in H0, H1. lra.
    + intros cvx solver nan E. rewrite (run_unfold cvx (Ok nan) solver 1 inf_obj None inf_ineq) by (repeat split). rewrite E. reflexivity.
Qed.
Print Assumptions C61_inaccurate_refuted.

(** ** Derivatives *)
(** [qp_F] is optimality_fun on flat arguments. *)
Theorem C61_flat : forall n obj eq ineq s, data_ok n obj eq ineq -> kkt_fits n eq ineq s ->
  qp_F n (osize eq) (osize ineq) (kkt_flat s) (map pair_flat (cvxpy_data obj eq ineq)) = kkt_flat (cvxpy_optimality_fun s obj eq ineq) /\
  (ineq = None -> qp_F n (osize eq) None (kkt_flat s) (map pair_flat (eqqp_data obj eq None)) = kkt_flat (cvxpy_optimality_fun s obj eq None)).
Proof.
  intros n obj eq ineq s HD HK. split; [apply qp_F_data; try assumption; repeat split|]. intros ->. apply (qp_F_data n obj eq None s); try assumption. repeat split.
Qed.
Print Assumptions C61_flat.

(** At a zero of the optimality conditions where the second-order condition holds, the gradients of the active
    constraints are independent and complementarity is strict, the derivative of optimality_fun in the solution is
    invertible: the hypotheses under which C38 and C60 give true derivatives are met. *)
Theorem C61_regular : forall n obj eq ineq s solve, let N := (n + sz (osize eq) + sz (osize ineq))%nat in
  data_ok n obj eq ineq -> kkt_zero n obj eq ineq s -> regular_at n obj eq ineq s -> solves_regular solve N ->
  regular_root (qp_F n (osize eq) (osize ineq)) (qp_jac n (osize eq) (osize ineq)) solve N (kkt_flat s) (map pair_flat (cvxpy_data obj eq ineq)).
Proof. intros n obj eq ineq s solve N HD HZ HR HS. apply (qp_regular_root n obj eq ineq s); try assumption. repeat split. Qed.
Print Assumptions C61_regular.

Lemma dot_unit N q : forall v : vec, length v = N -> (q < N)%nat -> dot (unit_vec N q) v = nth q v 0.
Proof. intros v Hv Hq. apply dot_unit_vec; assumption. Qed.
(** The last two conditions are necessary: with dependent gradients of active constraints, or an active constraint with
    zero multiplier, the system solved by implicit differentiation is singular. *)
Theorem C61_regularity_needed : forall n obj eq ineq s,
  let N := (n + sz (osize eq) + sz (osize ineq))%nat in let m := sz (osize eq) in let k := sz (osize ineq) in let G := opt_mat ineq in let h := opt_vec ineq in
  data_ok n obj eq ineq -> kkt_zero n obj eq ineq s ->
  nonsingular N (fst (qp_jac n (osize eq) (osize ineq) (kkt_flat s) (map pair_flat (cvxpy_data obj eq ineq)))) ->
  (forall u v, length u = m -> length v = k -> (forall i, (i < k)%nat -> nth i (mvec G (primal s)) 0 <> nth i h 0 -> nth i v 0 = 0) ->
     vadd (tvec n (opt_mat eq) u) (tvec n G v) = vzero n -> u = vzero m /\ v = vzero k) /\
  (forall i, (i < k)%nat -> nth i (ovec (dual_ineq s)) 0 <> 0 \/ nth i (mvec G (primal s)) 0 <> nth i h 0).
Proof.
  intros n obj eq ineq s N m k G h HD [HK HZ] HN. set (th := map pair_flat (cvxpy_data obj eq ineq)) in *.
  assert (HC : carries th obj eq ineq) by (repeat split). assert (Hsz := carries_sizes n obj eq ineq th HD HC). assert (Hth := args_ok_self th). set (ps := map (@length R) th) in *.
  destruct (kkt_flat_length n eq ineq s HK) as (Lf & Ly & Lz). destruct (carried n obj eq ineq th HD HC) as (E0 & E1 & E2 & E3). destruct (kkt_flat_parts n eq ineq s HK) as (P1 & P2 & P3).
  destruct (data_eq_sizes n obj eq ineq HD) as ((_ & _ & _ & SA & Lb) & (_ & _ & _ & SG & Lh)). destruct (data_sizes n obj eq ineq HD) as (_ & _ & _ & SQ & _).
  change (fst (qp_jac n (osize eq) (osize ineq) (kkt_flat s) th)) with (columns N N (fun d => qp_linear n m k (kkt_flat s) th d (args_zero ps))) in HN.
  set (D1 := columns N N _) in HN.
  assert (HM : forall d, length d = N -> mvec D1 d = jac1 n m k (kkt_flat s) th d) by (intros d Hd; apply (D1_mvec n m k ps (kkt_flat s) th Hsz Lf Hth d Hd)).
  assert (HJ : forall d, jac1 n m k (kkt_flat s) th d =
    vadd (vadd (smul (1 / 2) (vadd (mvec (a_mat (fst obj)) (firstn n d)) (tvec n (a_mat (fst obj)) (firstn n d)))) (tvec n (opt_mat eq) (firstn m (skipn n d)))) (tvec n G (skipn (n + m) d)) ++
    mvec (opt_mat eq) (firstn n d) ++ vadd (hmul (mvec G (firstn n d)) (ovec (dual_ineq s))) (hmul (vsub (mvec G (primal s)) h) (skipn (n + m) d))).
  { intros d. unfold jac1. fold m k in E1, E2, E3, P2, P3. rewrite E0, E1, E2, E3, P1, P3. reflexivity. }
  destruct HN as [Sh HN]. split.
  - intros u v Hu Hv Hin E. set (d := vzero n ++ u ++ v). assert (Ld : length d = N) by (unfold d, N; rewrite !app_length, vzero_length; unfold vec, m, k in *; lia).
    assert (F1 : firstn n d = vzero n) by (apply firstn_cat, vzero_length). assert (F2 : firstn m (skipn n d) = u) by (unfold d; rewrite skipn_cat by apply vzero_length; apply firstn_cat; exact Hu).
    assert (F3 : skipn (n + m) d = v) by (rewrite <- skipn_skipn'; unfold d; rewrite skipn_cat by apply vzero_length; apply skipn_cat; exact Hu).
    assert (Z : d = vzero N).
    { apply HN; [exact Ld|]. rewrite HM by exact Ld. rewrite HJ, F1, F2, F3.
      assert (ZQ : smul (1 / 2) (vadd (mvec (a_mat (fst obj)) (vzero n)) (tvec n (a_mat (fst obj)) (vzero n))) = vzero n).
      { assert (Zt : tvec n (a_mat (fst obj)) (vzero n) = vzero n). { rewrite <- (smul_vzero' 0 n) at 1. rewrite (tvec_smul_r n) by exact SQ. apply vec_ext; [rewrite smul_length, (tvec_length _ _ _ _ SQ), vzero_length; reflexivity|]. intros j _. rewrite nth_smul, nth_vzero. ring. }
        rewrite Zt, mvec_vzero, (proj1 SQ), vadd_vzero2. apply smul_vzero'. }
      rewrite ZQ, vadd_vzero_l' by (eapply tvec_length; exact SA). rewrite E, !mvec_vzero, (proj1 SA), (proj1 (SG : mat_shape k n G)). fold m k.
      assert (ZS : vadd (hmul (vzero k) (ovec (dual_ineq s))) (hmul (vsub (mvec G (primal s)) h) v) = vzero k).
      { assert (LG : length (mvec G (primal s)) = k) by (rewrite mvec_length; apply SG). apply vec_ext; [rewrite vadd_length, !hmul_length, vsub_length, vzero_length; unfold vec, m, k, h in *; lia|]. intros i Hi. rewrite vadd_length, !hmul_length, vsub_length, vzero_length in Hi.
        rewrite nth_vadd, !nth_hmul, nth_vsub, nth_vzero. destruct (Req_EM_T (nth i (mvec G (primal s)) 0) (nth i h 0)) as [Eq|Ne]; [rewrite Eq; ring|]. rewrite (Hin i) by (assumption || unfold vec, k, h in *; lia). ring. }
      rewrite ZS. unfold N, vzero. rewrite <- !repeat_app. f_equal. fold m k. lia. }
    assert (Z2 := f_equal (fun l => firstn m (skipn n l)) Z). assert (Z3 := f_equal (fun l => skipn (n + m) l) Z). cbv beta in Z2, Z3. rewrite F2, skipn_vzero, firstn_vzero in Z2 by (unfold N; fold m k; lia). rewrite F3, skipn_vzero in Z3.
    split; [exact Z2|]. rewrite Z3. f_equal. unfold N. fold m k. lia.
  - intros i Hi. destruct (Req_EM_T (nth i (ovec (dual_ineq s)) 0) 0) as [Ez|]; [|left; assumption]. destruct (Req_EM_T (nth i (mvec G (primal s)) 0) (nth i h 0)) as [Eh|]; [|right; assumption]. exfalso.
    set (q := (n + m + i)%nat). assert (Hq : (q < N)%nat) by (unfold q, N; fold m k; lia).
    assert (K : tvec N D1 (unit_vec N q) = vzero N).
    { apply vec_ext; [rewrite (tvec_length _ _ _ _ Sh), vzero_length; reflexivity|]. intros j Hj. rewrite (tvec_length _ _ _ _ Sh) in Hj. rewrite (nth_tvec N N) by assumption.
      assert (Lu : length (unit_vec N j) = N) by apply unit_vec_length. rewrite dot_unit by (rewrite ?mvec_length; try apply Sh; exact Hq). rewrite HM by exact Lu. rewrite HJ, nth_vzero.
      assert (LA : length (mvec (opt_mat eq) (firstn n (unit_vec N j))) = m) by (rewrite mvec_length; apply SA).
      match goal with |- nth q (?a ++ ?b ++ ?c) 0 = 0 => assert (La : length a = n) by (rewrite !vadd_length, smul_length, vadd_length, mvec_length, (tvec_length _ _ _ _ SQ), (tvec_length _ _ _ _ SA), (tvec_length _ _ _ _ SG), (proj1 SQ); lia) end.
      rewrite app_nth2 by (unfold q, vec in *; lia). rewrite app_nth2 by (unfold q, vec in *; lia). replace (q - _ - _)%nat with i by (unfold q, vec in *; lia).
      rewrite nth_vadd, !nth_hmul, nth_vsub, Ez, Eh. ring. }
    assert (KU := nonsingular_adjoint N D1 (conj Sh HN) (unit_vec N q) (unit_vec_length N q) K). assert (X := f_equal (fun l => nth q l 0) KU). cbv beta in X. rewrite nth_vzero, nth_unit_vec in X by exact Hq. destruct (Nat.eq_dec q q); [lra|congruence].
Qed.
Print Assumptions C61_regularity_needed.

Lemma all_pos_call {St Sc} ds (f : list vec -> list (string * vec) -> result (output St)) jac sig osig solve args kw a sol st :
  Forall (fun p => p_kind p = PosOrKw) osig -> length osig = length a -> a <> [] -> sig_ok osig -> jac_arity jac ->
  signature_bind sig args kw = Ok (a, []) -> f a [] = Ok (WithAux sol st) ->
  exists pull, @custom_root St Sc ds f jac sig osig RefNone true solve args kw = Ok (WithAux sol st, pull) /\
    forall w sc, exists ga gk, pull (WithAux w sc) = Ok (ga, gk) /\ length ga = length args /\ map fst gk = map fst kw.
Proof.
  intros HF HL Hne Hs Hja HB Hf. unfold custom_root. rewrite HB. cbn [map app resolve_reference]. rewrite app_nil_r. unfold solver_fun_flat, extract_kwargs. cbn [length].
  rewrite Nat.sub_0_r, firstn_all. cbn [combine]. rewrite Hf. eexists. split; [reflexivity|]. intros w sc. cbv beta. unfold flat_bwd. cbn [main_part].
  match goal with |- context [solver_fun_bwd osig ?g [] a] => set (vjp := g) end.
  assert (Hvl : forall b, length (vjp b) = length b) by (intros b; unfold vjp, root_vjp; rewrite map_length, combine_length, map_length, Hja; apply Nat.min_id).
  destruct (C39_resolvable vec vec vec osig vjp [] a Hs) as [R1 _]; [constructor|cbn; lia|exact Hne|exact Hvl|].
  destruct R1 as (gs & E).
  { exists osig, [], []. rewrite !app_nil_r. split; [reflexivity|]. split; [exact HF|]. split; [constructor|]. split; [constructor|]. left. cbn [length]. lia. }
  rewrite E. eexists. eexists. split; [reflexivity|]. unfold user_gradients. rewrite map_length, seq_length, map_map. cbn [fst]. rewrite map_id. split; reflexivity.
Qed.
Lemma all_pos_args sig osig args kw a : Forall (fun p => p_kind p = PosOrKw) osig -> length osig = length a -> signature_bind sig args kw = Ok (a, []) -> optimality_args sig osig args kw = Ok (tl a).
Proof. intros HF HL HB. unfold optimality_args. rewrite HB. destruct (bind_full osig a HF (Logic.eq_sym HL)) as (b & -> & -> & ->). reflexivity. Qed.
Lemma sig_ok_pos (s : signature) : NoDup (map p_name s) -> Forall (fun p => p_kind p = PosOrKw) s -> sig_ok s.
Proof.
  intros H1 H2. split; [exact H1|]. clear H1. induction H2 as [|p s Hp Hs IH]; [exact I|]. cbn [map kinds_ok]. split; [|exact IH]. rewrite Hp. clear -Hs. induction Hs as [|q s Hq Hs IH]; constructor; [|exact IH].
  rewrite Hq. split; [lia|]. split; intros; discriminate.
Qed.
Lemma cvxpy_sigs : sig_ok cvxpy_run_sig /\ sig_ok cvxpy_optimality_sig /\ sig_ok eqqp_run_sig /\ sig_ok eqqp_optimality_sig /\
  Forall (fun p => p_kind p = PosOrKw) cvxpy_run_sig /\ Forall (fun p => p_kind p = PosOrKw) cvxpy_optimality_sig /\ Forall (fun p => p_kind p = PosOrKw) eqqp_run_sig /\ Forall (fun p => p_kind p = PosOrKw) eqqp_optimality_sig.
Proof.
  assert (F : Forall (fun p => p_kind p = PosOrKw) cvxpy_run_sig /\ Forall (fun p => p_kind p = PosOrKw) cvxpy_optimality_sig /\ Forall (fun p => p_kind p = PosOrKw) eqqp_run_sig /\ Forall (fun p => p_kind p = PosOrKw) eqqp_optimality_sig) by (repeat split; repeat constructor).
  destruct F as (F1 & F2 & F3 & F4). repeat (split; [apply sig_ok_pos; [cbn; repeat constructor; cbn; intuition discriminate|assumption]|]). auto.
Qed.
(** The call resolves whichever way the arguments are passed: positionally, by keyword in any order, or left out. *)
Theorem C61_resolves : forall args kw a k,
  (signature_bind cvxpy_run_sig args kw = Ok (a, k) -> exists i o e g, a = [i; o; e; g] /\ k = [] /\ optimality_args cvxpy_run_sig cvxpy_optimality_sig args kw = Ok [o; e; g]) /\
  (signature_bind eqqp_run_sig args kw = Ok (a, k) -> exists i o e, a = [i; o; e] /\ k = [] /\ optimality_args eqqp_run_sig eqqp_optimality_sig args kw = Ok [o; e]).
Proof.
  intros args kw a k. destruct cvxpy_sigs as (_ & _ & _ & _ & F1 & F2 & F3 & F4). split; intros H.
  - destruct (all_pos_bind _ _ _ _ _ F1 H) as [L ->]. destruct a as [|i [|o [|e [|g [|]]]]]; try discriminate. exists i, o, e, g. split; [reflexivity|]. split; [reflexivity|]. apply (fun E => all_pos_args _ _ _ _ _ F2 E H). reflexivity.
  - destruct (all_pos_bind _ _ _ _ _ F3 H) as [L ->]. destruct a as [|i [|o [|e [|]]]]; try discriminate. exists i, o, e. split; [reflexivity|]. split; [reflexivity|]. apply (fun E => all_pos_args _ _ _ _ _ F4 E H). reflexivity.
Qed.
Print Assumptions C61_resolves.
(** Constraints that are left out are None ([]), however the others are passed; params_obj must be given to CvxpyQP. *)
Theorem C61_omitted : forall i o e g : vec,
  (let bound args kw a := signature_bind cvxpy_run_sig args kw = Ok (a, []) in
   bound [i; o] [] [i; o; []; []] /\ bound [i; o; e] [] [i; o; e; []] /\ bound [i; o; e; g] [] [i; o; e; g] /\
   bound [i; o] [("params_eq", e)]%string [i; o; e; []] /\ bound [i; o] [("params_ineq", g)]%string [i; o; []; g] /\
   bound [i] [("params_obj", o)]%string [i; o; []; []] /\ bound [i] [("params_ineq", g); ("params_obj", o)]%string [i; o; []; g] /\
   bound [i] [("params_eq", e); ("params_obj", o)]%string [i; o; e; []] /\
   signature_bind cvxpy_run_sig [i] [] = Err TypeError /\ signature_bind cvxpy_run_sig [i] [("params_eq", e)]%string = Err TypeError) /\
  (let bound args kw a := signature_bind eqqp_run_sig args kw = Ok (a, []) in
   bound [i; o] [] [i; o; []] /\ bound [i; o; e] [] [i; o; e] /\ bound [] [("params_eq", e); ("params_obj", o)]%string [[]; o; e] /\
   bound [i] [("params_obj", o); ("params_eq", e)]%string [i; o; e] /\ bound [] [("params_obj", o)]%string [[]; o; []]).
Proof. intros i o e g. cbv zeta. repeat split; reflexivity. Qed.
Print Assumptions C61_omitted.

Lemma data_roundtrip n obj eq ineq : data_ok n obj eq ineq -> obj_of n (pair_flat (Some obj)) = Some obj /\ pair_of n (osize eq) (pair_flat eq) = eq /\ pair_of n (osize ineq) (pair_flat ineq) = ineq.
Proof.
  intros HD. destruct (data_sizes n obj eq ineq HD) as (A1 & A2 & _). destruct (data_eq_sizes n obj eq ineq HD) as ((B1 & B2 & _) & (D1 & D2 & _)). destruct HD as ((E1 & E2 & E3 & E4 & E5) & _).
  split; [|split].
  - unfold obj_of. rewrite A1, A2. destruct obj as [[r c M] v]. cbn [fst snd a_rows a_cols a_mat] in *. subst r c. reflexivity.
  - destruct eq as [[[r c M] v]|]; [|reflexivity]. cbn [osize sz opt_mat opt_vec a_mat a_rows a_cols pair_of] in *. destruct E4 as [-> ->]. rewrite B1, B2. reflexivity.
  - destruct ineq as [[[r c M] v]|]; [|reflexivity]. cbn [osize sz opt_mat opt_vec a_mat a_rows a_cols pair_of] in *. destruct E5 as [-> ->]. rewrite D1, D2. reflexivity.
Qed.
Lemma kkt_root_curve run_sig osig data_of n eq ineq args kw dargs dkw s sol : let N := (n + sz (osize eq) + sz (osize ineq))%nat in
  (forall obj' eq' ineq', osize ineq' = osize ineq -> carries (map pair_flat (data_of obj' eq' ineq')) obj' eq' ineq') ->
  Forall (fun p => p_kind p = PosOrKw) osig -> (forall obj' eq' ineq', length osig = S (length (data_of obj' eq' ineq'))) ->
  kkt_curve run_sig data_of n eq ineq args kw dargs dkw s sol ->
  root_curve (qp_F n (osize eq) (osize ineq)) run_sig osig args kw dargs dkw N (kkt_flat s) (fun t => kkt_flat (sol t)).
Proof.
  intros N HC HF HL (H0 & Hcont & Hfit & r & Hr & H). split; [intros t; apply (kkt_flat_length n eq ineq (sol t) (Hfit t))|]. split; [cbv beta; rewrite H0; reflexivity|]. split; [exact Hcont|].
  exists r. split; [exact Hr|]. intros t Ht. destruct (H t Ht) as (init & obj' & eq' & ineq' & Hp & HD & E1 & E2 & HK & HZ). exists (map pair_flat (data_of obj' eq' ineq')). split.
  - apply (all_pos_args run_sig osig _ _ (init :: map pair_flat (data_of obj' eq' ineq')) HF); [cbn [length]; rewrite map_length; apply HL|exact Hp].
  - rewrite <- E1, <- E2. rewrite (qp_F_data n obj' eq' ineq' (sol t) _ HD HK (HC obj' eq' ineq' E2)). apply all_zero_flat in HZ. rewrite HZ. f_equal.
    assert (Hth := args_ok_self (map pair_flat (data_of obj' eq' ineq'))). assert (Hsz := carries_sizes n obj' eq' ineq' _ HD (HC obj' eq' ineq' E2)).
    destruct (kkt_flat_length n eq' ineq' (sol t) HK) as (Lf & _).
    rewrite <- (qp_F_data n obj' eq' ineq' (sol t) _ HD HK (HC obj' eq' ineq' E2)), (qp_F_G n (osize eq') (osize ineq') _ _ _ Hsz Hth Lf).
    assert (X := d_length _ _ _ _ _ _ _ (qp_diff n _ _ _ (kkt_flat (sol t)) _ Hsz Lf Hth) (kkt_flat (sol t)) _ Lf Hth). rewrite X. unfold N. rewrite E1, E2. lia.
Qed.

(** CvxpyQP: whichever way the data are passed, the call returns the solution of run, it can be differentiated, and
    its gradients are the derivatives of the primal and dual solution with respect to Q, c, A, b, G and h: along any
    curve of zeros of the optimality conditions, while the data move linearly in any direction. *)
Theorem C61_gradient : forall Sc ds cvx none solver solve n obj eq ineq args kw init s,
  let N := (n + sz (osize eq) + sz (osize ineq))%nat in
  data_ok n obj eq ineq -> NoDup (map fst kw) -> passes cvxpy_run_sig args kw init (cvxpy_data obj eq ineq) ->
  cvxpy_run cvx none solver (Some obj) eq ineq = Ok s -> kkt_zero n obj eq ineq s -> regular_at n obj eq ineq s ->
  solves_regular (match solve with Some s => s | None => ds end) N ->
  exists pull, cvxpy_call ds cvx none n (osize eq) (osize ineq) solver solve args kw = Ok (WithAux (kkt_flat s) tt, pull) /\
    forall w (sc : Sc), length w = N -> exists ga gk, pull (WithAux w sc) = Ok (ga, gk) /\ length ga = length args /\ map fst gk = map fst kw /\
      forall dargs dkw sol, directions args kw dargs dkw -> kkt_curve cvxpy_run_sig cvxpy_data n eq ineq args kw dargs dkw s sol ->
        exists x', curve_derivative (fun t => kkt_flat (sol t)) x' /\ dot w x' = pairing ga dargs + pairing (map snd gk) (map snd dkw).
Proof.
  intros Sc ds cvx none solver solve n obj eq ineq args kw init s N HD Hnd HP HR HZ Hreg HS. destruct cvxpy_sigs as (S1 & S2 & _ & _ & F1 & F2 & _ & _).
  destruct (data_roundtrip n obj eq ineq HD) as (R1 & R2 & R3).
  set (f := fun (a : list vec) (kw' : list (string * vec)) => match a, kw' with
       | [_; o; e; i], [] => match cvxpy_run cvx none solver (obj_of n o) (pair_of n (osize eq) e) (pair_of n (osize ineq) i) with Ok s => Ok (WithAux (kkt_flat s) tt) | Err e => Err e end
       | _, _ => Err TypeError
       end).
  assert (Hf : f (init :: map pair_flat (cvxpy_data obj eq ineq)) [] = Ok (WithAux (kkt_flat s) tt)) by (unfold f, cvxpy_data; cbn [map]; rewrite R1, R2, R3, HR; reflexivity).
  destruct (all_pos_call (Sc := Sc) ds f (qp_jac n (osize eq) (osize ineq)) cvxpy_run_sig cvxpy_optimality_sig solve args kw (init :: map pair_flat (cvxpy_data obj eq ineq)) _ _ F2 eq_refl ltac:(discriminate) S2 (qp_jac_arity _ _ _) HP Hf) as (pull & EC & Hpull).
  exists pull. split; [exact EC|]. intros w sc Hw. destruct (Hpull w sc) as (ga & gk & EG & L1 & L2). exists ga, gk. split; [exact EG|]. split; [exact L1|]. split; [exact L2|].
  intros dargs dkw sol Hdir Hcurve.
  destruct (C60_gradient unit Sc ds f (qp_F n (osize eq) (osize ineq)) (qp_jac n (osize eq) (osize ineq)) cvxpy_run_sig cvxpy_optimality_sig RefNone true solve args kw (WithAux (kkt_flat s) tt) pull
    (WithAux w sc) ga gk (kkt_flat s) w (map pair_flat (cvxpy_data obj eq ineq)) N dargs dkw (fun t => kkt_flat (sol t))) as (_ & _ & Q); try assumption.
  - destruct args; [right|left; discriminate]. intros ->. discriminate HP.
  - apply qp_jac_arity.
  - reflexivity.
  - reflexivity.
  - apply (fun E => all_pos_args _ _ _ _ _ F2 E HP). reflexivity.
  - apply C61_regular; assumption.
  - apply (kkt_root_curve cvxpy_run_sig cvxpy_optimality_sig cvxpy_data); [intros; repeat split|exact F2|reflexivity|exact Hcurve].
Qed.
Print Assumptions C61_gradient.

(** EqualityConstrainedQP: the same, for the data Q, c, A, b. *)
Theorem C61_eqqp_gradient : forall Sc ds lin reg tol refine_maxiter solve n obj A b args kw init x y,
  let eq := Some (A, b) in let N := (n + length b)%nat in let s := {| primal := x; dual_eq := Some y; dual_ineq := None |} in
  data_ok n obj eq None -> NoDup (map fst kw) -> (args <> [] \/ kw <> []) -> passes eqqp_run_sig args kw init (eqqp_data obj eq None) ->
  eqqp_run lin n (a_mat A) b (ExplicitQ (a_mat (fst obj)) (snd obj)) reg tol refine_maxiter (match init with [] => None | _ => Some (firstn n init, skipn n init) end) true = Ok (x, y) ->
  length x = n -> length y = length b -> all_zero (eqqp_optimality n (a_mat A) b (ExplicitQ (a_mat (fst obj)) (snd obj)) x y) -> regular_at n obj eq None s ->
  solves_regular (match solve with Some s => s | None => ds end) N ->
  exists pull, eqqp_call ds lin reg tol refine_maxiter n (length b) solve args kw = Ok (WithAux (x ++ y) tt, pull) /\
    forall w (sc : Sc), length w = N -> exists ga gk, pull (WithAux w sc) = Ok (ga, gk) /\ length ga = length args /\ map fst gk = map fst kw /\
      forall dargs dkw sol, directions args kw dargs dkw -> kkt_curve eqqp_run_sig eqqp_data n eq None args kw dargs dkw s sol ->
        exists x', curve_derivative (fun t => kkt_flat (sol t)) x' /\ dot w x' = pairing ga dargs + pairing (map snd gk) (map snd dkw).
Proof.
  intros Sc ds lin reg tol k solve n obj A b args kw init x y eq N s HD Hnd Hne HP HR Hx Hy HZ Hreg HS. destruct cvxpy_sigs as (_ & _ & S1 & S2 & _ & _ & F1 & F2).
  destruct (data_sizes n obj eq None HD) as (A1 & A2 & _ & _ & Lc). destruct (data_eq_sizes n obj eq None HD) as ((B1 & B2 & _) & _). cbn [osize eq sz opt_mat opt_vec] in B1, B2.
  set (f := fun (a : list vec) (kw' : list (string * vec)) => match a, kw' with
       | [i; o; e], [] => match eqqp_flat_run lin reg tol k n (length b) i o e with Ok s => Ok (WithAux s tt) | Err e => Err e end
       | _, _ => Err TypeError
       end).
  assert (Hf : f (init :: map pair_flat (eqqp_data obj eq None)) [] = Ok (WithAux (x ++ y) tt)).
  { unfold f, eqqp_data. cbn [map]. unfold eqqp_flat_run. rewrite A1, A2. unfold eq in *. rewrite B1, B2, HR. reflexivity. }
  assert (HK : kkt_zero n obj eq None s).
  { split; [split; [exact Hx|split; [exact Hy|exact I]]|]. unfold cvxpy_optimality_fun. rewrite Lc. exact HZ. }
  assert (EN : (n + sz (osize eq) + sz (osize None) = N)%nat) by (unfold N; cbn; lia).
  assert (Es : kkt_flat s = x ++ y) by (unfold kkt_flat, s; cbn [primal dual_eq dual_ineq ovec]; rewrite app_nil_r; reflexivity).
  destruct (all_pos_call (Sc := Sc) ds f (qp_jac n (Some (length b)) None) eqqp_run_sig eqqp_optimality_sig solve args kw (init :: map pair_flat (eqqp_data obj eq None)) _ _ F2 eq_refl ltac:(discriminate) S2 (qp_jac_arity _ _ _) HP Hf) as (pull & EC & Hpull).
  exists pull. split; [exact EC|]. intros w sc Hw. destruct (Hpull w sc) as (ga & gk & EG & L1 & L2). exists ga, gk. split; [exact EG|]. split; [exact L1|]. split; [exact L2|].
  intros dargs dkw sol Hdir Hcurve.
  assert (HC : carries (map pair_flat (eqqp_data obj eq None)) obj eq None) by (repeat split).
  destruct (C60_gradient unit Sc ds f (qp_F n (osize eq) (osize None)) (qp_jac n (Some (length b)) None) eqqp_run_sig eqqp_optimality_sig RefNone true solve args kw (WithAux (x ++ y) tt) pull
    (WithAux w sc) ga gk (x ++ y) w (map pair_flat (eqqp_data obj eq None)) N dargs dkw (fun t => kkt_flat (sol t))) as (_ & _ & Q); try assumption.
  - apply qp_jac_arity.
  - reflexivity.
  - reflexivity.
  - apply (fun E => all_pos_args _ _ _ _ _ F2 E HP). reflexivity.
  - rewrite <- Es, <- EN. rewrite <- EN in HS. apply (qp_regular_root n obj eq None s); assumption.
  - rewrite <- Es, <- EN. apply (kkt_root_curve eqqp_run_sig eqqp_optimality_sig eqqp_data); [|exact F2|reflexivity|exact Hcurve].
    intros obj' eq' ineq' E. destruct ineq' as [[]|]; [discriminate|]. repeat split.
Qed.
Print Assumptions C61_eqqp_gradient.

(** The default linear solver qualifies, where conjugate gradients are exact. *)
Theorem C61_default_solve : forall cg N, exact_on_positive cg -> solves_regular (normal_cg_solver cg) N.
Proof. intros cg N H D HN. exact (C38_default_solver cg N D H HN). Qed.
Print Assumptions C61_default_solve.

(** For EqualityConstrainedQP the standard conditions suffice: symmetric positive semidefinite Q, definite on the kernel
    of A, independent rows of A, exact linear solvers. *)
Theorem C61_eqqp : forall Sc ds lin tol refine_maxiter solve n obj A b args kw init,
  let eq := Some (A, b) in let Q := a_mat (fst obj) in let c := snd obj in let N := (n + length b)%nat in
  data_ok n obj eq None -> symmetric n Q -> pos_semidef n Q -> independent_rows n (length b) (a_mat A) -> definite_on_kernel n (length b) Q (a_mat A) ->
  exact_on_regular lin -> solves_regular (match solve with Some s => s | None => ds end) N -> (init = [] \/ length init = N) ->
  NoDup (map fst kw) -> (args <> [] \/ kw <> []) -> passes eqqp_run_sig args kw init (eqqp_data obj eq None) ->
  exists x y pull, kkt_system n Q c (a_mat A) b x y /\ eqqp_solution n Q c (a_mat A) b x /\
    eqqp_call ds lin 0 tol refine_maxiter n (length b) solve args kw = Ok (WithAux (x ++ y) tt, pull) /\
    forall w (sc : Sc), length w = N -> exists ga gk, pull (WithAux w sc) = Ok (ga, gk) /\ length ga = length args /\ map fst gk = map fst kw /\
      forall dargs dkw sol, directions args kw dargs dkw -> kkt_curve eqqp_run_sig eqqp_data n eq None args kw dargs dkw {| primal := x; dual_eq := Some y; dual_ineq := None |} sol ->
        exists x', curve_derivative (fun t => kkt_flat (sol t)) x' /\ dot w x' = pairing ga dargs + pairing (map snd gk) (map snd dkw).
Proof.
  intros Sc ds lin tol k solve n obj A b args kw init eq Q c N HD Hs Hp HI HK HL HS Hi Hnd Hne HP.
  destruct (data_sizes n obj eq None HD) as (_ & _ & _ & SQ & Lc). destruct (data_eq_sizes n obj eq None HD) as ((_ & _ & _ & SA & _) & _). cbn [osize eq sz opt_mat] in SA.
  assert (HE : eqqp_problem n (length b) Q c (a_mat A) b) by (constructor; (assumption || reflexivity)).
  assert (Hin : match (match init with [] => None | _ => Some (firstn n init, skipn n init) end) with None => True | Some (p, d) => length p = n /\ length d = length b end).
  { destruct init as [|i0 init]; [exact I|]. destruct Hi as [|Hi]; [discriminate|]. rewrite firstn_length, skipn_length. unfold N, vec in *. lia. }
  destruct (C33_run_regular lin n (length b) Q c (a_mat A) b tol k _ true HE HI HK HL Hin) as (x & y & ER & EK & ES & _). exists x, y.
  assert (Lx : length x = n /\ length y = length b) by (destruct EK as (L1 & L2 & _); split; assumption). destruct Lx as [Lx Ly].
  assert (HR : regular_at n obj eq None {| primal := x; dual_eq := Some y; dual_ineq := None |}).
  { split; [|split].
    - intros d Hd Hd0 HA _. apply HK; assumption.
    - intros u v Hu Hv _ E. destruct v; [|discriminate]. split; [|reflexivity]. apply HI; [exact Hu|]. rewrite <- E. cbn [opt_mat eq]. rewrite tvec_nil. symmetry. apply vadd_vzero_r'. eapply tvec_length; exact SA.
    - intros i Hi'. cbn in Hi'. lia. }
  destruct (C61_eqqp_gradient Sc ds lin 0 tol k solve n obj A b args kw init x y HD Hnd Hne HP ER Lx Ly (proj2 (C33_optimality n (length b) Q c (a_mat A) b x y HE Lx Ly) EK) HR HS) as (pull & EC & HG).
  exists pull. split; [exact EK|]. split; [exact ES|]. split; [exact EC|exact HG].
Qed.
Print Assumptions C61_eqqp.

(** minimise 0.5 |x|^2 - x_1 subject to x_1 + x_2 = 1 and x_1 <= 0, with the constraints passed by keyword, the
    inequalities first; then b becomes 1 + t *)
Definition ex_obj : pair2 := ({| a_rows := 2; a_cols := 2; a_mat := [[1; 0]; [0; 1]] |}, [-1; 0]).
Definition ex_eq (b : R) : option pair2 := Some ({| a_rows := 1; a_cols := 2; a_mat := [[1; 1]] |}, [b]).
Definition ex_ineq : option pair2 := Some ({| a_rows := 1; a_cols := 2; a_mat := [[1; 0]] |}, [0]).
Definition ex_cvx (_ : string) (_ : cvx_problem) : result cvx_answer := Ok {| cv_status := Optimal; cv_x := Some [0; 1]; cv_duals := [Some [-1]; Some [2]] |}.
Definition ex_sol (t : R) : kkt_solution := {| primal := [0; 1 + t]; dual_eq := Some [- (1 + t)]; dual_ineq := Some [2 + t] |}.
Definition ex_qp_args : list vec := [[]; pair_flat (Some ex_obj)].
Definition ex_qp_kw (b : R) : list (string * vec) := [("params_ineq"%string, pair_flat ex_ineq); ("params_eq"%string, pair_flat (ex_eq b))].
Example C61_example :
  data_ok 2 ex_obj (ex_eq 1) ex_ineq /\ symmetric 2 (a_mat (fst ex_obj)) /\ pos_semidef 2 (a_mat (fst ex_obj)) /\
  cvx_answer_ok (qp_of 2 ex_obj (ex_eq 1) ex_ineq) {| cv_status := Optimal; cv_x := Some [0; 1]; cv_duals := [Some [-1]; Some [2]] |} /\
  (exists s, cvxpy_run ex_cvx (Err TypeError) "OSQP" (Some ex_obj) (ex_eq 1) ex_ineq = Ok s /\ s = {| primal := [0; 1]; dual_eq := Some [-1]; dual_ineq := Some [2] |}) /\
  passes cvxpy_run_sig ex_qp_args (ex_qp_kw 1) [] (cvxpy_data ex_obj (ex_eq 1) ex_ineq) /\
  kkt_zero 2 ex_obj (ex_eq 1) ex_ineq (ex_sol 0) /\ regular_at 2 ex_obj (ex_eq 1) ex_ineq (ex_sol 0) /\ solves_regular (normal_cg_solver gauss_krylov) 4 /\
  directions ex_qp_args (ex_qp_kw 1) [[]; vzero 6] [("params_ineq"%string, vzero 3); ("params_eq"%string, [0; 0; 1])] /\
  kkt_curve cvxpy_run_sig cvxpy_data 2 (ex_eq 1) ex_ineq ex_qp_args (ex_qp_kw 1) [[]; vzero 6] [("params_ineq"%string, vzero 3); ("params_eq"%string, [0; 0; 1])] (ex_sol 0) ex_sol.
Proof.
  assert (HD : forall b, data_ok 2 ex_obj (ex_eq b) ex_ineq) by (intros b; split; [repeat split|]; split; [|split]; (split; [reflexivity|repeat constructor])).
  assert (HZ : forall t, kkt_zero 2 ex_obj (ex_eq (1 + t)) ex_ineq (ex_sol t)).
  { intros t. split; [repeat split|]. split; [|split]; intros [|[|[|i]]]; cbn; lra. }
  split; [apply HD|]. split; [|split; [|split; [|split; [|split; [|split; [|split; [|split; [|split]]]]]]]].
  - intros i j Hi Hj. destruct i as [|[|]], j as [|[|]]; try lia; reflexivity.
  - intros v Hv. destruct v as [|a [|b [|]]]; try discriminate. cbn. nra.
  - exists [0; 1], [[-1]; [2]]. split; [reflexivity|]. split; [reflexivity|]. split; [reflexivity|]. split.
    + constructor; [split; [reflexivity|]; cbn; f_equal; lra|]. constructor; [|constructor]. split; [reflexivity|]. intros [|i] Hi; cbn in Hi; [|lia]. cbn. lra.
    + cbn. f_equal; [lra|f_equal; lra].
  - eexists. split; reflexivity.
  - reflexivity.
  - replace 1 with (1 + 0) at 1 by lra. apply HZ.
  - split; [|split].
    + intros d Hd Hd0 H1 H2. destruct d as [|a [|b [|]]]; try discriminate. cbn in H1. injection H1 as H1. specialize (H2 0%nat ltac:(cbn; lia)). cbn in H2. exfalso. apply Hd0. assert (Ea : a = 0) by (rewrite <- H2; [ring|lra]). cbn. f_equal; [exact Ea|f_equal; lra].
    + intros u v Hu Hv _ E. destruct u as [|u [|]]; try discriminate. destruct v as [|v [|]]; try discriminate. cbn in E. injection E as E1 E2. cbn. split; f_equal; lra.
    + intros [|i] Hi; cbn in Hi; [|lia]. left. cbn. lra.
  - apply C61_default_solve. exact C42_example_positive.
  - split; [repeat constructor|]. split; [reflexivity|]. repeat constructor.
  - split; [reflexivity|]. split; [|split].
    + intros eps He. exists (eps / 4). split; [lra|]. intros t Ht. cbn.
      apply Rle_lt_trans with (3 * Rabs t); [|lra]. apply Rsqr_incr_0_var; [|pose proof (Rabs_pos t); lra]. unfold norm2. rewrite Rsqr_sqrt by (unfold sqnorm; cbn; nra). unfold Rsqr, sqnorm. cbn. assert (X := Rsqr_abs t). unfold Rsqr in X. nra.
    + intros t. repeat split.
    + exists 1. split; [lra|]. intros t _. exists [], ex_obj, (ex_eq (1 + t)), ex_ineq. split; [|split; [apply HD|split; [reflexivity|split; [reflexivity|apply HZ]]]].
      unfold passes. cbn -[Rmult Rplus Ropp]. unfold signature_bind. cbn -[Rmult Rplus Ropp]. rewrite ?Rmult_0_r, ?Rplus_0_r, ?Rmult_1_r. reflexivity.
Qed.
