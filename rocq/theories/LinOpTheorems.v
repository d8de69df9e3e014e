(** Theorems for C57 (linear operators, the inner systems of OSQP, its optimality function). *)
From Coq Require Import String Ascii.
From Coq Require Import Reals List Bool Arith Lra Lia.
From Verif Require Import Prelude Vec Mat LinAlg Pytree PytreeProofs XArith Kkt KktTheorems LinSolve Osqp OsqpTheorems OsqpConvert LinOp LinOpProofs.
Import ListNotations.
Open Scope R_scope.

(** A tree of matrices is applied leaf by leaf, and rmatvec is the adjoint of matvec for the inner product of trees. *)
Theorem C57_dense : forall W x y, Forall matrix_ok (leaves W) -> domain_of W x -> codomain_of W y ->
  exists Wx Wty, dense_matvec W x = Ok Wx /\ dense_rmatvec W y = Ok Wty /\ dense_matvec_and_rmatvec W x y = Ok (Wx, Wty) /\
    codomain_of W Wx /\ domain_of W Wty /\ leaves Wx = zip_with (fun w v => mvec (ment w) v) (leaves W) (leaves x) /\
    inner Wx y = inner x Wty.
Proof.
  intros W x y HW Hx Hy. destruct (matvec_ok W x Hx) as (v & E1 & E2 & E3). destruct (rmatvec_ok W y Hy) as (u & F1 & F2 & F3). exists v, u. unfold dense_matvec_and_rmatvec. rewrite E1, F1.
  split; [reflexivity|]. split; [reflexivity|]. split; [reflexivity|]. split; [apply (matvec_codomain W x v Hx E2 E3)|]. split; [apply (rmatvec_domain W y u HW Hy F2 F3)|]. split; [exact E3|].
  unfold inner. rewrite E3, F3. apply adjoint_lists; [apply Hx|apply Hy].
Qed.
Print Assumptions C57_dense.

(** Results exist exactly for arguments of the right structure and sizes. *)
Theorem C57_dense_domain : forall W x, ((exists v, dense_matvec W x = Ok v) <-> domain_of W x) /\ ((exists v, dense_rmatvec W x = Ok v) <-> codomain_of W x).
Proof.
  intros W x. split; split.
  - intros [v H]. apply on_leaf_inv in H. destruct H as [HS HF]. split; [exact HS|]. revert HF. generalize (leaves x). generalize (leaves W). intros l l' HF. induction HF as [|a b l l' [c H] HF IH]; constructor; auto. unfold jdot in H. destruct (Nat.eqb_spec (length b) (ncols a)); [assumption|discriminate].
  - intros H. destruct (matvec_ok W x H) as (v & E & _). exists v. exact E.
  - intros [v H]. apply on_leaf_inv in H. destruct H as [HS HF]. split; [exact HS|]. revert HF. generalize (leaves x). generalize (leaves W). intros l l' HF. induction HF as [|a b l l' [c H] HF IH]; constructor; auto. unfold jdot_t in H. destruct (Nat.eqb_spec (length b) (length (ment a))); [assumption|discriminate].
  - intros H. destruct (rmatvec_ok W x H) as (v & E & _). exists v. exact E.
Qed.
Print Assumptions C57_dense_domain.

(** normal_matvec is the operator of the quadratic form |W x|^2. *)
Theorem C57_dense_normal : forall W x v Wx Wv, Forall matrix_ok (leaves W) -> domain_of W x -> domain_of W v -> dense_matvec W x = Ok Wx -> dense_matvec W v = Ok Wv ->
  exists N, dense_normal_matvec W x = Ok N /\ domain_of W N /\ inner v N = inner Wv Wx.
Proof.
  intros W x v Wx Wv HW Hx Hv Ex Ev. destruct (matvec_ok W x Hx) as (a & E1 & E2 & E3). rewrite Ex in E1. injection E1 as <-. assert (Cx := matvec_codomain W x Wx Hx E2 E3).
  destruct (C57_dense W v Wx HW Hv Cx) as (a & N & F1 & F2 & _ & _ & F3 & _ & F4). rewrite Ev in F1. injection F1 as <-. exists N. unfold dense_normal_matvec. rewrite Ex. auto.
Qed.
Print Assumptions C57_dense_normal.

(** A linear function with its vjp behaves as the dense operator of the same linear map: rmatvec is its adjoint whatever the
    point of linearisation, and normal_matvec is A'A. *)
Theorem C57_functional : forall n m f vjp x y v, linear_map n m f -> is_vjp n m f vjp -> length x = n -> length y = m -> length v = n ->
  fun_matvec_and_rmatvec f vjp x y = (fun_matvec_op f x, fun_rmatvec f vjp x y) /\
  dot (fun_rmatvec f vjp x y) v = dot y (fun_matvec_op f v) /\ dot v (fun_normal_matvec f vjp x) = dot (fun_matvec_op f v) (fun_matvec_op f x).
Proof.
  intros n m f vjp x y v HL HV Lx Ly Lv.
  assert (K : forall x' y', length x' = n -> length y' = m -> dot (vjp x' y') v = dot y' (f v)).
  { intros x' y' Lx' Ly'. destruct (HV x' y' Lx' Ly') as [L D]. apply (uniqueness_limite (fun t => dot y' (f (vadd x' (smul t v)))) 0); [apply D; exact Lv|].
    intros eps He. exists (mkposreal 1 Rlt_0_1). intros h Hh _. destruct HL as (_ & HA & HM). rewrite !HA, !HM by (rewrite ?smul_length; assumption). rewrite !dot_vadd_r, !dot_smul_r.
    replace ((dot y' (f x') + (0 + h) * dot y' (f v) - (dot y' (f x') + 0 * dot y' (f v))) / h - dot y' (f v)) with 0 by (field; exact Hh). rewrite Rabs_R0. exact He. }
  split; [reflexivity|]. split; [apply K; assumption|]. unfold fun_normal_matvec, fun_matvec_op. rewrite dot_comm, (dot_comm (f v)). apply K; [exact Lx|]. apply HL. exact Lx.
Qed.
Print Assumptions C57_functional.

(** In particular, for f = M: the same vectors as DenseLinearOperator. *)
Theorem C57_functional_dense : forall n m M vjp x y, mat_shape m n M -> is_vjp n m (mvec M) vjp -> length x = n -> length y = m ->
  fun_rmatvec (mvec M) vjp x y = tvec n M y /\ dense_rmatvec (Leaf {| ncols := n; ment := M |}) (Leaf y) = Ok (Leaf (fun_rmatvec (mvec M) vjp x y)) /\
  dense_normal_matvec (Leaf {| ncols := n; ment := M |}) (Leaf x) = Ok (Leaf (fun_normal_matvec (mvec M) vjp x)).
Proof.
  intros n m M vjp x y HM HV Lx Ly.
  assert (HL : linear_map n m (mvec M)). { split; [intros; rewrite mvec_length; apply HM|]. split; [intros; apply mvec_vadd|intros; apply mvec_smul]. }
  assert (K : forall y', length y' = m -> vjp x y' = tvec n M y').
  { intros y' Ly'. destruct (HV x y' Lx Ly') as [L _]. apply vec_eq_dot_len; [rewrite L; symmetry; apply (tvec_length m); exact HM|]. intros w Lw. rewrite L in Lw.
    destruct (C57_functional n m (mvec M) vjp x y' w HL HV Lx Ly' Lw) as (_ & E & _). unfold fun_rmatvec, fun_matvec_and_rmatvec, fun_matvec_op in E. cbn [snd] in E. rewrite E. symmetry. apply dot_tvec. }
  assert (LM : length M = m) by apply HM.
  split; [apply K; exact Ly|]. split.
  - unfold fun_rmatvec, fun_matvec_and_rmatvec. cbn [snd]. rewrite K by exact Ly. cbn. unfold jdot_t. cbn [ment ncols]. rewrite LM, Ly, Nat.eqb_refl. reflexivity.
  - unfold fun_normal_matvec. rewrite K by (rewrite mvec_length; exact LM). unfold dense_normal_matvec. cbn. unfold jdot. cbn [ment ncols]. rewrite Lx, Nat.eqb_refl. cbn. unfold jdot_t. cbn [ment ncols]. rewrite mvec_length, Nat.eqb_refl. reflexivity.
Qed.
Print Assumptions C57_functional_dense.

(** diag and columns_l2_norms: the entries on the diagonal, the norms of the columns W e_j. *)
Theorem C57_diag : forall w j, matrix_ok w -> (j < ncols w)%nat ->
  (length (ment w) = ncols w -> length (diagonal w) = ncols w /\ nth j (diagonal w) 0 = dot (unit_vec (ncols w) j) (mvec (ment w) (unit_vec (ncols w) j))) /\
  length (col_norms true w) = ncols w /\ length (col_norms false w) = ncols w /\
  nth j (col_norms true w) 0 = dot (mvec (ment w) (unit_vec (ncols w) j)) (mvec (ment w) (unit_vec (ncols w) j)) /\
  nth j (col_norms false w) 0 = norm2 (mvec (ment w) (unit_vec (ncols w) j)).
Proof.
  intros w j HW Hj.
  assert (C : forall k, nth j (col_norms k w) 0 = if k then dot (mvec (ment w) (unit_vec (ncols w) j)) (mvec (ment w) (unit_vec (ncols w) j)) else sqrt (dot (mvec (ment w) (unit_vec (ncols w) j)) (mvec (ment w) (unit_vec (ncols w) j)))).
  { intros k. assert (E : vsum (map (fun r => nth j r 0 * nth j r 0) (ment w)) = dot (mvec (ment w) (unit_vec (ncols w) j)) (mvec (ment w) (unit_vec (ncols w) j))).
    { destruct HW as [_ HF]. induction HF as [|r M Hr HF IH]; [reflexivity|]. cbn [mvec map dot]. unfold vsum in *. cbn [fold_right map]. rewrite IH, (dot_comm r), dot_unit_vec by assumption. reflexivity. }
    unfold col_norms. set (g := fun j0 : nat => let s := vsum (map (fun r : list R => nth j0 r 0 * nth j0 r 0) (ment w)) in if k then s else sqrt s).
    rewrite (nth_indep _ 0 (g 0%nat)) by (rewrite map_length, seq_length; exact Hj). rewrite map_nth, seq_nth by exact Hj. cbn [Nat.add]. unfold g. cbv zeta. rewrite E. reflexivity. }
  split; [|split; [|split; [|split]]].
  - intros Ls. unfold diagonal. rewrite Ls, Nat.min_id. rewrite map_length, seq_length. split; [reflexivity|].
    set (g := fun i : nat => entry (ment w) i i). rewrite (nth_indep _ 0 (g 0%nat)) by (rewrite map_length, seq_length; exact Hj). rewrite map_nth, seq_nth by exact Hj. cbn [Nat.add]. unfold g.
    assert (HW' : mat_shape (ncols w) (ncols w) (ment w)) by (unfold matrix_ok in HW; rewrite Ls in HW; exact HW). apply (entry_dot (ncols w) (ncols w)); assumption.
  - unfold col_norms. rewrite map_length, seq_length. reflexivity.
  - unfold col_norms. rewrite map_length, seq_length. reflexivity.
  - apply (C true).
  - rewrite (C false). reflexivity.
Qed.
Print Assumptions C57_diag.

(** ** The inner systems of BoxOSQP *)
(** The operator given to the indirect solver is the matrix factored by the LU solver; it is symmetric positive definite for a
    convex problem, hence nonsingular. *)
Theorem C57_system : forall n Q A sigma rho x, mat_shape n n (ment Q) -> symmetric n (ment Q) -> psd n (ment Q) -> ncols A = n -> matrix_ok A -> 0 < sigma -> 0 <= rho -> length x = n ->
  indirect_matvec (mvec (ment Q)) (fun v => tvec n (ment A) (mvec (ment A) v)) sigma rho x = mvec (system_matrix Q A sigma rho) x /\
  mat_shape n n (system_matrix Q A sigma rho) /\ symmetric n (system_matrix Q A sigma rho) /\ pos_def n (system_matrix Q A sigma rho) /\ nonsingular n (system_matrix Q A sigma rho).
Proof.
  intros n Q A sigma rho x HQ HS HP HnA HA Hs Hr Lx. split; [unfold indirect_matvec; rewrite (system_mvec n Q A sigma rho HQ HnA HA x Lx); reflexivity|].
  assert (Sh := system_shape n Q A sigma rho HQ HnA HA). split; [exact Sh|]. split.
  - apply (symmetric_adjoint n _ Sh). intros a b La Lb. apply (system_symmetric n Q A sigma rho HQ HnA HA HS); assumption.
  - split; [apply (system_pos_def n Q A sigma rho HQ HnA HA HP Hs Hr)|apply (system_nonsingular n Q A sigma rho HQ HnA HA HP Hs Hr)].
Qed.
Print Assumptions C57_system.

(** Jacobi preconditioning, one matrix each: after any history of step sizes the preconditioner divides by the diagonal of the
    current system, which is positive. *)
Theorem C57_jacobi : forall n Q A sigma rho0 rhos x0 x, mat_shape n n (ment Q) -> ncols Q = n -> psd n (ment Q) -> ncols A = n -> matrix_ok A -> 0 < sigma -> Forall (fun r => 0 <= r) (rho0 :: rhos) -> length x = n ->
  exists s p, indirect_init true x0 (Dense (Leaf Q)) (Dense (Leaf A)) sigma rho0 = Ok s /\ indirect_precond (indirect_history s rhos) (Leaf x) = Ok (Leaf p) /\ length p = n /\
    forall j, (j < n)%nat -> let d := entry (system_matrix Q A sigma (last rhos rho0)) j j in 0 < d /\ nth j p 0 = nth j x 0 / d.
Proof.
  intros n Q A sigma rho0 rhos x0 x HQ HnQ HP HnA HA Hs Hr Lx.
  set (pQ := diagonal Q). set (pA := col_norms true A).
  exists {| is_prev := x0; is_Q := Dense (Leaf Q); is_A := Dense (Leaf A); is_sigma := sigma; is_rho := rho0; is_precond := Some (Leaf pQ, Leaf pA) |}.
  set (rho := last rhos rho0). set (d := map (fun t => t + sigma) (zip_with (fun a b => a + rho * b) pQ pA)).
  exists (zip_with Rmult (map (fun t => 1 / t) d) x).
  assert (LQ : length (ment Q) = n) by apply HQ.
  assert (MQ : matrix_ok Q) by (unfold matrix_ok; rewrite LQ, HnQ; exact HQ).
  assert (L1 : length pQ = n). { unfold pQ, diagonal. rewrite map_length, seq_length, LQ, HnQ. apply Nat.min_id. }
  assert (L2 : length pA = n). { unfold pA, col_norms. rewrite map_length, seq_length. exact HnA. }
  assert (L3 : length d = n). { unfold d. rewrite map_length, zip_length; congruence. }
  split; [reflexivity|].
  assert (Hh : forall rs s, indirect_history s rs = {| is_prev := is_prev s; is_Q := is_Q s; is_A := is_A s; is_sigma := is_sigma s; is_rho := last rs (is_rho s); is_precond := is_precond s |}).
  { intros rs. induction rs as [|r rs IH]; intros s; [destruct s; reflexivity|]. cbn [indirect_history fold_left]. fold (indirect_history (indirect_update_stepsize s r) rs). rewrite IH. cbn. f_equal. destruct rs; [reflexivity|]. clear. revert r0. induction rs; intros; [reflexivity|]. cbn [last] in *. apply IHrs. }
  split.
  { rewrite Hh. cbn [is_rho is_sigma is_precond is_prev is_Q is_A indirect_precond]. unfold indirect_precond. cbn [is_rho is_sigma is_precond]. fold rho. unfold matvec_precond.
    rewrite tree_map2_leaf. unfold on_leaf at 1, arr_op at 1. rewrite L1, L2, Nat.eqb_refl. rewrite tree_map2_leaf. unfold on_leaf at 1. fold d. rewrite tree_map1_leaf, tree_map2_leaf. unfold on_leaf, arr_op. rewrite map_length, L3, Lx, Nat.eqb_refl. reflexivity. }
  assert (Lp : length (zip_with Rmult (map (fun t => 1 / t) d) x) = n) by (rewrite zip_length; rewrite map_length; congruence).
  split; [exact Lp|]. intros j Hj. cbv zeta.
  assert (Rpos : 0 <= rho). { unfold rho. clear - Hr. revert rho0 Hr. induction rhos as [|r rs IH]; intros rho0 Hr; [inversion Hr; assumption|]. destruct rs as [|r' rs]; [inversion Hr; subst; inversion H2; assumption|]. change (last (r :: r' :: rs) rho0) with (last (r' :: rs) rho0). apply IH. inversion Hr; subst. inversion H2; subst. constructor; assumption. }
  assert (Zn : forall (f : R -> R -> R) u v, length u = length v -> (j < length u)%nat -> nth j (zip_with f u v) 0 = f (nth j u 0) (nth j v 0)).
  { intros f u. clear. revert j. induction u as [|a u IH]; intros j [|b v] L Hj; cbn in *; try lia; try discriminate. destruct j; [reflexivity|]. apply IH; lia. }
  assert (Mn : forall (f : R -> R) u, (j < length u)%nat -> nth j (map f u) 0 = f (nth j u 0)).
  { intros f u Hu. rewrite (nth_indep _ 0 (f 0)) by (rewrite map_length; exact Hu). apply map_nth. }
  assert (Sh := system_shape n Q A sigma rho HQ HnA HA).
  assert (Le : length (unit_vec n j) = n) by apply unit_vec_length.
  assert (Ed : entry (system_matrix Q A sigma rho) j j = nth j d 0).
  { rewrite (entry_dot n n _ j j Sh Hj Hj), (system_mvec n Q A sigma rho HQ HnA HA) by exact Le. rewrite !dot_vadd_r, !dot_smul_r, dot_tvec_r, (dot_unit_vec n j (unit_vec n j) Le Hj), nth_unit_vec by exact Hj.
    destruct (Nat.eq_dec j j) as [_|]; [|congruence]. unfold d. rewrite Mn by (rewrite zip_length; congruence). rewrite Zn by congruence.
    destruct (C57_diag Q j MQ ltac:(rewrite HnQ; exact Hj)) as (D1 & _). destruct (C57_diag A j HA ltac:(rewrite HnA; exact Hj)) as (_ & _ & _ & D2 & _). destruct (D1 ltac:(congruence)) as [_ D1']. fold pQ in D1'. fold pA in D2. rewrite HnQ in D1'. rewrite HnA in D2. rewrite D1', D2. ring. }
  split.
  - rewrite (entry_dot n n _ j j Sh Hj Hj). assert (K := system_quad n Q A sigma rho HQ HnA HA HP Rpos (unit_vec n j) Le). rewrite (dot_unit_vec n j (unit_vec n j) Le Hj), nth_unit_vec in K by exact Hj. destruct (Nat.eq_dec j j) as [_|]; [|congruence]. lra.
  - fold rho. rewrite Ed. rewrite Zn by (rewrite map_length; congruence). rewrite Mn by congruence. unfold Rdiv. ring.
Qed.
Print Assumptions C57_jacobi.

(** Without the option the preconditioner is the identity; with it, a matvec is refused. *)
Theorem C57_jacobi_options : forall x0 x Q A sigma rho f,
  (forall rhos s, indirect_init false x0 Q A sigma rho = Ok s -> indirect_precond (indirect_history s rhos) x = Ok x) /\
  (exists s, indirect_init false x0 Q A sigma rho = Ok s) /\
  indirect_init true x0 (Functional f) A sigma rho = Err ValueError /\ indirect_init true x0 Q (Functional f) sigma rho = Err ValueError.
Proof.
  intros x0 x Q A sigma rho f. split; [|split; [eexists; reflexivity|split; [reflexivity|]]].
  - intros rhos s H. injection H as <-. assert (G : forall rs s, is_precond s = None -> is_precond (indirect_history s rs) = None).
    { intros rs. induction rs as [|r rs IH]; intros s Hs; [exact Hs|]. cbn [indirect_history fold_left]. apply (IH (indirect_update_stepsize s r)). exact Hs. }
    unfold indirect_precond. rewrite G by reflexivity. reflexivity.
  - destruct Q; reflexivity.
Qed.
Print Assumptions C57_jacobi_options.

(** Against the documentation ("only works on pytree of matrices"): with matrices in a container the preconditioner raises
    ValueError on every vector, because sigma, a number, is added to a tree. *)
Theorem C57_jacobi_pytree_refuted : forall k Qs A x0 x sigma rho s, structure (Node k Qs) = structure A ->
  Forall2 (fun q a => length (ment q) = ncols q /\ ncols a = ncols q) (leaves (Node k Qs)) (leaves A) ->
  indirect_init true x0 (Dense (Node k Qs)) (Dense A) sigma rho = Ok s -> indirect_precond s x = Err ValueError.
Proof.
  intros k Qs A x0 x sigma rho s HS HF H. unfold indirect_init, init_state_precond in H. cbn [negb] in H.
  assert (E1 : dense_diag (Node k Qs) = Ok (fmap diagonal (Node k Qs))) by (apply tree_map1_ok; reflexivity).
  assert (E2 : dense_columns_l2_norms true A = Ok (fmap (col_norms true) A)) by (apply tree_map1_ok; reflexivity).
  rewrite E1, E2 in H. injection H as <-. unfold indirect_precond. cbn [is_precond is_sigma is_rho]. unfold matvec_precond.
  destruct (tree_map2_ok (on_leaf (arr_op (fun a b : R => a + rho * b))) (fun u v => zip_with (fun a b : R => a + rho * b) u v) (fmap diagonal (Node k Qs)) (fmap (col_norms true) A)) as (d & E & HSd & _).
  - rewrite !structure_fmap. exact HS.
  - rewrite !leaves_fmap. clear - HF. induction HF as [|q a l l' [H1 H2] HF IH]; [constructor|]. cbn [map]. constructor; [|exact IH]. unfold on_leaf, arr_op, diagonal, col_norms. rewrite !map_length, !seq_length, H1, H2, Nat.min_id, Nat.eqb_refl. reflexivity.
  - match goal with |- (match ?X with _ => _ end) = _ => assert (EX : X = Ok d) by exact E; rewrite EX end. destruct d as [|k' cs]; [discriminate HSd|]. reflexivity.
Qed.
Print Assumptions C57_jacobi_pytree_refuted.

(** The LU solver: whatever the history of step sizes, it returns the solution of the system of the current one. *)
Theorem C57_lu : forall F (lu_factor : mat -> F) lu_solve Q A sigma rho0 rhos b, lu_exact lu_factor lu_solve -> quadratic_blocks Q A -> 0 < sigma -> Forall (fun r => 0 <= r) (rho0 :: rhos) -> domain_of Q b ->
  exists st s, lu_history lu_factor (lu_init F lu_factor Q A sigma rho0) rhos = Ok st /\ lu_run F lu_solve b st = Ok s /\ domain_of Q s /\ solves_system Q A sigma (last rhos rho0) s b.
Proof.
  intros F lu_factor lu_solve Q A sigma rho0 rhos b HE [HS HF] Hs Hr [HSb HFb].
  assert (Fac : forall rho, exists l, lu_factor_pytree F lu_factor Q A sigma rho = Ok l /\ structure l = structure Q /\ leaves l = zip_with (fun q a => lu_factor (system_matrix q a sigma rho)) (leaves Q) (leaves A)).
  { intros rho. apply (tree_map2_ok (on_leaf (lu_factor_dense F lu_factor sigma rho)) (fun q a => lu_factor (system_matrix q a sigma rho)) Q A HS). clear - HF. induction HF as [|q a l l' H HF IH]; [constructor|]. constructor; [|exact IH].
    destruct H as ([H1 _] & _ & _ & _ & H2). unfold on_leaf, lu_factor_dense. rewrite H1, H2, Nat.eqb_refl. reflexivity. }
  assert (His : forall rs r0, Forall (fun r => 0 <= r) (r0 :: rs) -> exists l, lu_history lu_factor (lu_init F lu_factor Q A sigma r0) rs = Ok {| lu_Q := Q; lu_A := A; lu_sigma := sigma; lu_fact := l |} /\ 0 <= last rs r0 /\
            structure l = structure Q /\ leaves l = zip_with (fun q a => lu_factor (system_matrix q a sigma (last rs r0))) (leaves Q) (leaves A)).
  { intros rs. induction rs as [|r rs IH]; intros r0 Hrs.
    - destruct (Fac r0) as (l & E & E2). exists l. unfold lu_history, lu_init. cbn [fold_left last]. rewrite E. split; [reflexivity|]. split; [inversion Hrs; assumption|exact E2].
    - assert (Hrs' : Forall (fun r => 0 <= r) (r :: rs)) by (inversion Hrs; assumption). destruct (IH r Hrs') as (l & E & E1 & E2). exists l. destruct (Fac r0) as (l0 & E0 & _). destruct (Fac r) as (l1 & E3 & _).
      assert (EE : lu_history lu_factor (lu_init F lu_factor Q A sigma r0) (r :: rs) = lu_history lu_factor (lu_init F lu_factor Q A sigma r) rs).
      { unfold lu_history. cbn [fold_left]. f_equal. unfold lu_init. rewrite E0. unfold lu_update_stepsize. cbn [lu_Q lu_A lu_sigma]. reflexivity. }
      rewrite EE. assert (EL : last (r :: rs) r0 = last rs r). { clear. revert r. induction rs as [|a rs IH]; intros r; [reflexivity|]. change (last (r :: a :: rs) r0) with (last (a :: rs) r0). rewrite (IH a). destruct rs; [reflexivity|]. clear. revert r1. induction rs; intros; [reflexivity|]. cbn [last] in *. apply IHrs. }
      rewrite EL. split; [exact E|]. split; [exact E1|exact E2]. }
  destruct (His rhos rho0 Hr) as (l & E1 & Rp & E2 & E3). clear His Fac. set (rho := last rhos rho0) in *. clearbody rho. exists {| lu_Q := Q; lu_A := A; lu_sigma := sigma; lu_fact := l |}.
  assert (Hbl : structure b = structure l) by congruence.
  assert (LQA := Forall2_len _ _ _ HF).
  destruct (tree_map2_ok (on_leaf (fun (b : vec) (l : F) => Ok (lu_solve l b))) (fun b l => lu_solve l b) b l Hbl) as (s & G1 & G2 & G3).
  { rewrite E3. assert (L : length (leaves b) = length (zip_with (fun q a => lu_factor (system_matrix q a sigma rho)) (leaves Q) (leaves A))) by (rewrite zip_length by exact LQA; symmetry; apply leaves_length; exact HSb). revert L. generalize (leaves b). generalize (zip_with (fun q a => lu_factor (system_matrix q a sigma rho)) (leaves Q) (leaves A)). clear. intros l l'. revert l. induction l' as [|x l' IH]; intros [|y l] L; try discriminate; constructor; [reflexivity|]. apply IH. cbn in L. lia. }
  exists s. split; [exact E1|]. split; [exact G1|].
  assert (Hls : leaves s = zip_with (fun qa b => lu_solve (lu_factor (system_matrix (fst qa) (snd qa) sigma rho)) b) (combine (leaves Q) (leaves A)) (leaves b)).
  { rewrite G3, E3. clear - LQA. revert LQA. generalize (leaves b). generalize (leaves A). generalize (leaves Q). intros l. induction l as [|q l IH]; intros [|a l'] [|u lb] L; try discriminate; try reflexivity. cbn [zip_with combine fst snd]. f_equal. apply IH. cbn in L. lia. }
  assert (Hsol : Forall2 (fun qa s => length s = ncols (fst qa)) (combine (leaves Q) (leaves A)) (leaves s) /\
     zip_with vadd (zip_with vadd (zip_with (fun w u => mvec (ment w) u) (leaves Q) (leaves s)) (map (smul sigma) (leaves s)))
       (map (smul rho) (zip_with (fun w u => tvec (ncols w) (ment w) u) (leaves A) (zip_with (fun w u => mvec (ment w) u) (leaves A) (leaves s)))) = leaves b).
  { rewrite Hls. clear - HF HFb HE Hs Rp. revert HFb. generalize (leaves b) as lb. induction HF as [|q a lq la H HF IH]; intros lb HFb; inversion HFb as [|q' u lq' lu Hu HFb']; subst; [split; [constructor|reflexivity]|].
    destruct (IH lu HFb') as [I1 I2]. destruct H as (H1 & H2 & H3 & H4 & H5). cbn [combine zip_with fst snd map].
    destruct (HE (ncols q) (system_matrix q a sigma rho) u (system_nonsingular (ncols q) q a sigma rho H1 H5 H4 H3 Hs Rp) Hu) as [K1 K2].
    split; [constructor; [exact K1|exact I1]|]. f_equal; [|exact I2]. rewrite (system_mvec (ncols q) q a sigma rho H1 H5 H4) in K2 by exact K1. rewrite H5. exact K2. }
  destruct Hsol as [Hl Heq].
  assert (Dq : domain_of Q s). { split; [congruence|]. clear - Hl LQA. revert LQA Hl. generalize (leaves s). generalize (leaves A). generalize (leaves Q). intros l. induction l as [|q l IH]; intros [|a l'] ls L H; try discriminate; inversion H; subst; constructor; [assumption|]. apply (IH l'); [cbn in L; lia|assumption]. }
  split; [exact Dq|].
  assert (Da : domain_of A s). { split; [congruence|]. clear - HF Hl. revert Hl. generalize (leaves s). induction HF as [|q a lq la H HF IH]; intros ls Hl; inversion Hl; subst; constructor; [|apply IH; assumption]. destruct H as (_ & _ & _ & _ & H). rewrite H. assumption. }
  destruct (matvec_ok Q s Dq) as (qs & F1 & F2 & F3). destruct (matvec_ok A s Da) as (asx & A1 & A2 & A3). destruct (rmatvec_ok A asx (matvec_codomain A s asx Da A2 A3)) as (nas & N1 & N2 & N3).
  exists qs, nas. split; [exact F1|]. split; [unfold dense_normal_matvec; rewrite A1; exact N1|]. split; [exact G2|]. rewrite F3, N3, A3. exact Heq.
Qed.
Print Assumptions C57_lu.

(** Both solvers satisfy what the convergence theorems of BoxOSQP (C35, C37) ask of the inner solver. *)
Lemma finite_fin v : finite_list (fin v) = Some v.
Proof. induction v as [|a v IH]; [reflexivity|]. cbn. unfold fin in IH. unfold finite_list in IH. rewrite IH. reflexivity. Qed.
Theorem C57_inner_exact : forall F (lu_factor : mat -> F) lu_solve cg n Q A sigma, lu_exact lu_factor lu_solve -> exact_on_positive cg ->
  mat_shape n n (ment Q) -> ncols Q = n -> symmetric n (ment Q) -> psd n (ment Q) -> ncols A = n -> matrix_ok A -> 0 < sigma ->
  lin_exact n (ment Q) (ment A) sigma (lu_lin_solve F lu_factor lu_solve Q A sigma) /\
  lin_exact n (ment Q) (ment A) sigma (on_finite (indirect_run cg (mvec (ment Q)) (fun v => tvec n (ment A) (mvec (ment A) v)) sigma)).
Proof.
  intros F lu_factor lu_solve cg n Q A sigma HE HC HQ HnQ HS HP HnA HA Hs.
  assert (LQ : length (ment Q) = n) by apply HQ. split.
  - intros rho prev b Hr Lb. assert (Hr' : 0 <= rho) by lra. unfold lu_lin_solve. rewrite finite_fin. unfold lu_init, lu_factor_pytree. rewrite tree_map2_leaf. unfold on_leaf at 1, lu_factor_dense. rewrite LQ, HnQ, HnA, Nat.eqb_refl. cbn [andb].
    unfold lu_run. cbn [lu_fact]. rewrite tree_map2_leaf. unfold on_leaf. destruct (HE n (system_matrix Q A sigma rho) b (system_nonsingular n Q A sigma rho HQ HnA HA HP Hs Hr') Lb) as [K1 K2].
    eexists. split; [reflexivity|]. split; [exact K1|]. rewrite (system_mvec n Q A sigma rho HQ HnA HA) in K2 by exact K1. exact K2.
  - intros rho prev b Hr Lb. assert (Hr' : 0 <= rho) by lra. unfold on_finite. rewrite finite_fin. set (p := match finite_list prev with Some p => _ | None => _ end).
    assert (Lp : length p = n). { unfold p. destruct (finite_list prev) as [q|]; [|unfold vzero; rewrite repeat_length; exact Lb]. destruct (Nat.eqb_spec (length q) (length b)); [congruence|unfold vzero; rewrite repeat_length; exact Lb]. }
    set (f := indirect_matvec (mvec (ment Q)) (fun v => tvec n (ment A) (mvec (ment A) v)) sigma rho).
    assert (Ef : forall x, length x = n -> f x = mvec (system_matrix Q A sigma rho) x) by (intros x Lx; unfold f, indirect_matvec; rewrite (system_mvec n Q A sigma rho HQ HnA HA x Lx); reflexivity).
    assert (HL : is_linear n f). { split; [intros x Lx; rewrite (Ef x Lx), mvec_length; apply (system_shape n Q A sigma rho HQ HnA HA)|]. split; [intros x y Lx Ly; rewrite !Ef by (rewrite ?vadd_length; lia); apply mvec_vadd|intros a x Lx; rewrite !Ef by (rewrite ?smul_length; exact Lx); apply mvec_smul]. }
    assert (HPo : positive_op n f None). { split; [intros x y Lx Ly; rewrite !Ef by assumption; apply (system_symmetric n Q A sigma rho HQ HnA HA HS); assumption|]. intros x Lx Hx. rewrite Ef by exact Lx. rewrite Rmult_0_l, Rplus_0_r. apply (system_pos_def n Q A sigma rho HQ HnA HA HP Hs Hr'); assumption. }
    destruct (HC n f b (Some p) HL HPo Lb Lp) as [K1 K2]. exists (cg f b (Some p)). split; [reflexivity|]. split; [exact K1|]. exact K2.
Qed.
Print Assumptions C57_inner_exact.

(** The absolute tolerance of the inner solver stays below the geometric mean of the two residuals, and vanishes with either. *)
Theorem C57_atol : forall p d, 0 < p -> 0 < d -> (0 < indirect_atol p d < sqrt (p * d)) /\ indirect_atol p d < Rmax p d /\ indirect_atol 0 d = 0 /\ indirect_atol p 0 = 0.
Proof.
  intros p d Hp Hd. unfold indirect_atol. rewrite Rmult_0_l, Rmult_0_r, sqrt_0. assert (K : 0 < sqrt (p * d)) by (apply sqrt_lt_R0; apply Rmult_lt_0_compat; assumption).
  assert (B : sqrt (p * d) <= Rmax p d). { rewrite <- (sqrt_square (Rmax p d)) by (apply Rle_trans with p; [lra|apply Rmax_l]). apply sqrt_le_1_alt. apply Rmult_le_compat; try lra; [apply Rmax_l|apply Rmax_r]. }
  repeat split; try lra.
Qed.
Print Assumptions C57_atol.

(** The options: 'cg', 'cg+jacobi' and 'lu' in any letter case, everything else a ValueError, as giving both fun and matvec_Q;
    infeasibility is looked for as asked, "auto" meaning exactly when not jitted. *)
Theorem C57_options : forall fg mg s check jit k c,
  box_post_init fg mg s check jit = Ok (k, c) <->
  (fg && mg = false /\ c = match check with Some b => b | None => negb jit end /\
   ((str_lower s = "cg"%string /\ k = InnerCG false) \/ (str_lower s = "cg+jacobi"%string /\ k = InnerCG true) \/ (str_lower s = "lu"%string /\ k = InnerLU)))%bool.
Proof.
  intros fg mg s check jit k c. unfold box_post_init. set (c0 := match check with Some b => b | None => negb jit end). destruct (fg && mg)%bool; [split; [discriminate|intros (H & _); discriminate]|].
  destruct (String.eqb_spec (str_lower s) "cg"); [|destruct (String.eqb_spec (str_lower s) "cg+jacobi"); [|destruct (String.eqb_spec (str_lower s) "lu")]]; (split; [intros H; try discriminate; injection H as <- <-; auto 6|intros (_ & -> & [[H1 ->]|[[H1 ->]|[H1 ->]]]); try congruence]).
Qed.
Print Assumptions C57_options.

(** 'lu' with a matvec_Q is not refused (unlike 'cg+jacobi'): the matvec is not used for the system, whose matrix is params_Q
    itself.  Here matvec_Q(P, x) = P (P x) with P = 2 I, and the vector returned for b solves (P + ...) s = b, not (P^2 + ...) s = b. *)
Theorem C57_lu_matvec_refuted : exists (matvec_Q : tree matrix -> vec -> vec) P A sigma rho b,
  linear_map 1 1 (matvec_Q P) /\ psd 1 [matvec_Q P [1]] /\ 0 < sigma /\ 0 < rho /\ box_post_init false true "lu" None true = Ok (InnerLU, false) /\
  inner_init mat (fun M => M) (InnerCG true) (Some matvec_Q) None (Leaf [0]) P A sigma rho = Err ValueError /\
  exists st s, inner_init mat (fun M => M) InnerLU (Some matvec_Q) None (Leaf [0]) P A sigma rho = Ok (inr st) /\ lu_run mat gauss_solve (Leaf b) st = Ok (Leaf s) /\
    indirect_matvec (matvec_Q P) (fun v => tvec 1 [[1]] (mvec [[1]] v)) sigma rho s <> b.
Proof.
  exists (fun P x => match P with Leaf w => mvec (ment w) (mvec (ment w) x) | _ => x end), (Leaf {| ncols := 1; ment := [[2]] |}), (Leaf {| ncols := 1; ment := [[1]] |}), 1, 1, [4].
  split. { split; [intros; reflexivity|]. split; [intros; rewrite !mvec_vadd; reflexivity|intros; rewrite !mvec_smul; reflexivity]. }
  split. { intros [|v [|]] L; try discriminate. cbn. assert (0 <= v * v) by nra. nra. }
  split; [lra|]. split; [lra|]. split; [reflexivity|]. split; [reflexivity|].
  assert (E : lu_init mat (fun M => M) (Leaf {| ncols := 1; ment := [[2]] |}) (Leaf {| ncols := 1; ment := [[1]] |}) 1 1 = Ok {| lu_Q := Leaf {| ncols := 1; ment := [[2]] |}; lu_A := Leaf {| ncols := 1; ment := [[1]] |}; lu_sigma := 1; lu_fact := Leaf (system_matrix {| ncols := 1; ment := [[2]] |} {| ncols := 1; ment := [[1]] |} 1 1) |}) by reflexivity.
  unfold inner_init. rewrite E. eexists. exists (gauss_solve (system_matrix {| ncols := 1; ment := [[2]] |} {| ncols := 1; ment := [[1]] |} 1 1) [4]).
  split; [reflexivity|]. split; [reflexivity|].
  assert (M1 : mat_shape 1 1 [[2]]) by (split; [reflexivity|repeat constructor]). assert (M2 : matrix_ok {| ncols := 1; ment := [[1]] |}) by (split; [reflexivity|repeat constructor]).
  assert (HP : psd 1 (ment {| ncols := 1; ment := [[2]] |})) by (intros [|v [|]] L; try discriminate; cbn; assert (0 <= v * v) by nra; nra).
  destruct (gauss_exact 1%nat (system_matrix {| ncols := 1; ment := [[2]] |} {| ncols := 1; ment := [[1]] |} 1 1) [4]) as [K1 K2]; [apply (system_nonsingular 1); try assumption; try reflexivity; lra|reflexivity|].
  rewrite (system_mvec 1) in K2; [|exact M1|reflexivity|exact M2|exact K1]. revert K1 K2. generalize (gauss_solve (system_matrix {| ncols := 1; ment := [[2]] |} {| ncols := 1; ment := [[1]] |} 1 1) [4]). intros s K1 K2 K3. destruct s as [|s [|]]; try discriminate. unfold indirect_matvec in K3. cbn in K2, K3. injection K2 as K2. injection K3 as K3. lra.
Qed.
Print Assumptions C57_lu_matvec_refuted.

(** transform_matvec: with a matvec for A or for G, the blocks A x and G x in this order, each from its matvec if given and from
    its matrix otherwise; absent blocks give nothing. *)
Theorem C57_transform_matvec : forall P (mA mG : option (P -> vec -> vec)) (pA pG : option (P * matrix)) n x, length x = n ->
  (forall f q w, mA = Some f -> pA = Some (q, w) -> f q x = mvec (ment w) x) -> (forall f q w, mG = Some f -> pG = Some (q, w) -> f q x = mvec (ment w) x) ->
  (forall q w, pA = Some (q, w) -> ncols w = n) -> (forall q w, pG = Some (q, w) -> ncols w = n) -> (mA <> None -> pA <> None) -> (mG <> None -> pG <> None) ->
  (matvec_A_box mA mG = None <-> mA = None /\ mG = None) /\
  forall box, matvec_A_box mA mG = Some box -> exists bl, box pA pG x = Ok bl /\
    concat bl = mvec (match pA with Some (_, w) => ment w | None => [] end ++ match pG with Some (_, w) => ment w | None => [] end) x /\
    length bl = (match pA with Some _ => 1 | None => 0 end + match pG with Some _ => 1 | None => 0 end)%nat /\
    (forall q w, pA = Some (q, w) -> hd [] bl = mvec (ment w) x) /\ (forall q w, pG = Some (q, w) -> last bl [] = mvec (ment w) x).
Proof.
  intros P mA mG pA pG n x Lx HA HG HnA HnG NA NG. split.
  - unfold matvec_A_box. destruct mA, mG; split; intros H; try discriminate; try (destruct H; discriminate); auto.
  - intros box HB.
    assert (K : forall (mv : option (P -> vec -> vec)) (p : option (P * matrix)), (forall f q w, mv = Some f -> p = Some (q, w) -> f q x = mvec (ment w) x) -> (forall q w, p = Some (q, w) -> ncols w = n) -> (mv <> None -> p <> None) ->
      match mv, p with Some f, Some (q, _) => Ok [f q x] | Some f, None => Err Unspecified | None, Some (_, w) => match jdot w x with Ok v => Ok [v] | Err e => Err e end | None, None => Ok [] end = Ok (match p with Some (_, w) => [mvec (ment w) x] | None => [] end)).
    { intros mv p H1 H2 H3. destruct mv as [f|], p as [[q w]|]; try reflexivity.
      - rewrite (H1 f q w eq_refl eq_refl). reflexivity.
      - exfalso. apply H3; [discriminate|reflexivity].
      - unfold jdot. rewrite Lx, (H2 q w eq_refl), Nat.eqb_refl. reflexivity. }
    assert (KA := K mA pA HA HnA NA). assert (KG := K mG pG HG HnG NG). clear K.
    assert (E : box pA pG x = Ok (match pA with Some (_, w) => [mvec (ment w) x] | None => [] end ++ match pG with Some (_, w) => [mvec (ment w) x] | None => [] end)).
    { unfold matvec_A_box in HB. destruct mA, mG; try discriminate; injection HB as <-; cbv zeta beta; rewrite KA, KG; reflexivity. }
    eexists. split; [exact E|]. destruct pA as [[qa wa]|], pG as [[qg wg]|]; cbn [app concat length Nat.add hd last]; rewrite ?app_nil_r; unfold mvec; rewrite ?map_app; (split; [reflexivity|]); (split; [reflexivity|]); (split; intros q w H; try discriminate; injection H as <- <-; reflexivity).
Qed.
Print Assumptions C57_transform_matvec.

(** The hypotheses are met: two blocks, an exact factorisation, a vjp. *)
Definition ex_mQ : tree matrix := Node "tuple" [Leaf {| ncols := 1; ment := [[2]] |}; Leaf {| ncols := 2; ment := [[1; 0]; [0; 1]] |}].
Definition ex_mA : tree matrix := Node "tuple" [Leaf {| ncols := 1; ment := [[1]; [3]] |}; Leaf {| ncols := 2; ment := [[1; -1]] |}].
Example C57_example :
  quadratic_blocks ex_mQ ex_mA /\ lu_exact (fun M => M) gauss_solve /\ domain_of ex_mQ (Node "tuple" [Leaf [1]; Leaf [2; 3]]) /\
  Forall matrix_ok (leaves ex_mA) /\ codomain_of ex_mA (Node "tuple" [Leaf [1; 2]; Leaf [4]]) /\
  dense_matvec ex_mA (Node "tuple" [Leaf [1]; Leaf [2; 3]]) = Ok (Node "tuple" [Leaf [1 * 1 + 0; 3 * 1 + 0]; Leaf [1 * 2 + (-1 * 3 + 0)]]) /\
  dense_matvec ex_mA (Node "tuple" [Leaf [1]; Leaf [2]]) = Err TypeError /\ dense_matvec ex_mA (Leaf [1]) = Err ValueError /\
  is_vjp 2 1 (mvec [[1; -1]]) (fun _ y => tvec 2 [[1; -1]] y) /\ linear_map 2 1 (mvec [[1; -1]]).
Proof.
  assert (LM : linear_map 2 1 (mvec [[1; -1]])) by (split; [reflexivity|]; split; [intros; apply mvec_vadd|intros; apply mvec_smul]).
  split; [|split; [|split; [|split; [|split; [|split; [|split; [|split; [|split]]]]]]]].
  - split; [reflexivity|]. cbn [leaves ex_mQ ex_mA flat_map app]. constructor; [|constructor; [|constructor]]; cbn [ncols ment]; (split; [split; [reflexivity|repeat constructor]|]); (split; [|split; [|split; [split; [reflexivity|repeat constructor]|reflexivity]]]).
    + intros [|i] [|j] Hi Hj; try lia. reflexivity.
    + intros [|v [|]] L; try discriminate. cbn. nra.
    + intros [|[|i]] [|[|j]] Hi Hj; try lia; reflexivity.
    + intros [|v [|w [|]]] L; try discriminate. cbn. nra.
  - exact gauss_exact.
  - split; [reflexivity|]. cbn. repeat constructor.
  - cbn. repeat constructor.
  - split; [reflexivity|]. cbn. repeat constructor.
  - reflexivity.
  - reflexivity.
  - reflexivity.
  - intros x y Lx Ly. assert (Sh : mat_shape 1 2 [[1; -1]]) by (repeat constructor). split; [apply (tvec_length 1); exact Sh|]. intros v Lv. rewrite dot_tvec. intros eps He. exists (mkposreal 1 Rlt_0_1). intros h Hh _.
    rewrite !mvec_vadd, !mvec_smul, !dot_vadd_r, !dot_smul_r. match goal with |- Rabs ?X < _ => replace X with 0 by (field; exact Hh) end. rewrite Rabs_R0. exact He.
  - exact LM.
Qed.
