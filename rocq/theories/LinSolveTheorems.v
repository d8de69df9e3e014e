(** Theorems for C42 (linear_solve.py). *)
From Coq Require Import Reals List Lra Lia Bool Arith.
From Verif Require Import Prelude Vec Mat LinAlg LinSolve LinSolveProofs.
Import ListNotations.
Open Scope R_scope.

(** C42: the materialised matrix is the operator. *)
Theorem C42_materialize : forall n f, is_linear n f ->
  mat_shape n n (materialize_array f n) /\ forall x, length x = n -> mvec (materialize_array f n) x = f x.
Proof. intros n f H. split; [apply materialize_shape; exact H|apply materialize_mvec; exact H]. Qed.
Print Assumptions C42_materialize.

(** C42: solve_lu on vectors and on matrices: the returned array has b's shape and solves the
    regularised system. *)
Theorem C42_lu : forall la_solve f b ridge, exact_solver la_solve ->
  array_ok b -> is_linear (length (data b)) f -> regular_op (length (data b)) f ridge ->
  (length (shape b) = 1 \/ length (shape b) = 2)%nat ->
  exists x, solve_lu la_solve f b ridge = Ok x /\ shape x = shape b /\ solves_ridge f ridge (data b) (data x).
Proof.
  intros la_solve f b ridge HE Hok HL HR Hs. unfold solve_lu.
  set (n := length (data b)) in *. set (g := with_ridge f ridge).
  assert (HL' : is_linear n g) by (apply with_ridge_linear; exact HL).
  assert (HN : nonsingular n (materialize_array g n)) by (apply materialize_nonsingular; [exact HL'|]; apply regular_kernel; assumption).
  destruct (HE n _ (data b) HN eq_refl) as [Hlen Heq]. rewrite (materialize_mvec n g HL') in Heq by exact Hlen.
  exists {| shape := shape b; data := la_solve (materialize_array g n) (data b) |}.
  split; [destruct Hs as [-> | ->]; reflexivity|]. split; [reflexivity|]. apply (solve_spec n); auto.
Qed.
Print Assumptions C42_lu.

(** C42: the Cholesky solver on vectors, for positive definite A + ridge I. *)
Theorem C42_cholesky : forall cho_solve f b ridge, exact_spd_solver cho_solve ->
  array_ok b -> is_linear (length (data b)) f -> positive_op (length (data b)) f ridge -> length (shape b) = 1%nat ->
  exists x, solve_cholesky cho_solve f b ridge = Ok x /\ shape x = shape b /\ solves_ridge f ridge (data b) (data x).
Proof.
  intros cho f b ridge HE Hok HL HP Hs. unfold solve_cholesky. rewrite Hs.
  set (n := length (data b)) in *. set (g := with_ridge f ridge).
  assert (HL' : is_linear n g) by (apply with_ridge_linear; exact HL).
  destruct (with_ridge_positive n f ridge HL HP) as [HS HP'].
  assert (HM := materialize_shape n g HL').
  assert (Hsym : symmetric n (materialize_array g n)).
  { apply (symmetric_adjoint n _ HM). intros x y Hx Hy. rewrite !(materialize_mvec n g HL') by assumption. apply HS; assumption. }
  assert (Hpd : pos_def n (materialize_array g n)).
  { intros v Hv Hne. rewrite (materialize_mvec n g HL') by assumption. specialize (HP' v Hv Hne). fold g in HP'. lra. }
  destruct (HE n _ (data b) HM Hsym Hpd eq_refl) as [Hlen Heq]. rewrite (materialize_mvec n g HL') in Heq by exact Hlen.
  eexists. split; [reflexivity|]. split; [reflexivity|]. apply (solve_spec n); auto.
Qed.
Print Assumptions C42_cholesky.

(** C42, where the code falls short: solve_cholesky accepts matrices b according to its text, but
    always raises ValueError on them (the tensor A is not reshaped), while solve_lu succeeds. *)
Theorem C42_cholesky_matrix_refuted : forall cho_solve f b ridge, length (shape b) = 2%nat ->
  solve_cholesky cho_solve f b ridge = Err ValueError.
Proof. intros cho f b ridge H. unfold solve_cholesky. rewrite H. reflexivity. Qed.
Print Assumptions C42_cholesky_matrix_refuted.

(** C42: solve_inv and solve_qr on vectors. *)
Theorem C42_inv : forall la_inv f b ridge, exact_inverse la_inv ->
  array_ok b -> is_linear (length (data b)) f -> regular_op (length (data b)) f ridge -> length (shape b) = 1%nat ->
  exists x, solve_inv la_inv f b ridge = Ok x /\ shape x = shape b /\ solves_ridge f ridge (data b) (data x).
Proof.
  intros inv f b ridge HE Hok HL HR Hs. unfold solve_inv. rewrite Hs.
  set (n := length (data b)) in *. set (g := with_ridge f ridge).
  assert (HL' : is_linear n g) by (apply with_ridge_linear; exact HL).
  assert (HN : nonsingular n (materialize_array g n)) by (apply materialize_nonsingular; [exact HL'|]; apply regular_kernel; assumption).
  destruct (HE n _ (data b) HN eq_refl) as [Hlen Heq]. rewrite (materialize_mvec n g HL') in Heq by exact Hlen.
  eexists. split; [reflexivity|]. split; [reflexivity|]. apply (solve_spec n); auto.
Qed.
Print Assumptions C42_inv.
Theorem C42_qr : forall la_qr tri f b ridge, exact_triangular tri ->
  array_ok b -> is_linear (length (data b)) f -> regular_op (length (data b)) f ridge -> length (shape b) = 1%nat ->
  is_qr (length (data b)) (materialize_array (with_ridge f ridge) (length (data b)))
        (la_qr (materialize_array (with_ridge f ridge) (length (data b)))) ->
  exists x, solve_qr la_qr tri f b ridge = Ok x /\ shape x = shape b /\ solves_ridge f ridge (data b) (data x).
Proof.
  intros qr tri f b ridge HE Hok HL HR Hs HQ. unfold solve_qr. rewrite Hs.
  set (n := length (data b)) in *. set (g := with_ridge f ridge) in *.
  assert (HL' : is_linear n g) by (apply with_ridge_linear; exact HL).
  assert (HN : nonsingular n (materialize_array g n)) by (apply materialize_nonsingular; [exact HL'|]; apply regular_kernel; assumption).
  destruct (qr (materialize_array g n)) as [q r]. destruct HQ as (Hq & Hr & Hup & HM & Hqq).
  assert (Hrn : nonsingular n r).
  { split; [exact Hr|]. intros v Hv E. apply (proj2 HN v Hv). rewrite HM, mvec_mmul, E. rewrite mvec_vzero, (proj1 Hq). reflexivity. }
  assert (Hy : length (tvec n q (data b)) = n) by (apply (tvec_length n); exact Hq).
  destruct (HE n r _ Hrn Hup Hy) as [Hlen Heq].
  eexists. split; [reflexivity|]. split; [reflexivity|]. apply (solve_spec n); auto. cbn [data].
  fold g. rewrite <- (materialize_mvec n g HL') by exact Hlen. rewrite HM, mvec_mmul, Heq. apply Hqq. reflexivity.
Qed.
Print Assumptions C42_qr.

(** C42: a scalar b is divided by A + ridge; ValueError exactly when that is zero. *)
Theorem C42_scalar : forall la_solve cho_solve la_inv la_qr tri f b ridge, array_ok b -> is_linear 1 f -> shape b = [] ->
  let r := match ridge with Some r => r | None => 0 end in
  let a := nth 0 (f [1]) 0 + r in
  forall out, In out [solve_lu la_solve f b ridge; solve_cholesky cho_solve f b ridge; solve_inv la_inv f b ridge; solve_qr la_qr tri f b ridge] ->
  (a = 0 -> out = Err ValueError) /\
  (a <> 0 -> exists x, out = Ok x /\ shape x = [] /\ solves_ridge f ridge (data b) (data x)).
Proof.
  intros la_solve cho la_inv la_qr tri f b ridge Hok HL Hs r a out Hin.
  assert (Hb : length (data b) = 1%nat) by (unfold array_ok in Hok; rewrite Hs in Hok; exact Hok).
  assert (Eout : out = solve_scalar (materialize_array (with_ridge f ridge) 1) b).
  { simpl in Hin. unfold solve_lu, solve_cholesky, solve_inv, solve_qr in Hin. rewrite Hs, Hb in Hin. simpl in Hin. intuition. }
  clear Hin. unfold solve_scalar in Eout.
  assert (HL' := with_ridge_linear 1 f ridge HL).
  assert (EA : entry (materialize_array (with_ridge f ridge) 1) 0 0 = a).
  { unfold materialize_array. rewrite mtrans_entry by (simpl; lia). unfold entry. simpl.
    unfold unit_vec; simpl. change (match ridge with None => f | Some r0 => make_ridge_matvec f r0 end [1]) with (with_ridge f ridge [1]). 
    rewrite (with_ridge_eq 1) by (try exact HL; reflexivity). rewrite nth_vadd, nth_smul. simpl. unfold a, r, rval. ring. }
  rewrite EA in Eout. destruct (Req_EM_T a 0) as [E0|E0]; split; intro H; try contradiction; [exact Eout|].
  eexists. split; [exact Eout|]. split; [exact Hs|]. cbn [data].
  destruct (data b) as [|b0 [|]] eqn:Eb; try discriminate. split; [reflexivity|]. simpl nth.
  destruct HL as (Hl & _ & Hsm).
  assert (Ef : f [b0 / a] = smul (b0 / a) (f [1])). { rewrite <- (Hsm (b0 / a) [1] eq_refl). simpl. f_equal. f_equal. ring. }
  rewrite Ef. assert (L1 := Hl [1] eq_refl). unfold a in *. destruct (f [1]) as [|f0 [|]]; try discriminate. simpl in *.
  f_equal. fold r. field. exact E0.
Qed.
Print Assumptions C42_scalar.

(** C42: higher ranks are rejected. *)
Theorem C42_rank : forall la_solve cho_solve la_inv la_qr tri f b ridge,
  ((2 < length (shape b))%nat -> solve_lu la_solve f b ridge = Err NotImplementedErr /\ solve_cholesky cho_solve f b ridge = Err NotImplementedErr) /\
  ((1 < length (shape b))%nat -> solve_inv la_inv f b ridge = Err NotImplementedErr /\ solve_qr la_qr tri f b ridge = Err NotImplementedErr).
Proof.
  intros la_solve cho la_inv la_qr tri f b ridge. unfold solve_lu, solve_cholesky, solve_inv, solve_qr.
  destruct (length (shape b)) as [|[|[|k]]]; split; intro H; try lia; split; reflexivity.
Qed.
Print Assumptions C42_rank.

(** C42: the Krylov solvers. *)
Theorem C42_krylov : forall cg gmres bicgstab n f b ridge init, is_linear n f -> length b = n ->
  match init with Some i => length i = n | None => True end ->
  (exact_on_positive cg -> positive_op n f ridge -> solves_ridge f ridge b (solve_cg cg f b ridge init)) /\
  (exact_on_regular gmres -> regular_op n f ridge -> solves_ridge f ridge b (solve_gmres gmres f b ridge init)) /\
  (exact_on_regular bicgstab -> regular_op n f ridge -> solves_ridge f ridge b (solve_bicgstab bicgstab f b ridge init)).
Proof.
  intros cg gmres bi n f b ridge init HL Hb Hi. assert (HL' := with_ridge_linear n f ridge HL).
  split; [|split]; intros HE HP.
  - destruct (HE n _ b init HL' (with_ridge_positive n f ridge HL HP) Hb Hi) as [H1 H2]. apply (solve_spec n); assumption.
  - destruct (HE n _ b init HL' (with_ridge_regular n f ridge HL HP) Hb Hi) as [H1 H2]. apply (solve_spec n); assumption.
  - destruct (HE n _ b init HL' (with_ridge_regular n f ridge HL HP) Hb Hi) as [H1 H2]. apply (solve_spec n); assumption.
Qed.
Print Assumptions C42_krylov.

(** C42: a regular system has at most one solution, so all these solvers agree. *)
Theorem C42_unique : forall n f ridge b x y, is_linear n f -> regular_op n f ridge -> length b = n ->
  solves_ridge f ridge b x -> solves_ridge f ridge b y -> x = y.
Proof.
  intros n f ridge b x y HL HR Hb [Hx Ex] [Hy Ey]. rewrite rval_eq in *. unfold regular_op in HR. rewrite rval_eq in HR.
  destruct HL as (Hl & Ha & Hs). rewrite Hb in Hx, Hy.
  assert (Hm : length (smul (-1) y) = n) by (rewrite smul_length; exact Hy).
  assert (H1 : length (vadd x (smul (-1) y)) = n) by (apply vadd_length_eq; assumption).
  assert (E : vadd x (smul (-1) y) = vzero n).
  { apply HR; [exact H1|]. rewrite Ha, Hs by assumption. assert (L1 := Hl x Hx). assert (L2 := Hl y Hy).
    apply vec_eq_dot; [rewrite vzero_length, !vadd_length, !smul_length, !vadd_length, !smul_length; unfold vec in *; lia|]. intros z.
    rewrite dot_vzero_l. assert (D1 : dot (vadd (f x) (smul (rval ridge) x)) z = dot (vadd (f y) (smul (rval ridge) y)) z) by (rewrite Ex, Ey; reflexivity).
    autorewrite with vec in *. lra. }
  apply vec_eq_dot; [unfold vec in *; lia|]. intros z.
  assert (D : dot (vadd x (smul (-1) y)) z = 0) by (rewrite E; apply dot_vzero_l). autorewrite with vec in D. lra.
Qed.
Print Assumptions C42_unique.

(** C42: any ridge > 0 makes a monotone operator regular. *)
Theorem C42_ridge_regular : forall n f r, is_linear n f -> (forall x, length x = n -> 0 <= dot x (f x)) -> 0 < r ->
  regular_op n f (Some r).
Proof.
  intros n f r HL Hm Hr x Hx E. apply sqnorm_zero_vec; [exact Hx|]. specialize (Hm x Hx).
  assert (D : dot x (vadd (f x) (smul r x)) = 0) by (rewrite E; apply dot_vzero_r). rewrite dot_vadd_r, dot_smul_r in D.
  assert (H0 := sqnorm_nonneg x). unfold sqnorm in *. nra.
Qed.
Print Assumptions C42_ridge_regular.

(** C42: solve_normal_cg solves (A'A + r I) x = A'b, and so minimises |Ax - b|^2 + r|x|^2. *)
Theorem C42_normal_cg : forall cg m n A b ridge init, exact_on_positive cg -> mat_shape m n A -> length b = m ->
  let r := match ridge with Some r => r | None => 0 end in
  0 <= r -> (r > 0 \/ forall x, length x = n -> mvec A x = vzero m -> x = vzero n) ->
  match init with Some i => length i = n | None => m = n end ->
  exists x, solve_normal_cg cg n A b ridge init = Ok x /\ length x = n /\
    vadd (tvec n A (mvec A x)) (smul r x) = tvec n A b /\
    forall y, length y = n -> sqnorm (vsub (mvec A x) b) + r * sqnorm x <= sqnorm (vsub (mvec A y) b) + r * sqnorm y.
Proof.
  intros cg m n A b ridge init HE HA Hb r Hr Hreg Hi. unfold solve_normal_cg.
  destruct (Nat.eq_dec _ n) as [_|Hn]; [|exfalso; apply Hn; destruct init; lia].
  assert (HL := normal_linear m n A HA).
  assert (HP : positive_op n (normal_matvec n A) ridge).
  { split; [intros x y Hx Hy; rewrite dot_normal, (dot_comm x), dot_normal; apply dot_comm|].
    intros x Hx Hne. fold r. rewrite dot_comm, dot_normal.
    assert (H1 := sqnorm_nonneg (mvec A x)). assert (H2 := sqnorm_nonneg x). unfold sqnorm in *.
    destruct Hreg as [Hr'|Hk].
    - assert (Hx2 : dot x x <> 0) by (intros E; apply Hne; apply sqnorm_zero_vec; assumption). nra.
    - assert (Hx2 : dot (mvec A x) (mvec A x) <> 0). { intros E. apply Hne, Hk; [exact Hx|]. apply sqnorm_zero_vec; [rewrite mvec_length; apply HA|exact E]. }
      nra. }
  assert (Lb : length (tvec n A b) = n) by (apply (tvec_length m); exact HA).
  destruct (HE n _ (tvec n A b) init (with_ridge_linear n _ ridge HL) (with_ridge_positive n _ ridge HL HP) Lb
              ltac:(destruct init; [exact Hi|exact I])) as [Hx Ex].
  set (x := cg _ _ _) in *. rewrite (with_ridge_eq n) in Ex by assumption.
  exists x. split; [reflexivity|]. split; [exact Hx|]. split; [exact Ex|]. intros y Hy.
  set (d := vsub y x).
  assert (Ld : length d = n) by (unfold d; rewrite vsub_length; unfold vec in *; lia).
  assert (Ey : y = vadd x d). { apply vec_eq_dot; [rewrite vadd_length; unfold vec in *; lia|]. intros z. unfold d. vring. }
  rewrite Ey, mvec_vadd.
  assert (Hn0 : dot d (tvec n A b) = dot (mvec A d) (mvec A x) + r * dot d x).
  { rewrite <- Ex. unfold normal_matvec. rewrite dot_vadd_r, dot_smul_r, dot_tvec_r. reflexivity. }
  rewrite dot_tvec_r in Hn0. assert (P1 := sqnorm_nonneg (mvec A d)). assert (P2 := sqnorm_nonneg d).
  assert (P3 : 0 <= r * sqnorm d) by (apply Rmult_le_pos; lra).
  unfold sqnorm in *. autorewrite with vec.
  rewrite (dot_comm b (mvec A x)), (dot_comm b (mvec A d)), (dot_comm d x), (dot_comm (mvec A x) (mvec A d)) in *. nra.
Qed.
Print Assumptions C42_normal_cg.
(** The compulsory initialisation of a non-square operator. *)
Theorem C42_normal_cg_nonsquare : forall cg m n A b ridge, mat_shape m n A -> length b = m -> m <> n ->
  solve_normal_cg cg n A b ridge None = Err TypeError.
Proof.
  intros cg m n A b ridge HA Hb Hne. unfold solve_normal_cg. destruct (Nat.eq_dec (length b) n) as [E|_]; [|reflexivity].
  exfalso. apply Hne. congruence.
Qed.
Print Assumptions C42_normal_cg_nonsquare.

(** ** Instances: every assumed solver exists (Gaussian elimination on the materialised matrix). *)
Definition gauss_krylov (f : vec -> vec) (b : vec) (_ : option vec) : vec := gauss_solve (materialize_array f (length b)) b.
Example C42_example_regular : exact_on_regular gauss_krylov.
Proof.
  intros n f b init HL HR Hb _. unfold gauss_krylov. rewrite Hb.
  assert (HN : nonsingular n (materialize_array f n)).
  { apply materialize_nonsingular; [exact HL|]. intros x Hx E. apply HR; [exact Hx|]. rewrite E, smul_0, vadd_vzero_r; [reflexivity|]. rewrite vzero_length. unfold vec in *; lia. }
  destruct (gauss_exact n _ b HN Hb) as [H1 H2]. split; [exact H1|]. rewrite <- (materialize_mvec n f HL) by exact H1. exact H2.
Qed.
Example C42_example_positive : exact_on_positive gauss_krylov.
Proof. intros n f b init HL HP. apply C42_example_regular; [exact HL|]. apply positive_regular; assumption. Qed.
Example C42_example_spd : exact_spd_solver gauss_solve.
Proof.
  intros n M b HM _ HP Hb. apply gauss_exact; [|exact Hb]. split; [exact HM|]. intros v Hv E.
  destruct (list_eq_dec Req_EM_T v (vzero n)) as [|Hne]; [assumption|]. specialize (HP v Hv Hne). rewrite E, dot_vzero_r in HP. lra.
Qed.
Example C42_example_triangular : exact_triangular gauss_solve.
Proof. intros n M b HM _ Hb. apply gauss_exact; assumption. Qed.
Definition gauss_inv (M : mat) : mat := materialize_array (gauss_solve M) (length M).
Example C42_example_inverse : exact_inverse gauss_inv.
Proof.
  intros n M b HN Hb. unfold gauss_inv. assert (HMl : length M = n) by apply HN. rewrite HMl.
  assert (HS : forall b, length b = n -> length (gauss_solve M b) = n /\ mvec M (gauss_solve M b) = b) by (intros; apply (gauss_exact n); assumption).
  assert (HL : is_linear n (gauss_solve M)).
  { split; [intros x Hx; apply HS; exact Hx|]. split.
    - intros x y Hx Hy. destruct (HS x Hx), (HS y Hy). assert (Hxy : length (vadd x y) = n) by (apply vadd_length_eq; assumption).
      destruct (HS _ Hxy). apply (nonsingular_unique n M); auto; [apply vadd_length_eq; assumption|]. rewrite mvec_vadd. congruence.
    - intros a x Hx. destruct (HS x Hx). assert (Hax : length (smul a x) = n) by (rewrite smul_length; exact Hx).
      destruct (HS _ Hax). apply (nonsingular_unique n M); auto; [rewrite smul_length; assumption|]. rewrite mvec_smul. congruence. }
  rewrite (materialize_mvec n _ HL) by exact Hb. apply HS, Hb.
Qed.
(** A rotation by a quarter turn: regular but not positive, its QR factorisation is (itself, I). *)
Definition ex_f (x : vec) : vec := mvec [[0; -1]; [1; 0]] x.
Example C42_example : is_linear 2 ex_f /\ regular_op 2 ex_f None /\ regular_op 2 ex_f (Some 1) /\
  is_qr 2 (materialize_array (with_ridge ex_f None) 2) ([[0; -1]; [1; 0]], eye 2) /\
  ~ positive_op 2 ex_f None /\
  solves_ridge ex_f (Some 1) [1; 3] [2; 1].
Proof.
  assert (HL : is_linear 2 ex_f) by (apply matrix_linear; split; [reflexivity|repeat constructor]).
  split; [exact HL|]. split; [|split; [|split; [|split]]].
  - intros [|x0 [|x1 [|]]]; try discriminate. intros _. unfold ex_f, mvec, dot, vadd, smul, vzero. simpl. intros E. injection E; intros. f_equal; [lra|f_equal; lra].
  - intros [|x0 [|x1 [|]]]; try discriminate. intros _. unfold ex_f, mvec, dot, vadd, smul, vzero. simpl. intros E. injection E; intros. f_equal; [lra|f_equal; lra].
  - split; [split; [reflexivity|repeat constructor]|]. split; [split; [reflexivity|repeat constructor]|]. split.
    { intros [|[|[|i]]] [|[|j]] H; try lia; unfold entry, eye, unit_vec; simpl; try reflexivity. all: destruct j; reflexivity. }
    split; [unfold materialize_array, mtrans, ex_f, mvec, mmul, tvec, eye, unit_vec; simpl; repeat f_equal; lra|].
    intros [|x0 [|x1 [|]]]; try discriminate. intros _. simpl. unfold dot. simpl. f_equal; [lra|f_equal; lra].
  - intros [HS _]. specialize (HS [1; 0] [0; 1] eq_refl eq_refl). unfold ex_f, mvec, dot in HS. simpl in HS. lra.
  - split; [reflexivity|]. unfold ex_f, mvec, dot, vadd, smul. simpl. f_equal; [lra|f_equal; lra].
Qed.
