(** C38, C39: implicit differentiation. *)
From Coq Require Import String Reals List Lra Lia Bool Arith Permutation.
From Verif Require Import Prelude Vec Mat LinAlg LinSolve LinSolveProofs LinSolveTheorems EqQPProofs ImplicitDiff ImplicitDiffProofs.
Import ListNotations.
Open Scope R_scope.

(** ** C38 *)
(** root_jvp returns the solution of D1 J = - (sum of D2_i v_i). *)
Theorem C38_jvp : forall solve n ps D1 D2 v, mat_shape n n D1 -> jac_ok n ps D2 -> args_ok ps v -> solves_with solve n (mvec D1) ->
  exists J, root_jvp solve n D1 D2 v = Ok J /\ length J = n /\ vadd (mvec D1 J) (jvp_args n D2 v) = vzero n.
Proof.
  intros solve n ps D1 D2 v H1 H2 Hv HS. unfold root_jvp.
  assert (E : length D2 = length v) by (rewrite <- (Forall2_length H2); apply (Forall2_length Hv)).
  destruct (Nat.eq_dec _ _) as [_|C]; [|contradiction]. rewrite jvp_args_smul.
  assert (Lj := jvp_args_length n ps D2 v H2).
  destruct (HS (smul (-1) (jvp_args n D2 v)) ltac:(rewrite smul_length; exact Lj)) as [L E'].
  eexists. split; [reflexivity|]. split; [exact L|]. rewrite E'. apply vec_eq_dot; [rewrite vadd_length, smul_length, vzero_length; unfold vec in *; lia|].
  intros w. autorewrite with vec. ring.
Qed.
Print Assumptions C38_jvp.
(** A wrong number of tangents is rejected. *)
Theorem C38_jvp_arity : forall solve n D1 D2 v, length D2 <> length v <-> root_jvp solve n D1 D2 v = Err ValueError.
Proof. intros. unfold root_jvp. destruct (Nat.eq_dec _ _); split; intros; try discriminate; try contradiction; [reflexivity|assumption]. Qed.
Print Assumptions C38_jvp_arity.

(** root_vjp is the adjoint of root_jvp, with one cotangent of the right size for each argument. *)
Theorem C38_adjoint : forall solve n ps D1 D2 v w J, mat_shape n n D1 -> jac_ok n ps D2 -> args_ok ps v -> length w = n ->
  solves_with solve n (mvec D1) -> solves_with solve n (tvec n D1) ->
  root_jvp solve n D1 D2 v = Ok J ->
  args_ok ps (root_vjp solve n D1 D2 ps w) /\ total_dot (root_vjp solve n D1 D2 ps w) v = dot w J.
Proof.
  intros solve n ps D1 D2 v w J H1 H2 Hv Hw HS HT HJ.
  destruct (C38_jvp solve n ps D1 D2 v H1 H2 Hv HS) as (J' & EJ & LJ & E). rewrite HJ in EJ. injection EJ as <-.
  unfold root_vjp. set (u := solve (tvec n D1) (smul (-1) w)).
  destruct (HT (smul (-1) w) ltac:(rewrite smul_length; exact Hw)) as [Lu Eu]. fold u in Lu, Eu. split.
  - clear -H2. unfold args_ok. induction H2 as [|p M ps D2 HM HF IH]; simpl; constructor; [apply (tvec_length n); exact HM|exact IH].
  - rewrite <- (dot_jvp_args n ps D2 v u H2) by (rewrite <- (Forall2_length H2); apply (Forall2_length Hv)).
    assert (Ed : dot u (vadd (mvec D1 J) (jvp_args n D2 v)) = 0) by (rewrite E; apply dot_vzero_r).
    rewrite dot_vadd_r, <- (dot_tvec n) in Ed by assumption. rewrite Eu in Ed. autorewrite with vec in Ed. lra.
Qed.
Print Assumptions C38_adjoint.

(** The default linear solver (conjugate gradient on the normal equations, run to an exact
    solution) solves both systems whenever D1 is nonsingular. *)
Lemma nonsingular_adjoint n M : nonsingular n M -> forall u, length u = n -> tvec n M u = vzero n -> u = vzero n.
Proof.
  intros HN u Hu E. destruct (gauss_exact n M u HN Hu) as [L Eg].
  assert (H : dot u u = 0) by (rewrite <- Eg at 2; rewrite <- (dot_tvec n) by apply HN; rewrite E; apply dot_vzero_l).
  apply (sqnorm_zero_vec n); assumption.
Qed.
Lemma normal_cg_solves cg n f : exact_on_positive cg -> is_linear n f -> (forall x, length x = n -> f x = vzero n -> x = vzero n) ->
  solves_with (normal_cg_solver cg n) n f.
Proof.
  intros HE HL HK b Hb. unfold normal_cg_solver. assert (HN := materialize_nonsingular n f HL HK).
  destruct (C42_normal_cg cg n n (materialize_array f n) b None None HE (proj1 HN) Hb ltac:(simpl; lra) (or_intror (proj2 HN)) eq_refl) as (x & Ex & Lx & _ & Hmin).
  match goal with |- context [match ?e with Ok _ => _ | Err _ => _ end] => replace e with (Ok x) by (symmetry; exact Ex) end. split; [exact Lx|]. simpl in Hmin. destruct (gauss_exact n _ b HN Hb) as [Lg Eg].
  specialize (Hmin _ Lg). rewrite Eg, vsub_self in Hmin.
  assert (Z : sqnorm (vzero (length b)) = 0) by (unfold sqnorm; apply dot_vzero_l).
  assert (Hs : sqnorm (vsub (mvec (materialize_array f n) x) b) = 0) by (assert (P := sqnorm_nonneg (vsub (mvec (materialize_array f n) x) b)); unfold vec in *; lra).
  assert (Lm : length (mvec (materialize_array f n) x) = n) by (rewrite mvec_length; apply HN).
  rewrite <- (materialize_mvec n f HL x Lx). apply vec_eq_dot; [lia|]. intros w.
  assert (Ez : vsub (mvec (materialize_array f n) x) b = vzero n) by (apply sqnorm_zero_vec; [rewrite vsub_length; unfold vec in *; lia|exact Hs]).
  assert (Ew : dot (vsub (mvec (materialize_array f n) x) b) w = 0) by (rewrite Ez; apply dot_vzero_l). rewrite dot_vsub_l in Ew. lra.
Qed.
Theorem C38_default_solver : forall cg n D1, exact_on_positive cg -> nonsingular n D1 ->
  solves_with (normal_cg_solver cg n) n (mvec D1) /\ solves_with (normal_cg_solver cg n) n (tvec n D1).
Proof.
  intros cg n D1 HE HN. split; apply normal_cg_solves; try assumption.
  - apply matrix_linear. apply HN.
  - apply HN.
  - split; [intros; apply (tvec_length n); apply HN|]. split.
    + intros x y Hx Hy. apply (tvec_vadd n). apply HN.
    + intros a x Hx. apply (tvec_smul n). apply HN.
  - exact (nonsingular_adjoint n D1 HN).
Qed.
Print Assumptions C38_default_solver.

(** Implicit function theorem.  Let F be differentiable at (sol, args) with F(sol, args) = 0 and
    nonsingular D1, and let x(t) be a continuous curve of roots of F(., args + t v) through sol.
    Then x is differentiable at 0, its derivative is root_jvp(v), and pairing with any cotangent w
    is pairing root_vjp(w) with v: the values handed to autodiff are the true derivatives of the
    solution. *)
Theorem C38_ift : forall solve n ps F sol args D1 D2 v (x : R -> vec) r,
  nonsingular n D1 -> jac_ok n ps D2 -> args_ok ps args -> args_ok ps v -> length sol = n ->
  (forall y a, length y = n -> args_ok ps a -> length (F y a) = n) ->
  frechet n ps F sol args D1 D2 -> F sol args = vzero n ->
  (forall t, length (x t) = n) -> x 0 = sol -> continuous_at_0 x ->
  0 < r -> (forall t, Rabs t < r -> F (x t) (args_move args t v) = vzero n) ->
  solves_with solve n (mvec D1) -> solves_with solve n (tvec n D1) ->
  exists J, root_jvp solve n D1 D2 v = Ok J /\ curve_derivative x J /\
    forall w, length w = n -> total_dot (root_vjp solve n D1 D2 ps w) v = dot w J.
Proof.
  intros solve n ps F sol args D1 D2 v x r HN H2 Ha Hv Hs HF Hd H0 Lx Hx0 Hc Hr Hroot HS HT.
  destruct (C38_jvp solve n ps D1 D2 v (proj1 HN) H2 Hv HS) as (J & EJ & LJ & E). exists J. split; [exact EJ|]. split.
  2:{ intros w Hw. exact (proj2 (C38_adjoint solve n ps D1 D2 v w J (proj1 HN) H2 Hv Hw HS HT EJ)). }
  destruct (nonsingular_bound n D1 HN) as (K & HK & HB).
  set (V := norm2 (concat v)). assert (HV := norm2_nonneg (concat v)). fold V in HV. assert (HJn := norm2_nonneg J).
  intros eps Heps. set (Q := 2 * K * (norm2 J + V + 1)). assert (HQ : 0 < Q) by (unfold Q; nra).
  set (e := Rmin (/ (2 * K)) (eps / Q)).
  assert (He : 0 < e) by (apply Rmin_pos; [apply Rinv_0_lt_compat; lra|apply Rdiv_lt_0_compat; assumption]).
  assert (He1 : K * e <= 1 / 2).
  { assert (B := Rmin_l (/ (2 * K)) (eps / Q)). fold e in B. apply Rle_trans with (K * / (2 * K)); [apply Rmult_le_compat_l; lra|]. right. field. lra. }
  assert (He2 : e * Q <= eps).
  { assert (B := Rmin_r (/ (2 * K)) (eps / Q)). fold e in B. apply Rle_trans with (eps / Q * Q); [apply Rmult_le_compat_r; lra|]. right. field. lra. }
  destruct (Hd e He) as (dl & Hdl & Hfr). destruct (Hc dl Hdl) as (d1 & Hd1 & Hcont).
  exists (Rmin r (Rmin d1 (dl / (V + 1)))). split; [repeat apply Rmin_pos; try assumption; apply Rdiv_lt_0_compat; lra|].
  intros t Ht. assert (Ht1 : Rabs t < r) by (eapply Rlt_le_trans; [exact Ht|apply Rmin_l]).
  assert (Ht' : Rabs t < Rmin d1 (dl / (V + 1))) by (eapply Rlt_le_trans; [exact Ht|apply Rmin_r]).
  assert (Ht2 : Rabs t < d1) by (eapply Rlt_le_trans; [exact Ht'|apply Rmin_l]).
  assert (Ht3 : Rabs t < dl / (V + 1)) by (eapply Rlt_le_trans; [exact Ht'|apply Rmin_r]).
  assert (Htp := Rabs_pos t).
  assert (Hmv : args_sub (args_move args t v) args = map (smul t) v) by (apply (args_sub_move ps); assumption).
  assert (Hnv : norm2 (concat (args_sub (args_move args t v) args)) = Rabs t * V) by (rewrite Hmv, concat_smul, norm2_smul; reflexivity).
  specialize (Hfr (x t) (args_move args t v) (Lx t) (args_move_ok ps args t v Ha Hv)).
  rewrite Hx0 in Hcont. specialize (Hfr (Hcont t Ht2)). rewrite Hnv in Hfr.
  assert (Hsm : Rabs t * V < dl).
  { apply Rmult_lt_compat_r with (r := V + 1) in Ht3; [|lra]. unfold Rdiv in Ht3. rewrite Rmult_assoc, Rinv_l in Ht3 by lra. nra. }
  specialize (Hfr Hsm). rewrite (Hroot t Ht1), H0, Hmv, jvp_args_smul in Hfr.
  set (d := vsub (x t) sol) in *. assert (Ld : length d = n) by (unfold d; rewrite vsub_length, Lx; unfold vec in *; lia).
  set (w := jvp_args n D2 v) in *. assert (Lw : length w = n) by (apply (jvp_args_length n ps); exact H2).
  set (err := vsub d (smul t J)). assert (Le : length err = n) by (unfold err; rewrite vsub_length, smul_length; unfold vec in *; lia).
  rewrite Hx0. fold d. fold err.
  assert (Lm : forall y, length (mvec D1 y) = n) by (intros; rewrite mvec_length; apply HN).
  assert (Eeq : vsub (vzero n) (vadd (vzero n) (vadd (mvec D1 d) (smul t w))) = smul (-(1)) (mvec D1 err)).
  { unfold err. rewrite mvec_vsub, mvec_smul. apply vec_eq_dot.
    - rewrite vsub_length, !vadd_length, !smul_length, vsub_length, smul_length, !Lm, !vzero_length. unfold vec in *; lia.
    - intros z. assert (Ez : dot (vadd (mvec D1 J) w) z = 0) by (rewrite E; apply dot_vzero_l). rewrite dot_vadd_l in Ez.
      autorewrite with vec. replace (dot w z) with (- dot (mvec D1 J) z) by lra. ring. }
  unfold vec in *. rewrite Eeq, norm2_smul, Rabs_Ropp, Rabs_R1, Rmult_1_l in Hfr.
  assert (Hb := HB err Le).
  assert (Hdn : norm2 d <= norm2 err + Rabs t * norm2 J).
  { assert (Edd : d = vadd err (smul t J)). { unfold err. apply vec_eq_dot; [rewrite vadd_length, vsub_length, smul_length; unfold vec in *; lia|]. intros z. vring. }
    rewrite Edd at 1. apply Rle_trans with (1 := norm2_triangle _ _). rewrite norm2_smul. lra. }
  assert (Hen := norm2_nonneg err).
  assert (S1 : norm2 err <= K * (e * (norm2 err + Rabs t * norm2 J + Rabs t * V))).
  { apply Rle_trans with (1 := Hb). apply Rmult_le_compat_l; [lra|]. apply Rle_trans with (1 := Hfr). apply Rmult_le_compat_l; lra. }
  assert (S2 : K * e * norm2 err <= 1 / 2 * norm2 err) by (apply Rmult_le_compat_r; lra).
  assert (S3 : norm2 err <= 2 * K * e * (Rabs t * (norm2 J + V))) by lra.
  assert (S4 : 2 * K * e * (Rabs t * (norm2 J + V)) <= e * Q * Rabs t).
  { unfold Q. assert (P : 0 <= 2 * K * e * Rabs t) by (apply Rmult_le_pos; [|exact Htp]; apply Rmult_le_pos; lra). lra. }
  apply Rle_trans with (1 := S3). apply Rle_trans with (1 := S4). apply Rmult_le_compat_r; assumption.
Qed.
Print Assumptions C38_ift.

(** Fixed points: F = T - x, so (I - dT/dx) J = sum of dT/dargs_i v_i. *)
Theorem C38_fixed_point : forall solve n ps J1 D2 v J, mat_shape n n J1 -> jac_ok n ps D2 -> args_ok ps v ->
  solves_with solve n (mvec (fixed_point_D1 n J1)) -> root_jvp solve n (fixed_point_D1 n J1) D2 v = Ok J ->
  length J = n /\ vsub J (mvec J1 J) = jvp_args n D2 v.
Proof.
  intros solve n ps J1 D2 v J HJ H2 Hv HS EJ.
  assert (HM : mat_shape n n (fixed_point_D1 n J1)) by (unfold fixed_point_D1; apply msub_shape; [exact HJ|apply eye_shape]).
  destruct (C38_jvp solve n ps _ D2 v HM H2 Hv HS) as (J' & EJ' & LJ & E). rewrite EJ in EJ'. injection EJ' as <-. split; [exact LJ|].
  unfold fixed_point_D1 in E. rewrite mvec_msub in E by (rewrite (proj1 HJ); symmetry; apply eye_shape). rewrite mvec_eye in E by exact LJ.
  assert (Lm : length (mvec J1 J) = n) by (rewrite mvec_length; apply HJ). assert (Lw := jvp_args_length n ps D2 v H2).
  apply vec_eq_dot; [rewrite vsub_length; unfold vec in *; lia|]. intros z.
  assert (Ez : dot (vadd (vsub (mvec J1 J) J) (jvp_args n D2 v)) z = 0) by (rewrite E; apply dot_vzero_l). autorewrite with vec in *. lra.
Qed.
Print Assumptions C38_fixed_point.
(** and the optimality function it differentiates vanishes exactly at the fixed points, with that
    Jacobian. *)
Theorem C38_fixed_point_root : forall n ps T x args J1 D2, length x = n ->
  (forall y a, length y = n -> args_ok ps a -> length (T y a) = n) -> args_ok ps args -> mat_shape n n J1 ->
  (fixed_point_optimality T x args = vzero n <-> T x args = x) /\
  (frechet n ps T x args J1 D2 -> frechet n ps (fixed_point_optimality T) x args (fixed_point_D1 n J1) D2).
Proof.
  intros n ps T x args J1 D2 Hx HT Ha HJ. split.
  - unfold fixed_point_optimality. assert (LT := HT x args Hx Ha). split; intros E.
    + apply vec_eq_dot; [unfold vec in *; lia|]. intros w. assert (Ew : dot (vsub (T x args) x) w = 0) by (rewrite E; apply dot_vzero_l). rewrite dot_vsub_l in Ew. lra.
    + rewrite E, vsub_self. f_equal. exact Hx.
  - intros Hf eps He. destruct (Hf eps He) as (dl & Hdl & H). exists dl. split; [exact Hdl|]. intros y a Hy Haa B1 B2. specialize (H y a Hy Haa B1 B2).
    eapply Rle_trans; [|exact H]. right. f_equal. unfold fixed_point_optimality, fixed_point_D1.
    rewrite mvec_msub by (rewrite (proj1 HJ); symmetry; apply eye_shape).
    assert (LT := HT x args Hx Ha). assert (LT' := HT y a Hy Haa).
    rewrite mvec_eye by (rewrite vsub_length; unfold vec in *; lia).
    assert (Lm : forall z, length (mvec J1 z) = n) by (intros; rewrite mvec_length; apply HJ).
    apply vec_eq_dot; [rewrite !vsub_length, !vadd_length, !vsub_length, Lm; unfold vec in *; lia|]. intros w. vring.
Qed.
Print Assumptions C38_fixed_point_root.

(** ** C39 *)
(** The forward call: the decorated solver is called with exactly the bound arguments. *)
Theorem C39_forward : forall V (sig : list (param V)) args kw,
  wrapped_call sig args kw = signature_bind sig args kw.
Proof.
  intros V sig args kw. unfold wrapped_call. destruct (signature_bind sig args kw) as [[a k]|e]; [|reflexivity]. f_equal.
  unfold extract_kwargs. rewrite app_length, !map_length. replace (length a + length k - length k)%nat with (length a) by lia.
  rewrite firstn_app, Nat.sub_diag, firstn_all, firstn_O, app_nil_r. rewrite skipn_app, Nat.sub_diag, skipn_all, skipn_O. simpl. f_equal.
  induction k as [|[x y] k IH]; simpl; [reflexivity|]. f_equal. exact IH.
Qed.
Print Assumptions C39_forward.

(** Re-ordering and its inverse.  When every argument resolves to a position, there is one output
    argument per input argument; positional arguments keep their places, and a keyword argument
    goes to the place of the parameter of that name.  map_back returns what was computed for an
    output place to the argument that went there. *)
Theorem C39_match : forall V D G (sig : list (param D)) (args : list V) kw out mapping (gs : list G), sig_ok sig -> NoDup (map fst kw) ->
  signature_bind_and_match sig args kw = Ok (out, [], mapping) -> length gs = length out ->
  length out = (length args + length kw)%nat /\
  (forall i, (i < length args)%nat -> nth_error out i = nth_error args i /\
     nth_error (fst (map_back (length args) mapping gs)) i = option_map Some (nth_error gs i)) /\
  length (fst (map_back (length args) mapping gs)) = length args /\
  (forall k, In k (map fst kw) -> exists p prm, nth_error sig p = Some prm /\ p_name prm = k /\ p_kind prm = PosOrKw /\
     (length args <= p)%nat /\ nth_error out p = lookup k kw /\ lookup k (snd (map_back (length args) mapping gs)) = nth_error gs p /\ (p < length out)%nat).
Proof.
  intros V D G sig args kw out mapping gs Hs Hnd H Hg. destruct (match_shape sig args kw out mapping Hs H) as (l & -> & -> & M & Hcov).
  assert (Hl : NoDup (map fst l)).
  { apply (matched_nodup kw (skipn (length args) sig)); [|exact M]. destruct Hs as [Hs _]. rewrite <- (firstn_skipn (length args) sig), map_app in Hs.
    revert Hs. generalize (map p_name (firstn (length args) sig)). intros pre. induction pre; simpl; intros Hp; [exact Hp|]. inversion Hp; auto. }
  assert (Ll : length l = length kw).
  { rewrite <- (map_length fst l), <- (map_length fst kw). apply Nat.le_antisymm.
    - apply NoDup_incl_length; [exact Hl|]. intros k Hk. apply in_map_iff in Hk. destruct Hk as ([k0 v] & <- & Hin). destruct M as (_ & _ & M). rewrite Forall_forall in M.
      specialize (M _ Hin). simpl in M. simpl. destruct (in_dec string_dec k0 (map fst kw)) as [|C]; [assumption|]. rewrite lookup_not_in in M by exact C. discriminate.
    - apply NoDup_incl_length; [exact Hnd|]. exact Hcov. }
  rewrite app_length, map_length in Hg. split; [rewrite app_length, map_length; lia|].
  rewrite <- (firstn_skipn (length args) gs).
  assert (L1 : length (firstn (length args) gs) = length args) by (rewrite firstn_length; lia).
  assert (L2 : length (map fst l) = length (skipn (length args) gs)) by (rewrite skipn_length, map_length; lia).
  rewrite map_back_spec by assumption. cbn [fst snd]. split; [|split].
  - intros i Hi. split; [apply nth_error_app1; exact Hi|]. rewrite nth_error_map, nth_error_app1 by (rewrite L1; exact Hi). reflexivity.
  - rewrite map_length. exact L1.
  - intros k Hk. specialize (Hcov k Hk). apply In_nth_error in Hcov. destruct Hcov as (j & Hj).
    assert (Hjl : (j < length l)%nat) by (rewrite <- (map_length fst l); apply nth_error_Some; rewrite Hj; discriminate).
    destruct M as (M1 & M2 & M3).
    assert (Hp : exists prm, nth_error (skipn (length args) sig) j = Some prm /\ p_name prm = k).
    { rewrite M1 in Hj. assert (Hj' : nth_error (map p_name (skipn (length args) sig)) j = Some k).
      { rewrite <- (firstn_skipn (length l) (map p_name (skipn (length args) sig))). rewrite nth_error_app1; [exact Hj|]. apply nth_error_Some. rewrite Hj. discriminate. }
      rewrite nth_error_map in Hj'. destruct (nth_error (skipn (length args) sig) j) as [prm|]; [|discriminate]. injection Hj' as Hj'. eauto. }
    destruct Hp as (prm & Hp & Hn).
    exists (length args + j)%nat, prm.
    assert (Hps : nth_error sig (length args + j) = Some prm).
    { rewrite <- (firstn_skipn (length args) sig). assert (Lf : length (firstn (length args) sig) = length args).
      { rewrite firstn_length. destruct (Nat.le_gt_cases (length args) (length sig)); [lia|]. rewrite skipn_all2 in Hp by lia. destruct j; discriminate. }
      rewrite nth_error_app2 by lia. rewrite Lf. replace (length args + j - length args)%nat with j by lia. exact Hp. }
    split; [exact Hps|]. split; [exact Hn|]. split.
    { rewrite Forall_forall in M2. apply M2. apply nth_error_In with (n := j). 
      assert (E : nth_error (map p_kind (skipn (length args) sig)) j = Some (p_kind prm)) by (rewrite nth_error_map, Hp; reflexivity).
      rewrite <- (firstn_skipn (length l) (map p_kind (skipn (length args) sig))) in E. rewrite nth_error_app1 in E; [exact E|].
      rewrite firstn_length. apply Nat.min_glb_lt; [exact Hjl|]. apply nth_error_Some. rewrite <- (firstn_skipn (length l) (map p_kind (skipn (length args) sig))), E. discriminate. }
    split; [lia|]. rewrite nth_error_map in Hj. destruct (nth_error l j) as [[k0 v0]|] eqn:El; [|discriminate]. simpl in Hj. injection Hj as ->.
    split.
    { rewrite nth_error_app2 by lia. replace (length args + j - length args)%nat with j by lia. rewrite nth_error_map, El. simpl.
      rewrite Forall_forall in M3. symmetry. exact (M3 _ (nth_error_In _ _ El)). }
    split.
    { rewrite nth_error_app2 by lia. rewrite L1. replace (length args + j - length args)%nat with j by lia.
      destruct (nth_error (skipn (length args) gs) j) as [g|] eqn:Eg.
      - apply (lookup_rev_combine (map fst l) _ j); [exact Hl|exact L2|rewrite nth_error_map, El; reflexivity|exact Eg].
      - exfalso. apply nth_error_None in Eg. rewrite <- L2, map_length in Eg. lia. }
    rewrite app_length, map_length. lia.
Qed.
Print Assumptions C39_match.

(** The backward pass.  [vjp] is what root_vjp computes for the list of arguments after the first,
    one per argument.  If the pass succeeds, then for some ordering [out] of the flat arguments
    along the reference signature: a positional argument at place i gets the gradient of place i
    (None, i.e. zero, for the initial parameters), and the keyword argument k gets the gradient of
    the place of the parameter named k. *)
Theorem C39_gradients : forall V D G (sig : list (param D)) (vjp : list V -> list G) keys flat gs, sig_ok sig -> NoDup keys ->
  (length keys <= length flat)%nat -> flat <> [] -> (forall a, length (vjp a) = length a) ->
  solver_fun_bwd sig vjp keys flat = Ok gs ->
  let nargs := (length flat - length keys)%nat in
  exists out, length out = length flat /\ length gs = length flat /\
    let grads := None :: map Some (vjp (tl out)) in
    (forall i, (i < nargs)%nat -> nth_error out i = nth_error flat i /\ nth_error gs i = nth_error grads i) /\
    (forall j k, nth_error keys j = Some k -> exists p prm, nth_error sig p = Some prm /\ p_name prm = k /\ (nargs <= p < length out)%nat /\
       nth_error out p = nth_error flat (nargs + j) /\ nth_error gs (nargs + j) = nth_error grads p).
Proof.
  intros V D G sig vjp keys flat gs Hs Hnd Hle Hne Hv H nargs. unfold solver_fun_bwd, extract_kwargs in H. fold nargs in H.
  set (args := firstn nargs flat) in *. set (kw := combine keys (skipn nargs flat)) in *.
  assert (La : length args = nargs) by (unfold args, nargs; rewrite firstn_length; lia).
  assert (Lsk : length (skipn nargs flat) = length keys) by (rewrite skipn_length; unfold nargs; lia).
  assert (Ek : map fst kw = keys).
  { unfold kw. revert Lsk. generalize (skipn nargs flat). clear. induction keys as [|k keys IH]; intros [|x xs] E; try discriminate; [reflexivity|]. simpl. f_equal. apply IH. simpl in E. lia. }
  destruct (signature_bind_and_match sig args kw) as [[[out ok] mapping]|] eqn:Em; [|discriminate]. destruct ok; [|discriminate].
  exists out.
  assert (Hnd' : NoDup (map fst kw)) by (rewrite Ek; exact Hnd).
  set (grads := None :: map Some (vjp (tl out))) in *.
  assert (Lo : length out = length flat).
  { destruct (C39_match V D V sig args kw out mapping out Hs Hnd' Em eq_refl) as (L & _). rewrite L, La. unfold kw. rewrite combine_length, Lsk. unfold nargs. lia. }
  assert (Lg : length grads = length out).
  { unfold grads. simpl. rewrite map_length, Hv. destruct out; simpl; [|reflexivity]. destruct flat; [contradiction|discriminate]. }
  destruct (C39_match V D (option G) sig args kw out mapping grads Hs Hnd' Em Lg) as (_ & P1 & P2 & P3).
  destruct (map_back (length args) mapping grads) as [av kv] eqn:Eb. cbn [fst snd] in *.
  destruct (forallb _ _) eqn:Ef; [|discriminate]. injection H as <-.
  split; [exact Lo|]. split; [rewrite app_length, !map_length, P2, La; rewrite <- (map_length fst kw), Ek; unfold nargs; lia|]. cbv zeta. split.
  - intros i Hi. destruct (P1 i ltac:(lia)) as [E1 E2]. split.
    + rewrite E1. unfold args. rewrite <- (firstn_skipn nargs flat) at 2. rewrite nth_error_app1 by (fold args; lia). reflexivity.
    + rewrite nth_error_app1 by (rewrite map_length; lia). rewrite nth_error_map, E2. destruct (nth_error grads i); reflexivity.
  - intros j k Hj. destruct (P3 k) as (p & prm & Q1 & Q2 & Q3 & Q4 & Q5 & Q6 & Q7); [rewrite Ek; exact (nth_error_In _ _ Hj)|].
    exists p, prm. split; [exact Q1|]. split; [exact Q2|]. split; [lia|]. split.
    + rewrite Q5. rewrite <- (firstn_skipn nargs flat). rewrite nth_error_app2 by (fold args; lia). fold args. rewrite La. replace (nargs + j - nargs)%nat with j by lia.
      unfold kw. clear -Hj Hnd Lsk. revert j Hj Lsk Hnd. generalize (skipn nargs flat). clear. intros xs. revert keys. induction xs as [|x xs IH]; intros [|k0 keys] j Hj E Hnd; try discriminate; [destruct j; discriminate|].
      inversion Hnd as [|? ? Hni Hnd']; subst. simpl. destruct j as [|j]; simpl in *.
      * injection Hj as ->. destruct (string_dec k k) as [|C]; [reflexivity|contradiction].
      * destruct (string_dec k k0) as [->|]; [exfalso; apply Hni; exact (nth_error_In _ _ Hj)|]. apply IH; [exact Hj|lia|exact Hnd'].
    + rewrite nth_error_app2 by (rewrite map_length; lia). rewrite map_length, P2, La. replace (nargs + j - nargs)%nat with j by lia. rewrite Ek, nth_error_map, Hj. simpl.
      rewrite Q6. destruct (nth_error grads p) eqn:Ep; [reflexivity|]. apply nth_error_None in Ep. lia.
Qed.
Print Assumptions C39_gradients.

(** Exactly which calls can be differentiated: those where the keyword arguments are the
    parameters following the positional ones; everything else is a TypeError. *)
Lemma bind_kw_err V D (ps : list (param D)) : forall (kw : list (string * V)) e, kinds_ok (map p_kind ps) -> bind_kw ps kw = Err e -> e = TypeError.
Proof.
  induction ps as [|p ps IH]; intros kw e Hk H.
  - simpl in H. destruct kw; congruence.
  - assert (Hk' := kinds_ok_tl _ _ Hk). simpl in H. destruct (p_kind p) eqn:Ekd.
    + destruct (lookup _ kw).
      * destruct (bind_kw ps (remove_key (p_name p) kw)) eqn:E; [discriminate|]. injection H as <-. exact (IH _ _ Hk' E).
      * destruct (p_default p); [|congruence]. destruct (bind_kw ps kw) eqn:E; [discriminate|]. injection H as <-. exact (IH _ _ Hk' E).
    + destruct (bind_kw ps kw) eqn:E; [discriminate|]. injection H as <-. exact (IH _ _ Hk' E).
    + destruct (lookup _ kw).
      * destruct (bind_kw ps (remove_key (p_name p) kw)) eqn:E; [discriminate|]. injection H as <-. exact (IH _ _ Hk' E).
      * destruct (p_default p); [|congruence]. destruct (bind_kw ps kw) eqn:E; [discriminate|]. injection H as <-. exact (IH _ _ Hk' E).
    + destruct ps; [discriminate|]. exfalso. simpl in Hk. destruct Hk as [HF _]. apply Forall_inv in HF. destruct HF as (_ & _ & C). exact (C Ekd).
Qed.
Lemma bind_err V D (ps : list (param D)) : forall (args : list V) kw e, kinds_ok (map p_kind ps) -> bind ps args kw = Err e -> e = TypeError.
Proof.
  induction ps as [|p ps IH]; intros args kw e Hk H.
  - destruct args; simpl in H; [destruct kw; congruence|congruence].
  - destruct args as [|a args]; [exact (bind_kw_err _ _ _ _ _ Hk H)|]. assert (Hk' := kinds_ok_tl _ _ Hk). simpl in H. destruct (p_kind p); try congruence.
    + destruct (lookup _ kw); [congruence|]. destruct (bind ps args kw) eqn:E; [discriminate|]. injection H as <-. exact (IH _ _ _ Hk' E).
    + destruct (bind_kw ps kw) eqn:E; [discriminate|]. injection H as <-. exact (bind_kw_err _ _ _ _ _ Hk' E).
Qed.
Theorem C39_resolvable : forall V D G (sig : list (param D)) (vjp : list V -> list G) keys flat, sig_ok sig -> NoDup keys ->
  (length keys <= length flat)%nat -> flat <> [] -> (forall a, length (vjp a) = length a) ->
  let nargs := (length flat - length keys)%nat in
  (resolvable sig nargs keys -> exists gs, solver_fun_bwd sig vjp keys flat = Ok gs) /\
  (~ resolvable sig nargs keys -> solver_fun_bwd sig vjp keys flat = Err TypeError).
Proof.
  intros V D G sig vjp keys flat Hs Hnd Hle Hne Hv nargs. unfold solver_fun_bwd, extract_kwargs. fold nargs.
  set (args := firstn nargs flat) in *. set (kw := combine keys (skipn nargs flat)) in *.
  assert (La : length args = nargs) by (unfold args, nargs; rewrite firstn_length; lia).
  assert (Lsk : length (skipn nargs flat) = length keys) by (rewrite skipn_length; unfold nargs; lia).
  assert (Ek : map fst kw = keys).
  { unfold kw. revert Lsk. generalize (skipn nargs flat). clear. induction keys as [|k keys IH]; intros [|x xs] E; try discriminate; [reflexivity|]. simpl. f_equal. apply IH. simpl in E. lia. }
  assert (Lt : length (tag_args args) = nargs) by (unfold tag_args; rewrite combine_length, map_length, seq_length; lia).
  assert (Et : map fst (tag_kwargs kw) = keys) by (unfold tag_kwargs; rewrite map_map; simpl; exact Ek).
  split.
  - intros (ps1 & ps2 & ps3 & Es & HF & HP & HO & HL).
    assert (Hk3 : kinds_ok (map p_kind ps3)).
    { destruct Hs as [_ Hk]. rewrite Es, !map_app in Hk. apply kinds_ok_app in Hk. apply kinds_ok_app in Hk. exact Hk. }
    destruct (bind_complete ps1 ps2 ps3 (tag_args args) (tag_kwargs kw)) as (b & Eb & E).
    + rewrite <- Es. apply Hs.
    + exact Hk3.
    + exact HF.
    + rewrite Et. exact HP.
    + exact HO.
    + rewrite Lt. destruct HL as [HL|(HL & HK & Q)]; [left; exact HL|right]. split; [exact HL|]. split; [|exact Q]. apply map_eq_nil with (f := fst). rewrite Et. exact HK.
    + rewrite <- Es in Eb.
      assert (Em : signature_bind_and_match sig args kw = Ok (map snd (ba_args b), [], map fst (ba_args b))) by (unfold signature_bind_and_match; rewrite Eb, E; reflexivity).
      rewrite Em. set (out := map snd (ba_args b)) in *. set (mapping := map fst (ba_args b)) in *.
      assert (Hnd' : NoDup (map fst kw)) by (rewrite Ek; exact Hnd).
      set (grads := None :: map Some (vjp (tl out))) in *.
      assert (Lo : length out = length flat).
      { destruct (C39_match V D V sig args kw out mapping out Hs Hnd' Em eq_refl) as (L & _). rewrite L, La. unfold kw. rewrite combine_length, Lsk. unfold nargs. lia. }
      assert (Lg : length grads = length out).
      { unfold grads. simpl. rewrite map_length, Hv. destruct out; simpl; [|reflexivity]. destruct flat; [contradiction|discriminate]. }
      destruct (C39_match V D (option G) sig args kw out mapping grads Hs Hnd' Em Lg) as (_ & P1 & P2 & P3).
      destruct (map_back (length args) mapping grads) as [av kv]. cbn [fst snd] in *.
      assert (Ef : forallb (fun k => match lookup k kv with Some _ => true | None => false end) (map fst kw) = true).
      { apply forallb_forall. intros k Hk. destruct (P3 k Hk) as (p & _ & _ & _ & _ & _ & _ & Q & Hp). rewrite Q.
        destruct (nth_error grads p) eqn:Ep; [reflexivity|]. apply nth_error_None in Ep. lia. }
      rewrite Ef. eexists. reflexivity.
  - intros Hnr. destruct (signature_bind_and_match sig args kw) as [[[out ok] mapping]|e] eqn:Em.
    + destruct ok as [|x ok]; [|reflexivity]. exfalso. apply Hnr. unfold signature_bind_and_match in Em. destruct (bind sig (tag_args args) (tag_kwargs kw)) as [b|] eqn:Eb; [|discriminate].
      injection Em as _ E2 _. apply map_eq_nil in E2. assert (HR := bind_resolved sig _ _ b (proj2 Hs) Eb E2). rewrite Lt, Et in HR. exact HR.
    + unfold signature_bind_and_match in Em. destruct (bind sig (tag_args args) (tag_kwargs kw)) as [b|] eqn:Eb; [discriminate|]. injection Em as <-.
      f_equal. exact (bind_err _ _ _ _ _ _ (proj2 Hs) Eb).
Qed.
Print Assumptions C39_resolvable.

(** Consequence, against what the error message says: no catch-all **kwargs is needed to get the
    TypeError.  For optimality_fun(params, a=1.0, b=2.0), a gradient with respect to a keyword
    argument b alone fails although solver and optimality functions agree on the signature. *)
Definition two_defaults : list (param nat) :=
  [ {| p_name := "params"%string; p_kind := PosOrKw; p_default := None |};
    {| p_name := "a"%string; p_kind := PosOrKw; p_default := Some 1%nat |};
    {| p_name := "b"%string; p_kind := PosOrKw; p_default := Some 2%nat |} ].
Theorem C39_skipped_default_refuted :
  sig_ok two_defaults /\ Forall (fun p => p_kind p = PosOrKw) two_defaults /\
  (exists r, signature_bind two_defaults [7]%nat [("b"%string, 5%nat)] = Ok r) /\
  forall G (vjp : list nat -> list G), solver_fun_bwd two_defaults vjp ["b"%string] [7; 5]%nat = Err TypeError.
Proof.
  split; [|split; [repeat constructor|split; [eexists; reflexivity|reflexivity]]].
  split; [|simpl; repeat (constructor; try (split; [lia|split; intros C; discriminate C]))].
  simpl. repeat constructor; simpl; intuition discriminate.
Qed.
Print Assumptions C39_skipped_default_refuted.
(** C39's hypotheses: keywords in an order other than the signature's; each gets its own gradient. *)
Example C39_example : solver_fun_bwd two_defaults (map (fun x => (10 * x)%nat)) ["b"; "a"]%string [7; 5; 6]%nat = Ok [None; Some 50; Some 60]%nat.
Proof. reflexivity. Qed.
Example C39_example_args : solver_fun_bwd [ {| p_name := "params"%string; p_kind := PosOrKw; p_default := None |}; {| p_name := "args"%string; p_kind := VarPos; p_default := @None nat |} ]
  (map (fun x => (10 * x)%nat)) [] [7; 5; 6]%nat = Ok [None; Some 50; Some 60]%nat.
Proof. reflexivity. Qed.

(** C38's hypotheses: F(x, a) = 2 x - a on R^1, whose root a/2 has derivative 1/2. *)
Example C38_example : root_jvp (fun f b => gauss_krylov f b None) 1 [[2]] [[[-1]]] [[1]] = Ok [1/2] /\
  nonsingular 1 [[2]] /\ jac_ok 1 [1%nat] [[[-1]]] /\
  frechet 1 [1%nat] (fun x a => vsub (smul 2 x) (nth 0 a [])) [1] [[2]] [[2]] [[[-1]]].
Proof.
  assert (HN : nonsingular 1 [[2]]).
  { split; [repeat constructor|]. intros [|a [|]] L E; try discriminate. cbv in E. injection E as E. cbv. f_equal. lra. }
  split; [|split; [exact HN|split]].
  - assert (HS : solves_with (fun f b => gauss_krylov f b None) 1 (mvec [[2]])).
    { intros b Hb. assert (HL := matrix_linear 1 [[2]] (proj1 HN)).
      destruct (C42_example_regular 1%nat (mvec [[2]]) b None HL) as [L E].
      - intros x Hx E. apply (proj2 HN x Hx). rewrite <- E. apply vec_eq_dot; [rewrite vadd_length, smul_length, mvec_length, Hx; reflexivity|]. intros w. autorewrite with vec. ring.
      - exact Hb.
      - exact I.
      - split; assumption. }
    destruct (C38_jvp (fun f b => gauss_krylov f b None) 1 [1%nat] [[2]] [[[-1]]] [[1]] (proj1 HN)) as (J & E & L & Hj).
    + repeat constructor.
    + repeat constructor.
    + exact HS.
    + rewrite E. f_equal. destruct J as [|j [|]]; try discriminate. cbv in Hj. injection Hj as Hj. f_equal. lra.
  - repeat constructor.
  - intros eps He. exists 1. split; [lra|]. intros x a Hx Ha _ _. destruct x as [|x [|]]; try discriminate. inversion Ha as [|? a0 ? a' La Ha']; subst. inversion Ha'; subst.
    destruct a0 as [|a0 [|]]; try discriminate.
    match goal with |- norm2 ?z <= _ => assert (Ez : z = vzero 1) by (cbv; f_equal; ring) end.
    rewrite Ez. assert (Zn : norm2 (vzero 1) = 0) by (apply norm2_zero_iff; reflexivity). rewrite Zn.
    apply Rmult_le_pos; [lra|]. apply Rplus_le_le_0_compat; apply norm2_nonneg.
Qed.
