(** C58: auxiliary outputs of the proximal-gradient family, selection at the end of a run, options of ProjectedGradient. *)
From Coq Require Import String.
From Coq Require Import Reals List ZArith Lra Lia Bool Arith FunctionalExtensionality.
From Verif Require Import Prelude Vec Loop Run Base BaseTheorems Pytree PytreeProofs Zoom ProxGrad AuxOut AuxOutProofs.
Import ListNotations.
Open Scope R_scope.

(** The selection that ends every run keeps the final state, whatever containers, shapes and Nones it has, as
    long as the initial state had the same containers and shapes (or None). *)
Theorem C58_select : forall x y, keeps x y -> where_step false x y = Ok y.
Proof. intros x y H. apply where_selects. apply keeps_selects_false. exact H. Qed.
Print Assumptions C58_select.
(** With maxiter = 0 it keeps the initial state. *)
Theorem C58_select_initial : forall x y, keeps x y -> no_none x -> where_step true x y = Ok x.
Proof. intros x y H N. apply where_selects. apply keeps_selects_true; assumption. Qed.
Print Assumptions C58_select_initial.
(** None stays None *)
Theorem C58_select_vnone : forall c, where_step c none none = Ok none.
Proof. reflexivity. Qed.
Print Assumptions C58_select_vnone.
(** A field that is an array at the start and a non-empty container at the end makes the run fail. *)
Theorem C58_select_container : forall c a k y ys, where_step c (Leaf a) (Node k (y :: ys)) = Err TypeError.
Proof. reflexivity. Qed.
Print Assumptions C58_select_container.

(** After a run of ProximalGradient (prox_none: GradientDescent) with value_and_grad = False, or without aux,
    state.aux is the auxiliary output at the point where the last update evaluated the objective: the parameters
    before that update, or the extrapolated point when acceleration is on.  The parameters and the rest of the state
    are those of the run without aux. *)
Theorem C58_aux : forall cfg gradient (u : objective) prox x0,
  value_only u \/ has_aux u = false -> user_consistent u ->
  (forall z, keeps (aux_tree (user_aux u x0)) (aux_tree (user_aux u z))) -> (0 < pg_maxiter cfg)%nat ->
  exists k, (1 <= k <= pg_maxiter cfg)%nat /\
    let upd := pg_update cfg (user_value u) (user_grad gradient u) prox in
    pg_run_aux cfg gradient u prox x0 =
      Ok (Nat.iter k upd (x0, pg_init cfg x0), aux_tree (user_aux u (eval_point cfg (Nat.iter (k - 1) upd (x0, pg_init cfg x0))))) /\
    pg_run cfg (user_value u) (user_grad gradient u) prox x0 = Nat.iter k upd (x0, pg_init cfg x0).
Proof.
  intros cfg gradient u prox x0 HV HC HK HM.
  assert (Ef : pg_f gradient u = user_value u) by (apply functional_extensionality; intros; apply pg_f_user; exact HC).
  assert (Eg : pg_g gradient u = user_grad gradient u) by (apply functional_extensionality; intros; apply pg_g_user; exact HC).
  assert (E0 : pg_init_aux u x0 = Ok (aux_tree (user_aux u x0))).
  { unfold pg_init_aux. destruct u as [f|f|f|f|f v|f v]; cbn [has_aux]; try reflexivity; try (destruct HV as [[]|HV]; discriminate HV). cbn [raw_call user_aux aux_tree]. destruct (f x0) as [v a]. reflexivity. }
  destruct (run_aux cfg gradient u prox _ x0 HC E0 HM) as (k & Hk & Hr & Ha). rewrite Ef, Eg in Hr, Ha. exists k. split; [exact Hk|]. cbn zeta. split; [|exact Hr].
  rewrite Ha, C58_select by apply HK. reflexivity.
Qed.
Print Assumptions C58_aux.

(** The point named in [C58_aux]: the current parameters without acceleration, the extrapolated point stored in the
    state with it; in both cases the point whose value and gradient the update uses. *)
Theorem C58_eval_point : forall cfg f g prox x0 k, let upd := pg_update cfg f g prox in let step := Nat.iter k upd (x0, pg_init cfg x0) in
  (acceleration cfg = false -> eval_point cfg step = fst step) /\
  (acceleration cfg = true -> pg_velocity (snd step) = Some (eval_point cfg step)) /\
  fst (upd step) = fst (pg_iter_step cfg f prox (pg_iter (snd step)) (eval_point cfg step) (f (eval_point cfg step)) (g (eval_point cfg step)) (pg_step (snd step))).
Proof.
  intros cfg f g prox x0 k upd step. unfold eval_point.
  assert (V : acceleration cfg = true -> exists y, pg_velocity (snd step) = Some y).
  { intros E. subst step. destruct k as [|k]; [cbn; rewrite E; eauto|]. change (exists y, pg_velocity (snd (upd (Nat.iter k upd (x0, pg_init cfg x0)))) = Some y). destruct (Nat.iter k upd (x0, pg_init cfg x0)) as [x s].
    unfold upd, pg_update. rewrite E. unfold pg_update_accel. match goal with |- context [let (_, _) := ?t in _] => destruct t end. cbn. eauto. }
  clearbody step. unfold upd, pg_update. destruct (acceleration cfg) eqn:E.
  - destruct (V eq_refl) as (y & Ey). rewrite Ey. repeat split; try discriminate. destruct step as [x s]. cbn [snd fst] in *. unfold pg_update_accel. rewrite Ey. match goal with |- context [let (_, _) := ?t in _] => destruct t end. reflexivity.
  - repeat split; try discriminate. destruct step as [x s]. cbn [snd fst]. unfold pg_update_plain. match goal with |- context [let (_, _) := ?t in _] => destruct t end. reflexivity.
Qed.
Print Assumptions C58_eval_point.

(** maxiter = 0: the auxiliary output at the initial parameters. *)
Theorem C58_aux_zero : forall cfg gradient (u : objective) prox x0,
  value_only u \/ has_aux u = false -> user_consistent u ->
  (forall z, keeps (aux_tree (user_aux u x0)) (aux_tree (user_aux u z))) -> (has_aux u = true -> no_none (aux_tree (user_aux u x0))) ->
  pg_maxiter cfg = 0%nat -> pg_run_aux cfg gradient u prox x0 = Ok ((x0, pg_init cfg x0), aux_tree (user_aux u x0)).
Proof.
  intros cfg gradient u prox x0 HV HC HK HN HM. unfold pg_run_aux. rewrite HM. cbn [Nat.eqb Nat.sub python_for].
  assert (E0 : pg_init_aux u x0 = Ok (aux_tree (user_aux u x0))).
  { unfold pg_init_aux. destruct u as [f|f|f|f|f v|f v]; cbn [has_aux]; try reflexivity; try (destruct HV as [[]|HV]; discriminate HV). cbn [raw_call user_aux aux_tree]. destruct (f x0) as [v a]. reflexivity. }
  rewrite E0. unfold pg_update_aux. cbn [snd fst]. rewrite make_aux by exact HC. destruct (has_aux u) eqn:EA.
  - rewrite C58_select_initial by auto. reflexivity.
  - assert (EN : forall z, user_aux u z = None) by (intros z; destruct u; cbn in EA |- *; try discriminate; reflexivity). rewrite !EN. cbn [aux_tree]. rewrite C58_select_vnone. reflexivity.
Qed.
Print Assumptions C58_aux_zero.

(** value_and_grad = True together with has_aux = True: [init_state] stores the gradient at the initial parameters as
    aux. *)
Theorem C58_vg_init : forall f x0, pg_init_aux (VGTrueAux f) x0 = Ok (arr_of (snd (f x0))).
Proof. intros f x0. unfold pg_init_aux. cbn [has_aux raw_call]. destruct (f x0) as [[v a] g]. reflexivity. Qed.
Print Assumptions C58_vg_init.
(** Then a container as auxiliary output makes every run fail, *)
Theorem C58_vg_container : forall cfg gradient f prox x0, (forall z, exists k y ys, snd (fst (f z)) = Node k (y :: ys)) ->
  pg_run_aux cfg gradient (VGTrueAux f) prox x0 = Err TypeError.
Proof.
  intros cfg gradient f prox x0 H. unfold pg_run_aux. rewrite C58_vg_init. cbv zeta.
  match goal with |- context [where_step ?c ?a (snd ?m)] => assert (E : exists k y ys, snd m = Node k (y :: ys)) end.
  { set (c := fun st : (vec * pg_state) * ptree => xgtb (pg_error (snd (fst st))) (pg_tol cfg)).
    destruct (python_for_spec c (pg_update_aux cfg gradient (VGTrueAux f) prox) (pg_maxiter cfg - 1) (pg_update_aux cfg gradient (VGTrueAux f) prox (x0, pg_init cfg x0, arr_of (snd (f x0))))) as (j & _ & Er & _).
    rewrite iter_shift in Er. rewrite Er, iter_snd by exact I. cbn [user_aux aux_tree]. apply H. }
  destruct E as (k & y & ys & ->). reflexivity.
Qed.
Print Assumptions C58_vg_container.
(** an array is returned correctly exactly when it has the shape of the gradient or the gradient is a scalar, *)
Theorem C58_vg_array : forall cfg gradient f prox x0, (0 < pg_maxiter cfg)%nat ->
  (forall z, exists b, snd (fst (f z)) = Leaf b /\ shape b = [length (snd (f x0))] /\ length (data b) = length (snd (f x0))) ->
  exists k, (1 <= k <= pg_maxiter cfg)%nat /\
    let upd := pg_update cfg (fun z => fst (fst (f z))) (fun z => snd (f z)) prox in
    pg_run_aux cfg gradient (VGTrueAux f) prox x0 = Ok (Nat.iter k upd (x0, pg_init cfg x0), snd (fst (f (eval_point cfg (Nat.iter (k - 1) upd (x0, pg_init cfg x0)))))).
Proof.
  intros cfg gradient f prox x0 HM H.
  assert (Ef : pg_f gradient (VGTrueAux f) = (fun z => fst (fst (f z)))) by (apply functional_extensionality; intros; apply pg_f_user; exact I).
  assert (Eg : pg_g gradient (VGTrueAux f) = (fun z => snd (f z))) by (apply functional_extensionality; intros; apply pg_g_user; exact I).
  destruct (run_aux cfg gradient (VGTrueAux f) prox _ x0 I (C58_vg_init f x0) HM) as (k & Hk & _ & Ha). rewrite Ef, Eg in Ha. exists k. split; [exact Hk|]. cbn zeta. rewrite Ha. cbn [user_aux aux_tree].
  rewrite C58_select; [reflexivity|]. match goal with |- keeps _ ?t => match t with snd (fst (f ?x)) => destruct (H x) as (b & Eb & Sb & Lb); replace t with (@Leaf (arr R) b) by (symmetry; exact Eb) end end.
  unfold arr_of. apply keeps_leaf; [symmetry; exact Sb|symmetry; exact Lb].
Qed.
Print Assumptions C58_vg_array.
(** and a scalar comes back as a vector of copies. *)
Theorem C58_vg_scalar : forall cfg gradient f prox x0, (0 < pg_maxiter cfg)%nat ->
  (forall z, exists a, snd (fst (f z)) = scalar_of a) -> (length (snd (f x0)) <> 1)%nat ->
  exists st x a, snd (fst (f x)) = scalar_of a /\ pg_run_aux cfg gradient (VGTrueAux f) prox x0 = Ok (st, Leaf (mk_arr [length (snd (f x0))] (repeat a (length (snd (f x0)))))).
Proof.
  intros cfg gradient f prox x0 HM H HL.
  destruct (run_aux cfg gradient (VGTrueAux f) prox _ x0 I (C58_vg_init f x0) HM) as (k & Hk & _ & Ha). cbn [user_aux aux_tree] in Ha.
  match type of Ha with context [snd (fst (f ?x))] => destruct (H x) as (a & E); exists (Nat.iter k (pg_update cfg (pg_f gradient (VGTrueAux f)) (pg_g gradient (VGTrueAux f)) prox) (x0, pg_init cfg x0)), x, a; split; [exact E|]; rewrite Ha; match goal with |- context [where_step false _ ?t] => replace t with (scalar_of a) by (symmetry; exact E) end end.
  clear Ha. generalize (Nat.iter k (pg_update cfg (pg_f gradient (VGTrueAux f)) (pg_g gradient (VGTrueAux f)) prox) (x0, pg_init cfg x0)). intros st. destruct (f x0) as [pv g]. cbn [snd] in *.
  assert (ER : map (fun _ : R => a) g = repeat a (length g)) by (clear; induction g as [|x g IH]; [reflexivity|]; cbn; f_equal; exact IH). rewrite <- ER.
  unfold where_step, arr_of, scalar_of. cbn. unfold bin_op. cbn [shape data]. unfold shape_eqb. destruct (list_eq_dec Nat.eq_dec [length g] []) as [K|_]; [discriminate|]. cbn.
  destruct g as [|g0 [|g1 g]]; [reflexivity|exfalso; apply HL; reflexivity|reflexivity].
Qed.
Print Assumptions C58_vg_scalar.

(** The documented contract ("the auxiliary outputs are stored in state.aux") fails for value_and_grad = True: an
    objective whose auxiliary output always has the same shape, for which no run returns an auxiliary output of the objective. *)
Theorem C58_vg_refuted : exists f : vec -> (R * ptree) * vec, (forall z z', keeps (snd (fst (f z))) (snd (fst (f z')))) /\
  forall cfg gradient prox, (0 < pg_maxiter cfg)%nat -> ~ exists st x, pg_run_aux cfg gradient (VGTrueAux f) prox [1; 1] = Ok (st, snd (fst (f x))).
Proof.
  exists (fun z => ((dot z z, scalar_of 7), smul 2 z)). split; [intros z z'; apply keeps_leaf; reflexivity|]. intros cfg gradient prox HM (st & x & H).
  destruct (C58_vg_scalar cfg gradient (fun z => ((dot z z, scalar_of 7), smul 2 z)) prox [1; 1] HM) as (st' & x' & a & E & K); [intros z; exists 7; reflexivity|cbn; lia|].
  pose proof (eq_trans (eq_sym H) K) as Z. cbn in Z. discriminate Z.
Qed.
Print Assumptions C58_vg_refuted.

(** ProjectedGradient runs as ProximalGradient with the projection as proximal operator and its own options, *)
Theorem C58_projected : forall (S : Type) eps gradient (u : objective) projection (o : pg_options S) x0,
  projg_run eps gradient u projection o x0 = pg_run_aux (pg_config_of eps o) gradient u (fun x _ => projection x) x0 /\
  o_implicit_diff (projg_inner o) = o_implicit_diff o /\ o_jit (projg_inner o) = o_jit o /\ o_unroll (projg_inner o) = o_unroll o /\
  o_verbose (projg_inner o) = o_verbose o /\ o_value_and_grad (projg_inner o) = o_value_and_grad o /\ o_has_aux (projg_inner o) = o_has_aux o.
Proof. intros. repeat split. Qed.
Print Assumptions C58_projected.
(** except the linear solver of the implicit differentiation: the user's is never used. *)
Theorem C58_projected_solve_refuted : forall (S : Type) (normal_cg mine : S), normal_cg <> mine -> forall o : pg_options S,
  o_implicit_diff_solve o = Some mine -> diff_solver normal_cg o = mine /\ diff_solver normal_cg (projg_inner o) <> mine.
Proof. intros S cg mine H o E. unfold diff_solver. rewrite E. split; [reflexivity|exact H]. Qed.
Print Assumptions C58_projected_solve_refuted.

(** A run with a dictionary as auxiliary output. *)
Definition ex_aux_obj : objective := VGFalseAux (fun z => (dot z z / 2, Node "dict:n,x"%string [scalar_of (dot z z); arr_of [nth 0 z 0]])).
Definition ex_aux_cfg : pg_config := {| pg_stepsize := StepConst (1 / 2); pg_maxiter := 2; pg_maxls := 15; pg_tol := / 1000; acceleration := false; pg_decrease := 1 / 2; pg_eps := 0 |}.
Example C58_example : (forall z, keeps (aux_tree (user_aux ex_aux_obj [2])) (aux_tree (user_aux ex_aux_obj z))) /\
  exists st, pg_run_aux ex_aux_cfg (fun _ z => z) ex_aux_obj gd_prox [2] = Ok (st, Node "dict:n,x"%string [scalar_of 1; arr_of [1]]).
Proof.
  split. { intros z. cbn. apply keeps_node. constructor; [apply keeps_leaf; reflexivity|]. constructor; [apply keeps_leaf; reflexivity|constructor]. }
  destruct (C58_aux ex_aux_cfg (fun _ z => z) ex_aux_obj gd_prox [2]) as (k & Hk & E & Hr); [left; exact I|exact I| |cbn; lia|].
  { intros z. cbn. apply keeps_node. constructor; [apply keeps_leaf; reflexivity|]. constructor; [apply keeps_leaf; reflexivity|constructor]. }
  cbn zeta in E, Hr. cbn [pg_maxiter ex_aux_cfg] in Hk. rewrite E.
  assert (S1 : Nat.iter 1 (pg_update ex_aux_cfg (user_value ex_aux_obj) (user_grad (fun _ z => z) ex_aux_obj) gd_prox) ([2], pg_init ex_aux_cfg [2]) = ([1], {| pg_iter := 1; pg_step := 1 / 2; pg_error := Fin 2; pg_velocity := None; pg_t := 1 |})).
  { cbn [Nat.iter nat_rect]. unfold pg_update. cbn [acceleration ex_aux_cfg pg_update_plain fst snd]. unfold pg_iter_step. cbn [pg_stepsize ex_aux_cfg]. unfold Zoom.Rleb. destruct (Rle_dec (1 / 2) 0) as [A|_]; [lra|].
    cbn [pg_init pg_iter pg_step]. unfold prox_grad, gd_prox, pg_err. cbn. replace (2 + - (1 / 2) * 2) with 1 by field. f_equal. f_equal. f_equal. unfold norm2, sqnorm. cbn.
    replace (sqrt _) with 1; [field|]. symmetry. replace ((1 - 2) * (1 - 2) + 0) with (1 * 1) by ring. rewrite sqrt_square; lra. }
  assert (Ek : k = 2%nat).
  { destruct (run_loop_spec 2 (fun st => xgtb (pg_error (snd st)) (pg_tol ex_aux_cfg)) (pg_update ex_aux_cfg (user_value ex_aux_obj) (user_grad (fun _ z => z) ex_aux_obj) gd_prox) ([2], pg_init ex_aux_cfg [2]) ltac:(lia)) as (j & Hj & Ej & _ & Hs).
    assert (J : j = 2%nat). { destruct Hs as [->|Hs]; [reflexivity|]. destruct (Nat.eq_dec j 2) as [|N]; [assumption|]. assert (j = 1%nat) by lia. subst j. rewrite S1 in Hs. cbn in Hs. unfold Rltb in Hs. destruct (Rlt_dec (/ 1000) 2) as [_|A]; [discriminate|]. exfalso. apply A. lra. }
    subst j. unfold pg_run in Hr. cbn [pg_maxiter ex_aux_cfg] in Hr. pose proof (eq_trans (eq_sym Ej) Hr) as Hq.
    assert (K : forall m, pg_iter (snd (Nat.iter m (pg_update ex_aux_cfg (user_value ex_aux_obj) (user_grad (fun _ z => z) ex_aux_obj) gd_prox) ([2], pg_init ex_aux_cfg [2]))) = m).
    { induction m as [|m IH]; [reflexivity|]. cbn [Nat.iter nat_rect]. unfold pg_update at 1. cbn [acceleration ex_aux_cfg]. unfold pg_update_plain at 1. fold (Nat.iter m (pg_update ex_aux_cfg (user_value ex_aux_obj) (user_grad (fun _ z => z) ex_aux_obj) gd_prox) ([2], pg_init ex_aux_cfg [2])).
      destruct (Nat.iter m _ _) as [x st]. cbn [snd] in IH. match goal with |- context [let (_, _) := ?t in _] => destruct t end. cbn [snd pg_iter]. lia. }
    exact (eq_trans (eq_sym (K k)) (eq_trans (f_equal (fun q => pg_iter (snd q)) (eq_sym Hq)) (K 2%nat))). }
  subst k. eexists. f_equal. f_equal. change (2 - 1)%nat with 1%nat. match goal with |- context [eval_point _ ?q] => replace q with (([1] : vec), {| pg_iter := 1; pg_step := 1 / 2; pg_error := Fin 2; pg_velocity := None; pg_t := 1 |}) by (symmetry; exact S1) end. cbn. unfold scalar_of, arr_of. cbn. replace (1 * 1 + 0) with 1 by ring. reflexivity.
Qed.
