(** C59: OptaxSolver runs the textbook training loop. *)
From Coq Require Import String.
From Coq Require Import Reals List ZArith Lra Lia Bool Arith.
From Verif Require Import Prelude Vec Loop Run Base BaseTheorems Pytree PytreeProofs Zoom ProxGrad AuxOut AuxOutProofs Optax OptaxProofs.
Import ListNotations.
Open Scope R_scope.

(** One update, any rounding: the optimiser receives the gradient at the current parameters and data, its own state and
    the parameters; value, aux and error are those of the parameters before the update; the new parameters have the
    containers, shapes and dtypes of the old ones, and are their sum with the updates when arithmetic is exact. *)
Theorem C59_update : forall (dtype : Type) dtype_eq promote (cast : dtype -> R -> R) (D X St : Type) gradient (u : user_fun (tree (dtype * arr R) * D) R (tree (dtype * arr R)) X) (opt_update : _ -> St -> _ -> _ * St) p st d,
  user_consistent u -> opt_keeps_kind gradient u opt_update -> good_params p ->
  exists p' delta s', opt_update (user_grad gradient u (p, d)) (os_internal st) p = (delta, s') /\
    optax_update dtype_eq promote cast gradient u opt_update None p st d =
      Ok (p', {| os_iter := os_iter st + 1; os_value := Fin (user_value u (p, d)); os_error := Fin (norm2 (ravel (vals (user_grad gradient u (p, d)))));
                 os_internal := s'; os_aux := user_aux u (p, d) |}) /\
    same_type p' p /\ good_params p' /\ ((forall e x, cast e x = x) -> ravel (vals p') = vadd (ravel (vals p)) (ravel (vals delta))).
Proof.
  intros dtype dtype_eq promote cast D X St gradient u opt_update p st d HC HK HG. destruct (update_ok dtype_eq promote cast gradient u opt_update p st d HC HK HG) as (p' & delta & s' & E & EU & ST & W & EX).
  exists p', delta, s'. repeat (split; [assumption|]). split; [|exact EX]. eapply good_step; eassumption.
Qed.
Print Assumptions C59_update.

(** [pre_update] acts before everything else: on the parameters, the state and the data of the call. *)
Theorem C59_pre_update : forall (dtype : Type) dtype_eq promote (cast : dtype -> R -> R) (D X St : Type) gradient (u : user_fun (tree (dtype * arr R) * D) R (tree (dtype * arr R)) X) (opt_update : _ -> St -> _ -> _ * St) h p st d,
  optax_update dtype_eq promote cast gradient u opt_update (Some h) p st d =
  optax_update dtype_eq promote cast gradient u opt_update None (fst (h p st d)) (snd (h p st d)) d.
Proof. intros. unfold optax_update. destruct (h p st d) as [p' st']. reflexivity. Qed.
Print Assumptions C59_pre_update.

(** The textbook loop is a function of the batches. *)
Theorem C59_loop_deterministic : forall (dtype : Type) (D X St : Type) gradient (u : user_fun (tree (dtype * arr R) * D) R (tree (dtype * arr R)) X) (opt_update : _ -> St -> _ -> _ * St) p s ds q t q' t',
  training_loop gradient u opt_update p s ds q t -> training_loop gradient u opt_update p s ds q' t' -> q = q' /\ t = t'.
Proof. intros. eapply tloop_det; eassumption. Qed.
Print Assumptions C59_loop_deterministic.

(** run_iterator: the first batch only initialises; the parameters and the optimiser state are those of the textbook loop
    on the following batches, at most maxiter, all of them if there are fewer; value, aux and error belong to the last
    batch and to the parameters before its update. *)
Theorem C59_run_iterator : forall (dtype : Type) dtype_eq promote (cast : dtype -> R -> R) (D X St : Type) gradient (u : user_fun (tree (dtype * arr R) * D) R (tree (dtype * arr R)) X) opt_init (opt_update : _ -> St -> _ -> _ * St) maxiter p0 src d0,
  (forall e x, cast e x = x) -> user_consistent u -> opt_keeps_kind gradient u opt_update -> good_params p0 -> src 0%nat = Some d0 -> (0 <= maxiter)%Z ->
  exists ds p st, optax_run_iterator dtype_eq promote cast gradient u opt_init opt_update None maxiter p0 src = Ok (p, st) /\
    (length ds <= Z.to_nat maxiter)%nat /\ (forall i, (i < length ds)%nat -> src (1 + i)%nat = nth_error ds i) /\
    (length ds = Z.to_nat maxiter \/ src (1 + length ds)%nat = None) /\
    training_loop gradient u opt_update p0 (opt_init p0) ds p (os_internal st) /\ os_iter st = length ds /\ same_type p p0 /\
    ((ds = [] /\ st = {| os_iter := 0; os_value := PInf; os_error := PInf; os_internal := opt_init p0; os_aux := user_aux u (p0, d0) |}) \/
     exists ds' d q s, ds = ds' ++ [d] /\ training_loop gradient u opt_update p0 (opt_init p0) ds' q s /\ os_value st = Fin (user_value u (q, d)) /\
       os_aux st = user_aux u (q, d) /\ os_error st = Fin (norm2 (ravel (vals (user_grad gradient u (q, d)))))).
Proof.
  intros dtype dtype_eq promote cast D X St gradient u opt_init opt_update maxiter p0 src d0 HX HC HK HG H0 HM.
  unfold optax_run_iterator. rewrite H0, (init_ok dtype_eq gradient u opt_init p0 d0 HC HG). destruct (maxiter <? 0)%Z eqn:E; [apply Z.ltb_lt in E; lia|].
  destruct (islice_ok dtype_eq promote cast gradient u opt_init opt_update p0 HX HC HK (Z.to_nat maxiter) 1 src [] p0 {| os_iter := 0; os_value := PInf; os_error := PInf; os_internal := opt_init p0; os_aux := user_aux u (p0, d0) |}) as (es & p & st & ER & (G1 & T1 & I1) & HL & HS & HD & HB).
  { split; [exact HG|]. split; [constructor|reflexivity]. }
  cbn [app] in *. exists es, p, st. repeat (split; [assumption|]). split; [eapply tloop_type; exact T1|]. exact HB.
Qed.
Print Assumptions C59_run_iterator.

(** An exhausted iterator raises StopIteration, a negative maxiter ValueError. *)
Theorem C59_iterator_errors : forall (dtype : Type) dtype_eq promote (cast : dtype -> R -> R) (D X St : Type) gradient (u : user_fun (tree (dtype * arr R) * D) R (tree (dtype * arr R)) X) opt_init (opt_update : _ -> St -> _ -> _ * St) pre maxiter p0 src,
  (src 0%nat = None -> optax_run_iterator dtype_eq promote cast gradient u opt_init opt_update pre maxiter p0 src = Err StopIteration) /\
  (src 0%nat <> None -> (maxiter < 0)%Z -> optax_run_iterator dtype_eq promote cast gradient u opt_init opt_update pre maxiter p0 src = Err ValueError).
Proof.
  intros. unfold optax_run_iterator. split; [intros ->; reflexivity|]. intros N M. destruct (src 0%nat) as [d|]; [|congruence]. apply Z.ltb_lt in M. rewrite M.
  unfold optax_init. destruct (fst (fst (make_funs_with_aux gradient u)) (p0, d)). destruct (tree_single_dtype dtype_eq p0) as [od|ev] eqn:E; [reflexivity|].
  unfold tree_single_dtype in E. destruct (dtypes p0) as [|x l]; [discriminate|]. destruct (forallb _ _); [discriminate|]. injection E as <-. reflexivity.
Qed.
Print Assumptions C59_iterator_errors.

(** run with fixed data: the textbook loop on k copies of the data, k between 1 and maxiter; k is the first iteration
    whose gradient, taken at the parameters before the update, has norm at most tol. *)
Theorem C59_run : forall (dtype : Type) dtype_eq promote (cast : dtype -> R -> R) (D X St : Type) gradient (u : user_fun (tree (dtype * arr R) * D) R (tree (dtype * arr R)) X) opt_init (opt_update : _ -> St -> _ -> _ * St) maxiter tol p0 d,
  (forall e x, cast e x = x) -> user_consistent u -> opt_keeps_kind gradient u opt_update -> good_params p0 -> (0 < maxiter)%Z ->
  exists k p st q s, optax_run dtype_eq promote cast gradient u opt_init opt_update None maxiter tol p0 d = Ok (p, st) /\
    (1 <= k <= Z.to_nat maxiter)%nat /\ training_loop gradient u opt_update p0 (opt_init p0) (repeat d k) p (os_internal st) /\ os_iter st = k /\ same_type p p0 /\
    training_loop gradient u opt_update p0 (opt_init p0) (repeat d (k - 1)) q s /\
    os_value st = Fin (user_value u (q, d)) /\ os_aux st = user_aux u (q, d) /\ os_error st = Fin (norm2 (ravel (vals (user_grad gradient u (q, d))))) /\
    (k = Z.to_nat maxiter \/ norm2 (ravel (vals (user_grad gradient u (q, d)))) <= tol) /\
    (forall i q' s', (i < k - 1)%nat -> training_loop gradient u opt_update p0 (opt_init p0) (repeat d i) q' s' -> tol < norm2 (ravel (vals (user_grad gradient u (q', d))))).
Proof.
  intros dtype dtype_eq promote cast D X St gradient u opt_init opt_update maxiter tol p0 d HX HC HK HG HM.
  unfold optax_run. rewrite (init_ok dtype_eq gradient u opt_init p0 d HC HG).
  set (st0 := {| os_iter := 0; os_value := PInf; os_error := PInf; os_internal := opt_init p0; os_aux := user_aux u (p0, d) |}).
  destruct (inv_step dtype_eq promote cast gradient u opt_init opt_update p0 [] p0 st0 d HX HC HK) as (p1 & st1 & E1 & I1 & L1). { split; [exact HG|]. split; [constructor|reflexivity]. }
  rewrite E1. cbn [app] in I1, L1. change [d] with (repeat d 1) in I1, L1.
  destruct (loop_ok dtype_eq promote cast gradient u opt_init opt_update p0 tol d HX HC HK (Z.to_nat (maxiter - 1)) 0 p1 st1 I1 L1) as (j & p & st & EL & Hj & (G2 & T2 & I2) & (ds' & d' & q & s & EQ & HT & HV & HA & HE) & Hd & Hs).
  rewrite EL. destruct (maxiter =? 0)%Z eqn:EZ; [apply Z.eqb_eq in EZ; lia|].
  assert (EQ2 : repeat d (1 + j) = repeat d j ++ [d]) by (change [d] with (repeat d 1); rewrite <- repeat_app; f_equal; lia). rewrite EQ2 in EQ. apply app_inj_tail in EQ. destruct EQ as [<- <-].
  exists (1 + j)%nat, p, st, q, s. split; [reflexivity|]. split; [lia|]. split; [exact T2|]. split; [rewrite I2; apply repeat_length|]. split; [eapply tloop_type; exact T2|]. replace (1 + j - 1)%nat with j by lia.
  split; [exact HT|]. split; [exact HV|]. split; [exact HA|]. split; [exact HE|]. split.
  - destruct Hd as [Hd|Hd]; [left; lia|right]. rewrite HE in Hd. unfold xgtb in Hd. destruct (Rlt_dec tol _) as [Z|Z]; [discriminate|]. lra.
  - intros i q' s' Hi HT'. apply (Hs i q' s'); [lia|exact HT'].
Qed.
Print Assumptions C59_run.

(** maxiter = 0: nothing happens. *)
Theorem C59_run_zero : forall (dtype : Type) dtype_eq promote (cast : dtype -> R -> R) (D X St : Type) gradient (u : user_fun (tree (dtype * arr R) * D) R (tree (dtype * arr R)) X) opt_init (opt_update : _ -> St -> _ -> _ * St) tol p0 d,
  user_consistent u -> opt_keeps_kind gradient u opt_update -> good_params p0 ->
  optax_run dtype_eq promote cast gradient u opt_init opt_update None 0 tol p0 d =
    Ok (p0, {| os_iter := 0; os_value := PInf; os_error := PInf; os_internal := opt_init p0; os_aux := user_aux u (p0, d) |}).
Proof.
  intros dtype dtype_eq promote cast D X St gradient u opt_init opt_update tol p0 d HC HK HG. unfold optax_run. rewrite (init_ok dtype_eq gradient u opt_init p0 d HC HG).
  destruct (update_ok dtype_eq promote cast gradient u opt_update p0 {| os_iter := 0; os_value := PInf; os_error := PInf; os_internal := opt_init p0; os_aux := user_aux u (p0, d) |} d HC HK HG) as (p' & delta & s' & _ & EU & _). rewrite EU. reflexivity.
Qed.
Print Assumptions C59_run_zero.

(** Any rounding and any promotion: the parameters returned by run_iterator have the containers, shapes and dtypes of the
    initial ones. *)
Theorem C59_dtypes : forall (dtype : Type) dtype_eq promote (cast : dtype -> R -> R) (D X St : Type) gradient (u : user_fun (tree (dtype * arr R) * D) R (tree (dtype * arr R)) X) opt_init (opt_update : _ -> St -> _ -> _ * St) maxiter p0 src d0,
  user_consistent u -> opt_keeps_kind gradient u opt_update -> good_params p0 -> src 0%nat = Some d0 -> (0 <= maxiter)%Z ->
  exists p st, optax_run_iterator dtype_eq promote cast gradient u opt_init opt_update None maxiter p0 src = Ok (p, st) /\ same_type p p0.
Proof.
  intros dtype dtype_eq promote cast D X St gradient u opt_init opt_update maxiter p0 src d0 HC HK HG H0 HM.
  unfold optax_run_iterator. rewrite H0, (init_ok dtype_eq gradient u opt_init p0 d0 HC HG). destruct (maxiter <? 0)%Z eqn:E; [apply Z.ltb_lt in E; lia|].
  destruct (islice_type dtype_eq promote cast gradient u opt_update HC HK (Z.to_nat maxiter) 1 src p0 {| os_iter := 0; os_value := PInf; os_error := PInf; os_internal := opt_init p0; os_aux := user_aux u (p0, d0) |} HG) as (p & st & ER & ST & _).
  exists p, st. split; assumption.
Qed.
Print Assumptions C59_dtypes.

(** Parameters of two different dtypes are refused, whatever the optimiser. *)
Theorem C59_mixed_dtypes : forall (dtype : Type) dtype_eq promote (cast : dtype -> R -> R) (D X St : Type) gradient (u : user_fun (tree (dtype * arr R) * D) R (tree (dtype * arr R)) X) opt_init (opt_update : _ -> St -> _ -> _ * St) pre maxiter tol p0 a b,
  In a (dtypes p0) -> In b (dtypes p0) -> a <> b ->
  (forall d, optax_run dtype_eq promote cast gradient u opt_init opt_update pre maxiter tol p0 d = Err ValueError) /\
  (forall src d, src 0%nat = Some d -> optax_run_iterator dtype_eq promote cast gradient u opt_init opt_update pre maxiter p0 src = Err ValueError).
Proof.
  intros dtype dtype_eq promote cast D X St gradient u opt_init opt_update pre maxiter tol p0 a b Ha Hb N.
  assert (E : forall d, optax_init dtype_eq gradient u opt_init p0 d = Err ValueError). { intros d. unfold optax_init. rewrite (single_dtype_mixed dtype_eq p0 a b Ha Hb N). destruct (fst (fst (make_funs_with_aux gradient u)) (p0, d)). reflexivity. }
  split; [intros d; unfold optax_run; rewrite E; reflexivity|]. intros src d H. unfold optax_run_iterator. rewrite H, E. reflexivity.
Qed.
Print Assumptions C59_mixed_dtypes.

(** The optimality function used for implicit differentiation is the gradient. *)
Theorem C59_optimality : forall (dtype D X : Type) gradient (u : user_fun (tree (dtype * arr R) * D) R (tree (dtype * arr R)) X) p d, user_consistent u ->
  optax_optimality_fun gradient u p d = user_grad gradient u (p, d).
Proof. intros dtype D X gradient u p d HC. unfold optax_optimality_fun. pose proof (C04_make_funs_with_aux _ _ _ _ gradient u HC) as K. destruct (make_funs_with_aux gradient u) as [[f g] v]. destruct (K (p, d)) as (_ & E & _). cbn [fst snd]. rewrite E. reflexivity. Qed.
Print Assumptions C59_optimality.

(** With plain gradient descent as optimiser (updates -lr * grad) the parameters are those of GradientDescent with constant
    step size lr and no acceleration. *)
Definition vec_tree (x : vec) : tree (unit * arr R) := Leaf (tt, mk_arr [length x] x).
Definition vec_objective (f : vec -> R) (gradf : vec -> vec) : user_fun (tree (unit * arr R) * unit) R (tree (unit * arr R)) unit :=
  VGTrue (fun pd => let x := ravel (vals (fst pd)) in (f x, vec_tree (gradf x))).
Definition sgd_update (lr : R) (g : tree (unit * arr R)) (s : unit) (p : tree (unit * arr R)) : tree (unit * arr R) * unit :=
  (fmap (fun a => (fst a, mk_arr (shape (snd a)) (smul (- lr) (data (snd a))))) g, s).
Theorem C59_sgd : forall cfg f gradf lr n, pg_stepsize cfg = StepConst lr -> 0 < lr -> acceleration cfg = false -> (forall x, length x = n -> length (gradf x) = n) ->
  forall k x0 q t gradient, length x0 = n -> training_loop gradient (vec_objective f gradf) (sgd_update lr) (vec_tree x0) tt (repeat tt k) q t ->
  q = vec_tree (pg_iterate cfg f gradf gd_prox x0 k).
Proof.
  intros cfg f gradf lr n Hs Hl Ha Hg k x0 q t gradient L0 H.
  assert (step : forall x s, length x = n -> fst (pg_update cfg f gradf gd_prox (x, s)) = vadd x (smul (- lr) (gradf x))).
  { intros x s _. unfold pg_update. rewrite Ha. unfold pg_update_plain, pg_iter_step. rewrite Hs. unfold Rleb. destruct (Rle_dec lr 0) as [A|_]; [lra|]. reflexivity. }
  assert (G : forall k x s, length x = n -> training_loop gradient (vec_objective f gradf) (sgd_update lr) (vec_tree x) tt (repeat tt k) q t -> q = vec_tree (fst (Nat.iter k (pg_update cfg f gradf gd_prox) (x, s)))).
  { clear k x0 L0 H. induction k as [|k IH]; intros x s L H; cbn [repeat] in H; inversion H; subst; [reflexivity|].
    match goal with A : (sgd_update _ _ _ _) = (?de, ?s1) |- _ => unfold sgd_update in A; cbn in A; injection A as <- <- end.
    match goal with A : same_type ?p1 _, B : ravel (vals ?p1) = _, C : wf (vals ?p1), T : training_loop _ _ _ ?p1 _ _ _ _ |- _ => rename A into KK, B into RR, T into TT; assert (EP : p1 = vec_tree (vadd x (smul (- lr) (gradf x)))); [|rewrite EP in TT] end.
    { apply same_type_iff in KK. destruct KK as [K _]. match goal with |- ?p1 = _ => destruct p1 as [[[] [sh da]]|kk cs]; [|discriminate K] end. cbn in RR. rewrite !app_nil_r in RR. unfold vec_tree. subst da.
      unfold same_kind in K. cbn in K. injection K as ->. do 3 f_equal. symmetry. f_equal. apply vadd_length_eq; [reflexivity|]. unfold smul. rewrite map_length. apply Hg. reflexivity. }
    rewrite <- AuxOutProofs.iter_shift. destruct (pg_update cfg f gradf gd_prox (x, s)) as [x1 s1] eqn:E. pose proof (step x s eq_refl) as E1. rewrite E in E1. cbn [fst] in E1. subst x1. apply IH; [|assumption].
    apply vadd_length_eq; [reflexivity|]. unfold smul. rewrite map_length. apply Hg. reflexivity. }
  unfold pg_iterate. apply G; assumption.
Qed.
Print Assumptions C59_sgd.

(** [state.error] is not the optimality error of the returned parameters: with a heavy-ball optimiser (state m, m <- 9/10 m + grad,
    updates -m) on x^2 / 2 from 1, the run stops with error 0 and returns parameters at which the gradient has norm 9/10. *)
Definition heavy_ball (g : tree (unit * arr R)) (m : vec) (p : tree (unit * arr R)) : tree (unit * arr R) * vec :=
  let m' := vadd (smul (9 / 10) m) (ravel (vals g)) in (fmap (fun a => (fst a, mk_arr (shape (snd a)) (smul (-1) m'))) g, m').
Definition half_square := vec_objective (fun x => dot x x / 2) (fun x => x).
Definition unit_dec (a b : unit) : {a = b} + {a <> b} := match a, b with tt, tt => left eq_refl end.
Notation hb_run tol := (optax_run unit_dec (fun _ _ => tt) (fun _ x => x) (fun f p => fst p) half_square (fun _ => [0]) heavy_ball None 500 tol (vec_tree [1]) tt).
Theorem C59_error_refuted : forall tol, 0 <= tol < 1 -> exists p st, hb_run tol = Ok (p, st) /\ os_error st = Fin 0 /\ norm2 (ravel (vals p)) = 9 / 10 /\
  optax_optimality_fun (fun f q => fst q) half_square p tt = p.
Proof.
  intros tol Ht.
  assert (step : forall x m (st : optax_state unit vec), os_internal st = [m] -> optax_update unit_dec (fun _ _ => tt) (fun _ x => x) (fun f p => fst p) half_square heavy_ball None (vec_tree [x]) st tt =
    Ok (vec_tree [x + -1 * (9 / 10 * m + x)], @Build_optax_state unit vec (os_iter st + 1) (Fin ((x * x + 0) / 2)) (Fin (sqrt (0 + (0 + (x * x + 0 * 0)) + 0))) [9 / 10 * m + x] None)).
  { intros x m st E. unfold optax_update. cbn -[sqrt]. rewrite E. cbn -[sqrt]. do 3 f_equal. f_equal. f_equal. f_equal. ring. }
  set (st0 := {| os_iter := 0; os_value := PInf; os_error := PInf; os_internal := ([0] : vec); os_aux := @None unit |}).
  pose proof (step 1 0 st0 eq_refl) as E1. match type of E1 with _ = Ok (?p1, ?st1) => set (p1' := p1) in E1; set (st1' := st1) in E1; pose proof (step (1 + -1 * (9 / 10 * 0 + 1)) (9 / 10 * 0 + 1) st1' eq_refl) as E2 end.
  match type of E2 with _ = Ok (?p2, ?st2) => exists p2, st2; set (p2' := p2) in *; set (st2' := st2) in * end.
  assert (Z0 : 1 + -1 * (9 / 10 * 0 + 1) = 0) by field.
  assert (X1 : xgtb (os_error st1') tol = true).
  { cbn [st1' os_error xgtb]. replace (sqrt (0 + (0 + (1 * 1 + 0 * 0)) + 0)) with 1 by (replace (0 + (0 + (1 * 1 + 0 * 0)) + 0) with (1 * 1) by ring; rewrite sqrt_square; lra). destruct (Rlt_dec tol 1) as [_|A]; [reflexivity|exfalso; lra]. }
  assert (Z2 : os_error st2' = Fin 0). { cbn [st2' os_error]. rewrite Z0. f_equal. replace (0 + (0 + (0 * 0 + 0 * 0)) + 0) with 0 by ring. apply sqrt_0. }
  assert (X2 : xgtb (os_error st2') tol = false). { rewrite Z2. cbn [xgtb]. destruct (Rlt_dec tol 0) as [A|_]; [exfalso; lra|reflexivity]. }
  assert (EL : optax_loop unit_dec (fun _ _ => tt) (fun _ x => x) (fun f p => fst p) half_square heavy_ball None tol 499 p1' st1' tt = Ok (p2', st2')).
  { fold p1' in E2. clearbody p1' st1' st2' p2'. generalize 497%nat as n. intros n. change (optax_loop unit_dec (fun _ _ => tt) (fun _ x => x) (fun f p => fst p) half_square heavy_ball None tol (S (S n)) p1' st1' tt = Ok (p2', st2')).
    cbn [optax_loop]. rewrite X1, E2, X2. reflexivity. }
  split; [|split; [exact Z2|]].
  - unfold optax_run. replace (optax_init _ _ _ _ _ _) with (@Ok (optax_state unit vec) st0) by reflexivity.
    match goal with |- (match ?T with _ => _ end) = _ => replace T with (Ok (p1', st1')) by (symmetry; exact E1) end. change (Z.to_nat (500 - 1)) with 499%nat.
    match goal with |- (match ?T with _ => _ end) = _ => replace T with (Ok (p2', st2')) by (symmetry; exact EL) end. reflexivity.
  - split; [|reflexivity]. subst p2'. cbn -[sqrt]. unfold norm2, sqnorm. cbn -[sqrt].
    replace (_ * _ + 0) with (9 / 10 * (9 / 10)) by field. apply sqrt_square. lra.
Qed.
Print Assumptions C59_error_refuted.

(** The hypotheses are met: two leaves of one dtype, a mini-batch objective, gradient descent. *)
Definition ex_params : tree (bool * arr R) := Node "dict:b,w"%string [Leaf (true, mk_arr [] [1]); Leaf (true, mk_arr [2%nat] [2; 3])].
Definition ex_fun (pd : tree (bool * arr R) * R) : R * tree (bool * arr R) :=
  (snd pd * vsum (ravel (vals (fst pd))), fmap (fun a => (fst a, mk_arr (shape (snd a)) (map (fun _ => snd pd) (data (snd a))))) (fst pd)).
Definition ex_opt (g : tree (bool * arr R)) (s : nat) (p : tree (bool * arr R)) : tree (bool * arr R) * nat :=
  (fmap (fun a => (fst a, mk_arr (shape (snd a)) (smul (- / 2) (data (snd a))))) g, S s).
Example C59_example : opt_keeps_kind (fun f p => fst p) (VGTrue ex_fun : user_fun _ _ _ unit) ex_opt /\ good_params ex_params /\ dtypes ex_params = [true; true] /\ ravel (vals ex_params) = [1; 2; 3].
Proof.
  split; [|split; [|split; reflexivity]].
  - intros p s d W. cbn [user_grad ex_fun fst snd ex_opt].
    assert (K : forall (h : R -> R) (t : tree (bool * arr R)), same_kind (vals (fmap (fun a => (fst a, mk_arr (shape (snd a)) (map h (data (snd a))))) t)) (vals t)).
    { intros h t. unfold same_kind, vals. rewrite !fmap_fmap. reflexivity. }
    assert (W' : forall (h : R -> R) (t : tree (bool * arr R)), wf (vals t) -> wf (vals (fmap (fun a => (fst a, mk_arr (shape (snd a)) (map h (data (snd a))))) t))).
    { intros h t Wt. unfold wf, vals in *. rewrite !leaves_fmap in *. rewrite !map_map. cbn. rewrite Forall_map in *. eapply Forall_impl; [|exact Wt]. intros a Ha. cbn. rewrite map_length. exact Ha. }
    repeat split; try apply K; try (apply W'; exact W).
    + apply (W' (Rmult (- / 2))). apply W'. exact W.
    + unfold same_kind. etransitivity; [apply (K (Rmult (- / 2)))|]. apply K.
  - split; [unfold wf; cbn; repeat constructor|]. exists true. split; [discriminate|]. repeat constructor.
Qed.
