From Coq Require Import Reals List ZArith Lra Lia Bool Arith.
From Verif Require Import Prelude Vec Loop Run Base BaseTheorems Pytree PytreeProofs Optax.
Import ListNotations.
Open Scope R_scope.

Section P.
Context {dtype : Type}.
Variable dtype_eq : forall a b : dtype, {a = b} + {a <> b}.
Variable promote : dtype -> dtype -> dtype.
Variable cast : dtype -> R -> R.
Notation typed := (dtype * arr R)%type.
Notation ttree := (tree typed).

Lemma same_type_iff (x y : ttree) : same_type x y <-> same_kind (vals x) (vals y) /\ dtypes x = dtypes y.
Proof.
  unfold same_type, same_kind, vals, dtypes. rewrite !fmap_fmap. split.
  - intros H. split.
    + assert (E := f_equal (fmap snd) H). rewrite !fmap_fmap in E. exact E.
    + assert (E := f_equal (fun t => map fst (leaves t)) H). cbn beta in E. rewrite !leaves_fmap, !map_map in E. exact E.
  - intros [H1 H2]. apply tree_ext; [rewrite !structure_fmap; apply (f_equal structure) in H1; rewrite !structure_fmap in H1; exact H1|].
    rewrite !leaves_fmap. apply (f_equal leaves) in H1. rewrite !leaves_fmap in H1. revert H1 H2. generalize (leaves y). induction (leaves x) as [|a l IH]; intros [|b l'] H1 H2; try discriminate; [reflexivity|].
    cbn [map] in *. injection H1 as A1 H1. injection H2 as A2 H2. f_equal; [rewrite A1, A2; reflexivity|apply IH; assumption].
Qed.
Lemma same_type_refl (x : ttree) : same_type x x. Proof. reflexivity. Qed.
Lemma same_type_trans (x y z : ttree) : same_type x y -> same_type y z -> same_type x z.
Proof. unfold same_type. congruence. Qed.

Lemma single_dtype_good (p : ttree) d : dtypes p <> [] -> Forall (eq d) (dtypes p) -> tree_single_dtype dtype_eq p = Ok (Some d).
Proof.
  unfold tree_single_dtype. destruct (dtypes p) as [|e ds]; intros N F; [congruence|]. inversion F; subst. replace (forallb _ ds) with true; [reflexivity|]. symmetry. apply forallb_forall. intros x Hx. rewrite Forall_forall in H2. rewrite <- (H2 x Hx). destruct (dtype_eq e e); congruence.
Qed.
Lemma single_dtype_mixed (p : ttree) a b : In a (dtypes p) -> In b (dtypes p) -> a <> b -> tree_single_dtype dtype_eq p = Err ValueError.
Proof.
  unfold tree_single_dtype. destruct (dtypes p) as [|e ds]; intros Ha Hb N; [destruct Ha|]. destruct (forallb _ ds) eqn:F; [|reflexivity]. exfalso. apply N. rewrite forallb_forall in F.
  assert (G : forall x, In x (e :: ds) -> x = e). { intros x [->|Hx]; [reflexivity|]. specialize (F x Hx). destruct (dtype_eq e x); congruence. }
  rewrite (G a Ha), (G b Hb). reflexivity.
Qed.

(** per leaf: what the update adds *)
Definition leaf_add (p q : typed) : typed := (fst p, mk_arr (shape (snd p)) (zip_with (fun a b => cast (fst p) (cast (promote (fst p) (fst q)) (a + b))) (data (snd p)) (data (snd q)))).
Lemma apply_ok (p delta : ttree) : wf (vals p) -> wf (vals delta) -> same_kind (vals delta) (vals p) ->
  exists p', apply_updates promote cast p delta = Ok p' /\ same_type p' p /\ wf (vals p') /\
    ((forall d x, cast d x = x) -> ravel (vals p') = vadd (ravel (vals p)) (ravel (vals delta))).
Proof.
  intros Wp Wd K. unfold apply_updates.
  assert (K' : same_kind (vals p) (vals delta)) by (unfold same_kind in *; congruence).
  assert (F := ravel_kind _ _ Wp Wd K'). assert (S2 := Forall2_shapes _ _ K'). assert (St := same_kind_structure _ _ K').
  unfold vals in St, F, S2. rewrite !structure_fmap in St. rewrite !leaves_fmap in F, S2.
  assert (F' : Forall2 (fun a b : typed => length (data (snd a)) = length (data (snd b))) (leaves p) (leaves delta)).
  { clear -F. revert F. generalize (leaves delta). induction (leaves p) as [|a l IH]; intros [|b l'] F; inversion F; subst; constructor; auto. }
  assert (S2' : Forall2 (fun a b : typed => shape (snd a) = shape (snd b)) (leaves p) (leaves delta)).
  { clear -S2. revert S2. generalize (leaves delta). induction (leaves p) as [|a l IH]; intros [|b l'] F; inversion F; subst; constructor; auto. }
  destruct (tree_map2_ok (typed_add promote cast) leaf_add p delta St) as (t & E & E1 & E2).
  { clear -S2'. induction S2' as [|a b l l' L _ IH]; constructor; [|exact IH]. unfold typed_add, bin_op, leaf_add. rewrite L, shape_eqb_refl. reflexivity. }
  exists t. split; [exact E|]. split; [|split].
  - unfold same_type. apply tree_ext; [rewrite !structure_fmap; exact E1|]. rewrite !leaves_fmap, E2. clear -F'. induction F' as [|a b l l' _ _ IH]; [reflexivity|]. cbn. f_equal. exact IH.
  - unfold wf, vals in *. rewrite leaves_fmap in *. rewrite E2. clear -F' Wp. induction F' as [|a b l l' L _ IH]; [constructor|]. inversion Wp; subst. cbn [zip_with map]. constructor; [|apply IH; assumption]. cbn [data shape leaf_add snd]. rewrite zip_length by exact L. assumption.
  - intros X. unfold ravel, vals. rewrite !leaves_fmap, E2. clear -F' X. induction F' as [|a b l l' L _ IH]; [reflexivity|]. cbn [zip_with map flat_map]. rewrite IH. unfold leaf_add at 1. cbn [snd data].
    assert (Z : forall u v, length u = length v -> zip_with (fun a0 b0 : R => cast (fst a) (cast (promote (fst a) (fst b)) (a0 + b0))) u v = vadd u v).
    { induction u as [|s u IHu]; intros [|r v] Hl; try discriminate; [reflexivity|]. cbn [zip_with]. rewrite !X. cbn. f_equal. apply IHu. cbn in Hl. lia. }
    rewrite Z by exact L. clear -L. revert L. generalize (data (snd a)) (data (snd b)) (flat_map data (map snd l)) (flat_map data (map snd l')). intros u v w z. revert v. induction u as [|s u IHu]; intros [|r v] Hl; try discriminate; [reflexivity|]. cbn. f_equal. apply IHu. cbn in Hl. lia.
Qed.
Lemma good_step (p p' : ttree) : good_params p -> same_type p' p -> wf (vals p') -> good_params p'.
Proof. intros (W & d & N & F) S W'. apply same_type_iff in S. destruct S as [_ E]. split; [exact W'|]. exists d. rewrite E. split; assumption. Qed.
Lemma norm_kind (g p : ttree) : good_params p -> same_kind (vals g) (vals p) -> tree_l2_norm (vals g) false = Ok (norm2 (ravel (vals g))).
Proof.
  intros (_ & d & N & _) K. assert (NE : nonempty (vals g)).
  { intros E. apply N. apply same_kind_iff in K. destruct K as [K _]. pose proof (leaves_length _ _ K) as L. unfold vals in L at 2. rewrite E, leaves_fmap, map_length in L. cbn in L. unfold dtypes. destruct (leaves p); [reflexivity|discriminate]. }
  unfold tree_l2_norm. rewrite (tree_map1_ok _ (fun x => mk_arr (shape x) (map (fun a => a * a + 0 * 0) (data x)))) by (intros; reflexivity).
  rewrite tree_sum_ok by (apply nonempty_fmap; exact NE). rewrite (ravel_fmap (fun a => a * a + 0 * 0)), dot_map_sq. reflexivity.
Qed.

Context {D X St : Type}.
Variable gradient : (ttree * D -> R) -> ttree * D -> ttree.
Variable u : user_fun (ttree * D) R ttree X.
Variable opt_init : ttree -> St.
Variable opt_update : ttree -> St -> ttree -> ttree * St.
Notation update := (optax_update dtype_eq promote cast gradient u opt_update).
Notation init := (optax_init dtype_eq gradient u opt_init).
Notation G := (user_grad gradient u).

Lemma update_ok p st d : user_consistent u -> opt_keeps_kind gradient u opt_update -> good_params p ->
  exists p' delta s', opt_update (G (p, d)) (os_internal st) p = (delta, s') /\
    update None p st d = Ok (p', {| os_iter := os_iter st + 1; os_value := Fin (user_value u (p, d)); os_error := Fin (norm2 (ravel (vals (G (p, d))))); os_internal := s'; os_aux := user_aux u (p, d) |}) /\
    same_type p' p /\ wf (vals p') /\ ((forall d x, cast d x = x) -> ravel (vals p') = vadd (ravel (vals p)) (ravel (vals delta))).
Proof.
  intros HC HK HG. destruct (opt_update (G (p, d)) (os_internal st) p) as [delta s'] eqn:E. destruct (HK p (os_internal st) d (proj1 HG)) as (W1 & K1 & W2 & K2). rewrite E in W2, K2. cbn [fst] in W2, K2.
  destruct (apply_ok p delta (proj1 HG) W2 K2) as (p' & EA & ST & W' & EX). exists p', delta, s'. split; [reflexivity|]. split; [|split; [exact ST|split; [exact W'|exact EX]]].
  unfold optax_update. pose proof (C04_make_funs_with_aux _ _ _ _ gradient u HC) as K. destruct (make_funs_with_aux gradient u) as [[f g] v]. destruct (K (p, d)) as (_ & _ & EV). cbn [snd]. rewrite EV, E, EA.
  destruct (good_step _ _ HG ST W') as (_ & dt & N & F). rewrite (single_dtype_good p' dt N F). rewrite (norm_kind _ p HG K1). reflexivity.
Qed.
Lemma init_ok p d : user_consistent u -> good_params p ->
  init p d = Ok {| os_iter := 0; os_value := PInf; os_error := PInf; os_internal := opt_init p; os_aux := user_aux u (p, d) |}.
Proof.
  intros HC (_ & dt & N & F). unfold optax_init. pose proof (C04_make_funs_with_aux _ _ _ _ gradient u HC) as K. destruct (make_funs_with_aux gradient u) as [[f g] v]. destruct (K (p, d)) as (EV & _ & _). cbn [fst]. rewrite EV, (single_dtype_good p dt N F). reflexivity.
Qed.

Notation tloop := (training_loop gradient u opt_update).
Lemma tloop_app p s ds q t ds' q' t' : tloop p s ds q t -> tloop q t ds' q' t' -> tloop p s (ds ++ ds') q' t'.
Proof. induction 1; intros H'; [exact H'|]. cbn [app]. econstructor; eauto. Qed.
Lemma tloop_type p s ds q t : tloop p s ds q t -> same_type q p.
Proof. induction 1; [apply same_type_refl|]. eapply same_type_trans; eassumption. Qed.
Lemma tloop_det p s ds q t : tloop p s ds q t -> forall q' t', tloop p s ds q' t' -> q = q' /\ t = t'.
Proof.
  induction 1 as [p s|p s d ds delta s1 p1 q t E ST W R1 _ IH]; intros q' t' H'; inversion H'; subst; [split; reflexivity|].
  match goal with A : opt_update _ _ _ = (?d', ?s') |- _ => rewrite E in A; injection A as <- <- end.
  match goal with A : same_type ?p2 p, B : wf (vals ?p2), C : ravel (vals ?p2) = _ |- _ => assert (EP : p1 = p2) end.
  { match goal with |- p1 = ?p2 => assert (EV : vals p1 = vals p2) end.
    { apply ravel_inj; try assumption; [|congruence]. apply same_type_iff in ST. match goal with A : same_type _ p |- _ => apply same_type_iff in A; unfold same_kind in *; destruct A, ST; congruence end. }
    assert (SS : map fst (leaves p1) = map fst (leaves p2)) by (apply same_type_iff in ST; match goal with A : same_type _ p |- _ => apply same_type_iff in A; unfold dtypes in *; destruct A, ST; congruence end).
    unfold vals in EV. apply tree_ext; [apply (f_equal structure) in EV; rewrite !structure_fmap in EV; exact EV|]. apply (f_equal leaves) in EV. rewrite !leaves_fmap in EV. revert EV SS. clear. generalize (leaves p2). induction (leaves p1) as [|a l IH]; intros [|b l'] H1 H2; try discriminate; [reflexivity|].
    cbn [map] in *. injection H1 as A1 H1. injection H2 as A2 H2. f_equal; [destruct a, b; cbn in *; congruence|apply IH; assumption]. }
  subst. apply IH. assumption.
Qed.

(** what a state says about the last batch *)
Definition last_batch p0 (ds : list D) (st : optax_state X St) : Prop :=
  exists ds' d q s, ds = ds' ++ [d] /\ tloop p0 (opt_init p0) ds' q s /\
    os_value st = Fin (user_value u (q, d)) /\ os_aux st = user_aux u (q, d) /\ os_error st = Fin (norm2 (ravel (vals (G (q, d))))).
(** the invariant of a history *)
Definition inv p0 ds (p : ttree) (st : optax_state X St) : Prop :=
  good_params p /\ tloop p0 (opt_init p0) ds p (os_internal st) /\ os_iter st = length ds.
Lemma inv_step p0 ds p st d : (forall d x, cast d x = x) -> user_consistent u -> opt_keeps_kind gradient u opt_update -> inv p0 ds p st ->
  exists p' st', update None p st d = Ok (p', st') /\ inv p0 (ds ++ [d]) p' st' /\ last_batch p0 (ds ++ [d]) st'.
Proof.
  intros HX HC HK (HG & HT & HI). destruct (update_ok p st d HC HK HG) as (p' & delta & s' & E & EU & ST & W & EX). eexists p', _. split; [exact EU|]. split.
  - split; [eapply good_step; eassumption|]. cbn [os_internal os_iter]. split; [|rewrite app_length, HI; reflexivity].
    eapply tloop_app; [exact HT|]. econstructor; [exact E|exact ST|exact W|exact (EX HX)|constructor].
  - exists ds, d, p, (os_internal st). repeat split; assumption.
Qed.
Lemma islice_ok p0 : (forall d x, cast d x = x) -> user_consistent u -> opt_keeps_kind gradient u opt_update -> 
  forall n pos src ds p st, inv p0 ds p st ->
  exists es p' st', optax_islice dtype_eq promote cast gradient u opt_update None n pos src p st = Ok (p', st') /\ inv p0 (ds ++ es) p' st' /\
    (length es <= n)%nat /\ (forall i, (i < length es)%nat -> src (pos + i)%nat = nth_error es i) /\ (length es = n \/ src (pos + length es)%nat = None) /\
    (es = [] /\ st' = st \/ last_batch p0 (ds ++ es) st').
Proof.
  intros HX HC HK n. induction n as [|n IH]; intros pos src ds p st HI.
  - exists [], p, st. rewrite app_nil_r. cbn. repeat split; try apply HI; auto; lia.
  - cbn [optax_islice]. destruct (src pos) as [d|] eqn:Es.
    + destruct (inv_step p0 ds p st d HX HC HK HI) as (p1 & st1 & E & I1 & L1). rewrite E. destruct (IH (S pos) src _ _ _ I1) as (es & p' & st' & E' & I' & Hl & Hs & Hd & HL).
      exists (d :: es), p', st'. rewrite <- app_assoc in I', HL. cbn [app] in I', HL. split; [exact E'|]. split; [exact I'|]. split; [cbn; lia|]. split; [|split].
      * intros [|i] Hi; [rewrite Nat.add_0_r; exact Es|]. replace (pos + S i)%nat with (S pos + i)%nat by lia. apply Hs. cbn in Hi. lia.
      * destruct Hd as [Hd|Hd]; [left; cbn; lia|right]. cbn [length]. replace (pos + S (length es))%nat with (S pos + length es)%nat by lia. exact Hd.
      * right. destruct HL as [[-> ->]|HL]; [exact L1|exact HL].
    + exists [], p, st. rewrite app_nil_r. cbn. rewrite Nat.add_0_r. repeat split; try apply HI; auto; lia.
Qed.
(** any rounding: types are kept *)
Lemma islice_type : user_consistent u -> opt_keeps_kind gradient u opt_update -> 
  forall n pos src p st, good_params p ->
  exists p' st', optax_islice dtype_eq promote cast gradient u opt_update None n pos src p st = Ok (p', st') /\ same_type p' p /\ good_params p'.
Proof.
  intros HC HK n. induction n as [|n IH]; intros pos src p st HG.
  - exists p, st. split; [reflexivity|]. split; [reflexivity|exact HG].
  - cbn [optax_islice]. destruct (src pos) as [d|].
    + destruct (update_ok p st d HC HK HG) as (p1 & delta & s' & _ & EU & ST & W & _). rewrite EU. destruct (IH (S pos) src p1 {| os_iter := os_iter st + 1; os_value := Fin (user_value u (p, d)); os_error := Fin (norm2 (ravel (vals (G (p, d))))); os_internal := s'; os_aux := user_aux u (p, d) |}) as (p' & st' & E' & ST' & G'); [eapply good_step; eassumption|].
      exists p', st'. split; [exact E'|]. split; [eapply same_type_trans; eassumption|exact G'].
    + exists p, st. split; [reflexivity|]. split; [reflexivity|exact HG].
Qed.
Lemma loop_ok p0 tol d : (forall d x, cast d x = x) -> user_consistent u -> opt_keeps_kind gradient u opt_update ->
  forall n k p st, inv p0 (repeat d (S k)) p st -> last_batch p0 (repeat d (S k)) st ->
  exists j p' st', optax_loop dtype_eq promote cast gradient u opt_update None tol n p st d = Ok (p', st') /\ (j <= n)%nat /\ inv p0 (repeat d (S k + j)) p' st' /\ last_batch p0 (repeat d (S k + j)) st' /\
    (j = n \/ xgtb (os_error st') tol = false) /\
    (forall i q s, (i < j)%nat -> tloop p0 (opt_init p0) (repeat d (k + i)) q s -> tol < norm2 (ravel (vals (G (q, d))))).
Proof.
  intros HX HC HK n. induction n as [|n IH]; intros k p st HI HL.
  - exists 0%nat, p, st. rewrite Nat.add_0_r. cbn [optax_loop]. repeat split; try apply HI; try assumption; auto; intros; lia.
  - cbn [optax_loop]. destruct (xgtb (os_error st) tol) eqn:EX.
    + destruct (inv_step p0 _ p st d HX HC HK HI) as (p1 & st1 & E & I1 & L1). rewrite E.
      assert (ER : repeat d (S k) ++ [d] = repeat d (S (S k))) by (clear; change [d] with (repeat d 1); rewrite <- repeat_app; f_equal; lia). rewrite ER in I1, L1.
      destruct (IH (S k) p1 st1 I1 L1) as (j & p' & st' & E' & Hj & I' & L' & Hd & Hs). exists (S j), p', st'. replace (S k + S j)%nat with (S (S k) + j)%nat by lia.
      split; [exact E'|]. split; [lia|]. split; [exact I'|]. split; [exact L'|]. split; [destruct Hd as [->|Hd]; auto|].
      intros [|i] q s Hi HT; [|apply (Hs i q s); [lia|]; replace (S k + i)%nat with (k + S i)%nat by lia; exact HT].
      rewrite Nat.add_0_r in HT. destruct HL as (ds' & d' & q' & s' & EQ & HT' & _ & _ & EE). 
      assert (EQ2 : repeat d (S k) = repeat d k ++ [d]) by (change [d] with (repeat d 1); rewrite <- repeat_app; f_equal; lia). rewrite EQ2 in EQ. apply app_inj_tail in EQ. destruct EQ as [<- <-].
      destruct (tloop_det _ _ _ _ _ HT _ _ HT') as [-> _]. rewrite EE in EX. unfold xgtb in EX. destruct (Rlt_dec tol (norm2 (ravel (vals (G (q', d)))))) as [Z|Z]; [exact Z|]. discriminate EX.
    + exists 0%nat, p, st. rewrite Nat.add_0_r. repeat split; try apply HI; try assumption; auto; intros; lia.
Qed.
End P.
