(** Proofs about the runs of the SciPy wrappers. *)
From Coq Require Import String.
From Coq Require Import Reals List Lra Lia Bool Arith ZArith.
From Verif Require Import Prelude Vec Mat Pytree PytreeProofs PytreeTheorems Scipy Bridge.
Import ListNotations.
Open Scope R_scope.

Lemma topo_ok (x : ptree) : wf x -> nonempty x ->
  length (top_shapes (pytree_topology_from_example x)) = length (leaves (top_treedef (pytree_topology_from_example x))) /\
  top_shapes (pytree_topology_from_example x) <> [] /\ list_sum (top_sizes (pytree_topology_from_example x)) = length (ravel x).
Proof.
  intros W Hn. cbn [pytree_topology_from_example top_shapes top_treedef]. split; [|split].
  - rewrite map_length. unfold structure. rewrite leaves_fmap, map_length. reflexivity.
  - unfold nonempty in Hn. destruct (leaves x); [congruence|discriminate].
  - destruct (C41_round_trip x W Hn) as (v & _ & E & L & _). rewrite <- L, E. reflexivity.
Qed.
Lemma onp_ok (x : ptree) (v : vec) : wf x -> nonempty x -> length v = length (ravel x) ->
  exists t, onp_to_jnp (pytree_topology_from_example x) v = Ok t /\ wf t /\ same_kind t x /\ ravel t = v.
Proof.
  intros W Hn L. destruct (topo_ok x W Hn) as (T1 & T2 & T3).
  destruct (proj1 (C41_inverse _ v T1 T2)) as (t & E1 & E2 & E3 & E4); [unfold vec in *; congruence|].
  exists t. split; [exact E1|]. split; [exact E2|]. unfold pytree_topology_from_example in E3. injection E3 as E5 E6.
  split; [apply same_kind_iff; split; assumption|]. unfold jnp_to_onp in E4. unfold ravel. destruct (leaves t); [discriminate|]. congruence.
Qed.
Lemma onp_bad (x : ptree) (v : vec) : wf x -> nonempty x -> length v <> length (ravel x) -> onp_to_jnp (pytree_topology_from_example x) v = Err ValueError.
Proof. intros W Hn L. destruct (topo_ok x W Hn) as (T1 & T2 & T3). apply (proj2 (C41_inverse _ v T1 T2)). unfold vec in *. congruence. Qed.
Lemma nonempty_kind x y : same_kind x y -> nonempty y -> nonempty x.
Proof. intros K Hn C. apply Hn. apply same_kind_iff in K. destruct K as [K _]. apply leaves_length in K. rewrite C in K. destruct (leaves y); [reflexivity|discriminate]. Qed.
Lemma jnp_ok (x : ptree) : nonempty x -> jnp_to_onp x = Ok (ravel x).
Proof. unfold nonempty, jnp_to_onp, ravel. destruct (leaves x); [congruence|reflexivity]. Qed.

Section B.
Context {dtype : Type}.
Variable round : dtype -> R -> R.

Lemma zip_cast_shape dts : forall l, length dts = length l -> map shape (zip_with (fun d a => cast_arr (round d) a) dts l) = map shape l.
Proof. induction dts as [|d dts IH]; intros [|a l] L; try discriminate; [reflexivity|]. cbn. f_equal. apply IH. simpl in L. lia. Qed.
Lemma zip_cast_nth dts : forall l i d, length dts = length l -> nth_error dts i = Some d ->
  data (nth i (zip_with (fun d a => cast_arr (round d) a) dts l) no_arr) = map (round d) (data (nth i l no_arr)).
Proof. induction dts as [|e dts IH]; intros [|a l] [|i] d L H; try discriminate; cbn in *; [injection H as <-; reflexivity|]. apply IH; [lia|exact H]. Qed.
Lemma zip_cast_wf dts : forall l, length dts = length l -> Forall (fun x : arr R => length (data x) = size (shape x)) l ->
  Forall (fun x : arr R => length (data x) = size (shape x)) (zip_with (fun d a => cast_arr (round d) a) dts l).
Proof. induction dts as [|d dts IH]; intros [|a l] L H; try discriminate; [constructor|]. inversion H; subst. cbn. constructor; [cbn; rewrite map_length; assumption|]. apply IH; [simpl in L; lia|assumption]. Qed.
Lemma to_jnp_ok (init : ptree) dts (v : vec) : wf init -> nonempty init -> length dts = length (leaves init) -> length v = length (ravel init) ->
  exists u t, wf u /\ same_kind u init /\ ravel u = v /\ to_jnp dtype round (pytree_topology_from_example init) dts v = Ok t /\ wf t /\ same_kind t init /\ rounded round dts u t.
Proof.
  intros W Hn Ld Lv. destruct (onp_ok init v W Hn Lv) as (u & E & Wu & Ku & Ru). exists u.
  pose proof (proj1 (same_kind_iff _ _) Ku) as [Ks _]. pose proof (leaves_length _ _ Ks) as Ll.
  assert (Ld' : length dts = length (leaves u)) by congruence.
  unfold to_jnp. rewrite E. set (l := zip_with (fun d a => cast_arr (round d) a) dts (leaves u)).
  assert (Lz : length l = length (leaves u)) by (unfold l; rewrite zip_length by exact Ld'; exact Ld').
  destruct (unflatten_exists (structure u) l) as (t & -> & S1 & S2); [unfold structure; rewrite leaves_fmap, map_length; exact Lz|].
  exists t. split; [exact Wu|]. split; [exact Ku|]. split; [exact Ru|]. split; [reflexivity|].
  assert (Ktu : same_kind t u) by (apply same_kind_iff; split; [exact S1|rewrite S2; apply zip_cast_shape; exact Ld']).
  split; [unfold wf; rewrite S2; apply zip_cast_wf; assumption|]. split; [unfold same_kind in *; congruence|]. split; [exact Ktu|].
  intros i d Hd. rewrite S2. apply zip_cast_nth; assumption.
Qed.
Lemma to_jnp_bad (init : ptree) dts (v : vec) : wf init -> nonempty init -> length v <> length (ravel init) ->
  to_jnp dtype round (pytree_topology_from_example init) dts v = Err ValueError.
Proof. intros W Hn L. unfold to_jnp. rewrite onp_bad by assumption. reflexivity. Qed.
Lemma rounded_dtypes dts u t : (forall d r, round d (round d r) = round d r) -> length dts = length (leaves u) -> rounded round dts u t -> of_dtypes round dts t.
Proof.
  intros I L [K H]. apply same_kind_iff in K. destruct K as [K _]. apply leaves_length in K. unfold of_dtypes.
  assert (L' : length dts = length (leaves t)) by congruence. clear K L. revert L' H. generalize (leaves t) (leaves u). clear -I.
  induction dts as [|d dts IH]; intros [|a l] lu L H; try discriminate; constructor.
  - pose proof (H 0%nat d eq_refl) as H0. cbn [nth] in H0. rewrite H0. apply Forall_forall. intros r Hr. apply in_map_iff in Hr. destruct Hr as (r' & <- & _). apply I.
  - destruct lu as [|b lu].
    + apply (IH l []); [simpl in L; lia|]. intros i e He. specialize (H (S i) e He). cbn [nth] in H. destruct i; exact H.
    + apply (IH l lu); [simpl in L; lia|]. intros i e He. exact (H (S i) e He).
Qed.
Lemma rounded_uniform d n u t : length (leaves u) = n -> rounded round (repeat d n) u t -> ravel t = map (round d) (ravel u).
Proof.
  intros L [K H]. apply same_kind_iff in K. destruct K as [K _]. apply leaves_length in K. unfold ravel. rewrite !flat_map_concat_map, concat_map, map_map. f_equal.
  assert (L' : length (leaves t) = n) by congruence. clear K. revert n L L' H. generalize (leaves t) (leaves u). clear.
  intros lt. induction lt as [|a lt IH]; intros [|b lu] n L L' H; cbn in L, L'; try (subst n; discriminate); [reflexivity|].
  destruct n as [|n]; [discriminate|]. cbn [map]. f_equal; [exact (H 0%nat d eq_refl)|]. apply (IH lu n); [lia|lia|]. intros i e He. exact (H (S i) e He).
Qed.
(** rounding keeps the leafwise order *)
Lemma rounded_le dts u u' t t' : (forall d r s, r <= s -> round d r <= round d s) -> length dts = length (leaves u) -> structure u = structure u' ->
  rounded round dts u t -> rounded round dts u' t' -> tree_le u u' -> tree_le t t'.
Proof.
  intros M L S1 [K H] [K' H'] T. apply same_kind_iff in K, K'. destruct K as [K _]. destruct K' as [K' _].
  pose proof (leaves_length _ _ K) as N1. pose proof (leaves_length _ _ K') as N2. pose proof (leaves_length _ _ S1) as N3. unfold tree_le in *.
  clear K K' S1. revert dts L H H' N1 N2. generalize (leaves t) (leaves t'). clear N3. induction T as [|a b lu lu' Hab _ IH]; intros lt lt' dts L H H' N1 N2.
  - destruct lt, lt'; try discriminate. constructor.
  - destruct lt as [|c lt], lt' as [|c' lt'], dts as [|d dts]; try discriminate. constructor.
    + rewrite (H 0%nat d eq_refl : data c = _), (H' 0%nat d eq_refl : data c' = _). cbn [nth]. clear -M Hab. induction Hab; constructor; auto.
    + apply (IH lt lt' dts); try (simpl in *; lia). intros i e He; exact (H (S i) e He). intros i e He; exact (H' (S i) e He).
Qed.
Lemma rounded_id dts x : length dts = length (leaves x) -> of_dtypes round dts x -> rounded round dts x x.
Proof.
  intros L O. split; [reflexivity|]. unfold of_dtypes in O. intros i d Hd. clear L. revert i d Hd. induction O as [|e a dts l H _ IH]; intros i d Hd; [destruct i; discriminate|].
  destruct i as [|i]; cbn in *; [injection Hd as <-|apply IH; exact Hd]. clear -H. induction H as [|r l Hr _ IH]; [reflexivity|]. cbn. rewrite Hr. f_equal. exact IH.
Qed.
End B.

(** ** Runs *)
Lemma play_events {A B O} (P : event -> Prop) f g (p : process A B O) :
  (forall x, Forall P (fst (f x))) -> (forall x, Forall P (fst (g x))) -> Forall P (fst (play f g p)).
Proof.
  intros F G. induction p as [o|e|x k IH|x k IH]; cbn [play]; [constructor|constructor| |].
  - specialize (F x). destruct (f x) as [ev [a|e]]; [|exact F]. specialize (IH a). destruct (play f g (k a)) as [ev' r]. cbn [fst] in *. apply Forall_app. split; assumption.
  - specialize (G x). destruct (g x) as [ev [a|e]]; [|exact G]. specialize (IH a). destruct (play f g (k a)) as [ev' r]. cbn [fst] in *. apply Forall_app. split; assumption.
Qed.
Lemma play_map {A B O} (m : event -> event) f g f' g' (p : process A B O) :
  (forall x, f' x = (map m (fst (f x)), snd (f x))) -> (forall x, g' x = (map m (fst (g x)), snd (g x))) ->
  play f' g' p = (map m (fst (play f g p)), snd (play f g p)).
Proof.
  intros F G. induction p as [o|e|x k IH|x k IH]; cbn [play]; [reflexivity|reflexivity| |].
  - rewrite F. destruct (f x) as [ev [a|e]]; cbn [fst snd]; [|reflexivity]. rewrite IH. destruct (play f g (k a)) as [ev' r]. cbn [fst snd]. rewrite map_app. reflexivity.
  - rewrite G. destruct (g x) as [ev [a|e]]; cbn [fst snd]; [|reflexivity]. rewrite IH. destruct (play f g (k a)) as [ev' r]. cbn [fst snd]. rewrite map_app. reflexivity.
Qed.

(** ** Exact arithmetic *)
Lemma to_jnp_exact init x : wf init -> nonempty init -> wf x -> same_kind x init ->
  to_jnp unit no_rounding (pytree_topology_from_example init) (repeat tt (length (leaves init))) (ravel x) = Ok x.
Proof.
  intros W Hn Wx Kx. destruct (to_jnp_ok no_rounding init (repeat tt (length (leaves init))) (ravel x) W Hn) as (u & t & Wu & Ku & Ru & -> & Wt & Kt & Rt); [apply repeat_length|apply ravel_length; assumption|].
  f_equal. apply ravel_inj; try assumption; [unfold same_kind in *; congruence|]. rewrite (rounded_uniform no_rounding tt (length (leaves init)) u t); [|apply leaves_length; apply same_kind_structure; exact Ku|exact Rt]. rewrite Ru. unfold no_rounding. apply map_id.
Qed.
Lemma to_onp_exact x : nonempty x -> to_onp (fun r => r) x = Ok (ravel x).
Proof. intros Hn. unfold to_onp. rewrite (jnp_ok _ Hn), map_id. reflexivity. Qed.
Lemma tree_of init v : wf init -> nonempty init -> length v = length (ravel init) -> exists x, wf x /\ same_kind x init /\ ravel x = v.
Proof. intros W Hn L. destruct (onp_ok init v W Hn L) as (t & _ & H). exists t. exact H. Qed.
(** the straight line through [x] *)
Lemma tree_path x t : wf x -> wf t -> same_kind t x -> exists path, (forall h, tree_add_scalar_mul x h t = Ok (path h)) /\
  (forall h, wf (path h) /\ same_kind (path h) x /\ ravel (path h) = vadd (ravel x) (smul h (ravel t))).
Proof.
  intros Wx Wt K. set (path h := match tree_add_scalar_mul x h t with Ok y => y | Err _ => x end). exists path.
  assert (H : forall h, tree_add_scalar_mul x h t = Ok (path h) /\ wf (path h) /\ same_kind (path h) x /\ ravel (path h) = vadd (ravel x) (smul h (ravel t))).
  { intros h. destruct (C40_arith x t h Wx Wt) as (_ & _ & _ & _ & (y & E1 & E2 & E3 & E4) & _); [unfold same_kind in *; congruence|]. unfold path. rewrite E1. auto. }
  split; intros h; apply H.
Qed.

(** ** Jacobians *)
Lemma jac_assembled (inp out : topology) (jac : ptree) (block : nat -> nat -> mat) :
  let n := length (top_shapes inp) in let m := length (top_shapes out) in
  let in_size j := size (nth j (top_shapes inp) []) in let out_size i := size (nth i (top_shapes out) []) in
  length (leaves jac) = (m * n)%nat ->
  (forall i j, (i < m)%nat -> (j < n)%nat -> mat_shape (out_size i) (in_size j) (block i j) /\ data (nth (j + i * n) (leaves jac) no_arr) = concat (block i j)) ->
  jac_jnp_to_onp inp out jac = Ok (concat (map (fun i => hcat (map (block i) (seq 0 n)) (out_size i)) (seq 0 m))).
Proof.
  intros n m in_size out_size Lj Hb.
  assert (Sz : forall p k, (k < length (top_shapes p))%nat -> nth k (top_sizes p) 0%nat = size (nth k (top_shapes p) [])).
  { intros p k Hk. unfold top_sizes. rewrite (nth_indep _ 0%nat (size [])) by (rewrite map_length; exact Hk). apply map_nth. }
  assert (Hrow : forall i, (i < m)%nat -> sequence (map (fun j => match nth_error (leaves jac) (j + i * n) with None => Err IndexError
          | Some x => if Nat.eqb (length (data x)) (nth i (top_sizes out) 0%nat * nth j (top_sizes inp) 0%nat) then Ok (to_rows (nth i (top_sizes out) 0%nat) (nth j (top_sizes inp) 0%nat) (data x)) else Err ValueError end) (seq 0 n)) = Ok (map (block i) (seq 0 n))).
  { intros i Hi. apply sequence_map. intros j Hj. apply in_seq in Hj. destruct (Hb i j Hi ltac:(lia)) as [B1 B2]. rewrite (nth_error_nth' _ no_arr) by (rewrite Lj; nia). rewrite B2, !Sz by (unfold n, m in *; lia). fold (in_size j) (out_size i). rewrite (concat_len _ _ _ B1), Nat.eqb_refl, to_rows_concat by exact B1. reflexivity. }
  unfold jac_jnp_to_onp. fold n m. cbv zeta. rewrite (sequence_map _ (fun i => hcat (map (block i) (seq 0 n)) (out_size i))); [reflexivity|].
  intros i Hi. apply in_seq in Hi. rewrite Hrow by lia. rewrite Sz by (unfold m in *; lia). reflexivity.
Qed.
Lemma hcat_shape rows : forall (ms : list mat) (cs : list nat), Forall2 (fun M c => mat_shape rows c M) ms cs -> mat_shape rows (list_sum cs) (hcat ms rows).
Proof.
  intros ms cs H. induction H as [|M c ms cs [H1 H2] _ [IH1 IH2]].
  - split; [apply repeat_length|]. apply Forall_forall. intros r Hr. apply repeat_spec in Hr. subst. reflexivity.
  - cbn [hcat list_sum fold_right]. fold (list_sum cs). split; [rewrite zip_length; [exact H1|exact (eq_trans H1 (eq_sym IH1))]|].
    clear H1 IH1. revert IH2. generalize (hcat ms rows). induction H2 as [|r M Hr _ IH]; intros [|q N] F; try constructor; inversion F; subst; [rewrite app_length; congruence|]. apply IH. assumption.
Qed.
Lemma flat_index (sizes : list nat) : forall e, (e < list_sum sizes)%nat -> exists i e', (i < length sizes)%nat /\ (e' < nth i sizes 0)%nat /\
  forall segs : list (list R), map (@length R) segs = sizes -> nth e (concat segs) 0 = nth e' (nth i segs []) 0.
Proof.
  induction sizes as [|s sizes IH]; intros e He; [cbn in He; lia|]. cbn [list_sum fold_right] in He. fold (list_sum sizes) in He. destruct (le_lt_dec s e) as [H|H].
  - destruct (IH (e - s)%nat ltac:(lia)) as (i & e' & H1 & H2 & H3). exists (S i), e'. split; [simpl; lia|]. split; [exact H2|]. intros [|a segs] E; [discriminate|]. cbn [map] in E. injection E as E1 E2. cbn [concat nth]. rewrite app_nth2 by lia. rewrite E1. apply H3. exact E2.
  - exists 0%nat, e. split; [simpl; lia|]. split; [exact H|]. intros [|a segs] E; [discriminate|]. cbn [map] in E. injection E as E1 E2. cbn [concat nth]. apply app_nth1. lia.
Qed.
Lemma fold_vadd_length m : forall l : list vec, Forall (fun v => length v = m) l -> length (fold_right vadd (vzero m) l) = m.
Proof. intros l H. induction H as [|v l Hv _ IH]; cbn; [apply vzero_length|]. apply vadd_length_eq; assumption. Qed.
Lemma fold_vadd_nth m e : forall l : list vec, Forall (fun v => length v = m) l -> nth e (fold_right vadd (vzero m) l) 0 = vsum (map (fun v => nth e v 0) l).
Proof.
  intros l H. induction H as [|v l Hv Hl IH]; cbn [fold_right map vsum]; [apply nth_vzero|]. rewrite <- IH. apply nth_vadd.
Qed.
