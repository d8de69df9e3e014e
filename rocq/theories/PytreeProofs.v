(** Lemmas about pytrees. *)
From Coq Require Import Reals List Lra Lia Bool Arith.
From Coq Require String.
From Verif Require Import Prelude Vec Mat Pytree.
Import ListNotations.
Open Scope R_scope.

Section Ind.
Context {A : Type}.
Variable P : tree A -> Prop.
Hypothesis HL : forall a, P (Leaf a).
Hypothesis HN : forall k cs, Forall P cs -> P (Node k cs).
Fixpoint tree_ind' (t : tree A) : P t :=
  match t with
  | Leaf a => HL a
  | Node k cs => HN k cs ((fix go (l : list (tree A)) : Forall P l := match l with [] => Forall_nil P | c :: l' => Forall_cons c (tree_ind' c) (go l') end) cs)
  end.
End Ind.

Lemma fmap_fmap {A B C} (f : A -> B) (g : B -> C) t : fmap g (fmap f t) = fmap (fun a => g (f a)) t.
Proof. induction t as [a|k cs IH] using tree_ind'; [reflexivity|]. cbn [fmap]. f_equal. rewrite map_map. induction IH as [|c cs Hc _ IH2]; [reflexivity|]. cbn [map]. f_equal; assumption. Qed.
Lemma fmap_ext {A B} (f g : A -> B) t : (forall a, f a = g a) -> fmap f t = fmap g t.
Proof. intros H. induction t as [a|k cs IH] using tree_ind'; [cbn; f_equal; apply H|]. cbn [fmap]. f_equal. induction IH as [|c cs Hc _ IH2]; [reflexivity|]. cbn [map]. f_equal; assumption. Qed.
Lemma structure_fmap {A B} (f : A -> B) t : structure (fmap f t) = structure t.
Proof. unfold structure. rewrite fmap_fmap. reflexivity. Qed.
Lemma structure_unit (d : treedef) : structure d = d.
Proof. induction d as [[]|k cs IH] using tree_ind'; [reflexivity|]. unfold structure in *. cbn [fmap]. f_equal. induction IH as [|c cs Hc _ IH2]; [reflexivity|]. cbn [map]. f_equal; assumption. Qed.
Lemma leaves_fmap {A B} (f : A -> B) t : leaves (fmap f t) = map f (leaves t).
Proof. induction t as [a|k cs IH] using tree_ind'; [reflexivity|]. cbn [fmap leaves]. induction IH as [|c cs Hc _ IH2]; [reflexivity|]. cbn [map flat_map]. rewrite Hc, IH2, map_app. reflexivity. Qed.
Lemma leaves_length {A B} (t : tree A) (u : tree B) : structure t = structure u -> length (leaves t) = length (leaves u).
Proof. intros H. assert (E := f_equal (fun s => length (leaves s)) H). unfold structure in E. rewrite !leaves_fmap, !map_length in E. exact E. Qed.

Lemma fill_spec {A} (d : treedef) : forall (l rest : list A), length l = length (leaves d) -> exists u, fill d (l ++ rest) = Some (u, rest) /\ structure u = d /\ leaves u = l.
Proof.
  induction d as [[]|k cs IH] using tree_ind'; intros l rest L.
  - destruct l as [|a [|]]; try discriminate. exists (Leaf a). repeat split.
  - cbn [leaves] in L. cbn [fill]. 
    assert (G : forall l rest, length l = length (flat_map leaves cs) -> exists us,
      (fix go (ds : list treedef) (l : list A) : option (list (tree A) * list A) := match ds with [] => Some ([], l)
        | d :: ds' => match fill d l with Some (t, l') => match go ds' l' with Some (ts, r) => Some (t :: ts, r) | None => None end | None => None end end) cs (l ++ rest) = Some (us, rest)
      /\ map structure us = cs /\ flat_map leaves us = l).
    { clear L l rest. induction IH as [|c cs Hc _ IH2]; intros l rest L.
      - destruct l; [|discriminate]. exists []. repeat split.
      - cbn [flat_map] in L. rewrite app_length in L. set (m := length (leaves c)) in *.
        destruct (Hc (firstn m l) (skipn m l ++ rest)) as (u & E1 & E2 & E3); [rewrite firstn_length; lia|]. rewrite app_assoc, firstn_skipn in E1.
        destruct (IH2 (skipn m l) rest) as (us & F1 & F2 & F3); [rewrite skipn_length; lia|]. exists (u :: us). rewrite E1, F1. split; [reflexivity|]. cbn [map flat_map]. split; [f_equal; assumption|]. rewrite E3, F3. apply firstn_skipn. }
    destruct (G l rest L) as (us & -> & G2 & G3). exists (Node k us). split; [reflexivity|]. split; [unfold structure; cbn [fmap]; f_equal; exact G2|exact G3].
Qed.
Lemma fill_inv {A} (d : treedef) : forall (l : list A) u r, fill d l = Some (u, r) -> structure u = d /\ l = leaves u ++ r.
Proof.
  induction d as [[]|k cs IH] using tree_ind'; intros l u r H.
  - destruct l as [|a l]; [discriminate|]. injection H as <- <-. split; reflexivity.
  - cbn [fill] in H. 
    assert (G : forall l us r, (fix go (ds : list treedef) (l : list A) : option (list (tree A) * list A) := match ds with [] => Some ([], l)
        | d :: ds' => match fill d l with Some (t, l') => match go ds' l' with Some (ts, r) => Some (t :: ts, r) | None => None end | None => None end end) cs l = Some (us, r) ->
        map structure us = cs /\ l = flat_map leaves us ++ r).
    { clear H l u r. induction IH as [|c cs Hc _ IH2]; intros l us r H.
      - injection H as <- <-. split; reflexivity.
      - destruct (fill c l) as [[t l']|] eqn:E; [|discriminate]. match type of H with match ?X with _ => _ end = _ => destruct X as [[ts r']|] eqn:E2; [|discriminate] end. injection H as <- <-.
        destruct (Hc _ _ _ E) as [H1 ->]. destruct (IH2 _ _ _ E2) as [H2 ->]. cbn [map flat_map]. split; [f_equal; assumption|apply app_assoc]. }
    match type of H with match ?X with _ => _ end = _ => destruct X as [[us r']|] eqn:E; [|discriminate] end. injection H as <- <-. destruct (G _ _ _ E) as [H1 H2]. split; [unfold structure; cbn [fmap]; f_equal; exact H1|exact H2].
Qed.
Lemma tree_ext {A} (t : tree A) : forall u, structure t = structure u -> leaves t = leaves u -> t = u.
Proof.
  intros u H1 H2. destruct (fill_spec (structure t) (leaves t) []) as (w & F & _ & _); [unfold structure; rewrite leaves_fmap, map_length; reflexivity|].
  assert (U : forall v : tree A, structure v = structure t -> leaves v = leaves t -> v = w).
  { clear u H1 H2. intros v H1 H2. rewrite <- H1, <- H2 in F. clear H1 H2 t. revert w F. generalize (@nil A). induction v as [a|k cs IH] using tree_ind'; intros r w F; cbn [structure fmap leaves app fill] in F; [injection F as <-; reflexivity|].
    match type of F with match ?X with _ => _ end = _ => destruct X as [[us r']|] eqn:E; [|discriminate] end. injection F as <- <-. f_equal. clear k.
    revert us r' E. induction IH as [|c cs Hc _ IH2]; intros us r' E; cbn [map flat_map app] in E; [congruence|].
    rewrite <- app_assoc in E. destruct (fill (fmap (fun _ => tt) c) (leaves c ++ flat_map leaves cs ++ r')) as [[x l']|] eqn:E1; [|discriminate].
    destruct (fill_spec (structure c) (leaves c) (flat_map leaves cs ++ r')) as (y & G1 & _); [unfold structure; rewrite leaves_fmap, map_length; reflexivity|].
    unfold structure in G1. assert (G2 : (x, l') = (y, flat_map leaves cs ++ r')) by congruence. injection G2 as -> ->.
    assert (Hy := Hc _ _ G1). subst y. match type of E with match ?X with _ => _ end = _ => destruct X as [[us' r'']|] eqn:E2; [|discriminate] end. injection E as <- ->. f_equal. apply (IH2 us' r'). exact E2. }
  rewrite (U t eq_refl eq_refl). symmetry. apply U; congruence.
Qed.
Lemma unflatten_ok {A} d (l : list A) t : unflatten d l = Ok t <-> structure t = d /\ leaves t = l.
Proof.
  unfold unflatten. split.
  - destruct (fill d l) as [[u [|]]|] eqn:E; intros H; try discriminate. injection H as ->. destruct (fill_inv _ _ _ _ E) as [H1 H2]. rewrite app_nil_r in H2. split; [exact H1|congruence].
  - intros [H1 H2]. subst d l. destruct (fill_spec (structure t) (leaves t) []) as (u & F & F1 & F2); [unfold structure; rewrite leaves_fmap, map_length; reflexivity|]. rewrite app_nil_r in F. rewrite F. f_equal. apply tree_ext; assumption.
Qed.
Lemma unflatten_err {A} d (l : list A) : length l <> length (leaves d) -> unflatten d l = Err ValueError.
Proof.
  intros H. destruct (unflatten d l) as [t|e] eqn:E.
  - exfalso. apply unflatten_ok in E. destruct E as [<- <-]. apply H. unfold structure. rewrite leaves_fmap, map_length. reflexivity.
  - unfold unflatten in E. destruct (fill d l) as [[u [|]]|]; congruence.
Qed.
Lemma unflatten_exists {A} d (l : list A) : length l = length (leaves d) -> exists t, unflatten d l = Ok t /\ structure t = d /\ leaves t = l.
Proof. intros H. destruct (fill_spec d l [] H) as (u & _ & H1 & H2). exists u. split; [apply unflatten_ok; split; assumption|split; assumption]. Qed.

Lemma sequence_map {A B} (f : A -> result B) (g : A -> B) l : (forall a, In a l -> f a = Ok (g a)) -> sequence (map f l) = Ok (map g l).
Proof. induction l as [|a l IH]; intros H; [reflexivity|]. cbn [map sequence]. rewrite (H a (or_introl eq_refl)), IH by (intros b Hb; apply H; right; exact Hb). reflexivity. Qed.
Lemma tree_map1_ok {A B} (f : A -> result B) (g : A -> B) t : (forall a, In a (leaves t) -> f a = Ok (g a)) -> tree_map1 f t = Ok (fmap g t).
Proof. intros H. unfold tree_map1. rewrite (sequence_map f g _ H). apply unflatten_ok. split; [apply structure_fmap|apply leaves_fmap]. Qed.

Lemma flatten_up_to_same {A B} (t : tree A) : forall (u : tree B), structure t = structure u -> flatten_up_to t u = Ok (map Leaf (leaves u)).
Proof.
  induction t as [a|k cs IH] using tree_ind'; intros [b|k' cs'] H; unfold structure in H; cbn [fmap] in H; try discriminate; [reflexivity|]. injection H as <- H. cbn [flatten_up_to]. rewrite String.eqb_refl. cbn [leaves]. clear k.
  revert cs' H. induction IH as [|c cs Hc _ IH2]; intros [|c' cs'] H; try discriminate; [reflexivity|]. cbn [map] in H. injection H as H1 H2. rewrite (Hc c' H1), (IH2 cs' H2). cbn [flat_map]. rewrite map_app. reflexivity.
Qed.
Lemma flatten_up_to_inv {A B} (t : tree A) : forall (u : tree B) us, flatten_up_to t u = Ok us -> (forall v, In v us -> exists b, v = Leaf b) -> structure t = structure u.
Proof.
  induction t as [a|k cs IH] using tree_ind'; intros u us H HL.
  - injection H as <-. destruct (HL u (or_introl eq_refl)) as (b & ->). reflexivity.
  - destruct u as [b|k' cs']; [discriminate|]. cbn [flatten_up_to] in H. destruct (String.eqb k k') eqn:E; [|discriminate]. apply String.eqb_eq in E. subst k'. unfold structure. cbn [fmap]. f_equal. clear k.
    revert cs' us H HL. induction IH as [|c cs Hc _ IH2]; intros [|c' cs'] us H HL; try discriminate; [reflexivity|]. destruct (flatten_up_to c c') as [x|] eqn:E1; [|discriminate].
    match type of H with match ?X with _ => _ end = _ => destruct X as [y|] eqn:E2; [|discriminate] end. injection H as <-. cbn [map]. f_equal.
    + apply (Hc c' x E1). intros v Hv. apply HL. apply in_or_app. left. exact Hv.
    + apply (IH2 cs' y E2). intros v Hv. apply HL. apply in_or_app. right. exact Hv.
Qed.
Lemma flatten_up_to_length {A B} (t : tree A) : forall (u : tree B) us, flatten_up_to t u = Ok us -> length us = length (leaves t).
Proof.
  induction t as [a|k cs IH] using tree_ind'; intros u us H; [injection H as <-; reflexivity|]. destruct u as [b|k' cs']; [discriminate|]. cbn [flatten_up_to] in H. destruct (String.eqb k k'); [|discriminate]. cbn [leaves].
  revert cs' us H. induction IH as [|c cs Hc _ IH2]; intros [|c' cs'] us H; try discriminate; [injection H as <-; reflexivity|]. destruct (flatten_up_to c c') as [x|] eqn:E1; [|discriminate].
  match type of H with match ?X with _ => _ end = _ => destruct X as [y|] eqn:E2; [|discriminate] end. injection H as <-. cbn [flat_map]. rewrite !app_length. rewrite (Hc _ _ E1), (IH2 _ _ E2). reflexivity.
Qed.
Lemma zip_map_r {A B C D} (f : A -> B -> C) (g : D -> B) l l' : zip_with f l (map g l') = zip_with (fun a d => f a (g d)) l l'.
Proof. revert l'. induction l as [|a l IH]; intros [|b l']; try reflexivity. cbn. f_equal. apply IH. Qed.
Lemma sequence_zip {A B C} (f : A -> B -> result C) (g : A -> B -> C) l l' : Forall2 (fun a b => f a b = Ok (g a b)) l l' -> sequence (zip_with f l l') = Ok (zip_with g l l').
Proof. induction 1 as [|a b l l' H _ IH]; [reflexivity|]. cbn [zip_with sequence]. rewrite H, IH. reflexivity. Qed.
Lemma zip_length {A B C} (f : A -> B -> C) l l' : length l = length l' -> length (zip_with f l l') = length l.
Proof. revert l'. induction l as [|a l IH]; intros [|b l'] H; try discriminate; [reflexivity|]. cbn. f_equal. apply IH. simpl in H. lia. Qed.
(** the general form of a binary operation on trees of the same structure *)
Lemma tree_map2_ok {A B C} (f : A -> tree B -> result C) (g : A -> B -> C) t u : structure t = structure u -> Forall2 (fun a b => f a (Leaf b) = Ok (g a b)) (leaves t) (leaves u) ->
  exists w, tree_map2 f t u = Ok w /\ structure w = structure t /\ leaves w = zip_with g (leaves t) (leaves u).
Proof.
  intros H HF. unfold tree_map2. rewrite (flatten_up_to_same t u H), zip_map_r, (sequence_zip _ g _ _ HF). apply unflatten_exists. rewrite zip_length by (apply leaves_length; exact H).
  unfold structure. rewrite leaves_fmap, map_length. reflexivity.
Qed.
(** results only exist for trees of the same structure *)
Lemma sequence_in {A B C} (f : A -> B -> result C) l l' r : sequence (zip_with f l l') = Ok r -> length l = length l' -> forall b, In b l' -> exists a c, f a b = Ok c.
Proof.
  revert l' r. induction l as [|a l IH]; intros [|b l'] r H L x Hx; try discriminate; [destruct Hx|]. cbn [zip_with sequence] in H. destruct (f a b) as [c|] eqn:E; [|discriminate]. destruct (sequence (zip_with f l l')) as [r'|] eqn:E2; [|discriminate].
  destruct Hx as [<-|Hx]; [exists a, c; exact E|]. apply (IH l' r' E2); [simpl in L; lia|exact Hx].
Qed.
Lemma tree_map2_structure {E F G} (f : arr E -> arr F -> result G) t u w : tree_map2 (on_arrays f) t u = Ok w -> structure t = structure u /\ structure w = structure t.
Proof.
  unfold tree_map2. intros H. destruct (flatten_up_to t u) as [us|] eqn:E1; [|discriminate]. destruct (sequence _) as [l|] eqn:E2; [|discriminate]. apply unflatten_ok in H. split; [|apply H].
  apply (flatten_up_to_inv t u us E1). intros v Hv. destruct (sequence_in _ _ _ _ E2 (eq_sym (flatten_up_to_length _ _ _ E1)) v Hv) as (a & c & K). destruct v as [b|]; [exists b; reflexivity|discriminate].
Qed.

(** ** Arrays *)
Lemma same_kind_structure x y : same_kind x y -> structure x = structure y.
Proof. intros H. apply (f_equal structure) in H. rewrite !structure_fmap in H. exact H. Qed.
Lemma same_kind_iff x y : same_kind x y <-> structure x = structure y /\ map shape (leaves x) = map shape (leaves y).
Proof.
  split.
  - intros H. split; [apply same_kind_structure; exact H|]. apply (f_equal leaves) in H. rewrite !leaves_fmap in H. exact H.
  - intros [H1 H2]. apply tree_ext; [rewrite !structure_fmap; exact H1|rewrite !leaves_fmap; exact H2].
Qed.
Lemma shape_eqb_refl s : shape_eqb s s = true. Proof. unfold shape_eqb. destruct (list_eq_dec _ _ _); congruence. Qed.
Lemma Forall2_shapes x y : same_kind x y -> Forall2 (fun a b : arr R => shape a = shape b) (leaves x) (leaves y).
Proof.
  intros H. apply same_kind_iff in H. destruct H as [_ H]. revert H. generalize (leaves y). induction (leaves x) as [|a l IH]; intros [|b l'] H; try discriminate; constructor; cbn [map] in H; [congruence|]. apply IH. congruence.
Qed.
Lemma zip_flat {E} (f : R -> R -> E) l l' : Forall2 (fun a b : arr R => length (data a) = length (data b)) l l' ->
  flat_map data (zip_with (fun a b : arr R => mk_arr (shape a) (zip_with f (data a) (data b))) l l') = zip_with f (flat_map data l) (flat_map data l').
Proof.
  induction 1 as [|a b l l' H _ IH]; [reflexivity|]. cbn [zip_with flat_map data]. rewrite IH. clear IH. revert H. generalize (data a) (data b). intros u v H. revert v H. induction u as [|s u IH]; intros [|t v] H; try discriminate; [reflexivity|]. cbn. f_equal. apply IH. simpl in H. lia.
Qed.
Lemma ravel_kind x y : wf x -> wf y -> same_kind x y -> Forall2 (fun a b : arr R => length (data a) = length (data b)) (leaves x) (leaves y).
Proof.
  unfold wf. intros Hx Hy H. apply Forall2_shapes in H. induction H as [|a b l l' H _ IH]; [constructor|]. inversion Hx; inversion Hy; subst. constructor; [congruence|]. apply IH; assumption.
Qed.
Lemma ravel_length x y : wf x -> wf y -> same_kind x y -> length (ravel x) = length (ravel y).
Proof. intros Hx Hy H. assert (F := ravel_kind x y Hx Hy H). unfold ravel. induction F as [|a b l l' E _ IH] in Hx, Hy |- *; [reflexivity|]. cbn [flat_map]. rewrite !app_length, E. f_equal. apply IH; assumption. Qed.
Lemma ravel_inj x y : wf x -> wf y -> same_kind x y -> ravel x = ravel y -> x = y.
Proof.
  intros Hx Hy H E. assert (F := ravel_kind x y Hx Hy H). assert (S2 := Forall2_shapes x y H). apply tree_ext; [apply same_kind_structure; exact H|]. unfold ravel in E. clear Hx Hy H.
  induction F as [|a b l l' L _ IH]; [reflexivity|]. inversion S2; subst. cbn [flat_map] in E.
  assert (E1 : data a = data b).
  { assert (E' := f_equal (firstn (length (data a))) E). rewrite firstn_app, firstn_all, Nat.sub_diag in E'. rewrite L, firstn_app, firstn_all, Nat.sub_diag in E'. simpl in E'. rewrite !app_nil_r in E'. exact E'. }
  rewrite E1 in E. apply app_inv_head in E. f_equal; [|apply IH; assumption]. destruct a, b. cbn in *. congruence.
Qed.
Lemma bin_tree (f : R -> R -> R) x y : wf x -> wf y -> same_kind x y ->
  exists t, tree_map2 (on_arrays (bin_op f)) x y = Ok t /\ same_kind t x /\ wf t /\ ravel t = zip_with f (ravel x) (ravel y).
Proof.
  intros Hx Hy H. assert (F := ravel_kind x y Hx Hy H). assert (S2 := Forall2_shapes x y H).
  destruct (tree_map2_ok (on_arrays (bin_op f)) (fun a b => mk_arr (shape a) (zip_with f (data a) (data b))) x y (same_kind_structure x y H)) as (t & E & E1 & E2).
  { clear -S2. induction S2 as [|a b l l' L _ IH]; constructor; [|exact IH]. cbn [on_arrays]. unfold bin_op. rewrite L, shape_eqb_refl. reflexivity. }
  exists t. split; [exact E|]. split; [|split].
  - apply same_kind_iff. split; [exact E1|]. rewrite E2. clear -F. induction F as [|a b l l' _ _ IH]; [reflexivity|]. cbn. f_equal. exact IH.
  - unfold wf in *. rewrite E2. clear -F Hx. induction F as [|a b l l' L _ IH]; [constructor|]. inversion Hx; subst. cbn [zip_with]. constructor; [|apply IH; assumption]. cbn [data shape]. rewrite zip_length by exact L. assumption.
  - unfold ravel. rewrite E2. apply zip_flat. exact F.
Qed.
Lemma zip_vadd x y : length x = length y -> zip_with Rplus x y = vadd x y.
Proof. revert y. induction x as [|a x IH]; intros [|b y] H; try discriminate; [reflexivity|]. cbn. f_equal. apply IH. simpl in H. lia. Qed.
Lemma zip_vsub x y : length x = length y -> zip_with Rminus x y = vsub x y.
Proof. revert y. induction x as [|a x IH]; intros [|b y] H; try discriminate; [reflexivity|]. cbn. f_equal. apply IH. simpl in H. lia. Qed.
Lemma zip_asm s x y : length x = length y -> zip_with (fun a b => a + s * b) x y = vadd x (smul s y).
Proof. revert y. induction x as [|a x IH]; intros [|b y] H; try discriminate; [reflexivity|]. cbn. f_equal. apply IH. simpl in H. lia. Qed.
Lemma ravel_fmap (g : R -> R) x : ravel (fmap (fun a => mk_arr (shape a) (map g (data a))) x) = map g (ravel x).
Proof. unfold ravel. rewrite leaves_fmap. induction (leaves x) as [|a l IH]; [reflexivity|]. cbn [map flat_map data]. rewrite IH, map_app. reflexivity. Qed.
Lemma fmap_kind (g : R -> R) x : same_kind (fmap (fun a => mk_arr (shape a) (map g (data a))) x) x.
Proof. unfold same_kind. rewrite fmap_fmap. reflexivity. Qed.
Lemma fmap_wf (g : R -> R) x : wf x -> wf (fmap (fun a => mk_arr (shape a) (map g (data a))) x).
Proof. unfold wf. rewrite leaves_fmap. induction 1 as [|a l H _ IH]; constructor; [cbn [data shape]; rewrite map_length; exact H|exact IH]. Qed.
Lemma fold_plus l a : fold_left Rplus l a = a + vsum l.
Proof. revert a. induction l as [|b l IH]; intros a; cbn [fold_left vsum]; [lra|]. rewrite IH. lra. Qed.
Lemma reduce_add_ok l : l <> [] -> reduce_add l = Ok (vsum l).
Proof. destruct l as [|a l]; [congruence|]. intros _. cbn [reduce_add vsum]. rewrite fold_plus. reflexivity. Qed.
Lemma vsum_flat l : vsum (map (fun x : arr R => vsum (data x)) l) = vsum (flat_map data l).
Proof. induction l as [|a l IH]; [reflexivity|]. cbn [map vsum flat_map]. rewrite vsum_app, IH. reflexivity. Qed.
Lemma tree_sum_ok t : nonempty t -> tree_sum t = Ok (vsum (ravel t)).
Proof.
  intros H. unfold tree_sum. rewrite (tree_map1_ok _ (fun x => vsum (data x))) by reflexivity. rewrite reduce_add_ok, leaves_fmap, vsum_flat; [reflexivity|]. rewrite leaves_fmap. intros C. apply map_eq_nil in C. exact (H C).
Qed.
Lemma nonempty_fmap (g : arr R -> arr R) t : nonempty t -> nonempty (fmap g t).
Proof. unfold nonempty. rewrite leaves_fmap. intros H C. apply map_eq_nil in C. exact (H C). Qed.
Lemma dot_map_sq v : vsum (map (fun a => a * a + 0 * 0) v) = dot v v.
Proof. induction v as [|a v IH]; [reflexivity|]. cbn [map vsum dot]. rewrite IH. ring. Qed.
