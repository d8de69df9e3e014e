(** C40, C41: pytree arithmetic and the SciPy bridge. *)
From Coq Require Import Reals List Lra Lia Bool Arith.
From Coq Require String.
From Verif Require Import Prelude Vec Mat Pytree PytreeProofs.
Import ListNotations.
Open Scope R_scope.

(** ** C40 *)
Theorem C40_arith (x y : ptree) (s : R) : wf x -> wf y -> same_kind x y ->
  let acts (r : result ptree) (v : vec) := exists t, r = Ok t /\ same_kind t x /\ wf t /\ ravel t = v in
  acts (tree_add x y) (vadd (ravel x) (ravel y)) /\
  acts (tree_sub x y) (vsub (ravel x) (ravel y)) /\
  acts (tree_mul x y) (map (fun p => fst p * snd p) (combine (ravel x) (ravel y))) /\
  acts (tree_scalar_mul s x) (smul s (ravel x)) /\
  acts (tree_add_scalar_mul x s y) (vadd (ravel x) (smul s (ravel y))) /\
  acts (tree_negative x) (smul (-1) (ravel x)) /\
  acts (tree_zeros_like x) (vzero (length (ravel x))) /\
  acts (tree_ones_like x) (repeat 1 (length (ravel x))).
Proof.
  intros Hx Hy H acts. assert (L := ravel_length x y Hx Hy H).
  assert (U : forall g, acts (tree_map1 (fun a => Ok (mk_arr (shape a) (map g (data a)))) x) (map g (ravel x))).
  { intros g. exists (fmap (fun a => mk_arr (shape a) (map g (data a))) x). split; [apply tree_map1_ok; reflexivity|]. split; [apply fmap_kind|]. split; [apply fmap_wf; exact Hx|apply ravel_fmap]. }
  assert (K : forall (c : R) (v : vec), map (fun _ : R => c) v = repeat c (length v)) by (intros c v; induction v as [|a v IH]; [reflexivity|cbn; f_equal; exact IH]).
  split; [unfold acts; rewrite <- zip_vadd by exact L; apply bin_tree; assumption|].
  split; [unfold acts; rewrite <- zip_vsub by exact L; apply bin_tree; assumption|].
  split.
  { assert (E : map (fun p => fst p * snd p) (combine (ravel x) (ravel y)) = zip_with Rmult (ravel x) (ravel y)).
    { generalize (ravel x) (ravel y). intros l. induction l as [|a l IH]; intros [|b l']; try reflexivity. cbn. f_equal. apply IH. }
    rewrite E. apply bin_tree; assumption. }
  split; [apply (U (fun t => s * t))|].
  split; [unfold acts; rewrite <- zip_asm by exact L; apply bin_tree; assumption|].
  split; [apply (U (fun t => -1 * t))|].
  split; [assert (G := U (fun _ => 0)); cbv beta in G; rewrite K in G; exact G|assert (G := U (fun _ => 1)); cbv beta in G; rewrite K in G; exact G].
Qed.
Print Assumptions C40_arith.

(** No silent mixing: a result exists only for trees with the same containers. *)
Theorem C40_mismatch (x y : ptree) (s : R) : structure x <> structure y ->
  (forall t, tree_add x y <> Ok t) /\ (forall t, tree_sub x y <> Ok t) /\ (forall t, tree_mul x y <> Ok t) /\
  (forall t, tree_add_scalar_mul x s y <> Ok t) /\ (forall r, tree_vdot x y <> Ok r) /\ (forall r, tree_vdot_real x y <> Ok r).
Proof.
  intros H. repeat split; intros t E.
  1-4: apply H; apply (tree_map2_structure _ _ _ _ E).
  - unfold tree_vdot in E. destruct (tree_map2 (on_arrays vdot) x y) as [w|] eqn:E2; [|discriminate]. apply H. apply (tree_map2_structure _ _ _ _ E2).
  - unfold tree_vdot_real in E. destruct (tree_map2 (on_arrays vdot) x y) as [w|] eqn:E2; [|discriminate]. apply H. apply (tree_map2_structure _ _ _ _ E2).
Qed.
Print Assumptions C40_mismatch.

Lemma vdot_tree x y : wf x -> wf y -> same_kind x y -> exists w, tree_map2 (on_arrays vdot) x y = Ok w /\ leaves w = zip_with (fun a b => dot (data a) (data b)) (leaves x) (leaves y).
Proof.
  intros Hx Hy H. destruct (tree_map2_ok (on_arrays vdot) (fun a b => dot (data a) (data b)) x y (same_kind_structure x y H)) as (w & E & _ & E2); [|exists w; split; assumption].
  assert (F := ravel_kind x y Hx Hy H). clear -F. induction F as [|a b l l' L _ IH]; constructor; [|exact IH]. cbn [on_arrays]. unfold vdot. rewrite L, Nat.eqb_refl. reflexivity.
Qed.
Lemma vsum_dots l l' : Forall2 (fun a b : arr R => length (data a) = length (data b)) l l' -> vsum (zip_with (fun a b : arr R => dot (data a) (data b)) l l') = dot (flat_map data l) (flat_map data l').
Proof. induction 1 as [|a b l l' L _ IH]; [reflexivity|]. cbn [zip_with vsum flat_map]. rewrite dot_app by exact L. rewrite IH. reflexivity. Qed.

Theorem C40_vdot (x y : ptree) : wf x -> wf y -> same_kind x y ->
  (nonempty x -> tree_vdot x y = Ok (dot (ravel x) (ravel y))) /\ tree_vdot_real x y = Ok (dot (ravel x) (ravel y)).
Proof.
  intros Hx Hy H. destruct (vdot_tree x y Hx Hy H) as (w & E & E2). assert (F := ravel_kind x y Hx Hy H). unfold tree_vdot, tree_vdot_real. rewrite E, E2. split.
  - intros Hn. unfold nonempty in Hn. rewrite reduce_add_ok; [f_equal; apply vsum_dots; exact F|]. destruct F; [congruence|discriminate].
  - rewrite fold_plus, Rplus_0_l. f_equal. apply vsum_dots. exact F.
Qed.
Print Assumptions C40_vdot.

Theorem C40_reductions (x : ptree) : wf x -> nonempty x ->
  tree_sum x = Ok (vsum (ravel x)) /\
  tree_l2_norm x false = Ok (norm2 (ravel x)) /\
  tree_l2_norm x true = Ok (dot (ravel x) (ravel x)).
Proof.
  intros Hx Hn. split; [apply tree_sum_ok; exact Hn|]. unfold tree_l2_norm. rewrite (tree_map1_ok _ (fun a => mk_arr (shape a) (map (fun r => r * r + 0 * 0) (data a)))) by reflexivity.
  rewrite tree_sum_ok by (apply nonempty_fmap; exact Hn). rewrite ravel_fmap, dot_map_sq. split; reflexivity.
Qed.
Print Assumptions C40_reductions.

Lemma fold_Rmax l : forall a, let m := fold_left Rmax l a in a <= m /\ (forall r, In r l -> r <= m) /\ (m = a \/ In m l).
Proof.
  induction l as [|b l IH]; intros a m; cbn [fold_left] in m; [split; [subst m; lra|split; [intros r []|left; reflexivity]]|].
  destruct (IH (Rmax a b)) as (H1 & H2 & H3). fold m in H1, H2, H3. assert (A := Rmax_l a b). assert (B := Rmax_r a b). split; [lra|]. split.
  - intros r [<-|Hr]; [lra|apply H2; exact Hr].
  - destruct H3 as [H3|H3]; [|right; right; exact H3]. unfold Rmax in H3. destruct (Rle_dec a b); [right; left; symmetry; exact H3|left; exact H3].
Qed.
(** The infinity norm is the largest modulus of an entry. *)
Theorem C40_inf_norm (x : ptree) : ravel x <> [] ->
  exists m, tree_inf_norm x = Ok m /\ (forall r, In r (ravel x) -> Rabs r <= m) /\ exists r, In r (ravel x) /\ m = Rabs r.
Proof.
  intros H. unfold tree_inf_norm. unfold ravel in *. destruct (leaves x) as [|a0 l0] eqn:E; [exfalso; apply H; reflexivity|]. destruct (flat_map data (a0 :: l0)) as [|b l] eqn:F; [congruence|]. cbn [map].
  exists (fold_left Rmax (map Rabs l) (Rabs b)). split; [reflexivity|]. destruct (fold_Rmax (map Rabs l) (Rabs b)) as (H1 & H2 & H3). split.
  - intros r [<-|Hr]; [exact H1|]. apply H2. apply in_map. exact Hr.
  - destruct H3 as [H3|H3]; [exists b; split; [left; reflexivity|exact H3]|]. apply in_map_iff in H3. destruct H3 as (r & H4 & H5). exists r. split; [right; exact H5|symmetry; exact H4].
Qed.
Print Assumptions C40_inf_norm.

(** A tree without leaves: the reductions raise instead of returning the neutral element, except for vdot_real. *)
Theorem C40_empty_refuted (x : ptree) : leaves x = [] ->
  tree_sum x = Err TypeError /\ tree_l2_norm x false = Err TypeError /\ tree_l2_norm x true = Err TypeError /\ tree_vdot x x = Err TypeError /\
  tree_inf_norm x = Err ValueError /\ tree_vdot_real x x = Ok 0.
Proof.
  intros H. assert (N : forall g, tree_map1 g x = Ok (fmap (fun a : arr R => a) x)) by (intros g; unfold tree_map1; rewrite H; cbn [map sequence]; apply unflatten_ok; split; [apply structure_fmap|rewrite leaves_fmap, H; reflexivity]).
  assert (S0 : forall t : ptree, leaves t = [] -> tree_sum t = Err TypeError).
  { intros t Ht. unfold tree_sum. rewrite (tree_map1_ok _ (fun a => vsum (data a))) by reflexivity. rewrite leaves_fmap, Ht. reflexivity. }
  split; [apply S0; exact H|]. unfold tree_l2_norm. rewrite N, S0 by (rewrite leaves_fmap, H; reflexivity). split; [reflexivity|]. split; [reflexivity|].
  unfold tree_vdot, tree_vdot_real, tree_map2. rewrite (flatten_up_to_same x x eq_refl), H. cbn [map zip_with sequence]. destruct (unflatten_exists (structure x) (@nil R)) as (t & -> & _ & Ht); [unfold structure; rewrite leaves_fmap, H; reflexivity|].
  rewrite Ht. unfold tree_inf_norm. rewrite H. repeat split.
Qed.
Print Assumptions C40_empty_refuted.

(** The mean of the leaf means; it is the mean of all entries when the leaves have the same size. *)
Theorem C40_mean (x : ptree) : nonempty x ->
  tree_mean x = Ok (mean (map (fun a => mean (data a)) (leaves x))) /\
  (forall k, (0 < k)%nat -> Forall (fun a => length (data a) = k) (leaves x) -> tree_mean x = Ok (mean (ravel x))).
Proof.
  intros Hn. assert (E : tree_mean x = Ok (mean (map (fun a => mean (data a)) (leaves x)))).
  { unfold tree_mean. rewrite (tree_map1_ok _ (fun a => mk_arr [] [mean (data a)])) by reflexivity. rewrite tree_sum_ok by (apply nonempty_fmap; exact Hn). f_equal. unfold ravel. rewrite leaves_fmap, map_length.
    assert (Q : forall l : list (arr R), flat_map data (map (fun a => mk_arr [] [mean (data a)]) l) = map (fun a => mean (data a)) l) by (intros l; induction l as [|a l IH]; [reflexivity|]; cbn [map flat_map app data]; f_equal; exact IH).
    rewrite Q. unfold mean at 2. rewrite map_length. reflexivity. }
  split; [exact E|]. intros k Hk HF. rewrite E. f_equal. unfold mean, ravel. rewrite map_length. unfold nonempty in Hn.
  assert (Hlen : length (flat_map data (leaves x)) = (length (leaves x) * k)%nat) by (clear -HF; induction HF as [|a l H _ IH]; [reflexivity|]; cbn [flat_map length]; rewrite app_length, IH, H; lia).
  assert (Hs : INR k * vsum (map (fun a : arr R => vsum (data a) / INR (length (data a))) (leaves x)) = vsum (flat_map data (leaves x))).
  { clear -HF Hk. assert (INR k <> 0) by (apply not_0_INR; lia). induction HF as [|a l H1 _ IH]; [cbn; ring|]. cbn [map vsum flat_map]. rewrite vsum_app, <- IH, H1. field. assumption. }
  rewrite <- Hs, Hlen, mult_INR. field. split; [apply not_0_INR; lia|]. destruct (leaves x); [congruence|]. apply not_0_INR. discriminate.
Qed.
Print Assumptions C40_mean.
Theorem C40_mean_refuted : exists x : ptree, wf x /\ nonempty x /\ tree_mean x = Ok 1 /\ mean (ravel x) = 2 / 3.
Proof.
  exists (Node String.EmptyString [Leaf (mk_arr [1%nat] [2]); Leaf (mk_arr [2%nat] [0; 0])]). split; [repeat constructor|]. split; [discriminate|]. split.
  - match goal with |- tree_mean ?x = _ => assert (N : nonempty x) by discriminate; rewrite (proj1 (C40_mean x N)) end. f_equal. unfold mean. cbn. field.
  - unfold mean. cbn. field.
Qed.
Print Assumptions C40_mean_refuted.

(** *** Stacked trees *)
Lemma seg_flat {A} (f : A -> vec) w (d : A) ts i : Forall (fun u => length (f u) = w) ts -> (i < length ts)%nat -> firstn w (skipn (i * w) (flat_map f ts)) = f (nth i ts d).
Proof.
  intros H. revert i. induction H as [|u ts Hu _ IH]; intros i Hi; [simpl in Hi; lia|]. cbn [flat_map]. destruct i as [|i].
  - cbn [Nat.mul skipn nth]. rewrite firstn_app, Hu, Nat.sub_diag, <- Hu, firstn_all. cbn. apply app_nil_r.
  - cbn [nth]. rewrite <- (IH i) by (simpl in Hi; lia). f_equal. rewrite skipn_app, Hu. replace (S i * w - w)%nat with (i * w)%nat by lia. rewrite skipn_all2 by lia. reflexivity.
Qed.
Lemma leaf_size u x0 l : wf u -> same_kind u x0 -> (l < length (leaves x0))%nat -> length (data (nth l (leaves u) no_arr)) = size (shape (nth l (leaves x0) no_arr)) /\ shape (nth l (leaves u) no_arr) = shape (nth l (leaves x0) no_arr).
Proof.
  intros W K Hl. apply same_kind_iff in K. destruct K as [K1 K2]. assert (L := leaves_length u x0 K1).
  assert (E : shape (nth l (leaves u) no_arr) = shape (nth l (leaves x0) no_arr)) by (rewrite <- !(map_nth (@shape R)), K2; reflexivity). split; [|exact E].
  rewrite <- E. apply (proj1 (Forall_forall _ _) W). apply nth_In. lia.
Qed.
Lemma stacked_len x0 ts T l : stacked x0 ts T -> (l < length (leaves x0))%nat -> length (data (nth l (leaves T) no_arr)) = (length ts * size (shape (nth l (leaves x0) no_arr)))%nat.
Proof.
  intros (HF & S2 & HT) Hl. assert (L := leaves_length T x0 S2). destruct (HT l ltac:(lia)) as [_ ->]. clear HT. induction HF as [|u ts [Hk Hw] _ IH]; [reflexivity|]. cbn [flat_map length]. rewrite app_length, IH, (proj1 (leaf_size u x0 l Hw Hk Hl)). lia.
Qed.
Lemma slice_stacked x0 ts T i : stacked x0 ts T -> (i < length ts)%nat -> fmap (fun x => slice (length ts) x i) T = nth i ts x0.
Proof.
  intros HS Hi. assert (HS' := HS). destruct HS as (HF & S2 & HT). assert (Hu : same_kind (nth i ts x0) x0 /\ wf (nth i ts x0)) by (apply (proj1 (Forall_forall _ _) HF); apply nth_In; exact Hi). destruct Hu as [Ku Wu].
  assert (L := leaves_length T x0 S2). assert (Lu := leaves_length _ _ (same_kind_structure _ _ Ku)).
  apply tree_ext; [rewrite structure_fmap, S2; symmetry; apply same_kind_structure; exact Ku|]. rewrite leaves_fmap. apply (nth_ext _ _ (slice (length ts) no_arr i) no_arr); [rewrite map_length; lia|]. intros l Hl. rewrite map_length in Hl. rewrite (map_nth (fun x => slice (length ts) x i)).
  assert (Hl0 : (l < length (leaves x0))%nat) by lia. assert (SL := stacked_len x0 ts T l HS' Hl0). destruct (HT l Hl) as [E1 E2]. destruct (leaf_size _ x0 l Wu Ku Hl0) as [E3 E4]. unfold slice.
  rewrite SL, E1. cbn [tl]. rewrite Nat.mul_comm, Nat.div_mul by lia. rewrite E2, (seg_flat _ _ x0) by (try exact Hi; apply Forall_forall; intros u Hin; destruct (proj1 (Forall_forall _ _) HF u Hin) as [A B]; apply (leaf_size u x0 l B A Hl0)).
  rewrite <- E4. destruct (nth l (leaves (nth i ts x0)) no_arr). reflexivity.
Qed.
Lemma vadd_flat {A} (f g : A -> vec) l : (forall a, In a l -> length (f a) = length (g a)) -> flat_map (fun a => vadd (f a) (g a)) l = vadd (flat_map f l) (flat_map g l).
Proof.
  induction l as [|a l IH]; intros H; [reflexivity|]. cbn [flat_map]. rewrite IH by (intros b Hb; apply H; right; exact Hb). assert (E := H a (or_introl eq_refl)). revert E. generalize (f a) (g a). intros v. induction v as [|r v IHv]; intros [|q w] E; try discriminate; [reflexivity|]. cbn. f_equal. apply IHv. simpl in E. lia.
Qed.
Lemma smul_flat {A} c (f : A -> vec) l : flat_map (fun a => smul c (f a)) l = smul c (flat_map f l).
Proof. induction l as [|a l IH]; [reflexivity|]. cbn [flat_map]. rewrite IH. symmetry. apply map_app. Qed.
Lemma vzero_flat {A} (k : A -> nat) l : flat_map (fun a => vzero (k a)) l = vzero (list_sum (map k l)).
Proof. induction l as [|a l IH]; [reflexivity|]. cbn [flat_map map list_sum fold_right]. rewrite IH. unfold vzero. rewrite <- repeat_app. reflexivity. Qed.
Lemma lincomb_length n ws vs : Forall (fun v => length v = n) vs -> length (lincomb n ws vs) = n.
Proof. intros H. revert ws. unfold lincomb. induction H as [|v vs Hv _ IH]; intros [|w ws]; cbn [zip_with fold_right]; try apply vzero_length. rewrite vadd_length, smul_length, IH. lia. Qed.
Lemma lincomb_flat {A U} (k : A -> nat) (G : A -> U -> vec) l us : (forall a u, In a l -> In u us -> length (G a u) = k a) -> forall ws,
  flat_map (fun a => lincomb (k a) ws (map (G a) us)) l = lincomb (list_sum (map k l)) ws (map (fun u => flat_map (fun a => G a u) l) us).
Proof.
  intros HG. induction us as [|u us IH]; intros ws.
  - unfold lincomb. destruct ws; cbn [map zip_with fold_right]; apply vzero_flat.
  - destruct ws as [|w ws]; [apply vzero_flat|]. unfold lincomb. cbn [map zip_with fold_right].
    rewrite (vadd_flat (fun a => smul w (G a u)) (fun a => lincomb (k a) ws (map (G a) us))).
    + rewrite smul_flat. f_equal. apply IH. intros a v Ha Hv. apply HG; [exact Ha|right; exact Hv].
    + intros a Ha. rewrite smul_length, lincomb_length; [apply HG; [exact Ha|left; reflexivity]|]. apply Forall_forall. intros v Hv. apply in_map_iff in Hv. destruct Hv as (u' & <- & Hu'). apply HG; [exact Ha|right; exact Hu'].
Qed.
Lemma list_nth_seq {A} (l : list A) d : l = map (fun i => nth i l d) (seq 0 (length l)).
Proof. induction l as [|a l IH]; [reflexivity|]. cbn [length seq map nth]. f_equal. rewrite <- seq_shift, map_map. exact IH. Qed.
Lemma flat_map_nth {A} (l : list A) (d : A) (f : A -> vec) : flat_map f l = flat_map (fun i => f (nth i l d)) (seq 0 (length l)).
Proof. rewrite (list_nth_seq l d) at 1. rewrite !flat_map_concat_map, map_map. reflexivity. Qed.

(** tree_average of stacked trees is their linear combination; the number of weights is checked. *)
Theorem C40_average (x0 : ptree) (ts : list ptree) (T : ptree) (ws : vec) : wf x0 -> stacked x0 ts T -> (0 < length ts)%nat ->
  (length ws = length ts -> exists t, tree_average T ws = Ok t /\ same_kind t x0 /\ ravel t = lincomb (length (ravel x0)) ws (map ravel ts)) /\
  (length ws <> length ts -> nonempty x0 -> tree_average T ws = Err TypeError).
Proof.
  intros W0 HS Hm. assert (HS' := HS). destruct HS as (HF & S2 & HT). assert (L := leaves_length T x0 S2). set (m := length ts) in *. split.
  - intros Lw. unfold tree_average.
    set (G := fun a : arr R => mk_arr (tl (shape a)) (fold_right vadd (vzero (length (data a) / m)) (zip_with (fun w i => smul w (data (slice m a i))) ws (seq 0 m)))).
    rewrite (tree_map1_ok _ G).
    2:{ intros a Ha. destruct (In_nth _ _ no_arr Ha) as (l & Hl & <-). destruct (HT l Hl) as [E1 _]. unfold G. rewrite E1. fold m. cbn [tl]. rewrite Lw, Nat.eqb_refl. reflexivity. }
    exists (fmap G T). split; [reflexivity|]. split.
    + apply same_kind_iff. split; [rewrite structure_fmap; exact S2|]. rewrite leaves_fmap, map_map. apply (nth_ext _ _ (shape (G no_arr)) (shape no_arr)); [rewrite !map_length; exact L|]. intros l Hl. rewrite map_length in Hl.
      rewrite (map_nth (fun a => shape (G a))), (map_nth (@shape R)). unfold G. cbn [shape]. rewrite (proj1 (HT l Hl)). reflexivity.
    + unfold ravel at 1. rewrite leaves_fmap. rewrite (flat_map_nth (map G (leaves T)) (G no_arr)), map_length.
      assert (E : forall l, (l < length (leaves T))%nat -> data (nth l (map G (leaves T)) (G no_arr)) = lincomb (size (shape (nth l (leaves x0) no_arr))) ws (map (fun u => data (nth l (leaves u) no_arr)) ts)).
      { intros l Hl. rewrite (map_nth G). unfold G. cbn [data]. assert (Hl0 : (l < length (leaves x0))%nat) by lia. rewrite (stacked_len x0 ts T l HS' Hl0). fold m. rewrite Nat.mul_comm, Nat.div_mul by lia. unfold lincomb. f_equal.
        rewrite (list_nth_seq ts x0) at 1. fold m. rewrite map_map, zip_map_r.
        assert (Z : forall is, (forall i, In i is -> (i < m)%nat) -> forall ws, zip_with (fun w i => smul w (data (slice m (nth l (leaves T) no_arr) i))) ws is = zip_with (fun a d => smul a (data (nth l (leaves (nth d ts x0)) no_arr))) ws is).
        { induction is as [|i is IH]; intros Hi [|w ws']; try reflexivity. cbn [zip_with]. f_equal; [|apply IH; intros j Hj; apply Hi; right; exact Hj].
          rewrite <- (slice_stacked x0 ts T i HS') by (apply Hi; left; reflexivity). rewrite leaves_fmap. fold m. rewrite (nth_indep (map _ _) no_arr (slice m no_arr i)) by (rewrite map_length; exact Hl). rewrite (map_nth (fun x => slice m x i)). reflexivity. }
        apply Z. intros i Hi. apply in_seq in Hi. lia. }
      rewrite !flat_map_concat_map. rewrite (map_ext_in _ (fun l => lincomb (size (shape (nth l (leaves x0) no_arr))) ws (map (fun u => data (nth l (leaves u) no_arr)) ts))) by (intros l Hl; apply in_seq in Hl; apply E; lia).
      rewrite <- flat_map_concat_map. rewrite (lincomb_flat (fun l => size (shape (nth l (leaves x0) no_arr))) (fun l u => data (nth l (leaves u) no_arr))).
      * f_equal.
        { unfold ravel. rewrite (flat_map_nth (leaves x0) no_arr). rewrite <- L. rewrite flat_map_concat_map.
          assert (Q : forall is, (forall i, In i is -> (i < length (leaves x0))%nat) -> list_sum (map (fun l => size (shape (nth l (leaves x0) no_arr))) is) = length (concat (map (fun i => data (nth i (leaves x0) no_arr)) is))).
          { induction is as [|i is IH]; intros Hi; [reflexivity|]. cbn [map concat]. rewrite app_length, <- IH by (intros j Hj; apply Hi; right; exact Hj). cbn [list_sum fold_right]. f_equal. symmetry. apply (proj1 (Forall_forall _ _) W0). apply nth_In. apply Hi. left. reflexivity. }
          apply Q. intros i Hi. apply in_seq in Hi. lia. }
        { apply map_ext_in. intros u Hu. unfold ravel. rewrite (flat_map_nth (leaves u) no_arr). f_equal. f_equal. destruct (proj1 (Forall_forall _ _) HF u Hu) as [A _]. rewrite (leaves_length _ _ (same_kind_structure _ _ A)). exact L. }
      * intros l u Hl Hu. apply in_seq in Hl. destruct (proj1 (Forall_forall _ _) HF u Hu) as [A B]. apply (leaf_size u x0 l B A). lia.
  - intros Lw Hn. unfold tree_average, tree_map1, nonempty in *. destruct (leaves T) as [|a l] eqn:E; [exfalso; apply Hn; destruct (leaves x0); [reflexivity|simpl in L; discriminate]|].
    cbn [map]. destruct (HT 0%nat ltac:(simpl; lia)) as [E1 _]. cbn [nth] in E1. rewrite E1. fold m. destruct (Nat.eqb_spec m (length ws)); [congruence|]. reflexivity.
Qed.
Print Assumptions C40_average.

(** tree_gram of stacked trees is the matrix of all inner products. *)
Theorem C40_gram (x0 : ptree) (ts : list ptree) (T : ptree) : stacked x0 ts T -> nonempty x0 ->
  tree_gram (length ts) T = Ok (map (fun u => map (fun v => dot (ravel v) (ravel u)) ts) ts).
Proof.
  intros HS Hn. assert (HF := proj1 HS). unfold tree_gram. rewrite (sequence_map _ (fun j => map (fun v => dot (ravel v) (ravel (nth j ts x0))) ts)).
  - f_equal. rewrite <- (map_map (fun j => nth j ts x0) (fun u => map (fun v => dot (ravel v) (ravel u)) ts)), <- list_nth_seq. reflexivity.
  - intros j Hj. apply in_seq in Hj. rewrite (sequence_map _ (fun i => dot (ravel (nth i ts x0)) (ravel (nth j ts x0)))); [f_equal; rewrite <- (map_map (fun i => nth i ts x0) (fun v => dot (ravel v) (ravel (nth j ts x0)))), <- list_nth_seq; reflexivity|].
    intros i Hi. apply in_seq in Hi. rewrite !(slice_stacked x0 ts T) by (try exact HS; lia).
    assert (P : forall k, (k < length ts)%nat -> same_kind (nth k ts x0) x0 /\ wf (nth k ts x0)) by (intros k Hk; apply (proj1 (Forall_forall _ _) HF); apply nth_In; exact Hk).
    destruct (P i ltac:(lia)) as [A1 A2]. destruct (P j ltac:(lia)) as [B1 B2]. apply C40_vdot; [exact A2|exact B2|unfold same_kind in *; congruence|].
    unfold nonempty in *. intros C. apply Hn. apply same_kind_structure, leaves_length in A1. rewrite C in A1. destruct (leaves x0); [reflexivity|discriminate].
Qed.
Print Assumptions C40_gram.

(** *** Broadcasting *)
Lemma treedef_eqb_spec {A B} (s : tree A) : forall t : tree B, treedef_eqb s t = true <-> structure s = structure t.
Proof.
  induction s as [a|k cs IH] using tree_ind'; intros [b|k' cs']; unfold structure; cbn [treedef_eqb fmap]; try (split; [discriminate|congruence]); [split; reflexivity|].
  rewrite andb_true_iff, String.eqb_eq.
  assert (G : forall cs', (fix go (l : list (tree A)) (l' : list (tree B)) : bool := match l, l' with [] , [] => true | a :: l, b :: l' => (treedef_eqb a b && go l l')%bool | _, _ => false end) cs cs' = true <-> map (fmap (fun _ => tt)) cs = map (fmap (fun _ => tt)) cs').
  { clear cs'. induction IH as [|c cs Hc _ IH2]; intros [|c' cs']; cbn [map]; try (split; [discriminate|congruence]); [split; reflexivity|]. rewrite andb_true_iff, IH2, Hc. unfold structure. split; [intros [-> ->]; reflexivity|intros E; injection E as E1 E2; split; assumption]. }
  rewrite G. split; [intros [-> ->]; reflexivity|intros E; injection E as E1 E2; split; assumption].
Qed.
Lemma const_tree_spec {A} d (a : A) : structure (const_tree d a) = d /\ leaves (const_tree d a) = repeat a (length (leaves d)).
Proof. unfold const_tree. rewrite structure_fmap, structure_unit, leaves_fmap. split; [reflexivity|]. induction (leaves d) as [|x l IH]; [reflexivity|]. cbn. f_equal. exact IH. Qed.
(** Bare arrays are replicated over the common structure, the other arguments are returned unchanged. *)
Theorem C40_broadcast {A} (trees : list (tree A)) (d : treedef) : is_leaf d = false -> leaves d <> [] ->
  Forall (fun t => (exists a, t = Leaf a) \/ structure t = d) trees -> (exists t, In t trees /\ structure t = d) ->
  broadcast_pytrees trees = Ok (map (broadcast_to d) trees) /\ Forall (fun t => structure t = d) (map (broadcast_to d) trees).
Proof.
  intros Hd Hne HF Hex.
  assert (Hdl : forall a : A, structure (Leaf a) <> d) by (intros a E; subst d; discriminate).
  assert (C2 : forall ts : list (tree A), Forall (fun t => (exists a, t = Leaf a) \/ structure t = d) ts -> common_treedef ts (Some d) = Ok (Some d)).
  { induction 1 as [|t ts Ht _ IH]; [reflexivity|]. cbn [common_treedef]. destruct Ht as [(a & ->)|Ht]; [exact IH|]. rewrite Ht, Hd. rewrite (proj2 (treedef_eqb_spec d d) eq_refl). exact IH. }
  assert (C1 : common_treedef trees None = Ok (Some d)).
  { destruct Hex as (t0 & Hin & Ht0). induction HF as [|t ts Ht HFts IH]; [destruct Hin|]. cbn [common_treedef]. destruct Ht as [(a & ->)|Ht].
    - cbn. destruct Hin as [E|Hin]; [subst t0; exfalso; exact (Hdl a Ht0)|]. apply IH. exact Hin.
    - rewrite Ht, Hd. rewrite (proj2 (treedef_eqb_spec d d) eq_refl). apply C2. exact HFts. }
  assert (M : fold_right Nat.max 0%nat (map (fun t : tree A => length (leaves t)) trees) = length (leaves d)).
  { assert (P : forall t : tree A, structure t = d -> length (leaves t) = length (leaves d)) by (intros t E; rewrite <- E; unfold structure; rewrite leaves_fmap, map_length; reflexivity).
    assert (Q : (1 <= length (leaves d))%nat) by (destruct (leaves d); [congruence|simpl; lia]).
    assert (Up : (fold_right Nat.max 0 (map (fun t : tree A => length (leaves t)) trees) <= length (leaves d))%nat).
    { clear -HF P Q. induction HF as [|t ts Ht _ IH]; [simpl; lia|]. cbn [map fold_right]. destruct Ht as [(a & ->)|Ht]; [cbn [leaves length]; lia|]. rewrite (P t Ht). lia. }
    assert (Dn : (length (leaves d) <= fold_right Nat.max 0 (map (fun t : tree A => length (leaves t)) trees))%nat).
    { destruct Hex as (t0 & Hin & Ht0). rewrite <- (P t0 Ht0). clear -Hin. induction trees as [|t ts IH]; [destruct Hin|]. cbn [map fold_right]. destruct Hin as [->|Hin]; [lia|]. specialize (IH Hin). lia. }
    lia. }
  split.
  - unfold broadcast_pytrees. rewrite C1, M. apply sequence_map. intros t Hin. destruct (proj1 (Forall_forall _ _) HF t Hin) as [(a & ->)|Ht].
    + cbn. apply unflatten_ok. apply const_tree_spec.
    + rewrite Ht, Hd. destruct t as [a|k cs]; [exfalso; exact (Hdl a Ht)|]. cbn [broadcast_to]. apply unflatten_ok. split; [exact Ht|reflexivity].
  - apply Forall_forall. intros t' Hin. apply in_map_iff in Hin. destruct Hin as (t & <- & Hin). destruct (proj1 (Forall_forall _ _) HF t Hin) as [(a & ->)|Ht]; [apply const_tree_spec|]. destruct t as [a|k cs]; [exfalso; exact (Hdl a Ht)|exact Ht].
Qed.
Print Assumptions C40_broadcast.
Theorem C40_broadcast_leaves {A} (l : list A) : broadcast_pytrees (map Leaf l) = Ok (map Leaf l).
Proof. unfold broadcast_pytrees. assert (E : common_treedef (map Leaf l) None = Ok None) by (induction l as [|a l IH]; [reflexivity|exact IH]). rewrite E. reflexivity. Qed.
Print Assumptions C40_broadcast_leaves.
Theorem C40_broadcast_mismatch {A} (trees : list (tree A)) t u : In t trees -> In u trees -> is_leaf (structure t) = false -> is_leaf (structure u) = false -> structure t <> structure u ->
  broadcast_pytrees trees = Err ValueError.
Proof.
  intros Ht Hu Lt Lu Hneq. unfold broadcast_pytrees.
  assert (G : forall (ts : list (tree A)) d, common_treedef ts (Some d) = Err ValueError \/ (common_treedef ts (Some d) = Ok (Some d) /\ forall v, In v ts -> is_leaf (structure v) = false -> structure v = d)).
  { induction ts as [|v ts IH]; intros d; [right; split; [reflexivity|intros v []]|]. cbn [common_treedef]. destruct (is_leaf (structure v)) eqn:E.
    - destruct (IH d) as [H|[H1 H2]]; [left; exact H|right]. split; [exact H1|]. intros w [<-|Hw] Lw; [congruence|apply H2; assumption].
    - destruct (treedef_eqb (structure v) d) eqn:E2; [|left; reflexivity]. apply treedef_eqb_spec in E2. rewrite !structure_unit in E2. destruct (IH d) as [H|[H1 H2]]; [left; exact H|right]. split; [exact H1|]. intros w [<-|Hw] Lw; [exact E2|apply H2; assumption]. }
  assert (K : common_treedef trees None = Err ValueError).
  { induction trees as [|v ts IH]; [destruct Ht|]. cbn [common_treedef]. destruct (is_leaf (structure v)) eqn:E.
    - destruct Ht as [<-|Ht]; [congruence|]. destruct Hu as [<-|Hu]; [congruence|]. apply IH; assumption.
    - rewrite (proj2 (treedef_eqb_spec (structure v) (structure v)) eq_refl). destruct (G ts (structure v)) as [H|[_ H]]; [exact H|]. exfalso. apply Hneq.
      assert (Z : forall w, In w (v :: ts) -> is_leaf (structure w) = false -> structure w = structure v) by (intros w [<-|Hw] Lw; [reflexivity|apply H; assumption]). rewrite (Z t Ht Lt), (Z u Hu Lu). reflexivity. }
  rewrite K. reflexivity.
Qed.
Print Assumptions C40_broadcast_mismatch.
(** Refuted at the edge: the arguments that are not bare arrays share their structure, but it has no leaf, or
    one of the arguments is an empty container. *)
Theorem C40_broadcast_refuted {A} (a : A) k :
  broadcast_pytrees [Leaf a; Node k [Node k []]] = Err ValueError /\ broadcast_pytrees [Node k []; Node k [Leaf a]] = Err IndexError.
Proof. unfold broadcast_pytrees. cbn. rewrite String.eqb_refl. split; reflexivity. Qed.
Print Assumptions C40_broadcast_refuted.

Lemma where3_same (c : arr bool) (x y : arr R) : shape c = shape x -> shape x = shape y -> length (data c) = length (data x) -> length (data x) = length (data y) ->
  where3 c x y = Ok (mk_arr (shape x) (select (data c) (data x) (data y))).
Proof.
  intros H1 H2 L1 L2. unfold where3, bin_op. rewrite H1, shape_eqb_refl. cbn [shape data]. rewrite H2, shape_eqb_refl. do 2 f_equal. revert L1 L2. generalize (data c) (data x) (data y).
  intros l. induction l as [|b l IH]; intros [|u v] [|w z] L1 L2; try discriminate; [reflexivity|]. cbn. f_equal. apply IH; simpl in *; lia.
Qed.
Lemma select_app c1 c2 x1 x2 y1 y2 : length c1 = length x1 -> length x1 = length y1 -> select (c1 ++ c2) (x1 ++ x2) (y1 ++ y2) = select c1 x1 y1 ++ select c2 x2 y2.
Proof. revert x1 y1. induction c1 as [|b c1 IH]; intros [|u x1] [|v y1] L1 L2; try discriminate; [reflexivity|]. cbn. f_equal. apply IH; simpl in *; lia. Qed.
(** tree_where on three trees of the same kind selects entry by entry. *)
Theorem C40_where (c : tree (arr bool)) (x y : ptree) : wf x -> wf y -> same_kind x y -> fmap shape c = fmap shape x -> Forall (fun a => length (data a) = size (shape a)) (leaves c) -> nonempty x ->
  exists t, tree_where (fmap LB c) (fmap LR x) (fmap LR y) = Ok (fmap LR t) /\ same_kind t x /\ ravel t = select (flat_map data (leaves c)) (ravel x) (ravel y).
Proof.
  intros Hx Hy K Kc Wc Hn. assert (Sx : structure y = structure x) by (symmetry; apply same_kind_structure; exact K).
  assert (Sc : structure c = structure x) by (apply (f_equal structure) in Kc; rewrite !structure_fmap in Kc; exact Kc).
  assert (B : broadcast_pytrees [fmap LB c; fmap LR x; fmap LR y] = Ok [fmap LB c; fmap LR x; fmap LR y]).
  { destruct (is_leaf (structure x)) eqn:E.
    - unfold broadcast_pytrees, common_treedef. rewrite !structure_fmap, Sc, Sx, E. reflexivity.
    - destruct (C40_broadcast [fmap LB c; fmap LR x; fmap LR y] (structure x) E) as [B _].
      + unfold structure. rewrite leaves_fmap. intros C. apply map_eq_nil in C. exact (Hn C).
      + repeat (apply Forall_cons; [right; rewrite structure_fmap; congruence|]); apply Forall_nil.
      + exists (fmap LR x). split; [right; left; reflexivity|apply structure_fmap].
      + rewrite B. cbn [map]. destruct c as [?|]; [destruct x; [discriminate|discriminate]|]. destruct x as [?|]; [discriminate|]. destruct y as [?|]; [discriminate|]. reflexivity. }
  unfold tree_where. rewrite B. rewrite !flatten_up_to_same by (rewrite !structure_fmap; congruence). rewrite !leaves_fmap, !map_map.
  assert (F := Forall2_shapes x y K).
  assert (Fc : map shape (leaves c) = map shape (leaves x)) by (apply (f_equal leaves) in Kc; rewrite !leaves_fmap in Kc; exact Kc).
  assert (G : exists ls, sequence (zip_with (fun cl xy => match cl, xy with LB cb, (Leaf (LR xv), Leaf (LR yv)) => match where3 cb xv yv with Ok r => Ok (LR r) | Err e => Err e end | _, _ => Err Unspecified end) (map LB (leaves c)) (zip_with pair (map (fun a => Leaf (LR a)) (leaves x)) (map (fun a => Leaf (LR a)) (leaves y)))) = Ok (map LR ls)
     /\ map shape ls = map shape (leaves x) /\ flat_map data ls = select (flat_map data (leaves c)) (ravel x) (ravel y)).
  { clear B Sx Sc Hn K Kc. unfold wf, ravel in *. revert Fc Wc Hx Hy. generalize (leaves c). induction F as [|a b l l' E _ IH]; intros [|ca lc] Fc Wc Hx Hy; try discriminate; [exists []; repeat split|].
    inversion Wc; inversion Hx; inversion Hy; subst. cbn [map] in Fc. injection Fc as Fc1 Fc2. destruct (IH lc Fc2) as (ls & E1 & E2 & E3); try assumption.
    exists (mk_arr (shape a) (select (data ca) (data a) (data b)) :: ls). cbn [map zip_with sequence]. rewrite where3_same by congruence. rewrite E1. split; [reflexivity|]. split; [cbn; f_equal; exact E2|]. cbn [flat_map data]. rewrite E3. symmetry. apply select_app; congruence. }
  destruct G as (ls & -> & G2 & G3). assert (Ll : length ls = length (leaves (structure (fmap LB c)))).
  { rewrite <- (map_length shape ls), G2, map_length. rewrite structure_fmap, Sc. unfold structure. rewrite leaves_fmap, map_length. reflexivity. }
  destruct (unflatten_exists (structure (fmap LB c)) ls Ll) as (t & _ & T1 & T2). exists t. split; [apply unflatten_ok; rewrite structure_fmap, leaves_fmap, T2; split; [exact T1|reflexivity]|].
  split; [apply same_kind_iff; split; [rewrite T1, structure_fmap; exact Sc|rewrite T2; exact G2]|]. unfold ravel at 1. rewrite T2. exact G3.
Qed.
Print Assumptions C40_where.
(** A scalar condition selects one of the two trees as a whole. *)
Theorem C40_where_scalar (b : bool) (x y : ptree) : wf x -> wf y -> same_kind x y -> nonempty x ->
  tree_where (Leaf (LB (mk_arr [] [b]))) (fmap LR x) (fmap LR y) = Ok (fmap LR (if b then x else y)).
Proof.
  intros Hx Hy K Hn. assert (Sx := same_kind_structure x y K).
  assert (W : forall u v : arr R, length (data u) = size (shape u) -> length (data v) = size (shape v) -> shape u = shape v -> where3 (mk_arr [] [b]) u v = Ok (if b then u else v)).
  { intros [su du] [sv dv] Wu Wv E. cbn [shape data] in *. subst sv. unfold where3.
    assert (E1 : bin_op (fun (cb : bool) (xv : R) => (cb, xv)) (mk_arr [] [b]) (mk_arr su du) = Ok (mk_arr su (map (pair b) du))).
    { unfold bin_op. cbn [shape data is_scalar]. destruct su as [|n su]; [destruct du as [|u0 [|]]; try discriminate; reflexivity|]. unfold shape_eqb. destruct (list_eq_dec Nat.eq_dec [] (n :: su)); [discriminate|]. reflexivity. }
    rewrite E1. unfold bin_op. cbn [shape data]. rewrite shape_eqb_refl. assert (L : length du = length dv) by congruence. clear Wu Wv E1.
    replace (zip_with _ (map _ du) dv) with (if b then du else dv); [destruct b; reflexivity|]. revert dv L. induction du as [|u0 du IH]; intros [|v0 dv] L; try discriminate; [destruct b; reflexivity|]. cbn [map zip_with]. rewrite <- IH by (simpl in L; lia). destruct b; reflexivity. }
  destruct (is_leaf (structure x)) eqn:El.
  - destruct x as [u|k cs]; [|exfalso; apply Hn; unfold is_leaf, structure in El; cbn [fmap num_nodes] in El; destruct cs as [|c cs]; [reflexivity|]; cbn in El; destruct c; discriminate].
    destruct y as [v|]; [|discriminate]. inversion Hx; inversion Hy; subst. unfold same_kind in K. cbn in K. injection K as K. unfold tree_where. cbn. rewrite W by assumption. cbn. destruct b; reflexivity.
  - unfold tree_where. destruct (C40_broadcast [Leaf (LB (mk_arr [] [b])); fmap LR x; fmap LR y] (structure x) El) as [B _].
    + unfold structure. rewrite leaves_fmap. intros C. apply map_eq_nil in C. exact (Hn C).
    + constructor; [left; eexists; reflexivity|]. repeat (apply Forall_cons; [right; rewrite structure_fmap; congruence|]); apply Forall_nil.
    + exists (fmap LR x). split; [right; left; reflexivity|apply structure_fmap].
    + rewrite B. clear B. cbn [map]. destruct x as [?|kx cx]; [discriminate|]. destruct y as [?|ky cy]; [discriminate|]. set (x := Node kx cx) in *. set (y := Node ky cy) in *. change (broadcast_to (structure x) (fmap LR x)) with (fmap LR x). change (broadcast_to (structure x) (fmap LR y)) with (fmap LR y). cbn [broadcast_to].
      destruct (const_tree_spec (structure x) (LB (mk_arr [] [b]))) as [D1 D2]. rewrite !flatten_up_to_same by (rewrite D1, structure_fmap; congruence). rewrite D1, D2. rewrite !leaves_fmap, !map_map.
      assert (F := Forall2_shapes x y K). replace (length (leaves (structure x))) with (length (leaves x)) by (unfold structure; rewrite leaves_fmap, map_length; reflexivity).
      assert (G : sequence (zip_with (fun cl xy => match cl, xy with LB cb, (Leaf (LR xv), Leaf (LR yv)) => match where3 cb xv yv with Ok r => Ok (LR r) | Err e => Err e end | _, _ => Err Unspecified end) (repeat (LB (mk_arr [] [b])) (length (leaves x))) (zip_with pair (map (fun a => Leaf (LR a)) (leaves x)) (map (fun a => Leaf (LR a)) (leaves y)))) = Ok (map LR (leaves (if b then x else y)))).
      { unfold wf in Hx, Hy. replace (leaves (if b then x else y)) with (if b then leaves x else leaves y) by (destruct b; reflexivity). induction F as [|u v l l' E _ IH]; [destruct b; reflexivity|]. inversion Hx; inversion Hy; subst. cbn [length repeat map zip_with sequence]. rewrite W by assumption. rewrite IH by assumption. destruct b; reflexivity. }
      rewrite G. apply unflatten_ok. rewrite leaves_fmap, structure_fmap. split; [destruct b; congruence|reflexivity].
Qed.
Print Assumptions C40_where_scalar.

(** Vector-space and inner-product laws at the level of trees. *)
Theorem C40_laws (x y z : ptree) (s : R) : wf x -> wf y -> wf z -> same_kind x y -> same_kind x z -> nonempty x ->
  tree_add x y = tree_add y x /\
  (exists xy yz, tree_add x y = Ok xy /\ tree_add y z = Ok yz /\ tree_add xy z = tree_add x yz) /\
  tree_sub x x = tree_zeros_like x /\
  (exists sy, tree_scalar_mul s y = Ok sy /\ tree_add_scalar_mul x s y = tree_add x sy) /\
  (exists d, tree_sub x y = Ok d /\ tree_add d y = Ok x) /\
  tree_vdot x y = tree_vdot y x /\
  (exists w a b c, tree_add_scalar_mul x s y = Ok w /\ tree_vdot w z = Ok a /\ tree_vdot x z = Ok b /\ tree_vdot y z = Ok c /\ a = b + s * c) /\
  (exists xy n m k, tree_add x y = Ok xy /\ tree_l2_norm xy false = Ok k /\ tree_l2_norm x false = Ok n /\ tree_l2_norm y false = Ok m /\ 0 <= n /\ k <= n + m) /\
  (tree_l2_norm x false = Ok 0 <-> tree_zeros_like x = Ok x).
Proof.
  intros Hx Hy Hz Kxy Kxz Hn.
  assert (Kyx : same_kind y x) by (unfold same_kind in *; congruence). assert (Kyz : same_kind y z) by (unfold same_kind in *; congruence).
  assert (Hny : nonempty y) by (unfold nonempty in *; intros C; apply Hn; apply same_kind_structure, leaves_length in Kxy; rewrite C in Kxy; destruct (leaves x); [reflexivity|discriminate]).
  assert (NE : forall t, same_kind t x -> nonempty t) by (intros t Kt; unfold nonempty in *; intros C; apply Hn; apply same_kind_structure, leaves_length in Kt; rewrite C in Kt; destruct (leaves x); [reflexivity|discriminate]).
  assert (Lxy := ravel_length x y Hx Hy Kxy). assert (Lxz := ravel_length x z Hx Hz Kxz).
  destruct (C40_arith x y s Hx Hy Kxy) as ((xy & A1 & A2 & A3 & A4) & (d & D1 & D2 & D3 & D4) & _ & _ & (w & W1 & W2 & W3 & W4) & _ & (z0 & Z1 & Z2 & Z3 & Z4) & _).
  destruct (C40_arith y x s Hy Hx Kyx) as ((yx & B1 & B2 & B3 & B4) & _ & _ & (sy & S1 & S2 & S3 & S4) & _).
  destruct (C40_arith y z s Hy Hz Kyz) as ((yz & C1 & C2 & C3 & C4) & _).
  destruct (C40_arith x x s Hx Hx eq_refl) as (_ & (xx & E1 & E2 & E3 & E4) & _).
  split; [rewrite A1, B1; f_equal; apply ravel_inj; [assumption|assumption|unfold same_kind in *; congruence|rewrite A4, B4; apply vadd_comm]|].
  split.
  { exists xy, yz. split; [exact A1|]. split; [exact C1|].
    destruct (C40_arith xy z s A3 Hz ltac:(unfold same_kind in *; congruence)) as ((l & F1 & F2 & F3 & F4) & _). destruct (C40_arith x yz s Hx C3 ltac:(unfold same_kind in *; congruence)) as ((r & G1 & G2 & G3 & G4) & _).
    rewrite F1, G1. f_equal. apply ravel_inj; [assumption|assumption|unfold same_kind in *; congruence|]. rewrite F4, G4, A4, C4. apply vec_eq_dot; [rewrite !vadd_length; lia|]. intros q. rewrite !dot_vadd_l by (rewrite ?vadd_length; lia). ring. }
  split.
  { rewrite E1, Z1. f_equal. apply ravel_inj; [assumption|assumption|unfold same_kind in *; congruence|]. rewrite E4, Z4. apply vec_eq_dot; [rewrite vsub_length, vzero_length; lia|]. intros q. rewrite dot_vsub_l, dot_vzero_l by lia. ring. }
  split.
  { exists sy. split; [exact S1|]. destruct (C40_arith x sy s Hx S3 ltac:(unfold same_kind in *; congruence)) as ((r & G1 & G2 & G3 & G4) & _). rewrite W1, G1. f_equal. apply ravel_inj; [assumption|assumption|unfold same_kind in *; congruence|]. rewrite W4, G4, S4. reflexivity. }
  split.
  { exists d. split; [exact D1|]. destruct (C40_arith d y s D3 Hy ltac:(unfold same_kind in *; congruence)) as ((r & G1 & G2 & G3 & G4) & _). rewrite G1. f_equal. apply ravel_inj; [assumption|assumption|unfold same_kind in *; congruence|]. rewrite G4, D4. apply vec_eq_dot; [rewrite vadd_length, vsub_length; lia|]. intros q. rewrite dot_vadd_l by (rewrite vsub_length; lia). rewrite dot_vsub_l by lia. ring. }
  split; [rewrite (proj1 (C40_vdot x y Hx Hy Kxy) Hn), (proj1 (C40_vdot y x Hy Hx Kyx) Hny), dot_comm; reflexivity|].
  split.
  { exists w, (dot (ravel w) (ravel z)), (dot (ravel x) (ravel z)), (dot (ravel y) (ravel z)). split; [exact W1|]. split; [apply C40_vdot; [assumption|assumption|unfold same_kind in *; congruence|apply NE; exact W2]|]. split; [apply C40_vdot; assumption|]. split; [apply C40_vdot; assumption|]. rewrite W4, dot_vadd_l by (rewrite smul_length; exact Lxy). rewrite dot_smul_l. reflexivity. }
  split.
  { exists xy, (norm2 (ravel x)), (norm2 (ravel y)), (norm2 (ravel xy)). split; [exact A1|]. split; [apply C40_reductions; [exact A3|apply NE; exact A2]|]. split; [apply C40_reductions; assumption|]. split; [apply C40_reductions; assumption|]. split; [apply norm2_nonneg|]. rewrite A4. apply norm2_triangle. }
  rewrite (proj1 (proj2 (C40_reductions x Hx Hn))), Z1. split; intros E.
  - injection E as E. f_equal. apply ravel_inj; [assumption|assumption|exact Z2|]. rewrite Z4. symmetry. apply norm2_zero_iff. exact E.
  - injection E as E. f_equal. apply norm2_zero_iff. rewrite E in Z4. exact Z4.
Qed.
Print Assumptions C40_laws.

(** ** C41 *)
Lemma split_ok pre segs (x : vec) : segs <> [] -> x = pre ++ concat segs -> split_from (length pre) (cumsum_from (length pre) (removelast (map (@length R) segs))) x = segs.
Proof.
  revert pre. induction segs as [|a segs IH]; intros pre Hne ->; [congruence|]. destruct segs as [|b segs].
  - cbn. rewrite skipn_app, skipn_all, Nat.sub_diag, app_nil_r. reflexivity.
  - change (removelast (map (@length R) (a :: b :: segs))) with (length a :: removelast (map (@length R) (b :: segs))). cbn [cumsum_from split_from concat]. f_equal.
    + rewrite skipn_app, skipn_all, Nat.sub_diag. cbn [app skipn]. replace (length pre + length a - length pre)%nat with (length a) by lia. rewrite firstn_app, firstn_all, Nat.sub_diag. cbn. apply app_nil_r.
    + rewrite <- app_length. apply IH; [discriminate|]. rewrite <- app_assoc. reflexivity.
Qed.
Lemma split_ok0 segs (x : vec) : segs <> [] -> x = concat segs -> split_from 0 (cumsum_from 0 (removelast (map (@length R) segs))) x = segs.
Proof. exact (split_ok [] segs x). Qed.
Lemma split_concat idx sizes : forall start (x : vec), idx = cumsum_from start sizes -> concat (split_from start idx x) = skipn start x /\ length (split_from start idx x) = S (length sizes).
Proof.
  revert idx. induction sizes as [|k sizes IH]; intros idx start x ->; cbn [cumsum_from split_from concat length]; [split; [apply app_nil_r|reflexivity]|].
  destruct (IH _ (start + k)%nat x eq_refl) as [-> ->]. split; [|reflexivity]. replace (start + k - start)%nat with k by lia.
  rewrite <- (firstn_skipn k (skipn start x)) at 2. f_equal. clear. revert x. induction start as [|m IH]; intros x; [reflexivity|]. destruct x as [|r x]; [cbn; destruct k; reflexivity|]. cbn [Nat.add skipn]. apply IH.
Qed.
Fixpoint cut (sizes : list nat) (x : vec) : list vec := match sizes with [] => [] | k :: s => firstn k x :: cut s (skipn k x) end.
Lemma cut_spec sizes : forall x : vec, length x = list_sum sizes -> concat (cut sizes x) = x /\ map (@length R) (cut sizes x) = sizes.
Proof.
  induction sizes as [|k s IH]; intros x L; [destruct x; [split; reflexivity|discriminate]|]. cbn [cut concat map]. cbn [list_sum fold_right] in L. destruct (IH (skipn k x)) as [-> ->]; [rewrite skipn_length; unfold list_sum; lia|]. split; [apply firstn_skipn|]. f_equal. rewrite firstn_length. lia.
Qed.
Lemma reshape_seq segs shapes : map (@length R) segs = map size shapes -> sequence (zip_with (fun leaf s => reshape s leaf) segs shapes) = Ok (zip_with (fun leaf s => mk_arr s leaf) segs shapes).
Proof. revert shapes. induction segs as [|a segs IH]; intros [|s shapes] H; try discriminate; [reflexivity|]. cbn [map] in H. injection H as H1 H2. cbn [zip_with sequence]. unfold reshape at 1. rewrite H1, Nat.eqb_refl, IH by exact H2. reflexivity. Qed.

(** Flattening and rebuilding gives the pytree back; the flat vector has the total size. *)
Theorem C41_round_trip (x : ptree) : wf x -> nonempty x ->
  exists v, jnp_to_onp x = Ok v /\ v = ravel x /\ length v = list_sum (top_sizes (pytree_topology_from_example x)) /\
            onp_to_jnp (pytree_topology_from_example x) v = Ok x.
Proof.
  intros W Hn. exists (ravel x). unfold nonempty in Hn. split; [unfold jnp_to_onp, ravel; destruct (leaves x); [congruence|reflexivity]|]. split; [reflexivity|].
  assert (S2 : map (@length R) (map data (leaves x)) = map size (map shape (leaves x))) by (rewrite !map_map; apply map_ext_in; intros a Ha; apply (proj1 (Forall_forall _ _) W a Ha)).
  split.
  - unfold top_sizes. cbn [pytree_topology_from_example top_shapes]. rewrite <- S2. unfold ravel. rewrite flat_map_concat_map. generalize (map data (leaves x)). intros l. induction l as [|a l IH]; [reflexivity|]. cbn [concat map list_sum fold_right]. rewrite app_length, IH. reflexivity.
  - unfold onp_to_jnp, top_sizes. cbn [pytree_topology_from_example top_shapes top_treedef]. rewrite <- S2.
    rewrite (split_ok0 (map data (leaves x)) (ravel x)); [|destruct (leaves x); [congruence|discriminate]|unfold ravel; rewrite flat_map_concat_map; reflexivity].
    rewrite reshape_seq by exact S2. apply unflatten_ok. split; [reflexivity|]. clear. induction (leaves x) as [|[s d] l IH]; [reflexivity|]. cbn. f_equal. exact IH.
Qed.
Print Assumptions C41_round_trip.

(** Conversely every vector of the right size is the flattening of a pytree of that topology, and a vector of
    any other size is rejected. *)
Theorem C41_inverse (p : topology) (v : vec) : length (top_shapes p) = length (leaves (top_treedef p)) -> top_shapes p <> [] ->
  (length v = list_sum (top_sizes p) -> exists x, onp_to_jnp p v = Ok x /\ wf x /\ pytree_topology_from_example x = p /\ jnp_to_onp x = Ok v) /\
  (length v <> list_sum (top_sizes p) -> onp_to_jnp p v = Err ValueError).
Proof.
  intros Lp Hne. split; intros L.
  - destruct (cut_spec _ _ L) as [C1 C2]. unfold onp_to_jnp. rewrite <- C2. unfold top_sizes in C2 |- *.
    assert (Hcut : cut (map size (top_shapes p)) v <> []) by (destruct (top_shapes p); [congruence|discriminate]).
    rewrite (split_ok0 _ v Hcut); [|symmetry; exact C1]. rewrite reshape_seq by exact C2.
    assert (Lc : length (cut (map size (top_shapes p)) v) = length (top_shapes p)) by (rewrite <- (map_length (@length R)), C2, map_length; reflexivity).
    destruct (unflatten_exists (top_treedef p) (zip_with (fun leaf s => mk_arr s leaf) (cut (map size (top_shapes p)) v) (top_shapes p))) as (x & -> & E1 & E2); [rewrite zip_length by exact Lc; unfold vec in *; congruence|].
    exists x. split; [reflexivity|]. split; [|split].
    + unfold wf. rewrite E2. clear -C2. revert C2. generalize (cut (map size (top_shapes p)) v). generalize (top_shapes p). intros ss0 l; revert ss0; induction l as [|a l IH]; intros [|s ss] H; try discriminate; [constructor|]. cbn [map] in H. injection H as H1 H2. constructor; [exact H1|apply IH; exact H2].
    + unfold pytree_topology_from_example. rewrite E1, E2. destruct p as [d ss]. cbn [top_treedef top_shapes] in *. f_equal. clear -Lc. revert Lc. generalize (cut (map size ss) v). induction ss as [|s ss IH]; intros [|a l] H; try discriminate; [reflexivity|]. cbn. f_equal. apply IH. simpl in H. lia.
    + unfold jnp_to_onp. rewrite E2. transitivity (Ok (concat (cut (map size (top_shapes p)) v))); [|f_equal; exact C1]. revert Lc Hcut. generalize (cut (map size (top_shapes p)) v). generalize (top_shapes p). intros ss l Lc Hcut. destruct l as [|a l]; [congruence|]. destruct ss as [|s ss]; [discriminate|]. cbn [zip_with]. f_equal. cbn [flat_map data concat]. f_equal. simpl in Lc. injection Lc as Lc. clear -Lc. revert ss Lc. induction l as [|b l IH]; intros [|t ss] H; try discriminate; [reflexivity|]. cbn. f_equal. apply IH. simpl in H. lia.
  - unfold onp_to_jnp. destruct (split_concat _ (removelast (top_sizes p)) 0 v eq_refl) as [S1 S2]. cbn [skipn] in S1. set (segs := split_from 0 _ v) in *.
    assert (Ls : length segs = length (top_shapes p)).
    { rewrite S2. unfold top_sizes. destruct (top_shapes p) as [|s ss]; [congruence|]. clear. revert s. induction ss as [|t ss IH]; intros s; [reflexivity|]. cbn [map removelast length] in *. f_equal. apply (IH t). }
    assert (Lx : length (concat segs) <> list_sum (map size (top_shapes p))) by (rewrite S1; exact L).
    assert (G : sequence (zip_with (fun leaf s => reshape s leaf) segs (top_shapes p)) = Err ValueError).
    { revert Ls Lx. generalize segs (top_shapes p). clear. intros l; induction l as [|a l IH]; intros [|s ss] H1 H2; try discriminate; [cbn in H2; congruence|]. cbn [zip_with sequence]. unfold reshape at 1. destruct (Nat.eqb_spec (length a) (size s)); [|reflexivity].
      rewrite IH; [reflexivity|simpl in H1; lia|]. intros C. apply H2. cbn [concat map list_sum fold_right]. rewrite app_length. unfold list_sum in C. lia. }
    rewrite G. reflexivity.
Qed.
Print Assumptions C41_inverse.

(** The assembled Jacobian, applied to the flattened tangent, is the flattening of what the blocks give:
    block (i, j) is the Jacobian of output leaf i with respect to input leaf j. *)
Lemma to_rows_concat r c M : mat_shape r c M -> to_rows r c (concat M) = M.
Proof.
  revert M. induction r as [|r IH]; intros M [H1 H2]; [destruct M; [reflexivity|discriminate]|]. destruct M as [|x M]; [discriminate|]. inversion H2; subst. cbn [to_rows concat]. f_equal.
  - rewrite firstn_app, firstn_all, Nat.sub_diag. cbn. apply app_nil_r.
  - rewrite skipn_app, skipn_all, Nat.sub_diag. cbn. apply IH. split; [simpl in H1; lia|assumption].
Qed.
Lemma hcat_spec rows : forall (ms : list mat) (xs : list vec), Forall2 (fun M x => mat_shape rows (length x) M) ms xs ->
  length (hcat ms rows) = rows /\ mvec (hcat ms rows) (concat xs) = fold_right vadd (vzero rows) (zip_with mvec ms xs).
Proof.
  intros ms xs H. induction H as [|M x ms xs [H1 H2] _ [IH1 IH2]].
  - cbn. split; [apply repeat_length|]. unfold mvec, vzero. induction rows as [|r IH]; [reflexivity|]. cbn. f_equal. exact IH.
  - cbn [hcat zip_with fold_right concat]. rewrite <- IH2. split; [rewrite zip_length; [exact H1|exact (eq_trans H1 (eq_sym IH1))]|]. clear IH2. revert IH1. generalize (hcat ms rows). rewrite <- H1. clear H1. induction H2 as [|r M Hr _ IH]; intros [|q N] L; try discriminate; [reflexivity|].
    cbn [zip_with mvec map vadd]. rewrite dot_app by exact Hr. f_equal. apply IH. simpl in L. lia.
Qed.
Lemma concat_len (M : mat) r c : mat_shape r c M -> length (concat M) = (r * c)%nat.
Proof. intros [H1 H2]. subst r. induction H2 as [|x M Hx _ IH]; [reflexivity|]. cbn [concat length]. rewrite app_length, IH, Hx. lia. Qed.
Theorem C41_jacobian (inp out : topology) (jac : ptree) (block : nat -> nat -> mat) (xs : list vec) :
  let n := length (top_shapes inp) in let m := length (top_shapes out) in
  let in_size j := size (nth j (top_shapes inp) []) in let out_size i := size (nth i (top_shapes out) []) in
  length (leaves jac) = (m * n)%nat ->
  (forall i j, (i < m)%nat -> (j < n)%nat -> mat_shape (out_size i) (in_size j) (block i j) /\ data (nth (j + i * n) (leaves jac) no_arr) = concat (block i j)) ->
  map (@length R) xs = top_sizes inp ->
  exists J, jac_jnp_to_onp inp out jac = Ok J /\
    mvec J (concat xs) = flat_map (fun i => fold_right vadd (vzero (out_size i)) (map (fun j => mvec (block i j) (nth j xs [])) (seq 0 n))) (seq 0 m).
Proof.
  intros n m in_size out_size Lj Hb Hxs.
  assert (Sz : forall p k, (k < length (top_shapes p))%nat -> nth k (top_sizes p) 0%nat = size (nth k (top_shapes p) [])).
  { intros p k Hk. unfold top_sizes. rewrite (nth_indep _ 0%nat (size [])) by (rewrite map_length; exact Hk). apply map_nth. }
  assert (Lxs : length xs = n) by (rewrite <- (map_length (@length R)), Hxs; unfold top_sizes; apply map_length).
  assert (Hrow : forall i, (i < m)%nat -> sequence (map (fun j => match nth_error (leaves jac) (j + i * n) with None => Err IndexError
          | Some x => if Nat.eqb (length (data x)) (nth i (top_sizes out) 0%nat * nth j (top_sizes inp) 0%nat) then Ok (to_rows (nth i (top_sizes out) 0%nat) (nth j (top_sizes inp) 0%nat) (data x)) else Err ValueError end) (seq 0 n)) = Ok (map (block i) (seq 0 n))).
  { intros i Hi. apply sequence_map. intros j Hj. apply in_seq in Hj. destruct (Hb i j Hi ltac:(lia)) as [B1 B2]. rewrite (nth_error_nth' _ no_arr) by (rewrite Lj; nia). rewrite B2, !Sz by (unfold n, m in *; lia). fold (in_size j) (out_size i). rewrite (concat_len _ _ _ B1), Nat.eqb_refl, to_rows_concat by exact B1. reflexivity. }
  unfold jac_jnp_to_onp. fold n m. cbv zeta. rewrite (sequence_map _ (fun i => hcat (map (block i) (seq 0 n)) (out_size i))).
  2:{ intros i Hi. apply in_seq in Hi. rewrite Hrow by lia. rewrite Sz by (unfold m in *; lia). reflexivity. }
  eexists. split; [reflexivity|]. unfold mvec at 1. rewrite concat_map, map_map, <- flat_map_concat_map.
  rewrite !flat_map_concat_map. f_equal. apply map_ext_in. intros i Hi. apply in_seq in Hi.
  assert (E : xs = map (fun j => nth j xs []) (seq 0 n)) by (rewrite <- Lxs; apply list_nth_seq).
  change (mvec (hcat (map (block i) (seq 0 n)) (out_size i)) (concat xs) = fold_right vadd (vzero (out_size i)) (map (fun j => mvec (block i j) (nth j xs [])) (seq 0 n))).
  assert (HF2 : Forall2 (fun (M : mat) (x : list R) => mat_shape (out_size i) (length x) M) (map (block i) (seq 0 n)) xs); [|rewrite (proj2 (hcat_spec (out_size i) (map (block i) (seq 0 n)) xs HF2))]; swap 1 2.
  - clear HF2. f_equal. rewrite E at 1. generalize (seq 0 n). intros l. induction l as [|j l IH]; [reflexivity|]. cbn [map zip_with]. f_equal. exact IH.
  - assert (P : forall j, In j (seq 0 n) -> mat_shape (out_size i) (length (nth j xs [])) (block i j)).
    { intros j Hj. apply in_seq in Hj. destruct (Hb i j ltac:(lia) ltac:(lia)) as [B1 _]. assert (Q : length (nth j xs []) = in_size j) by (change (length (nth j xs [])) with ((@length R) (nth j xs [])); rewrite <- (map_nth (@length R)), Hxs; apply Sz; unfold n in *; lia). rewrite Q. exact B1. }
    rewrite E. revert P. generalize (seq 0 n). intros l P. assert (P' : forall j, In j l -> mat_shape (out_size i) (length (nth j xs [])) (block i j)) by exact P. clear P. induction l as [|j l IH]; [constructor|]. cbn [map]. constructor; [apply P'; left; reflexivity|]. apply IH. intros k Hk. apply P'. right. exact Hk.
Qed.
Print Assumptions C41_jacobian.
(** A pytree without leaves cannot be flattened. *)
Theorem C41_empty (x : ptree) : leaves x = [] -> jnp_to_onp x = Err ValueError.
Proof. intros H. unfold jnp_to_onp. rewrite H. reflexivity. Qed.
Print Assumptions C41_empty.

(** ** Examples *)
Section Examples.
Import String. Local Open Scope string_scope.
Let x : ptree := Node "dict(a,b)" [Leaf (mk_arr [2%nat] [1; 2]); Node "tuple" [Leaf (mk_arr [] [3]); Leaf (mk_arr [1%nat; 2%nat] [4; 5])]].
Let y : ptree := Node "dict(a,b)" [Leaf (mk_arr [2%nat] [5; 4]); Node "tuple" [Leaf (mk_arr [] [3]); Leaf (mk_arr [1%nat; 2%nat] [2; 1])]].
Example C40_example : wf x /\ wf y /\ same_kind x y /\ nonempty x /\ tree_vdot x y = Ok 35 /\ (exists t, tree_add x y = Ok t /\ ravel t = [6; 6; 6; 6; 6]) /\
  tree_add x (Node "dict(a,b)" [Leaf (mk_arr [2%nat] [5; 4])]) = Err ValueError.
Proof.
  assert (Wx : wf x) by (repeat constructor). assert (Wy : wf y) by (repeat constructor). assert (K : same_kind x y) by reflexivity. assert (Hn : nonempty x) by discriminate. split; [exact Wx|]. split; [exact Wy|]. split; [exact K|]. split; [exact Hn|].
  split; [rewrite (proj1 (C40_vdot x y Wx Wy K) Hn); cbn; f_equal; ring|]. split; [|reflexivity].
  destruct (C40_arith x y 0 Wx Wy K) as ((t & E & _ & _ & E2) & _). exists t. split; [exact E|]. rewrite E2. cbn. repeat (apply f_equal2; [ring|]). reflexivity.
Qed.
Example C40_stacked_example : stacked (Leaf (mk_arr [2%nat] [0; 0])) [Leaf (mk_arr [2%nat] [1; 2]); Leaf (mk_arr [2%nat] [3; 4]); Leaf (mk_arr [2%nat] [5; 6])] (Leaf (mk_arr [3%nat; 2%nat] [1; 2; 3; 4; 5; 6])).
Proof. split; [repeat constructor|]. split; [reflexivity|]. intros [|l] H; [split; reflexivity|cbn in H; lia]. Qed.
Example C41_example : jnp_to_onp x = Ok [1; 2; 3; 4; 5] /\ onp_to_jnp (pytree_topology_from_example x) [5; 4; 3; 2; 1] = Ok y /\ onp_to_jnp (pytree_topology_from_example x) [5; 4; 3; 2] = Err ValueError /\
  jac_jnp_to_onp (pytree_topology_from_example (Node "tuple" [Leaf (mk_arr [] [0]); Leaf (mk_arr [2%nat] [0; 0])])) (pytree_topology_from_example (Leaf (mk_arr [2%nat] [0; 0])))
    (Node "tuple" [Leaf (mk_arr [2%nat] [1; 2]); Leaf (mk_arr [2%nat; 2%nat] [3; 4; 5; 6])]) = Ok [[1; 3; 4]; [2; 5; 6]].
Proof. repeat split; reflexivity. Qed.
End Examples.
