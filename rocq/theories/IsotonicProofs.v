From Coq Require Import Reals List Arith Bool Lra Lia ZArith Sorting.Sorted.
From Verif Require Import Prelude Vec Proj ProjProofs SparseSimplexProofs Isotonic.
Import ListNotations.
Open Scope R_scope.

(** ** Blocks *)
Definition mean (b : vec) : R := vsum b / INR (length b).
Definition good (b : vec) : Prop :=
  b <> [] /\ forall j, (j <= length b)%nat -> vsum (firstn j b) <= INR j * mean b.

Lemma len_pos (b : vec) : b <> [] -> 0 < INR (length b).
Proof. destruct b; [congruence|]. intros _. apply lt_0_INR. simpl; lia. Qed.
Lemma mean_eq b : b <> [] -> vsum b = INR (length b) * mean b.
Proof. intros H. unfold mean. field. pose proof (len_pos b H). lra. Qed.

Lemma mean_app a b : a <> [] -> b <> [] -> mean a <= mean b ->
  mean a <= mean (a ++ b) <= mean b.
Proof.
  intros Ha Hb H.
  assert (Hab : a ++ b <> []) by (destruct a; [congruence|discriminate]).
  pose proof (mean_eq a Ha) as E1. pose proof (mean_eq b Hb) as E2. pose proof (mean_eq _ Hab) as E3.
  rewrite vsum_app, app_length, plus_INR in E3.
  pose proof (len_pos a Ha). pose proof (len_pos b Hb).
  set (x := INR (length a)) in *. set (z := INR (length b)) in *. set (m := mean (a ++ b)) in *.
  rewrite E1, E2 in E3. split; nra.
Qed.
Lemma good_app a b : good a -> good b -> mean a <= mean b -> good (a ++ b).
Proof.
  intros [Ha Ga] [Hb Gb] H. destruct (mean_app a b Ha Hb H) as [M1 M2].
  assert (Hab : a ++ b <> []) by (destruct a; [congruence|discriminate]).
  split; [exact Hab|]. intros j Hj. rewrite app_length in Hj.
  rewrite firstn_app, vsum_app. destruct (le_lt_dec j (length a)) as [Hja|Hja].
  - replace (j - length a)%nat with 0%nat by lia. simpl.
    specialize (Ga j Hja). pose proof (pos_INR j). nra.
  - rewrite firstn_all2 by lia. set (t := (j - length a)%nat).
    assert (Ht : (t <= length b)%nat) by (unfold t; lia). specialize (Gb t Ht).
    replace (INR j) with (INR (length a) + INR t) by (rewrite <- plus_INR; f_equal; unfold t; lia).
    pose proof (mean_eq a Ha) as E1. pose proof (mean_eq b Hb) as E2. pose proof (mean_eq _ Hab) as E3.
    rewrite vsum_app, app_length, plus_INR in E3.
    assert (INR t <= INR (length b)) by (apply le_INR; exact Ht). pose proof (pos_INR t).
    set (m := mean (a ++ b)) in *. nra.
Qed.
Lemma good_singleton v : good [v].
Proof.
  split; [discriminate|]. unfold mean. simpl length. intros j Hj. simpl INR.
  assert (j = 0 \/ j = 1)%nat as [->| ->] by lia; simpl; lra.
Qed.

(** ** Representation of a block list by the arrays *)
Definition block_ok (a : arrays) (pos : nat) (b : vec) : Prop :=
  b <> [] /\ target a pos = (pos + length b - 1)%nat /\ target a (pos + length b - 1)%nat = pos /\
  c a pos = INR (length b) /\ sums a pos = vsum b /\ sol a pos = mean b.
Fixpoint rep (a : arrays) (pos : nat) (bl : list vec) : Prop :=
  match bl with
  | [] => True
  | b :: r => block_ok a pos b /\ rep a (pos + length b)%nat r
  end.
Definition agree (a a' : arrays) (j : nat) : Prop :=
  target a j = target a' j /\ c a j = c a' j /\ sums a j = sums a' j /\ sol a j = sol a' j.

Lemma rep_ext a a' pos bl :
  (forall j, (pos <= j < pos + length (concat bl))%nat -> agree a a' j) -> rep a pos bl -> rep a' pos bl.
Proof.
  revert pos; induction bl as [|b r IH]; intros pos H Hr; simpl in *; [exact I|].
  destruct Hr as [(Hne & H1 & H2 & H3 & H4 & H5) Hr]. rewrite app_length in H.
  assert (Hlb : (0 < length b)%nat) by (destruct b; [congruence|simpl; lia]).
  split.
  - destruct (H pos ltac:(lia)) as (A1 & A2 & A3 & A4).
    destruct (H (pos + length b - 1)%nat ltac:(lia)) as (B1 & _).
    unfold block_ok. rewrite <- A1, <- A2, <- A3, <- A4, <- B1. auto 10.
  - apply IH; [|exact Hr]. intros j Hj. apply H. lia.
Qed.
Lemma rep_app a pos bl1 bl2 :
  rep a pos (bl1 ++ bl2) <-> rep a pos bl1 /\ rep a (pos + length (concat bl1))%nat bl2.
Proof.
  revert pos; induction bl1 as [|b r IH]; intros pos; simpl.
  - rewrite Nat.add_0_r. tauto.
  - rewrite IH, app_length, Nat.add_assoc. tauto.
Qed.

Lemma upd_same {A} (f : nat -> A) i v : upd f i v i = v.
Proof. unfold upd. rewrite Nat.eqb_refl. reflexivity. Qed.
Lemma upd_diff {A} (f : nat -> A) i v j : j <> i -> upd f i v j = f j.
Proof. intros H. unfold upd. destruct (Nat.eqb_spec j i); [contradiction|reflexivity]. Qed.

Lemma inner_spec n a i : forall (Rs : list vec) (nb : vec) fuel (acc : vec) k sy sc,
  rep a k (nb :: Rs) -> Forall good (nb :: Rs) -> good acc -> mean acc <= mean nb ->
  sy = vsum acc -> sc = INR (length acc) -> (i + length acc)%nat = k ->
  (k + length (concat (nb :: Rs)))%nat = n -> (length Rs < fuel)%nat ->
  exists a' (acc' : vec) (R' : list vec),
    inner fuel n a i k sy sc = Some (a', if Nat.ltb 0 i then target a' (i - 1)%nat else i) /\
    acc ++ concat (nb :: Rs) = acc' ++ concat R' /\ good acc' /\ Forall good R' /\
    (length R' <= length Rs)%nat /\ rep a' i (acc' :: R') /\
    (forall j, (j < i)%nat -> agree a a' j).
Proof.
  induction Rs as [|nb2 Rs IH]; intros nb fuel acc k sy sc Hrep Hgood Hacc Hm -> -> Hk Hn Hf;
    (destruct fuel as [|fuel]; [lia|]); destruct Hrep as [(Hne & H1 & H2 & H3 & H4 & H5) Hrep];
    pose proof (Forall_inv Hgood) as Gnb; pose proof (Forall_inv_tail Hgood) as GR; cbn [inner].
  - (* last block *)
    assert (Hlb : (0 < length nb)%nat) by (destruct nb; [congruence|simpl; lia]).
    simpl concat in Hn. rewrite app_nil_r in Hn.
    assert (Ek : (target a k + 1)%nat = n) by (rewrite H1; lia). rewrite Ek, Nat.eqb_refl. simpl orb.
    eexists. exists (acc ++ nb), []. split; [reflexivity|].
    assert (Hla : (0 < length acc)%nat) by (destruct Hacc as [Hne' _]; destruct acc; [congruence|simpl; lia]).
    split; [simpl; rewrite !app_nil_r; reflexivity|].
    split; [apply good_app; assumption|]. split; [constructor|]. split; [simpl; lia|]. split.
    + simpl. split; [|exact I]. unfold block_ok; simpl. rewrite !app_length.
      split; [destruct acc; [simpl in Hla; lia|discriminate]|].
      replace (i + (length acc + length nb) - 1)%nat with (n - 1)%nat by lia.
      rewrite upd_same. rewrite (upd_diff _ (n-1)%nat) by lia. rewrite !upd_same.
      rewrite H3, H4, plus_INR, vsum_app. repeat split; try reflexivity; try lia.
      unfold mean. rewrite app_length, plus_INR, vsum_app. reflexivity.
    + intros j Hj. unfold agree; simpl. rewrite !upd_diff by lia. auto.
  - assert (Hlb : (0 < length nb)%nat) by (destruct nb; [congruence|simpl; lia]).
    inversion GR as [|? ? G2 GR2]; subst.
    assert (Hl2 : (0 < length nb2)%nat) by (destruct G2 as [Hn2 _]; destruct nb2; [congruence|simpl; lia]).
    assert (Hla : (0 < length acc)%nat) by (destruct Hacc as [Hne' _]; destruct acc; [congruence|simpl; lia]).
    assert (Ek : (target a (i + length acc) + 1 = i + length acc + length nb)%nat) by (rewrite H1; lia).
    rewrite Ek.
    destruct (Nat.eqb_spec (i + length acc + length nb) (i + length acc + length (concat (nb :: nb2 :: Rs)))) as [E|E].
    { exfalso. simpl concat in E. rewrite !app_length in E. lia. }
    pose proof Hrep as Hrep'. destruct Hrep as [(_ & _ & _ & _ & _ & S2) _]. rewrite S2, H5. simpl orb.
    assert (GAB : good (acc ++ nb)) by (apply good_app; assumption).
    destruct (Rlt_dec (mean nb2) (mean nb)) as [Hlt|Hge].
    + eexists. exists (acc ++ nb), (nb2 :: Rs). split; [reflexivity|].
      split; [simpl; rewrite <- !app_assoc; reflexivity|].
      split; [exact GAB|]. split; [exact GR|]. split; [apply le_n|]. split.
      * set (e := (i + length acc + length nb - 1)%nat).
        split.
        -- unfold block_ok; simpl. rewrite !app_length.
           split; [destruct acc; [simpl in Hla; lia|discriminate]|].
           replace (i + (length acc + length nb) - 1)%nat with e by (unfold e; lia).
           rewrite upd_same. rewrite (upd_diff _ e) by (unfold e; lia). rewrite !upd_same.
           rewrite H3, H4, plus_INR, vsum_app. repeat split; try reflexivity.
           unfold mean. rewrite app_length, plus_INR, vsum_app. reflexivity.
        -- rewrite app_length, Nat.add_assoc. apply rep_ext with (a := a); [|exact Hrep'].
           intros j Hj. unfold agree; simpl. rewrite !upd_diff by (unfold e; lia). auto.
      * intros j Hj. unfold agree; simpl. rewrite !upd_diff by lia. auto.
    + destruct (IH nb2 fuel (acc ++ nb) (i + length acc + length nb)%nat
                   (vsum acc + sums a (i + length acc)) (INR (length acc) + c a (i + length acc)))
        as (a' & acc' & R' & E1 & E2 & G' & GR' & Hl & Hr & Hag); try assumption.
      * destruct Hacc as [Hne' _]. destruct (mean_app acc nb Hne' Hne Hm). lra.
      * rewrite H4, vsum_app. reflexivity.
      * rewrite H3, app_length, plus_INR. reflexivity.
      * rewrite app_length. lia.
      * simpl concat. rewrite !app_length. lia.
      * simpl in Hf. lia.
      * exists a', acc', R'. split; [exact E1|]. split; [rewrite <- E2; simpl; rewrite <- !app_assoc; reflexivity|].
        split; [exact G'|]. split; [exact GR'|]. split; [simpl; lia|]. auto.
Qed.

(** Block means decrease from left to right. *)
Definition decr (b1 b2 : vec) : Prop := mean b2 <= mean b1.

Lemma Sorted_app_left {A} (Q : A -> A -> Prop) l1 l2 : Sorted Q (l1 ++ l2) -> Sorted Q l1.
Proof.
  induction l1 as [|a l IH]; simpl; intros H; [constructor|].
  inversion H; subst. constructor; [apply IH; assumption|].
  destruct l; [constructor|]. inversion H3; subst. constructor. assumption.
Qed.
Lemma Sorted_snoc {A} (Q : A -> A -> Prop) l b d : Sorted Q (l ++ [b]) -> Q b d -> Sorted Q ((l ++ [b]) ++ [d]).
Proof.
  induction l as [|a l IH]; simpl; intros H Hq.
  - repeat constructor. exact Hq.
  - inversion H; subst. constructor; [apply IH; assumption|].
    destruct l; simpl in *; constructor; inversion H3; assumption.
Qed.

Lemma blocks_len_le (bl : list vec) : Forall good bl -> (length bl <= length (concat bl))%nat.
Proof.
  induction 1 as [|b r [Hb _] _ IH]; simpl; [lia|]. rewrite app_length.
  destruct b; [congruence|simpl; lia].
Qed.

Lemma outer_spec n y : length y = n -> forall fuel a L B Rr,
  rep a 0 (L ++ B :: Rr) -> Forall good (L ++ B :: Rr) -> Sorted decr (L ++ [B]) ->
  concat (L ++ B :: Rr) = y ->
  (2 * length (L ++ B :: Rr) - length L <= fuel)%nat ->
  exists a' bl, outer fuel n a (length (concat L)) = Some a' /\
    rep a' 0 bl /\ Forall good bl /\ Sorted decr bl /\ concat bl = y.
Proof.
  intros Hy. induction fuel as [|fuel IH]; intros a L B Rr Hrep Hgood Hsort Hcat Hf.
  - rewrite app_length in Hf. simpl in Hf. lia.
  - cbn [outer]. set (i := length (concat L)).
    pose proof Hrep as Hrep0. apply rep_app in Hrep. destruct Hrep as [HrL [HB HrR]]. fold i in HB, HrR. simpl in HB, HrR.
    pose proof Hgood as Hgood0. apply Forall_app in Hgood. destruct Hgood as [GL GBR]. inversion GBR as [|? ? GB GR]; subst.
    pose proof (f_equal (@length R) (concat_app L (B :: Rr))) as Hlen. rewrite app_length in Hlen. fold i in Hlen.
    simpl concat in Hlen at 2. rewrite app_length in Hlen.
    destruct HB as (Hne & H1 & H2 & H3 & H4 & H5).
    assert (HlB : (0 < length B)%nat) by (destruct B; [congruence|simpl; lia]).
    set (n := length (concat (L ++ B :: Rr))) in *.
    change (n = (i + (length B + length (concat Rr)))%nat) in Hlen.
    destruct (Nat.ltb_spec i n) as [_|H]; [|lia].
    assert (Ek : (target a i + 1 = i + length B)%nat) by (rewrite H1; lia). rewrite Ek.
    destruct Rr as [|B2 Rr].
    { destruct (Nat.eqb_spec (i + length B) n) as [_|H]; [|simpl in Hlen; lia].
      exists a, (L ++ [B]). auto. }
    inversion GR as [|? ? GB2 GR2]; subst.
    assert (Hl2 : (0 < length B2)%nat) by (destruct GB2 as [Hn2 _]; destruct B2; [congruence|simpl; lia]).
    destruct (Nat.eqb_spec (i + length B) n) as [H|_]; [simpl in Hlen; rewrite app_length in Hlen; lia|].
    pose proof HrR as HrR0. destruct HrR as [(_ & _ & _ & _ & _ & S2) _].
    destruct (Rlt_dec (sol a (i + length B)) (sol a i)) as [Hlt|Hge].
    + (* advance *)
      destruct (IH a (L ++ [B]) B2 Rr) as (a' & bl & E & Q1 & Q2 & Q3 & Q4).
      * rewrite <- app_assoc. exact Hrep0.
      * rewrite <- app_assoc. exact Hgood0.
      * apply Sorted_snoc; [exact Hsort|]. unfold decr. rewrite <- S2, <- H5. lra.
      * rewrite <- app_assoc. reflexivity.
      * rewrite !app_length in *. simpl in *. lia.
      * exists a', bl. split; [|auto]. rewrite <- E. f_equal.
        rewrite concat_app, app_length. simpl. rewrite app_nil_r. reflexivity.
    + (* merge *)
      destruct (inner_spec n a i Rr B2 n B (i + length B)%nat (sums a i) (c a i))
        as (a' & acc' & R' & E1 & E2 & G' & GR' & Hl & Hr & Hag); try assumption; try reflexivity.
      * rewrite S2, H5 in Hge. lra.
      * simpl in Hlen. rewrite app_length in Hlen. simpl. rewrite app_length. lia.
      * pose proof (blocks_len_le _ Hgood0) as Hb. fold n in Hb. rewrite app_length in Hb. simpl in Hb. lia.
      * rewrite E1.
        assert (HrL' : rep a' 0 L) by (apply rep_ext with (a := a); [intros j Hj; apply Hag; unfold i; lia|exact HrL]).
        destruct L as [|l0 L0].
        -- simpl in i. unfold i in *. simpl Nat.ltb. cbv iota.
           destruct (IH a' [] acc' R') as (a'' & bl & E & Q1 & Q2 & Q3 & Q4).
           ++ exact Hr.
           ++ constructor; assumption.
           ++ repeat constructor.
           ++ simpl. rewrite <- E2. simpl. rewrite <- ?app_assoc. reflexivity.
           ++ simpl in *. lia.
           ++ exists a'', bl. auto.
        -- destruct (@exists_last _ (l0 :: L0) ltac:(discriminate)) as (L' & b & EL).
           rewrite EL in *.
           assert (Ei : i = (length (concat L') + length b)%nat).
           { unfold i. rewrite EL, concat_app, app_length. simpl. rewrite app_nil_r. reflexivity. }
           apply Forall_app in GL. destruct GL as [GL' Gb]. inversion Gb as [|? ? Gb1 _]; subst.
           assert (Hlb : (0 < length b)%nat) by (destruct Gb1 as [Hn2 _]; destruct b; [congruence|simpl; lia]).
           destruct (Nat.ltb_spec 0 i) as [_|]; [|lia].
           pose proof HrL' as HrLb. apply rep_app in HrLb. destruct HrLb as [_ [(_ & _ & T & _) _]].
           simpl in T. replace (length (concat L') + length b - 1)%nat with (i - 1)%nat in T by lia.
           rewrite T.
           destruct (IH a' L' b (acc' :: R')) as (a'' & bl & E & Q1 & Q2 & Q3 & Q4).
           ++ assert (Es : L' ++ b :: acc' :: R' = (L' ++ [b]) ++ acc' :: R') by (rewrite <- app_assoc; reflexivity).
              rewrite Es. apply rep_app. split; [exact HrL'|].
              rewrite concat_app, app_length. simpl concat. rewrite app_nil_r. simpl plus. rewrite <- Ei. exact Hr.
           ++ apply Forall_app. split; [exact GL'|]. constructor; [exact Gb1|]. constructor; assumption.
           ++ eapply Sorted_app_left; exact Hsort.
           ++ rewrite !concat_app. simpl. simpl in E2. rewrite app_nil_r, <- app_assoc, E2. reflexivity.
           ++ rewrite !app_length in *. simpl in *. lia.
           ++ exists a'', bl. auto.
Qed.

Lemma reconstruct_spec n tgt : forall bl fuel pos s a,
  (forall j, tgt j = target a j) -> rep a pos bl ->
  (pos + length (concat bl))%nat = n -> (length bl < fuel)%nat ->
  (forall j, (pos <= j)%nat -> s j = sol a j) ->
  exists s', reconstruct fuel n tgt s pos = Some s' /\
    (forall j, (j < pos)%nat -> s' j = s j) /\
    (forall j, (j < length (concat bl))%nat ->
       s' (pos + j)%nat = nth j (concat (map (fun b => repeat (mean b) (length b)) bl)) 0).
Proof.
  induction bl as [|b bl IH]; intros fuel pos s a Ht Hrep Hn Hf Hs; (destruct fuel as [|fuel]; [simpl in Hf; lia|]); cbn [reconstruct].
  - simpl in Hn. rewrite Nat.add_0_r in Hn. subst. rewrite Nat.ltb_irrefl. exists s.
    split; [reflexivity|]. split; [reflexivity|]. simpl; lia.
  - destruct Hrep as [(Hne & H1 & H2 & H3 & H4 & H5) Hrep].
    assert (Hlb : (0 < length b)%nat) by (destruct b; [congruence|simpl; lia]).
    simpl concat in Hn. rewrite app_length in Hn.
    destruct (Nat.ltb_spec pos n) as [_|]; [|lia]. rewrite Ht.
    assert (Ek : (target a pos + 1 = pos + length b)%nat) by (rewrite H1; lia). rewrite Ek.
    destruct (IH fuel (pos + length b)%nat
      (fun j => if (Nat.leb (pos + 1) j && Nat.ltb j (pos + length b))%bool then s pos else s j) a)
      as (s' & E & Q1 & Q2); [exact Ht|exact Hrep|lia|simpl in Hf; lia| |].
    { intros j Hj. cbv beta. destruct (Nat.leb_spec (pos + 1) j); destruct (Nat.ltb_spec j (pos + length b)); simpl; try lia.
      apply Hs. lia. }
    exists s'. split; [exact E|]. split.
    + intros j Hj. rewrite Q1 by lia. destruct (Nat.leb_spec (pos + 1) j); [lia|]. reflexivity.
    + intros j Hj. simpl concat in *. rewrite app_length in Hj.
      destruct (lt_dec j (length b)) as [Hjb|Hjb].
      * rewrite app_nth1 by (rewrite repeat_length; exact Hjb). rewrite nth_repeat_lt by exact Hjb.
        rewrite Q1 by lia. destruct (Nat.leb_spec (pos + 1) (pos + j)); destruct (Nat.ltb_spec (pos + j) (pos + length b)); simpl; try lia.
        -- rewrite Hs by lia. exact H5.
        -- replace (pos + j)%nat with pos by lia. rewrite Hs by lia. exact H5.
      * rewrite app_nth2 by (rewrite repeat_length; lia). rewrite repeat_length.
        rewrite <- Q2 by lia. f_equal. lia.
Qed.

(** The fitted vector. *)
Definition fit (bl : list vec) : vec := concat (map (fun b => repeat (mean b) (length b)) bl).
Lemma fit_length bl : length (fit bl) = length (concat bl).
Proof. unfold fit. induction bl as [|b bl IH]; simpl; [reflexivity|]. rewrite !app_length, repeat_length, IH. reflexivity. Qed.

Lemma init_rep y : rep (init_arrays y) 0 (map (fun v => [v]) y).
Proof.
  assert (G : forall l pos, (forall j, (j < length l)%nat -> nth (pos + j) y 0 = nth j l 0) ->
    rep (init_arrays y) pos (map (fun v => [v]) l)).
  { induction l as [|v l IH]; intros pos H; simpl; [exact I|]. split.
    - unfold block_ok; simpl. specialize (H 0%nat ltac:(simpl; lia)). rewrite Nat.add_0_r in H. simpl in H.
      rewrite H. split; [discriminate|]. repeat split; try lia; try lra. unfold mean; simpl. field.
    - apply IH. intros j Hj. specialize (H (S j) ltac:(simpl; lia)). simpl in H. rewrite <- H. f_equal. lia. }
  apply (G y 0%nat). intros j _. reflexivity.
Qed.
Lemma init_good y : Forall good (map (fun v => [v]) y).
Proof. apply Forall_map. apply Forall_forall. intros v _. apply good_singleton. Qed.
Lemma init_concat (y : vec) : concat (map (fun v => [v]) y) = y.
Proof. induction y as [|v y IH]; simpl; [reflexivity|]. rewrite IH. reflexivity. Qed.

Lemma pav_spec y fuel : (2 * length y + 1 <= fuel)%nat ->
  exists bl, pav fuel astype_float y = Some (fit bl) /\ Forall good bl /\ Sorted decr bl /\ concat bl = y.
Proof.
  intros Hf. unfold pav.
  assert (Ho : exists a' bl, outer fuel (length y) (init_arrays y) 0 = Some a' /\
    rep a' 0 bl /\ Forall good bl /\ Sorted decr bl /\ concat bl = y).
  { destruct y as [|v y].
    - destruct fuel as [|fuel]; [simpl in Hf; lia|]. simpl. eexists. exists []. split; [reflexivity|]. simpl; auto.
    - pose proof (init_rep (v :: y)) as H1. pose proof (init_good (v :: y)) as H2. pose proof (init_concat (v :: y)) as H3.
      apply (outer_spec (length (v :: y)) (v :: y) eq_refl fuel (init_arrays (v :: y)) [] [v] (map (fun v => [v]) y)).
      + exact H1. + exact H2. + repeat constructor. + exact H3.
      + simpl. rewrite map_length. simpl in Hf. lia. }
  destruct Ho as (a & bl & E & Hrep & Hg & Hs & Hc). rewrite E.
  destruct (reconstruct_spec (length y) (target a) bl fuel 0%nat (sol a) a) as (s & Es & _ & Hsol); auto.
  - simpl. rewrite Hc. reflexivity.
  - pose proof (blocks_len_le bl Hg) as Hb. rewrite Hc in Hb. lia.
  - rewrite Es. exists bl. split; [|auto]. f_equal.
    apply vec_ext.
    + rewrite map_length, seq_length, fit_length, Hc. reflexivity.
    + rewrite map_length, seq_length. intros i Hi.
      rewrite (nth_map_lt _ _ i 0%nat 0) by (rewrite seq_length; exact Hi).
      rewrite seq_nth by exact Hi. simpl. unfold astype_float. apply (Hsol i). rewrite Hc; exact Hi.
Qed.

(** ** Optimality *)
(** Abel summation inside a block. *)
Lemma abel b m q : length q = length b -> monotone false q ->
  (forall j, (j <= length b)%nat -> vsum (firstn j b) <= INR j * m) ->
  dot b q - m * vsum q <= (vsum b - INR (length b) * m) * nth (length b - 1) q 0.
Proof.
  revert q. induction b as [|x b IH] using rev_ind; intros q Hl Hq Hp.
  - destruct q; [|discriminate]. simpl. lra.
  - destruct (@exists_last _ q) as (q' & z & ->); [intros ->; rewrite app_length in Hl; simpl in Hl; lia|].
    rewrite !app_length in Hl. simpl in Hl.
    assert (Hl' : length q' = length b) by lia.
    rewrite dot_app by lia. rewrite !vsum_app, app_length. simpl length. simpl dot. simpl vsum.
    replace (length b + 1 - 1)%nat with (length q') by lia. rewrite nth_middle.
    assert (IHq := IH q' Hl').
    assert (Hq' : monotone false q').
    { intros i Hi. specialize (Hq i). rewrite app_length in Hq. specialize (Hq ltac:(simpl; lia)).
      rewrite !app_nth1 in Hq by lia. exact Hq. }
    specialize (IHq Hq').
    assert (Hp' : forall j, (j <= length b)%nat -> vsum (firstn j b) <= INR j * m).
    { intros j Hj. specialize (Hp j). rewrite app_length in Hp. specialize (Hp ltac:(simpl; lia)).
      rewrite firstn_app in Hp. replace (j - length b)%nat with 0%nat in Hp by lia. simpl in Hp.
      rewrite app_nil_r in Hp. exact Hp. }
    specialize (IHq Hp'). rewrite plus_INR. simpl INR.
    specialize (Hp' (length b) (le_n _)). rewrite firstn_all in Hp'.
    destruct b as [|b0 b'].
    + destruct q'; [|discriminate]. simpl in *. lra.
    + specialize (Hq (length (b0 :: b') - 1)%nat). rewrite app_length in Hq.
      specialize (Hq ltac:(simpl in *; lia)). simpl in Hq.
      replace (S (length b' - 0)) with (length q') in Hq by (simpl in Hl'; lia).
      rewrite nth_middle, app_nth1 in Hq by (simpl in Hl'; lia).
      replace (length (b0 :: b') - 1)%nat with (length b' - 0)%nat in IHq by (simpl; lia).
      set (w := nth (length b' - 0) q' 0) in *. set (S0 := vsum (b0 :: b')) in *. set (N := INR (length (b0 :: b'))) in *.
      nra.
Qed.
Lemma good_abel b q : good b -> length q = length b -> monotone false q ->
  dot (vsub b (repeat (mean b) (length b))) q <= 0.
Proof.
  intros [Hne G] Hl Hq. pose proof (abel b (mean b) q Hl Hq G) as H.
  rewrite dot_vsub_l.
  assert (E : forall m, dot (repeat m (length b)) q = m * vsum q).
  { intros m. rewrite <- Hl. clear. induction q as [|a q IH]; simpl; [ring|]. rewrite IH. ring. }
  rewrite E. rewrite (mean_eq b Hne) in H. lra.
Qed.
Lemma monotone_app s q1 q2 : monotone s (q1 ++ q2) -> monotone s q1 /\ monotone s q2.
Proof.
  intros H. split; intros i Hi.
  - specialize (H i). rewrite app_length in H. specialize (H ltac:(lia)). rewrite !app_nth1 in H by lia. exact H.
  - specialize (H (length q1 + i)%nat). rewrite app_length in H. specialize (H ltac:(lia)).
    rewrite !app_nth2 in H by lia.
    replace (length q1 + i - length q1)%nat with i in H by lia.
    replace (S (length q1 + i) - length q1)%nat with (S i) in H by lia. exact H.
Qed.
Lemma vsub_app x1 x2 y1 y2 : length x1 = length y1 -> vsub (x1 ++ x2) (y1 ++ y2) = vsub x1 y1 ++ vsub x2 y2.
Proof. revert y1; induction x1 as [|a x IH]; intros [|b y] H; simpl in *; try discriminate; [reflexivity|]. f_equal. apply IH. lia. Qed.

Lemma fit_normal bl q : Forall good bl -> length q = length (concat bl) -> monotone false q ->
  dot (vsub (concat bl) (fit bl)) q <= 0.
Proof.
  intros Hg; revert q; induction Hg as [|b bl Gb Hg IH]; intros q Hl Hq; [simpl; lra|].
  unfold fit; simpl. rewrite vsub_app by (rewrite repeat_length; reflexivity). fold (fit bl).
  simpl concat in Hl. rewrite app_length in Hl.
  rewrite <- (firstn_skipn (length b) q) in *. set (q1 := firstn (length b) q) in *. set (q2 := skipn (length b) q) in *.
  assert (H1 : length q1 = length b) by (unfold q1; rewrite firstn_length; unfold q1, q2 in Hl; rewrite firstn_skipn in Hl; lia).
  apply monotone_app in Hq. destruct Hq as [Hq1 Hq2].
  rewrite dot_app by (rewrite vsub_length, repeat_length; lia).
  assert (dot (vsub b (repeat (mean b) (length b))) q1 <= 0) by (apply good_abel; assumption).
  assert (dot (vsub (concat bl) (fit bl)) q2 <= 0) by (apply IH; [rewrite app_length in Hl; lia|exact Hq2]).
  lra.
Qed.
Lemma fit_orthogonal bl f : Forall good bl -> dot (vsub (concat bl) (fit bl)) (map f (fit bl)) = 0.
Proof.
  induction 1 as [|b bl Gb Hg IH]; [reflexivity|].
  unfold fit; simpl. rewrite map_app, vsub_app by (rewrite repeat_length; reflexivity). fold (fit bl).
  rewrite dot_app by (rewrite vsub_length, map_length, repeat_length; lia). rewrite IH.
  assert (E : map f (repeat (mean b) (length b)) = repeat (f (mean b)) (length b)).
  { clear. induction (length b) as [|k IH]; simpl; [reflexivity|]. f_equal. exact IH. }
  rewrite E. destruct Gb as [Hne _].
  assert (E2 : forall v x, length x = length b -> dot x (repeat v (length b)) = v * vsum x).
  { intros v x <-. clear. induction x as [|a q IH]; simpl; [ring|]. rewrite IH. ring. }
  rewrite E2 by (rewrite vsub_length, repeat_length; lia).
  rewrite vsum_vsub, vsum_repeat, (mean_eq b Hne). ring.
Qed.
Lemma fit_monotone bl : Forall good bl -> Sorted decr bl -> monotone false (fit bl).
Proof.
  intros Hg Hs. induction Hs as [|b bl Hs IH Hh]; [intros i Hi; simpl in Hi; lia|].
  inversion Hg as [|? ? Gb Hg']; subst. specialize (IH Hg').
  unfold fit; simpl. fold (fit bl). intros i Hi. rewrite app_length, repeat_length in Hi.
  destruct (lt_dec (S i) (length b)) as [H|H].
  - rewrite !app_nth1 by (rewrite repeat_length; lia). rewrite !nth_repeat_lt by lia. lra.
  - destruct (Nat.eq_dec (S i) (length b)) as [E|E].
    + rewrite (app_nth1 _ _ 0 (n := i)) by (rewrite repeat_length; lia). rewrite nth_repeat_lt by lia.
      rewrite app_nth2 by (rewrite repeat_length; lia). rewrite repeat_length, E, Nat.sub_diag.
      destruct bl as [|b2 bl]; [simpl in Hi; lia|]. inversion Hh; subst. unfold fit; simpl.
      inversion Hg' as [|? ? [Hne2 _] _]; subst. destruct b2; [congruence|]. simpl. assumption.
    + rewrite !app_nth2 by (rewrite repeat_length; lia). rewrite repeat_length.
      replace (S i - length b)%nat with (S (i - length b)) by lia. apply IH. lia.
Qed.

(** Clipping. *)
Lemma xclip_in lo hi a : valid_bounds lo hi -> in_bounds lo hi (xclip lo hi a).
Proof.
  unfold in_bounds, xclip, xmin, xmax. destruct lo, hi; simpl; intros H; try contradiction; split; auto;
  unfold Rmax, Rmin; repeat destruct (Rle_dec _ _); lra.
Qed.
Lemma xclip_mono lo hi a b : a <= b -> xclip lo hi a <= xclip lo hi b.
Proof.
  unfold xclip, xmin, xmax. destruct lo, hi; simpl; intros H; auto;
  unfold Rmax, Rmin; repeat destruct (Rle_dec _ _); lra.
Qed.
Lemma xclip_vi lo hi a q : in_bounds lo hi q -> (a - xclip lo hi a) * (q - xclip lo hi a) <= 0.
Proof.
  unfold in_bounds, xclip, xmin, xmax. destruct lo, hi; simpl; intros [H1 H2];
  unfold Rmax, Rmin; repeat destruct (Rle_dec _ _); nra.
Qed.
Definition xneg (a : xnum) : xnum := match a with Fin r => Fin (- r) | PInf => NInf | NInf => PInf | NaN => NaN end.

Lemma fit_vi bl lo hi : Forall good bl -> Sorted decr bl -> valid_bounds lo hi ->
  var_ineq (isotonic_set (length (concat bl)) lo hi false) (concat bl) (map (xclip lo hi) (fit bl)).
Proof.
  intros Hg Hs Hb. split.
  - split; [rewrite map_length; apply fit_length|]. split.
    + intros i Hi. rewrite map_length in Hi.
      rewrite !(nth_map_lt _ _ _ 0 0) by lia. apply xclip_mono. apply (fit_monotone bl Hg Hs); exact Hi.
    + apply Forall_map, Forall_forall. intros a _. apply xclip_in. exact Hb.
  - intros q (Hl & Hq & Hin).
    set (p := fit bl). set (cp := map (xclip lo hi) p). set (y := concat bl) in *.
    assert (E : dot (vsub y cp) (vsub q cp) = dot (vsub y p) q - dot (vsub y p) cp + dot (vsub p cp) (vsub q cp)) by vring.
    rewrite E. assert (E0 : dot (vsub y p) cp = 0) by exact (fit_orthogonal bl (xclip lo hi) Hg).
    assert (dot (vsub y p) q <= 0) by (apply fit_normal; assumption).
    assert (dot (vsub p cp) (vsub q cp) <= 0).
    { apply dot_nonpos_coords. intros i Hi Hi2. rewrite !nth_vsub. unfold cp.
      rewrite vsub_length in Hi, Hi2. unfold cp in Hi, Hi2. rewrite map_length in Hi, Hi2.
      rewrite (nth_map_lt _ _ i 0 0) by lia. apply xclip_vi.
      rewrite Forall_forall in Hin. apply Hin, nth_In. pose proof (fit_length bl) as Hfl. fold p y in Hfl. lia. }
    lra.
Qed.

Lemma smul_neg1_invol x : smul (-1) (smul (-1) x) = x.
Proof. rewrite smul_smul. replace (-1 * -1) with 1 by ring. apply smul_1. Qed.
Lemma xclip_neg lo hi a : valid_bounds lo hi -> xclip lo hi (-1 * a) = -1 * xclip (xneg hi) (xneg lo) a.
Proof.
  unfold xclip, xmin, xmax. destruct lo, hi; simpl; intros H; try contradiction;
  unfold Rmax, Rmin; repeat destruct (Rle_dec _ _); lra.
Qed.
Lemma valid_neg lo hi : valid_bounds lo hi -> valid_bounds (xneg hi) (xneg lo).
Proof. destruct lo, hi; simpl; intros; auto; lra. Qed.
Lemma isotonic_neg n lo hi q : valid_bounds lo hi ->
  isotonic_set n lo hi true q -> isotonic_set n (xneg hi) (xneg lo) false (smul (-1) q).
Proof.
  intros Hb (Hl & Hm & Hin). split; [rewrite smul_length; exact Hl|]. split.
  - intros i Hi. rewrite smul_length in Hi. specialize (Hm i Hi). simpl in Hm. rewrite !nth_smul. lra.
  - unfold smul. apply Forall_map. eapply Forall_impl; [|exact Hin]. intros a [H1 H2]. unfold in_bounds.
    destruct lo, hi; simpl in *; try contradiction; split; auto; lra.
Qed.
Lemma isotonic_neg' n lo hi q : valid_bounds lo hi ->
  isotonic_set n (xneg hi) (xneg lo) false (smul (-1) q) -> isotonic_set n lo hi true q.
Proof.
  intros Hb (Hl & Hm & Hin). rewrite smul_length in Hl. split; [exact Hl|]. split.
  - intros i Hi. specialize (Hm i). rewrite smul_length in Hm. specialize (Hm Hi). simpl in Hm. rewrite !nth_smul in Hm. simpl. lra.
  - apply Forall_forall. intros a Ha. unfold smul in Hin. rewrite Forall_map, Forall_forall in Hin.
    specialize (Hin a Ha). unfold in_bounds in *.
    destruct lo, hi; simpl in *; try contradiction; destruct Hin; split; auto; lra.
Qed.

Lemma isotonic_projection y lo hi increasing fuel : valid_bounds lo hi -> (2 * length y + 1 <= fuel)%nat ->
  exists v, isotonic_l2_pav fuel astype_float y lo hi increasing = Some v /\
    is_projection (isotonic_set (length y) lo hi increasing) y v.
Proof.
  intros Hb Hf. unfold isotonic_l2_pav.
  assert (Hlen : forall s, length (smul s y) = length y) by (intros; apply smul_length).
  destruct increasing.
  - destruct (pav_spec (smul (-1) y) fuel ltac:(rewrite Hlen; exact Hf)) as (bl & -> & Hg & Hs & Hc).
    eexists. split; [reflexivity|].
    assert (HV := fit_vi bl (xneg hi) (xneg lo) Hg Hs (valid_neg _ _ Hb)). rewrite Hc, Hlen in HV.
    assert (E : map (xclip lo hi) (smul (-1) (fit bl)) = smul (-1) (map (xclip (xneg hi) (xneg lo)) (fit bl))).
    { unfold smul. rewrite !map_map. apply map_ext. intros a. apply xclip_neg. exact Hb. }
    rewrite E. set (p := map (xclip (xneg hi) (xneg lo)) (fit bl)) in *. destruct HV as [Hin HV].
    apply var_ineq_projection with (n := length y); [intros q [Hq _]; exact Hq|].
    split.
    + apply isotonic_neg'; [exact Hb|]. rewrite smul_neg1_invol. exact Hin.
    + intros q Hq. specialize (HV (smul (-1) q) (isotonic_neg _ _ _ _ Hb Hq)).
      assert (E2 : dot (vsub (smul (-1) y) p) (vsub (smul (-1) q) p) = dot (vsub y (smul (-1) p)) (vsub q (smul (-1) p))) by vring.
      rewrite E2 in HV. exact HV.
  - destruct (pav_spec (smul 1 y) fuel ltac:(rewrite Hlen; exact Hf)) as (bl & -> & Hg & Hs & Hc).
    eexists. split; [reflexivity|]. rewrite smul_1 in *.
    pose proof (fit_vi bl lo hi Hg Hs Hb) as HV. rewrite Hc in HV. 
    eapply var_ineq_projection; [|exact HV]. intros q [Hq _]; exact Hq.
Qed.
