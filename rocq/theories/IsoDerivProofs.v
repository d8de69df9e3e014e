(** Proofs about the declared derivative of isotonic regression (ProjDeriv.v). *)
From Coq Require Import Reals List Bool Arith Lra Lia Sorted.
From Verif Require Import Prelude Vec Proj ProjProofs Isotonic IsotonicProofs ProjDeriv ProjDerivProofs.
Import ListNotations.
Open Scope R_scope.

Definition stepv (n s : nat) : vec := map (fun j => if Nat.leb s j then 1 else 0) (seq 0 n).
Lemma stepv_length n s : length (stepv n s) = n. Proof. unfold stepv. rewrite map_length, seq_length. reflexivity. Qed.
Lemma nth_stepv n s j : (j < n)%nat -> nth j (stepv n s) 0 = if Nat.leb s j then 1 else 0.
Proof. intros H. unfold stepv. rewrite (nth_map_lt _ _ j 0%nat 0) by (rewrite seq_length; exact H). rewrite seq_nth by exact H. reflexivity. Qed.
Lemma dot_stepv_gen (v : vec) o s : dot (map (fun j => if Nat.leb s j then 1 else 0) (seq o (length v))) v = vsum (skipn (s - o) v).
Proof.
  revert o; induction v as [|a v IH]; intros o; [rewrite skipn_nil; reflexivity|]. cbn [length seq map dot]. rewrite IH.
  destruct (Nat.leb_spec s o).
  - replace (s - o)%nat with 0%nat by lia. replace (s - S o)%nat with 0%nat by lia. simpl. ring.
  - replace (s - o)%nat with (S (s - S o)) by lia. simpl. ring.
Qed.
Lemma dot_stepv n s v : length v = n -> dot (stepv n s) v = vsum (skipn s v).
Proof. intros <-. unfold stepv. rewrite dot_stepv_gen, Nat.sub_0_r. reflexivity. Qed.
Lemma vsum_stepv n s : vsum (stepv n s) = INR (n - s).
Proof.
  rewrite vsum_dot, dot_comm, stepv_length. rewrite dot_stepv by apply vones_length. unfold vones.
  replace (skipn s (repeat 1 n)) with (repeat 1 (n - s)); [rewrite vsum_repeat; ring|].
  revert n; induction s as [|s IH]; intros [|n]; simpl; try reflexivity. apply IH.
Qed.
Definition seg (v : vec) (s e : nat) : R := vsum (firstn (e - s) (skipn s v)).
Lemma skipn_skipn' {A} (l : list A) : forall b a, skipn a (skipn b l) = skipn (b + a) l.
Proof. induction l as [|x l IH]; intros [|b] a; simpl; rewrite ?skipn_nil; try reflexivity. apply IH. Qed.
Lemma seg_eq v s e : (s <= e)%nat -> vsum (skipn s v) - vsum (skipn e v) = seg v s e.
Proof.
  intros H. unfold seg. rewrite <- (firstn_skipn (e - s) (skipn s v)) at 1. rewrite vsum_app, skipn_skipn'.
  replace (s + (e - s))%nat with e by lia. ring.
Qed.

(** ** Value of the declared rule on one block *)
Section Rows.
Variables (n : nat) (v : vec) (Hv : length v = n).
Definition contrib (b : vec) : vec := map (fun e => e * dot b v / (vsum b + iso_eps)) b.
Definition total (rows : list vec) : vec := fold_right vadd (vzero n) (map contrib rows).
Definition bval (s e : nat) : R := seg v s e / (INR (e - s) + iso_eps).
Lemma nth_contrib b j : nth j (contrib b) 0 = nth j b 0 * dot b v / (vsum b + iso_eps).
Proof. unfold contrib. rewrite (nth_mapx (fun e => e * dot b v / (vsum b + iso_eps))) by (unfold Rdiv; ring). reflexivity. Qed.
Lemma total_cons b rows j : nth j (total (b :: rows)) 0 = nth j b 0 * dot b v / (vsum b + iso_eps) + nth j (total rows) 0.
Proof. unfold total. simpl. rewrite nth_vadd, nth_contrib. reflexivity. Qed.
Lemma diff_zero c j : nth j (total (diff_rows (repeat (vzero n) c))) 0 = 0.
Proof.
  induction c as [|[|c] IH]; [apply nth_vzero| |].
  - simpl repeat. cbn [diff_rows]. rewrite total_cons, nth_vzero. unfold total. simpl. rewrite nth_vzero. unfold Rdiv. ring.
  - change (diff_rows (repeat (vzero n) (S (S c)))) with (vsub (vzero n) (vzero n) :: diff_rows (repeat (vzero n) (S c))).
    rewrite total_cons, IH, nth_vsub, !nth_vzero. unfold Rdiv. ring.
Qed.
(** The value at position j for starts L. *)
Fixpoint at_starts (L : list nat) (j : nat) : R :=
  match L with
  | [] => 0
  | s :: L' => if Nat.ltb j s then 0 else
      match L' with [] => bval s n | e :: _ => if Nat.ltb j e then bval s e else at_starts L' j end
  end.
Lemma at_starts_below L j : (match L with [] => True | s :: _ => (j < s)%nat end) -> at_starts L j = 0.
Proof. destruct L as [|s L]; [reflexivity|]. simpl. intros H. destruct (Nat.ltb_spec j s); [reflexivity|lia]. Qed.
Lemma rows_value L c j : StronglySorted lt L -> Forall (fun s => (s < n)%nat) L -> (j < n)%nat ->
  nth j (total (diff_rows (map (stepv n) L ++ repeat (vzero n) c))) 0 = at_starts L j.
Proof.
  intros Hs Hf Hj. induction L as [|s L IH]; [apply diff_zero|].
  inversion Hs as [|? ? Hs' Hlt]; subst. inversion Hf as [|? ? Hsn Hf']; subst. specialize (IH Hs' Hf').
  assert (Hlast : forall r, (r = stepv n s \/ r = vsub (stepv n s) (vzero n)) ->
    nth j r 0 * dot r v / (vsum r + iso_eps) = if Nat.ltb j s then 0 else bval s n).
  { intros r Hr. assert (E1 : nth j r 0 = if Nat.leb s j then 1 else 0) by (destruct Hr as [->| ->]; rewrite ?nth_vsub, ?nth_vzero, nth_stepv by exact Hj; ring).
    assert (E2 : dot r v = seg v s n).
    { rewrite <- seg_eq by lia. rewrite (@skipn_all2 R n v) by lia. simpl. destruct Hr as [->| ->]; rewrite ?dot_vsub_l, ?dot_vzero_l, dot_stepv by exact Hv; ring. }
    assert (E3 : vsum r = INR (n - s)) by (destruct Hr as [->| ->]; rewrite ?vsum_vsub, vsum_stepv; unfold vzero; rewrite ?vsum_repeat; ring).
    rewrite E1, E2, E3. unfold bval. destruct (Nat.leb_spec s j), (Nat.ltb_spec j s); try lia; unfold Rdiv; ring. }
  destruct L as [|e L].
  - cbn [map app at_starts]. destruct c as [|c].
    + cbn [repeat diff_rows]. rewrite total_cons, Hlast by (left; reflexivity). unfold total. simpl. rewrite nth_vzero. destruct (Nat.ltb j s); ring.
    + change (diff_rows (stepv n s :: repeat (vzero n) (S c))) with
        (vsub (stepv n s) (vzero n) :: diff_rows (repeat (vzero n) (S c))).
      rewrite total_cons, Hlast by (right; reflexivity). rewrite diff_zero. destruct (Nat.ltb j s); ring.
  - cbn [map app]. change (diff_rows (stepv n s :: stepv n e :: map (stepv n) L ++ repeat (vzero n) c)) with
      (vsub (stepv n s) (stepv n e) :: diff_rows (map (stepv n) (e :: L) ++ repeat (vzero n) c)).
    rewrite total_cons, IH. inversion Hlt as [|? ? Hse _]; subst. inversion Hf' as [|? ? Hen _]; subst.
    rewrite nth_vsub, !nth_stepv, dot_vsub_l, !dot_stepv, vsum_vsub, !vsum_stepv, seg_eq by (assumption || lia).
    change (at_starts (s :: e :: L) j) with (if Nat.ltb j s then 0 else if Nat.ltb j e then bval s e else at_starts (e :: L) j).
    unfold bval. replace (INR (n - s) - INR (n - e)) with (INR (e - s)) by (rewrite <- minus_INR by lia; f_equal; lia).
    destruct (Nat.leb_spec s j), (Nat.leb_spec e j), (Nat.ltb_spec j s), (Nat.ltb_spec j e); try lia.
    + unfold Rdiv. ring.
    + rewrite (at_starts_below (e :: L) j) by lia. unfold Rdiv. ring.
    + rewrite (at_starts_below (e :: L) j) by lia. unfold Rdiv. ring.
Qed.
Lemma at_starts_block L j s e : StronglySorted lt L -> In s L -> (s <= j < e)%nat -> (forall k, In k L -> (s < k)%nat -> (e <= k)%nat) ->
  (e = n \/ In e L) -> (forall k, In k L -> (k < n)%nat) -> at_starts L j = bval s e.
Proof.
  intros Hs Hin [Hsj Hje] Hno He Hn. induction L as [|a L IH]; [contradiction|].
  inversion Hs as [|? ? Hs' Hlt]; subst. rewrite Forall_forall in Hlt. destruct Hin as [->|Hin].
  - simpl. destruct (Nat.ltb_spec j s); [lia|]. destruct L as [|b L].
    + destruct He as [->|[->|[]]]; [reflexivity|lia].
    + assert (Hb := Hlt b (or_introl eq_refl)). assert (He' := Hno b (or_intror (or_introl eq_refl)) Hb).
      assert (Eb : e = b).
      { destruct He as [->|[->|[->|He]]]; [|lia|reflexivity|].
        - specialize (Hn b (or_intror (or_introl eq_refl))). lia.
        - inversion Hs' as [|? ? _ Hlt']; subst. rewrite Forall_forall in Hlt'. specialize (Hlt' e He). lia. }
      subst b. destruct (Nat.ltb_spec j e); [reflexivity|lia].
  - assert (Ha := Hlt s Hin).
    assert (IH' : at_starts L j = bval s e).
    { apply IH; [exact Hs'|exact Hin| | |].
      - intros k Hk. apply Hno. right. exact Hk.
      - destruct He as [->|[->|He]]; [left; reflexivity|lia|right; exact He].
      - intros k Hk. apply Hn. right. exact Hk. }
    simpl. destruct (Nat.ltb_spec j a); [lia|]. destruct L as [|b L]; [contradiction|].
    destruct (Nat.ltb_spec j b); [|exact IH']. exfalso. destruct Hin as [->|Hin]; [lia|].
    inversion Hs' as [|? ? _ Hlt']; subst. rewrite Forall_forall in Hlt'. specialize (Hlt' s Hin). lia.
Qed.
End Rows.

Lemma filter_sorted (f : nat -> bool) l : StronglySorted lt l -> StronglySorted lt (filter f l).
Proof.
  induction 1 as [|a l Hs IH Hf]; simpl; [constructor|]. destruct (f a); [|exact IH]. constructor; [exact IH|].
  rewrite Forall_forall in *. intros b Hb. apply filter_In in Hb. apply Hf. tauto.
Qed.
Lemma seq_sorted n s : StronglySorted lt (seq s n).
Proof.
  revert s; induction n as [|n IH]; intros s; simpl; constructor; [apply IH|]. apply Forall_forall. intros b Hb. apply in_seq in Hb. lia.
Qed.
Lemma inds_in sol j : In j (inds_start sol) <-> (j < length sol)%nat /\ iso_mask sol j = false.
Proof. unfold inds_start. rewrite filter_In, in_seq. destruct (iso_mask sol j); simpl; split; intros [H1 H2]; split; try lia; try discriminate; reflexivity. Qed.
(** On the maximal run [s, e) of entries within eps of their neighbours, the rule gives the sum over the run divided by
    its length plus 1e-8. *)
Lemma iso_jvp_run sol d j s e : length d = length sol -> (s <= j < e)%nat -> (e <= length sol)%nat ->
  (forall k, (s < k < e)%nat -> iso_mask sol k = true) -> iso_mask sol s = false -> ((e < length sol)%nat -> iso_mask sol e = false) ->
  nth j (iso_jvp sol d) 0 = bval d s e.
Proof.
  intros Hd Hj He Hin Hs He'. unfold iso_jvp, cum_rows.
  assert (Hsorted : StronglySorted lt (inds_start sol)) by (apply filter_sorted, seq_sorted).
  assert (Hlt : Forall (fun k => (k < length sol)%nat) (inds_start sol)) by (apply Forall_forall; intros k Hk; apply inds_in in Hk; tauto).
  pose proof (rows_value (length sol) d Hd (inds_start sol) (length sol - length (inds_start sol)) j Hsorted Hlt ltac:(lia)) as Hr.
  etransitivity; [exact Hr|].
  apply at_starts_block; [exact Hd|exact Hsorted|apply inds_in; split; [lia|exact Hs]|exact Hj| | |].
  - intros k Hk Hsk. apply inds_in in Hk. destruct Hk as [Hk Hm]. destruct (Nat.lt_ge_cases k e) as [H|H]; [|exact H].
    rewrite Hin in Hm by lia. discriminate.
  - destruct (Nat.eq_dec e (length sol)) as [->|Hne]; [left; reflexivity|right]. apply inds_in. split; [lia|apply He'; lia].
  - intros k Hk. apply inds_in in Hk. tauto.
Qed.
Lemma fold_vadd_length n rows : Forall (fun r => length r = n) rows -> length (fold_right vadd (vzero n) rows) = n.
Proof. induction 1; simpl; [apply vzero_length|]. rewrite vadd_length. lia. Qed.
Lemma iso_jvp_length sol d : length (iso_jvp sol d) = length sol.
Proof.
  unfold iso_jvp. apply fold_vadd_length. apply Forall_forall. intros r Hr. apply in_map_iff in Hr. destruct Hr as (b & <- & Hb). rewrite map_length.
  assert (Hall : Forall (fun r => length r = length sol) (cum_rows sol)).
  { unfold cum_rows. apply Forall_app. split; apply Forall_forall; intros r Hr.
    - apply in_map_iff in Hr. destruct Hr as (k & <- & _). rewrite map_length, seq_length. reflexivity.
    - apply repeat_spec in Hr. subst r. apply vzero_length. }
  assert (Hd : forall rows, Forall (fun r : vec => length r = length sol) rows -> Forall (fun r : vec => length r = length sol) (diff_rows rows)).
  { induction 1 as [|r rows Hr' Hrs IH]; simpl; [constructor|]. destruct rows as [|r' rows]; [constructor; [exact Hr'|constructor]|].
    constructor; [|exact IH]. inversion Hrs; subst. rewrite vsub_length. lia. }
  specialize (Hd _ Hall). rewrite Forall_forall in Hd. apply Hd, Hb.
Qed.

(** ** Blocks *)
Fixpoint chop (ls : list nat) (y : vec) : list vec := match ls with [] => [] | l :: ls' => firstn l y :: chop ls' (skipn l y) end.
Definition lens (bl : list vec) : list nat := map (@length R) bl.
Lemma chop_concat bl : chop (lens bl) (concat bl) = bl.
Proof.
  induction bl as [|b bl IH]; [reflexivity|]. simpl. rewrite firstn_app, Nat.sub_diag, firstn_all, skipn_app, Nat.sub_diag, skipn_all. simpl.
  rewrite app_nil_r. f_equal. exact IH.
Qed.
Lemma concat_chop ls : forall y, length y = fold_right Nat.add 0%nat ls -> concat (chop ls y) = y.
Proof.
  induction ls as [|l ls IH]; intros y H; simpl in *; [destruct y; [reflexivity|discriminate]|].
  rewrite IH by (rewrite skipn_length; lia). apply firstn_skipn.
Qed.
Lemma lens_sum bl : fold_right Nat.add 0%nat (lens bl) = length (concat bl).
Proof. induction bl as [|b bl IH]; simpl; [reflexivity|]. rewrite app_length, IH. reflexivity. Qed.
Definition sgood (b : vec) : Prop := b <> [] /\ forall j, (0 < j < length b)%nat -> vsum (firstn j b) < INR j * mean b.
Definition gap (b1 b2 : vec) : Prop := mean b2 + iso_eps < mean b1.
Lemma iso_eps_pos : 0 < iso_eps. Proof. unfold iso_eps. lra. Qed.
Lemma fit_app l1 l2 : fit (l1 ++ l2) = fit l1 ++ fit l2.
Proof. unfold fit. rewrite map_app, concat_app. reflexivity. Qed.
Lemma fit_cons b bl : fit (b :: bl) = repeat (mean b) (length b) ++ fit bl.
Proof. reflexivity. Qed.
Lemma nth_fit (L : list vec) (b : vec) (Rr : list vec) i : (i < length b)%nat -> nth (length (concat L) + i) (fit (L ++ b :: Rr)) 0 = mean b.
Proof.
  intros H. rewrite fit_app, app_nth2; rewrite fit_length; [|lia].
  replace (length (concat L) + i - length (concat L))%nat with i by lia.
  rewrite fit_cons, app_nth1 by (rewrite repeat_length; exact H). apply nth_repeat_lt. exact H.
Qed.
Lemma locate (bl : list vec) j : (j < length (concat bl))%nat -> exists (L : list vec) (b : vec) (Rr : list vec) i, bl = L ++ b :: Rr /\ j = (length (concat L) + i)%nat /\ (i < length b)%nat.
Proof.
  revert j; induction bl as [|b bl IH]; intros j H; simpl in H; [lia|]. rewrite app_length in H.
  destruct (Nat.lt_ge_cases j (length b)) as [Hj|Hj].
  - exists [], b, bl, j. auto.
  - destruct (IH (j - length b)%nat ltac:(lia)) as (L & c & Rr & i & -> & Hi & Hc).
    exists (b :: L), c, Rr, i. simpl. rewrite app_length. repeat split; [lia|exact Hc].
Qed.
Lemma chop_nth (L : list vec) (b : vec) (Rr : list vec) y : chop (lens (L ++ b :: Rr)) y =
  chop (lens L) y ++ firstn (length b) (skipn (length (concat L)) y) :: chop (lens Rr) (skipn (length (concat L) + length b) y).
Proof.
  revert y; induction L as [|c L IH]; intros y; simpl; [reflexivity|]. rewrite IH, !skipn_skipn', app_length, Nat.add_assoc. reflexivity.
Qed.
Lemma length_chop ls : forall y, length y = fold_right Nat.add 0%nat ls -> lens (chop ls y) = ls.
Proof.
  induction ls as [|l ls IH]; intros y H; simpl in *; [reflexivity|]. rewrite firstn_length, Nat.min_l by lia. f_equal.
  apply IH. rewrite skipn_length. lia.
Qed.

(** ** Strict complementarity gives strict blocks *)
Lemma vsub_repeat_sum (b : vec) m : vsum (vsub b (repeat m (length b))) = vsum b - INR (length b) * m.
Proof. rewrite vsum_vsub. rewrite vsum_repeat. ring. Qed.
Lemma firstn_repeat_le {A} (a : A) n k : (k <= n)%nat -> firstn k (repeat a n) = repeat a k.
Proof. revert k; induction n as [|n IH]; intros [|k] H; simpl; try reflexivity; [lia|]. rewrite IH by lia. reflexivity. Qed.
Lemma map_firstn' {A B} (f : A -> B) k l : map f (firstn k l) = firstn k (map f l).
Proof. revert l; induction k as [|k IH]; intros [|a l]; simpl; try reflexivity. f_equal. apply IH. Qed.
Lemma firstn_vsub k (a b : vec) : firstn k (vsub a b) = vsub (firstn k a) (firstn k b).
Proof. revert a b; induction k as [|k IH]; intros [|x a] [|z b]; simpl; try reflexivity; f_equal; [symmetry; apply map_firstn'|apply IH]. Qed.
Lemma skipn_vsub k (a b : vec) : length a = length b -> skipn k (vsub a b) = vsub (skipn k a) (skipn k b).
Proof. revert a b; induction k as [|k IH]; intros [|x a] [|z b] H; simpl; try reflexivity; try discriminate. apply IH. simpl in H. lia. Qed.
Lemma residual_head b bl k : (S k <= length b)%nat ->
  residual_sum (concat (b :: bl)) (fit (b :: bl)) k = vsum (firstn (S k) b) - INR (S k) * mean b.
Proof.
  intros H. unfold residual_sum. rewrite fit_cons. cbn [concat]. rewrite vsub_app by (rewrite repeat_length; reflexivity).
  assert (Hl : length (vsub b (repeat (mean b) (length b))) = length b) by (rewrite vsub_length, repeat_length; lia).
  rewrite firstn_app, Hl. replace (S k - length b)%nat with 0%nat by lia. rewrite firstn_O, app_nil_r, firstn_vsub, firstn_repeat_le by exact H.
  assert (Hk : length (firstn (S k) b) = S k) by (rewrite firstn_length; lia).
  pose proof (vsub_repeat_sum (firstn (S k) b) (mean b)) as E. rewrite Hk in E. exact E.
Qed.
Lemma residual_tail b bl k : b <> [] ->
  residual_sum (concat (b :: bl)) (fit (b :: bl)) (length b + k) = residual_sum (concat bl) (fit bl) k.
Proof.
  intros H. unfold residual_sum. rewrite fit_cons. cbn [concat]. rewrite vsub_app by (rewrite repeat_length; reflexivity).
  assert (Hl : length (vsub b (repeat (mean b) (length b))) = length b) by (rewrite vsub_length, repeat_length; lia).
  rewrite firstn_app, Hl. rewrite firstn_all2 by lia. replace (S (length b + k) - length b)%nat with (S k) by lia.
  rewrite vsum_app, vsub_repeat_sum, (mean_eq b H). ring.
Qed.
Lemma strict_blocks bl : Forall good bl -> Sorted decr bl -> strict_isotonic false (concat bl) (fit bl) -> Forall sgood bl /\ Sorted gap bl.
Proof.
  induction bl as [|b bl IH]; intros Hg Hs Hst; [split; constructor|].
  inversion Hg as [|? ? Hb Hg']; subst. inversion Hs as [|? ? Hs' Hh]; subst.
  assert (Hnth : forall i, (i < length b)%nat -> nth i (fit (b :: bl)) 0 = mean b) by (intros i Hi; apply (nth_fit [] b bl i Hi)).
  assert (Hnth' : forall i, nth (length b + i) (fit (b :: bl)) 0 = nth i (fit bl) 0).
  { intros i. rewrite fit_cons, app_nth2; rewrite repeat_length; [f_equal|]; lia. }
  assert (Hpos : (0 < length b)%nat) by (destruct b; [destruct Hb; congruence|simpl; lia]).
  destruct IH as [IH1 IH2]; [exact Hg'|exact Hs'| |].
  { intros k Hk. specialize (Hst (length b + k)%nat). rewrite residual_tail in Hst by apply Hb.
    replace (S (length b + k)) with (length b + S k)%nat in Hst by lia. rewrite !Hnth' in Hst. apply Hst.
    rewrite fit_cons, app_length, repeat_length. lia. }
  split; constructor; [|exact IH1|exact IH2|].
  - split; [apply Hb|]. intros [|k] Hj; [lia|]. destruct (Hst k) as [[_ Hlt]|Hlt].
    + rewrite fit_cons, app_length, repeat_length. lia.
    + rewrite residual_head in Hlt by lia. lra.
    + rewrite !Hnth in Hlt by lia. rewrite Rminus_diag_eq, Rabs_R0 in Hlt by reflexivity. pose proof iso_eps_pos. lra.
  - inversion Hh as [|c bl' Hd]; subst; constructor. unfold decr in Hd. unfold gap. inversion Hg' as [|? ? Hc _]; subst.
    assert (Hcp : (0 < length c)%nat) by (destruct c; [destruct Hc; congruence|simpl; lia]).
    destruct (Hst (length b - 1)%nat) as [[_ Hlt]|Hlt].
    + rewrite !fit_cons, !app_length, !repeat_length. lia.
    + rewrite residual_head in Hlt by lia. replace (S (length b - 1)) with (length b) in Hlt by lia. rewrite firstn_all in Hlt.
      rewrite (mean_eq b) in Hlt by apply Hb. lra.
    + replace (S (length b - 1)) with (length b + 0)%nat in Hlt by lia. rewrite Hnth', Hnth in Hlt by lia.
      assert (E : nth 0 (fit (c :: bl')) 0 = mean c) by apply (nth_fit [] c bl' 0 Hcp). rewrite E in Hlt.
      rewrite Rabs_left1 in Hlt by lra. lra.
Qed.

(** ** Perturbation of the blocks *)
Definition near (delta : R) : vec -> vec -> Prop := Forall2 (fun a a' => Rabs (a' - a) < delta).
Lemma close_near delta x x' : close delta x x' -> near delta x x'.
Proof.
  intros [Hl H]. revert x' Hl H; induction x as [|a x IH]; intros [|a' x'] Hl H; try discriminate; constructor.
  - apply (H 0%nat). simpl. lia.
  - apply IH; [simpl in Hl; lia|]. intros i Hi. apply (H (S i)). simpl. lia.
Qed.
Lemma Rabs_le_inv a b : Rabs a <= b -> - b <= a <= b.
Proof. unfold Rabs. destruct (Rcase_abs a); lra. Qed.
Lemma near_length {delta x x'} : near delta x x' -> length x = length x'.
Proof. induction 1; simpl; congruence. Qed.
Lemma near_le d1 d2 x x' : d1 <= d2 -> near d1 x x' -> near d2 x x'.
Proof. intros H. induction 1; constructor; [lra|assumption]. Qed.
Lemma near_sum delta x x' : near delta x x' -> Rabs (vsum x' - vsum x) <= INR (length x) * delta.
Proof.
  induction 1 as [|a a' x x' Ha Hx IH]; [simpl; rewrite Rminus_diag_eq, Rabs_R0 by reflexivity; lra|].
  cbn [vsum length]. rewrite S_INR. replace (a' + vsum x' - (a + vsum x)) with ((a' - a) + (vsum x' - vsum x)) by ring.
  pose proof (Rabs_triang (a' - a) (vsum x' - vsum x)). lra.
Qed.
Lemma near_firstn delta k x x' : near delta x x' -> near delta (firstn k x) (firstn k x').
Proof. intros H; revert k; induction H; intros [|k]; constructor; auto. apply IHForall2. Qed.
Lemma near_mean delta b b' : b <> [] -> near delta b b' -> Rabs (mean b' - mean b) <= delta.
Proof.
  intros Hb H. assert (Hl : length b' = length b) by (symmetry; apply (near_length H)). pose proof (near_sum _ _ _ H) as Hs.
  pose proof (len_pos b Hb) as Hp. unfold mean. rewrite Hl. replace (vsum b' / INR (length b) - vsum b / INR (length b)) with ((vsum b' - vsum b) * / INR (length b)) by (unfold Rdiv; ring).
  rewrite Rabs_mult, (Rabs_right (/ _)) by (apply Rle_ge, Rlt_le, Rinv_0_lt_compat; exact Hp).
  apply Rmult_le_reg_r with (INR (length b)); [exact Hp|]. rewrite Rmult_assoc, Rinv_l, Rmult_1_r by lra. lra.
Qed.
Lemma sgood_near b : sgood b -> exists delta, 0 < delta /\ forall b', near delta b b' -> good b'.
Proof.
  intros [Hb Hj].
  destruct (min_gap (length b - 1) (fun i => (INR (S i) * mean b - vsum (firstn (S i) b)) / (2 * INR (S i)))) as (g & Hg & Hi).
  { intros i Hi. specialize (Hj (S i) ltac:(lia)). pose proof (lt_0_INR (S i) ltac:(lia)). apply Rdiv_lt_0_compat; lra. }
  exists g. split; [exact Hg|]. intros b' Hn. assert (Hl : length b' = length b) by (symmetry; apply (near_length Hn)).
  assert (Hb' : b' <> []) by (intros ->; destruct b; [congruence|discriminate]).
  split; [exact Hb'|]. intros j Hjl. destruct j as [|j]; [simpl; lra|].
  destruct (Nat.eq_dec (S j) (length b')) as [E|E].
  - rewrite E, firstn_all, <- mean_eq by exact Hb'. lra.
  - specialize (Hi j ltac:(lia)). cbn beta in Hi. pose proof (lt_0_INR (S j) ltac:(lia)) as Hp.
    pose proof (near_sum _ _ _ (near_firstn g (S j) b b' Hn)) as H1. rewrite firstn_length, Nat.min_l in H1 by lia.
    pose proof (near_mean g b b' Hb Hn) as H2. apply Rabs_le_inv in H1. apply Rabs_le_inv in H2.
    assert (H3 : g * (2 * INR (S j)) <= INR (S j) * mean b - vsum (firstn (S j) b)).
    { apply Rmult_le_compat_r with (r := 2 * INR (S j)) in Hi; [|lra]. unfold Rdiv in Hi. rewrite Rmult_assoc, Rinv_l, Rmult_1_r in Hi by lra. exact Hi. }
    assert (H4 : INR (S j) * (mean b - g) <= INR (S j) * mean b') by (apply Rmult_le_compat_l; lra). lra.
Qed.
Lemma near_chop delta bl : forall y', near delta (concat bl) y' -> Forall2 (near delta) bl (chop (lens bl) y').
Proof.
  induction bl as [|b bl IH]; intros y' H; [constructor|]. simpl in H. apply Forall2_app_inv_l in H.
  destruct H as (l1 & l2 & H1 & H2 & ->). assert (Hl : length b = length l1) by exact (near_length H1). simpl.
  rewrite Hl, firstn_app, Nat.sub_diag, firstn_all, skipn_app, Nat.sub_diag, skipn_all. simpl. rewrite app_nil_r.
  constructor; [exact H1|]. apply IH. exact H2.
Qed.
Lemma sgood_all bl : Forall sgood bl -> exists delta, 0 < delta /\ forall bl', Forall2 (near delta) bl bl' -> Forall good bl'.
Proof.
  induction 1 as [|b bl Hb _ (d2 & Hd2 & H2)]; [exists 1; split; [lra|]; intros bl' H; inversion H; constructor|].
  destruct (sgood_near b Hb) as (d1 & Hd1 & H1). exists (Rmin d1 d2). split; [apply Rmin_pos; assumption|].
  intros bl' H. inversion H as [|? b' ? bl'' Hh Ht]; subst. constructor.
  - apply H1. apply near_le with (2 := Hh). apply Rmin_l.
  - apply H2. clear -Ht. induction Ht; constructor; [|assumption]. apply near_le with (2 := H). apply Rmin_r.
Qed.
Lemma gap_near bl bl' delta : delta <= iso_eps / 2 -> Forall sgood bl -> Sorted gap bl -> Forall2 (near delta) bl bl' -> Sorted decr bl'.
Proof.
  intros Hd Hg Hs H. induction H as [|b b' bl bl' Hb Hbl IH]; constructor.
  - apply IH; [inversion Hg; assumption|inversion Hs; assumption].
  - inversion Hbl as [|c c' bl0 bl0' Hc Hbl0]; subst; constructor. unfold decr. inversion Hs as [|? ? _ Hh]; subst. inversion Hh as [|? ? Hgap]; subst.
    unfold gap in Hgap. inversion Hg as [|? ? Hgb Hg']; subst. inversion Hg' as [|? ? Hgc _]; subst.
    pose proof (near_mean _ _ _ (proj1 Hgb) Hb) as H1. pose proof (near_mean _ _ _ (proj1 Hgc) Hc) as H2.
    apply Rabs_le_inv in H1. apply Rabs_le_inv in H2. lra.
Qed.
Lemma fit_unique bl bl' : Forall good bl -> Sorted decr bl -> Forall good bl' -> Sorted decr bl' -> concat bl = concat bl' -> fit bl = fit bl'.
Proof.
  intros H1 H2 H3 H4 E. pose proof (fit_vi bl NInf PInf H1 H2 I) as V1. pose proof (fit_vi bl' NInf PInf H3 H4 I) as V2.
  rewrite <- E in V2. assert (Em : forall v : vec, map (xclip NInf PInf) v = v) by (intros v; rewrite <- (map_id v) at 2; reflexivity).
  rewrite Em in V1, V2. apply (is_projection_unique (isotonic_set (length (concat bl)) NInf PInf false) (concat bl)).
  - apply (var_ineq_projection _ _ _ (length (concat bl))); [intros q Hq; apply Hq|exact V1].
  - apply (var_ineq_projection _ _ _ (length (concat bl))); [intros q Hq; apply Hq|exact V2].
Qed.
Lemma iso_mask_fit (bl L : list vec) (b : vec) (Rr : list vec) : Forall good bl -> Sorted gap bl -> bl = L ++ b :: Rr ->
  (forall k, (length (concat L) < k < length (concat L) + length b)%nat -> iso_mask (fit bl) k = true) /\
  iso_mask (fit bl) (length (concat L)) = false /\
  ((length (concat L) + length b < length (fit bl))%nat -> iso_mask (fit bl) (length (concat L) + length b) = false).
Proof.
  assert (Hstart : forall (bl L : list vec) (b : vec) (Rr : list vec), Forall good bl -> Sorted gap bl -> bl = L ++ b :: Rr -> iso_mask (fit bl) (length (concat L)) = false).
  { clear. intros bl L b Rr Hg Hs ->.
    destruct L as [|a0 L0] eqn:EL; [reflexivity|]. rewrite <- EL in *. assert (HL : L <> []) by (rewrite EL; discriminate). clear EL a0 L0.
    destruct (exists_last HL) as (L' & c & ->). clear HL. rewrite <- app_assoc in *. cbn [app] in *.
    assert (Hc : good c) by (rewrite Forall_forall in Hg; apply Hg, in_or_app; right; left; reflexivity).
    assert (Hb : good b) by (rewrite Forall_forall in Hg; apply Hg, in_or_app; right; right; left; reflexivity).
    assert (Hcp : (0 < length c)%nat) by (destruct c; [destruct Hc; congruence|simpl; lia]).
    assert (Hbp : (0 < length b)%nat) by (destruct b; [destruct Hb; congruence|simpl; lia]).
    assert (Hgap : gap c b).
    { clear -Hs. induction L' as [|d L' IH]; simpl in Hs; [inversion Hs as [|? ? _ Hh]; subst; inversion Hh; assumption|]. apply IH. inversion Hs; assumption. }
    assert (Hlen : length (concat (L' ++ [c])) = (length (concat L') + length c)%nat) by (rewrite concat_app; simpl; rewrite app_nil_r, app_length; reflexivity).
    pose proof (nth_fit L' c (b :: Rr) (length c - 1) ltac:(lia)) as E1.
    pose proof (nth_fit (L' ++ [c]) b Rr 0 ltac:(lia)) as E2. rewrite <- app_assoc in E2. cbn [app] in E2. rewrite Hlen in E2.
    rewrite Hlen. rewrite Nat.add_0_r in E2. remember (length (concat L') + length c)%nat as q eqn:Eq. destruct q as [|q]; [lia|].
    replace (length (concat L') + (length c - 1))%nat with q in E1 by lia. unfold iso_mask.
    rewrite E1, E2. destruct (Rle_dec (Rabs (mean b - mean c)) iso_eps) as [H|H]; [|reflexivity].
    exfalso. unfold gap in Hgap. pose proof iso_eps_pos. rewrite Rabs_left1 in H by lra. lra. }
  intros Hg Hs E. split; [|split].
  - intros [|k] Hk; [lia|]. unfold iso_mask. subst bl.
    pose proof (nth_fit L b Rr (k - length (concat L)) ltac:(lia)) as E1. pose proof (nth_fit L b Rr (S k - length (concat L)) ltac:(lia)) as E2.
    replace (length (concat L) + (k - length (concat L)))%nat with k in E1 by lia.
    replace (length (concat L) + (S k - length (concat L)))%nat with (S k) in E2 by lia.
    rewrite E1, E2. rewrite Rminus_diag_eq, Rabs_R0 by reflexivity. destruct (Rle_dec 0 iso_eps) as [|H]; [reflexivity|]. pose proof iso_eps_pos. lra.
  - apply (Hstart bl L b Rr Hg Hs E).
  - intros Hlt. destruct Rr as [|c Rr].
    + exfalso. subst bl. rewrite fit_length, concat_app in Hlt. simpl in Hlt. rewrite app_nil_r, app_length in Hlt. lia.
    + rewrite <- (Hstart bl (L ++ [b]) c Rr Hg Hs) by (rewrite <- app_assoc; exact E). f_equal.
      rewrite concat_app. simpl. rewrite app_nil_r, app_length. reflexivity.
Qed.
Lemma seg_vsub a b s e : length a = length b -> seg (vsub a b) s e = seg a s e - seg b s e.
Proof.
  intros H. unfold seg. rewrite skipn_vsub, firstn_vsub, vsum_vsub by exact H. reflexivity.
Qed.
Lemma iso_dec_local y fuel v : (2 * length y + 1 <= fuel)%nat -> pav fuel astype_float y = Some v -> strict_isotonic false y v ->
  exists delta, 0 < delta /\ forall y', close delta y y' ->
    exists v', pav fuel astype_float y' = Some v' /\ length v' = length y /\ length v = length y /\
      forall j, (j < length y)%nat -> exists c, 1 <= c /\ nth j (iso_jvp v (vsub y' y)) 0 * (c + iso_eps) = c * (nth j v' 0 - nth j v 0).
Proof.
  intros Hf Hv Hst. destruct (pav_spec y fuel Hf) as (bl & Ep & Hg & Hs & Hc). rewrite Ep in Hv. injection Hv as <-.
  rewrite <- Hc in Hst. destruct (strict_blocks bl Hg Hs Hst) as [Hsg Hgap].
  destruct (sgood_all bl Hsg) as (d1 & Hd1 & H1). pose proof iso_eps_pos as He.
  exists (Rmin d1 (iso_eps / 2)). split; [apply Rmin_pos; lra|]. intros y' Hcl. assert (Hlen : length y' = length y) by apply Hcl.
  set (delta := Rmin d1 (iso_eps / 2)) in *.
  assert (Hn : Forall2 (near delta) bl (chop (lens bl) y')) by (apply near_chop; rewrite Hc; apply close_near; exact Hcl).
  assert (Hg' : Forall good (chop (lens bl) y')).
  { apply H1. clear -Hn. revert Hn. generalize (chop (lens bl) y'). intros bl' H. induction H; constructor; [|assumption]. apply near_le with (2 := H). apply Rmin_l. }
  assert (Hs' : Sorted decr (chop (lens bl) y')) by (apply (gap_near bl _ delta); [apply Rmin_r|assumption..]).
  assert (Hsum : length y' = fold_right Nat.add 0%nat (lens bl)) by (rewrite lens_sum, Hc; exact Hlen).
  assert (Hc' : concat (chop (lens bl) y') = y') by (apply concat_chop; exact Hsum).
  destruct (pav_spec y' fuel ltac:(lia)) as (bl2 & Ep2 & Hg2 & Hs2 & Hc2).
  rewrite (fit_unique bl2 (chop (lens bl) y')) in Ep2 by (assumption || congruence).
  exists (fit (chop (lens bl) y')). split; [exact Ep2|]. split; [rewrite fit_length, Hc'; exact Hlen|]. split; [rewrite fit_length, Hc; reflexivity|].
  intros j Hj. rewrite <- Hc in Hj. destruct (locate bl j Hj) as (L & b & Rr & i & Ebl & Ej & Hi).
  destruct (iso_mask_fit bl L b Rr Hg Hgap Ebl) as (M1 & M2 & M3).
  assert (Hend : (length (concat L) + length b <= length y)%nat) by (rewrite <- Hc, Ebl, concat_app, app_length; simpl; rewrite app_length; lia).
  assert (Hfl : length (fit bl) = length y) by (rewrite fit_length, Hc; reflexivity).
  assert (Hdl : length (vsub y' y) = length y) by (rewrite vsub_length; lia).
  rewrite (iso_jvp_run (fit bl) (vsub y' y) j (length (concat L)) (length (concat L) + length b)) by (assumption || lia).
  exists (INR (length b)). assert (Hp : (1 <= length b)%nat) by lia. apply le_INR in Hp. change (INR 1) with 1 in Hp. split; [exact Hp|].
  unfold bval. replace (length (concat L) + length b - length (concat L))%nat with (length b) by lia.
  assert (E1 : nth j (fit bl) 0 * INR (length b) = seg y (length (concat L)) (length (concat L) + length b)).
  { rewrite Ebl at 1. rewrite Ej, nth_fit by exact Hi. unfold seg. rewrite <- Hc, Ebl, concat_app, skipn_app, Nat.sub_diag, skipn_all. simpl.
    rewrite Nat.add_comm, Nat.add_sub, firstn_app, Nat.sub_diag, firstn_all, firstn_O, app_nil_r. rewrite (mean_eq b) by (intros ->; simpl in Hi; lia). ring. }
  assert (E2 : nth j (fit (chop (lens bl) y')) 0 * INR (length b) = seg y' (length (concat L)) (length (concat L) + length b)).
  { rewrite Ebl at 1. rewrite chop_nth, Ej. set (b' := firstn (length b) (skipn (length (concat L)) y')).
    assert (Hb' : length b' = length b) by (unfold b'; rewrite firstn_length, skipn_length; lia).
    assert (HL : length (concat L) = length (concat (chop (lens L) y'))).
    { pose proof (f_equal lens (chop_nth L b Rr y')) as E. rewrite <- Ebl in E. rewrite length_chop in E by exact Hsum.
      unfold lens in E at 2. rewrite map_app in E. rewrite Ebl in E. unfold lens in E at 1. rewrite map_app in E.
      apply (f_equal (firstn (length L))) in E.
      assert (Hcl' : forall ls (z : vec), length (chop ls z) = length ls) by (induction ls; intros z; simpl; [reflexivity|rewrite IHls; reflexivity]).
      assert (HlL : length (lens L) = length L) by apply map_length.
      rewrite !firstn_app, !map_length, Hcl', HlL, Nat.sub_diag, !firstn_O, !app_nil_r in E.
      rewrite firstn_all2 in E by (rewrite map_length; lia). rewrite firstn_all2 in E by (rewrite map_length, Hcl'; lia).
      rewrite <- !lens_sum. f_equal. exact E. }
    rewrite HL at 1. rewrite nth_fit by lia. unfold seg. replace (length (concat L) + length b - length (concat L))%nat with (length b) by lia.
    fold b'. rewrite <- Hb'. rewrite (mean_eq b') by (intros E; rewrite E in Hb'; simpl in Hb'; lia). ring. }
  rewrite seg_vsub by exact Hlen. rewrite <- E1, <- E2. field. lra.
Qed.

Lemma residual_smul a y v k : residual_sum (smul a y) (smul a v) k = a * residual_sum y v k.
Proof.
  unfold residual_sum. replace (vsub (smul a y) (smul a v)) with (smul a (vsub y v)).
  - unfold smul. rewrite <- map_firstn'. rewrite <- vsum_smul. reflexivity.
  - apply vec_ext; [rewrite ?smul_length, !vsub_length, ?smul_length; lia|]. intros i ?. rewrite nth_smul, !nth_vsub, !nth_smul. ring.
Qed.
Lemma strict_sign y v sgn (increasing : bool) : sgn = (if increasing then -1 else 1) -> strict_isotonic increasing y v -> strict_isotonic false (smul sgn y) (smul sgn v).
Proof.
  intros -> H k Hk. rewrite smul_length in Hk. rewrite residual_smul, !nth_smul.
  destruct (H k Hk) as [[E Hr]|Hr]; [left|right].
  - split; [rewrite E; reflexivity|]. destruct increasing; lra.
  - replace (_ * nth (S k) v 0 - _ * nth k v 0) with ((if increasing then -1 else 1) * (nth (S k) v 0 - nth k v 0)) by ring.
    rewrite Rabs_mult. destruct increasing; [rewrite Rabs_left by lra|rewrite Rabs_right by lra]; lra.
Qed.
Lemma iso_local y increasing fuel v : (2 * length y + 1 <= fuel)%nat ->
  isotonic_l2_pav fuel astype_float y NInf PInf increasing = Some v -> strict_isotonic increasing y v ->
  exists delta, 0 < delta /\ forall y', close delta y y' ->
    exists v' t, isotonic_l2_pav fuel astype_float y' NInf PInf increasing = Some v' /\ isotonic_jvp fuel y increasing (vsub y' y) = Some t /\
      length v' = length y /\ length t = length y /\
      forall j, (j < length y)%nat -> exists c, 1 <= c /\ nth j t 0 * (c + iso_eps) = c * (nth j v' 0 - nth j v 0).
Proof.
  intros Hf Hv Hst. unfold isotonic_l2_pav, isotonic_jvp in *. set (sgn := if increasing then -1 else 1) in *.
  assert (Hsg : sgn * sgn = 1) by (unfold sgn; destruct increasing; ring).
  assert (Em : forall v : vec, map (xclip NInf PInf) v = v) by (intros w; rewrite <- (map_id w) at 2; reflexivity).
  destruct (pav fuel astype_float (smul sgn y)) as [s|] eqn:Ep; [|discriminate]. rewrite Em in Hv. injection Hv as <-.
  assert (Hinv : forall w : vec, smul sgn (smul sgn w) = w).
  { intros w. apply vec_ext; [rewrite !smul_length; reflexivity|]. intros i ?. rewrite !nth_smul, <- Rmult_assoc, Hsg. ring. }
  apply (strict_sign _ _ sgn) in Hst; [|reflexivity]. rewrite Hinv in Hst.
  destruct (iso_dec_local (smul sgn y) fuel s ltac:(rewrite smul_length; exact Hf) Ep Hst) as (delta & Hd & H).
  exists delta. split; [exact Hd|]. intros y' [Hl Hcl].
  destruct (H (smul sgn y')) as (v' & Ep' & Hl' & Hls & Hj).
  { split; [rewrite !smul_length; exact Hl|]. intros i Hi. rewrite smul_length in Hi. rewrite !nth_smul.
    replace (sgn * nth i y' 0 - sgn * nth i y 0) with (sgn * (nth i y' 0 - nth i y 0)) by ring. rewrite Rabs_mult.
    specialize (Hcl i Hi). unfold sgn. destruct increasing; [rewrite Rabs_left by lra|rewrite Rabs_right by lra]; lra. }
  rewrite Ep', Em. exists (smul sgn v'), (smul sgn (iso_jvp s (smul sgn (vsub y' y)))). rewrite !smul_length in *.
  split; [reflexivity|]. split; [reflexivity|]. split; [exact Hl'|]. split; [rewrite iso_jvp_length; exact Hls|].
  intros j Hj'. destruct (Hj j Hj') as (c & Hc1 & Hc2). exists c. split; [exact Hc1|]. rewrite !nth_smul.
  replace (smul sgn (vsub y' y)) with (vsub (smul sgn y') (smul sgn y)).
  - replace (sgn * nth j (iso_jvp s (vsub (smul sgn y') (smul sgn y))) 0 * (c + iso_eps)) with (sgn * (nth j (iso_jvp s (vsub (smul sgn y') (smul sgn y))) 0 * (c + iso_eps))) by ring.
    rewrite Hc2. ring.
  - apply vec_ext; [rewrite ?smul_length, !vsub_length, ?smul_length; lia|]. intros i ?. rewrite nth_smul, !nth_vsub, !nth_smul. ring.
Qed.
