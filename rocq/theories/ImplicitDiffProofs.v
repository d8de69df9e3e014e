From Coq Require Import String Reals List Lra Lia Bool Arith Permutation.
From Verif Require Import Prelude Vec Mat LinAlg LinSolve LinSolveProofs LinSolveTheorems EqQPProofs ImplicitDiff.
Import ListNotations.
Open Scope R_scope.

(** ** Binding *)
Section Bind.
Context {V D : Type}.
Implicit Types (kw : list (string * V)) (ps : list (param D)).
Lemma lookup_remove k k' kw : k <> k' -> lookup k (remove_key k' kw) = lookup k kw.
Proof.
  intros H. induction kw as [|[k0 v] kw IH]; simpl; [reflexivity|]. destruct (string_dec k' k0) as [->|].
  - destruct (string_dec k k0); [contradiction|reflexivity].
  - simpl. destruct (string_dec k k0); [reflexivity|exact IH].
Qed.
Lemma in_remove k v n w kw : In (k, v) kw -> lookup n kw = Some w -> v = w \/ In (k, v) (remove_key n kw).
Proof.
  induction kw as [|[k0 v0] kw IH]; simpl; [intros []|]. intros [E|Hin] Hl.
  - injection E as -> ->. destruct (string_dec n k) as [->|]; [left; congruence|right; left; reflexivity].
  - destruct (string_dec n k0) as [->|]; [right; exact Hin|]. destruct (IH Hin Hl) as [|H']; [left; assumption|right; right; assumption].
Qed.
Definition matched kw ps (l : list (string * V)) : Prop :=
  map fst l = firstn (length l) (map p_name ps) /\ Forall (fun k => k = PosOrKw) (firstn (length l) (map p_kind ps)) /\
  Forall (fun kv => lookup (fst kv) kw = Some (snd kv)) l.
Lemma matched_nil kw ps : matched kw ps [].
Proof. split; [reflexivity|]. split; constructor. Qed.
Lemma bind_kw_args ps : forall kw b, NoDup (map p_name ps) -> bind_kw ps kw = Ok b ->
  exists l, ba_args b = map snd l /\ matched kw ps l.
Proof.
  induction ps as [|p ps IH]; intros kw b Hnd H.
  - simpl in H. destruct kw; [|discriminate]. injection H as <-. exists []. split; [reflexivity|apply matched_nil].
  - simpl in H. inversion Hnd as [|? ? Hni Hnd']; subst. destruct (p_kind p) eqn:Ek.
    + destruct (lookup (p_name p) kw) as [v|] eqn:El.
      * destruct (bind_kw ps (remove_key (p_name p) kw)) as [b'|] eqn:Eb; [|discriminate]. injection H as <-.
        destruct (IH _ _ Hnd' Eb) as (l & E & M1 & M2 & M3). exists ((p_name p, v) :: l).
        split; [simpl; rewrite Ek, E; reflexivity|]. split; [simpl; rewrite M1; reflexivity|]. split; [simpl; constructor; assumption|].
        constructor; [exact El|]. rewrite Forall_forall in *. intros kv Hkv. rewrite <- (M3 kv Hkv). symmetry. apply lookup_remove.
        intros E'. apply Hni. rewrite <- E'. assert (Hin : In (fst kv) (map fst l)) by (apply in_map; exact Hkv). rewrite M1 in Hin.
        rewrite <- (firstn_skipn (length l) (map p_name ps)). apply in_or_app. left. exact Hin.
      * destruct (p_default p); [|discriminate]. destruct (bind_kw ps kw) eqn:Eb; [|discriminate]. injection H as <-.
        exists []. split; [simpl; rewrite Ek; reflexivity|apply matched_nil].
    + destruct (bind_kw ps kw) eqn:Eb; [|discriminate]. injection H as <-. exists []. split; [simpl; rewrite Ek; reflexivity|apply matched_nil].
    + exists []. split; [|apply matched_nil]. destruct (lookup (p_name p) kw).
      * destruct (bind_kw ps _); [|discriminate]. injection H as <-. simpl. rewrite Ek. reflexivity.
      * destruct (p_default p); [|discriminate]. destruct (bind_kw ps kw); [|discriminate]. injection H as <-. simpl. rewrite Ek. reflexivity.
    + exists []. split; [|apply matched_nil]. destruct ps; [|discriminate]. injection H as <-. simpl. rewrite Ek. reflexivity.
Qed.
Lemma bind_kw_cover ps : forall kw b, bind_kw ps kw = Ok b -> forall k v, In (k, v) kw ->
  In v (map snd (ba_kwargs true b)) /\ (In v (ba_args b) \/ In v (map snd (ba_kwargs false b))).
Proof.
  induction ps as [|p ps IH]; intros kw b H k v Hin.
  - simpl in H. destruct kw; [destruct Hin|discriminate].
  - simpl in H. destruct (p_kind p) eqn:Ek.
    + destruct (lookup (p_name p) kw) as [w|] eqn:El.
      * destruct (bind_kw ps (remove_key (p_name p) kw)) as [b'|] eqn:Eb; [|discriminate]. injection H as <-. simpl. rewrite Ek.
        destruct (in_remove k v _ _ _ Hin El) as [<-|Hin']; [simpl; auto|]. destruct (IH _ _ Eb k v Hin') as [H1 H2]. simpl. tauto.
      * destruct (p_default p); [|discriminate]. destruct (bind_kw ps kw) as [b'|] eqn:Eb; [|discriminate]. injection H as <-. simpl. rewrite Ek.
        destruct (IH _ _ Eb k v Hin) as [H1 H2]. tauto.
    + destruct (bind_kw ps kw) as [b'|] eqn:Eb; [|discriminate]. injection H as <-. simpl. rewrite Ek. destruct (IH _ _ Eb k v Hin) as [H1 H2]. tauto.
    + destruct (lookup (p_name p) kw) as [w|] eqn:El.
      * destruct (bind_kw ps (remove_key (p_name p) kw)) as [b'|] eqn:Eb; [|discriminate]. injection H as <-. simpl. rewrite Ek. simpl.
        destruct (in_remove k v _ _ _ Hin El) as [<-|Hin']; [simpl; auto|]. destruct (IH _ _ Eb k v Hin') as [H1 H2]. tauto.
      * destruct (p_default p); [|discriminate]. destruct (bind_kw ps kw) as [b'|] eqn:Eb; [|discriminate]. injection H as <-. simpl. rewrite Ek. simpl.
        destruct (IH _ _ Eb k v Hin) as [H1 H2]. tauto.
    + destruct ps; [|discriminate]. injection H as <-. simpl. rewrite Ek. destruct kw as [|kv kw]; [destruct Hin|]. simpl. rewrite !app_nil_r.
      assert (Hv : In v (map snd (kv :: kw))) by (apply in_map_iff; exists (k, v); auto). simpl in Hv. tauto.
Qed.
Lemma no_pos_args ps kw b : Forall (fun k => kind_rank k >= 2)%nat (map p_kind ps) -> bind_kw ps kw = Ok b -> ba_args b = [].
Proof.
  intros HF H. destruct ps as [|p ps]; simpl in H.
  - destruct kw; [|discriminate]. injection H as <-. reflexivity.
  - simpl in HF. apply Forall_inv in HF. destruct (p_kind p) eqn:Ek; simpl in HF; try lia.
    + destruct (lookup (p_name p) kw).
      * destruct (bind_kw ps _); [|discriminate]. injection H as <-. simpl. rewrite Ek. reflexivity.
      * destruct (p_default p); [|discriminate]. destruct (bind_kw ps kw); [|discriminate]. injection H as <-. simpl. rewrite Ek. reflexivity.
    + destruct ps; [|discriminate]. injection H as <-. simpl. rewrite Ek. reflexivity.
Qed.
Lemma bind_args ps : forall args kw b, sig_ok ps -> bind ps args kw = Ok b ->
  exists l, ba_args b = args ++ map snd l /\ matched kw (skipn (length args) ps) l.
Proof.
  induction ps as [|p ps IH]; intros args kw b [Hnd Hk] H.
  - destruct args as [|a args]; [|discriminate]. simpl in H. destruct kw; [|discriminate]. injection H as <-. exists []. split; [reflexivity|apply matched_nil].
  - destruct args as [|a args].
    + destruct (bind_kw_args (p :: ps) kw b Hnd H) as (l & E & M). exists l. split; assumption.
    + simpl in H. simpl in Hk. destruct Hk as [HF Hk']. inversion Hnd as [|? ? Hni Hnd']; subst. destruct (p_kind p) eqn:Ek; try discriminate.
      * destruct (lookup (p_name p) kw); [discriminate|]. destruct (bind ps args kw) as [b'|] eqn:Eb; [|discriminate]. injection H as <-.
        destruct (IH args kw b' (conj Hnd' Hk') Eb) as (l & E & M). exists l. split; [simpl; rewrite Ek, E; reflexivity|exact M].
      * destruct (bind_kw ps kw) as [b'|] eqn:Eb; [|discriminate]. injection H as <-. exists []. split; [|apply matched_nil].
        simpl. rewrite Ek. rewrite (no_pos_args ps kw b'); [rewrite !app_nil_r; reflexivity| |exact Eb].
        eapply Forall_impl; [|exact HF]. cbv beta. intros k (H1 & H2 & _). specialize (H2 eq_refl). destruct k; simpl in *; try lia. contradiction.
Qed.
Lemma bind_cover ps : forall args kw b, bind ps args kw = Ok b -> forall k v, In (k, v) kw ->
  In v (ba_args b) \/ In v (map snd (ba_kwargs false b)).
Proof.
  induction ps as [|p ps IH]; intros args kw b H k v Hin.
  - destruct args as [|a args]; [|discriminate]. exact (proj2 (bind_kw_cover [] kw b H k v Hin)).
  - destruct args as [|a args]; [exact (proj2 (bind_kw_cover _ kw b H k v Hin))|].
    simpl in H. destruct (p_kind p) eqn:Ek; try discriminate.
    + destruct (lookup (p_name p) kw); [discriminate|]. destruct (bind ps args kw) as [b'|] eqn:Eb; [|discriminate]. injection H as <-.
      simpl. rewrite Ek. destruct (IH _ _ _ Eb k v Hin); [left; right; assumption|right; assumption].
    + destruct (bind_kw ps kw) as [b'|] eqn:Eb; [|discriminate]. injection H as <-. simpl. rewrite Ek.
      destruct (proj2 (bind_kw_cover _ _ _ Eb k v Hin)); [left; right; apply in_or_app; right; assumption|right; assumption].
Qed.
End Bind.

Lemma lookup_tag {V} k (kw : list (string * V)) : lookup k (tag_kwargs kw) = match lookup k kw with Some v => Some (TagKw k, v) | None => None end.
Proof. induction kw as [|[k0 v] kw IH]; simpl; [reflexivity|]. destruct (string_dec k k0) as [->|]; [reflexivity|exact IH]. Qed.

(** The outcome of bind_and_match in closed form *)
Lemma match_shape {V D} (sig : list (param D)) (args : list V) kw out mapping : sig_ok sig ->
  signature_bind_and_match sig args kw = Ok (out, [], mapping) ->
  exists l : list (string * V), out = args ++ map snd l /\ mapping = map TagPos (seq 0 (length args)) ++ map TagKw (map fst l) /\
    matched kw (skipn (length args) sig) l /\ (forall k, In k (map fst kw) -> In k (map fst l)).
Proof.
  intros Hs H. unfold signature_bind_and_match in H. destruct (bind sig (tag_args args) (tag_kwargs kw)) as [b|] eqn:Eb; [|discriminate].
  injection H as H1 H2 H3. destruct (bind_args sig _ _ b Hs Eb) as (l' & E & M1 & M2 & M3).
  assert (Lt : length (tag_args args) = length args) by (unfold tag_args; rewrite combine_length, map_length, seq_length; lia). rewrite Lt in *.
  set (l := map (fun kv => (fst kv, snd (snd kv))) l').
  assert (Ht : Forall (fun kv : string * (tag * V) => fst (snd kv) = TagKw (fst kv) /\ lookup (fst kv) kw = Some (snd (snd kv))) l').
  { eapply Forall_impl; [|exact M3]. cbv beta. intros [k [t v]] Hl. simpl in *. rewrite lookup_tag in Hl. destruct (lookup k kw) as [w|]; [|discriminate]. injection Hl as <- <-. auto. }
  assert (Ef : map fst l = map fst l') by (unfold l; rewrite map_map; reflexivity).
  assert (Ll : length l = length l') by (unfold l; apply map_length).
  exists l. split; [|split; [|split]].
  - rewrite <- H1, E, map_app. f_equal.
    + unfold tag_args. assert (Lq : length (map TagPos (seq 0 (length args))) = length args) by (rewrite map_length, seq_length; reflexivity). revert Lq. generalize (map TagPos (seq 0 (length args))). clear. induction args as [|a args IH]; intros [|t ts] H; try discriminate; [reflexivity|]. simpl. f_equal. apply IH. simpl in H; lia.
    + unfold l. rewrite !map_map. reflexivity.
  - rewrite <- H3, E, map_app. f_equal.
    + unfold tag_args. assert (Lq : length (map TagPos (seq 0 (length args))) = length args) by (rewrite map_length, seq_length; reflexivity). revert Lq. generalize (map TagPos (seq 0 (length args))) as ts. clear. induction args as [|a args IH]; intros [|t ts] H; try discriminate; [reflexivity|]. simpl. f_equal. apply IH. simpl in H; lia.
    + rewrite Ef, !map_map. apply map_ext_Forall. eapply Forall_impl; [|exact Ht]. cbv beta. intros kv [Hk _]. exact Hk.
  - split; [rewrite Ef, Ll; exact M1|]. split; [rewrite Ll; exact M2|]. unfold l. apply Forall_map. eapply Forall_impl; [|exact Ht]. cbv beta. intros kv [_ Hk]. exact Hk.
  - intros k Hk. apply in_map_iff in Hk. destruct Hk as ([k0 v] & <- & Hin). simpl.
    assert (Hin' : In (k0, (TagKw k0, v)) (tag_kwargs kw)) by (unfold tag_kwargs; apply in_map_iff; exists (k0, v); auto).
    destruct (bind_cover _ _ _ _ Eb _ _ Hin') as [HA|HK].
    + rewrite E in HA. apply in_app_or in HA. destruct HA as [HA|HA].
      * exfalso. unfold tag_args in HA. apply in_combine_l in HA. apply in_map_iff in HA. destruct HA as (i & HA & _). discriminate.
      * apply in_map_iff in HA. destruct HA as (kv & Ekv & Hkv). rewrite Ef. rewrite Forall_forall in Ht. destruct (Ht kv Hkv) as [Hf _].
        apply in_map_iff. exists kv. split; [|exact Hkv]. rewrite Ekv in Hf. simpl in Hf. injection Hf as ->. reflexivity.
    + exfalso. apply in_map_iff in HK. destruct HK as (kv & _ & Hkv). apply map_eq_nil in H2. rewrite H2 in Hkv. destruct Hkv.
Qed.
Lemma matched_nodup {V D} kw (ps : list (param D)) (l : list (string * V)) : NoDup (map p_name ps) -> matched kw ps l -> NoDup (map fst l).
Proof.
  intros H (E & _). rewrite E. rewrite <- (firstn_skipn (length l) (map p_name ps)) in H. 
  revert H. generalize (firstn (length l) (map p_name ps)), (skipn (length l) (map p_name ps)). clear. intros a c H.
  induction a as [|x a IH]; [constructor|]. inversion H; subst. constructor; [intros Hin; apply H2; apply in_or_app; left; exact Hin|apply IH; assumption].
Qed.

(** ** map_back *)
Lemma list_set_app {T} (pre : list T) x y suf : list_set (pre ++ x :: suf) (length pre) y = pre ++ y :: suf.
Proof. induction pre as [|a pre IH]; simpl; [reflexivity|]. rewrite IH. reflexivity. Qed.
Definition mb_step {G} (acc : list (option G) * list (string * G)) (rx : tag * G) :=
  let '(src_args, src_kwargs) := acc in
  match rx with (TagKw k, x) => (src_args, dict_set src_kwargs k x) | (TagPos i, x) => (list_set src_args i (Some x), src_kwargs) end.
Lemma mb_pos {G} (xs : list G) : forall pre,
  fold_left mb_step (combine (map TagPos (seq (length pre) (length xs))) xs) (map Some pre ++ repeat None (length xs), []) = (map Some (pre ++ xs), []).
Proof.
  induction xs as [|x xs IH]; intros pre; simpl; [rewrite !app_nil_r; reflexivity|].
  rewrite <- (map_length Some pre) at 2. rewrite list_set_app. specialize (IH (pre ++ [x])). rewrite app_length in IH. simpl in IH.
  replace (length pre + 1)%nat with (S (length pre)) in IH by lia. rewrite map_app in IH. simpl in IH. rewrite <- !app_assoc in IH. simpl in IH. exact IH.
Qed.
Lemma mb_kw {G} (ks : list string) (xs : list G) src d : length ks = length xs ->
  fold_left mb_step (combine (map TagKw ks) xs) (src, d) = (src, rev (combine ks xs) ++ d).
Proof.
  revert xs d; induction ks as [|k ks IH]; intros [|x xs] d H; try discriminate; [reflexivity|]. simpl. rewrite IH by (simpl in H; lia).
  rewrite <- app_assoc. reflexivity.
Qed.
Lemma combine_app_eq {T U} (a1 a2 : list T) (b1 b2 : list U) : length a1 = length b1 -> combine (a1 ++ a2) (b1 ++ b2) = combine a1 b1 ++ combine a2 b2.
Proof. revert b1; induction a1 as [|x a1 IH]; intros [|y b1] H; try discriminate; simpl; [reflexivity|]. rewrite IH by (simpl in H; lia). reflexivity. Qed.
Lemma map_back_spec {G} n (ks : list string) (out1 out2 : list G) : length out1 = n -> length ks = length out2 ->
  map_back n (map TagPos (seq 0 n) ++ map TagKw ks) (out1 ++ out2) = (map Some out1, rev (combine ks out2)).
Proof.
  intros H1 H2. unfold map_back. rewrite combine_app_eq by (rewrite map_length, seq_length; lia). rewrite fold_left_app.
  change (fun acc rx => _) with (@mb_step G).
  assert (E := mb_pos out1 []). simpl in E. rewrite H1 in E. rewrite E, mb_kw by exact H2. rewrite app_nil_r. reflexivity.
Qed.
Lemma lookup_rev_combine {G} (ks : list string) (xs : list G) j k x : NoDup ks -> length ks = length xs ->
  nth_error ks j = Some k -> nth_error xs j = Some x -> lookup k (rev (combine ks xs)) = Some x.
Proof.
  assert (LA : forall (a c : list (string * G)) q, lookup q (a ++ c) = match lookup q a with Some v => Some v | None => lookup q c end).
  { induction a as [|[k0 v0] a IH]; intros c q; simpl; [reflexivity|]. destruct (string_dec q k0); [reflexivity|apply IH]. }
  revert xs j; induction ks as [|k0 ks IH]; intros [|x0 xs] j Hnd Hl Hk Hx; try discriminate; [destruct j; discriminate|].
  inversion Hnd as [|? ? Hni Hnd']; subst. simpl. rewrite LA. simpl in Hl. destruct j as [|j]; simpl in Hk, Hx.
  - injection Hk as ->. injection Hx as ->.
    assert (N : lookup k (rev (combine ks xs)) = None).
    { assert (H : forall l : list (string * G), ~ In k (map fst l) -> lookup k l = None).
      { induction l as [|[a c] l IHl]; simpl; intros H; [reflexivity|]. destruct (string_dec k a) as [->|]; [tauto|apply IHl; tauto]. }
      apply H. rewrite map_rev. intros Hin. apply in_rev in Hin. apply in_map_iff in Hin. destruct Hin as ([a c] & <- & Hin). apply in_combine_l in Hin. contradiction. }
    rewrite N. simpl. destruct (string_dec k k) as [|C]; [reflexivity|contradiction].
  - rewrite (IH xs j Hnd' ltac:(lia) Hk Hx). reflexivity.
Qed.

(** ** Derivatives *)
Lemma Forall2_length {T U} (P : T -> U -> Prop) l l' : Forall2 P l l' -> length l = length l'.
Proof. induction 1; simpl; lia. Qed.
Arguments Forall2_length {T U P l l'}.
Lemma jvp_args_length n ps D2 vs : jac_ok n ps D2 -> length (jvp_args n D2 vs) = n.
Proof.
  intros H. revert vs; induction H as [|p M ps D2 HM HF IH]; intros vs; [apply vzero_length|]. destruct vs as [|v vs]; [apply vzero_length|].
  unfold jvp_args; simpl. fold (jvp_args n D2 vs). rewrite vadd_length, mvec_length, IH, (proj1 HM). lia.
Qed.
Lemma jvp_args_smul n a D2 vs : jvp_args n D2 (map (smul a) vs) = smul a (jvp_args n D2 vs).
Proof.
  revert vs; induction D2 as [|M D2 IH]; intros [|v vs]; unfold jvp_args; simpl; try (apply vec_eq_dot; [rewrite smul_length; reflexivity|intros w; autorewrite with vec; ring]).
  fold (jvp_args n D2 vs) (jvp_args n D2 (map (smul a) vs)). rewrite IH, mvec_smul. apply vec_eq_dot; [rewrite smul_length, !vadd_length, !smul_length; reflexivity|]. intros w. autorewrite with vec. ring.
Qed.
Lemma dot_jvp_args n ps D2 vs u : jac_ok n ps D2 -> length D2 = length vs ->
  dot u (jvp_args n D2 vs) = total_dot (map (fun pM => tvec (fst pM) (snd pM) u) (combine ps D2)) vs.
Proof.
  intros H. revert vs; induction H as [|p M ps D2 HM HF IH]; intros [|v vs] Hl; try discriminate; [apply dot_vzero_r|].
  unfold jvp_args, total_dot; simpl. fold (jvp_args n D2 vs). fold (total_dot (map (fun pM => tvec (fst pM) (snd pM) u) (combine ps D2)) vs).
  rewrite dot_vadd_r, IH, (dot_tvec p) by (simpl in Hl; lia). reflexivity.
Qed.
Fixpoint row_norms (M : mat) : R := match M with [] => 0 | r :: M' => norm2 r + row_norms M' end.
Lemma row_norms_nonneg M : 0 <= row_norms M.
Proof. induction M as [|r M IH]; simpl; [lra|]. assert (N := norm2_nonneg r). lra. Qed.
Lemma norm2_cons a v : norm2 (a :: v) <= Rabs a + norm2 v.
Proof.
  assert (Ha := Rabs_pos a). assert (Hv := norm2_nonneg v). apply norm2_le_sq; [lra|]. simpl. fold (dot v v). rewrite <- (norm2_sq v).
  assert (Ea : a * a = Rabs a * Rabs a). { rewrite <- Rabs_mult. rewrite Rabs_pos_eq; [reflexivity|]. apply Rle_0_sqr. } rewrite Ea. nra.
Qed.
Lemma mvec_bound M x : norm2 (mvec M x) <= row_norms M * norm2 x.
Proof.
  induction M as [|r M IH]; simpl; [unfold norm2 at 1; simpl; rewrite sqrt_0; lra|].
  apply Rle_trans with (1 := norm2_cons _ _). assert (B := dot_abs_le_norm r x). lra.
Qed.
Lemma nonsingular_bound n M : nonsingular n M -> exists K, 0 < K /\ forall x, length x = n -> norm2 x <= K * norm2 (mvec M x).
Proof.
  intros HN. exists (row_norms (gauss_inv M) + 1). assert (P := row_norms_nonneg (gauss_inv M)). split; [lra|]. intros x Hx.
  assert (Lm : length (mvec M x) = n) by (rewrite mvec_length; apply HN).
  destruct (C42_example_inverse n M (mvec M x) HN Lm) as [L E].
  assert (Ex : mvec (gauss_inv M) (mvec M x) = x) by (apply (nonsingular_unique n M); assumption).
  rewrite <- Ex at 1. apply Rle_trans with (1 := mvec_bound _ _). assert (N := norm2_nonneg (mvec M x)). nra.
Qed.
Lemma args_sub_move ps args t v : args_ok ps args -> args_ok ps v -> args_sub (args_move args t v) args = map (smul t) v.
Proof.
  intros H. revert v; induction H as [|p a ps args Ha HF IH]; intros v Hv; inversion Hv as [|? v0 ? vs Hv0 Hvs]; subst; [reflexivity|].
  unfold args_sub, args_move in *; simpl. f_equal; [|apply IH; assumption].
  apply vec_eq_dot; [rewrite vsub_length, vadd_length, smul_length; unfold vec in *; lia|]. intros w. vring.
Qed.
Lemma concat_smul t vs : concat (map (smul t) vs) = smul t (concat vs).
Proof. induction vs as [|v vs IH]; simpl; [reflexivity|]. rewrite IH, smul_app. reflexivity. Qed.
Lemma args_move_ok ps args t v : args_ok ps args -> args_ok ps v -> args_ok ps (args_move args t v).
Proof.
  intros H. revert v; induction H as [|p a ps args Ha HF IH]; intros v Hv; inversion Hv as [|? v0 ? vs Hv0 Hvs]; subst; [constructor|].
  unfold args_move in *; simpl. constructor; [rewrite vadd_length, smul_length; unfold vec in *; lia|apply IH; assumption].
Qed.

(** ** Which calls resolve *)
Section Resolve.
Context {V D : Type}.
Implicit Types (kw : list (string * V)) (ps : list (param D)).
Lemma remove_perm n w kw : lookup n kw = Some w -> Permutation (map fst kw) (n :: map fst (remove_key n kw)).
Proof.
  induction kw as [|[k v] kw IH]; simpl; [discriminate|]. destruct (string_dec n k) as [->|]; intros H; [reflexivity|].
  simpl. rewrite (IH H). apply perm_swap.
Qed.
Lemma lookup_in_keys n kw : In n (map fst kw) -> exists w, lookup n kw = Some w.
Proof.
  induction kw as [|[k v] kw IH]; simpl; [intros []|]. destruct (string_dec n k); [eexists; reflexivity|]. intros [E|H]; [congruence|exact (IH H)].
Qed.
Lemma lookup_not_in n kw : ~ In n (map fst kw) -> lookup n kw = None.
Proof. induction kw as [|[k v] kw IH]; simpl; intros H; [reflexivity|]. destruct (string_dec n k) as [->|]; [tauto|apply IH; tauto]. Qed.
Lemma bind_kw_nil_optional ps b : bind_kw ps (@nil (string * V)) = Ok b -> Forall optional_param ps.
Proof.
  revert b; induction ps as [|p ps IH]; intros b H; [constructor|]. simpl in H. unfold optional_param at 1. destruct (p_kind p) eqn:Ek.
  - destruct (p_default p) eqn:Ed; [|discriminate]. destruct (bind_kw ps []) as [b'|] eqn:Eb; [|discriminate]. constructor; [unfold optional_param; rewrite Ek, Ed; discriminate|exact (IH b' eq_refl)].
  - destruct (bind_kw ps []) as [b'|] eqn:Eb; [|discriminate]. constructor; [unfold optional_param; rewrite Ek; exact I|exact (IH b' eq_refl)].
  - destruct (p_default p) eqn:Ed; [|discriminate]. destruct (bind_kw ps []) as [b'|] eqn:Eb; [|discriminate]. constructor; [unfold optional_param; rewrite Ek, Ed; discriminate|exact (IH b' eq_refl)].
  - destruct ps; [|discriminate]. constructor; [unfold optional_param; rewrite Ek; exact I|constructor].
Qed.
Lemma started_nil ps kw b : bind_kw ps kw = Ok b -> ba_kwargs true b = [] -> kw = [].
Proof.
  intros H E. destruct kw as [|[k v] kw]; [reflexivity|]. exfalso. destruct (bind_kw_cover ps _ b H k v (or_introl eq_refl)) as [H1 _]. rewrite E in H1. destruct H1.
Qed.
Lemma bind_kw_resolved ps : forall kw b, bind_kw ps kw = Ok b -> ba_kwargs false b = [] ->
  exists ps2 ps3, ps = ps2 ++ ps3 /\ Forall (fun p => p_kind p = PosOrKw) ps2 /\ Permutation (map fst kw) (map p_name ps2) /\ Forall optional_param ps3.
Proof.
  induction ps as [|p ps IH]; intros kw b H E.
  - simpl in H. destruct kw; [|discriminate]. exists [], []. repeat split; constructor.
  - assert (Triv : kw = [] -> exists ps2 ps3, p :: ps = ps2 ++ ps3 /\ Forall (fun p => p_kind p = PosOrKw) ps2 /\ Permutation (map fst kw) (map p_name ps2) /\ Forall optional_param ps3).
    { intros ->. exists [], (p :: ps). split; [reflexivity|]. split; [constructor|]. split; [constructor|]. exact (bind_kw_nil_optional _ _ H). }
    assert (H0 := H). simpl in H. destruct (p_kind p) eqn:Ek.
    + destruct (lookup (p_name p) kw) as [v|] eqn:El.
      * destruct (bind_kw ps (remove_key (p_name p) kw)) as [b'|] eqn:Eb; [|discriminate]. injection H as <-. simpl in E. rewrite Ek in E.
        destruct (IH _ _ Eb E) as (ps2 & ps3 & E1 & F & P & O). exists (p :: ps2), ps3. split; [simpl; rewrite E1; reflexivity|].
        split; [constructor; assumption|]. split; [|exact O]. rewrite (remove_perm _ _ _ El). simpl. constructor. exact P.
      * destruct (p_default p); [|discriminate]. destruct (bind_kw ps kw) as [b'|] eqn:Eb; [|discriminate]. injection H as <-. simpl in E. rewrite Ek in E.
        apply Triv. exact (started_nil _ _ _ Eb E).
    + destruct (bind_kw ps kw) as [b'|] eqn:Eb; [|discriminate]. injection H as <-. simpl in E. rewrite Ek in E. apply Triv. exact (started_nil _ _ _ Eb E).
    + destruct (lookup (p_name p) kw) as [v|] eqn:El.
      * destruct (bind_kw ps (remove_key (p_name p) kw)) as [b'|] eqn:Eb; [|discriminate]. injection H as <-. simpl in E. rewrite Ek in E. discriminate.
      * destruct (p_default p); [|discriminate]. destruct (bind_kw ps kw) as [b'|] eqn:Eb; [|discriminate]. injection H as <-. simpl in E. rewrite Ek in E. simpl in E.
        apply Triv. exact (started_nil _ _ _ Eb E).
    + destruct ps; [|discriminate]. injection H as <-. simpl in E. rewrite Ek in E. apply Triv. destruct kw; [reflexivity|discriminate].
Qed.
Lemma kinds_ok_tl k ks : kinds_ok (k :: ks) -> kinds_ok ks.
Proof. intros [_ H]. exact H. Qed.
Lemma bind_kw_optional ps : kinds_ok (map p_kind ps) -> Forall optional_param ps ->
  exists b, bind_kw ps (@nil (string * V)) = Ok b /\ ba_kwargs true b = [] /\ ba_kwargs false b = [].
Proof.
  induction ps as [|p ps IH]; intros Hk HO; [exists []; auto|]. inversion HO as [|? ? Hp HO']; subst.
  destruct (IH (kinds_ok_tl _ _ Hk) HO') as (b & Eb & E1 & E2). unfold optional_param in Hp. simpl. destruct (p_kind p) eqn:Ek.
  - destruct (p_default p); [|contradiction]. rewrite Eb. exists ((p, Absent) :: b). split; [reflexivity|]. simpl. rewrite Ek. auto.
  - rewrite Eb. exists ((p, Absent) :: b). split; [reflexivity|]. simpl. rewrite Ek. auto.
  - destruct (p_default p); [|contradiction]. rewrite Eb. exists ((p, Absent) :: b). split; [reflexivity|]. simpl. rewrite Ek. auto.
  - destruct ps as [|p' ps]; [|exfalso; simpl in Hk; destruct Hk as [HF _]; apply Forall_inv in HF; destruct HF as (_ & _ & HF); exact (HF Ek)].
    exists [(p, Absent)]. split; [reflexivity|]. simpl. rewrite Ek. auto.
Qed.
Lemma bind_kw_complete ps2 ps3 : forall kw, kinds_ok (map p_kind ps3) -> Forall (fun p => p_kind p = PosOrKw) ps2 ->
  Permutation (map fst kw) (map p_name ps2) -> Forall optional_param ps3 ->
  exists b, bind_kw (ps2 ++ ps3) kw = Ok b /\ ba_kwargs false b = [].
Proof.
  induction ps2 as [|p ps2 IH]; intros kw Hk HF HP HO.
  - simpl in HP. apply Permutation_sym, Permutation_nil in HP. destruct kw; [|discriminate].
    destruct (bind_kw_optional ps3 Hk HO) as (b & Eb & _ & E). exists b. auto.
  - inversion HF as [|? ? Hp HF']; subst. simpl. rewrite Hp.
    assert (Hin : In (p_name p) (map fst kw)) by (apply (Permutation_in _ (Permutation_sym HP)); left; reflexivity).
    destruct (lookup_in_keys _ _ Hin) as [w Hw]. rewrite Hw.
    assert (HP' : Permutation (map fst (remove_key (p_name p) kw)) (map p_name ps2)).
    { apply (Permutation_cons_inv (a := p_name p)). rewrite <- (remove_perm _ _ _ Hw). exact HP. }
    destruct (IH _ Hk HF' HP' HO) as (b & Eb & E). rewrite Eb. exists ((p, One w) :: b). split; [reflexivity|]. simpl. rewrite Hp. exact E.
Qed.
Lemma bind_resolved ps : forall args kw b, kinds_ok (map p_kind ps) -> bind ps args kw = Ok b -> ba_kwargs false b = [] -> resolvable ps (length args) (map fst kw).
Proof.
  induction ps as [|p ps IH]; intros args kw b Hk H E.
  - destruct args as [|a args]; [|discriminate]. destruct (bind_kw_resolved [] kw b H E) as (ps2 & ps3 & E1 & F & P & O).
    exists [], ps2, ps3. repeat (split; try assumption). left; reflexivity.
  - destruct args as [|a args].
    + destruct (bind_kw_resolved (p :: ps) kw b H E) as (ps2 & ps3 & E1 & F & P & O).
      exists [], ps2, ps3. repeat (split; try assumption). left; reflexivity.
    + simpl in H. destruct (p_kind p) eqn:Ek; try discriminate.
      * destruct (lookup (p_name p) kw); [discriminate|]. destruct (bind ps args kw) as [b'|] eqn:Eb; [|discriminate]. injection H as <-.
        simpl in E. rewrite Ek in E. destruct (IH _ _ _ (kinds_ok_tl _ _ Hk) Eb E) as (ps1 & ps2 & ps3 & E1 & F & P & O & L).
        exists (p :: ps1), ps2, ps3. split; [simpl; rewrite E1; reflexivity|]. split; [constructor; assumption|]. split; [assumption|]. split; [assumption|].
        destruct L as [L|(L & K & Q)]; [left; simpl; lia|right]. split; [simpl; lia|]. auto.
      * destruct (bind_kw ps kw) as [b'|] eqn:Eb; [|discriminate]. injection H as <-. simpl in E. rewrite Ek in E.
        destruct (bind_kw_resolved ps kw b' Eb E) as (ps2 & ps3 & E1 & F & P & O). exists [], [], (p :: ps).
        assert (K : map fst kw = [] \/ ps2 <> []) by (destruct ps2; [left; apply Permutation_nil; apply Permutation_sym; exact P|right; discriminate]).
        destruct K as [K|K].
        -- split; [reflexivity|]. split; [constructor|]. rewrite K. split; [constructor|]. split.
           ++ constructor; [unfold optional_param; rewrite Ek; exact I|]. destruct kw; [|discriminate]. exact (bind_kw_nil_optional _ _ Eb).
           ++ right. split; [simpl; lia|]. split; [reflexivity|]. exists p, ps. auto.
        -- exfalso. destruct ps2 as [|q ps2]; [apply K; reflexivity|]. rewrite E1 in Hk. simpl in Hk. destruct Hk as [HF _].
           apply Forall_inv in HF. destruct HF as [HF _]. apply Forall_inv in F. rewrite Ek, F in HF. simpl in HF. lia.
Qed.
Lemma kinds_ok_app a c : kinds_ok (a ++ c) -> kinds_ok c.
Proof. induction a as [|k a IH]; intros H; [exact H|]. apply IH. exact (kinds_ok_tl _ _ H). Qed.
Lemma bind_complete ps1 ps2 ps3 : forall args kw, NoDup (map p_name (ps1 ++ ps2 ++ ps3)) -> kinds_ok (map p_kind ps3) ->
  Forall (fun p => p_kind p = PosOrKw) (ps1 ++ ps2) -> Permutation (map fst kw) (map p_name ps2) -> Forall optional_param ps3 ->
  (length ps1 = length args \/ (length ps1 < length args /\ kw = [] /\ exists p ps3', ps3 = p :: ps3' /\ p_kind p = VarPos))%nat ->
  exists b, bind (ps1 ++ ps2 ++ ps3) args kw = Ok b /\ ba_kwargs false b = [].
Proof.
  induction ps1 as [|p ps1 IH]; intros args kw Hnd Hk HF HP HO HL.
  - simpl in *. destruct HL as [HL|(HL & -> & p & ps3' & -> & Ep)].
    + destruct args; [|discriminate]. destruct (bind_kw_complete ps2 ps3 kw Hk HF HP HO) as (b & Eb & E). exists b. split; [|exact E].
      destruct (ps2 ++ ps3); exact Eb.
    + simpl in HP. apply Permutation_nil in HP. destruct ps2; [|discriminate]. destruct args as [|a args]; [simpl in HL; lia|]. simpl. rewrite Ep.
      inversion HO as [|? ? _ HO']; subst. destruct (bind_kw_optional ps3' (kinds_ok_tl _ _ Hk) HO') as (b & Eb & E1 & E2). rewrite Eb.
      exists ((p, Many (a :: args)) :: b). split; [reflexivity|]. simpl. rewrite Ep. exact E2.
  - destruct args as [|a args]; [destruct HL as [HL|[HL _]]; simpl in HL; lia|]. simpl in *. inversion HF as [|? ? Hp HF']; subst. inversion Hnd as [|? ? Hni Hnd']; subst.
    rewrite Hp. rewrite lookup_not_in.
    + destruct (IH args kw Hnd' Hk HF' HP HO) as (b & Eb & E); [destruct HL as [HL|(HL & Q)]; [left; lia|right; split; [lia|exact Q]]|].
      rewrite Eb. exists ((p, One a) :: b). split; [reflexivity|]. simpl. rewrite Hp. exact E.
    + intros Hin. apply Hni. apply (Permutation_in _ HP) in Hin. rewrite !map_app. apply in_or_app. right. apply in_or_app. left. exact Hin.
Qed.
End Resolve.
