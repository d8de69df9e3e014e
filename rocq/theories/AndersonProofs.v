From Coq Require Import Reals List Lra Lia Bool Arith.
From Verif Require Import Prelude Vec Mat LinAlg Prox ProxProofs Zoom Loss LossProofs Run QuasiNewton QuasiNewtonProofs Anderson.
Import ListNotations.
Open Scope R_scope.

Ltac vlia := unfold mat, vec in *; lia.
Definition rows_len (n : nat) (rs : list vec) : Prop := Forall (fun r => length r = n) rs.
Definition gram (rs : list vec) : mat := map (mvec rs) rs.
Lemma gram_shape rs : mat_shape (length rs) (length rs) (gram rs).
Proof.
  unfold gram. split; [apply map_length|]. apply Forall_map. apply Forall_forall. intros r _. apply mvec_length.
Qed.
Lemma gram_entry rs i j : (i < length rs)%nat -> (j < length rs)%nat -> entry (gram rs) i j = dot (nth i rs []) (nth j rs []).
Proof.
  intros Hi Hj. unfold entry, gram. rewrite (nth_indep _ [] (mvec rs [])) by (rewrite map_length; exact Hi).
  rewrite map_nth, nth_mvec. apply dot_comm.
Qed.
Lemma gram_gram_of rs : gram_of rs (gram rs).
Proof. split; [apply gram_shape|]. intros i j. apply gram_entry. Qed.
Lemma gram_unique rs G : gram_of rs G -> G = gram rs.
Proof.
  intros [[H1 H2] H]. destruct (gram_shape rs) as [G1 G2]. apply (nth_ext _ _ [] []); [vlia|]. intros i Hi.
  assert (L1 : length (nth i G []) = length rs) by (apply (row_length (length rs)); [split; assumption|vlia]).
  assert (L2 : length (nth i (gram rs) []) = length rs) by (apply (row_length (length rs)); [split; assumption|vlia]).
  apply vec_ext; [vlia|]. intros j Hj. specialize (H i j ltac:(vlia) ltac:(vlia)). rewrite <- gram_entry in H by vlia. exact H.
Qed.
Lemma mvec_gram n rs w : mvec (gram rs) w = mvec rs (tvec n rs w).
Proof.
  unfold gram, mvec at 1. rewrite map_map. unfold mvec at 2. apply map_ext. intros r.
  rewrite (dot_mvec n). reflexivity.
Qed.
Lemma gram_quad n rs u w : dot u (mvec (gram rs) w) = dot (tvec n rs u) (tvec n rs w).
Proof. rewrite (mvec_gram n), dot_tvec. reflexivity. Qed.

Section Weights.
Variables (n : nat) (rs : list vec) (ridge : R).
Hypothesis Hrs : rows_len n rs.
Let m := length rs.
Let G1 := madd (gram rs) (msmul ridge (eye m)).
Lemma G1_shape : mat_shape m m G1.
Proof. apply madd_shape; [apply gram_shape|apply msmul_shape, eye_shape]. Qed.
Lemma mvec_G1 w : length w = m -> mvec G1 w = vadd (mvec (gram rs) w) (smul ridge w).
Proof.
  intros Hw. unfold G1. rewrite mvec_madd by (rewrite (proj1 (gram_shape rs)); unfold msmul; rewrite map_length; symmetry; apply (eye_shape m)).
  rewrite mvec_msmul, mvec_eye by exact Hw. reflexivity.
Qed.
Lemma bordered_eq : bordered (gram rs) ridge = (0 :: vones m) :: map (cons 1) G1.
Proof. unfold bordered. rewrite (proj1 (gram_shape rs)). reflexivity. Qed.
Lemma bordered_shape : mat_shape (S m) (S m) (bordered (gram rs) ridge).
Proof.
  rewrite bordered_eq. destruct G1_shape as [E F]. split; [simpl; rewrite map_length; vlia|].
  constructor; [simpl; rewrite vones_length; reflexivity|]. apply Forall_map. eapply Forall_impl; [|exact F]. simpl. intros a ->. reflexivity.
Qed.
Lemma mvec_bordered mu w : length w = m -> mvec (bordered (gram rs) ridge) (mu :: w) = vsum w :: vadd (smul mu (vones m)) (mvec G1 w).
Proof.
  intros Hw. rewrite bordered_eq. unfold mvec at 1. cbn [map dot]. f_equal.
  - rewrite vsum_dot, Hw. simpl. ring.
  - rewrite map_map. apply vec_ext.
    + rewrite map_length, vadd_length, smul_length, vones_length, mvec_length. pose proof (proj1 G1_shape). vlia.
    + intros i Hi. rewrite map_length in Hi. rewrite nth_vadd, nth_smul, nth_mvec.
      rewrite (nth_indep _ 0 (dot (1 :: []) (mu :: w))) by (rewrite map_length; exact Hi).
      rewrite (map_nth (fun x => dot (1 :: x) (mu :: w)) G1 [] i). simpl. unfold vones.
      rewrite (nth_indep _ 0 1) by (rewrite repeat_length, <- (proj1 G1_shape); exact Hi). rewrite nth_repeat. rewrite Rmult_1_l, Rmult_1_r. reflexivity.
Qed.
Lemma quad_G1 u w : length w = m -> dot u (mvec G1 w) = dot (tvec n rs u) (tvec n rs w) + ridge * dot u w.
Proof. intros Hw. rewrite mvec_G1 by exact Hw. rewrite dot_vadd_r, dot_smul_r, (gram_quad n). reflexivity. Qed.

Lemma bordered_nonsingular : (0 < m)%nat -> 0 < ridge -> nonsingular (S m) (bordered (gram rs) ridge).
Proof.
  intros Hm Hr. split; [apply bordered_shape|]. intros v Hv E. destruct v as [|mu w]; [discriminate|]. injection Hv as Hv.
  rewrite mvec_bordered in E by exact Hv. injection E as E1 E2.
  assert (Ew : dot w w = 0).
  { pose proof (f_equal (dot w) E2) as E3. change (@repeat R 0 m) with (vzero m) in E3. rewrite dot_vadd_r, dot_smul_r, dot_vzero_r, quad_G1 in E3 by exact Hv.
    rewrite (dot_comm w (vones m)) in E3. rewrite vsum_dot, Hv in E1. rewrite E1 in E3.
    pose proof (dot_self_nonneg (tvec n rs w)). pose proof (dot_self_nonneg w). nra. }
  apply dot_self_zero in Ew. rewrite Hv in Ew. subst w.
  assert (Emu : mu = 0).
  { pose proof (f_equal (fun z => nth 0 z 0) E2) as E3. cbn beta in E3. rewrite nth_vadd, nth_smul in E3. rewrite mvec_vzero, nth_vzero in E3.
    change (@repeat R 0 m) with (vzero m) in E3. rewrite nth_vzero in E3. destruct m; [vlia|]. simpl in E3. lra. }
  subst mu. reflexivity.
Qed.

Lemma weights_correct solve : exact_solver solve -> 0 <= ridge -> nonsingular (S m) (bordered (gram rs) ridge) ->
  mixing_weights n ridge rs (tl (minimize_residuals solve (gram rs) ridge)).
Proof.
  intros Hs Hr Hns. unfold minimize_residuals. rewrite (proj1 (gram_shape rs)). fold m.
  destruct (Hs (S m) _ (1 :: vzero m) Hns ltac:(simpl; rewrite vzero_length; reflexivity)) as [L E].
  destruct (solve _ _) as [|mu a]; [discriminate|]. cbn [tl]. injection L as La.
  rewrite mvec_bordered in E by exact La. injection E as E1 E2.
  split; [exact La|]. split; [exact E1|]. intros b Lb Eb. fold m in Lb.
  set (d := vsub b a). assert (Ld : length d = m) by (unfold d; apply vsub_len; assumption).
  assert (Hd : dot (vones m) d = 0).
  { unfold d. rewrite dot_vsub_r. rewrite vsum_dot, La in E1. rewrite vsum_dot, Lb in Eb. rewrite E1, Eb. ring. }
  assert (Hc : dot (tvec n rs d) (tvec n rs a) + ridge * dot d a = 0).
  { rewrite <- quad_G1 by exact La. pose proof (f_equal (dot d) E2) as E3. change (@repeat R 0 m) with (vzero m) in E3.
    rewrite dot_vadd_r, dot_smul_r, dot_vzero_r, (dot_comm d (vones m)), Hd in E3. lra. }
  assert (Hb : forall z, dot b z = dot a z + dot d z) by (intros z; unfold d; rewrite dot_vsub_l; ring).
  assert (Hshape : mat_shape m n rs) by (split; [reflexivity|exact Hrs]).
  assert (Ht : forall z, dot (tvec n rs b) z = dot (tvec n rs a) z + dot (tvec n rs d) z).
  { intros z. rewrite !dot_tvec. apply Hb. }
  unfold mixing_objective, combination, sqnorm.
  rewrite (Ht (tvec n rs b)), !(dot_comm _ (tvec n rs b)), !Ht, (Hb b), !(dot_comm _ b), !Hb.
  pose proof (dot_self_nonneg (tvec n rs d)). pose proof (dot_self_nonneg d).
  rewrite (dot_comm a d), (dot_comm (tvec n rs a) (tvec n rs d)). nra.
Qed.

Lemma weights_unique a b : 0 < ridge -> mixing_weights n ridge rs a -> mixing_weights n ridge rs b -> a = b.
Proof.
  intros Hr (La & Ea & Ha) (Lb & Eb & Hb).
  assert (Hshape : mat_shape m n rs) by (split; [reflexivity|exact Hrs]).
  set (c := smul (/2) (vadd a b)).
  assert (Lc : length c = length rs) by (unfold c; rewrite smul_length, vadd_length; vlia).
  assert (Ec : vsum c = 1) by (unfold c; rewrite vsum_smul, vsum_vadd; lra).
  pose proof (Ha c Lc Ec) as H1. pose proof (Hb c Lc Ec) as H2. unfold mixing_objective, combination, sqnorm in *.
  assert (Hz : dot (vsub a b) (vsub a b) = 0).
  { assert (Et : tvec n rs c = smul (/2) (vadd (tvec n rs a) (tvec n rs b))) by (unfold c; rewrite (tvec_smul m), (tvec_vadd m) by exact Hshape; reflexivity).
    rewrite Et in H1, H2. unfold c in H1, H2. revert H1 H2. generalize (tvec n rs a) (tvec n rs b). intros u v H1 H2.
    pose proof (dot_self_nonneg (vsub u v)) as P1. pose proof (dot_self_nonneg (vsub a b)) as P2.
    repeat rewrite ?dot_smul_l, ?dot_smul_r, ?dot_vadd_l, ?dot_vadd_r, ?dot_vsub_l, ?dot_vsub_r in *.
    rewrite (dot_comm v u), (dot_comm b a) in *.
    assert (ridge * (dot a a - dot a b - (dot a b - dot b b)) <= 0) by nra. nra. }
  apply dist2_zero; [vlia|exact Hz].
Qed.
End Weights.

(** ** update_history *)
Lemma set_nth_map {A B} (g : A -> B) l i v : set_nth (map g l) i (g v) = map g (set_nth l i v).
Proof. revert i; induction l as [|a l IH]; intros [|i]; simpl; f_equal; auto. Qed.
Lemma set_nth_same {A} (l : list A) i d : set_nth l i (nth i l d) = l.
Proof. revert i; induction l as [|a l IH]; intros [|i]; simpl; f_equal; auto. Qed.
Lemma update_gram rs pos r : (pos < length rs)%nat ->
  let rs' := set_nth rs pos r in
  let row := map (fun x => dot x r) rs' in
  map2 (fun old v => set_nth old pos v) (set_nth (gram rs) pos row) row = gram rs'.
Proof.
  intros Hp rs' row. assert (Lr : length rs' = length rs) by (unfold rs'; apply set_nth_length).
  assert (Lrow : length row = length rs) by (unfold row; rewrite map_length; exact Lr).
  pose proof (proj1 (gram_shape rs)) as Lg. pose proof (proj1 (gram_shape rs')) as Lg'.
  assert (Ls : length (set_nth (gram rs) pos row) = length rs) by (rewrite set_nth_length; exact Lg).
  apply (nth_ext _ _ [] []).
  - rewrite map2_length. vlia.
  - intros i Hi. rewrite map2_length in Hi. assert (Hi' : (i < length rs)%nat) by vlia. clear Hi. rename Hi' into Hi.
    rewrite (BoxSectionProofs.nth_map2 _ _ _ i [] 0 []) by vlia.
    assert (Hrow : nth i row 0 = dot (nth i rs' []) r).
    { unfold row. rewrite (nth_indep _ 0 (dot [] r)) by (rewrite map_length; vlia). apply (map_nth (fun x => dot x r)). }
    assert (Hg : forall l : list vec, (i < length l)%nat -> nth i (gram l) [] = mvec l (nth i l [])).
    { intros l Hl. unfold gram. rewrite (nth_indep _ [] (mvec l [])) by (rewrite map_length; exact Hl). apply (map_nth (mvec l)). }
    etransitivity; [|symmetry; apply (Hg rs'); vlia]. rewrite nth_set_nth, Hrow.
    assert (Hn : nth i rs' [] = if Nat.eq_dec pos i then r else nth i rs []).
    { unfold rs'. rewrite nth_set_nth. destruct (Nat.eq_dec pos i) as [->|]; [|reflexivity]. destruct (Nat.ltb_spec i (length rs)); [reflexivity|vlia]. }
    rewrite Hn in *. destruct (Nat.eq_dec pos i) as [->|Hne].
    + match goal with |- context [Nat.ltb i ?z] => destruct (Nat.ltb_spec i z); [|vlia] end.
 assert (E : set_nth row i (dot r r) = row) by (rewrite <- Hrow; apply set_nth_same). exact E.
    + etransitivity; [apply (f_equal (fun z => set_nth z pos _)); apply (Hg rs); vlia|]. unfold mvec, rs'. rewrite (dot_comm (nth i rs []) r).
      apply (set_nth_map (fun x => dot x (nth i rs []))).
Qed.

Lemma update_history_spec pos ph rs e r : (pos < length rs)%nat ->
  update_history pos ph rs (gram rs) e r = (set_nth ph pos e, set_nth rs pos r, gram (set_nth rs pos r), norm2 r).
Proof.
  intros Hp. unfold update_history. rewrite (update_gram rs pos r Hp). do 2 f_equal. unfold norm2. f_equal.
  rewrite gram_entry by (rewrite set_nth_length; exact Hp). rewrite nth_set_nth.
  destruct (Nat.eq_dec pos pos); [|vlia]. destruct (Nat.ltb_spec pos (length rs)); [reflexivity|vlia].
Qed.
Lemma gram_zero n m : gram (repeat (vzero n) m) = repeat (vzero m) m.
Proof.
  unfold gram. etransitivity; [apply map_ext_in with (g := fun _ => vzero m)|].
  - intros r Hr. apply repeat_spec in Hr. subst r. rewrite mvec_vzero, repeat_length. reflexivity.
  - assert (H : forall (z : vec) (l : list vec), map (fun _ => z) l = repeat z (length l)) by (intros z l0; induction l0; simpl; f_equal; auto).
    rewrite H, repeat_length. reflexivity.
Qed.
Lemma buf_rows n m z (a : nat -> vec) k : length z = n -> (forall j, (j < k)%nat -> length (a j) = n) -> rows_len n (buf m z a k).
Proof.
  intros Hz. induction k as [|k IH]; intros Ha; simpl.
  - apply Forall_forall. intros r Hr. apply repeat_spec in Hr. subst r. exact Hz.
  - unfold rows_len. apply Forall_forall. intros r Hr. apply (In_nth _ _ []) in Hr. destruct Hr as (i & Hi & <-).
    rewrite set_nth_length in Hi. rewrite nth_set_nth. destruct (Nat.eq_dec (k mod m) i).
    + destruct (Nat.ltb_spec (k mod m) (length (buf m z a k))); [apply Ha; lia|vlia].
    + assert (HF := IH ltac:(intros; apply Ha; lia)). unfold rows_len in HF. rewrite Forall_forall in HF. apply HF, nth_In, Hi.
Qed.

Section Run.
Context {A : Type}.
Variables (solve : mat -> vec -> vec) (f : vec -> vec * A) (cfg : anderson_config) (xs : nat -> vec) (sts : nat -> anderson_state A) (K n : nat).
Let m := an_history_size cfg.
Let F x := fst (f x).
Hypothesis Hm : (0 < m)%nat.
Hypothesis Hrun : anderson_steps solve f cfg xs sts K.
Definition es (k : nat) : vec := extrapolate solve cfg (xs k) (sts k).
Definition res (k : nat) : vec := vsub (F (es k)) (es k).

Lemma run_state k : (k <= K)%nat ->
  an_iter (sts k) = k /\ an_params (sts k) = buf m (xs 0%nat) es k /\
  an_residuals (sts k) = buf m (vzero (length (xs 0%nat))) res k /\ an_gram (sts k) = gram (an_residuals (sts k)) /\
  an_num_fun_eval (sts k) = S k.
Proof.
  induction k as [|k IH]; intros Hk.
  - rewrite (proj1 Hrun). cbn. repeat split. symmetry. apply gram_zero.
  - destruct (IH ltac:(lia)) as (I1 & I2 & I3 & I4 & I5). pose proof (proj2 Hrun k ltac:(lia)) as H. unfold anderson_update in H.
    fold (es k) in H. destruct (f (es k)) as [np aux] eqn:Ef. rewrite I4, I1 in H. fold m in H.
    assert (Hp : (k mod m < length (an_residuals (sts k)))%nat) by (rewrite I3, buf_length; apply Nat.mod_upper_bound; lia).
    rewrite update_history_spec in H by exact Hp. injection H as Hx Hs. rewrite <- Hs. cbn [an_iter an_params an_residuals an_gram an_num_fun_eval buf].
    assert (Er : res k = vsub np (es k)) by (unfold res, F; rewrite Ef; reflexivity).
    rewrite I2, I3, I5, Er. auto.
Qed.
Lemma run_step k : (k < K)%nat ->
  xs (S k) = F (es k) /\ an_error (sts (S k)) = Fin (norm2 (res k)) /\ an_aux (sts (S k)) = snd (f (es k)).
Proof.
  intros Hk. destruct (run_state k ltac:(lia)) as (I1 & I2 & I3 & I4 & I5). pose proof (proj2 Hrun k Hk) as H. unfold anderson_update in H.
  fold (es k) in H. unfold res, F. destruct (f (es k)) as [np aux] eqn:Ef. rewrite I4, I1 in H. fold m in H.
  assert (Hp : (k mod m < length (an_residuals (sts k)))%nat) by (rewrite I3, buf_length; apply Nat.mod_upper_bound; lia).
  rewrite update_history_spec in H by exact Hp. injection H as Hx Hs. rewrite <- Hs, <- Hx. auto.
Qed.
Lemma es_plain k : (k <= K)%nat -> (k < m)%nat \/ (k mod an_mixing_frequency cfg <> 0)%nat -> es k = xs k.
Proof.
  intros Hk H. unfold es, extrapolate. destruct (run_state k Hk) as (-> & _). fold m.
  destruct (Nat.eqb_spec (k mod an_mixing_frequency cfg) 0); [|reflexivity]. destruct (Nat.leb_spec m k); [|reflexivity]. lia.
Qed.
Hypothesis HF : forall x, length x = n -> length (F x) = n.
Hypothesis Hx0 : length (xs 0%nat) = n.
Lemma run_length k : (k <= K)%nat -> length (xs k) = n /\ (forall j, (j < k)%nat -> length (es j) = n /\ length (res j) = n) /\ length (es k) = n.
Proof.
  induction k as [|k IH]; intros Hk.
  - split; [exact Hx0|]. split; [lia|]. unfold es, extrapolate. rewrite (proj1 Hrun). cbn.
    destruct (Nat.leb_spec (an_history_size cfg) 0); [unfold m in Hm; lia|]. rewrite Bool.andb_false_r. exact Hx0.
  - destruct (IH ltac:(lia)) as (L1 & L2 & L3). destruct (run_step k ltac:(lia)) as (E1 & _).
    assert (LS : length (xs (S k)) = n) by (rewrite E1; apply HF; exact L3).
    assert (Hlen : forall j, (j < S k)%nat -> length (es j) = n /\ length (res j) = n).
    { intros j Hj. destruct (Nat.eq_dec j k) as [->|]; [|apply L2; lia]. split; [exact L3|]. unfold res. apply vsub_len; [apply HF|]; exact L3. }
    split; [exact LS|]. split; [exact Hlen|]. unfold es, extrapolate. destruct (run_state (S k) Hk) as (I1 & I2 & I3 & I4 & _).
    destruct (_ && _)%bool; [|exact LS]. unfold anderson_step, tree_average. rewrite LS.
    assert (S1 : mat_shape m n (an_params (sts (S k)))).
    { split; [rewrite I2; apply buf_length|]. rewrite I2. apply buf_rows; [exact Hx0|]. intros j Hj. apply Hlen, Hj. }
    assert (S2 : mat_shape m n (an_residuals (sts (S k)))).
    { split; [rewrite I3; apply buf_length|]. rewrite I3. apply buf_rows; [rewrite vzero_length; exact Hx0|]. intros j Hj. apply Hlen, Hj. }
    apply vadd_smul_length; apply (tvec_length m); assumption.
Qed.
Lemma run_shapes k : (k <= K)%nat -> mat_shape m n (an_params (sts k)) /\ mat_shape m n (an_residuals (sts k)).
Proof.
  intros Hk. destruct (run_length k Hk) as (L1 & L2 & _). destruct (run_state k Hk) as (I1 & I2 & I3 & _).
  split.
  - split; [rewrite I2; apply buf_length|]. rewrite I2. apply buf_rows; [exact Hx0|]. intros j Hj. apply L2, Hj.
  - split; [rewrite I3; apply buf_length|]. rewrite I3. apply buf_rows; [rewrite vzero_length; exact Hx0|]. intros j Hj. apply L2, Hj.
Qed.
Lemma es_mix k : (k <= K)%nat -> (m <= k)%nat -> (k mod an_mixing_frequency cfg = 0)%nat ->
  exact_solver solve -> 0 <= an_ridge cfg ->
  nonsingular (S m) (bordered (an_gram (sts k)) (an_ridge cfg)) ->
  exists w, mixing_weights n (an_ridge cfg) (an_residuals (sts k)) w /\
    es k = vadd (combination n (an_params (sts k)) w) (smul (an_beta cfg) (combination n (an_residuals (sts k)) w)).
Proof.
  intros Hk Hmk Hf Hs Hr Hns. destruct (run_state k Hk) as (I1 & I2 & I3 & I4 & _). destruct (run_length k Hk) as (L1 & _).
  destruct (run_shapes k Hk) as (_ & [S2 S3]). rewrite I4 in Hns.
  exists (tl (minimize_residuals solve (an_gram (sts k)) (an_ridge cfg))). split.
  - rewrite I4. apply weights_correct; auto. rewrite S2. exact Hns.
  - unfold es, extrapolate. rewrite I1. fold m. destruct (Nat.eqb_spec (k mod an_mixing_frequency cfg) 0); [|lia].
    destruct (Nat.leb_spec m k); [|lia]. cbn [andb]. unfold anderson_step, tree_average, combination. rewrite L1. reflexivity.
Qed.
Lemma gram_ns k : (k <= K)%nat -> 0 < an_ridge cfg -> nonsingular (S m) (bordered (an_gram (sts k)) (an_ridge cfg)).
Proof.
  intros Hk Hr. destruct (run_state k Hk) as (_ & _ & _ & -> & _). destruct (run_shapes k Hk) as (_ & [S2 S3]).
  rewrite <- S2. apply (bordered_nonsingular n); [|exact Hr]. rewrite S2. exact Hm.
Qed.
End Run.

Lemma evaluated_es {A} solve (f : vec -> vec * A) cfg xs sts K : (0 < an_history_size cfg)%nat -> anderson_steps solve f cfg xs sts K ->
  forall j, (j < K)%nat -> evaluated cfg sts j = es solve cfg xs sts j.
Proof.
  intros Hm H j Hj. unfold evaluated. destruct (run_state solve f cfg xs sts K Hm H (S j) Hj) as (_ & -> & _).
  apply buf_recent; lia.
Qed.
Lemma buf_pair {A B} m (z1 : A) (z2 : B) a b (g : A -> B) k i d1 d2 : (i < m)%nat -> (i < k)%nat -> (forall j, (j < k)%nat -> b j = g (a j)) ->
  nth i (buf m z2 b k) d2 = g (nth i (buf m z1 a k) d1).
Proof.
  intros Hi. induction k as [|k IH]; intros Hk Hb; [lia|]. cbn [buf]. rewrite !nth_set_nth, !buf_length.
  destruct (Nat.eq_dec (k mod m) i) as [E|E].
  - destruct (Nat.ltb_spec (k mod m) m); [apply Hb; lia|lia].
  - apply IH; [|intros; apply Hb; lia]. destruct (Nat.eq_dec i k) as [->|]; [|lia]. rewrite Nat.mod_small in E by lia. lia.
Qed.
Lemma buf_const {A} m (z : A) a k : (forall j, (j < k)%nat -> a j = z) -> buf m z a k = repeat z m.
Proof.
  induction k as [|k IH]; intros H; [reflexivity|]. cbn [buf]. rewrite IH by (intros; apply H; lia). rewrite (H k) by lia.
  destruct (Nat.lt_ge_cases (k mod m) m) as [C|C].
  - rewrite <- (nth_repeat z m (k mod m)) at 2. apply set_nth_same.
  - apply (nth_ext _ _ z z); [rewrite set_nth_length; reflexivity|]. intros i Hi. rewrite nth_set_nth. rewrite set_nth_length, repeat_length in Hi.
    destruct (Nat.eq_dec (k mod m) i); [lia|reflexivity].
Qed.
Lemma tvec_repeat n (x : vec) m w : length x = n -> length w = m -> tvec n (repeat x m) w = smul (vsum w) x.
Proof.
  intros Hx. revert m. induction w as [|a w IH]; intros m Hw.
  - simpl in Hw. subst m. simpl. rewrite smul_0, Hx. reflexivity.
  - destruct m; [discriminate|]. cbn [repeat tvec vsum]. rewrite IH by (simpl in Hw; lia).
    apply vec_eq_dot; [rewrite vadd_length, !smul_length; lia|]. intros z. vring.
Qed.
Lemma tvec_unit n rs i : rows_len n rs -> (i < length rs)%nat -> tvec n rs (unit_vec (length rs) i) = nth i rs [].
Proof.
  intros H Hi. assert (HS : mat_shape (length rs) n rs) by (split; [reflexivity|exact H]).
  apply vec_eq_dot_len; [rewrite (tvec_length _ _ _ _ HS); symmetry; apply (row_length _ _ _ _ HS Hi)|].
  intros z Hz. rewrite dot_tvec, dot_unit_vec by (rewrite ?mvec_length; auto). apply nth_mvec.
Qed.
Lemma unit_sum m i : (i < m)%nat -> vsum (unit_vec m i) = 1 /\ sqnorm (unit_vec m i) = 1.
Proof.
  intros Hi. split.
  - rewrite vsum_dot, unit_vec_length, dot_comm, dot_unit_vec by (rewrite ?vones_length; auto). unfold vones.
    rewrite (nth_indep _ 0 1) by (rewrite repeat_length; lia). apply nth_repeat.
  - unfold sqnorm. rewrite dot_unit_vec by (rewrite ?unit_vec_length; auto). rewrite nth_unit_vec by exact Hi. destruct (Nat.eq_dec i i); [reflexivity|lia].
Qed.
(** Combined residual against any single one. *)
Lemma mixing_le n ridge rs w i : rows_len n rs -> (i < length rs)%nat -> mixing_weights n ridge rs w ->
  mixing_objective n ridge rs w <= sqnorm (nth i rs []) + ridge.
Proof.
  intros H Hi (_ & _ & Hw). destruct (unit_sum (length rs) i Hi) as [U1 U2].
  specialize (Hw (unit_vec (length rs) i) (unit_vec_length _ _) U1).
  unfold mixing_objective at 2 in Hw. unfold combination in Hw. rewrite tvec_unit in Hw by assumption. rewrite U2 in Hw. lra.
Qed.
(** Affine maps commute with combinations of weight one. *)
Lemma affine_combination n M b xs rs w : mat_shape n n M -> length b = n -> rows_len n xs -> length xs = length rs -> length w = length xs ->
  (forall i, (i < length xs)%nat -> nth i rs [] = vsub (vadd (mvec M (nth i xs [])) b) (nth i xs [])) ->
  tvec n rs w = vsub (vadd (mvec M (tvec n xs w)) (smul (vsum w) b)) (tvec n xs w).
Proof.
  intros HM Hb. revert rs w. induction xs as [|x xs IH]; intros [|r rs] [|a w] Hxs Hl Hw Hr; try discriminate.
  - simpl. rewrite mvec_vzero, (proj1 HM). apply vec_eq_dot; [rewrite vsub_length, vadd_length, smul_length, !vzero_length; lia|]. intros z. vring.
  - assert (Hx : length x = n) by (inversion Hxs; assumption). assert (Hxs' : rows_len n xs) by (inversion Hxs; assumption). cbn [tvec vsum]. simpl in Hl, Hw.
    pose proof (Hr 0%nat ltac:(simpl; lia)) as Hr0. simpl in Hr0.
    assert (Hrow : length rs = length xs) by lia.
    rewrite (IH rs w Hxs') by (try lia; intros i Hi; apply (Hr (S i)); simpl; lia).
    assert (Lt : length (tvec n xs w) = n) by (apply (tvec_length (length xs)); split; [reflexivity|exact Hxs']).
    rewrite Hr0. apply vec_eq_dot.
    + repeat rewrite ?vsub_length, ?vadd_length, ?smul_length, ?mvec_length. rewrite (proj1 HM). unfold vec in *. lia.
    + intros z. rewrite mvec_vadd, mvec_smul. vring.
Qed.

Section WrapperRun.
Context {St : Type}.
Variables (solve : mat -> vec -> vec) (ini : vec -> St) (upd : vec -> St -> vec * St) (err : St -> xnum) (cfg : anderson_config)
  (xs : nat -> vec) (sts : nat -> wrapper_state St) (K : nat).
Let m := an_history_size cfg.
Hypothesis Hm : (0 < m)%nat.
Hypothesis Hrun : wrapper_steps solve ini upd err cfg xs sts K.
Definition wes (k : nat) : vec := fst (wrapper_extrapolate solve ini cfg (xs k) (sts k)).
Definition wss (k : nat) : St := snd (wrapper_extrapolate solve ini cfg (xs k) (sts k)).
Definition wnext (k : nat) : vec := fst (upd (wes k) (wss k)).
Lemma wrapper_state_spec k : (k <= K)%nat ->
  aw_iter (sts k) = k /\ aw_params (sts k) = buf m (xs 0%nat) wes k /\
  aw_residuals (sts k) = buf m (vzero (length (xs 0%nat))) (fun j => vsub (wnext j) (wes j)) k /\
  aw_gram (sts k) = gram (aw_residuals (sts k)) /\ aw_error (sts k) = err (aw_solver_state (sts k)).
Proof.
  induction k as [|k IH]; intros Hk.
  - rewrite (proj1 Hrun). cbn. repeat split. symmetry. apply gram_zero.
  - destruct (IH ltac:(lia)) as (I1 & I2 & I3 & I4 & I5). pose proof (proj2 Hrun k ltac:(lia)) as H. unfold wrapper_update in H.
    assert (Ee : wes k = wes k) by reflexivity. unfold wes at 2 in Ee. assert (Es : wss k = wss k) by reflexivity. unfold wss at 2 in Es.
    assert (En : wnext k = wnext k) by reflexivity. unfold wnext at 2 in En.
    destruct (wrapper_extrapolate solve ini cfg (xs k) (sts k)) as [e ss]. cbn [fst snd] in Ee, Es. rewrite Ee, Es in En.
    destruct (upd e ss) as [np ss']. cbn [fst] in En. rewrite I4, I1 in H. fold m in H.
    assert (Hp : (k mod m < length (aw_residuals (sts k)))%nat) by (rewrite I3, buf_length; apply Nat.mod_upper_bound; lia).
    rewrite update_history_spec in H by exact Hp. injection H as Hx Hs. rewrite <- Hs. cbn [aw_iter aw_params aw_residuals aw_gram aw_error aw_solver_state buf].
    rewrite I2, I3, Ee, En. auto.
Qed.
Lemma wrapper_next k : (k < K)%nat -> xs (S k) = wnext k /\ aw_solver_state (sts (S k)) = snd (upd (wes k) (wss k)).
Proof.
  intros Hk. destruct (wrapper_state_spec k ltac:(lia)) as (I1 & I2 & I3 & I4 & I5). pose proof (proj2 Hrun k Hk) as H. unfold wrapper_update in H.
  unfold wnext, wes, wss. destruct (wrapper_extrapolate solve ini cfg (xs k) (sts k)) as [e ss]. cbn [fst snd].
  destruct (upd e ss) as [np ss']. rewrite I4, I1 in H. fold m in H.
  assert (Hp : (k mod m < length (aw_residuals (sts k)))%nat) by (rewrite I3, buf_length; apply Nat.mod_upper_bound; lia).
  rewrite update_history_spec in H by exact Hp. injection H as Hx Hs. rewrite <- Hs, <- Hx. auto.
Qed.
End WrapperRun.
