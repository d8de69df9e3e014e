From Coq Require Import Reals List Lra Lia Bool Arith.
From Verif Require Import Prelude Vec Mat Proj Prox Loss LossProofs Run ProxGrad ProxGradProofs ProjProofs QuasiNewtonProofs CDQP CDQPProofs Objective ObjectiveProofs ObjectiveTheorems BlockCD.
Import ListNotations.
Open Scope R_scope.

Lemma block_point_finite L x g : L <> 0 -> length x = length g ->
  all_finite (block_point L x g) = Some (vsub x (smul (1 / L) g)).
Proof.
  intros HL. revert g. induction x as [|a x IH]; intros [|b g] Hl; try discriminate; [reflexivity|].
  unfold block_point in *. simpl. unfold xrecip in *. destruct (Req_EM_T L 0); [contradiction|]. simpl. rewrite IH by (simpl in Hl; lia). reflexivity.
Qed.
Lemma fdist_set_nth n k Y X i v : mat_shape n k Y -> mat_shape n k X -> length v = k -> (i < n)%nat ->
  nth i Y [] = nth i X [] ->
  mdot (msub (set_nth Y i v) X) (msub (set_nth Y i v) X) = mdot (msub Y X) (msub Y X) + sqnorm (vsub v (nth i X [])).
Proof.
  revert Y X i. induction n as [|n IH]; intros [|y Y] [|x X] i HY HX Hv Hi E; try lia; try (destruct HX; discriminate); try (destruct HY; discriminate).
  apply shape_cons in HX, HY. destruct HX as [X1 X2], HY as [Y1 Y2]. unfold msub in *. destruct i as [|i]; simpl in *.
  - subst y. rewrite <- !vsub_as_vadd. fold (msub Y X). unfold sqnorm. rewrite (vsub_self x), dot_vzero_l. ring.
  - rewrite IH by (auto; lia). ring.
Qed.
Lemma fdist_self X : mdot (msub X X) (msub X X) = 0.
Proof.
  induction X as [|x X IH]; [reflexivity|]. unfold msub in *. simpl. fold (msmul (-1) X). rewrite IH, <- vsub_as_vadd, vsub_self, dot_vzero_l. ring.
Qed.
Lemma fdist_zero n k Y X : mat_shape n k Y -> mat_shape n k X -> mdot (msub Y X) (msub Y X) = 0 -> Y = X.
Proof.
  revert Y X. induction n as [|n IH]; intros [|y Y] [|x X] HY HX E; try (destruct HX; discriminate); try (destruct HY; discriminate); [reflexivity|].
  apply shape_cons in HX, HY. destruct HX as [X1 X2], HY as [Y1 Y2]. unfold msub in *. simpl in E. fold (msmul (-1) X) in E. fold (msub Y X) in E.
  pose proof (mdot_self_nonneg (msub Y X)). pose proof (dot_self_nonneg (vadd y (smul (-1) x))).
  f_equal; [|apply IH; auto; fold (msub Y X) in *; lra].
  apply dist2_zero; [lia|]. unfold dist2, sqnorm. rewrite vsub_as_vadd. lra.
Qed.
Lemma mat_nth_ext (A B : mat) : length A = length B -> (forall i, (i < length A)%nat -> nth i A [] = nth i B []) -> A = B.
Proof. intros H1 H2. apply (nth_ext A B [] [] H1 H2). Qed.
Lemma nth_set_mat (X : mat) i j v : (i < length X)%nat -> nth j (set_nth X i v) [] = if Nat.eq_dec i j then v else nth j X [].
Proof.
  intros Hi. rewrite nth_set_nth. destruct (Nat.eq_dec i j); [|reflexivity]. destruct (Nat.ltb_spec i (length X)); [reflexivity|].
  exfalso. apply (Nat.lt_irrefl i). eapply Nat.lt_le_trans; [exact Hi|assumption].
Qed.

Section Steps.
Variables (m n k : nat) (f : composite) (block_prox : vec -> R -> vec).
Hypothesis Hsh : bcd_shapes m n k f.
Hypothesis Hpl : forall v s, length v = k -> 0 < s -> length (block_prox v s) = k.
Hypothesis HL : forall i, (i < n)%nat -> 0 < nth i (columnwise f) 0.
Let A := linop f.
Let L i := nth i (columnwise f) 0.

Lemma inv_L_pos i : (i < n)%nat -> 0 < 1 / L i.
Proof. intros Hi. apply Rdiv_lt_0_compat; [lra|apply HL, Hi]. Qed.
(** One block update, without the caches. *)
Definition new_block (X : mat) (i : nat) : vec :=
  block_prox (vsub (nth i X []) (smul (1 / L i) (full_grad_block k f X i))) (1 / L i).
Definition bstep (i : nat) (X : mat) : mat := set_nth X i (new_block X i).
Definition Bk (X : mat) (j : nat) : mat := fori j bstep X.

Lemma full_grad_length X i : mat_shape n k X -> (i < n)%nat -> length (full_grad_block k f X i) = k.
Proof.
  intros HX Hi. destruct Hsh as (H1 & H2 & H3 & H4). unfold full_grad_block, lo_rmatvec_element, lo_matvec.
  assert (HG : mat_shape m k (grad_subfun f (mmul k (linop f) X))) by (apply H2, (mmul_shape m k n); assumption).
  pose proof (tvec_length m k _ (col i (linop f)) HG) as Ht.
  destruct (linear_term f) as [b|]; [|exact Ht]. rewrite vadd_length, Ht, (nth_shape n k b i (H3 b eq_refl) Hi). lia.
Qed.
Lemma new_block_length X i : mat_shape n k X -> (i < n)%nat -> length (new_block X i) = k.
Proof.
  intros HX Hi. apply Hpl; [|apply inv_L_pos, Hi]. rewrite vsub_length, smul_length, full_grad_length, (nth_shape n k X i HX Hi) by assumption. lia.
Qed.
Lemma bstep_shape X i : mat_shape n k X -> (i < n)%nat -> mat_shape n k (bstep i X).
Proof. intros HX Hi. apply set_nth_shape; [exact HX|apply new_block_length; assumption]. Qed.
Lemma Bk_shape X j : mat_shape n k X -> (j <= n)%nat -> mat_shape n k (Bk X j).
Proof. intros HX Hj. induction j as [|j IH]; [exact HX|]. apply bstep_shape; [apply IH; lia|lia]. Qed.
Lemma nth_Bk_S X j i : mat_shape n k X -> (j < n)%nat ->
  nth i (Bk X (S j)) [] = if Nat.eq_dec j i then new_block (Bk X j) j else nth i (Bk X j) [].
Proof.
  intros HX Hj. change (Bk X (S j)) with (bstep j (Bk X j)). unfold bstep. apply nth_set_mat.
  rewrite (shape_length n k _ (Bk_shape X j HX ltac:(lia))). exact Hj.
Qed.
Lemma nth_Bk_untouched X j i : mat_shape n k X -> (j <= n)%nat -> (j <= i)%nat -> nth i (Bk X j) [] = nth i X [].
Proof.
  intros HX. induction j as [|j IH]; intros Hj Hi; [reflexivity|]. rewrite nth_Bk_S by (auto; lia).
  destruct (Nat.eq_dec j i); [lia|]. apply IH; lia.
Qed.
Lemma nth_Bk_final X j i : mat_shape n k X -> (i < j <= n)%nat -> nth i (Bk X j) [] = new_block (Bk X i) i.
Proof.
  intros HX. induction j as [|j IH]; intros [H1 H2]; [lia|]. rewrite nth_Bk_S by (auto; lia).
  destruct (Nat.eq_dec j i) as [->|]; [reflexivity|]. apply IH; lia.
Qed.

(** The loop keeps the caches exact. *)
Lemma fori_body X j : mat_shape n k X -> (j <= n)%nat ->
  let P := lo_matvec k A in
  fori j (bcd_body k f block_prox) (Some (X, grad_subfun f (P X), P X, 0)) =
  Some (Bk X j, grad_subfun f (P (Bk X j)), P (Bk X j), mdot (msub (Bk X j) X) (msub (Bk X j) X)).
Proof.
  intros HX Hj P. induction j as [|j IH]; [simpl; rewrite fdist_self; reflexivity|].
  cbn [fori]. rewrite (IH ltac:(lia)). clear IH. pose proof (Bk_shape X j HX ltac:(lia)) as HB.
  assert (Hji : (j < n)%nat) by lia.
  unfold bcd_body. fold (full_grad_block k f (Bk X j) j).
  assert (Eg : (match linear_term f with
     | Some b => vadd (lo_rmatvec_element k (linop f) (grad_subfun f (P (Bk X j))) j) (nth j b [])
     | None => lo_rmatvec_element k (linop f) (grad_subfun f (P (Bk X j))) j end) = full_grad_block k f (Bk X j) j) by reflexivity.
  rewrite Eg. rewrite block_point_finite.
  2:{ pose proof (HL j Hji). lra. }
  2:{ rewrite full_grad_length by assumption. apply (nth_shape n k); assumption. }
  change (block_prox (vsub (nth j (Bk X j) []) (smul (1 / nth j (columnwise f) 0) (full_grad_block k f (Bk X j) j))) (1 / nth j (columnwise f) 0))
    with (new_block (Bk X j) j).
  assert (EP : lo_update_matvec (linop f) (P (Bk X j)) (vsub (new_block (Bk X j) j) (nth j (Bk X j) [])) j = P (Bk X (S j))).
  { unfold P, lo_update_matvec, lo_matvec, A. change (Bk X (S j)) with (bstep j (Bk X j)). unfold bstep.
    symmetry. apply (mmul_set_nth m n k); [apply Hsh|exact HB|apply new_block_length; assumption|exact Hji]. }
  rewrite EP. change (set_nth (Bk X j) j (new_block (Bk X j) j)) with (Bk X (S j)).
  do 2 f_equal. change (Bk X (S j)) with (set_nth (Bk X j) j (new_block (Bk X j) j)).
  rewrite (fdist_set_nth n k (Bk X j) X j _ HB HX (new_block_length _ j HB Hji) Hji (nth_Bk_untouched X j j HX ltac:(lia) (le_n j))).
  rewrite (nth_Bk_untouched X j j) by (auto; lia). reflexivity.
Qed.
Definition consistent (X : mat) (st : bcd_state) : Prop :=
  predictions st = lo_matvec k A X /\ bcd_subfun_g st = grad_subfun f (lo_matvec k A X).
Lemma update_consistent X st : mat_shape n k X -> consistent X st ->
  bcd_update k f block_prox (Some (X, st)) = Some (Bk X n,
    {| bcd_iter := S (bcd_iter st); predictions := lo_matvec k A (Bk X n);
       bcd_subfun_g := grad_subfun f (lo_matvec k A (Bk X n));
       bcd_error := Fin (sqrt (mdot (msub (Bk X n) X) (msub (Bk X n) X))) |}).
Proof.
  intros HX [E1 E2]. unfold bcd_update. rewrite E1, E2, (shape_length n k X HX).
  pose proof (fori_body X n HX (le_n n)) as H. cbv zeta in H. rewrite H. reflexivity.
Qed.

(** Descent *)
Variables (D : vec -> Prop) (r : vec -> R).
Hypothesis Hconv : convex_on k D r.
Hypothesis Hprox : prox_spec k D r block_prox.
Hypothesis Hvalid : columnwise_valid n k f (columnwise f).
Notation F := (bcd_objective k f r).
Lemma new_block_dom X i : mat_shape n k X -> (i < n)%nat -> D (new_block X i).
Proof.
  intros HX Hi. apply Hprox; [|apply inv_L_pos, Hi]. unfold in_dim.
  rewrite vsub_length, smul_length, full_grad_length, (nth_shape n k X i HX Hi) by assumption. lia.
Qed.
(** The subgradient inequality of the block step *)
Lemma new_block_subgrad X i z : mat_shape n k X -> (i < n)%nat -> D z ->
  let p := new_block X i in
  r p + L i * dot (vsub (nth i X []) p) (vsub z p) - dot (full_grad_block k f X i) (vsub z p) <= r z.
Proof.
  intros HX Hi Hz p.
  pose proof (prox_subgrad k D r block_prox Hconv Hprox (vsub (nth i X []) (smul (1 / L i) (full_grad_block k f X i))) (1 / L i) z) as H.
  fold p in H. unfold new_block in p. fold p in H. pose proof (HL i Hi) as HLi. fold (L i) in HLi.
  assert (Hin : in_dim k (vsub (nth i X []) (smul (1 / L i) (full_grad_block k f X i)))).
  { unfold in_dim. rewrite vsub_length, smul_length, full_grad_length, (nth_shape n k X i HX Hi) by assumption. lia. }
  specialize (H Hin (inv_L_pos i Hi) Hz).
  assert (E : dot (vsub (vsub (nth i X []) (smul (1 / L i) (full_grad_block k f X i))) p) (vsub z p) / (1 / L i) =
     L i * dot (vsub (nth i X []) p) (vsub z p) - dot (full_grad_block k f X i) (vsub z p)).
  { autorewrite with vec. field. lra. }
  rewrite E in H. lra.
Qed.
Lemma vsum_set_r X i v : (i < length X)%nat -> vsum (map r (set_nth X i v)) = vsum (map r X) + r v - r (nth i X []).
Proof.
  intros Hi. rewrite map_set_nth, vsum_set_nth by (rewrite map_length; exact Hi).
  rewrite (nth_map_lt r X i [] 0) by exact Hi. ring.
Qed.
Lemma bstep_descent X i : mat_shape n k X -> (i < n)%nat -> D (nth i X []) ->
  F (bstep i X) + L i / 2 * sqnorm (vsub (new_block X i) (nth i X [])) <= F X.
Proof.
  intros HX Hi HD. set (p := new_block X i). set (xi := nth i X []).
  pose proof (new_block_length X i HX Hi) as Hp. fold p in Hp.
  pose proof (nth_shape n k X i HX Hi) as Hxi. fold xi in Hxi.
  pose proof (Hvalid X i (vsub p xi) HX Hi (vsub_len k p xi Hp Hxi)) as Hva. fold xi in Hva.
  assert (Ep : vadd xi (vsub p xi) = p) by (apply vec_eq_dot; [rewrite vadd_length, vsub_length; lia|intros w; autorewrite with vec; ring]).
  rewrite Ep in Hva. pose proof (new_block_subgrad X i xi HX Hi HD) as Hs. cbv zeta in Hs. fold p xi in Hs.
  unfold bcd_objective, bstep. fold p.
  assert (EV : vsum (map r (set_nth X i p)) = vsum (map r X) + r p - r xi).
  { apply vsum_set_r. rewrite (shape_length n k X HX). exact Hi. }
  rewrite EV. fold (L i) in Hva. unfold sqnorm in *.
  assert (E1 : dot (vsub xi p) (vsub xi p) = dot (vsub p xi) (vsub p xi)) by (autorewrite with vec; ring).
  assert (E2 : dot (full_grad_block k f X i) (vsub xi p) = - dot (full_grad_block k f X i) (vsub p xi)) by (autorewrite with vec; ring).
  rewrite E1, E2 in Hs. lra.
Qed.
Lemma blocks_nth X i : blocks_in D X -> (i < length X)%nat -> D (nth i X []).
Proof. intros H Hi. unfold blocks_in in H. rewrite Forall_forall in H. apply H, nth_In, Hi. Qed.
Lemma epoch_dom X : mat_shape n k X -> blocks_in D (Bk X n).
Proof.
  intros HX. unfold blocks_in. apply Forall_forall. intros v Hv. destruct (In_nth _ v [] Hv) as (i & Hi & <-).
  pose proof (shape_length n k _ (Bk_shape X n HX (le_n n))) as E.
  assert (Hin : (i < n)%nat) by (rewrite <- E; exact Hi).
  rewrite (nth_Bk_final X n i HX) by lia. apply new_block_dom; [apply Bk_shape; auto; lia|exact Hin].
Qed.
Lemma epoch_descent_b X h j : mat_shape n k X -> blocks_in D X -> (j <= n)%nat ->
  (forall i, (i < n)%nat -> h <= L i) ->
  F (Bk X j) + h / 2 * mdot (msub (Bk X j) X) (msub (Bk X j) X) <= F X.
Proof.
  intros HX HD Hj Hh. induction j as [|j IH].
  - change (Bk X 0) with X. rewrite fdist_self. lra.
  - specialize (IH ltac:(lia)). assert (Hjn : (j < n)%nat) by lia.
    pose proof (Bk_shape X j HX ltac:(lia)) as HB.
    assert (Ej : nth j (Bk X j) [] = nth j X []) by (apply nth_Bk_untouched; auto; lia).
    pose proof (bstep_descent (Bk X j) j HB Hjn) as Hd. rewrite Ej in Hd.
    specialize (Hd (blocks_nth X j HD ltac:(rewrite (shape_length n k X HX); exact Hjn))).
    change (Bk X (S j)) with (bstep j (Bk X j)). unfold bstep at 2 3.
    rewrite (fdist_set_nth n k (Bk X j) X j) by (auto; apply new_block_length; assumption).
    specialize (Hh j Hjn). pose proof (dot_self_nonneg (vsub (new_block (Bk X j) j) (nth j X []))) as Hq. fold (sqnorm (vsub (new_block (Bk X j) j) (nth j X []))) in Hq.
    set (q := sqnorm _) in *. assert (h / 2 * q <= L j / 2 * q) by (apply Rmult_le_compat_r; lra). lra.
Qed.

(** Stationarity: every block satisfies the optimality condition with the full gradient. *)
Definition stationary (X : mat) : Prop := blocks_in D X /\
  forall i z, (i < n)%nat -> D z -> r (nth i X []) - dot (full_grad_block k f X i) (vsub z (nth i X [])) <= r z.
Lemma fixed_stationary X : mat_shape n k X -> (forall i, (i < n)%nat -> new_block X i = nth i X []) -> stationary X.
Proof.
  intros HX Hfix. split.
  - apply Forall_forall. intros v Hv. destruct (In_nth _ v [] Hv) as (i & Hi & <-). 
    assert (Hin : (i < n)%nat) by (rewrite <- (shape_length n k X HX); exact Hi).
    rewrite <- (Hfix i Hin). apply new_block_dom; assumption.
  - intros i z Hi Hz. pose proof (new_block_subgrad X i z HX Hi Hz) as H. cbv zeta in H. rewrite (Hfix i Hi) in H.
    rewrite vsub_self, dot_vzero_l in H. lra.
Qed.
Lemma prox_at_one X i : mat_shape n k X -> (i < n)%nat ->
  let p := block_prox (vsub (nth i X []) (full_grad_block k f X i)) 1 in
  D p /\ length p = k /\ forall z, D z -> r p + dot (vsub (nth i X []) p) (vsub z p) - dot (full_grad_block k f X i) (vsub z p) <= r z.
Proof.
  intros HX Hi p.
  assert (Hin : in_dim k (vsub (nth i X []) (full_grad_block k f X i))).
  { unfold in_dim. rewrite vsub_length, full_grad_length, (nth_shape n k X i HX Hi) by assumption. lia. }
  split; [apply Hprox; [exact Hin|lra]|]. split; [apply Hpl; [exact Hin|lra]|].
  intros z Hz. pose proof (prox_subgrad k D r block_prox Hconv Hprox _ 1 z Hin ltac:(lra) Hz) as H. fold p in H.
  assert (E : dot (vsub (vsub (nth i X []) (full_grad_block k f X i)) p) (vsub z p) / 1 =
     dot (vsub (nth i X []) p) (vsub z p) - dot (full_grad_block k f X i) (vsub z p)) by (autorewrite with vec; field).
  rewrite E in H. lra.
Qed.
Lemma opt_nth X i : mat_shape n k X -> (i < n)%nat ->
  nth i (bcd_fixed_point_fun k f block_prox X) [] = block_prox (vsub (nth i X []) (full_grad_block k f X i)) 1.
Proof.
  intros HX Hi. unfold bcd_fixed_point_fun. rewrite (shape_length n k X HX). rewrite nth_map_seq by exact Hi. reflexivity.
Qed.
Lemma opt_zero X : mat_shape n k X ->
  (bcd_fixed_point_fun k f block_prox X = X <-> stationary X).
Proof.
  intros HX. split.
  - intros E. assert (Hfix : forall i, (i < n)%nat -> block_prox (vsub (nth i X []) (full_grad_block k f X i)) 1 = nth i X []).
    { intros i Hi. rewrite <- opt_nth by assumption. rewrite E. reflexivity. }
    split.
    + apply Forall_forall. intros v Hv. destruct (In_nth _ v [] Hv) as (i & Hi & <-).
      assert (Hin : (i < n)%nat) by (rewrite <- (shape_length n k X HX); exact Hi).
      rewrite <- (Hfix i Hin). apply (prox_at_one X i HX Hin).
    + intros i z Hi Hz. destruct (prox_at_one X i HX Hi) as (_ & _ & H). specialize (H z Hz). rewrite (Hfix i Hi) in H.
      rewrite vsub_self, dot_vzero_l in H. lra.
  - intros [HB HS].
    assert (Hlen : length (bcd_fixed_point_fun k f block_prox X) = length X) by (unfold bcd_fixed_point_fun; rewrite map_length, seq_length; reflexivity).
    apply mat_nth_ext; [exact Hlen|]. intros i Hi. rewrite Hlen in Hi.
    assert (Hin : (i < n)%nat) by (rewrite <- (shape_length n k X HX); exact Hi). rewrite opt_nth by assumption.
    destruct (prox_at_one X i HX Hin) as (HDp & Hp & H). set (p := block_prox _ 1) in *. set (xi := nth i X []) in *.
    assert (HDx : D xi) by (apply blocks_nth; assumption).
    specialize (H xi HDx). specialize (HS i p Hin HDp). fold xi in HS.
    pose proof (nth_shape n k X i HX Hin) as Hxi. fold xi in Hxi.
    apply dist2_zero; [lia|]. unfold dist2, sqnorm.
    assert (E1 : dot (vsub p xi) (vsub p xi) = dot (vsub xi p) (vsub xi p)) by (autorewrite with vec; ring).
    assert (E2 : dot (full_grad_block k f X i) (vsub xi p) = - dot (full_grad_block k f X i) (vsub p xi)) by (autorewrite with vec; ring).
    pose proof (dot_self_nonneg (vsub p xi)). lra.
Qed.
End Steps.

(** ** Global optimality *)
Lemma mdot_seq n A B : length A = n -> length B = n ->
  mdot A B = vsum (map (fun i => dot (nth i A []) (nth i B [])) (seq 0 n)).
Proof.
  revert A B. induction n as [|n IH]; intros [|a A] [|b B] HA HB; try discriminate; [reflexivity|].
  simpl. rewrite <- seq_shift, map_map. simpl. rewrite (IH A B) by (simpl in *; lia). reflexivity.
Qed.
Lemma vsum_map_plus {T} (g h : T -> R) l : vsum (map (fun i => g i + h i) l) = vsum (map g l) + vsum (map h l).
Proof. induction l as [|a l IH]; simpl; [ring|]. rewrite IH. ring. Qed.
Lemma vsum_map_le {T} (g h : T -> R) l : (forall i, In i l -> g i <= h i) -> vsum (map g l) <= vsum (map h l).
Proof.
  induction l as [|a l IH]; intros H; simpl; [lra|]. pose proof (H a (or_introl eq_refl)).
  specialize (IH (fun i Hi => H i (or_intror Hi))). lra.
Qed.
Lemma vsum_map_eq {T} (g h : T -> R) l : (forall i, In i l -> g i = h i) -> vsum (map g l) = vsum (map h l).
Proof. intros H. f_equal. apply map_ext_in. exact H. Qed.
Lemma dot_seq n a v : length a = n -> length v = n -> dot a v = vsum (map (fun i => nth i a 0 * nth i v 0) (seq 0 n)).
Proof.
  revert a v. induction n as [|n IH]; intros [|b a] [|w v] Ha Hv; try discriminate; [reflexivity|].
  simpl. rewrite <- seq_shift, map_map. simpl. rewrite (IH a v) by (simpl in *; lia). reflexivity.
Qed.
Lemma mdot_mmul m n k A G Z : mat_shape m n A -> length G = m -> mat_shape n k Z ->
  mdot G (mmul k A Z) = vsum (map (fun i => dot (tvec k G (col i A)) (nth i Z [])) (seq 0 n)).
Proof.
  revert A G. induction m as [|m IH]; intros [|a A] [|g G] HA HG HZ; try discriminate; try (destruct HA; discriminate).
  - simpl. symmetry. transitivity (vsum (map (fun _ : nat => 0) (seq 0 n))).
    + apply vsum_map_eq. intros i _. apply dot_vzero_l.
    + induction (seq 0 n) as [|x l IHl]; simpl; [reflexivity|]. rewrite IHl. ring.
  - apply shape_cons in HA. destruct HA as [Ha HA]. simpl. fold (mmul k A Z). rewrite (IH A G HA ltac:(simpl in HG; lia) HZ).
    rewrite (dot_tvec_r k). rewrite (dot_comm (mvec Z g)). rewrite (dot_seq n) by (auto; rewrite mvec_length; apply HZ).
    rewrite <- vsum_map_plus. apply vsum_map_eq. intros i Hi. rewrite dot_vadd_l, dot_smul_l, nth_mvec, (dot_comm g). reflexivity.
Qed.
Lemma vsum_map_nth (r : vec -> R) n X : length X = n -> vsum (map r X) = vsum (map (fun i => r (nth i X [])) (seq 0 n)).
Proof.
  revert X. induction n as [|n IH]; intros [|x X] H; try discriminate; [reflexivity|]. simpl.
  rewrite <- seq_shift, map_map. simpl. rewrite (IH X) by (simpl in H; lia). reflexivity.
Qed.
Lemma comp_convex m n k f X Z : bcd_shapes m n k f -> mconvex m k (subfun f) (grad_subfun f) ->
  mat_shape n k X -> mat_shape n k Z ->
  comp_call k f X + vsum (map (fun i => dot (full_grad_block k f X i) (vsub (nth i Z []) (nth i X []))) (seq 0 n)) <= comp_call k f Z.
Proof.
  intros (H1 & H2 & H3 & H4) Hc HX HZ. unfold comp_call, lo_matvec.
  assert (PX : mat_shape m k (mmul k (linop f) X)) by (apply (mmul_shape m k n); assumption).
  assert (PZ : mat_shape m k (mmul k (linop f) Z)) by (apply (mmul_shape m k n); assumption).
  specialize (Hc _ _ PX PZ). rewrite mdot_msub_r in Hc by (rewrite (shape_length m k _ PX), (shape_length m k _ PZ); reflexivity).
  assert (HG : length (grad_subfun f (mmul k (linop f) X)) = m) by apply (H2 _ PX).
  rewrite !(mdot_mmul m n k) in Hc by assumption.
  set (G := grad_subfun f (mmul k (linop f) X)) in *. unfold full_grad_block, lo_rmatvec_element, lo_matvec. fold G.
  assert (E : forall h1 h2 : nat -> R, vsum (map h1 (seq 0 n)) - vsum (map h2 (seq 0 n)) = vsum (map (fun i => h1 i + - h2 i) (seq 0 n))).
  { intros h1 h2. rewrite vsum_map_plus. generalize (seq 0 n). intros l.
    assert (En : vsum (map (fun i => - h2 i) l) = - vsum (map h2 l)) by (induction l as [|a l IH]; simpl; [ring|rewrite IH; ring]). rewrite En. ring. }
  rewrite E in Hc. destruct (linear_term f) as [b|] eqn:Eb.
  - pose proof (H3 b eq_refl) as Hb.
    rewrite (mdot_seq n X b), (mdot_seq n Z b) by (eapply shape_length; eassumption).
    assert (Ed : vsum (map (fun i => dot (vadd (tvec k G (col i (linop f))) (nth i b [])) (vsub (nth i Z []) (nth i X []))) (seq 0 n)) =
      vsum (map (fun i => dot (tvec k G (col i (linop f))) (nth i Z []) + - dot (tvec k G (col i (linop f))) (nth i X [])) (seq 0 n)) +
      (vsum (map (fun i => dot (nth i Z []) (nth i b [])) (seq 0 n)) - vsum (map (fun i => dot (nth i X []) (nth i b [])) (seq 0 n)))).
    { rewrite E, <- vsum_map_plus. apply vsum_map_eq. intros i _. rewrite (dot_comm (nth i Z []) (nth i b [])), (dot_comm (nth i X []) (nth i b [])).
      rewrite dot_vadd_l, !dot_vsub_r. ring. }
    rewrite Ed. lra.
  - assert (Ed : vsum (map (fun i => dot (tvec k G (col i (linop f))) (vsub (nth i Z []) (nth i X []))) (seq 0 n)) =
      vsum (map (fun i => dot (tvec k G (col i (linop f))) (nth i Z []) + - dot (tvec k G (col i (linop f))) (nth i X [])) (seq 0 n))).
    { apply vsum_map_eq. intros i _. rewrite dot_vsub_r. ring. }
    rewrite Ed. lra.
Qed.
Lemma stationary_minimiser m n k f D r X : bcd_shapes m n k f -> mconvex m k (subfun f) (grad_subfun f) ->
  mat_shape n k X -> stationary n k f D r X -> bcd_minimiser n k f D r X.
Proof.
  intros Hsh Hc HX [HB HS]. split; [exact HX|]. split; [exact HB|]. intros Z HZ HBZ.
  pose proof (comp_convex m n k f X Z Hsh Hc HX HZ) as H. unfold bcd_objective.
  rewrite (vsum_map_nth r n X (shape_length n k X HX)), (vsum_map_nth r n Z (shape_length n k Z HZ)).
  assert (Hs : vsum (map (fun i => r (nth i X [])) (seq 0 n)) <=
     vsum (map (fun i => r (nth i Z []) + dot (full_grad_block k f X i) (vsub (nth i Z []) (nth i X []))) (seq 0 n))).
  { apply vsum_map_le. intros i Hi. apply in_seq in Hi. specialize (HS i (nth i Z []) ltac:(lia)).
    specialize (HS (blocks_nth D Z i HBZ ltac:(rewrite (shape_length n k Z HZ); lia))). lra. }
  rewrite vsum_map_plus in Hs. lra.
Qed.
