(** C37: OSQP and BoxOSQP solve the same problem; C09: projection_polyhedron. *)
From Coq Require Import Reals List ZArith Lra Lia Bool Arith.
From Verif Require Import Prelude Vec Mat XArith Loop Run Osqp OsqpProofs OsqpConverge OsqpTheorems OsqpInfeasTheorems OsqpConvert.
Import ListNotations.
Open Scope R_scope.

(** ** The box of a converted problem *)
Lemma normal_nil : normal_to_box [] [] [] []. Proof. split; [reflexivity|]. intros [|] [L _]; [simpl; lra|discriminate]. Qed.
Lemma normal_cons a b l u y0 y z0 z : length u = length l -> lower_ok a z0 -> upper_ok b z0 -> in_box l u z ->
  (normal_to_box (a :: l) (b :: u) (y0 :: y) (z0 :: z) <-> (forall v, lower_ok a v -> upper_ok b v -> y0 * (v - z0) <= 0) /\ normal_to_box l u y z).
Proof.
  intros LU Ha Hb Hz. assert (Hz' := proj1 (in_box_inb l u z LU) Hz). assert (LU' : length (b :: u) = length (a :: l)) by (simpl; congruence).
  assert (IC : forall v w, in_box (a :: l) (b :: u) (v :: w) <-> lower_ok a v /\ upper_ok b v /\ in_box l u w) by (intros v w; rewrite (in_box_inb _ _ _ LU'), (in_box_inb _ _ _ LU); reflexivity).
  split.
  - intros [L H]. simpl in L. split.
    + intros v H1 H2. assert (K := H (v :: z) (proj2 (IC v z) (conj H1 (conj H2 Hz)))). cbn [vsub dot] in K. rewrite vsub_self, dot_vzero_r in K. lra.
    + split; [congruence|]. intros w Hw. assert (K := H (z0 :: w) (proj2 (IC z0 w) (conj Ha (conj Hb Hw)))). cbn [vsub dot] in K. replace (z0 - z0) with 0 in K by ring. lra.
  - intros [H1 [L H2]]. split; [simpl; congruence|]. intros [|v w] Hw; [destruct Hw; discriminate|]. apply IC in Hw. destruct Hw as (V1 & V2 & V3). cbn [vsub dot]. specialize (H1 v V1 V2). specialize (H2 w V3). lra.
Qed.
Notation ninfs h := (map (fun _ : R => NInf) h).
Lemma ninf1 : xmul NInf (Fin 1) = NInf.
Proof. simpl. unfold xinf_times. destruct (Rlt_dec 0 1); [reflexivity|lra]. Qed.
Lemma ineq_box h z : in_box (ninfs h) (fin h) z <-> length z = length h /\ forall i, (i < length h)%nat -> nth i z 0 <= nth i h 0.
Proof.
  rewrite in_box_inb by (rewrite fin_length, map_length; reflexivity). revert z. induction h as [|a h IH]; intros [|t z].
  - split; [intros _; split; [reflexivity|simpl; lia]|intros _; exact I].
  - split; [intros []|intros [L _]; discriminate].
  - split; [intros []|intros [L _]; discriminate].
  - cbn [map fin inb]. fold (fin h). rewrite (IH z). split.
    + intros (_ & H1 & L & H2). split; [simpl; congruence|]. intros [|i] Hi; [exact H1|]. apply H2. simpl in Hi. lia.
    + intros [L H]. split; [exact I|]. split; [exact (H 0%nat ltac:(simpl; lia))|]. split; [simpl in L; congruence|]. intros i Hi. exact (H (S i) ltac:(simpl; lia)).
Qed.
Lemma ineq_normal h : forall y z, length y = length h -> in_box (ninfs h) (fin h) z ->
  (normal_to_box (ninfs h) (fin h) y z <-> forall i, (i < length h)%nat -> 0 <= nth i y 0 /\ nth i y 0 * (nth i h 0 - nth i z 0) = 0).
Proof.
  induction h as [|a h IH]; intros y z Ly Hz.
  - destruct y; [|discriminate]. destruct z; [|destruct Hz; discriminate]. split; [intros _ i Hi; simpl in Hi; lia|intros _; apply normal_nil].
  - destruct y as [|y0 y]; [discriminate|]. destruct z as [|z0 z]; [destruct Hz; discriminate|]. injection Ly as Ly.
    assert (LU : length (fin h) = length (ninfs h)) by (rewrite fin_length, map_length; reflexivity).
    assert (Hz' : in_box (ninfs h) (fin h) z /\ z0 <= a).
    { apply ineq_box in Hz. destruct Hz as [L H]. split; [apply ineq_box; split; [simpl in L; congruence|]; intros i Hi; exact (H (S i) ltac:(simpl; lia))|exact (H 0%nat ltac:(simpl; lia))]. }
    destruct Hz' as [Hz1 Hz2]. cbn [map fin]. fold (fin h). rewrite (normal_cons NInf (Fin a) _ _ y0 y z0 z LU I Hz2 Hz1), (IH y z Ly Hz1). split.
    + intros [H1 H2] [|i] Hi; cbn [nth]; [|apply H2; simpl in Hi; lia].
      assert (K1 := H1 (z0 - 1) I ltac:(simpl; lra)). assert (K2 := H1 a I ltac:(simpl; lra)). assert (0 <= y0) by lra. assert (0 <= y0 * (a - z0)) by (apply Rmult_le_pos; lra). lra.
    + intros H. split; [|intros i Hi; exact (H (S i) ltac:(simpl; lia))]. destruct (H 0%nat ltac:(simpl; lia)) as [K1 K2]. cbn [nth] in K1, K2. intros v _ Hv. simpl in Hv.
      assert (y0 * (v - a) <= 0) by nra. lra.
Qed.
Lemma app_box b h z1 z2 : length z1 = length b -> (in_box (fin b ++ ninfs h) (fin b ++ fin h) (z1 ++ z2) <-> z1 = b /\ in_box (ninfs h) (fin h) z2).
Proof.
  intros L. rewrite in_box_inb by (rewrite !app_length, !fin_length, map_length; reflexivity). revert z1 L. induction b as [|a b IH]; intros [|t z1] L; try discriminate.
  - simpl app. rewrite <- in_box_inb by (rewrite fin_length, map_length; reflexivity). tauto.
  - injection L as L. cbn [fin map app inb]. fold (fin b). rewrite (IH z1 L). simpl. split.
    + intros (H1 & H2 & H3 & H4). split; [f_equal; [lra|exact H3]|exact H4].
    + intros [E H]. injection E as -> ->. split; [lra|]. split; [lra|]. split; [reflexivity|exact H].
Qed.
Lemma app_normal b h : forall y1 y2 z2, length y1 = length b -> in_box (ninfs h) (fin h) z2 ->
  (normal_to_box (fin b ++ ninfs h) (fin b ++ fin h) (y1 ++ y2) (b ++ z2) <-> normal_to_box (ninfs h) (fin h) y2 z2).
Proof.
  induction b as [|a b IH]; intros [|t y1] y2 z2 L Hz; try discriminate; [simpl app; reflexivity|]. injection L as L. cbn [fin map app]. fold (fin b).
  rewrite (normal_cons (Fin a) (Fin a)); [|rewrite !app_length, !fin_length, map_length; reflexivity|simpl; lra|simpl; lra|apply app_box; [reflexivity|split; [reflexivity|exact Hz]]].
  rewrite (IH y1 y2 z2 L Hz). split; [tauto|]. intros H. split; [|exact H]. intros v H1 H2. simpl in H1, H2. replace (v - a) with 0 by lra. lra.
Qed.
Lemma mvec_app A G x : mvec (A ++ G) x = mvec A x ++ mvec G x. Proof. apply map_app. Qed.
Lemma tvec_app m k n A G y1 y2 : mat_shape m n A -> mat_shape k n G -> length y1 = m -> length y2 = k -> tvec n (A ++ G) (y1 ++ y2) = vadd (tvec n A y1) (tvec n G y2).
Proof.
  intros HA HG L1 L2. assert (HB : mat_shape (m + k) n (A ++ G)) by (split; [rewrite app_length, (proj1 HA), (proj1 HG); reflexivity|apply Forall_app; split; [apply HA|apply HG]]).
  apply vec_eq_dot; [rewrite vadd_length, (tvec_length (m + k)), (tvec_length m), (tvec_length k) by assumption; lia|]. intros w.
  rewrite dot_vadd_l, !dot_tvec, mvec_app, dot_app; [reflexivity|]. rewrite mvec_length, (proj1 HA). exact L1.
Qed.

Lemma nth_ninfs h i : nth i (ninfs h) NInf = NInf. Proof. revert i. induction h as [|a h IH]; intros [|i]; try reflexivity. apply IH. Qed.
(** ** C37 *)
Section Convert.
Variables (n : nat) (Q : mat) (c : vec) (eq ineq : block).
Hypothesis HP : osqp_problem n Q c eq ineq.
Let form := {| f_A := rows eq ++ rows ineq; f_l := fin (rhs eq) ++ ninfs (rhs ineq); f_u := fin (rhs eq) ++ fin (rhs ineq) |}.
Let m := length (rhs eq).
Let k := length (rhs ineq).
Lemma transform_ok params bp f sz : transform params eq ineq = Ok (bp, f, sz) -> f = form /\
  sz = (match eq with Some _ => Some (Z.of_nat m) | None => None end, match ineq with Some _ => Some (- Z.of_nat k)%Z | None => None end).
Proof.
  unfold form, m, k. destruct eq as [[A b]|], ineq as [[G h]|]; cbn [transform rows rhs]; rewrite ?ninf1; intros H; try discriminate;
    (destruct params as [p|]; [destruct (q_dual_eq p); destruct (q_dual_ineq p)|]; try discriminate; injection H as _ <- <-; split; reflexivity).
Qed.
Lemma form_problem : qp_problem (m + k) n Q c (f_A form) (f_l form) (f_u form).
Proof.
  destruct (op_eq _ _ _ _ _ HP) as [E1 E2]. destruct (op_ineq _ _ _ _ _ HP) as [I1 I2]. constructor; try apply HP.
  - split; [cbn [form f_A]; rewrite app_length, (proj1 E1), (proj1 I1); reflexivity|apply Forall_app; split; [apply E1|apply I1]].
  - cbn [form f_l]. rewrite app_length, fin_length, map_length. reflexivity.
  - cbn [form f_u]. rewrite app_length, !fin_length. reflexivity.
  - split; [apply HP|]. destruct (op_some _ _ _ _ _ HP) as [S|S]; [specialize (E2 S)|specialize (I2 S)]; unfold m, k; lia.
  - intros i Hi. cbn [form f_l f_u]. assert (D : (i < m \/ m <= i)%nat) by lia. destruct D as [D|D].
    + rewrite !app_nth1 by (rewrite fin_length; exact D). rewrite (nth_indep _ NaN (Fin 0)) by (rewrite fin_length; exact D). rewrite nth_fin. lra.
    + rewrite !app_nth2 by (rewrite fin_length; exact D). rewrite fin_length. fold m. assert (Hk : (i - m < k)%nat) by lia.
      rewrite (nth_indep (ninfs (rhs ineq)) NaN NInf) by (rewrite map_length; exact Hk). rewrite (nth_indep (fin (rhs ineq)) NaN (Fin 0)) by (rewrite fin_length; exact Hk). rewrite nth_fin.
      rewrite nth_ninfs. exact I.
Qed.
Lemma form_feasible x : qp_feasible (f_A form) (f_l form) (f_u form) x <-> osqp_feasible eq ineq x.
Proof.
  unfold qp_feasible. cbn [form f_A f_l f_u]. rewrite mvec_app, app_box by (rewrite mvec_length; apply (op_eq _ _ _ _ _ HP)). rewrite ineq_box. unfold osqp_feasible.
  rewrite mvec_length. assert (L := proj1 (proj1 (op_ineq _ _ _ _ _ HP))). tauto.
Qed.
Lemma form_kkt x ye yi : length ye = m -> length yi = k -> (qp_kkt n Q c (f_A form) (f_l form) (f_u form) x (ye ++ yi) <-> osqp_kkt n Q c eq ineq x ye yi).
Proof.
  intros L1 L2. unfold qp_kkt, osqp_kkt. rewrite form_feasible. cbn [form f_A f_l f_u]. rewrite (tvec_app m k) by (try assumption; apply HP).
  assert (HN : osqp_feasible eq ineq x -> (normal_to_box (fin (rhs eq) ++ ninfs (rhs ineq)) (fin (rhs eq) ++ fin (rhs ineq)) (ye ++ yi) (mvec (rows eq ++ rows ineq) x) <->
    forall i, (i < length yi)%nat -> 0 <= nth i yi 0 /\ nth i yi 0 * (nth i (rhs ineq) 0 - nth i (mvec (rows ineq) x) 0) = 0)).
  { intros [F1 F2]. rewrite mvec_app, F1. assert (Hz : in_box (ninfs (rhs ineq)) (fin (rhs ineq)) (mvec (rows ineq) x)) by (apply ineq_box; split; [rewrite mvec_length; apply (op_ineq _ _ _ _ _ HP)|exact F2]).
    rewrite app_normal, ineq_normal by assumption. rewrite L2. reflexivity. }
  split.
  - intros (Lx & F & N & S). repeat (split; [assumption|]). apply HN; assumption.
  - intros (Lx & _ & _ & F & S & N). repeat (split; [assumption|]). split; [apply HN; assumption|exact S].
Qed.
End Convert.

(** The box problem that transform builds has the same feasible points and the same KKT points, the
    dual vector being the concatenation; it is well formed; with no constraint at all it raises. *)
Theorem C37_same_problem : forall n Q c eq ineq params bp f sz, osqp_problem n Q c eq ineq -> transform params eq ineq = Ok (bp, f, sz) ->
  qp_problem (length (rhs eq) + length (rhs ineq)) n Q c (f_A f) (f_l f) (f_u f) /\
  (forall x, qp_feasible (f_A f) (f_l f) (f_u f) x <-> osqp_feasible eq ineq x) /\
  (forall x ye yi, length ye = length (rhs eq) -> length yi = length (rhs ineq) -> (qp_kkt n Q c (f_A f) (f_l f) (f_u f) x (ye ++ yi) <-> osqp_kkt n Q c eq ineq x ye yi)).
Proof.
  intros n Q c eq ineq params bp f sz HP H. destruct (transform_ok n Q c eq ineq HP params bp f sz H) as [-> _].
  split; [apply (form_problem n Q c eq ineq HP)|]. split; [apply (form_feasible n Q c eq ineq HP)|apply (form_kkt n Q c eq ineq HP)].
Qed.
Print Assumptions C37_same_problem.
Theorem C37_no_constraints : forall params, transform params None None = Err ValueError.
Proof. reflexivity. Qed.
Print Assumptions C37_no_constraints.

(** Converting back: x is unchanged, dual_eq is the first part of y, dual_ineq the positive part of
    the second; an absent block gives None. *)
Lemma split_eq o ye yi : (o <> None -> (0 < length (rhs o))%nat) -> (o = None -> ye = []) -> length ye = length (rhs o) ->
  pytree_split (ye ++ yi) (match o with Some _ => Some (Z.of_nat (length (rhs o))) | None => None end) = present o ye.
Proof.
  intros H0 HN L. destruct o as [[A b]|]; [|reflexivity]. specialize (H0 ltac:(discriminate)). cbn [pytree_split present rhs] in *. f_equal.
  assert (G : (Z.of_nat (length b) >? 0)%Z = true) by (apply Z.gtb_lt; lia). rewrite G, Nat2Z.id, <- L, firstn_app, firstn_all, Nat.sub_diag. simpl. apply app_nil_r.
Qed.
Lemma split_ineq o (ye yi : xvec) : (o <> None -> (0 < length (rhs o))%nat) -> length yi = length (rhs o) ->
  pytree_split (ye ++ yi) (match o with Some _ => Some (- Z.of_nat (length (rhs o)))%Z | None => None end) = present o yi.
Proof.
  intros H0 L. destruct o as [[A b]|]; [|reflexivity]. specialize (H0 ltac:(discriminate)). cbn [pytree_split present rhs] in *. f_equal.
  assert (G : (- Z.of_nat (length b) >? 0)%Z = false) by (rewrite Z.gtb_ltb; apply Z.ltb_ge; lia). rewrite G. unfold slice_from.
  assert (G2 : (- Z.of_nat (length b) <? 0)%Z = true) by (apply Z.ltb_lt; lia). rewrite G2, Z.opp_involutive, Nat2Z.id, app_length, <- L.
  replace (length ye + length yi - length yi)%nat with (length ye) by lia. rewrite skipn_app, skipn_all, Nat.sub_diag. reflexivity.
Qed.
Notation pos t := (Rmax t 0).
Lemma mu_fin y : bmu (full_kkt [] [] (fin y)) = fin (map (fun t => pos t) y).
Proof.
  cbn [full_kkt bmu]. unfold fin. rewrite !map_map. apply map_ext. intros t. simpl. unfold Rmax. destruct (Rle_dec 0 t), (Rle_dec t 0); try reflexivity; f_equal; lra.
Qed.
Theorem C37_split : forall n Q c eq ineq params bp f sz x z ye yi, osqp_problem n Q c eq ineq -> transform params eq ineq = Ok (bp, f, sz) ->
  length ye = length (rhs eq) -> length yi = length (rhs ineq) ->
  inverse_transform sz (full_kkt x z (fin (ye ++ yi))) = {| q_primal := x; q_dual_eq := present eq (fin ye); q_dual_ineq := present ineq (fin (map (fun t => Rmax t 0) yi)) |}.
Proof.
  intros n Q c eq ineq params bp f sz x z ye yi HP H L1 L2. destruct (transform_ok n Q c eq ineq HP params bp f sz H) as [_ ->]. unfold inverse_transform.
  change (bmu (full_kkt x z (fin (ye ++ yi)))) with (bmu (full_kkt [] [] (fin (ye ++ yi)))). rewrite mu_fin, map_app. cbn [bx by_ full_kkt]. f_equal.
  - unfold fin. rewrite map_app. apply split_eq; [apply (op_eq _ _ _ _ _ HP)| |rewrite map_length; exact L1]. intros ->. destruct ye; [reflexivity|discriminate].
  - unfold fin. rewrite map_app. apply split_ineq; [apply (op_ineq _ _ _ _ _ HP)|rewrite !map_length; exact L2].
Qed.
Print Assumptions C37_split.

(** Round trip: exactly the parameters with dual_ineq >= 0 survive. *)
Theorem C37_round_trip : forall n Q c eq ineq x ye yi, osqp_problem n Q c eq ineq -> length ye = length (rhs eq) -> length yi = length (rhs ineq) ->
  let p := {| q_primal := fin x; q_dual_eq := present eq (fin ye); q_dual_ineq := present ineq (fin yi) |} in
  exists bp f sz, transform (Some p) eq ineq = Ok (Some bp, f, sz) /\ bx bp = fin x /\ bz bp = fin (mvec (f_A f) x) /\ by_ bp = fin (ye ++ yi) /\
    (inverse_transform sz bp = p <-> forall i, (i < length yi)%nat -> 0 <= nth i yi 0).
Proof.
  intros n Q c eq ineq x ye yi HP L1 L2 p.
  assert (T : exists f sz, transform (Some p) eq ineq = Ok (Some (full_kkt (fin x) (fin (mvec (f_A f) x)) (fin (ye ++ yi))), f, sz)).
  { unfold p. destruct eq as [[A b]|], ineq as [[G h]|]; cbn [transform present rows rhs q_dual_eq q_dual_ineq q_primal app] in *.
    - refine (ex_intro _ (Build_box_form _ _ _) _). eexists. cbn [f_A]. rewrite xmvec_fin. replace (fin (ye ++ yi)) with (fin ye ++ fin yi) by (unfold fin; rewrite map_app; reflexivity). reflexivity.
    - destruct yi; [|discriminate]. refine (ex_intro _ (Build_box_form _ _ _) _). eexists. cbn [f_A]. rewrite !app_nil_r, xmvec_fin. reflexivity.
    - destruct ye; [|discriminate]. refine (ex_intro _ (Build_box_form _ _ _) _). eexists. cbn [f_A]. rewrite xmvec_fin. reflexivity.
    - exfalso. destruct (op_some _ _ _ _ _ HP); congruence. }
  destruct T as (f & sz & T). exists (full_kkt (fin x) (fin (mvec (f_A f) x)) (fin (ye ++ yi))), f, sz. split; [exact T|]. repeat (split; [reflexivity|]).
  rewrite (C37_split n Q c eq ineq _ _ f sz (fin x) _ ye yi HP T L1 L2). unfold p.
  assert (E : map (fun t => Rmax t 0) yi = yi <-> forall i, (i < length yi)%nat -> 0 <= nth i yi 0).
  { clear. induction yi as [|t yi IH]; [split; [intros _ i Hi; simpl in Hi; lia|reflexivity]|]. split.
    - intros H [|i] Hi; cbn [map] in H; injection H as H1 H2; [cbn [nth]; rewrite <- H1; apply Rmax_r|]. apply IH; [exact H2|simpl in Hi; lia].
    - intros H. cbn [map]. f_equal; [apply Rmax_left; exact (H 0%nat ltac:(simpl; lia))|]. apply IH. intros i Hi. exact (H (S i) ltac:(simpl; lia)). }
  rewrite <- E. split.
  - intros H. destruct ineq as [[G h]|]; [cbn [present] in H; injection H as H; apply fin_inj in H; exact H|]. destruct yi; [reflexivity|discriminate].
  - intros ->. reflexivity.
Qed.
Print Assumptions C37_round_trip.

(** matvec mode (blocks kept apart) gives the same answer, also for blocks without rows... *)
Theorem C37_blocks : forall n Q c eq ineq params bp f sz x z ye yi, osqp_problem n Q c eq ineq -> transform params eq ineq = Ok (bp, f, sz) ->
  length ye = length (rhs eq) -> length yi = length (rhs ineq) ->
  let blocks ve vi := match eq, ineq with Some _, Some _ => [ve; vi] | Some _, None => [ve] | _, _ => [vi] end in
  inverse_transform_blocks sz x (blocks (fin ye) (fin yi)) (blocks (fin (map (fun t => Rmax t 0) ye)) (fin (map (fun t => Rmax t 0) yi))) = inverse_transform sz (full_kkt x z (fin (ye ++ yi))).
Proof.
  intros n Q c eq ineq params bp f sz x z ye yi HP H L1 L2 blocks. rewrite (C37_split n Q c eq ineq params bp f sz x z ye yi HP H L1 L2). destruct (transform_ok n Q c eq ineq HP params bp f sz H) as [_ ->].
  unfold inverse_transform_blocks, blocks.
  assert (S1 := split_eq eq (fin ye) [] (proj2 (op_eq _ _ _ _ _ HP))). rewrite app_nil_r in S1.
  assert (S2 := split_ineq ineq [] (fin (map (fun t => pos t) yi)) (proj2 (op_ineq _ _ _ _ _ HP))). cbn [app] in S2.
  assert (L1' : length (fin ye) = length (rhs eq)) by (rewrite fin_length; exact L1). assert (L2' : length (fin (map (fun t => pos t) yi)) = length (rhs ineq)) by (rewrite fin_length, map_length; exact L2).
  destruct eq as [[A b]|], ineq as [[G h]|]; cbn [hd last]; f_equal; try reflexivity; try (apply S1; [congruence|exact L1']); try (apply S2; exact L2').
Qed.
Print Assumptions C37_blocks.

(** ...whereas without matvec an equality (inequality) block with no row gets the whole dual vector
    back: the duals no longer fit the constraints. *)
Theorem C37_empty_block_refuted : forall G h x z yi, length yi = length h -> (0 < length h)%nat ->
  exists bp f sz, transform None (Some ([], [])) (Some (G, h)) = Ok (bp, f, sz) /\
    let p := inverse_transform sz (full_kkt (fin x) z (fin yi)) in
    q_dual_eq p = Some (fin yi) /\ q_dual_eq p <> Some [] /\
    exists bp' f' sz', transform (Some p) (Some ([], [])) (Some (G, h)) = Ok (Some bp', f', sz') /\ length (by_ bp') <> length (f_l f').
Proof.
  intros G h x z yi L Hh. eexists. eexists. eexists. split; [reflexivity|]. cbv zeta.
  assert (E : q_dual_eq (inverse_transform (Some (Z.of_nat (length (@nil R))), Some (- Z.of_nat (length h))%Z) (full_kkt (fin x) z (fin yi))) = Some (fin yi)) by reflexivity.
  split; [exact E|]. split; [rewrite E; intros C; injection C as C; apply (f_equal (@length xnum)) in C; rewrite fin_length in C; simpl in C; lia|].
  assert (E2 : q_dual_ineq (inverse_transform (Some (Z.of_nat (length (@nil R))), Some (- Z.of_nat (length h))%Z) (full_kkt (fin x) z (fin yi))) = Some (fin (map (fun t => pos t) yi))).
  { cbn [inverse_transform q_dual_ineq]. change (bmu (full_kkt (fin x) z (fin yi))) with (bmu (full_kkt [] [] (fin yi))). rewrite mu_fin.
    apply (split_ineq (Some (G, h)) []); [intros _; exact Hh|rewrite fin_length, map_length; exact L]. }
  cbn [transform]. rewrite E, E2. eexists. eexists. eexists. split; [reflexivity|]. cbn [by_ full_kkt f_l fin map app].
  rewrite app_length, !fin_length, !map_length, L. clear -Hh. lia.
Qed.
Print Assumptions C37_empty_block_refuted.

(** ** OSQP.run *)
Lemma xsplit n Q c eq ineq (ye yi : xvec) : osqp_problem n Q c eq ineq -> length ye = length (rhs eq) -> length yi = length (rhs ineq) ->
  transform None eq ineq = Ok (None, {| f_A := rows eq ++ rows ineq; f_l := fin (rhs eq) ++ ninfs (rhs ineq); f_u := fin (rhs eq) ++ fin (rhs ineq) |},
    (match eq with Some _ => Some (Z.of_nat (length (rhs eq))) | None => None end, match ineq with Some _ => Some (- Z.of_nat (length (rhs ineq)))%Z | None => None end)) /\
  forall x, transform (Some {| q_primal := x; q_dual_eq := present eq ye; q_dual_ineq := present ineq yi |}) eq ineq =
    Ok (Some (full_kkt x (xmvec (finm (rows eq ++ rows ineq)) x) (ye ++ yi)), {| f_A := rows eq ++ rows ineq; f_l := fin (rhs eq) ++ ninfs (rhs ineq); f_u := fin (rhs eq) ++ fin (rhs ineq) |},
    (match eq with Some _ => Some (Z.of_nat (length (rhs eq))) | None => None end, match ineq with Some _ => Some (- Z.of_nat (length (rhs ineq)))%Z | None => None end)).
Proof.
  intros HP L1 L2. destruct eq as [[A b]|], ineq as [[G h]|]; cbn [transform rows rhs present q_dual_eq q_dual_ineq q_primal] in *; rewrite ?ninf1.
  - split; reflexivity.
  - destruct yi; [|discriminate]. split; [reflexivity|]. intros x. rewrite !app_nil_r. reflexivity.
  - destruct ye; [|discriminate]. split; reflexivity.
  - exfalso. destruct (op_some _ _ _ _ _ HP); congruence.
Qed.
(** the start of the box run *)
Lemma start_default n Q c eq ineq eps_div lin_solve cfg : osqp_problem n Q c eq ineq ->
  osqp_run n Q c eps_div lin_solve cfg None eq ineq = osqp_run n Q c eps_div lin_solve cfg (Some {| q_primal := xvzero n; q_dual_eq := present eq (xvzero (length (rhs eq))); q_dual_ineq := present ineq (xvzero (length (rhs ineq))) |}) eq ineq.
Proof.
  intros HP. unfold osqp_run at 1. unfold osqp_init_params.
  destruct (xsplit n Q c eq ineq (xvzero (length (rhs eq))) (xvzero (length (rhs ineq))) HP (repeat_length _ _) (repeat_length _ _)) as [-> _].
  cbn [f_A f_l f_u]. set (bi := box_init_params _ _ _ _ _).
  assert (E : inverse_transform (match eq with Some _ => Some (Z.of_nat (length (rhs eq))) | None => None end, match ineq with Some _ => Some (- Z.of_nat (length (rhs ineq)))%Z | None => None end) bi
    = {| q_primal := xvzero n; q_dual_eq := present eq (xvzero (length (rhs eq))); q_dual_ineq := present ineq (xvzero (length (rhs ineq))) |}).
  { assert (Eb : by_ bi = xvzero (length (rhs eq)) ++ xvzero (length (rhs ineq)) /\ bmu bi = by_ bi).
    { split; [|reflexivity]. unfold bi, box_init_params. cbn [by_]. unfold xvzero. rewrite <- repeat_app. f_equal.
      assert (LB : forall z l u, length l = length z -> length u = length z -> length (box_clip z l u) = length z) by (clear; induction z as [|t z IH]; intros [|a l] [|b u] H1 H2; try discriminate; [reflexivity|]; simpl in *; f_equal; apply IH; congruence).
      assert (Lm : length (xmvec (finm (rows eq ++ rows ineq)) (repeat (Fin 0) n)) = (length (rhs eq) + length (rhs ineq))%nat) by (unfold xmvec, finm; rewrite !map_length, app_length, (proj1 (proj1 (op_eq _ _ _ _ _ HP))), (proj1 (proj1 (op_ineq _ _ _ _ _ HP))); reflexivity).
      rewrite LB; [exact Lm|rewrite Lm, app_length, fin_length, map_length; reflexivity|rewrite Lm, app_length, !fin_length; reflexivity]. }
    unfold inverse_transform. rewrite (proj2 Eb), (proj1 Eb). f_equal.
    - apply split_eq; [apply (op_eq _ _ _ _ _ HP)| |apply repeat_length]. intros Z. rewrite Z. reflexivity.
    - apply split_ineq; [apply (op_ineq _ _ _ _ _ HP)|apply repeat_length]. }
  rewrite E. reflexivity.
Qed.
Lemma init_cases n Q c eq ineq eps_div lin_solve cfg init : osqp_problem n Q c eq ineq -> init_ok n eq ineq init ->
  exists x ye yi, length x = n /\ length ye = length (rhs eq) /\ length yi = length (rhs ineq) /\ (init = None -> x = xvzero n /\ ye = xvzero (length (rhs eq)) /\ yi = xvzero (length (rhs ineq))) /\
    (forall p, init = Some p -> p = {| q_primal := x; q_dual_eq := present eq ye; q_dual_ineq := present ineq yi |}) /\
    osqp_run n Q c eps_div lin_solve cfg init eq ineq =
    match box_run_from n Q c (rows eq ++ rows ineq) (fin (rhs eq) ++ ninfs (rhs ineq)) (fin (rhs eq) ++ fin (rhs ineq)) eps_div (lin_solve (rows eq ++ rows ineq)) cfg (full_kkt x (xmvec (finm (rows eq ++ rows ineq)) x) (ye ++ yi)) with
    | Ok (sol, st) => Ok (inverse_transform (match eq with Some _ => Some (Z.of_nat (length (rhs eq))) | None => None end, match ineq with Some _ => Some (- Z.of_nat (length (rhs ineq)))%Z | None => None end) sol, st)
    | Err e => Err e end.
Proof.
  intros HP HI. assert (G : forall x ye yi, length ye = length (rhs eq) -> length yi = length (rhs ineq) ->
     osqp_run n Q c eps_div lin_solve cfg (Some {| q_primal := x; q_dual_eq := present eq ye; q_dual_ineq := present ineq yi |}) eq ineq =
    match box_run_from n Q c (rows eq ++ rows ineq) (fin (rhs eq) ++ ninfs (rhs ineq)) (fin (rhs eq) ++ fin (rhs ineq)) eps_div (lin_solve (rows eq ++ rows ineq)) cfg (full_kkt x (xmvec (finm (rows eq ++ rows ineq)) x) (ye ++ yi)) with
    | Ok (sol, st) => Ok (inverse_transform (match eq with Some _ => Some (Z.of_nat (length (rhs eq))) | None => None end, match ineq with Some _ => Some (- Z.of_nat (length (rhs ineq)))%Z | None => None end) sol, st)
    | Err e => Err e end).
  { intros x ye yi L1 L2. unfold osqp_run. destruct (xsplit n Q c eq ineq ye yi HP L1 L2) as [_ T]. rewrite T. reflexivity. }
  destruct init as [p|].
  - destruct HI as (x & ye & yi & -> & L & L1 & L2). exists x, ye, yi. repeat (split; [assumption|]). split; [discriminate|]. split; [intros p Hp; injection Hp as <-; reflexivity|]. apply G; assumption.
  - exists (xvzero n), (xvzero (length (rhs eq))), (xvzero (length (rhs ineq))). repeat (split; [apply repeat_length|]). split; [repeat split|]. split; [discriminate|].
    rewrite (start_default n Q c eq ineq eps_div lin_solve cfg HP). apply G; apply repeat_length.
Qed.
Lemma norm1_app a b : norm1 (a ++ b) = norm1 a + norm1 b.
Proof. unfold norm1. induction a as [|t a IH]; [simpl; lra|]. cbn [app map vsum fold_right]. cbn [app map] in IH. simpl. rewrite IH. ring. Qed.
Lemma dot_bound v b t : (forall i, (i < length v)%nat -> Rabs (nth i v 0) <= t) -> 0 <= t -> length v = length b -> Rabs (dot v b) <= t * norm1 b.
Proof.
  revert b t. induction v as [|a v IH]; intros [|b0 b] t Hb Ht Hl; try discriminate; [unfold norm1; simpl; rewrite Rabs_R0; lra|].
  unfold norm1 in *. simpl. assert (H0 := Hb 0%nat ltac:(simpl; lia)). simpl in H0. assert (H1 := IH b t (fun i Hi => Hb (S i) ltac:(simpl; lia)) Ht ltac:(simpl in Hl; lia)).
  eapply Rle_trans; [apply Rabs_triang|]. rewrite Rabs_mult. assert (Rabs a * Rabs b0 <= t * Rabs b0) by (apply Rmult_le_compat_r; [apply Rabs_pos|exact H0]). lra.
Qed.
Lemma ninfs_length (h : vec) : length (ninfs h) = length h. Proof. apply map_length. Qed.
(** If OSQP.run ends with status SOLVED, what it returns satisfies the KKT conditions of
    min 1/2 x'Qx + c'x s.t. Ax = b, Gx <= h within tol. *)
Theorem C37_solved : forall n Q c eq ineq eps_div lin_solve cfg init p st,
  osqp_problem n Q c eq ineq -> (forall M r p b, length (lin_solve M r p b) = n) -> 0 < rho_start cfg /\ 0 < rho_min cfg /\ rho_min cfg <= rho_max cfg -> init_ok n eq ineq init ->
  osqp_run n Q c eps_div lin_solve cfg init eq ineq = Ok (p, st) -> o_status st = SOLVED ->
  let tol := osqp_tol cfg in
  exists x ye yi, q_primal p = fin x /\ q_dual_eq p = present eq (fin ye) /\ q_dual_ineq p = present ineq (fin yi) /\
    length x = n /\ length ye = length (rhs eq) /\ length yi = length (rhs ineq) /\
    (forall i, (i < length ye)%nat -> Rabs (nth i (mvec (rows eq) x) 0 - nth i (rhs eq) 0) <= tol) /\
    (forall i, (i < length yi)%nat -> nth i (mvec (rows ineq) x) 0 <= nth i (rhs ineq) 0 + tol /\ 0 <= nth i yi 0 /\ (0 < nth i yi 0 -> nth i (rhs ineq) 0 - tol <= nth i (mvec (rows ineq) x) 0)) /\
    (forall j, (j < n)%nat -> Rabs (nth j (vadd (vadd (mvec Q x) c) (vadd (tvec n (rows eq) ye) (tvec n (rows ineq) yi))) 0) <= tol) /\
    (forall w, length w = n -> osqp_feasible eq ineq w -> qp_objective Q c x <= qp_objective Q c w + tol * (norm1 (vsub x w) + norm1 ye + norm1 yi)).
Proof.
  intros n Q c eq ineq eps_div lin_solve cfg init p st HP HL Hrho HI H Hs tol.
  destruct (init_cases n Q c eq ineq eps_div lin_solve cfg init HP HI) as (x0 & ye0 & yi0 & Lx0 & Le0 & Li0 & _ & _ & E). rewrite E in H. clear E.
  destruct (box_run_from _ _ _ _ _ _ _ _ _ _) as [[sol st']|] eqn:B; [|discriminate]. injection H as <- <-.
  assert (FP := form_problem n Q c eq ineq HP). cbn [f_A f_l f_u] in FP.
  set (m := length (rhs eq)) in *. set (k := length (rhs ineq)) in *.
  assert (Lz : length (xmvec (finm (rows eq ++ rows ineq)) x0) = (m + k)%nat) by (unfold xmvec, finm; rewrite !map_length; apply (qp_A _ _ _ _ _ _ _ FP)).
  destruct (run_solved (m + k) n Q c _ _ _ eps_div (lin_solve (rows eq ++ rows ineq)) cfg FP (HL _) Hrho (full_kkt x0 (xmvec (finm (rows eq ++ rows ineq)) x0) (ye0 ++ yi0)) sol st' (conj Lx0 (conj Lz (eq_trans (app_length _ _) (f_equal2 Nat.add Le0 Li0)))) B Hs)
    as (x & z & y & e & f & Es & Lx & HB & HN & He & Hf & He' & Hf' & _).
  assert (LB := proj1 HB). rewrite app_length, fin_length, ninfs_length in LB. fold m k in LB. assert (Ly := proj1 HN). rewrite LB in Ly.
  set (z1 := firstn m z). set (z2 := skipn m z). set (ye := firstn m y). set (yi := skipn m y).
  assert (Ez : z = z1 ++ z2) by (symmetry; apply firstn_skipn). assert (Ey : y = ye ++ yi) by (symmetry; apply firstn_skipn).
  assert (L1 : length z1 = m) by (unfold z1; rewrite firstn_length; lia). assert (L2 : length z2 = k) by (unfold z2; rewrite skipn_length; lia).
  assert (L3 : length ye = m) by (unfold ye; rewrite firstn_length; lia). assert (L4 : length yi = k) by (unfold yi; rewrite skipn_length; lia).
  clearbody z1 z2 ye yi. subst z y.
  apply app_box in HB; [|exact L1]. destruct HB as [E1 HB]. subst z1. apply app_normal in HN; [|exact L3|exact HB]. assert (HN' := proj1 (ineq_normal (rhs ineq) yi z2 L4 HB) HN). clear HN. rename HN' into HN. apply ineq_box in HB. destruct HB as [_ HB].
  assert (Lme : length (mvec (rows eq) x) = m) by (rewrite mvec_length; apply (op_eq _ _ _ _ _ HP)). assert (Lmi : length (mvec (rows ineq) x) = k) by (rewrite mvec_length; apply (op_ineq _ _ _ _ _ HP)).
  assert (Nt : 0 <= tol) by (apply inf_norm_nonneg in He; unfold tol; lra).
  assert (Hr1 : forall i, (i < m)%nat -> Rabs (nth i (mvec (rows eq) x) 0 - nth i (rhs eq) 0) <= tol).
  { intros i Hi. assert (K := proj1 He i). rewrite vsub_length, mvec_app, nth_vsub, !app_nth1 in K by (unfold vec in *; lia). eapply Rle_trans; [apply K|exact He']. rewrite !app_length. unfold vec in *. lia. }
  assert (Hr2 : forall i, (i < k)%nat -> Rabs (nth i (mvec (rows ineq) x) 0 - nth i z2 0) <= tol).
  { intros i Hi. assert (K := proj1 He (m + i)%nat). rewrite vsub_length, mvec_app, nth_vsub, !app_nth2 in K by (unfold vec in *; lia). rewrite Lme in K. fold m in K. replace (m + i - m)%nat with i in K by lia.
    eapply Rle_trans; [apply K|exact He']. rewrite !app_length. unfold vec in *. lia. }
  assert (Hst : forall j, (j < n)%nat -> Rabs (nth j (vadd (vadd (mvec Q x) c) (vadd (tvec n (rows eq) ye) (tvec n (rows ineq) yi))) 0) <= tol).
  { intros j Hj. rewrite <- (tvec_app m k) by (try assumption; apply HP). eapply Rle_trans; [apply (proj1 Hf)|exact Hf'].
    rewrite !vadd_length, mvec_length, (tvec_length (m + k)) by apply FP. assert (Q1 := proj1 (op_Q _ _ _ _ _ HP)). assert (Q2 := op_c _ _ _ _ _ HP). unfold mat, vec in *. lia. }
  assert (Mu : map (fun t => Rmax t 0) yi = yi).
  { apply vec_ext; [apply map_length|]. intros i. rewrite map_length. intros Hi. rewrite (nth_indep _ 0 (Rmax 0 0)) by (rewrite map_length; exact Hi). rewrite (map_nth (fun t => Rmax t 0)). apply Rmax_left. apply HN. fold k. rewrite <- L4. exact Hi. }
  destruct (xsplit n Q c eq ineq (fin ye) (fin yi) HP ltac:(rewrite fin_length; exact L3) ltac:(rewrite fin_length; exact L4)) as [T _].
  assert (Sp := C37_split n Q c eq ineq _ _ _ _ (fin x) (fin (rhs eq ++ z2)) ye yi HP T L3 L4). rewrite Mu in Sp. fold m k in Sp.
  unfold inverse_transform in Sp. rewrite Es, Sp.
  exists x, ye, yi. repeat (split; [reflexivity || assumption|]). rewrite L3, L4. split; [exact Hr1|]. split.
  { intros i Hi. destruct (HN i Hi) as [N1 N2]. assert (B1 := HB i Hi). assert (R1 := Hr2 i Hi). assert (R2 := Rle_abs (nth i (mvec (rows ineq) x) 0 - nth i z2 0)). assert (R3 := Rle_abs (- (nth i (mvec (rows ineq) x) 0 - nth i z2 0))). rewrite Rabs_Ropp in R3. split; [lra|]. split; [exact N1|]. intros N3. assert (nth i (rhs ineq) 0 - nth i z2 0 = 0) by (apply Rmult_integral in N2; lra). lra. }
  split; [exact Hst|]. intros w Lw Hw.
  assert (Hw' := proj2 (form_feasible n Q c eq ineq HP w) Hw). cbn [f_A f_l f_u] in Hw'.
  assert (HIb : in_box (fin (rhs eq) ++ ninfs (rhs ineq)) (fin (rhs eq) ++ fin (rhs ineq)) (rhs eq ++ z2)) by (apply app_box; [reflexivity|split; [reflexivity|apply ineq_box; split; [exact L2|exact HB]]]).
  assert (HNb : normal_to_box (fin (rhs eq) ++ ninfs (rhs ineq)) (fin (rhs eq) ++ fin (rhs ineq)) (ye ++ yi) (rhs eq ++ z2)).
  { apply app_normal; [exact L3|apply ineq_box; split; [exact L2|exact HB]|]. apply ineq_normal; [exact L4|apply ineq_box; split; [exact L2|exact HB]|exact HN]. }
  assert (Gp := gap (m + k) n Q c _ _ _ x (rhs eq ++ z2) (ye ++ yi) w FP Lx Lw HIb HNb Hw').
  assert (Q1 := proj1 (op_Q _ _ _ _ _ HP)). assert (Q2 := op_c _ _ _ _ _ HP).
  assert (B1 := dot_bound (vadd (vadd (mvec Q x) c) (tvec n (rows eq ++ rows ineq) (ye ++ yi))) (vsub x w) tol (fun i Hi => Rle_trans _ _ _ (proj1 Hf i Hi) Hf') Nt ltac:(rewrite !vadd_length, mvec_length, (tvec_length (m + k)), vsub_length by apply FP; unfold mat, vec in *; lia)).
  assert (B2 := dot_bound (vsub (mvec (rows eq ++ rows ineq) x) (rhs eq ++ z2)) (ye ++ yi) tol (fun i Hi => Rle_trans _ _ _ (proj1 He i Hi) He') Nt ltac:(rewrite vsub_length, mvec_app, !app_length; unfold mat, vec in *; lia)).
  rewrite norm1_app in B2. rewrite (dot_comm (ye ++ yi)) in Gp.
  assert (T1 := Rle_abs (dot (vadd (vadd (mvec Q x) c) (tvec n (rows eq ++ rows ineq) (ye ++ yi))) (vsub x w))). assert (T2 := Rle_abs (- dot (vsub (mvec (rows eq ++ rows ineq) x) (rhs eq ++ z2)) (ye ++ yi))). rewrite Rabs_Ropp in T2. lra.
Qed.
Print Assumptions C37_solved.

Lemma fin_app' a b : fin a ++ fin b = fin (a ++ b). Proof. unfold fin. rewrite map_app. reflexivity. Qed.
Lemma fin_zero n : xvzero n = fin (vzero n). Proof. unfold xvzero, vzero, fin. induction n as [|n IH]; [reflexivity|]. cbn [repeat map]. f_equal. exact IH. Qed.
Lemma mvec_zero m n M : mat_shape m n M -> mvec M (vzero n) = vzero m.
Proof. intros [L _]. rewrite <- L. clear L. unfold mvec, vzero. induction M as [|r M IH]; [reflexivity|]. cbn [map length repeat]. f_equal; [apply dot_vzero_r|exact IH]. Qed.
(** Warm-started at a solution it returns that solution, SOLVED, after one iteration. *)
Theorem C37_fixed_point : forall n Q c eq ineq eps_div lin_solve cfg xs ye yi,
  osqp_problem n Q c eq ineq -> lin_exact n Q (rows eq ++ rows ineq) (sigma cfg) (lin_solve (rows eq ++ rows ineq)) -> check_infeas cfg = false -> good_options cfg -> (0 < osqp_maxiter cfg)%nat ->
  osqp_kkt n Q c eq ineq xs ye yi ->
  let p := {| q_primal := fin xs; q_dual_eq := present eq (fin ye); q_dual_ineq := present ineq (fin yi) |} in
  exists st, osqp_run n Q c eps_div lin_solve cfg (Some p) eq ineq = Ok (p, st) /\ o_status st = SOLVED /\ o_error st = Fin 0 /\ o_iter st = 1%nat.
Proof.
  intros n Q c eq ineq eps_div lin_solve cfg xs ye yi HP HE Hck HG Hm HK p. assert (HK' := HK). destruct HK' as (Lx & L1 & L2 & _ & _ & Hc).
  assert (HI : init_ok n eq ineq (Some p)) by (exists (fin xs), (fin ye), (fin yi); rewrite !fin_length; repeat split; assumption).
  destruct (xsplit n Q c eq ineq (fin ye) (fin yi) HP ltac:(rewrite fin_length; exact L1) ltac:(rewrite fin_length; exact L2)) as [T T2].
  assert (FP := form_problem n Q c eq ineq HP). cbn [f_A f_l f_u] in FP.
  assert (FK := proj2 (form_kkt n Q c eq ineq HP xs ye yi L1 L2) HK). cbn [f_A f_l f_u] in FK.
  destruct (C35_fixed_point _ n Q c _ _ _ eps_div (lin_solve (rows eq ++ rows ineq)) cfg (full_kkt (fin xs) (xmvec (finm (rows eq ++ rows ineq)) (fin xs)) (fin ye ++ fin yi)) xs (ye ++ yi) FP HE Hck HG Hm FK) as (st & E & E2); try reflexivity.
  { cbn [bz full_kkt]. apply xmvec_fin. } { cbn [by_ full_kkt]. apply fin_app'. }
  exists st. split; [|exact E2]. unfold osqp_run, p. rewrite T2. cbn [f_A f_l f_u box_run]. unfold box_run. rewrite E. f_equal. f_equal.
  rewrite (C37_split n Q c eq ineq _ _ _ _ (fin xs) (fin (mvec (rows eq ++ rows ineq) xs)) ye yi HP T L1 L2).
  assert (Mu : map (fun t => Rmax t 0) yi = yi).
  { apply vec_ext; [apply map_length|]. intros i. rewrite map_length. intros Hi. rewrite (nth_indep _ 0 (Rmax 0 0)) by (rewrite map_length; exact Hi). rewrite (map_nth (fun t => Rmax t 0)). apply Rmax_left. apply Hc. exact Hi. }
  rewrite Mu. reflexivity.
Qed.
Print Assumptions C37_fixed_point.

(** When the problem has a solution with multipliers and the linear solver is exact, OSQP.run from the
    default start is SOLVED for every large enough budget (unless the first step-size update gives NaN,
    see C35_nan). *)
Theorem C37_converges : forall n Q c eq ineq eps_div lin_solve cfg xs ye yi p1 st1 r1,
  osqp_problem n Q c eq ineq -> let A := rows eq ++ rows ineq in let l := fin (rhs eq) ++ map (fun _ => NInf) (rhs ineq) in let u := fin (rhs eq) ++ fin (rhs ineq) in
  lin_exact n Q A (sigma cfg) (lin_solve A) -> good_options cfg -> check_infeas cfg = false -> osqp_kkt n Q c eq ineq xs ye yi ->
  let p0 := full_kkt (xvzero n) (xvzero (length A)) (xvzero (length A)) in
  box_update n Q c A l u eps_div (lin_solve A) cfg (p0, box_init_state n Q c A cfg p0) = Ok (p1, st1) -> o_rho st1 = Fin r1 ->
  exists N, forall maxiter freq, (N <= maxiter <= freq)%nat ->
    exists p st, osqp_run n Q c eps_div lin_solve (with_budget cfg maxiter freq) None eq ineq = Ok (p, st) /\ o_status st = SOLVED.
Proof.
  intros n Q c eq ineq eps_div lin_solve cfg xs ye yi p1 st1 r1 HP A l u HE HG Hck HK p0 Hu Hr. destruct HK as (Lx & L1 & L2 & HK).
  assert (FP := form_problem n Q c eq ineq HP). cbn [f_A f_l f_u] in FP. fold A l u in FP.
  assert (FK := proj2 (form_kkt n Q c eq ineq HP xs ye yi L1 L2) (conj Lx (conj L1 (conj L2 HK)))). cbn [f_A f_l f_u] in FK. fold A l u in FK.
  assert (LA := proj1 (qp_A _ _ _ _ _ _ _ FP)).
  assert (Hf : finite_params (length (rhs eq) + length (rhs ineq)) n p0 (vzero n) (vzero (length A)) (vzero (length A))).
  { unfold p0. repeat split; cbn [bx bz by_ full_kkt]; try apply fin_zero; unfold vzero; rewrite repeat_length; try reflexivity; exact LA. }
  destruct (C35_converges _ n Q c A l u eps_div (lin_solve A) cfg p0 (vzero n) (vzero (length A)) (vzero (length A)) p1 st1 r1 xs (ye ++ yi) FP HE HG Hck FK Hf Hu Hr) as (N & HN).
  exists N. intros mi fr Hmf. destruct (HN mi fr Hmf) as (p' & st' & E & Es).
  destruct (init_cases n Q c eq ineq eps_div lin_solve (with_budget cfg mi fr) None HP I) as (x & e & i & _ & _ & _ & E1 & _ & E2). destruct (E1 eq_refl) as (-> & -> & ->).
  rewrite E2. fold A l u.
  assert (EP : full_kkt (xvzero n) (xmvec (finm A) (xvzero n)) (xvzero (length (rhs eq)) ++ xvzero (length (rhs ineq))) = p0).
  { unfold p0. f_equal; [|unfold xvzero; rewrite <- repeat_app; f_equal; symmetry; exact LA]. rewrite !fin_zero, xmvec_fin. f_equal. rewrite (mvec_zero _ n A (qp_A _ _ _ _ _ _ _ FP)). f_equal. symmetry. exact LA. }
  rewrite EP, E. eexists. eexists. split; [reflexivity|exact Es].
Qed.
Print Assumptions C37_converges.

(** fun mode: for a quadratic function the extracted c and Q x are those of the function. *)
Lemma gradient_unique n f x g g' : gradient_at n f x g -> gradient_at n f x g' -> g = g'.
Proof.
  intros [L1 H1] [L2 H2]. apply vec_ext; [congruence|]. intros i Hi.
  assert (Le : length (nth i (eye n) []) = n) by (assert (S := eye_shape n); destruct S as [S1 S2]; rewrite Forall_forall in S2; apply S2; apply nth_In; rewrite S1; unfold vec in *; lia).
  assert (K := uniqueness_limite _ _ _ _ (H1 _ Le) (H2 _ Le)).
  assert (M : forall v : vec, length v = n -> dot v (nth i (eye n) []) = nth i v 0).
  { intros v Lv. rewrite dot_comm. assert (E := mvec_eye n v Lv). apply (f_equal (fun w => nth i w 0)) in E. unfold mvec in E. rewrite <- E. rewrite (nth_indep _ 0 (dot [] v)) by (rewrite map_length, (proj1 (eye_shape n)); unfold vec in *; lia). rewrite (map_nth (fun r => dot r v)). reflexivity. }
  rewrite !M in K by assumption. exact K.
Qed.
Lemma quad_gradient n Q c k x : mat_shape n n Q -> symmetric n Q -> length c = n -> length x = n -> gradient_at n (fun x => 1 / 2 * dot x (mvec Q x) + dot c x + k) x (vadd (mvec Q x) c).
Proof.
  intros HQ HS Lc Lx. split; [apply vadd_length_eq; [rewrite mvec_length; apply HQ|exact Lc]|]. intros v Lv.
  set (a := 1 / 2 * dot x (mvec Q x) + dot c x + k). set (b := dot (vadd (mvec Q x) c) v). set (d := 1 / 2 * dot v (mvec Q v)).
  assert (E : forall t, 1 / 2 * dot (vadd x (smul t v)) (mvec Q (vadd x (smul t v))) + dot c (vadd x (smul t v)) + k = a + b * t + d * (t * t)).
  { intros t. rewrite mvec_vadd, mvec_smul. rewrite !dot_vadd_l, !dot_vadd_r, !dot_smul_l, !dot_smul_r. unfold a, b, d. rewrite dot_vadd_l. rewrite (sym_dot n Q v x) by (try exact HQ; try exact HS; assumption).
    rewrite (dot_comm (mvec Q x) v), (sym_dot n Q v x) by (try exact HQ; try exact HS; assumption). field. }
  assert (D : derivable_pt_lim (fun t => a + b * t + d * (t * t)) 0 b).
  { cut (derivable_pt_lim (fun t => a + b * t + d * (t * t)) 0 ((0 + b * 1) + d * (1 * 0 + 0 * 1))); [intros D0; replace ((0 + b * 1) + d * (1 * 0 + 0 * 1)) with b in D0 by ring; exact D0|].
    apply (derivable_pt_lim_plus (fun t => a + b * t) (fun t => d * (t * t))).
    - apply (derivable_pt_lim_plus (fun _ => a) (fun t => b * t)); [apply derivable_pt_lim_const|]. apply (derivable_pt_lim_scal id). apply derivable_pt_lim_id.
    - apply (derivable_pt_lim_scal (fun t => t * t)). apply (derivable_pt_lim_mult id id); apply derivable_pt_lim_id. }
  intros eps He. destruct (D eps He) as (del & Hd). exists del. intros t Ht1 Ht2. rewrite !E. apply Hd; assumption.
Qed.
Theorem C37_fun : forall n Q c k f grad, mat_shape n n Q -> symmetric n Q -> length c = n -> (forall x, f x = 1 / 2 * dot x (mvec Q x) + dot c x + k) ->
  gradient_at n f (vzero n) (grad f (vzero n)) ->
  extract_c grad n f = c /\
  forall x, length x = n -> gradient_at n (fun xx => f xx - dot (extract_c grad n f) xx) x (grad (fun xx => f xx - dot (extract_c grad n f) xx) x) -> fun_matvec grad f (extract_c grad n f) x = mvec Q x.
Proof.
  intros n Q c k f grad HQ HS Lc Hf H0. assert (Ec : extract_c grad n f = c).
  { unfold extract_c. assert (Z : length (vzero n) = n) by (unfold vzero; apply repeat_length). assert (K := quad_gradient n Q c k (vzero n) HQ HS Lc Z).
    rewrite (mvec_zero n n Q HQ) in K. rewrite (gradient_unique n f (vzero n) (grad f (vzero n)) (vadd (vzero n) c) H0).
    - apply vec_ext; [rewrite vadd_length, Z; lia|]. intros i _. rewrite nth_vadd by (rewrite Z; congruence). rewrite nth_vzero. ring.
    - destruct K as [K1 K2]. split; [exact K1|]. intros v Lv eps He. destruct (K2 v Lv eps He) as (d & Hd). exists d. intros t T1 T2. rewrite !Hf. apply Hd; assumption. }
  split; [exact Ec|]. rewrite Ec. intros x Lx Hx. unfold fun_matvec. apply (gradient_unique n (fun xx => f xx - dot c xx) x _ _ Hx).
  assert (K := quad_gradient n Q (vzero n) k x HQ HS ltac:(unfold vzero; apply repeat_length) Lx). destruct K as [K1 K2]. split; [rewrite mvec_length; apply HQ|].
  intros v Lv eps He. destruct (K2 v Lv eps He) as (d & Hd). exists d. intros t T1 T2. specialize (Hd t T1 T2). rewrite !dot_vzero_l in Hd. rewrite !Hf. rewrite (dot_vadd_l (mvec Q x) (vzero n) v), dot_vzero_l in Hd by (rewrite mvec_length, vzero_length; apply HQ).
  match goal with |- Rabs ?A < _ => match type of Hd with Rabs ?B < _ => replace A with B; [exact Hd|] end end. field. exact T1.
Qed.
Print Assumptions C37_fun.
