(** Square linear systems: what jnp.linalg.solve is assumed to do, and a verified elimination
    showing the assumption can be met. *)
From Coq Require Import Reals List Lra Lia Bool Arith.
From Verif Require Import Prelude Vec Mat.
Import ListNotations.
Open Scope R_scope.

Definition nonsingular (n : nat) (M : mat) : Prop :=
  mat_shape n n M /\ forall v, length v = n -> mvec M v = vzero n -> v = vzero n.
(** Assumed of jnp.linalg.solve (in exact arithmetic): it solves every nonsingular system.
    Nothing is assumed about singular ones. *)
Definition exact_solver (solve : mat -> vec -> vec) : Prop :=
  forall n M b, nonsingular n M -> length b = n -> length (solve M b) = n /\ mvec M (solve M b) = b.

(** ** Gaussian elimination *)
Definition arow := (vec * R)%type.
Fixpoint pick (rows : list arow) : option (vec * R * list arow) :=
  match rows with
  | [] => None
  | (r, c) :: rest =>
      if Req_EM_T (hd 0 r) 0 then
        match pick rest with Some (p, others) => Some (p, (r, c) :: others) | None => None end
      else Some (r, c, rest)
  end.
Definition reduce (p : R) (ps : vec) (b : R) (rc : arow) : arow :=
  let q := hd 0 (fst rc) / p in (vsub (tl (fst rc)) (smul q ps), snd rc - q * b).
Fixpoint gauss (n : nat) (rows : list arow) : vec :=
  match n with
  | O => []
  | S n' =>
      match pick rows with
      | None => vzero n
      | Some (r, b, rest) =>
          let p := hd 0 r in let ps := tl r in
          let x := gauss n' (map (reduce p ps b) rest) in
          ((b - dot ps x) / p) :: x
      end
  end.
Definition gauss_solve (M : mat) (b : vec) : vec := gauss (length M) (combine M b).

Definition rows_ok (n : nat) (rows : list arow) : Prop := Forall (fun rc => length (fst rc) = n) rows.
Definition solves (rows : list arow) (x : vec) : Prop := Forall (fun rc => dot (fst rc) x = snd rc) rows.
Definition kernel_zero (n : nat) (rows : list arow) : Prop :=
  forall v, length v = n -> Forall (fun rc => dot (fst rc) v = 0) rows -> v = vzero n.

Lemma pick_none rows : pick rows = None -> Forall (fun rc : arow => hd 0 (fst rc) = 0) rows.
Proof.
  induction rows as [|[r c] rest IH]; simpl; intros H; [constructor|]. destruct (Req_EM_T (hd 0 r) 0); [|discriminate].
  constructor; [exact e|]. apply IH. destruct (pick rest) as [[[? ?] ?]|]; [discriminate|reflexivity].
Qed.
Lemma pick_some rows r b rest (P : arow -> Prop) : pick rows = Some (r, b, rest) ->
  hd 0 r <> 0 /\ length rows = S (length rest) /\ (Forall P rows <-> P (r, b) /\ Forall P rest).
Proof.
  revert rest; induction rows as [|[r' c] rows IH]; simpl; intros rest H; [discriminate|].
  destruct (Req_EM_T (hd 0 r') 0).
  - destruct (pick rows) as [[[r1 b1] others]|]; [|discriminate]. injection H as -> -> <-.
    destruct (IH others eq_refl) as (H1 & H2 & H3). split; [exact H1|]. split; [simpl; lia|].
    split; intros HF.
    + inversion HF; subst. destruct (proj1 H3 H5). split; [assumption|constructor; assumption].
    + destruct HF as [Hp HF]. inversion HF; subst. constructor; [assumption|]. apply H3. auto.
  - injection H as -> -> ->. split; [exact n|]. split; [reflexivity|]. split; intros HF.
    + inversion HF; auto.
    + destruct HF. constructor; assumption.
Qed.

Lemma hd_tl_dot (r v : vec) n : length r = S n -> length v = S n -> dot r v = hd 0 r * hd 0 v + dot (tl r) (tl v).
Proof. destruct r, v; simpl; intros; try lia. reflexivity. Qed.
Lemma reduce_dot p ps b rc n x0 x : p <> 0 -> length (fst rc) = S n -> length ps = n -> length x = n -> p * x0 + dot ps x = b ->
  (dot (fst (reduce p ps b rc)) x = snd (reduce p ps b rc) <-> dot (fst rc) (x0 :: x) = snd rc).
Proof.
  destruct rc as [r c]. intros Hp Hr Hps Hx E. unfold reduce. cbn [fst snd] in *. rewrite (hd_tl_dot r (x0 :: x) n) by (simpl; lia). cbn [hd tl].
  assert (Ht : length (tl r) = n) by (destruct r; simpl in *; lia).
  rewrite (dot_comm (vsub _ _)), dot_vsub_r by (rewrite smul_length; lia). rewrite dot_smul_r, !(dot_comm x).
  assert (E2 : hd 0 r / p * b = hd 0 r * x0 + hd 0 r / p * dot ps x) by (rewrite <- E; field; exact Hp).
  rewrite E2. split; lra.
Qed.

Lemma gauss_spec n : forall rows, length rows = n -> rows_ok n rows -> kernel_zero n rows ->
  length (gauss n rows) = n /\ solves rows (gauss n rows).
Proof.
  induction n as [|n IH]; intros rows Hl Hr Hk.
  { destruct rows; [|discriminate]. split; [reflexivity|constructor]. }
  cbn [gauss]. destruct (pick rows) as [[[r b] rest]|] eqn:Ep.
  2:{ exfalso. apply pick_none in Ep. specialize (Hk (1 :: vzero n)).
      assert (Hz : 1 :: vzero n = vzero (S n)).
      { apply Hk; [simpl; unfold vzero; rewrite repeat_length; reflexivity|]. unfold rows_ok in Hr. rewrite Forall_forall in *. intros rc Hin.
        rewrite (hd_tl_dot _ _ n) by (try (apply Hr; exact Hin); simpl; unfold vzero; rewrite repeat_length; reflexivity).
        rewrite (Ep rc Hin). cbn [hd tl]. rewrite dot_vzero_r. ring. }
      injection Hz. lra. }
  destruct (pick_some _ _ _ _ (fun rc => length (fst rc) = S n) Ep) as (Hp & Hlen & Hok).
  apply Hok in Hr. destruct Hr as [Hr0 Hrr]. cbn [fst] in Hr0.
  set (p := hd 0 r) in *. set (ps := tl r) in *.
  assert (Hps : length ps = n) by (unfold ps; destruct r; simpl in *; lia).
  assert (Hred : length (map (reduce p ps b) rest) = n) by (rewrite map_length; lia).
  assert (Hrok : rows_ok n (map (reduce p ps b) rest)).
  { unfold rows_ok. rewrite Forall_map, Forall_forall in *. intros rc Hin. unfold reduce. cbn [fst].
    rewrite vsub_length, smul_length. specialize (Hrr rc Hin). destruct (fst rc); simpl in *; lia. }
  assert (Hker : kernel_zero n (map (reduce p ps b) rest)).
  { intros v Hv HF. set (v0 := - dot ps v / p).
    assert (Hz : v0 :: v = vzero (S n)).
    { apply Hk; [simpl; lia|].
      apply (proj2 (proj2 (pick_some _ _ _ _ (fun rc => dot (fst rc) (v0 :: v) = 0) Ep))). split.
      - cbn [fst]. rewrite (hd_tl_dot r (v0 :: v) n) by (simpl; lia). cbn [hd tl]. fold p ps. unfold v0. field. exact Hp.
      - rewrite Forall_map in HF. rewrite Forall_forall in *. intros rc Hin. specialize (HF rc Hin). specialize (Hrr rc Hin).
        unfold reduce in HF. cbn [fst] in HF.
        rewrite (hd_tl_dot (fst rc) (v0 :: v) n) by (simpl; lia). cbn [hd tl].
        assert (Ht : length (tl (fst rc)) = n) by (destruct (fst rc); simpl in *; lia).
        rewrite (dot_comm (vsub _ _)), dot_vsub_r in HF by (rewrite smul_length; lia). rewrite dot_smul_r, !(dot_comm v) in HF.
        unfold v0. assert (E : hd 0 (fst rc) * (- dot ps v / p) = - (hd 0 (fst rc) / p * dot ps v)) by (field; exact Hp). lra. }
    injection Hz. intros Hv' _. exact Hv'. }
  destruct (IH _ Hred Hrok Hker) as [L HS].
  set (x := gauss n (map (reduce p ps b) rest)) in *.
  split; [simpl; lia|]. cbv zeta.
  apply (proj2 (proj2 (pick_some _ _ _ _ (fun rc => dot (fst rc) ((b - dot ps x) / p :: x) = snd rc) Ep))).
  assert (E0 : p * ((b - dot ps x) / p) + dot ps x = b) by (field; exact Hp). split.
  - cbn [fst snd]. rewrite (hd_tl_dot r _ n) by (simpl; lia). cbn [hd tl]. exact E0.
  - unfold solves in HS. rewrite Forall_map in HS. rewrite Forall_forall in *. intros rc Hin.
    apply (reduce_dot p ps b rc n); auto.
Qed.

Lemma combine_forall (Pr : vec -> Prop) (M : mat) (b : vec) : length b = length M -> Forall Pr M ->
  Forall (fun rc => Pr (fst rc)) (combine M b).
Proof.
  revert b; induction M as [|r M IH]; intros [|c b] Hl HF; simpl in *; try constructor; try lia.
  - inversion HF; auto.
  - apply IH; [lia|inversion HF; auto].
Qed.
Lemma combine_solves (M : mat) (b x : vec) : length b = length M ->
  (Forall (fun rc => dot (fst rc) x = snd rc) (combine M b) <-> mvec M x = b).
Proof.
  revert b; induction M as [|r M IH]; intros [|c b] Hl; simpl in *; try lia; [split; [reflexivity|constructor]|].
  split; intros H.
  - inversion H; subst. simpl in *. f_equal; [assumption|apply IH; [lia|assumption]].
  - injection H as H1 H2. constructor; [exact H1|apply IH; [lia|exact H2]].
Qed.
Lemma combine_kernel (M : mat) (b x : vec) : length b = length M ->
  Forall (fun rc => dot (fst rc) x = 0) (combine M b) -> mvec M x = vzero (length M).
Proof.
  revert b; induction M as [|r M IH]; intros [|c b] Hl H; simpl in *; try lia; [reflexivity|].
  inversion H; subst. unfold vzero in *. simpl. f_equal; [assumption|]. apply (IH b); [lia|assumption].
Qed.

Theorem gauss_exact : exact_solver gauss_solve.
Proof.
  intros n M b [[HM HF] Hk] Hb. unfold gauss_solve. rewrite HM.
  destruct (gauss_spec n (combine M b)) as [L HS].
  - etransitivity; [exact (combine_length M b)|]. rewrite HM. apply Nat.min_l. apply Nat.eq_le_incl. symmetry. exact Hb.
  - apply (combine_forall (fun r => length r = n)); [lia|exact HF].
  - intros v Hv HF0. apply Hk; [exact Hv|]. rewrite <- HM. apply (combine_kernel M b); [lia|exact HF0].
  - split; [exact L|]. apply combine_solves; [lia|exact HS].
Qed.

(** A nonsingular system has one solution. *)
Lemma nonsingular_unique n M x y : nonsingular n M -> length x = n -> length y = n -> mvec M x = mvec M y -> x = y.
Proof.
  intros [HM Hk] Hx Hy E.
  assert (H : vsub x y = vzero n).
  { apply Hk; [rewrite vsub_length; lia|]. rewrite mvec_vsub. rewrite E, vsub_self, mvec_length. f_equal. apply HM. }
  apply vec_eq_dot; [lia|]. intros z. assert (E2 : dot (vsub x y) z = 0) by (rewrite H; apply dot_vzero_l).
  rewrite dot_vsub_l in E2. lra.
Qed.
