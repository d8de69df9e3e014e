(** Lemmas about the BoxOSQP model. *)
From Coq Require Import Reals List Lra Lia Bool Arith.
From Verif Require Import Prelude Vec Mat XArith Loop Run Osqp.
Import ListNotations.
Open Scope R_scope.

(** ** The box *)
Definition bound_ok (a b : xnum) : Prop :=
  match a, b with NInf, PInf | NInf, Fin _ | Fin _, PInf => True | Fin a, Fin b => a <= b | _, _ => False end.
Fixpoint inb (l u : xvec) (z : vec) : Prop :=
  match l, u, z with
  | a :: l', b :: u', t :: z' => lower_ok a t /\ upper_ok b t /\ inb l' u' z'
  | [], [], [] => True
  | _, _, _ => False
  end.
Lemma inb_length l u z : inb l u z -> length z = length l /\ length u = length l.
Proof.
  revert u z. induction l as [|a l IH]; intros [|b u] [|t z] H; try contradiction; [split; reflexivity|].
  destruct H as (_ & _ & H). destruct (IH _ _ H). simpl. split; congruence.
Qed.
Lemma in_box_inb l u z : length u = length l -> (in_box l u z <-> inb l u z).
Proof.
  revert u z. induction l as [|a l IH]; intros [|b u] z Hl; try discriminate.
  - destruct z; split; intros H; [exact I|split; [reflexivity|simpl; intros; lia]|destruct H; discriminate|contradiction].
  - destruct z as [|t z]; simpl; [split; [intros [H _]; discriminate|tauto]|]. injection Hl as Hl.
    rewrite <- (IH u z Hl). split.
    + intros [H1 H2]. simpl in H1. destruct (H2 0%nat) as [A B]; [simpl; lia|]. simpl in A, B. split; [exact A|]. split; [exact B|].
      split; [congruence|]. intros i Hi. apply (H2 (S i)). simpl. lia.
    + intros (A & B & [H1 H2]). split; [simpl; congruence|]. intros [|i] Hi; simpl; [split; assumption|]. apply H2. simpl in Hi. lia.
Qed.
Lemma bounds_forall l u : length u = length l -> (forall i, (i < length l)%nat -> bound_ok (nth i l NaN) (nth i u NaN)) -> Forall2 bound_ok l u.
Proof.
  revert u. induction l as [|a l IH]; intros [|b u] Hl H; try discriminate; [constructor|]. injection Hl as Hl. constructor.
  - apply (H 0%nat). simpl. lia.
  - apply IH; [exact Hl|]. intros i Hi. apply (H (S i)). simpl. lia.
Qed.
Lemma xclip_fin t a b : bound_ok a b -> exists z, xclip (Fin t) a b = Fin z /\ lower_ok a z /\ upper_ok b z /\
  forall v, lower_ok a v -> upper_ok b v -> (t - z) * (v - z) <= 0.
Proof.
  unfold xclip, bound_ok. destruct a as [a| | |], b as [b| | |]; intros H; try contradiction; simpl.
  - exists (Rmin (Rmax t a) b). split; [reflexivity|]. unfold Rmin, Rmax. destruct (Rle_dec t a); destruct (Rle_dec _ b); split; try lra; (split; [lra|]); intros v H1 H2; nra.
  - exists (Rmax t a). split; [reflexivity|]. unfold Rmax. destruct (Rle_dec t a); split; try lra; (split; [lra|]); intros v H1 H2; nra.
  - exists (Rmin t b). split; [reflexivity|]. unfold Rmin. destruct (Rle_dec t b); split; try lra; (split; [lra|]); intros v H1 H2; nra.
  - exists t. split; [reflexivity|]. split; [exact I|]. split; [exact I|]. intros v _ _. nra.
Qed.
Lemma box_clip_fin l u w : Forall2 bound_ok l u -> length w = length l -> exists z, box_clip (fin w) l u = fin z /\ inb l u z /\
  forall v, inb l u v -> dot (vsub w z) (vsub v z) <= 0.
Proof.
  intros HB. revert w. induction HB as [|a b l u Hab HB IH]; intros [|t w] Hl; try discriminate.
  - exists []. split; [reflexivity|]. split; [exact I|]. intros [|] H; [simpl; lra|contradiction].
  - injection Hl as Hl. destruct (IH w Hl) as (z & E & H1 & H2). destruct (xclip_fin t a b Hab) as (s & Es & A & B & D).
    exists (s :: z). split; [simpl; fold (fin w); rewrite E, Es; reflexivity|]. split; [simpl; auto|].
    intros [|v0 v] Hv; [contradiction|]. simpl in Hv. destruct Hv as (V1 & V2 & V3). simpl. specialize (D v0 V1 V2). specialize (H2 v V3). lra.
Qed.
(** If the clipped value is finite and z_momentum is, everything before is *)
Lemma box_clip_length x l u : length l = length x -> length u = length x -> length (box_clip x l u) = length x.
Proof. revert l u. induction x as [|a x IH]; intros [|b l] [|d u] H1 H2; try discriminate; [reflexivity|]. simpl. f_equal. apply IH; simpl in *; lia. Qed.

(** ** Finiteness *)
Lemma xabs_inv a e : xabs a = Fin e -> exists r, a = Fin r /\ e = Rabs r.
Proof. destruct a; simpl; intros H; try discriminate. injection H as <-. eexists. split; reflexivity. Qed.
Lemma fold_xmax_fin : forall v a e, fold_left xmax v a = Fin e -> Forall (fun x => x <> NInf) (a :: v) ->
  exists r s, a = Fin r /\ v = fin s /\ r <= e /\ (forall t, In t s -> t <= e) /\ (e = r \/ In e s).
Proof.
  induction v as [|b v IH]; intros a e H HN; simpl in H.
  - exists e, []. repeat split; auto; [lra|intros t []].
  - inversion HN as [|? ? Ha HN']; subst. inversion HN' as [|? ? Hb HN'']; subst.
    destruct (IH (xmax a b) e H) as (r & s & E & -> & Hr & Hs & Hin).
    { constructor; [|exact HN'']. destruct a, b; simpl; congruence. }
    destruct a as [a| | |], b as [b| | |]; simpl in E; try discriminate; try congruence. injection E as E. exists a, (b :: s). split; [reflexivity|]. split; [reflexivity|].
    assert (M1 := Rmax_l a b). assert (M2 := Rmax_r a b). split; [lra|]. split.
    + intros t [<-|Ht]; [lra|auto].
    + destruct Hin as [->|Hin]; [|right; right; exact Hin]. rewrite <- E. unfold Rmax. destruct (Rle_dec a b); [right; left; reflexivity|left; reflexivity].
Qed.
Lemma abs_fin_inv : forall v s, map xabs v = fin s -> exists r, v = fin r /\ s = map Rabs r.
Proof.
  induction v as [|a v IH]; intros [|e s] H; try discriminate; [exists []; split; reflexivity|]. injection H as H1 H2.
  destruct (xabs_inv _ _ H1) as (r & -> & ->). destruct (IH _ H2) as (rs & -> & ->). exists (r :: rs). split; reflexivity.
Qed.
Lemma xinf_norm_inv v e : v <> [] -> xinf_norm v = Fin e -> exists r, v = fin r /\ is_inf_norm r e.
Proof.
  intros Hv H. destruct v as [|a v]; [congruence|]. unfold xinf_norm in H. simpl in H.
  destruct (fold_xmax_fin _ _ _ H) as (r & s & E & E2 & Hr & Hs & Hin).
  { change (Forall (fun x => x <> NInf) (map xabs (a :: v))). apply Forall_forall. intros x Hx. apply in_map_iff in Hx. destruct Hx as (y & <- & _). destruct y; simpl; congruence. }
  destruct (xabs_inv _ _ E) as (a' & -> & ->). destruct (abs_fin_inv _ _ E2) as (rs & -> & ->).
  exists (a' :: rs). split; [reflexivity|]. split.
  - intros [|i] Hi; simpl; [exact Hr|]. apply Hs. apply in_map. apply nth_In. simpl in Hi. lia.
  - destruct Hin as [->|Hin]; [exists 0%nat; split; [simpl; lia|reflexivity]|]. apply in_map_iff in Hin. destruct Hin as (t & <- & Ht).
    destruct (In_nth _ _ 0 Ht) as (i & Hi & <-). exists (S i). split; [simpl; lia|reflexivity].
Qed.
Lemma fold_xmax_fin' : forall v a, exists e, fold_left xmax (fin v) (Fin a) = Fin e.
Proof. induction v as [|b v IH]; intros a; [exists a; reflexivity|]. simpl. apply IH. Qed.
Lemma xinf_norm_fin v : v <> [] -> exists e, xinf_norm (fin v) = Fin e /\ is_inf_norm v e.
Proof.
  intros Hv. assert (E : exists e, xinf_norm (fin v) = Fin e).
  { destruct v as [|a v]; [congruence|]. unfold xinf_norm, fin. simpl. rewrite map_map.
    destruct (fold_xmax_fin' (map Rabs v) (Rabs a)) as (e & He). exists e. rewrite <- He. unfold fin. rewrite map_map. reflexivity. }
  destruct E as (e & E). exists e. split; [exact E|]. destruct (xinf_norm_inv (fin v) e) as (r & Er & Hr); [destruct v; [congruence|discriminate]|exact E|].
  apply fin_inj in Er. subst r. exact Hr.
Qed.
Lemma inf_norm_unique v e e' : is_inf_norm v e -> is_inf_norm v e' -> e = e'.
Proof. intros [H1 (i & Hi & ->)] [H2 (j & Hj & ->)]. specialize (H1 j Hj). specialize (H2 i Hi). lra. Qed.
Lemma inf_norm_nonneg v e : is_inf_norm v e -> 0 <= e.
Proof. intros [_ (i & _ & ->)]. apply Rabs_pos. Qed.
Lemma inf_norm_zero v e : is_inf_norm v e -> (e = 0 <-> v = vzero (length v)).
Proof.
  intros [H1 (i & Hi & E)]. split.
  - intros ->. apply vec_ext; [rewrite vzero_length; reflexivity|]. intros j Hj. rewrite nth_vzero. specialize (H1 j Hj). assert (P := Rabs_pos (nth j v 0)).
    destruct (Req_dec (nth j v 0) 0) as [|N]; [assumption|]. assert (Q := Rabs_pos_lt _ N). lra.
  - intros Z. rewrite E, Z, nth_vzero. apply Rabs_R0.
Qed.
Lemma xadd_fin_inv a b r : xadd a b = Fin r -> exists s t, a = Fin s /\ b = Fin t /\ r = s + t.
Proof. destruct a, b; simpl; intros H; try discriminate. injection H as <-. eexists. eexists. repeat split. Qed.
Lemma xsub_fin_inv a b r : xsub a b = Fin r -> exists s t, a = Fin s /\ b = Fin t /\ r = s - t.
Proof. destruct a, b; simpl; intros H; try discriminate. injection H as <-. eexists. eexists. repeat split. Qed.
Lemma xinf_times_not_fin a r : xinf_times a <> Fin r.
Proof. unfold xinf_times. destruct (Rlt_dec 0 a); [discriminate|]. destruct (Rlt_dec a 0); discriminate. Qed.
Lemma xmul_fin_inv a b r : xmul a b = Fin r -> exists s t, a = Fin s /\ b = Fin t.
Proof.
  destruct a as [a| | |], b as [b| | |]; simpl; intros H; try discriminate; try (exfalso; exact (xinf_times_not_fin _ _ H)); [eexists; eexists; split; reflexivity| |];
  exfalso; unfold xinf_times in H; destruct (Rlt_dec _ _) in H; try discriminate; destruct (Rlt_dec _ _) in H; discriminate.
Qed.
Lemma xvadd_inv : forall a b r, length a = length b -> xvadd a b = fin r -> exists s t, a = fin s /\ b = fin t.
Proof.
  induction a as [|x a IH]; intros [|y b] r Hl H; try discriminate; [exists [], []; split; reflexivity|]. destruct r as [|r rs]; [discriminate|]. injection H as H1 H2. injection Hl as Hl.
  destruct (xadd_fin_inv _ _ _ H1) as (s & t & -> & -> & _). destruct (IH _ _ Hl H2) as (ss & ts & -> & ->). exists (s :: ss), (t :: ts). split; reflexivity.
Qed.
Lemma xvsub_inv : forall a b r, length a = length b -> xvsub a b = fin r -> exists s t, a = fin s /\ b = fin t.
Proof.
  induction a as [|x a IH]; intros [|y b] r Hl H; try discriminate; [exists [], []; split; reflexivity|]. destruct r as [|r rs]; [discriminate|]. injection H as H1 H2. injection Hl as Hl.
  destruct (xsub_fin_inv _ _ _ H1) as (s & t & -> & -> & _). destruct (IH _ _ Hl H2) as (ss & ts & -> & ->). exists (s :: ss), (t :: ts). split; reflexivity.
Qed.
Lemma xsmul_inv : forall a v r, v <> [] -> xsmul a v = fin r -> exists s t, a = Fin s /\ v = fin t.
Proof.
  intros a v. induction v as [|x v IH]; intros [|r rs] Hv H; try discriminate; [congruence|]. injection H as H1 H2.
  destruct (xmul_fin_inv _ _ _ H1) as (s & t & -> & ->). destruct v as [|y v]; [exists s, [t]; split; reflexivity|].
  destruct (IH rs ltac:(discriminate) H2) as (s' & t' & _ & E). exists s, (t :: t'). split; [reflexivity|]. rewrite E. reflexivity.
Qed.
Lemma xdot_inv : forall row v r, length v = length row -> xdot (fin row) v = Fin r -> exists s, v = fin s.
Proof.
  induction row as [|a row IH]; intros [|x v] r Hl H; try discriminate; [exists []; reflexivity|]. cbn [fin map xdot] in H. fold (fin row) in H.
  destruct (xadd_fin_inv _ _ _ H) as (s & t & H1 & H2 & _). destruct (xmul_fin_inv _ _ _ H1) as (_ & x' & _ & ->).
  injection Hl as Hl. destruct (IH _ _ Hl H2) as (ss & ->). exists (x' :: ss). reflexivity.
Qed.
Lemma xmvec_inv m n M v r : mat_shape m n M -> (0 < m)%nat -> length v = n -> xmvec (finm M) v = fin r -> exists s, v = fin s.
Proof.
  intros [HM HF] Hm Hv H. destruct M as [|row M]; [simpl in HM; lia|]. inversion HF; subst. destruct r as [|r0 r]; [discriminate|]. injection H as H _.
  apply (xdot_inv row v r0); [congruence|exact H].
Qed.
Lemma xvadd_length a b : length (xvadd a b) = Nat.max (length a) (length b).
Proof. revert b. induction a as [|x a IH]; intros [|y b]; simpl; auto. Qed.
Lemma xvsub_length a b : length (xvsub a b) = Nat.max (length a) (length b).
Proof. revert b. induction a as [|x a IH]; intros [|y b]; simpl; auto. rewrite map_length. reflexivity. Qed.
Lemma xsmul_length a v : length (xsmul a v) = length v. Proof. apply map_length. Qed.
Lemma xmvec_length M v : length (xmvec M v) = length M. Proof. apply map_length. Qed.
Lemma xtvec_length m n M y : mat_shape m n M -> length (xtvec n (finm M) y) = n.
Proof.
  intros [_ HF]. revert y. induction M as [|r M IH]; intros [|a y]; simpl; try apply repeat_length. inversion HF; subst.
  rewrite xvadd_length, xsmul_length. unfold fin. rewrite map_length. fold (finm M). rewrite IH by assumption. lia.
Qed.
Lemma xtvec_inv m n M y r : mat_shape m n M -> (0 < n)%nat -> length y = m -> xtvec n (finm M) y = fin r -> exists s, y = fin s.
Proof.
  intros [HM HF] Hn. revert m y r HM. induction M as [|row M IH]; intros m y r HM Hy H.
  - destruct y; [exists []; reflexivity|]. simpl in HM. simpl in Hy. lia.
  - destruct y as [|a y]; [simpl in *; lia|]. inversion HF; subst. cbn [finm map xtvec] in H. fold (finm M) in H.
    assert (L : length (xsmul a (fin row)) = length (xtvec (length row) (finm M) y)).
    { rewrite xsmul_length, (xtvec_length (length M) (length row)), fin_length by (split; [reflexivity|assumption]). reflexivity. }
    destruct (xvadd_inv _ _ _ L H) as (s & t & H1 & H2).
    assert (Hrow : fin row <> []) by (destruct row; [simpl in Hn; lia|discriminate]). destruct (xsmul_inv _ _ _ Hrow H1) as (a' & _ & -> & _).
    destruct (IH ltac:(assumption) (length M) y t eq_refl ltac:(simpl in Hy; lia) H2) as (ys & ->). exists (a' :: ys). reflexivity.
Qed.
Lemma xle_fin_inv a t : xle a (Fin t) = true -> a = NInf \/ exists r, a = Fin r /\ r <= t.
Proof. destruct a; simpl; intros H; try discriminate; [|left; reflexivity]. right. exists r. destruct (Rle_dec r t); [split; [reflexivity|assumption]|discriminate]. Qed.
Lemma xinf_norm_not_ninf v : v <> [] -> xinf_norm v <> NInf.
Proof.
  intros Hv. destruct v as [|a v]; [congruence|]. unfold xinf_norm. simpl. clear Hv.
  assert (H : forall w b, b <> NInf -> fold_left xmax (map xabs w) b <> NInf).
  { induction w as [|x w IH]; intros b Hb; simpl; [exact Hb|]. apply IH. destruct b, x; simpl; congruence. }
  apply H. destruct a; simpl; congruence.
Qed.
(** the error is at most tol only when all residuals are finite and at most tol *)
Lemma error_small a b t : a <> [] -> b <> [] -> xle (xmax (xinf_norm a) (xinf_norm b)) (Fin t) = true ->
  exists r s e f, a = fin r /\ b = fin s /\ is_inf_norm r e /\ is_inf_norm s f /\ e <= t /\ f <= t /\ xmax (xinf_norm a) (xinf_norm b) = Fin (Rmax e f).
Proof.
  intros Ha Hb H. assert (Na := xinf_norm_not_ninf a Ha). assert (Nb := xinf_norm_not_ninf b Hb).
  destruct (xinf_norm a) as [e| | |] eqn:Ea; destruct (xinf_norm b) as [f| | |] eqn:Eb; try congruence; try (simpl in H; discriminate).
  destruct (xinf_norm_inv a e Ha Ea) as (r & -> & Hr). destruct (xinf_norm_inv b f Hb Eb) as (s & -> & Hs).
  exists r, s, e, f. simpl in H. destruct (Rle_dec (Rmax e f) t) as [L|]; [|discriminate]. assert (M1 := Rmax_l e f). assert (M2 := Rmax_r e f). repeat split; try assumption; try lra; apply Hr || apply Hs.
Qed.

(** ** The step *)
Lemma xclip_range x lo hi : lo <= hi -> xclip x (Fin lo) (Fin hi) = NaN \/ exists r, xclip x (Fin lo) (Fin hi) = Fin r /\ lo <= r <= hi.
Proof.
  intros H. unfold xclip. destruct x as [t| | |]; simpl; [|right|right|left; reflexivity].
  - right. exists (Rmin (Rmax t lo) hi). split; [reflexivity|]. unfold Rmin, Rmax. destruct (Rle_dec t lo); destruct (Rle_dec _ hi); lra.
  - exists hi. split; [reflexivity|lra].
  - exists (Rmin lo hi). split; [reflexivity|]. unfold Rmin. destruct (Rle_dec lo hi); lra.
Qed.
Lemma xdiv1 r : 0 < r -> xdivx (Fin 1) (Fin r) = Fin (1 / r).
Proof. intros H. simpl. destruct (Req_EM_T r 0); [lra|reflexivity]. Qed.

Section Step.
Variables (m n : nat) (Q : mat) (c : vec) (A : mat) (l u : xvec) (eps_div : R) (lin_solve : xnum -> xvec -> xvec -> xvec) (cfg : osqp_config).
Hypothesis HP : qp_problem m n Q c A l u.
Let HA := qp_A _ _ _ _ _ _ _ HP.
Let HQ := qp_Q _ _ _ _ _ _ _ HP.
Let Hl := qp_l _ _ _ _ _ _ _ HP.
Let Hu := qp_u _ _ _ _ _ _ _ HP.
Lemma bounds_fine : Forall2 bound_ok l u.
Proof. apply bounds_forall; [congruence|]. rewrite Hl. intros i Hi. exact (qp_box _ _ _ _ _ _ _ HP i Hi). Qed.
Lemma box_iff z : in_box l u z <-> inb l u z.
Proof. apply in_box_inb. congruence. Qed.
Lemma normal_step zm y r y' : length zm = m -> length y = m -> 0 < r ->
  let z' := box_clip (xvadd zm (xsmul (xdivx (Fin 1) (Fin r)) y)) l u in
  xvadd y (xsmul (Fin r) (xvsub zm z')) = fin y' ->
  exists y0 zm0 z0, y = fin y0 /\ zm = fin zm0 /\ z' = fin z0 /\ y' = vadd y0 (smul r (vsub zm0 z0)) /\ in_box l u z0 /\ normal_to_box l u y' z0.
Proof.
  intros Lz Ly Hr z' H. assert (Hm : (0 < m)%nat) by apply (qp_pos _ _ _ _ _ _ _ HP).
  assert (Lz' : length z' = m) by (unfold z'; assert (L1 := Hl); assert (L2 := Hu); rewrite box_clip_length; rewrite xvadd_length, xsmul_length; unfold xvec in *; lia).
  assert (L1 : length y = length (xsmul (Fin r) (xvsub zm z'))) by (rewrite xsmul_length, xvsub_length; unfold xvec in *; lia).
  assert (L2 : xvsub zm z' <> []) by (intros C; apply (f_equal (@length xnum)) in C; rewrite xvsub_length in C; simpl in C; unfold xvec in *; lia).
  assert (L3 : length zm = length z') by congruence.
  destruct (xvadd_inv _ _ _ L1 H) as (y0 & t & Ey & Et).
  destruct (xsmul_inv _ _ _ L2 Et) as (_ & d & _ & Ed).
  destruct (xvsub_inv _ _ _ L3 Ed) as (zm0 & z0 & Ez & Ez'). rewrite Ey, Ez, Ez', xvsub_fin, xsmul_fin, xvadd_fin in H. apply fin_inj in H.
  clear L1 L2 L3. assert (L1 : length zm0 = m) by (rewrite <- Lz, Ez, fin_length; reflexivity). assert (L2 : length y0 = m) by (rewrite <- Ly, Ey, fin_length; reflexivity).
  unfold z' in Ez'. rewrite Ez, Ey, xdiv1, xsmul_fin, xvadd_fin in Ez' by exact Hr.
  destruct (box_clip_fin l u (vadd zm0 (smul (1 / r) y0)) bounds_fine) as (z1 & E1 & I1 & N1); [rewrite vadd_length, smul_length, Hl; unfold vec in *; lia|].
  rewrite E1 in Ez'. apply fin_inj in Ez'. subst z1. exists y0, zm0, z0. split; [exact Ey|]. split; [exact Ez|]. split; [unfold z'; rewrite Ez, Ey, xdiv1, xsmul_fin, xvadd_fin by exact Hr; exact E1|].
  split; [congruence|]. split; [apply box_iff; exact I1|]. assert (L3 : length z0 = m) by (destruct (inb_length _ _ _ I1); congruence). split.
  - rewrite <- H, vadd_length, smul_length, vsub_length. unfold vec in *; lia.
  - intros w Hw. apply box_iff in Hw. specialize (N1 w Hw).
    replace (dot y' (vsub w z0)) with (r * dot (vsub (vadd zm0 (smul (1 / r) y0)) z0) (vsub w z0)); [nra|].
    rewrite <- H. rewrite !dot_vadd_l, !dot_vsub_l, !dot_smul_l, !dot_vadd_l, !dot_smul_l, !dot_vsub_l. field. lra.
Qed.
(** The lengths, the sign of rho, the synchronisation of the linear solver and the meaning of SOLVED. *)
Hypothesis Hlin : forall r p b, length (lin_solve r p b) = n.
Hypothesis Hrho : 0 < rho_start cfg /\ 0 < rho_min cfg /\ rho_min cfg <= rho_max cfg.
Definition shaped (p : box_params) : Prop := length (bx p) = n /\ length (bz p) = m /\ length (by_ p) = m.
Definition rho_ok (r : xnum) : Prop := r = NaN \/ exists t, r = Fin t /\ 0 < t.
Definition box_inv (r : result (box_params * box_state)) : Prop :=
  match r with
  | Ok (p, st) => shaped p /\ rho_ok (o_rho st) /\ ss_rho (o_lin st) = o_rho st /\ (o_status st = SOLVED -> xle (o_error st) (Fin (osqp_tol cfg)) = true) /\
      o_pres st = fst (residuals n Q c A (bx p) (bz p) (by_ p)) /\ o_dres st = snd (residuals n Q c A (bx p) (bz p) (by_ p))
  | Err _ => True
  end.
Lemma step_shaped p rho ss x z y ss' : shaped p -> admm_step n c A l u lin_solve cfg p rho ss = (x, z, y, ss') -> length x = n /\ length z = m /\ length y = m /\ ss_rho ss' = ss_rho ss.
Proof.
  intros (Lx & Lz & Ly) H. unfold admm_step in H. cbv zeta in H. injection H as <- <- <- <-. assert (La := proj1 HA). assert (L1 := Hl). assert (L2 := Hu).
  assert (Lc : forall w, length w = m -> length (box_clip w l u) = m) by (intros w Hw; rewrite box_clip_length; unfold xvec in *; lia).
  assert (Lm : forall v, length (xmvec (finm A) v) = m) by (intros v; rewrite xmvec_length; unfold finm; rewrite map_length; exact La).
  split; [rewrite xvadd_length, xsmul_length, xvsub_length, Hlin; unfold xvec in *; lia|].
  split; [apply Lc; rewrite !xvadd_length, !xsmul_length, xvsub_length, Lm; unfold xvec in *; lia|]. split; [|reflexivity].
  rewrite xvadd_length, xsmul_length, xvsub_length. match goal with |- context [length (box_clip ?w l u)] => assert (E := Lc w) end.
  rewrite !xvadd_length, !xsmul_length, xvsub_length, Lm in E. unfold xvec in *. rewrite E by lia. rewrite xvadd_length, xsmul_length, xvsub_length, Lm. unfold xvec in *; lia.
Qed.
Lemma termination_status pres dres p q e : check_termination n Q c A l u cfg pres dres p q = (e, SOLVED) -> e = fst (compute_error cfg pres dres) /\ xle e (Fin (osqp_tol cfg)) = true.
Proof.
  unfold check_termination. assert (H : forall e, compute_error cfg pres dres = (e, SOLVED) -> e = fst (compute_error cfg pres dres) /\ xle e (Fin (osqp_tol cfg)) = true).
  { intros e' H. rewrite H. split; [reflexivity|]. unfold compute_error in H. injection H as <- H. destruct (xle _ _); [reflexivity|discriminate]. }
  destruct (check_infeas cfg); [|apply H]. unfold check_primal. destruct (_ && _)%bool; [discriminate|]. unfold check_dual. destruct (_ && _)%bool; [discriminate|]. apply H.
Qed.
Lemma new_rho_ok r pres dres x y : rho_ok (new_rho n Q c A eps_div cfg r pres dres x y).
Proof.
  unfold new_rho. cbv zeta. match goal with |- rho_ok (xclip ?e _ _) => destruct (xclip_range e (rho_min cfg) (rho_max cfg)) as [-> | (t & -> & Ht)] end; [apply Hrho|left; reflexivity|right; exists t; split; [reflexivity|lra]].
Qed.
Lemma step_inv r : box_inv r -> box_inv (box_step n Q c A l u eps_div lin_solve cfg r).
Proof.
  destruct r as [[p st]|e]; [|exact (fun x => x)]. intros (Sp & Rk & Sy & St & _). unfold box_step, box_update.
  destruct (admm_step n c A l u lin_solve cfg p (o_rho st) (o_lin st)) as [[[x z] y] ss] eqn:Es. destruct (step_shaped _ _ _ _ _ _ _ Sp Es) as (Lx & Lz & Ly & Er).
  destruct (residuals n Q c A x z y) as [pres dres] eqn:Eres.
  destruct (if Nat.eqb (Nat.modulo (o_iter st) (step_freq cfg)) 0 then update_stepsize n Q c A eps_div cfg (o_rho st) ss pres dres x y else (o_rho st, ss)) as [rho' ss'] eqn:Eu.
  assert (H1 : rho_ok rho' /\ ss_rho ss' = rho').
  { destruct (Nat.eqb (Nat.modulo (o_iter st) (step_freq cfg)) 0); [|injection Eu as <- <-; split; [exact Rk|congruence]]. unfold update_stepsize in Eu. injection Eu as <- <-. split; [apply new_rho_ok|reflexivity]. }
  destruct (if Nat.eqb (Nat.modulo (o_iter st) (term_freq cfg)) 0 then check_termination n Q c A l u cfg pres dres p (full_kkt x z y) else (o_error st, o_status st)) as [e s] eqn:Et.
  assert (H2 : s = SOLVED -> xle e (Fin (osqp_tol cfg)) = true).
  { intros ->. destruct (Nat.eqb (Nat.modulo (o_iter st) (term_freq cfg)) 0); [apply (termination_status _ _ _ _ _ Et)|]. injection Et as <- Ee. apply St. exact Ee. }
  destruct (_ && _)%bool; [exact I|]. unfold box_inv, shaped. cbn [o_rho o_lin o_status o_error o_pres o_dres bx bz by_ full_kkt]. rewrite Eres. cbn [fst snd]. destruct H1. repeat split; assumption.
Qed.
Lemma init_inv p : shaped p -> box_inv (Ok (p, box_init_state n Q c A cfg p)).
Proof.
  intros Sp. unfold box_init_state. destruct (residuals n Q c A (bx p) (bz p) (by_ p)) as [pr dr] eqn:E. unfold box_inv. cbn [o_rho o_lin o_status o_error o_pres o_dres ss_rho]. rewrite E. split; [exact Sp|].
  split; [right; exists (rho_start cfg); split; [reflexivity|apply Hrho]|]. repeat split. discriminate.
Qed.
Lemma iter_inv p k : shaped p -> box_inv (Nat.iter k (box_step n Q c A l u eps_div lin_solve cfg) (Ok (p, box_init_state n Q c A cfg p))).
Proof. intros Sp. induction k; simpl; [apply init_inv; exact Sp|apply step_inv; assumption]. Qed.
(** An update that ends SOLVED after a check has finite residuals, a feasible z and a normal y. *)
Lemma solved_step p st p' st' : box_inv (Ok (p, st)) -> o_status st <> SOLVED -> box_step n Q c A l u eps_div lin_solve cfg (Ok (p, st)) = Ok (p', st') -> o_status st' = SOLVED ->
  exists x z y e f, p' = full_kkt (fin x) (fin z) (fin y) /\ length x = n /\ in_box l u z /\ normal_to_box l u y z /\
    is_inf_norm (vsub (mvec A x) z) e /\ is_inf_norm (vadd (vadd (mvec Q x) c) (tvec n A y)) f /\ e <= osqp_tol cfg /\ f <= osqp_tol cfg /\ o_error st' = Fin (Rmax e f).
Proof.
  intros (Sp & Rk & Sy & St & _) Hns H Hs. unfold box_step, box_update in H.
  destruct (admm_step n c A l u lin_solve cfg p (o_rho st) (o_lin st)) as [[[x z] y] ss] eqn:Es. destruct (step_shaped _ _ _ _ _ _ _ Sp Es) as (Lx & Lz & Ly & Er).
  destruct (residuals n Q c A x z y) as [pres dres] eqn:Eres.
  destruct (if Nat.eqb (Nat.modulo (o_iter st) (step_freq cfg)) 0 then update_stepsize n Q c A eps_div cfg (o_rho st) ss pres dres x y else (o_rho st, ss)) as [rho' ss'] eqn:Eu.
  destruct (if Nat.eqb (Nat.modulo (o_iter st) (term_freq cfg)) 0 then check_termination n Q c A l u cfg pres dres p (full_kkt x z y) else (o_error st, o_status st)) as [e s] eqn:Et.
  destruct (_ && _)%bool; [discriminate|]. injection H as <- <-. simpl in Hs. subst s.
  destruct (Nat.eqb (Nat.modulo (o_iter st) (term_freq cfg)) 0); [|injection Et as _ Et; congruence].
  destruct (termination_status _ _ _ _ _ Et) as [Ee Hle]. unfold compute_error in Ee. simpl in Ee.
  assert (Hpos := qp_pos _ _ _ _ _ _ _ HP). assert (La := proj1 HA). assert (Lq := proj1 HQ). assert (Lc := qp_c _ _ _ _ _ _ _ HP).
  unfold residuals in Eres. injection Eres as Ep Ed.
  assert (Lp : length pres = m) by (rewrite <- Ep, xvsub_length, xmvec_length; unfold finm; rewrite map_length; unfold mat, xvec, vec in *; lia).
  assert (Ld : length dres = n) by (rewrite <- Ed, !xvadd_length, xmvec_length, (xtvec_length m n) by exact HA; unfold finm; rewrite map_length, fin_length; unfold mat, xvec, vec in *; lia).
  rewrite Ee in Hle. destruct (error_small pres dres (osqp_tol cfg)) as (rp & rd & ep & ed & Erp & Erd & Np & Nd & Hep & Hed & Emax); [intros ->; simpl in Lp; lia|intros ->; simpl in Ld; lia|exact Hle|].
  (* x, z, y are finite *)
  destruct (xvsub_inv (xmvec (finm A) x) z rp) as (ax & z0 & Eax & Ez); [rewrite xmvec_length; unfold finm; rewrite map_length; unfold mat, xvec, vec in *; lia|congruence|].
  destruct (xmvec_inv m n A x ax HA ltac:(lia) Lx Eax) as (x0 & Ex).
  destruct (xvadd_inv (xvadd (xmvec (finm Q) x) (fin c)) (xtvec n (finm A) y) rd) as (_ & aty & _ & Eaty); [rewrite xvadd_length, xmvec_length, (xtvec_length m n) by exact HA; unfold finm; rewrite map_length, fin_length; unfold mat, xvec, vec in *; lia|congruence|].
  destruct (xtvec_inv m n A y aty HA ltac:(lia) Ly Eaty) as (y0 & Ey).
  (* the dual step *)
  unfold admm_step in Es. cbv zeta in Es. injection Es as Ex' Ez' Ey' Ess.
  set (zm := xvadd (bz p) (xsmul (Fin (momentum cfg)) (xvsub (xmvec (finm A) (lin_solve (ss_rho (o_lin st)) (ss_prev (o_lin st)) (linear_rhs n c A cfg (bx p) (bz p) (by_ p) (o_rho st)))) (bz p)))) in *.
  destruct Sp as (Lx0 & Lz0 & Ly0).
  assert (Lzm : length zm = m) by (unfold zm; rewrite xvadd_length, xsmul_length, xvsub_length, xmvec_length; unfold finm; rewrite map_length; unfold mat, xvec, vec in *; lia).
  destruct Rk as [Rk | (r & Rk & Hr)].
  { exfalso. rewrite Rk in Ey'. rewrite Ey in Ey'. match type of Ey' with xvadd _ (xsmul NaN ?d) = _ => set (dd := d) in * end.
    assert (Ldd : length dd = m) by (unfold dd; rewrite xvsub_length; rewrite Rk in Ez'; rewrite Ez'; unfold xvec in *; lia).
    destruct (xvadd_inv (by_ p) (xsmul NaN dd) y0) as (_ & t & _ & Et'); [rewrite xsmul_length; congruence|exact Ey'|].
    destruct (xsmul_inv NaN dd t) as (a & _ & Ea & _); [intros C; rewrite C in Ldd; simpl in Ldd; lia|exact Et'|]. discriminate. }
  rewrite Rk in Ez', Ey'. rewrite Ey in Ey'. destruct (normal_step zm (by_ p) r y0 Lzm Ly0 Hr Ey') as (_ & _ & z1 & _ & _ & Ez1 & _ & HI & HN).
  assert (Ez2 : z = fin z1) by (rewrite <- Ez'; exact Ez1). rewrite Ez in Ez2. apply fin_inj in Ez2. subst z1.
  exists x0, z0, y0, ep, ed. rewrite Ex, Ey, Ez. split; [reflexivity|]. split; [rewrite <- Lx, Ex, fin_length; reflexivity|]. split; [exact HI|]. split; [exact HN|].
  rewrite Erp, Ex, Ez, xmvec_fin, xvsub_fin in Ep. apply fin_inj in Ep. rewrite Erd, Ex, Ey, xmvec_fin, xvadd_fin, xtvec_fin, xvadd_fin in Ed. apply fin_inj in Ed.
  rewrite Ep, Ed. repeat split; try assumption; try apply Np; try apply Nd. simpl. rewrite Ee. exact Emax.
Qed.
Lemma run_solved p p' st' : shaped p -> box_run_from n Q c A l u eps_div lin_solve cfg p = Ok (p', st') -> o_status st' = SOLVED ->
  exists x z y e f, p' = full_kkt (fin x) (fin z) (fin y) /\ length x = n /\ in_box l u z /\ normal_to_box l u y z /\
    is_inf_norm (vsub (mvec A x) z) e /\ is_inf_norm (vadd (vadd (mvec Q x) c) (tvec n A y)) f /\ e <= osqp_tol cfg /\ f <= osqp_tol cfg /\ o_error st' = Fin (Rmax e f).
Proof.
  intros Sp H Hs. unfold box_run_from in H. destruct (Nat.eq_dec (osqp_maxiter cfg) 0) as [Z|Z].
  { rewrite Z in H. simpl in H. injection H as <- <-. unfold box_init_state in Hs. destruct (residuals _ _ _ _ _ _ _) in Hs. discriminate. }
  destruct (run_loop_spec (osqp_maxiter cfg) (box_cond cfg) (box_step n Q c A l u eps_div lin_solve cfg) (Ok (p, box_init_state n Q c A cfg p)) ltac:(lia)) as (k & Hk & Er & Hc & _).
  rewrite Er in H. destruct k as [|k]; [lia|]. simpl in H. assert (Iv := iter_inv p k Sp). set (r := Nat.iter k (box_step n Q c A l u eps_div lin_solve cfg) (Ok (p, box_init_state n Q c A cfg p))) in *.
  destruct r as [[q sq]|e] eqn:Eq; [|discriminate].
  apply (solved_step q sq p' st' Iv); [|exact H|exact Hs]. intros C. destruct k as [|k].
  - unfold r in Eq. simpl in Eq. injection Eq as <- <-. unfold box_init_state in C. destruct (residuals _ _ _ _ _ _ _) in C. discriminate.
  - specialize (Hc (S k) ltac:(lia)). fold r in Hc. rewrite Eq in Hc. simpl in Hc. destruct Iv as (_ & _ & _ & St & _). specialize (St C).
    destruct (o_error sq) as [e'| | |]; simpl in *; try discriminate. destruct (Rle_dec e' (osqp_tol cfg)); [|discriminate]. destruct (Rlt_dec _ _) in Hc; [lra|discriminate].
Qed.
End Step.
