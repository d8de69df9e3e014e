(** Lemmas for C51: regularised maxima over columns, and their sums. *)
From Coq Require Import Reals List Bool Lra Lia.
From Verif Require Import Prelude Vec XArith Proj ProjProofs SimplexProofs Loss LossProofs Mirror MirrorTheorems Transport.
Import ListNotations.
Open Scope R_scope.

(** v(x) = max over K of <x, q> - Om(q), attained only at P(x); v is locally below its tangent plus a quadratic. *)
Record colmax (m : nat) (K : vec -> Prop) (Om : vec -> R) (v : vec -> R) (P : vec -> vec) : Prop := {
  cm_len : forall q, K q -> length q = m;
  cm_in : forall x, length x = m -> K (P x);
  cm_val : forall x, length x = m -> v x = dot x (P x) - Om (P x);
  cm_max : forall x q, length x = m -> K q -> dot x q - Om q <= v x;
  cm_uniq : forall x q, length x = m -> K q -> v x <= dot x q - Om q -> q = P x;
  cm_smooth : forall x, length x = m -> exists L rho, 0 <= L /\ 0 < rho /\ forall u, length u = m -> dot u u <= rho -> v (vadd x u) <= v x + dot (P x) u + L * dot u u }.

Lemma strong_colmax m (K : vec -> Prop) (Om v : vec -> R) (P : vec -> vec) sigma : 0 < sigma -> (forall q, K q -> length q = m) -> (forall x, length x = m -> K (P x)) ->
  (forall x, length x = m -> v x = dot x (P x) - Om (P x)) ->
  (forall x q, length x = m -> K q -> dot x q - Om q + sigma / 2 * dist2 q (P x) <= v x) -> colmax m K Om v P.
Proof.
  intros Hs HL HI HV HM. split; try assumption.
  - intros x q Lx Hq. assert (H := HM x q Lx Hq). assert (N := dist2_nonneg q (P x)). nra.
  - intros x q Lx Hq Hle. assert (H := HM x q Lx Hq). assert (N := dist2_nonneg q (P x)). apply dist2_zero; [rewrite (HL q Hq), (HL _ (HI x Lx)); reflexivity|]. nra.
  - intros x Lx. exists (/ (2 * sigma)), 1. split; [left; apply Rinv_0_lt_compat; lra|]. split; [lra|]. intros u Lu _.
    assert (Lxu : length (vadd x u) = m) by (rewrite vadd_length; lia). set (q := P (vadd x u)). assert (Hq := HI _ Lxu). fold q in Hq.
    rewrite (HV _ Lxu). fold q. assert (H := HM x q Lx Hq). set (p := P x) in *.
    assert (Sq := dot_self_nonneg (vsub u (smul sigma (vsub q p)))).
    assert (E : dot (vsub u (smul sigma (vsub q p))) (vsub u (smul sigma (vsub q p))) = dot u u - 2 * sigma * (dot u q - dot p u) + sigma * sigma * dist2 q p) by vring.
    rewrite E in Sq. assert (Kk : dot u q - dot p u - sigma / 2 * dist2 q p <= / (2 * sigma) * dot u u).
    { apply (Rmult_le_reg_r (2 * sigma)); [lra|]. replace (/ (2 * sigma) * dot u u * (2 * sigma)) with (dot u u) by (field; lra). nra. }
    rewrite dot_vadd_l. lra.
Qed.

(** Sums over columns. *)
Record col := { cK : vec -> Prop; cv : vec -> R; cP : vec -> vec }.
Section Columns.
Variables (m : nat) (Om : vec -> R).
Definition col_ok (c : col) : Prop := colmax m (cK c) Om (cv c) (cP c).
Definition csum (cols : list col) (xs : list vec) : R := vsum (zipw cv cols xs).
Definition cplan (cols : list col) (xs : list vec) : list vec := zipw cP cols xs.
Definition osum (Q : list vec) : R := vsum (map Om Q).
Lemma cplan_in cols : forall xs, Forall col_ok cols -> length xs = length cols -> matrix m xs -> Forall2 cK cols (cplan cols xs).
Proof.
  induction cols as [|c cols IH]; intros [|x xs] Hc L Hm; try discriminate; [constructor|]. inversion Hc; subst. unfold cplan. cbn [zipw]. constructor; [apply (cm_in _ _ _ _ _ H1); apply Hm; left; reflexivity|]. apply IH; [assumption|cbn in L; lia|intros z Hz; apply Hm; right; exact Hz].
Qed.
Lemma csum_val cols : forall xs, Forall col_ok cols -> length xs = length cols -> matrix m xs -> csum cols xs = mdot xs (cplan cols xs) - osum (cplan cols xs).
Proof.
  induction cols as [|c cols IH]; intros [|x xs] Hc L Hm; try discriminate; [cbn; unfold mdot, osum; cbn; ring|]. inversion Hc; subst. unfold csum, mdot, osum, cplan. cbn [zipw map vsum].
  specialize (IH xs H2 ltac:(cbn in L; lia) (fun z Hz => Hm z (or_intror Hz))). unfold csum, mdot, osum, cplan in IH. rewrite IH. rewrite (cm_val _ _ _ _ _ H1 x (Hm x (or_introl eq_refl))). ring.
Qed.
Lemma csum_max cols : forall xs Q, Forall col_ok cols -> length xs = length cols -> matrix m xs -> Forall2 cK cols Q ->
  mdot xs Q - osum Q <= csum cols xs /\ (csum cols xs <= mdot xs Q - osum Q -> Q = cplan cols xs).
Proof.
  induction cols as [|c cols IH]; intros [|x xs] Q Hc L Hm HQ; try discriminate; inversion HQ; subst; [cbn; unfold mdot, osum; cbn; split; [lra|reflexivity]|]. inversion Hc; subst. rename y into q. rename l' into Q'.
  destruct (IH xs Q' H4 ltac:(cbn in L; lia) (fun z Hz => Hm z (or_intror Hz)) H3) as [I1 I2]. assert (Lx := Hm x (or_introl eq_refl)).
  assert (M := cm_max _ _ _ _ _ H2 x q Lx H1). assert (U := cm_uniq _ _ _ _ _ H2 x q Lx H1).
  unfold csum, mdot, osum, cplan in *. cbn [zipw map vsum] in *. split; [lra|]. intros Hle. f_equal; [apply U; lra|apply I2; lra].
Qed.
Lemma csum_smooth cols : forall xs, Forall col_ok cols -> length xs = length cols -> matrix m xs -> exists L rho, 0 <= L /\ 0 < rho /\
  forall us, length us = length cols -> matrix m us -> mdot us us <= rho -> csum cols (zipw vadd xs us) <= csum cols xs + mdot (cplan cols xs) us + L * mdot us us.
Proof.
  assert (MN : forall us, 0 <= mdot us us) by (intros us; unfold mdot; induction us as [|u us IH]; cbn [zipw vsum]; [lra|]; assert (N := dot_self_nonneg u); lra).
  induction cols as [|c cols IH]; intros [|x xs] Hc L Hm; try discriminate.
  - exists 0, 1. split; [lra|]. split; [lra|]. intros us Lus _ _. unfold csum, mdot, cplan. destruct us; [|discriminate]. cbn. lra.
  - inversion Hc; subst. destruct (IH xs H2 ltac:(cbn in L; lia) (fun z Hz => Hm z (or_intror Hz))) as (L2 & r2 & HL2 & Hr2 & S2).
    destruct (cm_smooth _ _ _ _ _ H1 x (Hm x (or_introl eq_refl))) as (L1 & r1 & HL1 & Hr1 & S1).
    exists (Rmax L1 L2), (Rmin r1 r2). assert (A1 := Rmax_l L1 L2). assert (A2 := Rmax_r L1 L2). assert (B1 := Rmin_l r1 r2). assert (B2 := Rmin_r r1 r2). split; [lra|]. split; [apply Rmin_glb_lt; assumption|].
    intros [|u us] Lus Hus Hr; [discriminate|]. unfold csum, mdot, cplan in *. cbn [zipw vsum] in *.
    assert (N1 := dot_self_nonneg u). assert (N2 := MN us). unfold mdot in N2.
    assert (T1 := S1 u (Hus u (or_introl eq_refl)) ltac:(lra)). assert (T2 := S2 us ltac:(cbn in Lus; lia) (fun z Hz => Hus z (or_intror Hz)) ltac:(lra)). nra.
Qed.
End Columns.

(** ** The four column problems *)
Definition bsimplex (m : nat) (b : R) (q : vec) : Prop := simplex m b q.
Definition nonneg_vec (m : nat) (q : vec) : Prop := length q = m /\ forall i, (i < m)%nat -> 0 <= nth i q 0.
Definition om (r : regulariser) (gamma : R) (q : vec) : R := match r with RL2 => gamma / 2 * dot q q | REnt => gamma * shannon q end.
Lemma osum_omega r gamma Q : osum (om r gamma) Q = omega r gamma Q.
Proof.
  unfold osum, omega, mdot. destruct r; cbn [om].
  - induction Q as [|q Q IH]; cbn [map vsum zipw]; [ring|]. cbn [om] in *. rewrite IH. ring.
  - induction Q as [|q Q IH]; cbn [map vsum]; [ring|]. cbn [om] in *. rewrite IH. ring.
Qed.
Lemma smul_map c x : map (fun a => a / c) x = smul (/ c) x.
Proof. unfold smul. apply map_ext. intros a. unfold Rdiv. ring. Qed.
Lemma simplex_scale m b q : 0 < b -> simplex m b q -> simplex m 1 (smul (/ b) q).
Proof.
  intros Hb (L & P & S). split; [rewrite smul_length; exact L|]. split; [intros i Hi; rewrite nth_smul; apply Rmult_le_pos; [left; apply Rinv_0_lt_compat; exact Hb|apply P; exact Hi]|]. rewrite vsum_smul, S. field. lra.
Qed.
Lemma simplex_unscale m b p : 0 < b -> simplex m 1 p -> simplex m b (smul b p).
Proof.
  intros Hb (L & P & S). split; [rewrite smul_length; exact L|]. split; [intros i Hi; rewrite nth_smul; apply Rmult_le_pos; [lra|apply P; exact Hi]|]. rewrite vsum_smul, S. ring.
Qed.
Lemma smul_inv b (q : vec) : b <> 0 -> smul b (smul (/ b) q) = q.
Proof. intros Hb. unfold smul. rewrite map_map. rewrite <- (map_id q) at 2. apply map_ext. intros a. field. exact Hb. Qed.

Lemma col_l2 m gamma b : (0 < m)%nat -> 0 < gamma -> 0 < b ->
  colmax m (simplex m b) (om RL2 gamma) (fun x => b * max_l2 x b gamma) (fun x => smul b (max_l2_grad x b gamma)).
Proof.
  intros Hm Hg Hb. apply (strong_colmax _ _ _ _ _ gamma Hg).
  - intros q [L _]. exact L.
  - intros x Lx. apply simplex_unscale; [exact Hb|]. unfold max_l2_grad. assert (H : (map (fun a => a / (gamma * b)) x) <> []) by (destruct x; [cbn in Lx; lia|discriminate]).
    destruct (simplex_vi _ 1 H ltac:(lra)) as [H1 _]. rewrite map_length, Lx in H1. exact H1.
  - intros x Lx. unfold max_l2, max_l2_grad. cbn [om]. vexpand. field.
  - intros x q Lx Hq. unfold max_l2, max_l2_grad. cbn [om]. assert (H : (map (fun a => a / (gamma * b)) x) <> []) by (destruct x; [cbn in Lx; lia|discriminate]).
    destruct (simplex_vi _ 1 H ltac:(lra)) as [_ V]. rewrite map_length, Lx in V. specialize (V _ (simplex_scale m b q Hb Hq)). rewrite smul_map in *. set (p := projection_simplex (smul (/ (gamma * b)) x) 1) in *.
    assert (E : dot (vsub (smul (/ (gamma * b)) x) p) (vsub (smul (/ b) q) p) = / (gamma * b * b) * (dot x q - b * dot x p - gamma * b * dot p q + gamma * b * b * dot p p)) by (vexpand; rewrite ?(dot_comm q p); field; split; lra).
    rewrite E in V. assert (Pg : 0 < gamma * b * b) by (apply Rmult_lt_0_compat; [apply Rmult_lt_0_compat|]; assumption).
    assert (V2 : dot x q - b * dot x p - gamma * b * dot p q + gamma * b * b * dot p p <= 0).
    { apply (Rmult_le_reg_l (/ (gamma * b * b))); [apply Rinv_0_lt_compat; exact Pg|]. lra. }
    assert (E2 : dist2 q (smul b p) = dot q q - 2 * b * dot p q + b * b * dot p p) by (vexpand; rewrite ?(dot_comm q p); ring). rewrite E2. nra.
Qed.

Lemma xlogx_scale b q : 0 < b -> 0 <= q -> xlogx (b * q) = b * xlogx q + b * ln b * q.
Proof.
  intros Hb Hq. unfold xlogx. destruct (Req_EM_T q 0) as [->|Hq0]; [destruct (Req_EM_T (b * 0) 0); [ring|nra]|]. destruct (Req_EM_T (b * q) 0); [nra|]. rewrite ln_mult by lra. ring.
Qed.
Lemma shannon_scale m b q : 0 < b -> length q = m -> (forall i, (i < m)%nat -> 0 <= nth i q 0) -> shannon (smul b q) = b * shannon q + b * ln b * vsum q.
Proof.
  intros Hb. unfold shannon. revert m. induction q as [|a q IH]; intros m L H; [cbn; ring|]. destruct m as [|m]; [discriminate|]. cbn [smul map vsum]. fold (smul b q). rewrite (IH m) by (cbn in L; try lia; intros i Hi; apply (H (S i)); lia). rewrite xlogx_scale by (try exact Hb; apply (H 0%nat); lia). ring.
Qed.
Lemma softmax_pos_simplex n y : (0 < n)%nat -> length y = n -> pos_simplex n (softmax y).
Proof. intros Hn Ly. destruct (C50_kl n Hn) as [G _]. apply (mg_proj _ _ _ _ _ _ G y Ly). Qed.
Lemma dot_repeat c n : forall v : vec, length v = n -> dot (repeat c n) v = c * vsum v.
Proof. induction n as [|n IH]; intros [|a v] L; try discriminate; cbn [repeat dot vsum]; [ring|]. rewrite IH by (cbn in L; lia). ring. Qed.
Lemma lse_strong n s q : (0 < n)%nat -> length s = n -> simplex n 1 q -> dot s q - shannon q + dist2 q (softmax s) / 2 <= logsumexp s.
Proof.
  intros Hn Ls Hq. assert (Hp := softmax_pos_simplex n s Hn Ls). assert (Kl := kl_strong n _ q Hp Hq). destruct (lse_max_fun n Hn) as [_ Mx]. destruct (Mx s Ls) as (Hp1 & HV & _). rewrite HV.
  assert (Hne : s <> []) by (intros ->; cbn in Ls; lia). assert (Sp := sumexp_pos s Hne).
  assert (Lp : length (softmax s) = n) by apply Hp1. assert (Lq : length q = n) by apply Hq.
  assert (E : kl_map (softmax s) = vsub s (repeat (ln (vsum (map exp s))) n)).
  { unfold kl_map, softmax. rewrite map_map. set (t := vsum (map exp s)) in *. clearbody t. clear -Ls Sp. revert n Ls. induction s as [|a s IH]; intros n Ls; [subst n; reflexivity|]. destruct n as [|n]; [discriminate|]. cbn [map repeat vsub]. f_equal; [|apply IH; cbn in Ls; lia].
    unfold Rdiv. rewrite ln_mult, ln_exp, ln_Rinv by (try apply exp_pos; try apply Rinv_0_lt_compat; assumption). ring. }
  rewrite E in Kl. unfold kl_gen in Kl. destruct Hp1 as (_ & _ & S1). destruct Hq as (_ & _ & S2). rewrite S1, S2 in Kl.
  assert (E2 : dot (repeat (ln (vsum (map exp s))) n) (vsub q (softmax s)) = 0).
  { rewrite dot_repeat by (rewrite vsub_length; unfold vec in *; lia). rewrite vsum_vsub, S1, S2. ring. }
  rewrite dot_vsub_l, E2, dot_vsub_r in Kl. lra.
Qed.
Lemma col_ent m gamma b : (0 < m)%nat -> 0 < gamma -> 0 < b ->
  colmax m (simplex m b) (om REnt gamma) (fun x => b * max_ent x b gamma) (fun x => smul b (max_ent_grad x b gamma)).
Proof.
  intros Hm Hg Hb. apply (strong_colmax _ _ _ _ _ (gamma / b)); [apply Rdiv_lt_0_compat; assumption|intros q [L _]; exact L| | |].
  - intros x Lx. apply simplex_unscale; [exact Hb|]. unfold max_ent_grad. apply softmax_pos_simplex; [exact Hm|rewrite map_length; exact Lx].
  - intros x Lx. unfold max_ent, max_ent_grad. rewrite smul_map. set (s := smul (/ gamma) x). assert (Ls : length s = m) by (unfold s; rewrite smul_length; exact Lx).
    destruct (lse_max_fun m Hm) as [_ Mx]. destruct (Mx s Ls) as ((L1 & P1 & S1) & HV & _). rewrite HV. cbn [om]. rewrite (shannon_scale m) by assumption. rewrite S1.
    assert (E : dot s (softmax s) = / gamma * dot x (softmax s)) by (unfold s at 1; rewrite dot_smul_l; reflexivity). rewrite E, dot_smul_r. field. lra.
  - intros x q Lx Hq. unfold max_ent, max_ent_grad. rewrite smul_map. set (s := smul (/ gamma) x). assert (Ls : length s = m) by (unfold s; rewrite smul_length; exact Lx).
    assert (Hq1 := simplex_scale m b q Hb Hq). assert (St := lse_strong m s _ Hm Ls Hq1). cbn [om].
    set (q1 := smul (/ b) q) in *. assert (Eq : q = smul b q1) by (unfold q1; rewrite smul_inv by lra; reflexivity). rewrite Eq. destruct Hq1 as (L1 & P1 & S1). rewrite (shannon_scale m) by assumption. rewrite S1.
    assert (E : dot s q1 = / gamma * dot x q1) by (unfold s; rewrite dot_smul_l; reflexivity). rewrite E in St.
    assert (E2 : dist2 (smul b q1) (smul b (softmax s)) = b * b * dist2 q1 (softmax s)) by vring. rewrite E2, dot_smul_r.
    apply (Rmult_le_compat_l (gamma * b)) in St; [|apply Rmult_le_pos; lra].
    replace (gamma * b * (/ gamma * dot x q1 - shannon q1 + dist2 q1 (softmax s) / 2)) with (b * dot x q1 - gamma * b * shannon q1 + gamma * b * dist2 q1 (softmax s) / 2) in St by (field; lra).
    replace (gamma / b / 2 * (b * b * dist2 q1 (softmax s))) with (gamma * b * dist2 q1 (softmax s) / 2) by (field; lra). lra.
Qed.
Lemma relu_cases a : (0 <= a /\ relu a = a) \/ (a < 0 /\ relu a = 0).
Proof. unfold relu, Rmax. destruct (Rle_dec a 0); lra. Qed.
Lemma col_delta_l2 m gamma : 0 < gamma -> colmax m (nonneg_vec m) (om RL2 gamma) (fun x => delta_l2 x gamma) (fun x => delta_l2_grad x gamma).
Proof.
  intros Hg. apply (strong_colmax _ _ _ _ _ gamma Hg).
  - intros q [L _]; exact L.
  - intros x Lx. unfold delta_l2_grad. split; [rewrite map_length; exact Lx|]. intros i Hi. rewrite (nth_indep _ 0 ((fun a => relu a / gamma) 0)) by (rewrite map_length; lia). rewrite (map_nth (fun a => relu a / gamma)).
    apply Rmult_le_pos; [destruct (relu_cases (nth i x 0)); lra|left; apply Rinv_0_lt_compat; exact Hg].
  - intros x Lx. unfold delta_l2, delta_l2_grad. cbn [om]. clear Lx. induction x as [|a x IH]; cbn [map dot]; [ring|].
    destruct (relu_cases a) as [[A ->]|[A ->]]; rewrite Rmult_plus_distr_l, IH; field; lra.
  - intros x q Lx [Lq Pq]. unfold delta_l2, delta_l2_grad. cbn [om]. unfold dist2, sqnorm. revert x q Lx Lq Pq. induction m as [|m IH]; intros [|a x] [|c q] Lx Lq Pq; try discriminate; [cbn; lra|].
    specialize (IH x q ltac:(cbn in Lx; lia) ltac:(cbn in Lq; lia) (fun i Hi => Pq (S i) ltac:(lia))). assert (Hc := Pq 0%nat ltac:(lia)). cbn [nth] in Hc. cbn [map dot vsub].
    assert (E : a * c - gamma / 2 * (c * c) + gamma / 2 * ((c - relu a / gamma) * (c - relu a / gamma)) <= / 2 / gamma * (relu a * relu a)).
    { replace (a * c - gamma / 2 * (c * c) + gamma / 2 * ((c - relu a / gamma) * (c - relu a / gamma))) with (c * (a - relu a) + / 2 / gamma * (relu a * relu a)) by (field; lra). destruct (relu_cases a) as [[A ->]|[A ->]]; nra. }
    lra.
Qed.
Lemma exp_quad s : s <= / 2 -> exp s <= 1 + s + 2 * (s * s).
Proof.
  intros Hs. assert (A := exp_ineq1_le (- s)). rewrite exp_Ropp in A. assert (Pe := exp_pos s).
  assert (B : exp s * (1 + - s) <= 1) by (apply (Rmult_le_compat_l (exp s)) in A; [|lra]; rewrite Rinv_r in A by lra; exact A).
  apply Rnot_lt_le. intros C. assert ((1 + s + 2 * (s * s)) * (1 - s) < exp s * (1 - s)) by (apply Rmult_lt_compat_r; lra). nra.
Qed.
Lemma ent_elem gamma x q : 0 < gamma -> 0 <= q -> let p := exp (x / gamma - 1) in x * q - gamma * xlogx q <= gamma * p /\ (gamma * p <= x * q - gamma * xlogx q -> q = p).
Proof.
  intros Hg Hq p. assert (Pp : 0 < p) by apply exp_pos. unfold xlogx. destruct (Req_EM_T q 0) as [->|Hq0]; [split; [nra|intros; nra]|]. assert (Qp : 0 < q) by lra.
  assert (Ex : x = gamma * (1 + ln p)) by (unfold p; rewrite ln_exp; field; lra).
  assert (R0 : 0 < p / q) by (apply Rdiv_lt_0_compat; assumption). assert (Lr : ln p = ln q + ln (p / q)) by (unfold Rdiv; rewrite ln_mult, ln_Rinv by (try apply Rinv_0_lt_compat; assumption); ring).
  assert (E : x * q - gamma * (q * ln q) = gamma * q * (1 + ln (p / q))) by (rewrite Ex, Lr; ring). rewrite E.
  assert (Ge : gamma * p = gamma * q * (p / q)) by (field; lra). rewrite Ge. assert (Gq : 0 < gamma * q) by (apply Rmult_lt_0_compat; assumption).
  assert (Ln : 1 + ln (p / q) <= p / q) by (assert (T := exp_ineq1_le (ln (p / q))); rewrite exp_ln in T by exact R0; exact T).
  split; [apply Rmult_le_compat_l; lra|]. intros H. apply Rmult_le_reg_l in H; [|exact Gq].
  destruct (Req_dec (ln (p / q)) 0) as [Z|Z].
  - assert (p / q = 1) by (rewrite <- (exp_ln (p / q) R0), Z; apply exp_0). apply (Rmult_eq_reg_r (/ q)); [|apply Rinv_neq_0_compat; lra]. rewrite Rinv_r by lra. symmetry. assumption.
  - assert (T := exp_ineq1 (ln (p / q)) Z). rewrite exp_ln in T by exact R0. lra.
Qed.
Lemma col_delta_ent m gamma : 0 < gamma -> colmax m (nonneg_vec m) (om REnt gamma) (fun x => delta_ent x gamma) (fun x => delta_ent_grad x gamma).
Proof.
  intros Hg. unfold delta_ent, delta_ent_grad. cbn [om].
  assert (MX : forall x q, length x = m -> nonneg_vec m q -> dot x q - gamma * shannon q <= gamma * vsum (map (fun a => exp (a / gamma - 1)) x) /\
     (gamma * vsum (map (fun a => exp (a / gamma - 1)) x) <= dot x q - gamma * shannon q -> q = map (fun a => exp (a / gamma - 1)) x)).
  { unfold shannon. induction m as [|m' IH]; intros [|a x] [|c q] Lx [Lq Pq]; try discriminate; [cbn; split; [lra|reflexivity]|].
    destruct (IH x q ltac:(cbn in Lx; lia)) as [I1 I2]; [split; [cbn in Lq; lia|intros i Hi; apply (Pq (S i)); lia]|].
    destruct (ent_elem gamma a c Hg (Pq 0%nat ltac:(lia))) as [E1 E2]. cbn [map dot vsum]. split; [lra|]. intros H. f_equal; [apply E2; lra|apply I2; lra]. }
  split.
  - intros q [L _]; exact L.
  - intros x Lx. split; [rewrite map_length; exact Lx|]. intros i Hi. rewrite (nth_indep _ 0 ((fun a => exp (a / gamma - 1)) 0)) by (rewrite map_length; lia). rewrite (map_nth (fun a => exp (a / gamma - 1))). left. apply exp_pos.
  - intros x Lx. clear -Hg. cbn [om]. unfold shannon. induction x as [|a x IH]; [cbn; ring|]. cbn [map dot vsum]. rewrite Rmult_plus_distr_l, IH.
    assert (X0 : xlogx (exp (a / gamma - 1)) = exp (a / gamma - 1) * (a / gamma - 1)) by (unfold xlogx; assert (T := exp_pos (a / gamma - 1)); destruct (Req_EM_T (exp (a / gamma - 1)) 0); [lra|rewrite ln_exp; reflexivity]). rewrite X0. field. lra.
  - intros x q Lx Hq. apply (MX x q Lx Hq).
  - intros x q Lx Hq. apply (MX x q Lx Hq).
  - intros x Lx. set (T := vsum (map (fun a => exp (a / gamma - 1)) x)).
    exists (2 / gamma * T), (gamma * gamma / 4).
    assert (Pt : 0 <= T) by (unfold T; clear; induction x as [|a x IH]; cbn [map vsum]; [lra|]; assert (Q := exp_pos (a / gamma - 1)); lra).
    split; [apply Rmult_le_pos; [left; apply Rdiv_lt_0_compat; lra|exact Pt]|]. split; [nra|]. intros u Lu Hu.
    assert (Hi : forall a, In a u -> a / gamma <= / 2 /\ a * a <= dot u u).
    { assert (Sq : forall a, In a u -> a * a <= dot u u) by (clear; induction u as [|b u IH]; intros a Ha; [destruct Ha|]; cbn [dot]; destruct Ha as [->|H]; [assert (N := dot_self_nonneg u); lra|assert (N := IH a H); nra]).
      intros a Ha. split; [|apply Sq; exact Ha]. specialize (Sq a Ha). apply (Rmult_le_reg_r gamma); [exact Hg|]. unfold Rdiv. rewrite Rmult_assoc, Rinv_l by lra. apply Rnot_lt_le. intros C. assert (gamma * gamma / 4 < a * a) by nra. lra. }
    set (D := dot u u) in *. assert (Pd : 0 <= D) by apply dot_self_nonneg. clearbody D. unfold T. clear T Pt MX Hu.
    assert (G : vsum (map (fun a => exp (a / gamma - 1)) (vadd x u)) <= vsum (map (fun a => exp (a / gamma - 1)) x) + / gamma * dot (map (fun a => exp (a / gamma - 1)) x) u + 2 / gamma / gamma * (vsum (map (fun a => exp (a / gamma - 1)) x)) * D).
    { revert m Lx Lu. revert u Hi. induction x as [|a x IH]; intros [|c u] Hi m Lx Lu; subst m; try discriminate; [cbn; lra|]. cbn [vadd map vsum dot].
      specialize (IH u (fun z Hz => Hi z (or_intror Hz)) (length x) eq_refl ltac:(cbn in Lu; lia)). destruct (Hi c (or_introl eq_refl)) as [H1 H2].
      assert (E := exp_quad (c / gamma) H1). assert (Pe := exp_pos (a / gamma - 1)).
      assert (F : exp ((a + c) / gamma - 1) <= exp (a / gamma - 1) + / gamma * (exp (a / gamma - 1) * c) + 2 / gamma / gamma * exp (a / gamma - 1) * D).
      { replace ((a + c) / gamma - 1) with ((a / gamma - 1) + c / gamma) by (field; lra). rewrite exp_plus.
        apply (Rle_trans _ (exp (a / gamma - 1) * (1 + c / gamma + 2 * (c / gamma * (c / gamma))))); [apply Rmult_le_compat_l; lra|].
        assert (Q : exp (a / gamma - 1) * (2 / gamma / gamma * (c * c)) <= exp (a / gamma - 1) * (2 / gamma / gamma * D)) by (apply Rmult_le_compat_l; [lra|]; apply Rmult_le_compat_l; [|exact H2]; left; repeat apply Rdiv_lt_0_compat; lra).
        replace (exp (a / gamma - 1) * (1 + c / gamma + 2 * (c / gamma * (c / gamma)))) with (exp (a / gamma - 1) + / gamma * (exp (a / gamma - 1) * c) + exp (a / gamma - 1) * (2 / gamma / gamma * (c * c))) by (field; lra). lra. }
      lra. }
    apply (Rmult_le_compat_l gamma) in G; [|lra]. eapply Rle_trans; [exact G|]. right. field. lra.
Qed.
