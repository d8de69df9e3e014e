(** C52, C53: the SciPy wrappers.  Definitions are in Scipy.v. *)
From Coq Require Import String Reals List Bool Lra Lia ZArith.
From Verif Require Import Prelude Vec Proj ProjProofs Scipy.
Import ListNotations.
Open Scope R_scope.

(** ** C52 *)
Theorem C52_rho l z : l <> Huber -> ls_rho l z = scipy_rho l (z * z).
Proof. intros H. destruct l; cbn -[pow]; try (replace (z ^ 2) with (z * z) by ring; reflexivity). contradiction. Qed.
Print Assumptions C52_rho.
(** The Huber loss agrees exactly for residuals that are at least -1. *)
Theorem C52_huber z : ls_rho Huber z = scipy_rho Huber (z * z) <-> -1 <= z.
Proof.
  cbn -[pow]. replace (z ^ 2) with (z * z) by ring. change (z * z) with (Rsqr z). rewrite sqrt_Rsqr_abs. unfold Rsqr. destruct (Rle_dec z 1) as [H|H].
  - destruct (Rle_dec (z * z) 1) as [H2|H2]; split; intros G; try reflexivity; try nra.
    + apply Rnot_lt_le. intros Hz. rewrite Rabs_left in G by lra. assert ((z + 1) * (z + 1) = 0) by lra. nra.
  - destruct (Rle_dec (z * z) 1) as [H2|H2]; [nra|]. split; intros _; [lra|]. rewrite Rabs_right by lra. reflexivity.
Qed.
Print Assumptions C52_huber.

Lemma ls_cost_eq l c rs : c <> 0 -> agrees l c rs -> vsum (map (fun r => ls_rho l (r / c)) rs) * (c * c) = vsum (map (fun r => c * c * scipy_rho l ((r / c) * (r / c))) rs).
Proof.
  intros Hc H. induction rs as [|r rs IH]; [cbn; ring|]. cbn [map vsum].
  assert (E : ls_rho l (r / c) = scipy_rho l ((r / c) * (r / c))).
  { destruct l; try (apply C52_rho; discriminate). apply C52_huber. apply H; [reflexivity|left; reflexivity]. }
  rewrite E, <- IH; [ring|]. intros Hh x Hx. apply H; [exact Hh|right; exact Hx].
Qed.
(** The implemented cost is the documented one divided by the number of residuals. *)
Theorem C52_cost l f_scale residuals : f_scale <> 0 -> residuals <> [] -> agrees l f_scale residuals ->
  INR (length residuals) * ls_cost l f_scale residuals = scipy_cost l f_scale residuals.
Proof.
  intros Hc Hn H. unfold ls_cost, scipy_cost. rewrite <- ls_cost_eq by assumption. rewrite map_length.
  assert (INR (length residuals) <> 0) by (apply not_0_INR; destruct residuals; [contradiction|cbn; lia]). field. assumption.
Qed.
Print Assumptions C52_cost.
(** So with two or more residuals the cost is not the documented 0.5 * sum(...), except when that is zero. *)
Theorem C52_documented_cost_refuted l f_scale residuals : f_scale <> 0 -> (2 <= length residuals)%nat -> agrees l f_scale residuals ->
  ls_cost l f_scale residuals = scipy_cost l f_scale residuals -> scipy_cost l f_scale residuals = 0.
Proof.
  intros Hc Hn H E. assert (K := C52_cost l f_scale residuals Hc ltac:(intros ->; cbn in Hn; lia) H). rewrite E in K.
  assert (2 <= INR (length residuals)) by (apply (le_INR 2) in Hn; cbn in Hn; lra). nra.
Qed.
Print Assumptions C52_documented_cost_refuted.
(** The stationary points are those of the documented cost: along any path of parameters one derivative exists
    when the other does, and they differ by the factor 1/m. *)
Theorem C52_stationary l f_scale m (path : R -> vec) t d : f_scale <> 0 -> (0 < m)%nat -> (forall u, length (path u) = m) ->
  (forall u, agrees l f_scale (path u)) ->
  (derivable_pt_lim (fun u => scipy_cost l f_scale (path u)) t d <-> derivable_pt_lim (fun u => ls_cost l f_scale (path u)) t (d / INR m)).
Proof.
  intros Hc Hm HL HA. assert (Im : INR m <> 0) by (apply not_0_INR; lia).
  assert (E : forall u, scipy_cost l f_scale (path u) = INR m * ls_cost l f_scale (path u)).
  { intros u. rewrite <- (HL u). symmetry. apply C52_cost; [exact Hc| |apply HA]. intros E0. specialize (HL u). rewrite E0 in HL. cbn in HL. lia. }
  replace (fun u => scipy_cost l f_scale (path u)) with (mult_real_fct (INR m) (fun u => ls_cost l f_scale (path u))) by (apply FunctionalExtensionality.functional_extensionality; intros u; unfold mult_real_fct; symmetry; apply E).
  split; intros H.
  - replace (fun u => ls_cost l f_scale (path u)) with (mult_real_fct (/ INR m) (mult_real_fct (INR m) (fun u => ls_cost l f_scale (path u)))) by (apply FunctionalExtensionality.functional_extensionality; intros u; unfold mult_real_fct; field; exact Im).
    unfold Rdiv. rewrite Rmult_comm. apply derivable_pt_lim_scal. exact H.
  - replace d with (INR m * (d / INR m)) by (field; exact Im). apply derivable_pt_lim_scal. exact H.
Qed.
Print Assumptions C52_stationary.

Lemma derivable_local f g x d eps : 0 < eps -> (forall y, Rabs (y - x) < eps -> f y = g y) -> derivable_pt_lim g x d -> derivable_pt_lim f x d.
Proof.
  intros He Hfg Hg e He'. destruct (Hg e He') as [del Hd]. assert (Pm : 0 < Rmin del eps) by (apply Rmin_glb_lt; [apply cond_pos|exact He]).
  exists (mkposreal _ Pm). cbn. intros h Hh Hl. assert (L1 := Rmin_l del eps). assert (L2 := Rmin_r del eps). rewrite !Hfg; [apply Hd; [exact Hh|lra]|rewrite Rminus_diag_eq by reflexivity; rewrite Rabs_R0; lra|replace (x + h - x) with h by ring; lra].
Qed.
Lemma d_sq x : derivable_pt_lim (fun z => z ^ 2) x (2 * x).
Proof. replace (2 * x) with (INR 2 * x ^ pred 2) by (cbn; ring). apply derivable_pt_lim_pow. Qed.
Lemma d_1sq x : derivable_pt_lim (fun z => 1 + z ^ 2) x (2 * x).
Proof. replace (2 * x) with (0 + 2 * x) by ring. apply (derivable_pt_lim_plus (fun _ => 1)); [apply derivable_pt_lim_const|apply d_sq]. Qed.
(** Every implemented loss is differentiable everywhere, in particular the Huber loss at 0 and at 1. *)
Theorem C52_derivative l z : derivable_pt_lim (ls_rho l) z (ls_rho' l z).
Proof.
  assert (P : 0 < 1 + z ^ 2) by (assert (0 <= z ^ 2) by (replace (z ^ 2) with (z * z) by ring; nra); lra).
  destruct l; unfold ls_rho, ls_rho'.
  - apply d_sq.
  - assert (H1 := derivable_pt_lim_comp _ _ z _ _ (d_1sq z) (derivable_pt_lim_sqrt _ P)).
    replace (2 * z / sqrt (1 + z ^ 2)) with (2 * (/ (2 * sqrt (1 + z ^ 2)) * (2 * z) - 0)) by (field; apply Rgt_not_eq, sqrt_lt_R0; exact P).
    apply (derivable_pt_lim_scal (fun z => sqrt (1 + z ^ 2) - 1)). apply (derivable_pt_lim_minus (comp sqrt (fun z => 1 + z ^ 2)) (fun _ => 1)); [exact H1|apply derivable_pt_lim_const].
  - assert (Dl : derivable_pt_lim (fun z => 2 * z - 1) z 2).
    { assert (T : derivable_pt_lim (fun z => 2 * z - 1) z (2 * 1 - 0)); [|replace (2 * 1 - 0) with 2 in T by ring; exact T]. apply (derivable_pt_lim_minus (mult_real_fct 2 id) (fun _ => 1)); [apply derivable_pt_lim_scal, derivable_pt_lim_id|apply derivable_pt_lim_const]. }
    destruct (Rle_dec z 1) as [H|H].
    + destruct (Req_dec z 1) as [->|Hne].
      * intros e He. exists (mkposreal e He). cbn -[pow]. intros h Hh Hl. replace (1 ^ 2) with 1 by ring. destruct (Rle_dec 1 1) as [_|]; [|lra].
        destruct (Rle_dec (1 + h) 1).
        -- replace (((1 + h) ^ 2 - 1) / h - 2 * 1) with h by (field; exact Hh). exact Hl.
        -- replace ((2 * (1 + h) - 1 - 1) / h - 2 * 1) with 0 by (field; exact Hh). rewrite Rabs_R0. exact He.
      * apply (derivable_local _ (fun z => z ^ 2) z _ (1 - z)); [lra| |apply d_sq]. intros y Hy. destruct (Rle_dec y 1); [reflexivity|]. assert (T := Rle_abs (y - z)). lra.
    + apply (derivable_local _ (fun z => 2 * z - 1) z _ (z - 1)); [lra| |exact Dl]. intros y Hy. destruct (Rle_dec y 1); [|reflexivity]. assert (T := Rle_abs (- (y - z))). rewrite Rabs_Ropp in T. lra.
  - replace (2 * z / (1 + z ^ 2)) with (/ (1 + z ^ 2) * (2 * z)) by (unfold Rdiv; ring). apply (derivable_pt_lim_comp (fun z => 1 + z ^ 2) ln); [apply d_1sq|apply derivable_pt_lim_ln; exact P].
  - replace (2 * z / (1 + (z ^ 2) ^ 2)) with (/ (1 + (z ^ 2) ^ 2) * (2 * z)) by (unfold Rdiv; ring). apply (derivable_pt_lim_comp (fun z => z ^ 2) atan); [apply d_sq|apply derivable_pt_lim_atan].
Qed.
Print Assumptions C52_derivative.
(** With the Huber loss the stationary points differ: for the residuals (x - 10, 2 x) SciPy's cost is stationary at
    1/4, where the derivative of the implemented cost - the optimality function used for implicit
    differentiation - is -35/8. *)
Theorem C52_huber_stationary_refuted : exists (path : R -> vec) (sol d : R), d <> 0 /\
  derivable_pt_lim (fun x => scipy_cost Huber 1 (path x)) sol 0 /\ derivable_pt_lim (fun x => ls_cost Huber 1 (path x)) sol d.
Proof.
  exists (fun x => [x - 10; 2 * x]), (/ 4), (- (35 / 8) ). split; [lra|].
  assert (Da : forall c x, derivable_pt_lim (fun x => x - c) x 1) by (intros c x; replace 1 with (1 - 0) by ring; apply (derivable_pt_lim_minus id (fun _ => c)); [apply derivable_pt_lim_id|apply derivable_pt_lim_const]).
  assert (Ds : forall c x, derivable_pt_lim (fun x => (x - c) * (x - c)) x (2 * (x - c))) by (intros c x; replace (2 * (x - c)) with (1 * (x - c) + (x - c) * 1) by ring; apply (derivable_pt_lim_mult (fun x => x - c) (fun x => x - c)); apply Da).
  split.
  - apply (derivable_local _ (fun x => mult_real_fct 2 (fun x => (x - / 4) * (x - / 4)) x + (19 / 2 - 1 / 8)) (/ 4) _ (/ 8)); [lra| |].
    + intros y Hy. apply Rabs_def2 in Hy. unfold scipy_cost, mult_real_fct. cbn [map vsum scipy_rho].
      replace ((y - 10) / 1) with (y - 10) by field. replace (2 * y / 1) with (2 * y) by field.
      destruct (Rle_dec ((y - 10) * (y - 10)) 1) as [|_]; [nra|]. destruct (Rle_dec (2 * y * (2 * y)) 1) as [_|]; [|nra].
      change ((y - 10) * (y - 10)) with (Rsqr (y - 10)). rewrite sqrt_Rsqr_abs, Rabs_left by lra. field.
    + replace 0 with (2 * (2 * (/ 4 - / 4)) + 0) by ring. apply (derivable_pt_lim_plus (mult_real_fct 2 (fun x => (x - / 4) * (x - / 4))) (fun _ => 19 / 2 - 1 / 8)); [apply derivable_pt_lim_scal, Ds|apply derivable_pt_lim_const].
  - apply (derivable_local _ (fun x => mult_real_fct (/ 4) (fun x => (x - 10) * (x - 10)) x + mult_real_fct 1 (fun x => (x - 0) * (x - 0)) x) (/ 4) _ (/ 8)); [lra| |].
    + intros y Hy. apply Rabs_def2 in Hy. unfold ls_cost, mult_real_fct. cbn [map vsum ls_rho length].
      replace ((y - 10) / 1) with (y - 10) by field. replace (2 * y / 1) with (2 * y) by field.
      destruct (Rle_dec (y - 10) 1) as [_|]; [|lra]. destruct (Rle_dec (2 * y) 1) as [_|]; [|lra]. cbn [INR]. field.
    + replace (- (35 / 8)) with (/ 4 * (2 * (/ 4 - 10)) + 1 * (2 * (/ 4 - 0))) by field. apply derivable_pt_lim_plus; apply derivable_pt_lim_scal, Ds.
Qed.
Print Assumptions C52_huber_stationary_refuted.
(** Bounded wrappers: the optimality function vanishes exactly at the points of the box where the gradient satisfies
    the first-order conditions, and rescaling the gradient (the factor 1/m) does not matter. *)
Theorem C52_bounded n sol g lower upper c : length sol = n -> length g = n -> length lower = n -> length upper = n ->
  (forall i, (i < n)%nat -> nth i lower 0 <= nth i upper 0) -> 0 < c ->
  (bounded_optimality_fun sol (smul c g) lower upper = vzero n <->
   forall i, (i < n)%nat -> nth i lower 0 <= nth i sol 0 <= nth i upper 0 /\
     (nth i g 0 = 0 \/ (0 < nth i g 0 /\ nth i sol 0 = nth i lower 0) \/ (nth i g 0 < 0 /\ nth i sol 0 = nth i upper 0))).
Proof.
  intros Ls Lg Ll Lu Hb Hc. unfold bounded_optimality_fun, projection_box.
  revert sol g lower upper Ls Lg Ll Lu Hb. induction n as [|n IH]; intros [|s sol] [|a g] [|l lower] [|u upper] Ls Lg Ll Lu Hb; try discriminate.
  - cbn. split; [intros _ i Hi; lia|reflexivity].
  - specialize (IH sol g lower upper ltac:(cbn in *; lia) ltac:(cbn in *; lia) ltac:(cbn in *; lia) ltac:(cbn in *; lia) (fun i Hi => Hb (S i) ltac:(lia))).
    cbn [smul vsub map map3 vzero repeat]. fold (smul c g). unfold vzero in IH. assert (B := Hb 0%nat ltac:(lia)). cbn [nth] in B.
    assert (K : clip (s - c * a) l u - s = 0 <-> l <= s <= u /\ (a = 0 \/ (0 < a /\ s = l) \/ (a < 0 /\ s = u))).
    { unfold clip, Rmin, Rmax. split.
      - intros H. destruct (Rtotal_order a 0) as [A|[A|A]]; [assert (c * a < 0) by nra|assert (c * a = 0) by nra|assert (0 < c * a) by nra]; repeat destruct (Rle_dec _ _); lra.
      - intros [H1 [H2|[[H2 H3]|[H2 H3]]]]; [assert (c * a = 0) by nra|assert (0 < c * a) by nra|assert (c * a < 0) by nra]; repeat destruct (Rle_dec _ _); lra. }
    split.
    + intros H. injection H as H1 H2. intros [|i] Hi; cbn [nth]; [apply K; exact H1|apply IH; [exact H2|lia]].
    + intros H. f_equal; [apply K; apply (H 0%nat); lia|apply IH; intros i Hi; apply (H (S i)); lia].
Qed.
Print Assumptions C52_bounded.
Example C52_example : agrees Huber 2 [3; -1] /\ ls_cost Huber 2 [3; -1] = 9 / 4 /\ scipy_cost Huber 2 [3; -1] = 9 / 2 /\ ls_rho Huber (-2) = 4 /\ scipy_rho Huber 4 = 3.
Proof.
  split; [intros _ r [<-|[<-|[]]]; lra|]. unfold ls_cost, scipy_cost. cbn [map vsum ls_rho scipy_rho length INR].
  destruct (Rle_dec (3 / 2) 1); [lra|]. destruct (Rle_dec (-1 / 2) 1); [|lra]. destruct (Rle_dec (3 / 2 * (3 / 2)) 1); [lra|]. destruct (Rle_dec (-1 / 2 * (-1 / 2)) 1); [|lra].
  rewrite sqrt_square by lra. destruct (Rle_dec (-2) 1); [|lra]. destruct (Rle_dec 4 1); [lra|]. replace 4 with (2 * 2) at 3 by ring. rewrite sqrt_square by lra. repeat split; field.
Qed.

(** ** C53 *)
Lemma get_set d k v k' : dict_get (dict_set d k v) k' = if String.eqb k' k then Some v else dict_get d k'.
Proof.
  induction d as [|[k0 v0] d IH]; cbn; [destruct (String.eqb k' k); reflexivity|]. destruct (String.eqb k k0) eqn:E; cbn.
  - apply String.eqb_eq in E. subst k0. destruct (String.eqb k' k); reflexivity.
  - rewrite IH. destruct (String.eqb k' k0) eqn:E2; [|reflexivity]. apply String.eqb_eq in E2. subst k0. destruct (String.eqb k' k) eqn:E3; [|reflexivity]. apply String.eqb_eq in E3. subst. rewrite String.eqb_refl in E. discriminate.
Qed.
Lemma mem_set d k v k' : dict_mem (dict_set d k v) k' = (String.eqb k' k || dict_mem d k')%bool.
Proof. unfold dict_mem. rewrite get_set. destruct (String.eqb k' k); reflexivity. Qed.
Lemma nth_heap_set h a d b : (a < length h)%nat -> nth_error (heap_set h a d) b = if Nat.eqb b a then Some d else nth_error h b.
Proof. revert a b. induction h as [|d0 h IH]; intros [|a] [|b] H; cbn in *; try lia; try reflexivity. apply IH. lia. Qed.
Lemma heap_set_length h a d : length (heap_set h a d) = length h.
Proof. revert a. induction h as [|d0 h IH]; intros [|a]; cbn; congruence. Qed.
Lemma heap_set_same h a d : nth_error h a = Some d -> heap_set h a d = h.
Proof. revert a. induction h as [|d0 h IH]; intros [|a] H; cbn in *; try discriminate; [congruence|]. f_equal. apply IH. exact H. Qed.
Lemma dict_set_same d k v : dict_get d k = Some v -> dict_set d k v = d.
Proof. induction d as [|[k0 v0] d IH]; cbn; [discriminate|]. destruct (String.eqb k k0) eqn:E; intros H; [congruence|]. f_equal. apply IH. exact H. Qed.
Lemma nth_lt {T} (h : list T) a d : nth_error h a = Some d -> (a < length h)%nat.
Proof. intros H. apply nth_error_Some. congruence. Qed.
Lemma get_fill items : forall d k, dict_get (fill_missing d items) k = match dict_get d k with Some v => Some v | None => dict_get items k end.
Proof.
  induction items as [|[k0 v0] items IH]; intros d k; cbn [fill_missing dict_get]; [destruct (dict_get d k); reflexivity|].
  rewrite IH. destruct (dict_mem d k0) eqn:M; unfold dict_mem in M.
  - destruct (String.eqb k k0) eqn:E; [|reflexivity]. apply String.eqb_eq in E. subst k0. destruct (dict_get d k); [reflexivity|discriminate].
  - rewrite get_set. destruct (String.eqb k k0) eqn:E; [|reflexivity]. apply String.eqb_eq in E. subst k0. destruct (dict_get d k); [discriminate|reflexivity].
Qed.

(** A dictionary without 'maxiter': the construction succeeds, keeps a reference to it and writes 'maxiter' into it;
    nothing else changes.  With 'maxiter': ValueError, nothing changes. *)
Theorem C53_minimize h a d maxiter : nth_error h a = Some d ->
  (dict_mem d "maxiter" = false -> fst (new_minimize h (Some a) maxiter) = Ok a /\
    exists d', nth_error (snd (new_minimize h (Some a) maxiter)) a = Some d' /\ dict_get d' "maxiter" = Some (VInt maxiter) /\
      (forall k, k <> "maxiter"%string -> dict_get d' k = dict_get d k)) /\
  (dict_mem d "maxiter" = true -> new_minimize h (Some a) maxiter = (Err ValueError, h)) /\
  (forall b, b <> a -> nth_error (snd (new_minimize h (Some a) maxiter)) b = nth_error h b).
Proof.
  intros Hd. unfold new_minimize. rewrite Hd. assert (L := nth_lt _ _ _ Hd). split; [|split].
  - intros M. rewrite M. cbn [fst snd]. split; [reflexivity|]. exists (dict_set d "maxiter" (VInt maxiter)). split; [rewrite nth_heap_set, Nat.eqb_refl by exact L; reflexivity|].
    split; [rewrite get_set, String.eqb_refl; reflexivity|]. intros k Hk. rewrite get_set. apply String.eqb_neq in Hk. rewrite Hk. reflexivity.
  - intros M. rewrite M. reflexivity.
  - intros b Hb. destruct (dict_mem d "maxiter"); cbn [snd]; [reflexivity|]. rewrite nth_heap_set by exact L. apply Nat.eqb_neq in Hb. rewrite Hb. reflexivity.
Qed.
Print Assumptions C53_minimize.
(** Without options the construction always succeeds, with a dictionary of its own. *)
Theorem C53_minimize_default h maxiter : fst (new_minimize h None maxiter) = Ok (length h) /\
  (forall b, (b < length h)%nat -> nth_error (snd (new_minimize h None maxiter)) b = nth_error h b) /\
  nth_error (snd (new_minimize h None maxiter)) (length h) = Some [("maxiter"%string, VInt maxiter)].
Proof.
  unfold new_minimize. rewrite nth_error_app2, Nat.sub_diag by lia. cbn [nth_error dict_mem dict_get fst snd dict_set].
  assert (L : (length h < length (h ++ [[]]))%nat) by (rewrite app_length; cbn; lia). split; [reflexivity|]. split.
  - intros b Hb. rewrite nth_heap_set by exact L. destruct (Nat.eqb b (length h)) eqn:E; [apply Nat.eqb_eq in E; lia|]. apply nth_error_app1. exact Hb.
  - rewrite nth_heap_set, Nat.eqb_refl by exact L. reflexivity.
Qed.
Print Assumptions C53_minimize_default.

Lemma mem_heap_set h a d0 d b db k : nth_error h a = Some d0 -> (dict_mem d0 k = true -> dict_mem d k = true) -> nth_error h b = Some db -> dict_mem db k = true ->
  exists db', nth_error (heap_set h a d) b = Some db' /\ dict_mem db' k = true.
Proof.
  intros Ha Hk Hb Mb. rewrite nth_heap_set by (eapply nth_lt; exact Ha). destruct (Nat.eqb b a) eqn:E; [|exists db; auto]. apply Nat.eqb_eq in E. subst b. exists d. split; [reflexivity|]. apply Hk. congruence.
Qed.
Lemma operate_keeps_key h o b db k : nth_error h b = Some db -> dict_mem db k = true -> exists db', nth_error (snd (operate h o)) b = Some db' /\ dict_mem db' k = true.
Proof.
  intros Hb Mb. assert (Lb := nth_lt _ _ _ Hb). destruct o as [d|a k0 v|options maxiter|options loss]; cbn [operate].
  - cbn [snd]. exists db. split; [rewrite nth_error_app1 by exact Lb; exact Hb|exact Mb].
  - destruct (nth_error h a) as [d|] eqn:Ha; cbn [snd]; [|exists db; auto]. apply (mem_heap_set h a d _ b db k Ha); [|exact Hb|exact Mb]. intros M. rewrite mem_set, M. apply orb_true_r.
  - unfold new_minimize. destruct options as [a|].
    + destruct (nth_error h a) as [d|] eqn:Ha; cbn [snd]; [|exists db; auto]. destruct (dict_mem d "maxiter"); cbn [snd]; [exists db; auto|]. apply (mem_heap_set h a d _ b db k Ha); [|exact Hb|exact Mb]. intros M. rewrite mem_set, M. apply orb_true_r.
    + assert (Hb' : nth_error (h ++ [[]]) b = Some db) by (rewrite nth_error_app1 by exact Lb; exact Hb). assert (Ha : nth_error (h ++ [[]]) (length h) = Some []) by (rewrite nth_error_app2, Nat.sub_diag by lia; reflexivity).
      rewrite Ha. cbn [dict_mem dict_get snd]. apply (mem_heap_set _ _ [] _ b db k Ha); [discriminate|exact Hb'|exact Mb].
  - unfold new_least_squares. set (p := match options with None => _ | Some a => _ end).
    assert (P : exists db', nth_error (snd p) b = Some db' /\ dict_mem db' k = true).
    { unfold p. destruct options as [a|]; [|exists db; auto]. destruct (nth_error h a) as [d|] eqn:Ha; [|exists db; auto]. destruct (nth_error h ls_default_addr) as [items|]; [|exists db; auto]. cbn [snd].
      apply (mem_heap_set h a d _ b db k Ha); [|exact Hb|exact Mb]. unfold dict_mem. rewrite get_fill. destruct (dict_get d k); auto. discriminate. }
    clearbody p. destruct p as [a h1]. cbn [snd] in P. clear Hb Mb Lb. destruct P as (db1 & Hb & Mb).
    destruct (nth_error h1 a) as [d|] eqn:Ha; [|exists db1; auto]. destruct (dict_get d "x_scale") as [v|]; [|exists db1; auto]. destruct (convert_x_scale v) as [v'|]; [|exists db1; auto].
    assert (Q : exists db', nth_error (heap_set h1 a (dict_set d "x_scale" v')) b = Some db' /\ dict_mem db' k = true) by (apply (mem_heap_set h1 a d _ b db1 k Ha); [|exact Hb|exact Mb]; intros M; rewrite mem_set, M; apply orb_true_r).
    destruct (is_ls_loss loss); exact Q.
Qed.
(** A dictionary passed to ScipyMinimize can never be passed again: whatever the program does in between, every later
    construction with it raises ValueError. *)
Theorem C53_minimize_reuse_refuted h a d maxiter ops maxiter' : nth_error h a = Some d -> dict_mem d "maxiter" = false ->
  fst (new_minimize h (Some a) maxiter) = Ok a /\
  fst (new_minimize (execute (snd (new_minimize h (Some a) maxiter)) ops) (Some a) maxiter') = Err ValueError.
Proof.
  intros Hd M. destruct (C53_minimize h a d maxiter Hd) as (H1 & _ & _). destruct (H1 M) as (E & d1 & Hd1 & G1 & _). split; [exact E|].
  assert (M1 : dict_mem d1 "maxiter" = true) by (unfold dict_mem; rewrite G1; reflexivity). clear E G1 H1. set (h1 := snd (new_minimize h (Some a) maxiter)) in *. clearbody h1. clear Hd M d.
  revert h1 d1 Hd1 M1. induction ops as [|o ops IH]; intros h1 d1 Hd1 M1.
  - cbn [execute fold_left]. destruct (C53_minimize h1 a d1 maxiter' Hd1) as (_ & H2 & _). rewrite (H2 M1). reflexivity.
  - unfold execute. cbn [fold_left]. fold (execute (snd (operate h1 o)) ops). destruct (operate_keeps_key h1 o a d1 "maxiter" Hd1 M1) as (d2 & Hd2 & M2). apply (IH _ d2 Hd2 M2).
Qed.
Print Assumptions C53_minimize_reuse_refuted.

(** Least squares, with a dictionary of the caller: missing keys are filled from the module defaults, x_scale is
    converted, the caller's other entries and all other dictionaries stay; afterwards the dictionary can be used again
    and again, and then nothing changes any more. *)
Theorem C53_least_squares h a d items x x' loss : nth_error h a = Some d -> nth_error h ls_default_addr = Some items ->
  (match dict_get d "x_scale" with Some v => Some v | None => dict_get items "x_scale" end) = Some x -> convert_x_scale x = Ok x' ->
  let '(r, h') := new_least_squares h (Some a) loss in
  r = (if is_ls_loss loss then Ok a else Err ValueError) /\
  (exists d', nth_error h' a = Some d' /\ dict_get d' "x_scale" = Some x' /\
    forall k, k <> "x_scale"%string -> dict_get d' k = match dict_get d k with Some v => Some v | None => dict_get items k end) /\
  (forall b, b <> a -> nth_error h' b = nth_error h b) /\
  (convert_x_scale x' = Ok x' -> forall loss', new_least_squares h' (Some a) loss' = (if is_ls_loss loss' then Ok a else Err ValueError, h')).
Proof.
  intros Hd Hi Hx Hc. assert (L := nth_lt _ _ _ Hd). unfold new_least_squares. rewrite Hd, Hi, nth_heap_set, Nat.eqb_refl by exact L. rewrite get_fill, Hx, Hc.
  set (h' := heap_set (heap_set h a (fill_missing d items)) a (dict_set (fill_missing d items) "x_scale" x')).
  assert (L1 : (a < length (heap_set h a (fill_missing d items)))%nat) by (rewrite heap_set_length; exact L).
  set (d' := dict_set (fill_missing d items) "x_scale" x').
  assert (Hd' : nth_error h' a = Some d') by (unfold h'; rewrite nth_heap_set, Nat.eqb_refl by exact L1; reflexivity).
  assert (Gx : dict_get d' "x_scale" = Some x') by (unfold d'; rewrite get_set, String.eqb_refl; reflexivity).
  assert (Go : forall k, k <> "x_scale"%string -> dict_get d' k = match dict_get d k with Some v => Some v | None => dict_get items k end) by (intros k Hk; unfold d'; rewrite get_set; apply String.eqb_neq in Hk; rewrite Hk; apply get_fill).
  assert (Ho : forall b, b <> a -> nth_error h' b = nth_error h b) by (intros b Hb; apply Nat.eqb_neq in Hb; unfold h'; rewrite !nth_heap_set, Hb by (rewrite ?heap_set_length; exact L); reflexivity).
  assert (Fin : (exists d', nth_error h' a = Some d' /\ dict_get d' "x_scale" = Some x' /\
    forall k, k <> "x_scale"%string -> dict_get d' k = match dict_get d k with Some v => Some v | None => dict_get items k end) /\
  (forall b, b <> a -> nth_error h' b = nth_error h b) /\
  (convert_x_scale x' = Ok x' -> forall loss', new_least_squares h' (Some a) loss' = (if is_ls_loss loss' then Ok a else Err ValueError, h'))).
  { split; [exists d'; auto|]. split; [exact Ho|]. intros Hs loss'.
    assert (Hit : exists items', nth_error h' ls_default_addr = Some items' /\ (forall k, dict_mem items' k = true -> dict_mem d' k = true)).
    { destruct (Nat.eq_dec ls_default_addr a) as [E|E].
      - rewrite E. exists d'. auto.
      - exists items. rewrite Ho by exact E. split; [exact Hi|]. intros k Hk. unfold dict_mem in *. destruct (String.string_dec k "x_scale") as [->|Hne]; [rewrite Gx; reflexivity|]. rewrite Go by exact Hne. destruct (dict_get d k); [reflexivity|exact Hk]. }
    destruct Hit as (items' & Hi' & Sub).
    assert (Fid : forall its, (forall k, dict_mem its k = true -> dict_mem d' k = true) -> fill_missing d' its = d').
    { intros its. assert (G : forall its, (forall k v, In (k, v) its -> dict_mem d' k = true) -> fill_missing d' its = d').
      { clear its. induction its as [|[k v] its IHs]; intros H; [reflexivity|]. cbn [fill_missing]. rewrite (H k v) by (left; reflexivity). apply IHs. intros k' v' Hin. apply (H k' v'). right. exact Hin. }
      intros H. apply G. intros k v Hin. apply H. clear -Hin. unfold dict_mem. induction its as [|[k0 v0] its IH]; [destruct Hin|]. cbn [dict_get]. destruct (String.eqb k k0) eqn:E; [reflexivity|]. destruct Hin as [E1|Hin]; [injection E1 as -> ->; rewrite String.eqb_refl in E; discriminate|apply IH; exact Hin]. }
    unfold new_least_squares. rewrite Hd', Hi', (Fid items' Sub), (heap_set_same h' a d' Hd'), Hd', Gx, Hs, (dict_set_same d' _ x' Gx), (heap_set_same h' a d' Hd'). destruct (is_ls_loss loss'); reflexivity. }
  destruct (is_ls_loss loss); split; try reflexivity; exact Fin.
Qed.
Print Assumptions C53_least_squares.
(** What x_scale can be after a successful construction: the caller's float or 'jac', or an array with the caller's
    numbers. *)
Theorem C53_x_scale v v' : convert_x_scale v = Ok v' ->
  (v' = v /\ ((exists r, v = VFloat r) \/ v = VStr "jac")) \/ (exists w, v' = VArr w /\ (v = VTree w \/ exists z, v = VInt z /\ w = [IZR z])).
Proof.
  destruct v as [r|s|z| |w|w|a]; cbn; intros H; try discriminate.
  - injection H as <-. left. split; [reflexivity|left; exists r; reflexivity].
  - destruct (String.eqb s "jac") eqn:E; [|discriminate]. injection H as <-. apply String.eqb_eq in E. subst. left. split; [reflexivity|right; reflexivity].
  - injection H as <-. right. exists [IZR z]. split; [reflexivity|right; exists z; split; reflexivity].
  - injection H as <-. right. exists w. split; [reflexivity|left; reflexivity].
Qed.
Print Assumptions C53_x_scale.
(** Without options every least-squares solver holds the one module-level dictionary: an assignment through any of
    them is read by all of them, and by every solver constructed later. *)
Theorem C53_least_squares_shared_refuted h items ops k v loss : nth_error h ls_default_addr = Some items -> dict_mem items "x_scale" = true -> k <> "x_scale"%string -> is_ls_loss loss = true ->
  (forall x, dict_get items "x_scale" = Some x -> convert_x_scale x = Ok x) ->
  let h1 := snd (operate h (SetItem ls_default_addr k v)) in
  fst (new_least_squares h None loss) = Ok ls_default_addr /\ snd (new_least_squares h None loss) = h /\
  fst (new_least_squares h1 None loss) = Ok ls_default_addr /\
  (exists d, nth_error (snd (new_least_squares h1 None loss)) ls_default_addr = Some d /\ dict_get d k = Some v) /\
  (forall a d', a <> ls_default_addr -> nth_error h1 a = Some d' -> dict_get d' k = None -> dict_get d' "x_scale" = None ->
     exists d'', nth_error (snd (new_least_squares h1 (Some a) loss)) a = Some d'' /\ dict_get d'' k = Some v) /\
  (* keys are never lost: whatever happens, option-less constructions keep using this dictionary *)
  (exists d, nth_error (execute h ops) ls_default_addr = Some d /\ dict_mem d "x_scale" = true).
Proof.
  intros Hi Mx Hk Hl Hx h1. unfold dict_mem in Mx. destruct (dict_get items "x_scale") as [x|] eqn:Gx; [|discriminate]. assert (Cx := Hx x eq_refl).
  assert (L := nth_lt _ _ _ Hi). assert (E1 : h1 = heap_set h ls_default_addr (dict_set items k v)) by (unfold h1; cbn [operate]; rewrite Hi; reflexivity).
  set (it1 := dict_set items k v) in *. assert (H1 : nth_error h1 ls_default_addr = Some it1) by (rewrite E1, nth_heap_set, Nat.eqb_refl by exact L; reflexivity).
  assert (G1 : dict_get it1 "x_scale" = Some x) by (unfold it1; rewrite get_set; apply not_eq_sym in Hk; apply String.eqb_neq in Hk; rewrite Hk; exact Gx).
  assert (Gk : dict_get it1 k = Some v) by (unfold it1; rewrite get_set, String.eqb_refl; reflexivity).
  assert (N : forall hh its, nth_error hh ls_default_addr = Some its -> dict_get its "x_scale" = Some x -> new_least_squares hh None loss = (Ok ls_default_addr, hh)).
  { intros hh its Hh Hg. unfold new_least_squares. rewrite Hh, Hg, Cx, Hl, (dict_set_same its _ x Hg), (heap_set_same _ _ _ Hh). reflexivity. }
  rewrite (N h items Hi Gx), (N h1 it1 H1 G1). cbn [fst snd]. repeat (split; [reflexivity|]). split; [exists it1; auto|]. split.
  - intros a d' Ha Hd' Nk Nx. assert (P := C53_least_squares h1 a d' it1 x x loss Hd' H1). rewrite Nx in P. specialize (P G1 Cx). destruct (new_least_squares h1 (Some a) loss) as [r h'] eqn:E. cbn [snd]. destruct P as (_ & (d'' & Hd'' & _ & Go) & _). exists d''. split; [exact Hd''|]. rewrite (Go k Hk), Nk. exact Gk.
  - assert (Mi : dict_mem items "x_scale" = true) by (unfold dict_mem; rewrite Gx; reflexivity). clear -Hi Mi. revert h items Hi Mi. induction ops as [|o ops IH]; intros h items Hi Mi; [exists items; auto|].
    unfold execute. cbn [fold_left]. fold (execute (snd (operate h o)) ops). destruct (operate_keeps_key h o ls_default_addr items "x_scale" Hi Mi) as (d2 & Hd2 & M2). apply (IH _ d2 Hd2 M2).
Qed.
Print Assumptions C53_least_squares_shared_refuted.

(** has_aux = False: the caller's function is called.  has_aux = True (ScipyRootFinding, ScipyLeastSquares): no call
    ever returns, whatever the function, the argument and the recursion limit. *)
Theorem C53_has_aux_refuted X Y A (f : X -> Y) (fa : X -> Y * A) limit x :
  call X Y A (S limit) (post_init_fun X Y A false (Plain X Y A f)) x = Ok (Value Y A (f x)) /\
  call X Y A limit (post_init_fun X Y A true (WithAux X Y A fa)) x = Err RecursionError.
Proof. split; [reflexivity|]. unfold post_init_fun. induction limit as [|n IH]; [reflexivity|]. cbn [call]. rewrite IH. reflexivity. Qed.
Print Assumptions C53_has_aux_refuted.
Example C53_example : let h := initial_heap ++ [[("disp"%string, VInt 1)]] in
  fst (new_minimize h (Some 2%nat) 10) = Ok 2%nat /\ fst (new_least_squares h (Some 2%nat) "huber") = Ok 2%nat /\
  fst (new_least_squares h None "linear") = Ok 0%nat /\
  fst (new_minimize (execute h [NewMinimize (Some 2%nat) 10; NewLeastSquares (Some 2%nat) "linear"]) (Some 2%nat) 5) = Err ValueError.
Proof. repeat split. Qed.
