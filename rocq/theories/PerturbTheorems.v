(** C49: perturbed optimisers. *)
From Coq Require Import Reals List Bool Arith Lra Lia.
From Verif Require Import Prelude Vec Mat Perturb.
Import ListNotations.
Open Scope R_scope.

Lemma vsum_rows_dot D rows t : dot (vsum_rows D rows) t = vsum (map (fun r => dot r t) rows).
Proof. induction rows as [|r rows IH]; cbn [vsum_rows fold_right map]; [apply dot_vzero_l|]. fold (vsum_rows D rows). rewrite dot_vadd_l, IH. reflexivity. Qed.
Lemma vsum_rows_len D rows : Forall (fun r => length r = D) rows -> length (vsum_rows D rows) = D.
Proof. intros F. induction F as [|r rows H F IH]; cbn; [apply vzero_length|]. fold (vsum_rows D rows). apply vadd_length_eq; assumption. Qed.
Lemma vsum_map_le {T} (f g : T -> R) l : (forall a, In a l -> f a <= g a) -> vsum (map f l) <= vsum (map g l).
Proof. intros H. induction l as [|a l IH]; cbn; [lra|]. assert (f a <= g a) by (apply H; left; reflexivity). assert (vsum (map f l) <= vsum (map g l)) by (apply IH; intros; apply H; right; assumption). unfold vsum in *. cbn. lra. Qed.
Lemma vsum_map_lin {T} (f g : T -> R) a b l : vsum (map (fun v => a * f v + b * g v) l) = a * vsum (map f l) + b * vsum (map g l).
Proof. induction l as [|v l IH]; cbn; [ring|]. unfold vsum in *. cbn in *. rewrite IH. ring. Qed.
Lemma combine_map {T} (f g : T -> vec) l : combine (map f l) (map g l) = map (fun v => (f v, g v)) l.
Proof. induction l as [|v l IH]; cbn; [reflexivity|]. rewrite IH. reflexivity. Qed.
Lemma vsum_map_ext {T} (f g : T -> R) l : (forall a, In a l -> f a = g a) -> vsum (map f l) = vsum (map g l).
Proof. intros H. f_equal. apply map_ext_in. exact H. Qed.
Lemma smul_rows D a rows : smul a (vsum_rows D rows) = vsum_rows D (map (smul a) rows).
Proof.
  induction rows as [|r rows IH]; cbn [vsum_rows fold_right map].
  - unfold smul, vzero. induction D as [|d IHd]; cbn; [reflexivity|]. rewrite IHd. f_equal. ring.
  - fold (vsum_rows D rows) (vsum_rows D (map (smul a) rows)). rewrite smul_vadd, IH. reflexivity.
Qed.

Section Main.
Variable Key : Type.
Variable sample : Key -> nat -> nat -> list vec.
Hypothesis SO : sample_ok sample.
Variables (N : nat) (sigma : R) (D : nat).
Hypothesis HN : (0 < N)%nat.
Variable am : vec -> vec.
Let F x rng := pert_max Key sample N sigma am x rng.
Let A x rng := pert_argmax Key sample N sigma am x rng.
Let zs rng := sample rng N D.
Lemma zs_len rng : length (zs rng) = N. Proof. apply SO. Qed.
Lemma zs_in rng z : In z (zs rng) -> length z = D.
Proof. intros H. destruct (SO rng N D) as [_ Q]. rewrite Forall_forall in Q. apply Q. exact H. Qed.
Let u x z := vadd x (smul sigma z).
Lemma u_len x z rng : length x = D -> In z (zs rng) -> length (u x z) = D.
Proof. intros L H. apply vadd_length_eq; [exact L|]. rewrite smul_length. apply (zs_in rng z H). Qed.
Lemma F_eq x rng : length x = D -> F x rng = / INR N * vsum (map (fun z => dot (u x z) (am (u x z))) (zs rng)).
Proof.
  intros L. unfold F, pert_max, perturbed. rewrite L. fold (zs rng). rewrite map_length, zs_len. f_equal. rewrite map_map, (combine_map (u x) (fun z => am (u x z))), map_map. reflexivity.
Qed.
Lemma A_eq x rng : length x = D -> A x rng = smul (/ INR N) (vsum_rows D (map (fun z => am (u x z)) (zs rng))).
Proof. intros L. unfold A, pert_argmax, mean_rows, perturbed. rewrite L. fold (zs rng). rewrite !map_length, zs_len, map_map. reflexivity. Qed.
Lemma A_dot x rng t : length x = D -> dot (A x rng) t = / INR N * vsum (map (fun z => dot (am (u x z)) t) (zs rng)).
Proof. intros L. rewrite A_eq by exact L. rewrite dot_smul_l, vsum_rows_dot, map_map. reflexivity. Qed.
Lemma HNR : 0 < INR N. Proof. apply lt_0_INR. exact HN. Qed.
Lemma HNI : 0 < / INR N. Proof. apply Rinv_0_lt_compat, HNR. Qed.
Section Arg.
Variable Y : vec -> Prop.
Hypothesis AM : is_argmax D Y am.
Lemma subgrad x x' rng : length x = D -> length x' = D -> F x rng + dot (A x rng) (vsub x' x) <= F x' rng.
Proof.
  intros L L'. rewrite !F_eq, A_dot by assumption. rewrite <- Rmult_plus_distr_l. apply Rmult_le_compat_l; [apply Rlt_le, HNI|].
  set (f1 := fun z => dot (u x z) (am (u x z))). set (f2 := fun z => dot (am (u x z)) (vsub x' x)).
  replace (vsum (map f1 (zs rng)) + vsum (map f2 (zs rng))) with (vsum (map (fun z => 1 * f1 z + 1 * f2 z) (zs rng))) by (rewrite vsum_map_lin; ring).
  apply vsum_map_le. intros z Hz. unfold f1, f2. destruct AM as [_ Q]. destruct (Q (u x z) (u_len x z rng L Hz)) as [Yz _]. destruct (Q (u x' z) (u_len x' z rng L' Hz)) as [_ M].
  specialize (M _ Yz). rewrite (dot_comm (u x' z)). unfold u in *. rewrite (dot_comm (vadd x _)). rewrite !dot_vadd_r in *. rewrite dot_vsub_r. lra.
Qed.
Lemma A_len x rng : length x = D -> length (A x rng) = D.
Proof.
  intros L. rewrite A_eq by exact L. rewrite smul_length. apply vsum_rows_len. apply Forall_forall. intros r Hr. apply in_map_iff in Hr. destruct Hr as (z & <- & Hz).
  destruct AM as [Q1 Q2]. apply Q1. apply (Q2 _ (u_len x z rng L Hz)).
Qed.
Lemma A_conv x rng : length x = D -> convex_comb D Y (A x rng).
Proof.
  intros L. exists (map (fun z => (/ INR N, am (u x z))) (zs rng)). split; [|split].
  - apply Forall_forall. intros p Hp. apply in_map_iff in Hp. destruct Hp as (z & <- & Hz). cbn [fst snd]. split; [apply Rlt_le, HNI|]. destruct AM as [_ Q]. apply (Q _ (u_len x z rng L Hz)).
  - rewrite map_map. cbn [fst]. assert (E : forall l : list vec, map (fun _ => / INR N) l = repeat (/ INR N) (length l)) by (induction l; cbn; congruence).
    rewrite E, vsum_repeat, zs_len. field. apply Rgt_not_eq, HNR.
  - rewrite A_eq by exact L. rewrite smul_rows, !map_map. reflexivity.
Qed.
End Arg.
End Main.

(** For fixed noise: the perturbed maximum is the average of the maxima of the perturbed linear forms over Y; it is convex in the
    input; the perturbed argmax is a subgradient of it, monotone in the input, and a convex combination of points of Y. *)
Theorem C49_max :
  forall Key sample N sigma D Y am, @sample_ok Key sample -> (0 < N)%nat -> is_argmax D Y am ->
  forall rng,
  let F x := pert_max Key sample N sigma am x rng in let A x := pert_argmax Key sample N sigma am x rng in
  let zs := sample rng N D in
  (forall x y, length x = D -> Y y -> dot y x + sigma / INR N * vsum (map (dot y) zs) <= F x) /\
  (forall x, length x = D -> F x = / INR N * vsum (map (fun z => dot (am (vadd x (smul sigma z))) (vadd x (smul sigma z))) zs)) /\
  (forall x x', length x = D -> length x' = D -> F x + dot (A x) (vsub x' x) <= F x') /\
  (forall x x' a, length x = D -> length x' = D -> 0 <= a <= 1 -> F (vadd (smul (1 - a) x) (smul a x')) <= (1 - a) * F x + a * F x') /\
  (forall x x', length x = D -> length x' = D -> 0 <= dot (vsub (A x') (A x)) (vsub x' x)) /\
  (forall x, length x = D -> length (A x) = D /\ convex_comb D Y (A x)).
Proof.
  intros Key sample N sigma D Y am SO HN AM rng F A zs.
  assert (SG : forall x x', length x = D -> length x' = D -> F x + dot (A x) (vsub x' x) <= F x') by (intros; apply (subgrad Key sample SO N sigma D HN am Y AM); assumption).
  assert (FE : forall x, length x = D -> F x = / INR N * vsum (map (fun z => dot (am (vadd x (smul sigma z))) (vadd x (smul sigma z))) zs)).
  { intros x L. unfold F. rewrite (F_eq Key sample SO N sigma D am x rng L). f_equal. apply vsum_map_ext. intros z _. apply dot_comm. }
  split.
  { intros x y L Hy. rewrite FE by exact L. set (g := fun z => dot y (vadd x (smul sigma z))).
    assert (E : dot y x + sigma / INR N * vsum (map (dot y) zs) = / INR N * vsum (map g zs)).
    { unfold g. rewrite (vsum_map_ext (fun z => dot y (vadd x (smul sigma z))) (fun z => dot y x * 1 + sigma * dot y z)) by (intros z _; rewrite dot_vadd_r, dot_smul_r; ring). rewrite vsum_map_lin.
      assert (C : vsum (map (fun _ : vec => 1) zs) = INR N).
      { assert (E : forall l : list vec, map (fun _ => 1) l = repeat 1 (length l)) by (induction l; cbn; congruence). rewrite E, vsum_repeat. unfold zs. rewrite (zs_len Key sample SO). ring. }
      rewrite C. field. apply Rgt_not_eq, (HNR N HN). }
    rewrite E. apply Rmult_le_compat_l; [apply Rlt_le, (HNI N HN)|]. apply vsum_map_le. intros z Hz. unfold g. destruct AM as [_ Q].
    destruct (Q (vadd x (smul sigma z)) (u_len Key sample SO N sigma D x z rng L Hz)) as [_ M]. apply M. exact Hy. }
  split; [exact FE|]. split; [exact SG|]. split.
  { intros x x' a L L' Ha. set (m := vadd (smul (1 - a) x) (smul a x')). assert (Lm : length m = D) by (apply vadd_length_eq; rewrite smul_length; assumption).
    assert (H1 := SG m x Lm L). assert (H2 := SG m x' Lm L'). unfold m in *. rewrite dot_vsub_r in H1, H2. rewrite dot_vadd_r, !dot_smul_r in H1, H2. nra. }
  split.
  { intros x x' L L'. assert (H1 := SG x x' L L'). assert (H2 := SG x' x L' L). rewrite !dot_vsub_r in H1, H2. rewrite dot_vsub_l, !dot_vsub_r. lra. }
  intros x L. split; [apply (A_len Key sample SO N sigma D am Y AM x rng L)|apply (A_conv Key sample SO N sigma D HN am Y AM x rng L)].
Qed.
Print Assumptions C49_max.

(** The declared derivative of the perturbed maximum is its true derivative along every direction in which no maximiser changes. *)
Theorem C49_max_jvp :
  forall Key sample N sigma D Y am, @sample_ok Key sample -> (0 < N)%nat -> is_argmax D Y am ->
  forall x t rng, length x = D -> length t = D -> locally_constant sample N sigma am x t rng ->
  derivable_pt_lim (fun s => pert_max Key sample N sigma am (vadd x (smul s t)) rng) 0 (pert_max_jvp Key sample N sigma am t x rng).
Proof.
  intros Key sample N sigma D Y am SO HN AM x t rng L Lt (delta & Hd & LC) e He. exists (mkposreal delta Hd). intros s Hs0 Hs. cbn in Hs.
  assert (E0 : vadd x (smul 0 t) = x). { apply vec_ext; [rewrite vadd_length, smul_length; lia|]. intros i _. rewrite nth_vadd, nth_smul. ring. }
  rewrite Rplus_0_l, E0. assert (Ls : length (vadd x (smul s t)) = D) by (apply vadd_length_eq; [|rewrite smul_length]; assumption).
  rewrite !(F_eq Key sample SO N sigma D am) by assumption. unfold pert_max_jvp. rewrite (A_dot Key sample SO N sigma D am) by assumption. cbv beta.
  rewrite L in LC. set (zs := sample rng N D) in *.
  assert (Q : vsum (map (fun z => dot (vadd (vadd x (smul s t)) (smul sigma z)) (am (vadd (vadd x (smul s t)) (smul sigma z)))) zs) =
    vsum (map (fun z => 1 * dot (vadd x (smul sigma z)) (am (vadd x (smul sigma z))) + s * dot (am (vadd x (smul sigma z))) t) zs)).
  { apply vsum_map_ext. intros z Hz. rewrite (LC z Hz s Hs). rewrite !dot_vadd_l, dot_smul_l. rewrite (dot_comm t). ring. }
  rewrite Q, vsum_map_lin. match goal with |- Rabs ?r < e => replace r with 0 by (field; split; [apply Rgt_not_eq, (HNR N HN)|exact Hs0]) end. rewrite Rabs_R0. exact He.
Qed.
Print Assumptions C49_max_jvp.

(** grad(log_prob) for the two noise classes. *)
Theorem C49_noise : forall z, derivable_pt_lim normal_log_prob z (- z) /\ derivable_pt_lim gumbel_log_prob z (-1 + exp (- z)).
Proof.
  intros z. split.
  - unfold normal_log_prob. replace (- z) with (- / 2 * (INR 2 * z ^ 1)) by (cbn; field).
    apply (derivable_pt_lim_scal (fun z => z ^ 2) (- / 2)). apply derivable_pt_lim_pow.
  - unfold gumbel_log_prob. replace (-1 + exp (- z)) with (- 1 - exp (- z) * - 1) by ring.
    apply (derivable_pt_lim_minus (fun z => - z) (fun z => exp (- z))).
    + apply (derivable_pt_lim_opp id). apply derivable_pt_lim_id.
    + apply (derivable_pt_lim_comp (fun z => - z) exp); [apply (derivable_pt_lim_opp id); apply derivable_pt_lim_id|apply derivable_pt_lim_exp].
Qed.
Print Assumptions C49_noise.

Lemma log_density_deriv log_prob glp sigma : sigma <> 0 -> (forall z, derivable_pt_lim log_prob z (glp z)) ->
  forall x t z, length t = length x -> length z = length x ->
  derivable_pt_lim (fun s => vsum (map log_prob (smul (/ sigma) (vsub (vadd x (smul sigma z)) (vadd x (smul s t)))))) 0 (/ sigma * dot (map (fun a => - glp a) z) t).
Proof.
  intros Hs HD x. induction x as [|a x IH]; intros [|b t] [|c z] Lt Lz; try discriminate; cbn [vadd smul map vsub vsum fold_right dot].
  - rewrite Rmult_0_r. apply derivable_pt_lim_const.
  - injection Lt as Lt. injection Lz as Lz. specialize (IH t z Lt Lz). cbn.
    replace (/ sigma * (- glp c * b + dot (map (fun a0 : R => - glp a0) z) t)) with (glp c * (- / sigma * b) + / sigma * dot (map (fun a0 : R => - glp a0) z) t) by ring.
    apply (derivable_pt_lim_plus (fun s => log_prob (/ sigma * (a + sigma * c - (a + s * b)))) (fun s => vsum (map log_prob (smul (/ sigma) (vsub (vadd x (smul sigma z)) (vadd x (smul s t))))))); [|exact IH].
    apply (derivable_pt_lim_comp (fun s => / sigma * (a + sigma * c - (a + s * b))) log_prob).
    + replace (- / sigma * b) with (/ sigma * (0 - (0 + (1 * b + 0 * 0)))) by ring. apply (derivable_pt_lim_scal (fun s => a + sigma * c - (a + s * b))).
      apply (derivable_pt_lim_minus (fun _ => a + sigma * c) (fun s => a + s * b)); [apply derivable_pt_lim_const|].
      apply (derivable_pt_lim_plus (fun _ => a) (fun s => s * b)); [apply derivable_pt_lim_const|]. apply (derivable_pt_lim_mult id (fun _ => b)); [apply derivable_pt_lim_id|apply derivable_pt_lim_const].
    + replace (/ sigma * (a + sigma * c - (a + 0 * b))) with c by (field; exact Hs). apply HD.
Qed.
Section Jvp.
Variable Key : Type.
Variable sample : Key -> nat -> nat -> list vec.
Hypothesis SO : sample_ok sample.
Variables (glp : R -> R) (N : nat) (sigma : R).
Hypothesis HN : (0 < N)%nat.
Hypothesis Hs : sigma <> 0.
Lemma rule_eq K (F : vec -> vec) (x t : vec) rng :
  smul (1 / (INR N * sigma)) (einsum_nd_ne_e K (map F (perturbed Key sample N sigma x rng)) (nabla_z Key sample glp N x rng) t) =
  mean_rows K (map (fun z : vec => smul (/ sigma * dot (map (fun a => - glp a) z) t) (F (vadd x (smul sigma z)))) (sample rng N (length x))).
Proof.
  unfold einsum_nd_ne_e, perturbed, nabla_z, mean_rows. rewrite map_map, (combine_map (fun z => F (vadd x (smul sigma z))) (map (fun a => - glp a))), map_map. cbn [fst snd].
  destruct (SO rng N (length x)) as [LZ _]. rewrite ?map_length. 
 rewrite LZ. rewrite !smul_rows, !map_map. f_equal. apply map_ext. intros z. rewrite !smul_smul. f_equal. field. split; [exact Hs|apply not_0_INR; lia].
Qed.
End Jvp.

(** The declared derivative of the perturbed argmax (and of any perturbed function) is the score-function estimator: the average
    of the outputs, each weighted by the derivative of the log-density of its perturbed input as the input moves along the tangent.
    With the control variate the output at the unperturbed input is subtracted first. *)
Theorem C49_argmax_jvp :
  forall Key sample log_prob glp N sigma D am, @sample_ok Key sample -> (0 < N)%nat -> sigma <> 0 ->
  (forall z, derivable_pt_lim log_prob z (glp z)) ->
  forall x t rng, length x = D -> length t = D ->
  exists score : vec -> R,
    (forall z, In z (sample rng N D) ->
       derivable_pt_lim (fun s => vsum (map log_prob (smul (/ sigma) (vsub (vadd x (smul sigma z)) (vadd x (smul s t)))))) 0 (score z)) /\
    argmax_rule Key sample glp N sigma am false t x rng = mean_rows D (map (fun z : vec => smul (score z) (am (vadd x (smul sigma z)))) (sample rng N D)) /\
    argmax_rule Key sample glp N sigma am true t x rng = mean_rows D (map (fun z : vec => smul (score z) (vsub (am (vadd x (smul sigma z))) (am x))) (sample rng N D)).
Proof.
  intros Key sample log_prob glp N sigma D am SO HN Hs HD x t rng L Lt. exists (fun z => / sigma * dot (map (fun a => - glp a) z) t). split; [|split].
  - intros z Hz. apply log_density_deriv; try assumption; [congruence|]. destruct (SO rng N D) as [_ Q]. rewrite Forall_forall in Q. rewrite L. apply Q. exact Hz.
  - unfold argmax_rule, pert_argmax_jvp. rewrite (rule_eq Key sample SO glp N sigma HN Hs). rewrite L. reflexivity.
  - unfold argmax_rule, pert_argmax_jvp_cv. cbv zeta. rewrite map_map. rewrite (rule_eq Key sample SO glp N sigma HN Hs (length x) (fun v => vsub (am v) (am x))). rewrite L. reflexivity.
Qed.
Print Assumptions C49_argmax_jvp.

(** Consequences: the rules are linear in the tangent; the control variate changes the estimate only by a multiple of the
    unperturbed output whose factor is the average score, hence not at all for noise with zero average score (antithetic samples);
    and it gives exactly zero where no perturbation changes the output. *)
Theorem C49_control_variate :
  forall Key sample glp N sigma D am, @sample_ok Key sample -> (0 < N)%nat -> sigma <> 0 -> (forall x, length x = D -> length (am x) = D) ->
  forall x rng, length x = D ->
  let J cv t := argmax_rule Key sample glp N sigma am cv t x rng in
  (forall cv a b t t', length t = D -> length t' = D -> J cv (vadd (smul a t) (smul b t')) = vadd (smul a (J cv t)) (smul b (J cv t'))) /\
  (forall t, length t = D -> J false t = vadd (J true t) (smul (/ INR N * vsum (map (fun z => / sigma * dot (map (fun a => - glp a) z) t) (sample rng N D))) (am x))) /\
  ((forall z, In z (sample rng N D) -> am (vadd x (smul sigma z)) = am x) -> forall t, length t = D -> J true t = vzero D).
Proof.
  intros Key sample glp N sigma D am SO HN Hs AL x rng L J.
  set (sc := fun (t z : vec) => / sigma * dot (map (fun a => - glp a) z) t).
  assert (E1 : forall t, J false t = mean_rows D (map (fun z : vec => smul (sc t z) (am (vadd x (smul sigma z)))) (sample rng N D))).
  { intros t. unfold J, argmax_rule, pert_argmax_jvp. rewrite (rule_eq Key sample SO glp N sigma HN Hs). rewrite L. reflexivity. }
  assert (E2 : forall t, J true t = mean_rows D (map (fun z : vec => smul (sc t z) (vsub (am (vadd x (smul sigma z))) (am x))) (sample rng N D))).
  { intros t. unfold J, argmax_rule, pert_argmax_jvp_cv. cbv zeta. rewrite map_map, (rule_eq Key sample SO glp N sigma HN Hs (length x) (fun v => vsub (am v) (am x))). rewrite L. reflexivity. }
  destruct (SO rng N D) as [LZ FZ]. rewrite Forall_forall in FZ. set (zs := sample rng N D) in *.
  assert (LU : forall z, In z zs -> length (am (vadd x (smul sigma z))) = D).
  { intros z Hz. apply AL. apply vadd_length_eq; [exact L|]. rewrite smul_length. apply FZ. exact Hz. }
  assert (ML : forall g : vec -> vec, (forall z, In z zs -> length (g z) = D) -> length (mean_rows D (map g zs)) = D).
  { intros g Hg. unfold mean_rows. rewrite smul_length. apply vsum_rows_len. apply Forall_forall. intros r Hr. apply in_map_iff in Hr. destruct Hr as (z & <- & Hz). apply Hg. exact Hz. }
  assert (MD : forall (g : vec -> vec) v, dot (mean_rows D (map g zs)) v = / INR N * vsum (map (fun z => dot (g z) v) zs)).
  { intros g v. unfold mean_rows. rewrite dot_smul_l, vsum_rows_dot, map_length, LZ, map_map. reflexivity. }
  assert (SL : forall a b t t' z, sc (vadd (smul a t) (smul b t')) z = a * sc t z + b * sc t' z) by (intros; unfold sc; rewrite dot_vadd_r, !dot_smul_r; ring).
  assert (LIN : forall g : vec -> vec, (forall z, In z zs -> length (g z) = D) -> forall a b t t',
    mean_rows D (map (fun z : vec => smul (sc (vadd (smul a t) (smul b t')) z) (g z)) zs) =
    vadd (smul a (mean_rows D (map (fun z : vec => smul (sc t z) (g z)) zs))) (smul b (mean_rows D (map (fun z : vec => smul (sc t' z) (g z)) zs)))).
  { intros g Hg a b t t'. apply vec_eq_dot.
    - rewrite vadd_length, !smul_length, !ML by (intros; rewrite smul_length; apply Hg; assumption). lia.
    - intros v. rewrite dot_vadd_l, !dot_smul_l, !MD. rewrite (vsum_map_ext (fun z => dot (smul (sc (vadd (smul a t) (smul b t')) z) (g z)) v) (fun z => a * dot (smul (sc t z) (g z)) v + b * dot (smul (sc t' z) (g z)) v)) by (intros z _; rewrite SL, !dot_smul_l; ring).
      rewrite vsum_map_lin. ring. }
  split; [|split].
  - intros [|] a b t t' _ _; rewrite ?E1, ?E2; apply (LIN (fun z => _)); intros z Hz; [apply vsub_length_eq; [apply LU; exact Hz|apply AL; exact L]|apply LU; exact Hz].
  - intros t Lt. rewrite E1, E2. change (map (fun z => / sigma * dot (map (fun a => - glp a) z) t) zs) with (map (sc t) zs). apply vec_eq_dot.
    + rewrite vadd_length, smul_length, !ML, (AL x L); [lia| |]; intros z Hz; rewrite smul_length; [apply vsub_length_eq; [apply LU; exact Hz|apply AL; exact L]|apply LU; exact Hz].
    + intros v. rewrite dot_vadd_l, dot_smul_l, !MD. 
      rewrite (vsum_map_ext (fun z => dot (smul (sc t z) (vsub (am (vadd x (smul sigma z))) (am x))) v) (fun z => 1 * dot (smul (sc t z) (am (vadd x (smul sigma z)))) v + (- dot (am x) v) * sc t z)) by (intros z _; rewrite !dot_smul_l, dot_vsub_l; ring).
      rewrite (vsum_map_lin _ (sc t)). ring.
  - intros C t Lt. rewrite E2. apply vec_eq_dot.
    + rewrite ML, vzero_length; [reflexivity|]. intros z Hz. rewrite smul_length. apply vsub_length_eq; [apply LU; exact Hz|apply AL; exact L].
    + intros v. rewrite MD, dot_vzero_l. rewrite (vsum_map_ext _ (fun z => 0 * 0 + 0 * 0)); [rewrite (vsum_map_lin (fun _ => 0) (fun _ => 0)); ring|].
      intros z Hz. rewrite dot_smul_l, dot_vsub_l, (C z Hz). ring.
Qed.
Print Assumptions C49_control_variate.

(** make_perturbed_fun: forward value, and which output shapes its rules accept. *)
Lemma size_app a b : size (a ++ b) = (size a * size b)%nat.
Proof. induction a as [|x a IH]; [symmetry; apply Nat.mul_1_l|]. cbn [app size fold_right] in *. rewrite <- Nat.mul_assoc. f_equal. exact IH. Qed.
Lemma size_rev a : size (rev a) = size a.
Proof. induction a as [|x a IH]; [reflexivity|]. cbn [rev]. rewrite size_app, IH. cbn [size fold_right]. rewrite Nat.mul_1_r. apply Nat.mul_comm. Qed.
Lemma squeeze_id s : squeeze (s ++ [1%nat]) = s <-> ~ In 1%nat s.
Proof.
  unfold squeeze. rewrite filter_app. cbn. rewrite app_nil_r. split.
  - intros E H. rewrite <- E in H. apply filter_In in H. destruct H as [_ H]. discriminate H.
  - intros H. induction s as [|d s IH]; [reflexivity|]. cbn. destruct (Nat.eqb_spec d 1) as [->|N]; [exfalso; apply H; left; reflexivity|]. cbn. f_equal. apply IH. intros Q. apply H. right. exact Q.
Qed.
Theorem C49_fun_jvp :
  forall Key sample glp N sigma shape fn, @sample_ok Key sample -> (0 < N)%nat -> sigma <> 0 ->
  forall t x rng, let J := pert_fun_jvp Key sample glp N sigma shape fn t x rng in
  (~ In 1%nat shape -> J = Ok (mean_rows (size shape) (map (fun z : vec => smul (/ sigma * dot (map (fun a => - glp a) z) t) (fn (vadd x (smul sigma z)))) (sample rng N (length x))))) /\
  (In 1%nat shape -> J = Err TypeError).
Proof.
  intros Key sample glp N sigma shape fn SO HN Hs t x rng J. unfold J, pert_fun_jvp, finish. rewrite size_app. cbn [size fold_right]. rewrite Nat.mul_1_r, Nat.eqb_refl.
  rewrite (rule_eq Key sample SO glp N sigma HN Hs). unfold shape_eqb. split; intros H.
  - destruct (list_eq_dec Nat.eq_dec (squeeze (shape ++ [1%nat])) shape) as [E|E]; [reflexivity|]. exfalso. apply E. apply squeeze_id. exact H.
  - destruct (list_eq_dec Nat.eq_dec (squeeze (shape ++ [1%nat])) shape) as [E|E]; [|reflexivity]. apply squeeze_id in E. contradiction.
Qed.
Print Assumptions C49_fun_jvp.

Definition bcd (x y : nat) (l : list nat) : option (list nat) :=
  if Nat.eqb x y then Some (x :: l) else if Nat.eqb x 1 then Some (y :: l) else if Nat.eqb y 1 then Some (x :: l) else None.
Lemma bc_cons x a y b : bc (x :: a) (y :: b) = match bc a b with None => None | Some l => bcd x y l end.
Proof. reflexivity. Qed.
Lemma bcd_size x y l b : (0 < x)%nat -> (0 < y)%nat -> bcd x y l = Some b -> exists m, size b = (m * size l)%nat /\ (x <= m)%nat /\ (y <= m)%nat.
Proof.
  intros Hx Hy. unfold bcd. destruct (Nat.eqb_spec x y) as [<-|_]; [|destruct (Nat.eqb_spec x 1) as [->|_]; [|destruct (Nat.eqb_spec y 1) as [->|_]; [|discriminate]]];
  intros E; apply (f_equal (fun o => match o with Some l => size l | None => 0%nat end)) in E; eexists; (split; [symmetry; exact E|lia]).
Qed.
Lemma bc_size n Q : Forall (fun d => (0 < d)%nat) Q -> forall a b, (0 < a)%nat -> bc (a :: Q ++ [n]) Q = Some b -> exists b', size b = (n * b')%nat /\ (a * size Q <= b')%nat.
Proof.
  intros F. induction F as [|q Q Hq F IH]; intros a b Ha E.
  - cbn in E. injection E as <-. exists a. cbn. lia.
  - change ((q :: Q) ++ [n]) with (q :: Q ++ [n]) in E. rewrite bc_cons in E. destruct (bc (q :: Q ++ [n]) Q) as [l|] eqn:El; [|discriminate]. destruct (IH q l Hq El) as (l' & E1 & E2).
    destruct (bcd_size a q l b Ha Hq E) as (m & M1 & M2 & M3). change (size (q :: Q)) with (q * size Q)%nat. exists (m * l')%nat. rewrite M1, E1. split; nia.
Qed.
Lemma bc_strict n Q : Forall (fun d => (0 < d)%nat) Q -> (exists d, In d Q /\ (1 < d)%nat) -> forall b, bc (1%nat :: Q ++ [n]) Q = Some b -> exists b', size b = (n * b')%nat /\ (size Q < b')%nat.
Proof.
  intros F. induction F as [|q Q Hq F IH]; intros (d & Hd & H1) b E; [contradiction|].
  change ((q :: Q) ++ [n]) with (q :: Q ++ [n]) in E. rewrite bc_cons in E. destruct (bc (q :: Q ++ [n]) Q) as [l|] eqn:El; [|discriminate].
  assert (SQ : (0 < size Q)%nat). { clear -F. induction F as [|e Q He F IH]; [cbn; lia|]. change (size (e :: Q)) with (e * size Q)%nat. nia. }
  destruct (bcd_size 1 q l b Nat.lt_0_1 Hq E) as (m & M1 & M2 & M3). change (size (q :: Q)) with (q * size Q)%nat. destruct (Nat.eq_dec q 1) as [->|Nq].
  - destruct Hd as [<-|Hd]; [lia|]. destruct (IH (ex_intro _ d (conj Hd H1)) l El) as (l' & E1 & E2). exists (m * l')%nat. rewrite M1, E1. split; nia.
  - destruct (bc_size n Q F q l Hq El) as (l' & E1 & E2). exists (m * l')%nat. rewrite M1, E1. split; [nia|]. assert (q * (q * size Q) <= m * l')%nat by (apply Nat.mul_le_mono; assumption). nia.
Qed.
(** With control_variate=True the rule fails for every output that is not a scalar, although the documentation allows
    outputs of any shape: output_pert has a trailing axis of length 1 that output has not. *)
Theorem C49_control_variate_refuted :
  forall Key sample glp N sigma shape fn t x rng, (0 < N)%nat -> Forall (fun d => (0 < d)%nat) shape -> shape <> [] ->
  pert_fun_jvp_cv Key sample glp N sigma shape fn t x rng = Err TypeError.
Proof.
  intros Key sample glp N sigma shape fn t x rng HN F NE. unfold pert_fun_jvp_cv, broadcast.
  replace (rev (N :: shape ++ [1%nat])) with (1%nat :: rev shape ++ [N]) by (cbn [rev]; rewrite rev_app_distr; reflexivity).
  destruct (bc (1%nat :: rev shape ++ [N]) (rev shape)) as [b|] eqn:E; [|reflexivity]. cbv zeta. unfold finish. rewrite size_rev, size_app. cbn [size fold_right]. rewrite Nat.mul_1_r.
  destruct (in_dec Nat.eq_dec 1%nat shape) as [I|I].
  - destruct (Nat.eqb_spec (size b / N) (size shape)); [|reflexivity]. unfold shape_eqb. destruct (list_eq_dec Nat.eq_dec (squeeze (shape ++ [1%nat])) shape) as [Q|Q]; [|reflexivity]. apply squeeze_id in Q. contradiction.
  - assert (EX : exists d, In d (rev shape) /\ (1 < d)%nat).
    { destruct shape as [|d s]; [contradiction|]. exists d. split; [apply in_rev; rewrite rev_involutive; left; reflexivity|]. inversion F; subst. assert (d <> 1%nat) by (intros ->; apply I; left; reflexivity). lia. }
    assert (FR : Forall (fun d => (0 < d)%nat) (rev shape)) by (apply Forall_rev; exact F).
    destruct (bc_strict N (rev shape) FR EX b E) as (b' & E1 & E2). rewrite size_rev in E2. rewrite E1, Nat.mul_comm, Nat.div_mul by lia.
    destruct (Nat.eqb_spec b' (size shape)); [lia|reflexivity].
Qed.
Print Assumptions C49_control_variate_refuted.

(** For scalar functions the control variate works. *)
Theorem C49_fun_scalar_cv :
  forall Key sample glp N sigma fn, @sample_ok Key sample -> (0 < N)%nat -> sigma <> 0 ->
  forall t x rng, pert_fun_jvp_cv Key sample glp N sigma [] fn t x rng =
    Ok (mean_rows 1 (map (fun z : vec => smul (/ sigma * dot (map (fun a => - glp a) z) t) (vsub (fn (vadd x (smul sigma z))) (fn x))) (sample rng N (length x)))).
Proof.
  intros Key sample glp N sigma fn SO HN Hs t x rng. unfold pert_fun_jvp_cv. cbn [app broadcast rev bc]. unfold finish. cbn [size fold_right app].
  rewrite map_map, (rule_eq Key sample SO glp N sigma HN Hs 1 (fun v => vsub (fn v) (fn x))). cbn. rewrite Nat.mul_1_r, Nat.div_same by lia. reflexivity.
Qed.
Print Assumptions C49_fun_scalar_cv.

(** Perturbed one-hot argmax over the two unit vectors of R^2, with two fixed noise vectors. *)
Example C49_example : exists (sample : unit -> nat -> nat -> list vec) am Y x t,
  sample_ok sample /\ is_argmax 2 Y am /\ length x = 2%nat /\ length t = 2%nat /\ t <> vzero 2 /\ locally_constant sample 2 (1 / 2) am x t tt /\
  pert_argmax unit sample 2 (1 / 2) am x tt = [/ 2; / 2].
Proof.
  set (am := fun x : vec => if Rle_dec (nth 1 x 0) (nth 0 x 0) then [1; 0] else [0; 1]).
  set (sample := fun (_ : unit) (n D : nat) => if (Nat.eqb n 2 && Nat.eqb D 2)%bool then [[4; 0]; [0; 4]] else repeat (vzero D) n).
  exists sample, am, (fun y => y = [1; 0] \/ y = [0; 1]), [0; 0], [1; 0]. split.
  { intros rng n D. unfold sample. destruct (Nat.eqb_spec n 2) as [->|]; cbn [andb]; [destruct (Nat.eqb_spec D 2) as [->|]|].
    - split; [reflexivity|repeat constructor].
    - split; [apply repeat_length|]. apply Forall_forall. intros z Hz. apply repeat_spec in Hz. subst. apply vzero_length.
    - split; [apply repeat_length|]. apply Forall_forall. intros z Hz. apply repeat_spec in Hz. subst. apply vzero_length. }
  split. { split; [intros y [-> | ->]; reflexivity|]. intros [|a [|b [|? ?]]] L; try discriminate. unfold am. cbn [nth]. destruct (Rle_dec b a); split; auto; intros y [-> | ->]; cbn; lra. }
  split; [reflexivity|]. split; [reflexivity|]. split; [intros E; injection E; lra|]. split.
  { exists 1. split; [lra|]. intros z [<-|[<-|[]]] s Hs; apply Rabs_def2 in Hs; unfold am; cbn.
    - destruct (Rle_dec _ _); destruct (Rle_dec _ _); try reflexivity; exfalso; lra.
    - destruct (Rle_dec _ _); destruct (Rle_dec _ _); try reflexivity; exfalso; lra. }
  unfold pert_argmax, mean_rows, perturbed. cbn. unfold am. cbn. destruct (Rle_dec _ _); [|exfalso; lra]. destruct (Rle_dec _ _); [exfalso; lra|]. cbn. f_equal; [|f_equal]; field.
Qed.
