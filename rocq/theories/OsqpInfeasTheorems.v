(** C36: infeasibility verdicts of BoxOSQP. *)
From Coq Require Import Reals List Lra Lia Bool Arith.
From Verif Require Import Prelude Vec Mat XArith Loop Run Osqp OsqpProofs OsqpConverge OsqpTheorems.
Import ListNotations.
Open Scope R_scope.

Lemma inf_norm_le_iff v e t : is_inf_norm v e -> (e <= t <-> forall i, (i < length v)%nat -> Rabs (nth i v 0) <= t).
Proof. intros [H1 (i & Hi & ->)]. split; [intros H j Hj; specialize (H1 j Hj); lra|auto]. Qed.
Lemma nth_vsub_fin a b : xvsub (fin a) (fin b) = fin (vsub a b). Proof. apply xvsub_fin. Qed.
Lemma dy_minus_fin d : map (fun t => xopp (xrelu (xopp t))) (fin d) = fin (map (fun t => - Rmax (- t) 0) d).
Proof. unfold fin. rewrite !map_map. reflexivity. Qed.
Lemma dy_plus_fin d : map xrelu (fin d) = fin (map (fun t => Rmax t 0) d).
Proof. unfold fin. rewrite !map_map. reflexivity. Qed.
Definition low0 (li : xnum) : R := match li with Fin a => a | _ => 0 end.
Lemma bounds_low l u : Forall2 bound_ok l u -> map (fun li => if is_ninf li then Fin 0 else li) l = fin (map low0 l) /\ map (fun ui => if is_pinf ui then Fin 0 else ui) u = fin (map low0 u).
Proof.
  induction 1 as [|a b l u H F [I1 I2]]; [split; reflexivity|]. unfold fin in *. cbn [map]. rewrite I1, I2.
  destruct a, b; simpl in H; try contradiction; split; reflexivity.
Qed.
Lemma bound_sum_dot : forall l u d, Forall2 bound_ok l u -> length d = length l ->
  dot (map low0 l) (map (fun t => - Rmax (- t) 0) d) + dot (map low0 u) (map (fun t => Rmax t 0) d) = bound_sum l u d.
Proof.
  intros l u d F. revert d. induction F as [|a b l u H F IH]; intros [|t d] L; try discriminate; [simpl; lra|].
  injection L as L. cbn [map dot bound_sum]. rewrite <- (IH d L). destruct a, b; simpl in H; try contradiction; simpl; lra.
Qed.
Lemma certif_box_iff t : forall a l u, Forall2 bound_ok l u -> length a = length l ->
  (certif_box (fin a) l u (Fin t) = true <-> forall i, (i < length l)%nat -> (nth i l NaN <> NInf -> - t <= nth i a 0) /\ (nth i u NaN <> PInf -> nth i a 0 <= t)).
Proof.
  intros a l u F. revert a. induction F as [|b c l u H F IH]; intros [|x a] L; try discriminate; [split; [intros _ i Hi; simpl in Hi; lia|reflexivity]|].
  injection L as L. cbn [fin map certif_box]. fold (fin a). rewrite !andb_true_iff, (IH a L).
  assert (E1 : xle (if is_ninf b then NInf else xopp (Fin t)) (Fin x) = true <-> (b <> NInf -> - t <= x)).
  { destruct b; simpl; try (destruct (Rle_dec (- t) x)); split; intros; try reflexivity; try congruence; try lra; try assumption; try (exfalso; apply n; apply H0; discriminate). }
  assert (E2 : xle (Fin x) (if is_pinf c then PInf else Fin t) = true <-> (c <> PInf -> x <= t)).
  { destruct c; simpl; try (destruct (Rle_dec x t)); split; intros; try reflexivity; try congruence; try lra; try assumption; try (exfalso; apply n; apply H0; discriminate). }
  rewrite E1, E2. split.
  - intros [[H1 H2] H3] [|i] Hi; [split; [exact H1|exact H2]|apply H3; simpl in Hi; lia].
  - intros G. split; [exact (G 0%nat ltac:(simpl; lia))|]. intros i Hi. exact (G (S i) ltac:(simpl; lia)).
Qed.

Section Verdict.
Variables (m n : nat) (Q : mat) (c : vec) (A : mat) (l u : xvec) (cfg : osqp_config).
Hypothesis HP : qp_problem m n Q c A l u.
Let HA := qp_A _ _ _ _ _ _ _ HP.
Let HQ := qp_Q _ _ _ _ _ _ _ HP.
Lemma vne (v : vec) k : length v = k -> (0 < k)%nat -> v <> [].
Proof. intros L K ->. simpl in L. lia. Qed.
Lemma primal_test es dy : length dy = m -> (primal_certificate n A l u (primal_tol cfg) dy /\ check_primal l u cfg es (fin dy) (xtvec n (finm A) (fin dy)) = (Fin 0, PRIMAL_INFEASIBLE)) \/
  (~ primal_certificate n A l u (primal_tol cfg) dy /\ check_primal l u cfg es (fin dy) (xtvec n (finm A) (fin dy)) = es).
Proof.
  intros Ly. destruct (qp_pos _ _ _ _ _ _ _ HP) as [Hn Hm]. assert (Ll := qp_l _ _ _ _ _ _ _ HP).
  destruct (xinf_norm_fin dy (vne dy m Ly Hm)) as (e & Ee & He).
  assert (Lt : length (tvec n A dy) = n) by (apply (tvec_length m); exact HA). destruct (xinf_norm_fin (tvec n A dy) (vne _ n Lt Hn)) as (f & Ef & Hf).
  assert (B := bounds_fine _ _ _ _ _ _ _ HP). destruct (bounds_low l u B) as [B1 B2].
  unfold check_primal. cbv zeta. rewrite xtvec_fin, Ee, Ef, B1, B2, dy_minus_fin, dy_plus_fin, !xdot_fin. cbn [xmul xadd xle].
  rewrite bound_sum_dot by (try exact B; unfold vec, xvec in *; lia).
  assert (I : primal_certificate n A l u (primal_tol cfg) dy <-> f <= primal_tol cfg * e /\ bound_sum l u dy <= primal_tol cfg * e).
  { rewrite (inf_norm_le_iff _ _ _ Hf), Lt. split.
    - intros (e' & He' & H1 & H2). rewrite (inf_norm_unique _ _ _ He He'). split; assumption.
    - intros [H1 H2]. exists e. split; [exact He|split; assumption]. }
  rewrite I. destruct (Rle_dec f (primal_tol cfg * e)); destruct (Rle_dec (bound_sum l u dy) (primal_tol cfg * e)); simpl; [left|right|right|right]; split; try reflexivity; tauto.
Qed.
Lemma dual_test es dx : length dx = n -> (dual_certificate Q c A l u (dual_tol cfg) dx /\ check_dual Q c l u cfg es (fin dx) (xmvec (finm A) (fin dx)) = (Fin 0, DUAL_INFEASIBLE)) \/
  (~ dual_certificate Q c A l u (dual_tol cfg) dx /\ check_dual Q c l u cfg es (fin dx) (xmvec (finm A) (fin dx)) = es).
Proof.
  intros Lx. destruct (qp_pos _ _ _ _ _ _ _ HP) as [Hn Hm]. assert (Ll := qp_l _ _ _ _ _ _ _ HP). assert (Lc := qp_c _ _ _ _ _ _ _ HP).
  destruct (xinf_norm_fin dx (vne dx n Lx Hn)) as (e & Ee & He).
  assert (Lt : length (mvec Q dx) = n) by (rewrite mvec_length; apply HQ). destruct (xinf_norm_fin (mvec Q dx) (vne _ n Lt Hn)) as (f & Ef & Hf).
  assert (La : length (mvec A dx) = m) by (rewrite mvec_length; apply HA).
  assert (B := bounds_fine _ _ _ _ _ _ _ HP).
  unfold check_dual. cbv zeta. rewrite !xmvec_fin, Ee, Ef, xdot_fin. cbn [xmul xle].
  assert (CB := certif_box_iff (dual_tol cfg * e) (mvec A dx) l u B ltac:(unfold vec, xvec in *; lia)).
  assert (I : dual_certificate Q c A l u (dual_tol cfg) dx <-> f <= dual_tol cfg * e /\ dot c dx <= dual_tol cfg * e /\ certif_box (fin (mvec A dx)) l u (Fin (dual_tol cfg * e)) = true).
  { rewrite (inf_norm_le_iff _ _ _ Hf), Lt, CB. unfold dual_certificate. rewrite Lc. split.
    - intros (e' & He' & H1 & H2 & H3). rewrite (inf_norm_unique _ _ _ He He'). split; [|split]; assumption.
    - intros (H1 & H2 & H3). exists e. split; [exact He|split; [|split]]; assumption. }
  rewrite I. destruct (Rle_dec f (dual_tol cfg * e)); destruct (Rle_dec (dot c dx) (dual_tol cfg * e)); destruct (certif_box _ _ _ _); simpl; try (right; split; [|reflexivity]; intros (? & ? & ?); congruence || lra).
  left. split; [|reflexivity]. tauto.
Qed.
End Verdict.

(** The verdict of a check iteration, with the infeasibility tests enabled and finite iterates,
    whatever the linear solver: exactly the two approximate certificates, the primal one first, and
    SOLVED when neither holds and both residuals are at most tol. *)
Theorem C36_verdict : forall m n Q c A l u eps_div lin_solve cfg p st p' st' x y x' z' y',
  qp_problem m n Q c A l u -> check_infeas cfg = true -> Nat.modulo (o_iter st) (term_freq cfg) = 0%nat ->
  bx p = fin x -> by_ p = fin y -> bx p' = fin x' -> bz p' = fin z' -> by_ p' = fin y' -> length x = n -> length y = m -> length x' = n -> length z' = m -> length y' = m ->
  box_update n Q c A l u eps_div lin_solve cfg (p, st) = Ok (p', st') ->
  let primal := primal_certificate n A l u (primal_tol cfg) (vsub y' y) in
  let dual := dual_certificate Q c A l u (dual_tol cfg) (vsub x' x) in
  (o_status st' = PRIMAL_INFEASIBLE <-> primal) /\
  (o_status st' = DUAL_INFEASIBLE <-> ~ primal /\ dual) /\
  (o_status st' = SOLVED <-> ~ primal /\ ~ dual /\ forall e f, is_inf_norm (vsub (mvec A x') z') e -> is_inf_norm (vadd (vadd (mvec Q x') c) (tvec n A y')) f -> Rmax e f <= osqp_tol cfg) /\
  (primal \/ dual -> o_error st' = Fin 0).
Proof.
  intros m n Q c A l u eps_div lin_solve cfg p st p' st' x y x' z' y' HP Hck Hmod Ex Ey Ex' Ez' Ey' Lx Ly Lx' Lz' Ly' H primal dual.
  unfold box_update in H. destruct (admm_step n c A l u lin_solve cfg p (o_rho st) (o_lin st)) as [[[xa za] ya] ss]. destruct (residuals n Q c A xa za ya) as [pres dres] eqn:Er.
  destruct (if Nat.eqb (Nat.modulo (o_iter st) (step_freq cfg)) 0 then _ else _) as [rho' ss'].
  rewrite Hmod in H. cbn [Nat.eqb] in H. destruct (check_termination n Q c A l u cfg pres dres p (full_kkt xa za ya)) as [er s] eqn:Ec. destruct (_ && _)%bool; [discriminate|]. injection H as <- <-.
  cbn [bx bz by_ full_kkt o_status o_error] in *. subst xa za ya.
  unfold residuals in Er. rewrite !xmvec_fin, xtvec_fin, xvsub_fin, !xvadd_fin in Er. injection Er as <- <-.
  unfold check_termination in Ec. rewrite Hck in Ec. cbn [bx by_ full_kkt] in Ec. rewrite Ex, Ey, !xvsub_fin in Ec.
  destruct (qp_pos _ _ _ _ _ _ _ HP) as [Hn Hm].
  assert (Lp : length (vsub (mvec A x') z') = m) by (apply vsub_length_eq; [rewrite mvec_length; apply (qp_A _ _ _ _ _ _ _ HP)|exact Lz']).
  assert (Ld : length (vadd (vadd (mvec Q x') c) (tvec n A y')) = n) by (apply vadd_length_eq; [apply vadd_length_eq; [rewrite mvec_length; apply (qp_Q _ _ _ _ _ _ _ HP)|apply (qp_c _ _ _ _ _ _ _ HP)]|apply (tvec_length m); apply (qp_A _ _ _ _ _ _ _ HP)]).
  destruct (xinf_norm_fin _ (vne _ _ Lp Hm)) as (e & Ee & He). destruct (xinf_norm_fin _ (vne _ _ Ld Hn)) as (f & Ef & Hf).
  assert (Dx : length (vsub x' x) = n) by (apply vsub_length_eq; assumption). assert (Dy : length (vsub y' y) = m) by (apply vsub_length_eq; assumption).
  assert (SV : forall P : Prop, P <-> (P /\ forall e0 f0, is_inf_norm (vsub (mvec A x') z') e0 -> is_inf_norm (vadd (vadd (mvec Q x') c) (tvec n A y')) f0 -> Rmax e0 f0 <= osqp_tol cfg) \/ (P /\ ~ Rmax e f <= osqp_tol cfg)).
  { intros P. split; [|tauto]. intros HPp. destruct (Rle_dec (Rmax e f) (osqp_tol cfg)) as [L|L]; [left|right; split; assumption]. split; [exact HPp|]. intros e0 f0 H0 H1. rewrite (inf_norm_unique _ _ _ H0 He), (inf_norm_unique _ _ _ H1 Hf). exact L. }
  clear SV.
  destruct (primal_test m n Q c A l u cfg HP (check_dual Q c l u cfg (compute_error cfg (fin (vsub (mvec A x') z')) (fin (vadd (vadd (mvec Q x') c) (tvec n A y')))) (fin (vsub x' x)) (xmvec (finm A) (fin (vsub x' x)))) _ Dy) as [[HC E]|[HC E]]; rewrite E in Ec.
  - injection Ec as <- <-. fold primal in HC. repeat split; try discriminate; try tauto.
  - fold primal in HC. destruct (dual_test m n Q c A l u cfg HP (compute_error cfg (fin (vsub (mvec A x') z')) (fin (vadd (vadd (mvec Q x') c) (tvec n A y')))) _ Dx) as [[HD E']|[HD E']]; rewrite E' in Ec; fold dual in HD.
    + injection Ec as <- <-. repeat split; try discriminate; try tauto.
    + unfold compute_error in Ec. cbv zeta in Ec. rewrite Ee, Ef in Ec. cbn [xmax xle] in Ec. destruct (Rle_dec (Rmax e f) (osqp_tol cfg)) as [L|L]; injection Ec as <- <-; (split; [split; [discriminate|tauto]|]); (split; [split; [discriminate|tauto]|]); (split; [|tauto]); split; try discriminate.
      * intros _. split; [exact HC|]. split; [exact HD|]. intros e0 f0 H0 H1. rewrite (inf_norm_unique _ _ _ H0 He), (inf_norm_unique _ _ _ H1 Hf). exact L.
      * reflexivity.
      * intros (_ & _ & K). exfalso. apply L. apply K; assumption.
Qed.
Print Assumptions C36_verdict.

(** jit=False differs from jit=True only in raising ValueError instead of returning an infeasible
    status. *)
Theorem C36_raises : forall n Q c A l u eps_div lin_solve cfg p st, osqp_jit cfg = false ->
  exists p' st', box_update n Q c A l u eps_div lin_solve (with_jit cfg true) (p, st) = Ok (p', st') /\
    box_update n Q c A l u eps_div lin_solve cfg (p, st) =
      match o_status st' with PRIMAL_INFEASIBLE | DUAL_INFEASIBLE => Err ValueError | _ => Ok (p', st') end.
Proof.
  intros n Q c A l u eps_div lin_solve cfg p st Hj. unfold box_update. change (admm_step n c A l u lin_solve (with_jit cfg true)) with (admm_step n c A l u lin_solve cfg).
  destruct (admm_step n c A l u lin_solve cfg p (o_rho st) (o_lin st)) as [[[xa za] ya] ss]. destruct (residuals n Q c A xa za ya) as [pres dres].
  change (update_stepsize n Q c A eps_div (with_jit cfg true)) with (update_stepsize n Q c A eps_div cfg). change (check_termination n Q c A l u (with_jit cfg true)) with (check_termination n Q c A l u cfg).
  change (step_freq (with_jit cfg true)) with (step_freq cfg). change (term_freq (with_jit cfg true)) with (term_freq cfg).
  destruct (if Nat.eqb (Nat.modulo (o_iter st) (step_freq cfg)) 0 then _ else _) as [rho' ss']. destruct (if Nat.eqb (Nat.modulo (o_iter st) (term_freq cfg)) 0 then _ else _) as [er s].
  cbn [osqp_jit with_jit negb andb]. rewrite Hj. eexists. eexists. split; [reflexivity|]. cbn [o_status negb andb]. destruct s; reflexivity.
Qed.
Print Assumptions C36_raises.

(** Soundness of primal certificates (Farkas): with |A'd|_j <= t for all j and no use of infinite
    bounds, every feasible x has bound_sum >= - t |x|_1.  So an exact certificate (t = 0, negative sum)
    excludes all feasible points, an approximate one those of norm at most r. *)
Lemma bound_sum_ge l u d z : Forall2 bound_ok l u -> length d = length l -> supported l u d -> in_box l u z -> dot d z <= bound_sum l u d.
Proof.
  intros F L HS HI. assert (LU : length u = length l) by (clear - F; induction F; simpl; congruence). apply in_box_inb in HI; [|exact LU]. clear LU. revert d z L HS HI. induction F as [|a b l u H F IH]; intros [|t d] [|x z] L HS HI; try discriminate; try (simpl; lra); try (simpl in HI; contradiction).
  injection L as L. assert (S0 := HS 0%nat ltac:(simpl; lia)). cbn [nth] in S0.
  cbn [inb] in HI. destruct HI as (HB1 & HB2 & HI').
  cbn [dot bound_sum]. assert (HD := IH d z L (fun i Hi => HS (S i) ltac:(simpl; lia)) HI'). 
  assert (t * x <= (match b with Fin b0 => b0 * Rmax t 0 | _ => 0 end) + (match a with Fin a0 => a0 * - Rmax (- t) 0 | _ => 0 end)); [|lra].
  destruct a, b; simpl in H, HB1, HB2; try contradiction; unfold Rmax; destruct (Rle_dec t 0), (Rle_dec (- t) 0); try lra; try nra; destruct S0 as [S1 S2]; try (specialize (S1 eq_refl)); try (specialize (S2 eq_refl)); try nra;
    assert (T0 : t = 0) by lra; rewrite T0; lra.
Qed.
Theorem C36_primal_sound : forall m n Q c A l u d t x, qp_problem m n Q c A l u -> length d = m -> supported l u d ->
  (forall j, (j < n)%nat -> Rabs (nth j (tvec n A d) 0) <= t) -> 0 <= t -> length x = n -> qp_feasible A l u x -> - (t * norm1 x) <= bound_sum l u d.
Proof.
  intros m n Q c A l u d t x HP Ld HS HT Ht Lx HF.
  assert (B := bound_sum_ge l u d (mvec A x) (bounds_fine _ _ _ _ _ _ _ HP) ltac:(rewrite (qp_l _ _ _ _ _ _ _ HP); exact Ld) HS HF).
  assert (E : dot d (mvec A x) = dot (tvec n A d) x) by (rewrite dot_tvec; reflexivity). rewrite E in B.
  assert (Lt : length (tvec n A d) = n) by (apply (tvec_length m); apply (qp_A _ _ _ _ _ _ _ HP)).
  assert (Hb : forall (v b : vec), (forall i, (i < length v)%nat -> Rabs (nth i v 0) <= t) -> length v = length b -> - (t * norm1 b) <= dot v b).
  { clear - Ht. induction v as [|a v IH]; intros [|b0 b] Hb Hl; try discriminate; [unfold norm1; simpl; lra|].
    unfold norm1 in *. simpl. assert (H0 := Hb 0%nat ltac:(simpl; lia)). simpl in H0. assert (H1 := IH b (fun i Hi => Hb (S i) ltac:(simpl; lia)) ltac:(simpl in Hl; lia)).
    assert (H2 : Rabs (a * b0) <= t * Rabs b0) by (rewrite Rabs_mult; apply Rmult_le_compat_r; [apply Rabs_pos|exact H0]).
    assert (H3 := Rle_abs (- (a * b0))). rewrite Rabs_Ropp in H3. lra. }
  specialize (Hb (tvec n A d) x). rewrite Lt in Hb. specialize (Hb HT ltac:(congruence)). lra.
Qed.
Print Assumptions C36_primal_sound.

(** Soundness of dual certificates: an exact one (Q d = 0, c'd < 0, A d a recession direction of the
    box) makes every feasible problem unbounded below. *)
Theorem C36_dual_sound : forall m n Q c A l u d x, qp_problem m n Q c A l u -> length d = n -> mvec Q d = vzero n -> dot c d < 0 ->
  (forall i, (i < m)%nat -> (nth i l NaN <> NInf -> 0 <= nth i (mvec A d) 0) /\ (nth i u NaN <> PInf -> nth i (mvec A d) 0 <= 0)) ->
  length x = n -> qp_feasible A l u x -> forall bound, exists w, length w = n /\ qp_feasible A l u w /\ qp_objective Q c w < bound.
Proof.
  intros m n Q c A l u d x HP Ld HQ Hc HR Lx HF bound. set (s := Rmax 0 ((bound - qp_objective Q c x) / dot c d + 1)).
  assert (Hs : 0 <= s) by apply Rmax_l. exists (vadd x (smul s d)). split; [rewrite vadd_length, smul_length; unfold vec in *; lia|]. split.
  - unfold qp_feasible in *. destruct HF as [L HF]. split; [rewrite mvec_length in L |- *; exact L|]. intros i Hi. specialize (HF i Hi). rewrite mvec_vadd, mvec_smul, nth_vadd, nth_smul.
    destruct (HR i ltac:(rewrite <- (qp_l _ _ _ _ _ _ _ HP); exact Hi)) as [R1 R2]. assert (B := qp_box _ _ _ _ _ _ _ HP i ltac:(rewrite <- (qp_l _ _ _ _ _ _ _ HP); exact Hi)).
    destruct (nth i l NaN) as [a| | |]; destruct (nth i u NaN) as [b| | |]; simpl in *; try contradiction; split; try exact Logic.I; destruct HF as [F1 F2];
      try (specialize (R1 ltac:(discriminate))); try (specialize (R2 ltac:(discriminate))); try nra.
  - unfold qp_objective. rewrite mvec_vadd, mvec_smul, HQ. assert (E : vadd (mvec Q x) (smul s (vzero n)) = mvec Q x).
    { apply vec_ext; [rewrite vadd_length, smul_length, mvec_length, vzero_length, (proj1 (qp_Q _ _ _ _ _ _ _ HP)); lia|]. intros i _. rewrite nth_vadd, nth_smul, nth_vzero. ring. }
    rewrite E, dot_vadd_l, dot_smul_l, (sym_dot n Q d x (qp_Q _ _ _ _ _ _ _ HP) (qp_sym _ _ _ _ _ _ _ HP) Ld Lx), HQ, dot_vzero_r, dot_vadd_r, dot_smul_r.
    fold (qp_objective Q c x). assert (K : (bound - qp_objective Q c x) / dot c d + 1 <= s) by apply Rmax_r.
    assert (K2 : s * dot c d <= ((bound - qp_objective Q c x) / dot c d + 1) * dot c d) by (rewrite !(Rmult_comm _ (dot c d)); apply Rmult_le_compat_neg_l; lra).
    replace (((bound - qp_objective Q c x) / dot c d + 1) * dot c d) with (bound - qp_objective Q c x + dot c d) in K2 by (field; lra). unfold qp_objective in *. lra.
Qed.
Print Assumptions C36_dual_sound.

(** But a step that leaves the dual unchanged always counts as a certificate of primal infeasibility. *)
Theorem C36_zero_step : forall m n Q c A l u eps, qp_problem m n Q c A l u -> primal_certificate n A l u eps (vzero m) /\ dual_certificate Q c A l u eps (vzero n).
Proof.
  intros m n Q c A l u eps HP. destruct (qp_pos _ _ _ _ _ _ _ HP) as [Hn Hm].
  assert (Z : forall k, (0 < k)%nat -> is_inf_norm (vzero k) 0).
  { intros k Hk. split; [intros i _; rewrite nth_vzero, Rabs_R0; lra|]. exists 0%nat. rewrite vzero_length, nth_vzero, Rabs_R0. split; [exact Hk|reflexivity]. }
  split.
  - exists 0. split; [apply Z; exact Hm|]. split.
    + intros j Hj. rewrite tvec_vzero by apply (qp_A _ _ _ _ _ _ _ HP). rewrite nth_vzero, Rabs_R0. lra.
    + assert (B : forall l u k, bound_sum l u (vzero k) = 0).
      { clear. induction l as [|a l IH]; intros [|b u] [|k]; try reflexivity. unfold vzero. cbn [repeat bound_sum]. fold (vzero k). rewrite IH. replace (- 0) with 0 by ring. rewrite (Rmax_left 0 0) by lra. destruct a, b; ring. }
      rewrite B. lra.
  - exists 0. split; [apply Z; exact Hn|]. assert (E : forall M, mvec M (vzero n) = vzero (length M)).
    { intros M. unfold mvec, vzero at 2. induction M as [|r M IH]; [reflexivity|]. simpl. rewrite dot_vzero_r. f_equal. exact IH. }
    rewrite !E. split; [intros j _; rewrite nth_vzero, Rabs_R0; lra|]. split; [rewrite dot_vzero_r; lra|]. intros i _. rewrite nth_vzero. split; intros _; lra.
Qed.
Print Assumptions C36_zero_step.

(** min 1/2 x^2 - x/10 subject to -1 <= x <= 1 *)
Definition in_c : vec := [- (1 / 10)].
Definition in_l : xvec := [Fin (-1)].
Definition in_u : xvec := [Fin 1].
Lemma in_problem : qp_problem 1 1 ex_Q in_c ex_A in_l in_u.
Proof.
  constructor; try reflexivity; try (split; [reflexivity|repeat constructor]); try (split; lia).
  - intros [|i] [|j] Hi Hj; try lia; reflexivity.
  - intros [|a [|]] Lv; try discriminate. unfold ex_Q. simpl. nra.
  - intros [|i] Hi; [|lia]. simpl. lra.
Qed.
(** "feasible bounded problems are never reported infeasible" is false: this strictly convex problem,
    whose solution 1/10 is interior, raises ValueError("Primal infeasible.") with jit=False and
    otherwise default options, from the default start. *)
Theorem C36_feasible_refuted : qp_problem 1 1 ex_Q in_c ex_A in_l in_u /\ qp_solution 1 ex_Q in_c ex_A in_l in_u [1 / 10] /\
  forall eps_div lin_solve, lin_exact 1 ex_Q ex_A (sigma (default_osqp false)) lin_solve ->
  box_run 1 ex_Q in_c ex_A in_l in_u eps_div lin_solve (default_osqp false) None = Err ValueError.
Proof.
  split; [exact in_problem|]. split.
  { apply (C35_optimal 1 1 ex_Q in_c ex_A in_l in_u [1 / 10] [1 / 10] [0] in_problem); try reflexivity.
    - split; [reflexivity|]. intros [|i] Hi; [|simpl in Hi; lia]. simpl. lra.
    - split; [reflexivity|]. intros [|t [|]] [L H]; try discriminate. simpl. lra.
    - unfold vzero; simpl. vcons; try reflexivity; lra.
    - unfold vzero; simpl. vcons; try reflexivity; lra. }
  intros eps_div lin_solve HE. set (cfg := default_osqp false). set (p0 := box_init_params 1 ex_A in_l in_u None). set (st0 := box_init_state 1 ex_Q in_c ex_A cfg p0).
  assert (Hf : finite_params 1 1 p0 [0] [0] [0]).
  { repeat split; unfold p0, fin, xvzero; simpl; vcons; try reflexivity; unfold xclip; simpl; f_equal; unfold Rmin, Rmax; repeat destruct (Rle_dec _ _); lra. }
  destruct (admm_exact 1 1 ex_Q in_c ex_A in_l in_u lin_solve cfg in_problem HE p0 (o_lin st0) (1 / 10) [0] [0] [0] ltac:(lra) Hf eq_refl) as (s & x' & z' & y' & Ea & Lx & Lz & Ly & HS).
  assert (Y : y' = [0]).
  { destruct HS as [Ls El Ex Hb Hn Ev]. destruct s as [|s0 [|]]; try discriminate. destruct z' as [|z0 [|]]; try discriminate. destruct y' as [|y0 [|]]; try discriminate.
    unfold ex_Q, ex_A, in_c in El. simpl in El. injection El as El. unfold zy, ex_A in Ev. simpl in Ev. injection Ev as Ev. change (momentum cfg) with (16 / 10) in Ev.
    destruct Hb as [_ Hb]. specialize (Hb 0%nat ltac:(simpl; lia)). simpl in Hb. destruct Hn as [_ Hn].
    assert (N1 := Hn [1] ltac:(split; [reflexivity|]; intros [|i] Hi; [simpl; lra|simpl in Hi; lia])). assert (N2 := Hn [-1] ltac:(split; [reflexivity|]; intros [|i] Hi; [simpl; lra|simpl in Hi; lia])). simpl in N1, N2.
    assert (S0 : 0 < s0 < 1 / 10) by lra. f_equal.
    destruct (Rtotal_order y0 0) as [C|[C|C]]; [exfalso|exact C|exfalso].
    - assert (z0 <= -1) by nra. lra.
    - assert (1 <= z0) by nra. lra. }
  assert (Hupd : box_update 1 ex_Q in_c ex_A in_l in_u eps_div lin_solve cfg (p0, st0) = Err ValueError).
  { destruct (C36_raises 1 ex_Q in_c ex_A in_l in_u eps_div lin_solve cfg p0 st0 eq_refl) as (p' & st' & E1 & E2). rewrite E2.
    assert (Ep : p' = full_kkt (fin x') (fin z') (fin y')).
    { unfold box_update in E1. change (admm_step 1 in_c ex_A in_l in_u lin_solve (with_jit cfg true)) with (admm_step 1 in_c ex_A in_l in_u lin_solve cfg) in E1. change (o_rho st0) with (Fin (1 / 10)) in E1. rewrite Ea in E1.
      destruct (residuals _ _ _ _ _ _ _) as [pres dres]. destruct (if Nat.eqb (Nat.modulo (o_iter st0) (step_freq (with_jit cfg true))) 0 then _ else _) as [rho' ss']. destruct (if Nat.eqb (Nat.modulo (o_iter st0) (term_freq (with_jit cfg true))) 0 then _ else _) as [er ds].
      cbn [osqp_jit with_jit negb andb] in E1. injection E1 as <- _. reflexivity. }
    destruct Hf as (F1 & F2 & F3 & _).
    destruct (C36_verdict 1 1 ex_Q in_c ex_A in_l in_u eps_div lin_solve (with_jit cfg true) p0 st0 p' st' [0] [0] x' z' y' in_problem eq_refl eq_refl F1 F3) as [[_ V] _]; try (rewrite Ep; reflexivity); try reflexivity; try assumption.
    rewrite V; [reflexivity|]. rewrite Y. replace (vsub [0] [0]) with (vzero 1) by (unfold vzero; simpl; f_equal; ring). apply (C36_zero_step 1 1 ex_Q in_c). exact in_problem. }
  unfold box_run, box_run_from. fold p0. fold cfg. fold st0. change (osqp_maxiter cfg) with 4000%nat.
  destruct (run_loop_spec 4000 (box_cond cfg) (box_step 1 ex_Q in_c ex_A in_l in_u eps_div lin_solve cfg) (Ok (p0, st0)) ltac:(lia)) as (k & Hk & Erun & _ & _). rewrite Erun.
  destruct k as [|k]; [lia|]. clear - Hupd. induction k as [|k IH]; [exact Hupd|]. cbn [Nat.iter nat_rect] in *. rewrite IH. reflexivity.
Qed.
Print Assumptions C36_feasible_refuted.

(** Worse: with the tests enabled, EVERY problem warm-started at its own solution is reported primal
    infeasible (jit=True) or raises ValueError (jit=False). *)
Theorem C36_warm_start_refuted : forall m n Q c A l u eps_div lin_solve cfg p xs ys,
  qp_problem m n Q c A l u -> lin_exact n Q A (sigma cfg) lin_solve -> check_infeas cfg = true -> good_options cfg -> (0 < osqp_maxiter cfg)%nat ->
  qp_kkt n Q c A l u xs ys -> bx p = fin xs -> bz p = fin (mvec A xs) -> by_ p = fin ys ->
  if osqp_jit cfg then exists st', box_run_from n Q c A l u eps_div lin_solve cfg p = Ok (full_kkt (fin xs) (fin (mvec A xs)) (fin ys), st') /\ o_status st' = PRIMAL_INFEASIBLE
  else box_run_from n Q c A l u eps_div lin_solve cfg p = Err ValueError.
Proof.
  intros m n Q c A l u eps_div lin_solve cfg p xs ys HP HE Hck (G1 & G2 & G3 & G4 & G5 & G6 & G7 & G8) Hmax HK Ex Ez Ey.
  set (st := box_init_state n Q c A cfg p).
  assert (Ei : o_iter st = 0%nat /\ o_rho st = Fin (rho_start cfg) /\ ss_rho (o_lin st) = Fin (rho_start cfg)) by (unfold st, box_init_state; destruct (residuals _ _ _ _ _ _ _); repeat split).
  destruct Ei as (I1 & I2 & I3). destruct (admm_fixed m n Q c A l u lin_solve cfg p (o_lin st) (rho_start cfg) xs ys) as (ss' & Ea); try assumption.
  destruct HK as (Lx & Hf & HN & HS). assert (La : length (mvec A xs) = m) by (rewrite mvec_length; apply (qp_A _ _ _ _ _ _ _ HP)). assert (Ly : length ys = m) by (destruct HN as [L _]; rewrite L; exact La).
  assert (Hupd : exists st', box_update n Q c A l u eps_div lin_solve cfg (p, st) = (if osqp_jit cfg then Ok (full_kkt (fin xs) (fin (mvec A xs)) (fin ys), st') else Err ValueError) /\ o_status st' = PRIMAL_INFEASIBLE /\ o_error st' = Fin 0).
  { unfold box_update. rewrite I2, Ea, I1. destruct (residuals _ _ _ _ _ _ _) as [pres dres]. rewrite !Nat.mod_0_l by lia. cbn [Nat.eqb].
    destruct (update_stepsize _ _ _ _ _ _ _ _ _ _ _ _) as [rho' ss'']. unfold check_termination. rewrite Hck. cbn [bx by_ full_kkt]. rewrite Ex, Ey, !xvsub_fin, !vsub_self, Lx, Ly.
    destruct (primal_test m n Q c A l u cfg HP (check_dual Q c l u cfg (compute_error cfg pres dres) (fin (vzero n)) (xmvec (finm A) (fin (vzero n)))) (vzero m) ltac:(apply vzero_length)) as [[_ E]|[C _]].
    - rewrite E. eexists. split; [destruct (osqp_jit cfg); reflexivity|]. split; reflexivity.
    - exfalso. apply C. apply (C36_zero_step m n Q c). exact HP. }
  destruct Hupd as (st' & Eu & Es & Ee). unfold box_run_from. fold st.
  destruct (run_loop_spec (osqp_maxiter cfg) (box_cond cfg) (box_step n Q c A l u eps_div lin_solve cfg) (Ok (p, st)) Hmax) as (k & Hk & Erun & Hct & _). rewrite Erun.
  destruct k as [|k]; [lia|]. assert (E1 : Nat.iter 1 (box_step n Q c A l u eps_div lin_solve cfg) (Ok (p, st)) = if osqp_jit cfg then Ok (full_kkt (fin xs) (fin (mvec A xs)) (fin ys), st') else Err ValueError) by exact Eu.
  destruct k as [|k].
  - destruct (osqp_jit cfg); [exists st'; split; assumption|exact E1].
  - specialize (Hct 1%nat ltac:(lia)). rewrite E1 in Hct. destruct (osqp_jit cfg); cbn [box_cond] in Hct; [|discriminate]. rewrite Ee in Hct. simpl in Hct. destruct (Rlt_dec (osqp_tol cfg) 0); [lra|discriminate].
Qed.
Print Assumptions C36_warm_start_refuted.

(** A true positive: x >= 1 and x <= 0 (as two rows).  Farkas: d = (-1, 1). *)
Definition far_A : mat := [[1]; [1]].
Definition far_l : xvec := [Fin 1; NInf].
Definition far_u : xvec := [PInf; Fin 0].
Example C36_example : qp_problem 2 1 ex_Q ex_c far_A far_l far_u /\ supported far_l far_u [-1; 1] /\ primal_certificate 1 far_A far_l far_u (1 / 1000) [-1; 1] /\
  bound_sum far_l far_u [-1; 1] < 0 /\ forall x, length x = 1%nat -> ~ qp_feasible far_A far_l far_u x.
Proof.
  assert (HP : qp_problem 2 1 ex_Q ex_c far_A far_l far_u).
  { constructor; try reflexivity; try (split; [reflexivity|repeat constructor]); try (split; lia).
    - intros [|i] [|j] Hi Hj; try lia; reflexivity.
    - intros [|a [|]] Lv; try discriminate. unfold ex_Q. simpl. nra.
    - intros [|[|i]] Hi; try lia; exact Logic.I. }
  assert (HS : supported far_l far_u [-1; 1]) by (intros [|[|i]] Hi; simpl in *; try lia; split; intros; try discriminate; lra).
  assert (HB : bound_sum far_l far_u [-1; 1] = -1) by (simpl; unfold Rmax; repeat destruct (Rle_dec _ _); lra).
  assert (HT : forall j, (j < 1)%nat -> Rabs (nth j (tvec 1 far_A [-1; 1]) 0) <= 0) by (intros [|j] Hj; [|lia]; simpl; replace (-1 * 1 + (1 * 1 + 0)) with 0 by ring; rewrite Rabs_R0; lra).
  split; [exact HP|]. split; [exact HS|]. split.
  - exists 1. split; [split; [intros [|[|i]] Hi; simpl in *; try lia; unfold Rabs; destruct (Rcase_abs _); lra|exists 1%nat; split; [simpl; lia|simpl; rewrite Rabs_R1; reflexivity]]|].
    split; [intros j Hj; specialize (HT j Hj); lra|lra].
  - split; [lra|]. intros x Lx HF. assert (K := C36_primal_sound 2 1 ex_Q ex_c far_A far_l far_u [-1; 1] 0 x HP eq_refl HS HT ltac:(lra) Lx HF). lra.
Qed.
