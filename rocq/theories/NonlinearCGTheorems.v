(** C47: nonlinear conjugate gradient. *)
From Coq Require Import String.
From Coq Require Import Reals List Lra Lia Bool Arith.
From Verif Require Import Prelude Vec Mat LinAlg Zoom Run LinSolveProofs ImplicitDiffTheorems QuasiNewton NonlinearCG.
Import ListNotations.
Local Open Scope string_scope.
Open Scope R_scope.

Lemma eps_pos : 0 < ncg_eps. Proof. unfold ncg_eps; lra. Qed.
Lemma clamp_ge t : ncg_eps <= clamp_below t.
Proof. unfold clamp_below, Rleb. destruct (Rle_dec ncg_eps t); lra. Qed.
Lemma clamp_id t : ncg_eps <= t -> clamp_below t = t.
Proof. intros H. unfold clamp_below, Rleb. destruct (Rle_dec ncg_eps t); [reflexivity|contradiction]. Qed.
Lemma relu_id t : 0 <= t -> relu t = t.
Proof. intros H. unfold relu. apply Rmax_left. exact H. Qed.

(** The method is checked, beta is never negative, and away from the numerical safeguard
    (denominator at least 1e-6) it is the positive part of the formula named by the option. *)
Theorem C47_beta : forall method g g' d,
  (known_method method <-> exists beta, ncg_beta method g g' d = Ok beta) /\
  (~ known_method method -> ncg_beta method g g' d = Err ValueError) /\
  (forall beta, ncg_beta method g g' d = Ok beta -> 0 <= beta) /\
  (ncg_eps <= dot g g -> ncg_beta "polak-ribiere" g g' d = Ok (Rmax 0 (beta_PR g g'))) /\
  (ncg_eps <= dot g g -> ncg_beta "fletcher-reeves" g g' d = Ok (beta_FR g g')) /\
  (ncg_eps <= dot (vsub g' g) d -> ncg_beta "hestenes-stiefel" g g' d = Ok (Rmax 0 (beta_HS g g' d))).
Proof.
  intros method g g' d. unfold known_method. split; [|split; [|split; [|split; [|split]]]].
  - unfold ncg_beta. destruct (string_dec method _) as [->|N1]; [split; eauto|]. destruct (string_dec method _) as [->|N2]; [split; eauto|]. destruct (string_dec method _) as [->|N3]; [split; eauto 6|].
    split; [intros [?|[?|?]]; contradiction|intros [? C]; discriminate].
  - intros H. unfold ncg_beta. destruct (string_dec method _) as [->|N1]; [tauto|]. destruct (string_dec method _) as [->|N2]; [tauto|]. destruct (string_dec method _) as [->|N3]; [tauto|reflexivity].
  - intros beta. unfold ncg_beta. repeat destruct (string_dec method _); intros E; try discriminate; injection E as <-; apply Rmax_r.
  - intros H. unfold ncg_beta. simpl. rewrite clamp_id by exact H. unfold relu, beta_PR. rewrite Rmax_comm, (dot_comm g'). reflexivity.
  - intros H. unfold ncg_beta. simpl. rewrite clamp_id by exact H. unfold beta_FR. f_equal. apply relu_id.
    assert (P := eps_pos). apply Rmult_le_pos; [apply sqnorm_nonneg|]. left. apply Rinv_0_lt_compat. lra.
  - intros H. unfold ncg_beta. simpl. rewrite clamp_id by exact H. unfold relu, beta_HS. rewrite Rmax_comm, (dot_comm g'). reflexivity.
Qed.
Print Assumptions C47_beta.

Lemma update_inv ls cfg x st x' st' : ncg_update ls cfg (x, st) = Ok (x', st') ->
  exists s0 beta d, d = match c_linesearch cfg with LsName s => if string_dec s "backtracking" then smul (-1) (c_grad st) else c_direction st | LsInstance _ => c_direction st end /\
    init_stepsize (c_linesearch_init cfg) (c_max_stepsize cfg) (c_min_stepsize cfg) (c_increase_factor cfg) (c_stepsize st) = Ok s0 /\
    let o := ls s0 x (c_value st) (c_grad st) d in
    ncg_beta (c_method cfg) (c_grad st) (ls_grad o) (c_direction st) = Ok beta /\
    x' = ls_params o /\ st' = {| c_iter := S (c_iter st); c_stepsize := ls_step o; c_error := Fin (norm2 (c_grad st)); c_value := ls_value o; c_grad := ls_grad o;
      c_direction := vadd (smul (-1) (ls_grad o)) (smul beta (c_direction st)) |}.
Proof.
  unfold ncg_update. destruct (init_stepsize _ _ _ _ _) as [s0|]; [|discriminate]. unfold run_ls_opt.
  set (d := match match c_linesearch cfg with LsName s => if string_dec s "backtracking" then None else Some (c_direction st) | LsInstance _ => Some (c_direction st) end with None => smul (-1) (c_grad st) | Some d => d end).
  destruct (ncg_beta _ _ _ _) as [beta|] eqn:Eb; [|discriminate]. intros H. injection H as <- <-. exists s0, beta, d.
  split; [|repeat split; assumption]. unfold d. destruct (c_linesearch cfg) as [s|]; [|reflexivity]. destruct (string_dec s "backtracking"); reflexivity.
Qed.
(** A step: the new direction is -g' + beta d with beta >= 0; value and gradient in the state are
    those of the new parameters; the error is the gradient norm of the OLD parameters. *)
Theorem C47_update : forall f gradf ls cfg x st x' st', ls_consistent f gradf ls ->
  c_value st = f x -> c_grad st = gradf x -> ncg_update ls cfg (x, st) = Ok (x', st') ->
  c_value st' = f x' /\ c_grad st' = gradf x' /\ c_iter st' = S (c_iter st) /\
  (exists beta, 0 <= beta /\ ncg_beta (c_method cfg) (gradf x) (gradf x') (c_direction st) = Ok beta /\
     c_direction st' = vadd (smul (-1) (gradf x')) (smul beta (c_direction st))) /\
  c_error st' = Fin (norm2 (gradf x)).
Proof.
  intros f gradf ls cfg x st x' st' HC Hv Hg H. destruct (update_inv ls cfg x st x' st' H) as (s0 & beta & d & Ed & _ & Eb & -> & ->).
  destruct (HC s0 x (c_value st) (c_grad st) d) as (_ & Ev & Egr). cbn [c_value c_grad c_iter c_direction c_error].
  split; [exact Ev|]. split; [exact Egr|]. split; [reflexivity|]. rewrite Hg in *. rewrite Egr in Eb |- *. split; [|reflexivity].
  exists beta. split; [|auto]. exact (proj1 (proj2 (proj2 (C47_beta _ _ _ _))) _ Eb).
Qed.
Print Assumptions C47_update.
(** Descent: with an exact line search (g' orthogonal to the direction searched) the new direction
    satisfies <g', d'> = -|g'|^2; in general the defect is beta <g', d>. *)
Theorem C47_descent : forall f gradf ls cfg x st x' st', ls_consistent f gradf ls ->
  c_value st = f x -> c_grad st = gradf x -> ncg_update ls cfg (x, st) = Ok (x', st') ->
  dot (gradf x') (c_direction st) <= 0 ->
  dot (gradf x') (c_direction st') <= - sqnorm (gradf x') /\
  (dot (gradf x') (c_direction st) = 0 -> dot (gradf x') (c_direction st') = - sqnorm (gradf x')).
Proof.
  intros f gradf ls cfg x st x' st' HC Hv Hg H Ho. destruct (C47_update f gradf ls cfg x st x' st' HC Hv Hg H) as (_ & _ & _ & (beta & Hb & _ & ->) & _).
  rewrite dot_vadd_r, !dot_smul_r. unfold sqnorm. split; [nra|]. intros ->. ring.
Qed.
Print Assumptions C47_descent.

(** The claim that the reported error is the gradient norm at the returned parameters is false.
    f(x) = x^2/2 from 1: the minimiser 0 is reached, the error reported is 1. *)
Definition half_sq (x : vec) : R := 1 / 2 * dot x x.
Definition ident_grad (x : vec) : vec := x.
Definition unit_ls (f : vec -> R) (gradf : vec -> vec) : line_search := fun s0 x v g d =>
  let p := vadd x (smul 1 d) in {| ls_step := 1; ls_params := p; ls_value := f p; ls_grad := gradf p; ls_failed := false |}.
Definition ncg_cfg (method : string) (ls : ls_arg unit) (tol : R) : ncg_config :=
  {| c_method := method; c_linesearch := ls; c_linesearch_init := "max"; c_increase_factor := 6 / 5; c_max_stepsize := 1; c_min_stepsize := ncg_eps; c_tol := tol |}.
Theorem C47_error_refuted :
  ls_consistent half_sq ident_grad (unit_ls half_sq ident_grad) /\
  exists x st, ncg_run half_sq ident_grad (unit_ls half_sq ident_grad) (ncg_cfg "polak-ribiere" (LsName "zoom") (1 / 1000)) 1 [1] = Ok (x, st) /\
    ident_grad x = [0] /\ c_error st = Fin 1.
Proof.
  split; [intros s0 x v g d; cbv zeta; unfold unit_ls; cbn [ls_params ls_step ls_value ls_grad]; auto|].
  unfold ncg_run, ncg_update, run_ls_opt, unit_ls, ncg_init, init_stepsize. simpl. eexists. eexists. split; [reflexivity|].
  cbn [c_error]. unfold ident_grad. split; [cbv; f_equal; ring|]. f_equal. unfold norm2. simpl. replace (1 * 1 + 0) with 1 by ring. apply sqrt_1.
Qed.
Print Assumptions C47_error_refuted.
(** So run() can stop, its error below tol, at parameters whose gradient norm is above tol, although
    the line search decreased the objective: f(x) = -x^2/2 from 1 with tol 1. *)
Theorem C47_early_stop_refuted : let f := fun x => - half_sq x in let gradf := smul (-1) in
  ls_consistent f gradf (unit_ls f gradf) /\
  exists x st, ncg_run f gradf (unit_ls f gradf) (ncg_cfg "polak-ribiere" (LsName "zoom") 1) 100 [1] = Ok (x, st) /\
    f x < f [1] /\ xgtb (c_error st) 1 = false /\ norm2 (gradf x) > 1.
Proof.
  cbv zeta. split; [intros s0 x v g d; cbv zeta; unfold unit_ls; cbn [ls_params ls_step ls_value ls_grad]; auto|].
  assert (N1 : norm2 (smul (-1) [1]) = 1). { unfold norm2. simpl. replace (-1 * 1 * (-1 * 1) + 0) with 1 by ring. apply sqrt_1. }
  unfold ncg_run. unfold ncg_update at 1. unfold init_stepsize. cbn [string_dec c_linesearch_init ncg_cfg c_linesearch c_method].
  simpl string_dec. cbv iota. unfold ncg_beta. simpl string_dec. cbv iota. unfold ncg_init at 1 2 3 4 5 6 7.
  unfold run_ls_opt, unit_ls. cbn [ls_params ls_grad ls_value ls_step c_grad c_direction c_value c_iter].
  cbn [ncg_loop]. match goal with |- context [xgtb ?e ?t] => assert (Ex : xgtb e t = false) end.
  { cbn [snd c_error c_tol ncg_cfg]. unfold ncg_init. cbn [c_grad]. rewrite N1. unfold xgtb. destruct (Rlt_dec 1 1); [lra|reflexivity]. }
  rewrite Ex. eexists. eexists. split; [reflexivity|]. cbn [snd c_tol ncg_cfg] in Ex. split; [cbv -[Rplus Rmult Ropp Rlt Rdiv Rinv IZR]; simpl; lra|]. split; [exact Ex|].
  replace (smul (-1) (vadd [1] (smul 1 (smul (-1) (smul (-1) [1]))))) with (smul (-(2)) [1]) by (cbv; f_equal; ring).
  rewrite norm2_smul, Rabs_Ropp, Rabs_pos_eq by lra. replace (norm2 [1]) with 1; [lra|]. unfold norm2. simpl. replace (1 * 1 + 0) with 1 by ring. symmetry. apply sqrt_1.
Qed.
Print Assumptions C47_early_stop_refuted.

(** The chosen method influences the iterates: false with linesearch="backtracking".  Whatever the
    (valid) methods, the parameters, values, gradients, stepsizes and errors are the same: plain
    gradient descent. *)
Definition same_iterate (s t : vec * ncg_state) : Prop :=
  fst s = fst t /\ c_stepsize (snd s) = c_stepsize (snd t) /\ c_value (snd s) = c_value (snd t) /\ c_grad (snd s) = c_grad (snd t) /\
  c_error (snd s) = c_error (snd t) /\ c_iter (snd s) = c_iter (snd t).
Definition with_method (cfg : ncg_config) (m : string) : ncg_config :=
  {| c_method := m; c_linesearch := c_linesearch cfg; c_linesearch_init := c_linesearch_init cfg; c_increase_factor := c_increase_factor cfg;
     c_max_stepsize := c_max_stepsize cfg; c_min_stepsize := c_min_stepsize cfg; c_tol := c_tol cfg |}.
Theorem C47_backtracking_refuted : forall f gradf ls cfg m1 m2 k x0, known_method m1 -> known_method m2 -> known_init (c_linesearch_init cfg) ->
  c_linesearch cfg = LsName "backtracking" ->
  exists s1 s2, ncg_after f gradf ls (with_method cfg m1) k x0 = Ok s1 /\ ncg_after f gradf ls (with_method cfg m2) k x0 = Ok s2 /\ same_iterate s1 s2.
Proof.
  intros f gradf ls cfg m1 m2 k x0 H1 H2 Hi Hls. induction k as [|k IH].
  - exists (x0, ncg_init f gradf (with_method cfg m1) x0), (x0, ncg_init f gradf (with_method cfg m2) x0). repeat split.
  - destruct IH as ([y1 s1] & [y2 s2] & E1 & E2 & Es). simpl. rewrite E1, E2. destruct Es as (A1 & A2 & A3 & A4 & A5 & A6). cbn [fst snd] in *. subst y2.
    unfold ncg_update. cbn [with_method c_linesearch c_linesearch_init c_max_stepsize c_min_stepsize c_increase_factor c_method]. rewrite Hls. simpl string_dec. cbv iota. rewrite <- A2, <- A3, <- A4.
    assert (Hs : exists s0, init_stepsize (c_linesearch_init cfg) (c_max_stepsize cfg) (c_min_stepsize cfg) (c_increase_factor cfg) (c_stepsize s1) = Ok s0).
    { unfold init_stepsize. destruct Hi as [-> | [-> | ->]]; simpl; eauto. }
    destruct Hs as [s0 ->]. unfold run_ls_opt. set (o := ls s0 y1 (c_value s1) (c_grad s1) (smul (-1) (c_grad s1))).
    destruct (proj1 (proj1 (C47_beta m1 (c_grad s1) (ls_grad o) (c_direction s1))) H1) as [b1 ->].
    destruct (proj1 (proj1 (C47_beta m2 (c_grad s1) (ls_grad o) (c_direction s2))) H2) as [b2 ->].
    eexists. eexists. split; [reflexivity|]. split; [reflexivity|]. repeat split. cbn [snd c_iter]. rewrite A6. reflexivity.
Qed.
Print Assumptions C47_backtracking_refuted.

(** ** Quadratics: linear conjugate gradient *)
Section Quad.
Variables (n : nat) (Q : mat) (b : vec) (f : vec -> R) (ls : line_search) (cfg : ncg_config).
Hypothesis HQ : mat_shape n n Q.
Hypothesis HS : symmetric n Q.
Hypothesis HP : pos_def n Q.
Hypothesis Hb : length b = n.
Hypothesis Hex : exact_on_quadratic Q b ls.
Hypothesis Hm : known_method (c_method cfg).
Hypothesis Hi : known_init (c_linesearch_init cfg).
Hypothesis Hls : c_linesearch cfg <> LsName "backtracking".
Let G := quad_grad Q b.
Lemma G_len x : length x = n -> length (G x) = n.
Proof. intros H. unfold G, quad_grad. rewrite vsub_length, mvec_length, (proj1 HQ). unfold vec in *; lia. Qed.
(** The run, as sequences of points, gradients and directions *)
Variable x0 : vec.
Hypothesis Hx0 : length x0 = n.
Variables (X : nat -> vec) (S : nat -> ncg_state).
Hypothesis Hrun : forall k, ncg_after f G ls cfg k x0 = Ok (X k, S k).
Let g k := c_grad (S k).
Let d k := c_direction (S k).
Lemma QX0 : X 0%nat = x0 /\ g 0%nat = G x0 /\ d 0%nat = smul (-1) (G x0).
Proof. specialize (Hrun 0%nat). simpl in Hrun. injection Hrun as E1 E2. unfold g, d. rewrite <- E1, <- E2. auto. Qed.
Lemma Qstep k : exists beta, X (Datatypes.S k) = vadd (X k) (smul (- dot (G (X k)) (d k) / dot (d k) (mvec Q (d k))) (d k)) /\ g (Datatypes.S k) = G (X (Datatypes.S k)) /\
  ncg_beta (c_method cfg) (g k) (g (Datatypes.S k)) (d k) = Ok beta /\ d (Datatypes.S k) = vadd (smul (-1) (g (Datatypes.S k))) (smul beta (d k)).
Proof.
  assert (E := Hrun (Datatypes.S k)). simpl in E. rewrite (Hrun k) in E.
  destruct (update_inv ls cfg (X k) (S k) _ _ E) as (s0 & beta & dd & Ed & _ & Eb & EX & ES).
  assert (Edd : dd = d k).
  { rewrite Ed. destruct (c_linesearch cfg) as [s|]; [|reflexivity]. destruct (string_dec s "backtracking") as [->|]; [contradiction|reflexivity]. }
  rewrite Edd in *. destruct (Hex s0 (X k) (c_value (S k)) (c_grad (S k)) (d k)) as [P1 P2].
  exists beta. unfold g, d in *. rewrite ES. cbn [c_grad c_direction]. split; [rewrite EX; exact P1|]. split; [rewrite EX; exact P2|]. split; [exact Eb|reflexivity].
Qed.
Lemma Qlen k : length (X k) = n /\ length (d k) = n /\ g k = G (X k).
Proof.
  induction k as [|k (IX & Id & Ig)].
  - destruct QX0 as (E1 & E2 & E3). rewrite E1, E2, E3, smul_length, G_len by exact Hx0. auto.
  - destruct (Qstep k) as (beta & E1 & E2 & _ & E4). assert (LX : length (X (Datatypes.S k)) = n) by (rewrite E1, vadd_length, smul_length; unfold vec in *; lia).
    split; [exact LX|]. split; [|exact E2]. rewrite E4, vadd_length, !smul_length, E2, G_len by exact LX. unfold vec in *; lia.
Qed.
Lemma Qg_len k : length (g k) = n.
Proof. destruct (Qlen k) as (L & _ & ->). apply G_len. exact L. Qed.
Let a k := - dot (g k) (d k) / dot (d k) (mvec Q (d k)).
Lemma Qgrad k : g (Datatypes.S k) = vadd (g k) (smul (a k) (mvec Q (d k))).
Proof.
  destruct (Qstep k) as (beta & E1 & E2 & _). destruct (Qlen k) as (LX & Ld & Eg). rewrite E2, E1. fold (g k). unfold a. rewrite Eg. unfold G, quad_grad.
  rewrite mvec_vadd, mvec_smul. assert (Lm : forall y, length (mvec Q y) = n) by (intros; rewrite mvec_length; apply HQ).
  apply vec_eq_dot; [rewrite vadd_length, !vsub_length, vadd_length, !smul_length, !Lm; unfold vec in *; lia|]. intros w. vring.
Qed.
Lemma Qpos v : length v = n -> v <> vzero n -> 0 < dot v (mvec Q v).
Proof. intros L H. apply HP; assumption. Qed.
Lemma Qsym u v : length u = n -> length v = n -> dot u (mvec Q v) = dot v (mvec Q u).
Proof. intros. apply (sym_dot n); assumption. Qed.
(** As long as the gradients are not tiny *)
Variable K : nat.
Hypothesis Hbig : forall k, (k < K)%nat -> ncg_eps <= dot (g k) (g k).
Lemma g_nonzero k : (k < K)%nat -> 0 < dot (g k) (g k).
Proof. intros H. assert (A := Hbig k H). assert (B := eps_pos). lra. Qed.
Lemma exact_orth k : d k <> vzero n -> dot (g (Datatypes.S k)) (d k) = 0.
Proof.
  intros H. rewrite Qgrad, dot_vadd_l, dot_smul_l. destruct (Qlen k) as (_ & Ld & _). assert (P := Qpos (d k) Ld H).
  rewrite (dot_comm (mvec Q (d k))). unfold a. field. lra.
Qed.
(** The classical invariant *)
Definition cg_inv (k : nat) : Prop :=
  dot (g k) (d k) = - dot (g k) (g k) /\
  (forall i, (i < k)%nat -> dot (g k) (d i) = 0) /\ (forall i, (i < k)%nat -> dot (g k) (g i) = 0) /\ (forall i, (i < k)%nat -> dot (d k) (mvec Q (d i)) = 0).
Lemma d_nonzero k : (k < K)%nat -> dot (g k) (d k) = - dot (g k) (g k) -> d k <> vzero n.
Proof. intros HK E C. assert (P := g_nonzero k HK). rewrite C, dot_vzero_r in E. lra. Qed.
Lemma beta_cg m k : known_method m -> (k < K)%nat -> cg_inv k -> dot (g (Datatypes.S k)) (g k) = 0 -> dot (g (Datatypes.S k)) (d k) = 0 ->
  ncg_beta m (g k) (g (Datatypes.S k)) (d k) = Ok (dot (g (Datatypes.S k)) (g (Datatypes.S k)) / dot (g k) (g k)).
Proof.
  intros Hm' HK (E & _) Egg Egd. assert (B := Hbig k HK). assert (P := g_nonzero k HK). assert (Pn := sqnorm_nonneg (g (Datatypes.S k))). unfold sqnorm in Pn.
  assert (Pq : 0 <= dot (g (Datatypes.S k)) (g (Datatypes.S k)) / dot (g k) (g k)) by (apply Rmult_le_pos; [exact Pn|left; apply Rinv_0_lt_compat; exact P]).
  assert (E1 : dot (vsub (g (Datatypes.S k)) (g k)) (g (Datatypes.S k)) = dot (g (Datatypes.S k)) (g (Datatypes.S k))) by (rewrite dot_vsub_l, (dot_comm (g k)), Egg; ring).
  assert (E2 : dot (vsub (g (Datatypes.S k)) (g k)) (d k) = dot (g k) (g k)) by (rewrite dot_vsub_l, Egd, E; ring).
  destruct Hm' as [-> | [-> | ->]]; unfold ncg_beta; simpl string_dec; cbv iota zeta; rewrite ?E1, ?E2, clamp_id by exact B; f_equal; apply relu_id; exact Pq.
Qed.
Lemma cg_invariant k : (k <= K)%nat -> forall j, (j <= k)%nat -> cg_inv j.
Proof.
  induction k as [|k IH]; intros HK j Hj.
  - assert (j = 0)%nat by lia. subst j. destruct QX0 as (_ & E2 & E3). split; [rewrite E2, E3, dot_smul_r; ring|]. repeat split; intros i Hi'; lia.
  - destruct (Nat.eq_dec j (Datatypes.S k)) as [->|]; [|apply IH; lia].
    assert (HI : forall j, (j <= k)%nat -> cg_inv j) by (apply IH; lia). destruct (HI k (Nat.le_refl _)) as (I1 & I2 & I3 & I4).
    assert (Hd : d k <> vzero n) by (apply d_nonzero; [lia|exact I1]). assert (Ho := exact_orth k Hd).
    assert (Pg := g_nonzero k ltac:(lia)).
    assert (A2 : forall i, (i < Datatypes.S k)%nat -> dot (g (Datatypes.S k)) (d i) = 0).
    { intros i Hi'. destruct (Nat.eq_dec i k) as [->|]; [exact Ho|]. rewrite Qgrad, dot_vadd_l, dot_smul_l, I2 by lia.
      rewrite (dot_comm (mvec Q (d k))), Qsym by apply Qlen. rewrite I4 by lia. ring. }
    assert (A3 : forall i, (i < Datatypes.S k)%nat -> dot (g (Datatypes.S k)) (g i) = 0).
    { intros i Hi'. destruct i as [|i].
      - destruct QX0 as (_ & E2 & E3). assert (A := A2 0%nat Hi'). rewrite E3, dot_smul_r in A. rewrite E2. lra.
      - destruct (Qstep i) as (beta & _ & _ & _ & E4). assert (B1 := A2 (Datatypes.S i) Hi'). assert (B2 := A2 i ltac:(lia)). rewrite E4, dot_vadd_r, !dot_smul_r, B2 in B1. lra. }
    destruct (Qstep k) as (beta & _ & _ & Eb & E4).
    rewrite (beta_cg (c_method cfg) k Hm ltac:(lia) (HI k (Nat.le_refl _)) (A3 k ltac:(lia)) Ho) in Eb. injection Eb as Eb.
    split; [rewrite E4, dot_vadd_r, !dot_smul_r, Ho; ring|]. split; [exact A2|]. split; [exact A3|].
    intros i Hi'. rewrite E4, dot_vadd_l, !dot_smul_l.
    assert (Ii : cg_inv i) by (apply HI; lia). destruct Ii as (J1 & _).
    assert (Hdi : d i <> vzero n) by (apply d_nonzero; [lia|exact J1]). assert (Pi := Qpos (d i) (proj1 (proj2 (Qlen i))) Hdi).
    assert (Pgi := g_nonzero i ltac:(lia)).
    assert (Ea : a i = dot (g i) (g i) / dot (d i) (mvec Q (d i))) by (unfold a; rewrite J1; field; lra).
    assert (Hai : 0 < a i) by (rewrite Ea; apply Rdiv_lt_0_compat; assumption).
    assert (Eq : a i * dot (g (Datatypes.S k)) (mvec Q (d i)) = dot (g (Datatypes.S k)) (g (Datatypes.S i)) - dot (g (Datatypes.S k)) (g i)).
    { rewrite (Qgrad i), dot_vadd_r, dot_smul_r. ring. }
    rewrite (A3 i Hi') in Eq. destruct (Nat.eq_dec i k) as [->|].
    + assert (Eqk : dot (g (Datatypes.S k)) (mvec Q (d k)) = dot (g (Datatypes.S k)) (g (Datatypes.S k)) / a k).
      { apply Rmult_eq_reg_l with (a k); [|lra]. rewrite Eq. field. lra. }
      rewrite Eqk, <- Eb, Ea. field. lra.
    + rewrite (A3 (Datatypes.S i) ltac:(lia)) in Eq. rewrite I4 by lia. assert (Ez : dot (g (Datatypes.S k)) (mvec Q (d i)) = 0) by (apply Rmult_eq_reg_l with (a i); lra). rewrite Ez. ring.
Qed.
End Quad.
(** n mutually orthogonal non-zero vectors of R^n leave room for none more. *)
Lemma orthogonal_complete n (rows : list vec) v : length rows = n -> Forall (fun r => length r = n) rows -> length v = n ->
  (forall i j, (i < n)%nat -> (j < n)%nat -> i <> j -> dot (nth i rows []) (nth j rows []) = 0) -> (forall i, (i < n)%nat -> dot (nth i rows []) (nth i rows []) <> 0) ->
  (forall i, (i < n)%nat -> dot (nth i rows []) v = 0) -> v = vzero n.
Proof.
  intros Hl HF Hv Ho Hne Hz. assert (HM : mat_shape n n rows) by (split; assumption).
  set (T := mtrans n rows). assert (HT : mat_shape n n T) by (apply mtrans_shape; exact Hl).
  assert (EmT : forall y, length y = n -> mvec T y = tvec n rows y) by (intros y Hy; apply (mvec_mtrans n n); assumption).
  assert (HN : nonsingular n T).
  { split; [exact HT|]. intros y Hy E. rewrite EmT in E by exact Hy. apply nth_ext with (d := 0) (d' := 0); [rewrite vzero_length; exact Hy|].
    intros i Hi. rewrite Hy in Hi. unfold vzero. rewrite nth_repeat.
    assert (E1 : dot (tvec n rows y) (nth i rows []) = 0) by (rewrite E; apply dot_vzero_l). rewrite (dot_tvec n) in E1 by exact HM.
    assert (E2 : mvec rows (nth i rows []) = smul (dot (nth i rows []) (nth i rows [])) (unit_vec n i)).
    { apply nth_ext with (d := 0) (d' := 0); [rewrite mvec_length, smul_length, unit_vec_length; exact Hl|]. intros j Hj. rewrite mvec_length in Hj.
      rewrite nth_mvec. rewrite nth_smul. destruct (Nat.eq_dec i j) as [->|Hij].
      - rewrite nth_unit_vec by (unfold mat in *; lia). destruct (Nat.eq_dec j j); [ring|contradiction].
      - rewrite nth_unit_vec by (unfold mat in *; lia). destruct (Nat.eq_dec i j); [contradiction|]. rewrite Ho by (unfold mat in *; lia). ring. }
    rewrite E2, dot_smul_r in E1. rewrite (dot_comm y), dot_unit_vec in E1 by (unfold mat, vec in *; lia).
    specialize (Hne i Hi). destruct (Rmult_integral _ _ E1); [contradiction|assumption]. }
  apply (nonsingular_adjoint n T HN v Hv).
  assert (Ez : mvec rows v = vzero n).
  { apply nth_ext with (d := 0) (d' := 0); [rewrite mvec_length, vzero_length; exact Hl|]. intros j Hj. rewrite mvec_length in Hj.
    rewrite nth_mvec, Hz by (unfold mat in *; lia). unfold vzero. rewrite nth_repeat. reflexivity. }
  apply vec_eq_dot_len; [rewrite (tvec_length n), vzero_length by exact HT; reflexivity|]. intros w Hw. rewrite (tvec_length n) in Hw by exact HT.
  rewrite (dot_tvec n), dot_vzero_l, EmT by assumption. rewrite dot_comm, (dot_tvec n) by exact HM. rewrite Ez. apply dot_vzero_r.
Qed.

Record quadratic_run (n : nat) (Q : mat) (b : vec) (ls : line_search) (cfg : ncg_config) : Prop := {
  qr_shape : mat_shape n n Q; qr_sym : symmetric n Q; qr_pos : pos_def n Q; qr_b : length b = n; qr_exact : exact_on_quadratic Q b ls;
  qr_method : known_method (c_method cfg); qr_init : known_init (c_linesearch_init cfg); qr_ls : c_linesearch cfg <> LsName "backtracking" }.
Lemma init_ok s a b c d : known_init s -> exists r, init_stepsize s a b c d = Ok r.
Proof. unfold init_stepsize. intros [-> | [-> | ->]]; simpl; eauto. Qed.
Lemma after_total f gradf ls cfg x0 k : known_method (c_method cfg) -> known_init (c_linesearch_init cfg) -> exists x st, ncg_after f gradf ls cfg k x0 = Ok (x, st).
Proof.
  intros Hm Hi. induction k as [|k (x & st & E)]; [eexists; eexists; reflexivity|]. cbn [ncg_after]. rewrite E. unfold ncg_update.
  destruct (init_ok _ (c_max_stepsize cfg) (c_min_stepsize cfg) (c_increase_factor cfg) (c_stepsize st) Hi) as [r ->].
  match goal with |- context [ncg_beta ?m ?a ?b ?c] => destruct (proj1 (proj1 (C47_beta m a b c)) Hm) as [beta ->] end. eauto.
Qed.
Definition Xof f gradf ls cfg x0 (k : nat) : vec := match ncg_after f gradf ls cfg k x0 with Ok (x, _) => x | Err _ => [] end.
Definition Sof f gradf ls cfg x0 (k : nat) : ncg_state := match ncg_after f gradf ls cfg k x0 with Ok (_, s) => s | Err _ => ncg_init f gradf cfg x0 end.
Lemma Xof_run f gradf ls cfg x0 k : known_method (c_method cfg) -> known_init (c_linesearch_init cfg) ->
  ncg_after f gradf ls cfg k x0 = Ok (Xof f gradf ls cfg x0 k, Sof f gradf ls cfg x0 k).
Proof. intros Hm Hi. unfold Xof, Sof. destruct (after_total f gradf ls cfg x0 k Hm Hi) as (x & st & ->). reflexivity. Qed.

(** On a strictly convex quadratic with exact line search, whatever the method, as long as the
    squared gradient norms stay above the safeguard 1e-6: the gradients are mutually orthogonal and
    the directions are Q-conjugate (linear conjugate gradient). *)
Theorem C47_quadratic : forall n Q b f ls cfg x0, quadratic_run n Q b ls cfg -> length x0 = n ->
  let run := ncg_after f (quad_grad Q b) ls cfg in
  (forall k, exists x st, run k x0 = Ok (x, st) /\ length x = n /\ c_grad st = quad_grad Q b x) /\
  forall K, (forall k x st, (k < K)%nat -> run k x0 = Ok (x, st) -> ncg_eps <= sqnorm (quad_grad Q b x)) ->
  forall i j (xi : vec) si (xj : vec) sj, (i < j <= K)%nat -> run i x0 = Ok (xi, si) -> run j x0 = Ok (xj, sj) ->
    dot (quad_grad Q b xj) (quad_grad Q b xi) = 0 /\ dot (c_direction sj) (mvec Q (c_direction si)) = 0.
Proof.
  intros n Q b f ls cfg x0 [H1 H2 H3 H4 H5 H6 H7 H8] Hx run. set (X := Xof f (quad_grad Q b) ls cfg x0). set (S := Sof f (quad_grad Q b) ls cfg x0).
  assert (HR : forall k, run k x0 = Ok (X k, S k)) by (intros k; apply Xof_run; assumption).
  assert (HL := Qlen n Q b f ls cfg H1 H4 H5 H8 x0 Hx X S HR). split.
  - intros k. exists (X k), (S k). split; [apply HR|]. destruct (HL k) as (A & _ & B). split; [exact A|exact B].
  - intros K HB i j xi si xj sj Hij Ei Ej. rewrite HR in Ei, Ej. injection Ei as <- <-. injection Ej as <- <-.
    assert (HB' : forall k, (k < K)%nat -> ncg_eps <= dot (c_grad (S k)) (c_grad (S k))).
    { intros k Hk. destruct (HL k) as (_ & _ & ->). exact (HB k (X k) (S k) Hk (HR k)). }
    destruct (cg_invariant n Q b f ls cfg H1 H2 H3 H4 H5 H6 H8 x0 Hx X S HR K HB' j ltac:(lia) j (Nat.le_refl _)) as (_ & _ & I3 & I4).
    rewrite <- (proj2 (proj2 (HL i))), <- (proj2 (proj2 (HL j))). split; [apply I3; lia|apply I4; lia].
Qed.
Print Assumptions C47_quadratic.
(** Hence after at most n updates the gradient norm squared has dropped below 1e-6, or is zero. *)
Theorem C47_terminates : forall n Q b f ls cfg x0, quadratic_run n Q b ls cfg -> length x0 = n ->
  exists k (x : vec) st, (k <= n)%nat /\ ncg_after f (quad_grad Q b) ls cfg k x0 = Ok (x, st) /\
    (sqnorm (quad_grad Q b x) < ncg_eps \/ quad_grad Q b x = vzero n) /\ norm2 (quad_grad Q b x) <= sqrt ncg_eps.
Proof.
  intros n Q b f ls cfg x0 HQR Hx. destruct (C47_quadratic n Q b f ls cfg x0 HQR Hx) as [HT HO]. cbv zeta in HT, HO.
  set (run := ncg_after f (quad_grad Q b) ls cfg) in *.
  assert (E : (exists k (x : vec) st, (k < n)%nat /\ run k x0 = Ok (x, st) /\ sqnorm (quad_grad Q b x) < ncg_eps) \/
              (forall k x st, (k < n)%nat -> run k x0 = Ok (x, st) -> ncg_eps <= sqnorm (quad_grad Q b x))).
  { generalize n as m. induction m as [|m IH]; [right; intros; lia|]. destruct IH as [(k & x & st & A & B)|IH]; [left; exists k, x, st; split; [lia|exact B]|].
    destruct (HT m) as (x & st & E & _). destruct (Rlt_le_dec (sqnorm (quad_grad Q b x)) ncg_eps) as [Hlt|Hle].
    - left. exists m, x, st. auto with arith.
    - right. intros k y t Hk Ey. destruct (Nat.eq_dec k m) as [->|]; [|apply (IH k y t); [lia|exact Ey]]. rewrite E in Ey. injection Ey as <- <-. exact Hle. }
  destruct E as [(k & x & st & Hk & Ek & Hs)|Hbig].
  - exists k, x, st. split; [lia|]. split; [exact Ek|]. split; [left; exact Hs|]. unfold norm2. apply sqrt_le_1_alt. fold (sqnorm (quad_grad Q b x)). lra.
  - destruct (HT n) as (x & st & En & Lx & Eg). exists n, x, st. split; [lia|]. split; [exact En|].
    assert (LG : forall y, length y = n -> length (quad_grad Q b y) = n).
    { intros y Hy. unfold quad_grad. rewrite vsub_length, mvec_length. destruct HQR as [HSh _ _ HB]. destruct HSh as [HSh _]. unfold mat, vec in *; lia. }
    assert (Ez : quad_grad Q b x = vzero n).
    { set (X := Xof f (quad_grad Q b) ls cfg x0). assert (HX : forall k, exists s, run k x0 = Ok (X k, s) /\ length (X k) = n).
      { intros k. destruct (HT k) as (y & s & Ey & Ly & _). exists s. unfold X, Xof. fold run. rewrite Ey. auto. }
      set (rows := map (fun k => quad_grad Q b (X k)) (seq 0 n)). assert (Lr : length rows = n) by (unfold rows; rewrite map_length, seq_length; reflexivity).
      assert (Hn : forall i, (i < n)%nat -> nth i rows [] = quad_grad Q b (X i)).
      { intros i Hi. unfold rows. rewrite (nth_indep _ _ (quad_grad Q b (X 0%nat))) by (rewrite map_length, seq_length; exact Hi).
        rewrite (map_nth (fun k => quad_grad Q b (X k))), seq_nth by exact Hi. reflexivity. }
      apply (orthogonal_complete n rows).
      - exact Lr.
      - apply Forall_forall. intros r Hr. unfold rows in Hr. apply in_map_iff in Hr. destruct Hr as (k & <- & _). apply LG. destruct (HX k) as (s & _ & L). exact L.
      - apply LG. exact Lx.
      - intros i j Hi Hj Hij. rewrite !Hn by assumption. destruct (HX i) as (si & Ei & _). destruct (HX j) as (sj & Ej & _).
        destruct (Nat.lt_total i j) as [Hl|[Hl|Hl]]; [|contradiction|].
        + rewrite dot_comm. apply (HO n Hbig i j (X i) si (X j) sj); [lia|exact Ei|exact Ej].
        + apply (HO n Hbig j i (X j) sj (X i) si); [lia|exact Ej|exact Ei].
      - intros i Hi. rewrite Hn by exact Hi. destruct (HX i) as (si & Ei & _). assert (B := Hbig i (X i) si Hi Ei). assert (P := eps_pos). unfold sqnorm in B. lra.
      - intros i Hi. rewrite Hn by exact Hi. destruct (HX i) as (si & Ei & _). rewrite dot_comm. apply (HO n Hbig i n (X i) si x st); [lia|exact Ei|exact En]. }
    split; [right; exact Ez|]. rewrite Ez. unfold norm2. rewrite dot_vzero_l. rewrite sqrt_0. apply sqrt_pos.
Qed.
Print Assumptions C47_terminates.
(** And the three methods compute the same iterates there. *)
Theorem C47_methods_agree : forall n Q b f ls cfg x0 m K, quadratic_run n Q b ls cfg -> length x0 = n -> known_method m ->
  (forall k x st, (k < K)%nat -> ncg_after f (quad_grad Q b) ls cfg k x0 = Ok (x, st) -> ncg_eps <= sqnorm (quad_grad Q b x)) ->
  forall k, (k <= K)%nat -> ncg_after f (quad_grad Q b) ls (with_method cfg m) k x0 = ncg_after f (quad_grad Q b) ls cfg k x0.
Proof.
  intros n Q b f ls cfg x0 m K [H1 H2 H3 H4 H5 H6 H7 H8] Hx Hm HB. set (run := ncg_after f (quad_grad Q b) ls cfg) in *.
  set (X := Xof f (quad_grad Q b) ls cfg x0). set (S := Sof f (quad_grad Q b) ls cfg x0).
  assert (HR : forall k, run k x0 = Ok (X k, S k)) by (intros k; apply Xof_run; assumption).
  assert (HL := Qlen n Q b f ls cfg H1 H4 H5 H8 x0 Hx X S HR).
  assert (HB' : forall k, (k < K)%nat -> ncg_eps <= dot (c_grad (S k)) (c_grad (S k))).
  { intros k Hk. destruct (HL k) as (_ & _ & ->). exact (HB k (X k) (S k) Hk (HR k)). }
  assert (HI := cg_invariant n Q b f ls cfg H1 H2 H3 H4 H5 H6 H8 x0 Hx X S HR K HB').
  induction k as [|k IH]; intros Hk; [reflexivity|]. cbn [ncg_after]. rewrite IH by lia. fold (run k x0). rewrite HR.
  assert (EN := HR (Datatypes.S k)). unfold run in EN. cbn [ncg_after] in EN. fold (run k x0) in EN. rewrite HR in EN.
  unfold ncg_update in EN |- *. cbn [with_method c_linesearch c_linesearch_init c_max_stepsize c_min_stepsize c_increase_factor c_method].
  destruct (init_stepsize _ _ _ _ _) as [s0|]; [|discriminate].
  match type of EN with match ncg_beta _ _ (ls_grad ?oo) _ with _ => _ end = _ => set (o := oo) in * end.
  assert (Ik := HI k ltac:(lia) k (Nat.le_refl _)). destruct (HI (Datatypes.S k) ltac:(lia) (Datatypes.S k) (Nat.le_refl _)) as (_ & I2 & I3 & _).
  assert (Bm := beta_cg Q S K HB' m k Hm ltac:(lia) Ik (I3 k ltac:(lia)) (I2 k ltac:(lia))).
  assert (Bc := beta_cg Q S K HB' (c_method cfg) k H6 ltac:(lia) Ik (I3 k ltac:(lia)) (I2 k ltac:(lia))). cbv beta in Bm, Bc.
  assert (Eo : ls_grad o = c_grad (S (Datatypes.S k))).
  { destruct (ncg_beta (c_method cfg) (c_grad (S k)) (ls_grad o) (c_direction (S k))) as [be|]; [|discriminate]. injection EN as _ <-. reflexivity. }
  rewrite <- Eo in Bm, Bc. rewrite Bm. rewrite Bc in EN. first [exact EN | rewrite HR; exact EN].
Qed.
Print Assumptions C47_methods_agree.

(** Non-vacuity: a 2x2 system, with the line search that minimises exactly along the direction. *)
Definition exact_ls (f : vec -> R) (Q : mat) (b : vec) : line_search := fun s0 x v g d =>
  let a := - dot (quad_grad Q b x) d / dot d (mvec Q d) in let p := vadd x (smul a d) in
  {| ls_step := a; ls_params := p; ls_value := f p; ls_grad := quad_grad Q b p; ls_failed := false |}.
Example C47_example : let Q := [[2; 1]; [1; 2]] in let b := [1; 0] in
  quadratic_run 2 Q b (exact_ls (fun x => 1 / 2 * dot x (mvec Q x) - dot b x) Q b) (ncg_cfg "hestenes-stiefel" (LsName "zoom") (1 / 1000)) /\
  ls_consistent (fun x => 1 / 2 * dot x (mvec Q x) - dot b x) (quad_grad Q b) (exact_ls (fun x => 1 / 2 * dot x (mvec Q x) - dot b x) Q b) /\
  ncg_eps <= sqnorm (quad_grad Q b [1; 1]).
Proof.
  cbv zeta. split; [split|split].
  - split; [reflexivity|repeat constructor].
  - intros i j Hi Hj. destruct i as [|[|]]; destruct j as [|[|]]; try lia; reflexivity.
  - intros x Hx Hne. destruct x as [|a [|c [|]]]; try discriminate. simpl. assert (0 < a * a + c * c).
    { destruct (Req_dec a 0) as [->|Ha]; [destruct (Req_dec c 0) as [->|Hc]; [exfalso; apply Hne; reflexivity|]|]; nra. }
    nra.
  - reflexivity.
  - intros s0 x v g d. split; reflexivity.
  - right. right. reflexivity.
  - left. reflexivity.
  - discriminate.
  - intros s0 x v g d. cbv zeta. unfold exact_ls. cbn [ls_params ls_step ls_value ls_grad]. auto.
  - unfold sqnorm, quad_grad, ncg_eps. simpl. lra.
Qed.
