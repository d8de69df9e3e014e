(** C86: the evaluation counters of the state count the evaluations that are made. *)
From Coq Require Import String.
From Coq Require Import Reals List Bool Arith Lia Lra.
From Verif Require Import Prelude Vec Mat XArith Base Run Backtracking Zoom QuasiNewton NonlinearCG ComplexLS Calls CallsProofs.
From Verif Require FixedPoint Anderson.
Import ListNotations.
Local Open Scope R_scope.

(** Backtracking line search: both counters are exact, whatever the condition, the objective (NaN and infinities included), the configuration and the outcome. *)
Theorem C86_backtracking :
  forall cfg f gradf given s0 x fx g direction,
  let '((s, st), log) := bt_run_traced cfg f gradf given s0 x fx g direction in
  (s, st) = bt_run cfg f gradf given s0 x fx g direction /\
  num_fun_eval st = fun_evals log /\ num_grad_eval st = grad_evals false log.
Proof.
  intros cfg f gradf given s0 x fx g direction. pose proof (bt_inv cfg f gradf given s0 x fx g direction) as H. cbv zeta in H.
  assert (E : fst (bt_run_traced cfg f gradf given s0 x fx g direction) = bt_run cfg f gradf given s0 x fx g direction)
    by (unfold bt_run_traced; rewrite traced_fst; reflexivity).
  destruct (bt_run_traced _ _ _ _ _ _ _ _ _) as [[s st] log]. split; [exact E|exact H].
Qed.
Print Assumptions C86_backtracking.

(** Nothing is evaluated outside the log: another objective and gradient that answer the logged calls alike give the same search, so no evaluation is left uncounted. *)
Theorem C86_complete :
  (forall cfg f f' gradf gradf' given s0 x fx g direction,
     Forall (same_answer f f' gradf gradf') (snd (bt_run_traced cfg f gradf given s0 x fx g direction)) ->
     bt_run_traced cfg f' gradf' given s0 x fx g direction = bt_run_traced cfg f gradf given s0 x fx g direction) /\
  (forall (G : Type) cfg f f' (gradf gradf' : vec -> G) vdot given has_aux aux_is_none s0 x fx (g : G) sl d,
     Forall (same_answer f f' gradf gradf') (snd (zoom_run_traced cfg f gradf vdot given has_aux aux_is_none s0 x fx g sl d)) ->
     zoom_run_traced cfg f' gradf' vdot given has_aux aux_is_none s0 x fx g sl d = zoom_run_traced cfg f gradf vdot given has_aux aux_is_none s0 x fx g sl d).
Proof. split; intros; [apply bt_agree|apply zoom_agree]; assumption. Qed.
Print Assumptions C86_complete.

(** Zoom line search: the function counter is exact.  The gradient counter is exact when value and gradient are counted together (value_and_grad=True) or
    no auxiliary output has to be fetched again; otherwise it is one too high. *)
Theorem C86_zoom :
  forall (G : Type) cfg f gradf vdot given has_aux aux_is_none s0 x fx (g : G) sl d,
  let '((s, st), log) := zoom_run_traced cfg f gradf vdot given has_aux aux_is_none s0 x fx g sl d in
  let '(s', st') := zoom_run cfg f gradf vdot given s0 x fx g sl d in
  s = s' /\ z_params st = z_params st' /\ z_value st = z_value st' /\ z_grad st = z_grad st' /\ z_done st = z_done st' /\ z_failed st = z_failed st' /\
  z_num_fun st = fun_evals log /\ z_num_grad st = grad_evals true log /\
  z_num_grad st = (grad_evals false log + (if has_aux && (given || aux_is_none) then 1 else 0))%nat.
Proof.
  intros G cfg f gradf vdot given has_aux an s0 x fx g sl d.
  pose proof (zoom_inv cfg f gradf vdot given has_aux an s0 x fx g sl d) as H. cbv zeta in H.
  destruct (zoom_same cfg f gradf vdot given has_aux an s0 x fx g sl d) as [E1 E2].
  assert (Hall : z_num_grad (snd (fst (zoom_run_traced cfg f gradf vdot given has_aux an s0 x fx g sl d))) =
                 z_num_fun (snd (fst (zoom_run_traced cfg f gradf vdot given has_aux an s0 x fx g sl d)))).
  { unfold zoom_run_traced. apply (traced_inv (fun v _ => z_num_grad (snd v) = z_num_fun (snd v))).
    - unfold zoom_init_aux. destruct (asks_aux given has_aux an), given; reflexivity.
    - intros [a b] _ E. unfold zoom_update. destruct (trial_evals cfg f gradf vdot (a, b)) as [T1 T2].
      destruct (trial_step cfg f gradf vdot (a, b)) as [a' b']. cbn [snd] in *. change (z_failed (add_evals 1 b')) with (z_failed b').
      destruct (z_failed b'); cbn; lia. }
  destruct (zoom_run_traced _ _ _ _ _ _ _ _ _ _ _ _ _) as [[s st] log]. destruct (zoom_run _ _ _ _ _ _ _ _ _ _ _) as [s' st'].
  cbn [fst snd] in *. unfold asks_aux in *. rewrite grad_evals_both. destruct H as [H1 H2].
  split; [exact E1|]. destruct (has_aux && (given || an))%bool; subst st; cbn [z_params z_value z_grad z_done z_failed add_evals]; repeat split; auto; cbn in *; lia.
Qed.
Print Assumptions C86_zoom.

(** BFGS, L-BFGS and nonlinear CG with the backtracking search, and the first two with a given step size: after any number of updates both counters are exact. *)
Theorem C86_solvers_backtracking :
  forall bcfg f gradf x,
  let ls := bt_counted bcfg f gradf in
  (forall s0 x v g d, plain ls s0 x v g d = bt_line_search bcfg f gradf s0 x v g d) /\
  (forall cfg n k, counted_after (bfgs_counted f gradf ls cfg) n (counted_init x (bfgs_init f gradf cfg x)) = Ok k ->
     n_fun (k_counts k) = fun_evals (k_log k) /\ n_grad (k_counts k) = grad_evals false (k_log k)) /\
  (forall cfg n k, counted_after (lbfgs_counted f gradf ls cfg) n (counted_init x (lbfgs_init f gradf cfg x)) = Ok k ->
     n_fun (k_counts k) = fun_evals (k_log k) /\ n_grad (k_counts k) = grad_evals false (k_log k)) /\
  (forall cfg n k, counted_after (ncg_counted ls cfg) n (counted_init x (ncg_init f gradf cfg x)) = Ok k ->
     n_fun (k_counts k) = fun_evals (k_log k) /\ n_grad (k_counts k) = grad_evals false (k_log k)).
Proof.
  intros bcfg f gradf x ls. pose proof (bt_off bcfg f gradf) as Hl. fold ls in Hl.
  split; [intros; apply plain_bt|].
  split; [|split]; intros cfg n k Hk; rewrite <- (Nat.add_0_r (grad_evals false (k_log k))), <- (Nat.mul_0_r n).
  - refine (counted_off 0 _ _ _ _ n k Hk). intros k0 k' E. destruct (bfgs_off 0 _ _ _ _ _ _ Hl E) as (c & Hc & R). exists c. split; [|exact R]. destruct (use_linesearch cfg); exact Hc.
  - refine (counted_off 0 _ _ _ _ n k Hk). intros k0 k' E. destruct (lbfgs_off 0 _ _ _ _ _ _ Hl E) as (c & Hc & R). exists c. split; [|exact R]. destruct (use_linesearch cfg); exact Hc.
  - refine (counted_off 0 _ _ _ _ n k Hk). intros k0 k' E. exact (ncg_off 0 _ _ _ _ Hl E).
Qed.
Print Assumptions C86_solvers_backtracking.

(** The same solvers with the zoom search, their default: the function counter is exact; every line search adds one to the gradient counter for
    a call that computes no gradient. *)
Theorem C86_solvers_zoom :
  forall zcfg f gradf x,
  let ls := zoom_counted zcfg f gradf in
  (forall s0 x v g d, plain ls s0 x v g d = zoom_line_search zcfg f gradf s0 x v g d) /\
  (forall cfg n k, counted_after (bfgs_counted f gradf ls cfg) n (counted_init x (bfgs_init f gradf cfg x)) = Ok k ->
     n_fun (k_counts k) = fun_evals (k_log k) /\ n_grad (k_counts k) = (grad_evals false (k_log k) + (if use_linesearch cfg then n else 0))%nat) /\
  (forall cfg n k, counted_after (lbfgs_counted f gradf ls cfg) n (counted_init x (lbfgs_init f gradf cfg x)) = Ok k ->
     n_fun (k_counts k) = fun_evals (k_log k) /\ n_grad (k_counts k) = (grad_evals false (k_log k) + (if use_linesearch cfg then n else 0))%nat) /\
  (forall cfg n k, counted_after (ncg_counted ls cfg) n (counted_init x (ncg_init f gradf cfg x)) = Ok k ->
     n_fun (k_counts k) = fun_evals (k_log k) /\ n_grad (k_counts k) = (grad_evals false (k_log k) + n)%nat).
Proof.
  intros zcfg f gradf x ls. pose proof (zoom_off zcfg f gradf) as Hl. fold ls in Hl.
  split; [intros; apply plain_zoom|]. split; [|split]; intros cfg n k Hk.
  - replace (if use_linesearch cfg then n else 0)%nat with (n * (if use_linesearch cfg then 1 else 0))%nat by (destruct (use_linesearch cfg); lia).
    refine (counted_off _ _ _ _ _ n k Hk). intros k0 k' E. exact (bfgs_off 1 _ _ _ _ _ _ Hl E).
  - replace (if use_linesearch cfg then n else 0)%nat with (n * (if use_linesearch cfg then 1 else 0))%nat by (destruct (use_linesearch cfg); lia).
    refine (counted_off _ _ _ _ _ n k Hk). intros k0 k' E. exact (lbfgs_off 1 _ _ _ _ _ _ Hl E).
  - rewrite <- (Nat.mul_1_r n) at 1. refine (counted_off _ _ _ _ _ n k Hk). intros k0 k' E. exact (ncg_off 1 _ _ _ _ Hl E).
Qed.
Print Assumptions C86_solvers_zoom.

(** The counted solvers are the solvers: same parameters and states, same errors. *)
Theorem C86_same_steps :
  forall f gradf ls x n,
  (forall cfg, match counted_after (bfgs_counted f gradf ls cfg) n (counted_init x (bfgs_init f gradf cfg x)) with
     | Ok k => steps_after (bfgs_update f gradf (plain ls) cfg) n (x, bfgs_init f gradf cfg x) = Ok (k_step k)
     | Err e => steps_after (bfgs_update f gradf (plain ls) cfg) n (x, bfgs_init f gradf cfg x) = Err e end) /\
  (forall cfg, match counted_after (lbfgs_counted f gradf ls cfg) n (counted_init x (lbfgs_init f gradf cfg x)) with
     | Ok k => steps_after (lbfgs_update f gradf (plain ls) cfg) n (x, lbfgs_init f gradf cfg x) = Ok (k_step k)
     | Err e => steps_after (lbfgs_update f gradf (plain ls) cfg) n (x, lbfgs_init f gradf cfg x) = Err e end) /\
  (forall cfg, match counted_after (ncg_counted ls cfg) n (counted_init x (ncg_init f gradf cfg x)) with
     | Ok k => steps_after (ncg_update (plain ls) cfg) n (x, ncg_init f gradf cfg x) = Ok (k_step k)
     | Err e => steps_after (ncg_update (plain ls) cfg) n (x, ncg_init f gradf cfg x) = Err e end).
Proof.
  intros f gradf ls x n. split; [|split]; intros cfg; apply counted_steps; intros k.
  - unfold bfgs_counted. destruct (k_step k) as [p st]. unfold add_step. destruct (bfgs_update _ _ _ _ _); reflexivity.
  - unfold lbfgs_counted. destruct (k_step k) as [p st]. unfold add_step. destruct (lbfgs_update _ _ _ _ _); reflexivity.
  - unfold ncg_counted. destruct (k_step k) as [p st]. unfold add_step. destruct (ncg_update _ _ _); reflexivity.
Qed.
Print Assumptions C86_same_steps.

(** Refuted as stated for the default solver: BFGS with the zoom search, stepsize <= 0 and the default initial step always gets through its updates, and
    from the first one on its gradient counter exceeds the number of gradients computed. *)
Theorem C86_grad_count_refuted :
  forall zcfg f gradf x cfg n,
  qn_stepsize cfg = StepConst 0 -> qn_linesearch_init cfg = "increase"%string ->
  exists k, counted_after (bfgs_counted f gradf (zoom_counted zcfg f gradf) cfg) (S n) (counted_init x (bfgs_init f gradf cfg x)) = Ok k /\
    (grad_evals false (k_log k) < n_grad (k_counts k))%nat.
Proof.
  intros zcfg f gradf x cfg n Hs Hi.
  assert (Hu : use_linesearch cfg = true) by (unfold use_linesearch, Rleb; rewrite Hs; destruct (Rle_dec 0 0); [reflexivity|lra]).
  assert (Ht : forall k, exists k', bfgs_counted f gradf (zoom_counted zcfg f gradf) cfg k = Ok k').
  { intros k. unfold bfgs_counted. destruct (k_step k) as [p st]. unfold add_step, bfgs_update, take_step. rewrite Hu, Hi.
    unfold init_stepsize. destruct (string_dec "increase" "max") as [E|_]; [discriminate|]. cbn. eexists. reflexivity. }
  assert (Ha : forall m, exists k, counted_after (bfgs_counted f gradf (zoom_counted zcfg f gradf) cfg) m (counted_init x (bfgs_init f gradf cfg x)) = Ok k).
  { induction m as [|m [k IH]]; [eexists; reflexivity|]. cbn. rewrite IH. apply Ht. }
  destruct (Ha (S n)) as [k Hk]. exists k. split; [exact Hk|].
  destruct (proj1 (proj2 (C86_solvers_zoom zcfg f gradf x)) cfg (S n) k Hk) as [_ H]. rewrite Hu in H. lia.
Qed.
Print Assumptions C86_grad_count_refuted.

(** With value_and_grad=True, asking for the value computes the gradient: the value-only conditions then report fewer gradients than are computed. *)
Theorem C86_value_and_grad_refuted :
  forall cfg f gradf given s0 x fx g direction,
  (0 < maxiter cfg)%nat -> condition cfg = Armijo \/ condition cfg = Goldstein ->
  let '((s, st), log) := bt_run_traced cfg f gradf given s0 x fx g direction in (num_grad_eval st < grad_evals true log)%nat.
Proof.
  intros cfg f gradf given s0 x fx g direction Hm Hc. pose proof (bt_both cfg f gradf given s0 x fx g direction Hm Hc) as H. cbv zeta in H.
  destruct (bt_run_traced _ _ _ _ _ _ _ _ _) as [[s st] log]. exact H.
Qed.
Print Assumptions C86_value_and_grad_refuted.

(** Fixed-point iteration and Anderson acceleration: num_fun_eval is the number of evaluations of the map, init_state included. *)
Theorem C86_fixed_point :
  (forall (X : Type) (u : FixedPoint.fp_user X) tol maxiter x,
     let '((p, st), log) := fp_run_traced u tol maxiter x in
     (p, st) = FixedPoint.fp_run u tol maxiter x /\ FixedPoint.fp_num_fun_eval st = fun_evals log) /\
  (forall (A : Type) solve (T : vec -> vec * A) cfg x,
     let '((p, st), log) := anderson_run_traced solve T cfg x in
     (p, st) = Anderson.anderson_run solve T cfg x /\ Anderson.an_num_fun_eval st = fun_evals log).
Proof.
  split; intros.
  - pose proof (fp_inv u tol maxiter x) as H. cbv zeta in H.
    assert (E : fst (fp_run_traced u tol maxiter x) = FixedPoint.fp_run u tol maxiter x) by (unfold fp_run_traced; rewrite traced_fst; reflexivity).
    destruct (fp_run_traced _ _ _ _) as [[p st] log]. split; [exact E|exact H].
  - pose proof (anderson_inv solve T cfg x) as H. cbv zeta in H.
    assert (E : fst (anderson_run_traced solve T cfg x) = Anderson.anderson_run solve T cfg x) by (unfold anderson_run_traced; rewrite traced_fst; reflexivity).
    destruct (anderson_run_traced _ _ _ _) as [[p st] log]. split; [exact E|exact H].
Qed.
Print Assumptions C86_fixed_point.

(** One trial of the Armijo search that is accepted: one value and one gradient call, counted as two and one. *)
Example C86_example :
  let cfg := {| condition := Armijo; c1 := 1 / 10; c2 := 9 / 10; decrease_factor := 1 / 2; max_stepsize := 4; tol := 0; maxiter := 1 |} in
  let r := bt_run_traced cfg (fun z => Fin (dot z z)) (fun z => smul 2 z) true 1 [1] 1 [2] (Some [-1]) in
  fun_evals (snd r) = 2%nat /\ grad_evals false (snd r) = 1%nat /\ grad_evals true (snd r) = 2%nat /\ num_fun_eval (snd (fst r)) = 2%nat.
Proof.
  cbv zeta. pose proof (C86_backtracking {| condition := Armijo; c1 := 1 / 10; c2 := 9 / 10; decrease_factor := 1 / 2; max_stepsize := 4; tol := 0; maxiter := 1 |}
    (fun z => Fin (dot z z)) (fun z => smul 2 z) true 1 [1] 1 [2] (Some [-1])) as H.
  destruct (bt_run_traced _ _ _ _ _ _ _ _ _) as [[s st] log] eqn:E. destruct H as (H1 & H2 & H3). cbn [fst snd]. rewrite H2, grad_evals_both, <- H3.
  enough (L : fun_evals log = 2%nat /\ num_grad_eval st = 1%nat) by (destruct L as [L1 L2]; rewrite L1, L2; repeat split; reflexivity).
  unfold bt_run_traced, traced_run, run_loop in E. cbn [maxiter Loop.python_for] in E. unfold traced_update in E. cbn [fst snd bt_init_calls app] in E.
  unfold bt_calls in E. cbn [condition] in E.
  match type of E with context [if ?b then _ else _] => assert (B : b = true) end.
  { cbn. match goal with |- (?b || negb ?b)%bool = true => destruct b; reflexivity end. }
  rewrite B in E. injection E as _ Es El. subst log. split; [reflexivity|]. rewrite <- Es.
  cbn. rewrite orb_negb_r. reflexivity.
Qed.
