(** C85: a misspelled option name is an exception, not an answer computed with something else. *)
From Coq Require Import String Ascii.
From Coq Require Import Reals List Bool Arith Lia Lra.
From Verif Require Import Prelude Vec Mat XArith Zoom Run Base Backtracking StochGrad QuasiNewton NonlinearCG Broyden LM Lbfgsb Osqp Options OptionsProofs.
Import ListNotations.
Local Open Scope string_scope.
Open Scope R_scope.

(** The line search of BFGS, LBFGS, LBFGSB and NonlinearCG: an unknown name raises for every objective, starting point, maxiter, jit and unroll;
    with known names every run that the loop supports gives an answer. *)
Theorem C85_linesearch : forall search maxls f gradf cfg name jit unroll maxiter x0,
  ~ In name linesearch_names ->
  bfgs_call search maxls f gradf cfg name jit unroll maxiter x0 = Err ValueError /\
  (forall test, lbfgs_call search maxls f gradf cfg name test jit unroll maxiter x0 = Err ValueError) /\
  (forall solve eps theta0 bounds, lbfgsb_call search maxls f gradf cfg name solve eps theta0 bounds jit unroll maxiter x0 = Err ValueError) /\
  (forall ccfg, c_linesearch ccfg = LsName name -> ncg_call search maxls f gradf ccfg jit unroll maxiter x0 = Err ValueError).
Proof.
  intros search maxls f gradf cfg name jit unroll maxiter x0 H. unfold bfgs_call, lbfgs_call, lbfgsb_call, ncg_call. rewrite setup_unknown by exact H.
  split; [reflexivity|]. split; [reflexivity|]. split; [reflexivity|]. intros ccfg E. rewrite E, setup_unknown by exact H. reflexivity.
Qed.
Print Assumptions C85_linesearch.

(** linesearch_init: an unknown strategy raises whenever a line search is used. *)
Theorem C85_strategy : forall search maxls f gradf cfg name jit unroll maxiter x0,
  use_linesearch cfg = true -> ~ In (qn_linesearch_init cfg) strategy_names ->
  bfgs_call search maxls f gradf cfg name jit unroll maxiter x0 = Err ValueError /\
  (forall test, lbfgs_call search maxls f gradf cfg name test jit unroll maxiter x0 = Err ValueError) /\
  (forall solve eps theta0 bounds, lbfgsb_call search maxls f gradf cfg name solve eps theta0 bounds jit unroll maxiter x0 = Err ValueError).
Proof.
  intros search maxls f gradf cfg name jit unroll maxiter x0 U H. unfold bfgs_call, lbfgs_call, lbfgsb_call.
  destruct (in_dec string_dec name linesearch_names) as [I|I]; [|rewrite setup_unknown by exact I; repeat split; reflexivity].
  destruct (setup_known name maxls (qn_max_stepsize cfg) I) as [ls ->]. cbn [with_object].
  split; [|split]; intros; apply run_update_raises; intros v; [apply bfgs_unknown|apply lbfgs_unknown|apply lbfgsb_unknown]; assumption.
Qed.
Print Assumptions C85_strategy.
Theorem C85_quasi_newton_accepted : forall search maxls f gradf cfg name jit unroll maxiter x0,
  In name linesearch_names -> (use_linesearch cfg = true -> In (qn_linesearch_init cfg) strategy_names) -> (jit || unroll)%bool = true ->
  ~ raises (bfgs_call search maxls f gradf cfg name jit unroll maxiter x0) /\
  (forall test, ~ raises (lbfgs_call search maxls f gradf cfg name test jit unroll maxiter x0)) /\
  (forall solve eps theta0 bounds, ~ raises (lbfgsb_call search maxls f gradf cfg name solve eps theta0 bounds jit unroll maxiter x0)).
Proof.
  intros search maxls f gradf cfg name jit unroll maxiter x0 I S J. unfold bfgs_call, lbfgs_call, lbfgsb_call.
  destruct (setup_known name maxls (qn_max_stepsize cfg) I) as [ls ->]. cbn [with_object].
  assert (K : forall (V : Type) (c : V -> bool) (u : V -> result V) i, (forall v, exists w, u v = Ok w) -> ~ raises (checked_run (fun s => Ok (c s)) u jit unroll maxiter i)).
  { intros V c u i U [e E]. destruct (run_total (fun s => Ok (c s)) u jit unroll maxiter i J (fun v => ex_intro _ (c v) eq_refl) U) as [w W]. congruence. }
  split; [|split]; intros; apply K; intros v; [apply bfgs_known|apply lbfgs_known|apply lbfgsb_known]; exact S.
Qed.
Print Assumptions C85_quasi_newton_accepted.

(** NonlinearCG: method and linesearch_init; with documented names the call is the run of the method of that name. *)
Theorem C85_ncg : forall search maxls f gradf cfg name jit unroll maxiter x0, c_linesearch cfg = LsName name ->
  (~ In (c_linesearch_init cfg) strategy_names \/ ~ In (c_method cfg) method_names -> ncg_call search maxls f gradf cfg jit unroll maxiter x0 = Err ValueError) /\
  (In name linesearch_names -> In (c_linesearch_init cfg) strategy_names -> In (c_method cfg) method_names -> (jit || unroll)%bool = true ->
   exists ls s, setup_linesearch (LsName name) maxls (c_max_stepsize cfg) = Ok ls /\ ncg_call search maxls f gradf cfg jit unroll maxiter x0 = Ok s /\
     ncg_run f gradf (search ls) cfg maxiter x0 = Ok s).
Proof.
  intros search maxls f gradf cfg name jit unroll maxiter x0 E. unfold ncg_call. rewrite E. split.
  - intros H. destruct (in_dec string_dec name linesearch_names) as [I|I]; [|rewrite setup_unknown by exact I; reflexivity].
    destruct (setup_known name maxls (c_max_stepsize cfg) I) as [ls ->]. cbn [with_object]. apply run_update_raises. intros v. apply ncg_unknown. exact H.
  - intros I S M J. destruct (setup_known name maxls (c_max_stepsize cfg) I) as [ls Els]. rewrite Els. cbn [with_object].
    set (c := fun s : vec * ncg_state => Ok (xgtb (c_error (snd s)) (c_tol cfg))).
    assert (C : forall v, exists b, c v = Ok b) by (intros v; eexists; reflexivity).
    assert (U : forall v, exists w, ncg_update (search ls) cfg v = Ok w) by (intros v; apply ncg_known; assumption).
    destruct (run_total c _ jit unroll maxiter (x0, ncg_init f gradf cfg x0) J C U) as [s Es].
    exists ls, s. split; [reflexivity|]. split; [exact Es|]. rewrite <- Es, (run_plain _ _ _ _ _ _ J C U). unfold ncg_run, plain_run. destruct maxiter as [|m]; [reflexivity|].
    destruct (ncg_update _ _ _) as [v|]; [apply ncg_loop_for|reflexivity].
Qed.
Print Assumptions C85_ncg.

(** BacktrackingLineSearch condition *)
Theorem C85_condition : forall name cfg f gradf x d value grad jit unroll maxiter s0,
  (~ In name condition_names -> backtracking_call name cfg f gradf x d value grad jit unroll maxiter s0 = Err ValueError) /\
  (In name condition_names -> (jit || unroll)%bool = true -> (forall c, Backtracking.maxiter (cfg c) = maxiter) ->
   exists c, condition_named name = Ok c /\ backtracking_call name cfg f gradf x d value grad jit unroll maxiter s0 = Ok (bt_run (cfg c) f gradf true s0 x value grad (Some d))).
Proof.
  intros name cfg f gradf x d value grad jit unroll maxiter s0. unfold backtracking_call. split.
  - intros H. apply run_update_raises. intros v. rewrite condition_unknown by exact H. reflexivity.
  - intros I J M. destruct (condition_known name I) as [c E]. exists c. split; [exact E|]. rewrite E. cbn [with_object].
    rewrite (run_ok (fun s => xgtb (error (snd s)) (tol (cfg c))) (fun s => bt_update (cfg c) f gradf x d s) jit unroll maxiter _ J). unfold bt_run. rewrite M. reflexivity.
Qed.
Print Assumptions C85_condition.

(** PolyakSGD variant *)
Theorem C85_variant : forall name cfg f gradf test jit unroll maxiter x0 st0,
  (~ In name variant_names -> polyak_call name cfg f gradf test jit unroll maxiter x0 st0 = Err NotImplementedErr) /\
  (In name variant_names -> (jit || unroll)%bool = true -> exists v s, variant_named name = Ok v /\ polyak_call name cfg f gradf test jit unroll maxiter x0 st0 = Ok s /\
     (maxiter = 1%nat -> s = polyak_update (cfg v) f gradf x0 st0)).
Proof.
  intros name cfg f gradf test jit unroll maxiter x0 st0. unfold polyak_call. split.
  - intros H. apply run_update_raises. intros v. rewrite variant_unknown by exact H. reflexivity.
  - intros I J. destruct (variant_known name I) as [v E]. exists v. rewrite E. cbn [with_object]. eexists. split; [reflexivity|].
    split; [apply (run_ok test (fun s => match fst s with None => s | Some x => polyak_update (cfg v) f gradf x (snd s) end) jit unroll maxiter _ J)|].
    intros ->. reflexivity.
Qed.
Print Assumptions C85_variant.

(** ArmijoSGD: the constructor accepts exactly the documented reset options and 0 < aggressiveness < 1. *)
Theorem C85_reset : forall name a, (exists r, armijo_new name a = Ok r) <-> In name reset_names /\ 0 < a < 1.
Proof.
  intros name a. unfold armijo_new, reset_names. cbn [In]. split.
  - intros [r E]. destruct (string_dec name "increase") as [N|N1]; [|destruct (string_dec name "goldstein") as [N|N2]; [|destruct (string_dec name "conservative") as [N|N3]; [|discriminate]]];
      cbn [with_object] in E; destruct (Rle_dec a 0); try discriminate; destruct (Rle_dec 1 a); try discriminate; (split; [auto|lra]).
  - intros [H Ha]. destruct (string_dec name "increase") as [N|N1]; [|destruct (string_dec name "goldstein") as [N|N2]; [|destruct (string_dec name "conservative") as [N|N3]; [|intuition congruence]]];
      cbn [with_object]; destruct (Rle_dec a 0); try lra; destruct (Rle_dec 1 a); try lra; eexists; reflexivity.
Qed.
Print Assumptions C85_reset.

(** Broyden: the name matters only if a line search is used, and then only "backtracking" is accepted. *)
Theorem C85_broyden : forall name fun_ ls cfg m jit unroll x0 st0,
  (broyden_searches cfg = true -> name <> "backtracking" -> broyden_call name fun_ ls cfg m jit unroll x0 st0 = Err ValueError) /\
  (broyden_searches cfg = false -> broyden_call name fun_ ls cfg m jit unroll x0 st0 = broyden_call "backtracking" fun_ ls cfg m jit unroll x0 st0) /\
  ((jit || unroll)%bool = true -> broyden_init fun_ cfg x0 = Ok st0 -> by_history_size cfg = Some m ->
   broyden_call "backtracking" fun_ ls cfg m jit unroll x0 st0 = broyden_run fun_ ls cfg x0).
Proof.
  intros name fun_ ls cfg m jit unroll x0 st0. split; [|split].
  - intros S N. apply run_update_raises. intros v. rewrite S. destruct (String.eqb_spec name "backtracking"); [contradiction|reflexivity].
  - intros S. apply checked_run_ext; [reflexivity|]. intros v. rewrite S. reflexivity.
  - intros J Ei Hm. unfold broyden_run. rewrite Hm, Ei.
    rewrite <- (run_ok (fun s : option (tree * broyden_state) => match s with Some (_, st) => broyden_cond cfg st | None => false end)
      (fun s => match s with Some s => broyden_update fun_ ls cfg m s | None => None end) jit unroll (by_maxiter cfg) (Some (x0, st0)) J).
    apply checked_run_ext; [reflexivity|]. intros v. rewrite String.eqb_refl, andb_false_r. reflexivity.
Qed.
Print Assumptions C85_broyden.

(** BoxOSQP and OSQP: eq_qp_solve in any mixture of cases; LevenbergMarquardt: solver. *)
Theorem C85_linear_solvers :
  (forall name, (exists s, osqp_linear_named name = Ok s) <-> In (lower_string name) ["cg"; "cg+jacobi"; "lu"]) /\
  (forall name, (exists s, lm_solver_named (Some name) = Ok s) <-> In name lm_solver_names) /\
  lm_solver_named None = Ok SCallable.
Proof.
  split; [|split; [|reflexivity]]; intros name; unfold osqp_linear_named, lm_solver_named, lm_solver_names; cbn [In]; names;
    (split; [intros [s E]; try discriminate; auto 6|intros H; try (eexists; reflexivity); exfalso; intuition congruence]).
Qed.
Print Assumptions C85_linear_solvers.

(** LevenbergMarquardt stop_criterion: with jit an unknown name raises whatever maxiter; a known one gives the modelled run.
    Without jit an unknown name raises exactly if the test is reached, that is from maxiter = 2 on. *)
Theorem C85_lm_stop : forall update cfg jit unroll maxiter x0 st0,
  (~ In (lm_stop cfg) lm_stop_names -> jit = true -> lm_call update cfg jit unroll maxiter x0 st0 = Err NotImplementedErr) /\
  (~ In (lm_stop cfg) lm_stop_names -> jit = false -> unroll = true -> (2 <= maxiter)%nat -> lm_call update cfg jit unroll maxiter x0 st0 = Err NotImplementedErr) /\
  (In (lm_stop cfg) lm_stop_names -> (jit || unroll)%bool = true -> ~ raises (lm_call update cfg jit unroll maxiter x0 st0)).
Proof.
  intros update cfg jit unroll maxiter x0 st0. unfold lm_call. split; [|split].
  - intros H ->. apply (run_cond_raises _ _ _ _ _ _ (update (x0, st0))); [|reflexivity]. intros v. apply stop_unknown, H.
  - intros H -> -> M. unfold checked_run. replace (maxiter - 1)%nat with (S (maxiter - 2)) by lia. cbn [checked_for]. rewrite stop_unknown by exact H. reflexivity.
  - intros I J [e E]. destruct (run_total (lm_cond cfg) (fun s => Ok (update s)) jit unroll maxiter (x0, st0) J) as [w W]; [intros v; apply stop_known, I|intros v; eexists; reflexivity|congruence].
Qed.
Print Assumptions C85_lm_stop.
Theorem C85_lm_run : forall n res jt_op jtj_op d2fvv jac_fun solver_fn la_solve pos_solve la_tri la_inv la_qr cfg jit unroll maxiter x0,
  In (lm_stop cfg) lm_stop_names -> (jit || unroll)%bool = true ->
  lm_call (lm_update n res jt_op jtj_op d2fvv jac_fun solver_fn la_solve pos_solve la_tri la_inv la_qr cfg) cfg jit unroll maxiter x0 (lm_init_state n res jt_op jtj_op jac_fun cfg x0) =
  lm_run n res jt_op jtj_op d2fvv jac_fun solver_fn la_solve pos_solve la_tri la_inv la_qr cfg maxiter x0.
Proof.
  intros. unfold lm_call. rewrite run_plain; [|assumption|intros v; apply stop_known; assumption|intros v; eexists; reflexivity].
  unfold plain_run, lm_run. destruct maxiter as [|m]; [reflexivity|]. generalize (lm_update n res jt_op jtj_op d2fvv jac_fun solver_fn la_solve pos_solve la_tri la_inv la_qr cfg (x0, lm_init_state n res jt_op jtj_op jac_fun cfg x0)).
  induction m as [|m IH]; intros s; [reflexivity|]. cbn [checked_for lm_loop]. destruct (lm_cond cfg s) as [[|]|]; [apply IH|reflexivity|reflexivity].
Qed.
Print Assumptions C85_lm_run.
(** The name 'grad-l2' of the documentation of stop_criterion is refused, and without jit a run of one iteration accepts every name. *)
Theorem C85_lm_stop_refuted :
  In "grad-l2" lm_stop_documented /\
  (forall update cfg unroll maxiter x0 st0, lm_stop cfg = "grad-l2" -> lm_call update cfg true unroll maxiter x0 st0 = Err NotImplementedErr) /\
  (forall update cfg x0 st0, lm_call update cfg false true 1 x0 st0 = Ok (update (x0, st0))).
Proof.
  split; [right; left; reflexivity|]. split; [|reflexivity]. intros update cfg unroll maxiter x0 st0 E.
  apply (proj1 (C85_lm_stop update cfg true unroll maxiter x0 st0)); [|reflexivity]. rewrite E. cbn. intuition discriminate.
Qed.
Print Assumptions C85_lm_stop_refuted.

(** "auto" options: the documented values mean what is documented; any other non-empty string, such as "False", counts as True and nothing is raised. *)
Theorem C85_auto : forall implicit_diff jit,
  unroll_value (Str "auto") implicit_diff jit = get_unroll_option UnrollAuto implicit_diff jit /\
  (forall b, unroll_value (Boolean b) implicit_diff jit = get_unroll_option (UnrollIs b) implicit_diff jit) /\
  check_value (Str "auto") jit = negb jit /\ (forall b, check_value (Boolean b) jit = b).
Proof. intros. repeat split; reflexivity. Qed.
Print Assumptions C85_auto.
Theorem C85_auto_refuted :
  (forall s implicit_diff jit, s <> "auto" -> s <> "" ->
     unroll_value (Str s) implicit_diff jit = unroll_value (Boolean true) implicit_diff jit /\ check_value (Str s) jit = check_value (Boolean true) jit) /\
  ~ documented_auto (Str "False") /\ unroll_value (Str "False") true true <> unroll_value (Boolean false) true true /\
  ~ documented_auto (Str "Auto") /\ unroll_value (Str "Auto") true true <> unroll_value (Str "auto") true true.
Proof.
  split.
  - intros s i j A E. unfold unroll_value, check_value, is_auto, truthy. destruct (String.eqb_spec s "auto"); [contradiction|]. destruct (String.eqb_spec s ""); [contradiction|]. split; reflexivity.
  - repeat split; try (intros [H|[b H]]; discriminate); cbn; discriminate.
Qed.
Print Assumptions C85_auto_refuted.
(** osqp.py:978-979 documents True as the default of check_primal_dual_infeasability in OSQP; on every problem, also an infeasible one,
    the run of the default object (jit=True) neither raises nor reports infeasibility. *)
Theorem C85_osqp_default_refuted :
  check_infeas (default_osqp true) <> check_value (Boolean true) true /\
  forall n Q c A l u eps_div lin_solve init, exists p st,
    box_run n Q c A l u eps_div lin_solve (default_osqp true) init = Ok (p, st) /\ o_status st <> PRIMAL_INFEASIBLE /\ o_status st <> DUAL_INFEASIBLE.
Proof.
  split; [cbn; discriminate|]. intros n Q c A l u eps_div lin_solve init.
  set (good := fun r : result (box_params * box_state) => exists p st, r = Ok (p, st) /\ o_status st <> PRIMAL_INFEASIBLE /\ o_status st <> DUAL_INFEASIBLE).
  assert (ST : forall r, good r -> good (box_step n Q c A l u eps_div lin_solve (default_osqp true) r)).
  { intros r (p & st & -> & H1 & H2). unfold box_step, box_update. destruct (admm_step _ _ _ _ _ _ _ _ _ _) as [[[x z] y] ss]. destruct (residuals _ _ _ _ _ _ _) as [pres dres].
    match goal with |- good (match ?e with _ => _ end) => destruct e as [rho' ss'] end. cbv zeta.
    assert (K : forall pr dr o w, snd (check_termination n Q c A l u (default_osqp true) pr dr o w) <> PRIMAL_INFEASIBLE /\ snd (check_termination n Q c A l u (default_osqp true) pr dr o w) <> DUAL_INFEASIBLE).
    { intros pr dr o w. unfold check_termination, compute_error. cbn [check_infeas default_osqp negb snd]. destruct (xle _ _); split; discriminate. }
    match goal with |- good (match ?e with _ => _ end) => set (es := e) end.
    assert (Es : snd es <> PRIMAL_INFEASIBLE /\ snd es <> DUAL_INFEASIBLE) by (unfold es; destruct (Nat.eqb _ _); [apply K|split; assumption]).
    destruct es as [e s]. cbn [osqp_jit default_osqp negb andb]. eexists _, _. split; [reflexivity|exact Es]. }
  assert (P : forall k r, good r -> good (Loop.python_for (box_cond (default_osqp true)) (box_step n Q c A l u eps_div lin_solve (default_osqp true)) k r)).
  { induction k as [|k IH]; intros r G; [exact G|]. cbn. destruct (box_cond _ r); [apply IH, ST, G|exact G]. }
  unfold box_run, box_run_from, run_loop. destruct (osqp_maxiter (default_osqp true)) as [|k]; [|apply P, ST]; (eexists _, _; split; [reflexivity|split; discriminate]).
Qed.
Print Assumptions C85_osqp_default_refuted.

(** Concrete names, objective and runs. *)
Example C85_example :
  let f := fun x : vec => dot x x in let gradf := fun x : vec => smul 2 x in
  let cfg := {| qn_stepsize := StepConst 1; qn_linesearch_init := "none"; qn_increase_factor := 2; qn_max_stepsize := 1; qn_min_stepsize := 1 / 100;
                qn_tol := 1 / 100; qn_stop_if_linesearch_fails := false; qn_history_size := 1; qn_use_gamma := true |} in
  let search := fun (_ : ls_solver unit) (s : R) x v g d => {| ls_step := s; ls_params := x; ls_value := v; ls_grad := g; ls_failed := true |} in
  (exists s, bfgs_call search 10 f gradf cfg "zoom" true false 5 [1; 2] = Ok s) /\
  bfgs_call search 10 f gradf cfg "Zoom" true false 5 [1; 2] = Err ValueError /\
  osqp_linear_named "CG+Jacobi" = Ok OsqpCGJacobi /\ osqp_linear_named "cg jacobi" = Err ValueError /\
  condition_named "strong_wolfe" = Err ValueError /\ variant_named "SPS" = Err NotImplementedErr /\
  armijo_new "increase" (1 / 2) = Ok Increase.
Proof.
  intros f gradf cfg search. split.
  - assert (S : use_linesearch cfg = true -> In (qn_linesearch_init cfg) strategy_names) by (unfold use_linesearch; cbn [qn_stepsize cfg]; unfold Zoom.Rleb; destruct (Rle_dec 1 0); [lra|discriminate]).
    destruct (bfgs_call search 10 f gradf cfg "zoom" true false 5 [1; 2]) as [s|e] eqn:E; [exists s; reflexivity|]. exfalso.
    refine (proj1 (C85_quasi_newton_accepted search 10 f gradf cfg "zoom" true false 5 [1; 2] _ S eq_refl) _); [right; left; reflexivity|exists e; exact E].
  - repeat split; try reflexivity. unfold armijo_new. cbn [string_dec]. destruct (string_dec "increase" "increase"); [|congruence]. cbn [with_object].
    destruct (Rle_dec (1 / 2) 0); [lra|]. destruct (Rle_dec 1 (1 / 2)); [lra|reflexivity].
Qed.
