(** Lemmas about option names. *)
From Coq Require Import String Ascii.
From Coq Require Import Reals List Bool Arith Lia Lra.
From Verif Require Import Prelude Vec Mat XArith Run Base Backtracking StochGrad QuasiNewton NonlinearCG Broyden LM Lbfgsb Osqp Options.
Import ListNotations.
Local Open Scope string_scope.

Section Run.
Context {V : Type}.
Variables (cond : V -> result bool) (update : V -> result V).
Lemma run_update_raises e jit unroll maxiter init : (forall v, update v = Err e) -> checked_run cond update jit unroll maxiter init = Err e.
Proof. intros H. unfold checked_run. rewrite H. reflexivity. Qed.
Lemma run_cond_raises e unroll maxiter init v : (forall v, cond v = Err e) -> update init = Ok v -> checked_run cond update true unroll maxiter init = Err e.
Proof. intros H U. unfold checked_run. rewrite U, H. reflexivity. Qed.
Lemma for_total : (forall v, exists b, cond v = Ok b) -> (forall v, exists w, update v = Ok w) -> forall n v, exists w, checked_for cond update n v = Ok w.
Proof.
  intros C U n. induction n as [|n IH]; intros v; [exists v; reflexivity|]. cbn. destruct (C v) as [[|] ->]; [|exists v; reflexivity]. destruct (U v) as [w ->]. apply IH.
Qed.
Definition plain_run (maxiter : nat) (init : V) : result V :=
  match maxiter with O => Ok init | S m => match update init with Err e => Err e | Ok v => checked_for cond update m v end end.
Lemma run_plain jit unroll maxiter init : (jit || unroll)%bool = true -> (forall v, exists b, cond v = Ok b) -> (forall v, exists w, update v = Ok w) ->
  checked_run cond update jit unroll maxiter init = plain_run maxiter init.
Proof.
  intros J C U. unfold checked_run, plain_run. destruct (U init) as [v E]. rewrite E. destruct (C v) as [b Eb]. destruct (U v) as [w Ew]. destruct (for_total C U (maxiter - 1) v) as [z Ez].
  destruct maxiter as [|m]; cbn [Nat.eqb]; [|replace (S m - 1)%nat with m in * by lia]; destruct jit; [rewrite Eb, Ew, Ez; reflexivity| |rewrite Eb, Ew, Ez; reflexivity| ];
    cbn in J; rewrite J, Ez; reflexivity.
Qed.
Lemma run_total jit unroll maxiter init : (jit || unroll)%bool = true -> (forall v, exists b, cond v = Ok b) -> (forall v, exists w, update v = Ok w) ->
  exists w, checked_run cond update jit unroll maxiter init = Ok w.
Proof.
  intros J C U. rewrite (run_plain _ _ _ _ J C U). unfold plain_run. destruct maxiter as [|m]; [exists init; reflexivity|]. destruct (U init) as [v ->]. apply (for_total C U).
Qed.
End Run.
Lemma plain_loop {V} (c : V -> bool) (u : V -> V) maxiter init :
  plain_run (fun v => Ok (c v)) (fun v => Ok (u v)) maxiter init = Ok (run_loop maxiter c u init).
Proof.
  unfold plain_run, run_loop. destruct maxiter as [|m]; [reflexivity|]. generalize (u init). induction m as [|m IH]; intros v; [reflexivity|]. cbn. destruct (c v); [apply IH|reflexivity].
Qed.
Lemma run_ok {V} (c : V -> bool) (u : V -> V) jit unroll maxiter init : (jit || unroll)%bool = true ->
  checked_run (fun v => Ok (c v)) (fun v => Ok (u v)) jit unroll maxiter init = Ok (run_loop maxiter c u init).
Proof. intros J. rewrite run_plain; [apply plain_loop|exact J| |]; intros v; eexists; reflexivity. Qed.
Lemma checked_run_ext {V} (c c' : V -> result bool) (u u' : V -> result V) jit unroll maxiter init :
  (forall v, c v = c' v) -> (forall v, u v = u' v) -> checked_run c u jit unroll maxiter init = checked_run c' u' jit unroll maxiter init.
Proof.
  intros C U. assert (F : forall n v, checked_for c u n v = checked_for c' u' n v).
  { induction n as [|n IH]; intros v; [reflexivity|]. cbn. rewrite C, U. destruct (c' v) as [[|]|]; try reflexivity. destruct (u' v); [apply IH|reflexivity]. }
  unfold checked_run. rewrite U. destruct (u' init) as [v|]; [|reflexivity]. rewrite C, U, F. reflexivity.
Qed.

(** ** Names *)
Ltac names := repeat match goal with |- context [string_dec ?a ?b] => destruct (string_dec a b) as [?|?] end.
Ltac no H := exfalso; apply H; cbn; intuition congruence.
Lemma setup_unknown name maxls ms : ~ In name linesearch_names -> @setup_linesearch unit (LsName name) maxls ms = Err ValueError.
Proof. intros H. unfold setup_linesearch. names; try (no H). reflexivity. Qed.
Lemma setup_known name maxls ms : In name linesearch_names -> exists ls, @setup_linesearch unit (LsName name) maxls ms = Ok ls.
Proof. intros H. cbn in H. unfold setup_linesearch. names; try (eexists; reflexivity). exfalso. intuition congruence. Qed.
Lemma strategy_unknown name a b c d : ~ In name strategy_names -> init_stepsize name a b c d = Err ValueError.
Proof. intros H. unfold init_stepsize. names; try (no H). reflexivity. Qed.
Lemma strategy_known name a b c d : In name strategy_names -> exists s, init_stepsize name a b c d = Ok s.
Proof. intros H. cbn in H. unfold init_stepsize. names; try (eexists; reflexivity). exfalso. intuition congruence. Qed.
Lemma method_unknown name g ng d : ~ In name method_names -> ncg_beta name g ng d = Err ValueError.
Proof. intros H. unfold ncg_beta. names; try (no H). reflexivity. Qed.
Lemma method_known name g ng d : In name method_names -> exists b, ncg_beta name g ng d = Ok b.
Proof. intros H. cbn in H. unfold ncg_beta. names; try (eexists; reflexivity). exfalso. intuition congruence. Qed.
Lemma condition_unknown name : ~ In name condition_names -> condition_named name = Err ValueError.
Proof. intros H. unfold condition_named. names; try (no H). reflexivity. Qed.
Lemma condition_known name : In name condition_names -> exists c, condition_named name = Ok c.
Proof. intros H. cbn in H. unfold condition_named. names; try (eexists; reflexivity). exfalso. intuition congruence. Qed.
Lemma variant_unknown name : ~ In name variant_names -> variant_named name = Err NotImplementedErr.
Proof. intros H. unfold variant_named. names; try (no H). reflexivity. Qed.
Lemma variant_known name : In name variant_names -> exists c, variant_named name = Ok c.
Proof. intros H. cbn in H. unfold variant_named. names; try (eexists; reflexivity). exfalso. intuition congruence. Qed.
Lemma stop_unknown cfg s : ~ In (lm_stop cfg) lm_stop_names -> lm_cond cfg s = Err NotImplementedErr.
Proof. intros H. unfold lm_cond. destruct s as [x st]. names; try (no H). reflexivity. Qed.
Lemma stop_known cfg s : In (lm_stop cfg) lm_stop_names -> exists b, lm_cond cfg s = Ok b.
Proof. intros H. cbn in H. unfold lm_cond. destruct s as [x st]. names; try (eexists; reflexivity). exfalso. intuition congruence. Qed.

(** ** Updates *)
Section QN.
Variables (f : vec -> R) (gradf : vec -> vec) (ls : line_search) (cfg : qn_config).
Lemma take_unknown p v g d s k : use_linesearch cfg = true -> ~ In (qn_linesearch_init cfg) strategy_names -> take_step f gradf ls cfg p v g d s k = Err ValueError.
Proof. intros U H. unfold take_step. rewrite U, strategy_unknown by exact H. reflexivity. Qed.
Definition strategy_fine : Prop := use_linesearch cfg = true -> In (qn_linesearch_init cfg) strategy_names.
Lemma take_known p v g d s k : strategy_fine -> exists o, take_step f gradf ls cfg p v g d s k = Ok o.
Proof.
  intros H. unfold take_step. destruct (use_linesearch cfg) eqn:U; [|eexists; reflexivity].
  destruct (strategy_known (qn_linesearch_init cfg) (qn_max_stepsize cfg) (qn_min_stepsize cfg) (qn_increase_factor cfg) s (H U)) as [t ->]. eexists; reflexivity.
Qed.
Lemma bfgs_unknown s : use_linesearch cfg = true -> ~ In (qn_linesearch_init cfg) strategy_names -> bfgs_update f gradf ls cfg s = Err ValueError.
Proof. intros U H. unfold bfgs_update. destruct s as [x st]. rewrite take_unknown by assumption. reflexivity. Qed.
Lemma bfgs_known s : strategy_fine -> exists w, bfgs_update f gradf ls cfg s = Ok w.
Proof.
  intros H. unfold bfgs_update. destruct s as [x st]. destruct (take_known x (b_value st) (b_grad st) (bfgs_direction st) (b_stepsize st) (b_iter st) H) as [o ->]. eexists; reflexivity.
Qed.
Lemma lbfgs_unknown s : use_linesearch cfg = true -> ~ In (qn_linesearch_init cfg) strategy_names -> lbfgs_update f gradf ls cfg s = Err ValueError.
Proof. intros U H. unfold lbfgs_update. destruct s as [x st]. cbv zeta. rewrite take_unknown by assumption. reflexivity. Qed.
Lemma lbfgs_known s : strategy_fine -> exists w, lbfgs_update f gradf ls cfg s = Ok w.
Proof.
  intros H. unfold lbfgs_update. destruct s as [x st]. cbv zeta. match goal with |- context [take_step f gradf ls cfg ?p ?v ?g ?d ?s ?k] => destruct (take_known p v g d s k H) as [o ->] end. eexists; reflexivity.
Qed.
Lemma lbfgsb_unknown solve eps theta0 bounds s : use_linesearch cfg = true -> ~ In (qn_linesearch_init cfg) strategy_names ->
  lbfgsb_update solve eps f gradf ls cfg theta0 bounds s = Err ValueError.
Proof.
  intros U H. unfold lbfgsb_update. destruct s as [x st]. destruct (bounds_or_default (length x) bounds) as [lower upper]. cbv zeta. unfold lbfgsb_step.
  rewrite U, strategy_unknown by exact H. reflexivity.
Qed.
Lemma lbfgsb_known solve eps theta0 bounds s : strategy_fine -> exists w, lbfgsb_update solve eps f gradf ls cfg theta0 bounds s = Ok w.
Proof.
  intros H. unfold lbfgsb_update. destruct s as [x st]. destruct (bounds_or_default (length x) bounds) as [lower upper]. cbv zeta. unfold lbfgsb_step.
  destruct (use_linesearch cfg) eqn:U; [destruct (strategy_known (qn_linesearch_init cfg) (qn_max_stepsize cfg) (qn_min_stepsize cfg) (qn_increase_factor cfg) (lb_stepsize st) (H U)) as [t ->]|];
    destruct (lbfgsb_store _ _ _ _ _) as [[[? ?] ?] ?]; eexists; reflexivity.
Qed.
End QN.
Section NCG.
Variables (ls : line_search) (cfg : ncg_config).
Lemma ncg_unknown s : ~ In (c_linesearch_init cfg) strategy_names \/ ~ In (c_method cfg) method_names -> ncg_update ls cfg s = Err ValueError.
Proof.
  intros H. unfold ncg_update. destruct s as [x st]. cbv zeta.
  match goal with |- context [init_stepsize ?a ?b ?c ?d ?e] => destruct (in_dec string_dec a strategy_names) as [I|I]; [destruct (strategy_known a b c d e I) as [t ->]|rewrite strategy_unknown by exact I; reflexivity] end.
  rewrite method_unknown by (destruct H; [contradiction|assumption]). reflexivity.
Qed.
Lemma ncg_known s : In (c_linesearch_init cfg) strategy_names -> In (c_method cfg) method_names -> exists w, ncg_update ls cfg s = Ok w.
Proof.
  intros H M. unfold ncg_update. destruct s as [x st]. cbv zeta.
  match goal with |- context [init_stepsize ?a ?b ?c ?d ?e] => destruct (strategy_known a b c d e H) as [t ->] end.
  match goal with |- context [ncg_beta ?a ?b ?c ?d] => destruct (method_known a b c d M) as [r ->] end. eexists; reflexivity.
Qed.
Lemma ncg_loop_for m s : ncg_loop ls cfg m s = checked_for (fun s => Ok (xgtb (c_error (snd s)) (c_tol cfg))) (ncg_update ls cfg) m s.
Proof. revert s. induction m as [|m IH]; intros s; [reflexivity|]. cbn. destruct (xgtb _ _); [|reflexivity]. destruct (ncg_update ls cfg s); [apply IH|reflexivity]. Qed.
End NCG.
