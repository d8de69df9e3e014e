From Coq Require Import String.
From Coq Require Import Reals List Bool Arith Lia Lra.
From Verif Require Import Prelude Vec Mat XArith Base Run Loop Backtracking Zoom QuasiNewton NonlinearCG ComplexLS Calls.
From Verif Require FixedPoint Anderson.
Import ListNotations.
Local Open Scope R_scope.

Lemma fun_evals_app a b : fun_evals (a ++ b) = (fun_evals a + fun_evals b)%nat.
Proof. apply app_length. Qed.
Lemma grad_evals_app w a b : grad_evals w (a ++ b) = (grad_evals w a + grad_evals w b)%nat.
Proof. unfold grad_evals. rewrite filter_app. apply app_length. Qed.
Lemma grad_evals_both l : grad_evals true l = fun_evals l.
Proof. unfold grad_evals, fun_evals. induction l as [|[z|z|z] l IH]; cbn in *; congruence. Qed.

Lemma python_for_fst {V} cond (update : V -> V) calls n p :
  fst (python_for (fun p => cond (fst p)) (traced_update update calls) n p) = python_for cond update n (fst p).
Proof.
  revert p. induction n as [|n IH]; intros p; cbn; [reflexivity|]. destruct (cond (fst p)); [|reflexivity]. rewrite IH. reflexivity.
Qed.
Lemma traced_fst {V} cond (update : V -> V) calls n p :
  fst (traced_run cond update calls n p) = run_loop n cond update (fst p).
Proof. unfold traced_run, run_loop. destruct n; [reflexivity|]. rewrite python_for_fst. reflexivity. Qed.
(** An invariant of value and log, kept by every update *)
Lemma traced_inv {V} (P : V -> list call -> Prop) cond (update : V -> V) calls n v l :
  P v l -> (forall v l, P v l -> P (update v) (l ++ calls v)) ->
  P (fst (traced_run cond update calls n (v, l))) (snd (traced_run cond update calls n (v, l))).
Proof.
  intros H0 Hs. unfold traced_run. apply (run_loop_inv (fun p => P (fst p) (snd p))); [exact H0|].
  intros [v' l'] H. exact (Hs v' l' H).
Qed.

Lemma bt_inv cfg f gradf given s0 x fx g dir :
  let r := bt_run_traced cfg f gradf given s0 x fx g dir in
  num_fun_eval (snd (fst r)) = fun_evals (snd r) /\ num_grad_eval (snd (fst r)) = grad_evals false (snd r).
Proof.
  intros r. unfold r, bt_run_traced.
  apply (traced_inv (fun v l => num_fun_eval (snd v) = fun_evals l /\ num_grad_eval (snd v) = grad_evals false l)).
  - destruct given; split; reflexivity.
  - intros [s st] l [H1 H2]. rewrite fun_evals_app, grad_evals_app, <- H1. unfold bt_calls.
    set (st' := snd (bt_update cfg f gradf x _ (s, st))).
    assert (E : st' = snd (bt_update cfg f gradf x (match dir with Some d => d | None => smul (-1) g end) (s, st))) by reflexivity.
    cbn [snd] in H1, H2. rewrite <- H2.
    destruct (condition cfg) eqn:Ec; unfold bt_update in E; rewrite Ec in E; cbn [snd] in E;
      (destruct (done st' || failed st')%bool eqn:Ed; rewrite E in Ed; cbn [done failed] in Ed; subst st'; cbn [snd num_fun_eval num_grad_eval];
       unfold bt_update; rewrite Ec; cbn [snd num_fun_eval num_grad_eval andb]; try rewrite Ed; cbn; lia).
Qed.

Lemma trial_evals {G} cfg f gradf vdot (step : R * zstate G) :
  z_num_fun (snd (trial_step cfg f gradf vdot step)) = z_num_fun (snd step) /\ z_num_grad (snd (trial_step cfg f gradf vdot step)) = z_num_grad (snd step).
Proof. destruct step as [s st]. unfold trial_step. destruct (z_found st); split; reflexivity. Qed.

Lemma zoom_inv {G} cfg f gradf vdot given has_aux an s0 x fx (g : G) sl d :
  let r := zoom_run_traced cfg f gradf vdot given has_aux an s0 x fx g sl d in
  z_num_fun (snd (fst r)) = fun_evals (snd r) /\
  z_num_grad (snd (fst r)) = (grad_evals false (snd r) + (if asks_aux given has_aux an then 1 else 0))%nat.
Proof.
  intros r. unfold r, zoom_run_traced.
  apply (traced_inv (fun v l => z_num_fun (snd v) = fun_evals l /\ z_num_grad (snd v) = (grad_evals false l + (if asks_aux given has_aux an then 1 else 0))%nat)).
  - unfold zoom_init_aux, zoom_init_calls. destruct (asks_aux given has_aux an), given; split; reflexivity.
  - intros [s st] l [H1 H2]. rewrite fun_evals_app, grad_evals_app. unfold zoom_calls, zoom_update.
    destruct (trial_evals cfg f gradf vdot (s, st)) as [T1 T2].
    destruct (trial_step cfg f gradf vdot (s, st)) as [s' st'] eqn:Et. cbn [fst snd] in *.
    change (z_failed (add_evals 1 st')) with (z_failed st').
    destruct (z_failed st').
    + unfold make_safe_step. cbn [snd add_evals z_num_fun z_num_grad]. cbn. lia.
    + cbn [snd add_evals z_num_fun z_num_grad]. cbn. lia.
Qed.

(** The counters do not influence the search *)
Lemma trial_add {G} cfg f gradf vdot (s : R) (st : zstate G) :
  trial_step cfg f gradf vdot (s, add_evals 1 st) = (fst (trial_step cfg f gradf vdot (s, st)), add_evals 1 (snd (trial_step cfg f gradf vdot (s, st)))).
Proof.
  unfold trial_step. change (z_found (add_evals 1 st)) with (z_found st). destruct (z_found st); reflexivity.
Qed.
Lemma zoom_update_add {G} cfg f gradf vdot (s : R) (st : zstate G) :
  zoom_update cfg f gradf vdot (s, add_evals 1 st) = (fst (zoom_update cfg f gradf vdot (s, st)), add_evals 1 (snd (zoom_update cfg f gradf vdot (s, st)))).
Proof.
  unfold zoom_update. rewrite trial_add. destruct (trial_step cfg f gradf vdot (s, st)) as [s' st']. cbn [fst snd].
  change (z_failed (add_evals 1 (add_evals 1 st'))) with (z_failed st'). change (z_failed (add_evals 1 st')) with (z_failed st').
  destruct (z_failed st'); reflexivity.
Qed.
Lemma zoom_for_add {G} cfg f gradf vdot n : forall (s : R) (st : zstate G),
  python_for zoom_cond (zoom_update cfg f gradf vdot) n (s, add_evals 1 st) =
  (fst (python_for zoom_cond (zoom_update cfg f gradf vdot) n (s, st)), add_evals 1 (snd (python_for zoom_cond (zoom_update cfg f gradf vdot) n (s, st)))).
Proof.
  induction n as [|n IH]; intros s st; [reflexivity|]. cbn [python_for].
  change (zoom_cond (s, add_evals 1 st)) with (zoom_cond (s, st)). destruct (zoom_cond (s, st)); [|reflexivity].
  rewrite zoom_update_add. destruct (zoom_update cfg f gradf vdot (s, st)) as [s' st']. cbn [fst snd]. apply IH.
Qed.
Lemma zoom_same {G} cfg f gradf vdot given has_aux an s0 x fx (g : G) sl d :
  let r := fst (zoom_run_traced cfg f gradf vdot given has_aux an s0 x fx g sl d) in
  let r0 := zoom_run cfg f gradf vdot given s0 x fx g sl d in
  fst r = fst r0 /\ snd r = (if asks_aux given has_aux an then add_evals 1 (snd r0) else snd r0).
Proof.
  cbv zeta. unfold zoom_run_traced. rewrite traced_fst. unfold zoom_run, zoom_init_aux. cbn [fst].
  destruct (asks_aux given has_aux an); [|split; reflexivity].
  unfold run_loop. destruct (zmaxiter cfg); [split; reflexivity|]. rewrite zoom_update_add.
  destruct (zoom_update cfg f gradf vdot _) as [s' st'] eqn:E. cbn [fst snd]. rewrite zoom_for_add. split; reflexivity.
Qed.
Lemma plain_zoom zcfg f gradf s0 x v g d : plain (zoom_counted zcfg f gradf) s0 x v g d = zoom_line_search zcfg f gradf s0 x v g d.
Proof.
  unfold plain, zoom_counted, zoom_line_search.
  destruct (zoom_same zcfg (fun z => Fin (f z)) gradf rdot true true false s0 x v g (dot g d) d) as [E1 E2].
  destruct (zoom_run_traced _ _ _ _ _ _ _ _ _ _ _ _ _) as [[s st] log]. destruct (zoom_run _ _ _ _ _ _ _ _ _ _ _) as [s' st'].
  cbn [fst snd asks_aux andb orb] in *. subst. reflexivity.
Qed.
Lemma plain_bt bcfg f gradf s0 x v g d : plain (bt_counted bcfg f gradf) s0 x v g d = bt_line_search bcfg f gradf s0 x v g d.
Proof.
  unfold plain, bt_counted, bt_line_search.
  assert (E : fst (bt_run_traced bcfg (fun z => Fin (f z)) gradf true s0 x v g (Some d)) = bt_run bcfg (fun z => Fin (f z)) gradf true s0 x v g (Some d))
    by (unfold bt_run_traced; rewrite traced_fst; reflexivity).
  destruct (bt_run_traced _ _ _ _ _ _ _ _ _) as [[s st] log]. cbn [fst] in E. rewrite <- E. reflexivity.
Qed.

(** Counters of a line search that are off by [e] for the gradients *)
Definition off_by (e : nat) (c : counts * list call) : Prop :=
  n_fun (fst c) = fun_evals (snd c) /\ n_grad (fst c) = (grad_evals false (snd c) + e)%nat.
Definition ls_off_by (e : nat) (ls : counted_ls) : Prop := forall s0 x v g d, off_by e (snd (fst (ls s0 x v g d)), snd (ls s0 x v g d)).
Lemma bt_off bcfg f gradf : ls_off_by 0 (bt_counted bcfg f gradf).
Proof.
  intros s0 x v g d. unfold bt_counted. pose proof (bt_inv bcfg (fun z => Fin (f z)) gradf true s0 x v g (Some d)) as H. cbv zeta in H.
  destruct (bt_run_traced _ _ _ _ _ _ _ _ _) as [[s st] log]. unfold off_by. cbn [fst snd n_fun n_grad] in *. lia.
Qed.
Lemma zoom_off zcfg f gradf : ls_off_by 1 (zoom_counted zcfg f gradf).
Proof.
  intros s0 x v g d. unfold zoom_counted.
  pose proof (zoom_inv zcfg (fun z => Fin (f z)) gradf rdot true true false s0 x v g (dot g d) d) as H. cbv zeta in H.
  destruct (zoom_run_traced _ _ _ _ _ _ _ _ _ _ _ _ _) as [[s st] log]. unfold off_by. cbn [fst snd n_fun n_grad asks_aux andb orb] in *. exact H.
Qed.

Lemma step_off ls e cfg params value grad d prev it s0 : ls_off_by e ls ->
  (use_linesearch cfg = true -> init_stepsize (qn_linesearch_init cfg) (qn_max_stepsize cfg) (qn_min_stepsize cfg) (qn_increase_factor cfg) prev = Ok s0) ->
  off_by (if use_linesearch cfg then e else 0) (step_calls ls cfg params value grad d prev it).
Proof.
  intros Hl Hs. unfold step_calls. destruct (use_linesearch cfg); [|split; reflexivity]. rewrite (Hs eq_refl).
  pose proof (Hl s0 params value grad d) as H. destruct (ls s0 params value grad d) as [[o c] log]. exact H.
Qed.

(** n updates, each off by [e] *)
Lemma counted_off {S} e (upd : counted S -> result (counted S)) x (st : S) :
  (forall k k', upd k = Ok k' -> exists c, off_by e c /\ k_counts k' = add_counts (k_counts k) (fst c) /\ k_log k' = k_log k ++ snd c) ->
  forall n k, counted_after upd n (counted_init x st) = Ok k ->
  n_fun (k_counts k) = fun_evals (k_log k) /\ n_grad (k_counts k) = (grad_evals false (k_log k) + n * e)%nat.
Proof.
  intros Hu. induction n as [|n IH]; intros k Hk.
  - injection Hk as <-. split; reflexivity.
  - cbn in Hk. destruct (counted_after upd n _) as [k0|] eqn:E; [|discriminate]. destruct (IH k0 eq_refl) as [I1 I2].
    destruct (Hu k0 k Hk) as (c & [O1 O2] & -> & ->). rewrite fun_evals_app, grad_evals_app. cbn [add_counts n_fun n_grad]. lia.
Qed.
Lemma take_step_ok f gradf ls cfg p v g d s i o : take_step f gradf ls cfg p v g d s i = Ok o ->
  exists s0, use_linesearch cfg = true -> init_stepsize (qn_linesearch_init cfg) (qn_max_stepsize cfg) (qn_min_stepsize cfg) (qn_increase_factor cfg) s = Ok s0.
Proof.
  unfold take_step. destruct (use_linesearch cfg); [|intros _; exists 0; discriminate].
  destruct (init_stepsize _ _ _ _ _) as [s0|]; [|discriminate]. intros _. exists s0. reflexivity.
Qed.
Lemma bfgs_off e f gradf ls cfg k k' : ls_off_by e ls -> bfgs_counted f gradf ls cfg k = Ok k' ->
  exists c, off_by (if use_linesearch cfg then e else 0) c /\ k_counts k' = add_counts (k_counts k) (fst c) /\ k_log k' = k_log k ++ snd c.
Proof.
  intros Hl H. unfold bfgs_counted in H. destruct (k_step k) as [p st]. unfold add_step in H.
  destruct (bfgs_update _ _ _ _ _) as [r|] eqn:E; [|discriminate]. injection H as <-. cbn [k_counts k_log]. eexists. split; [|split; reflexivity].
  unfold bfgs_update in E. destruct (take_step _ _ _ _ _ _ _ _ _ _) eqn:Et; [|discriminate]. apply take_step_ok in Et. destruct Et as [s0 Hs].
  exact (step_off _ _ _ _ _ _ _ _ _ s0 Hl Hs).
Qed.
Lemma lbfgs_off e f gradf ls cfg k k' : ls_off_by e ls -> lbfgs_counted f gradf ls cfg k = Ok k' ->
  exists c, off_by (if use_linesearch cfg then e else 0) c /\ k_counts k' = add_counts (k_counts k) (fst c) /\ k_log k' = k_log k ++ snd c.
Proof.
  intros Hl H. unfold lbfgs_counted in H. destruct (k_step k) as [p st]. unfold add_step in H.
  destruct (lbfgs_update _ _ _ _ _) as [r|] eqn:E; [|discriminate]. injection H as <-. cbn [k_counts k_log]. eexists. split; [|split; reflexivity].
  unfold lbfgs_update in E. destruct (take_step _ _ _ _ _ _ _ _ _ _) eqn:Et; [|discriminate]. apply take_step_ok in Et. destruct Et as [s0 Hs].
  exact (step_off _ _ _ _ _ _ _ _ _ s0 Hl Hs).
Qed.
Lemma ncg_off e ls cfg k k' : ls_off_by e ls -> ncg_counted ls cfg k = Ok k' ->
  exists c, off_by e c /\ k_counts k' = add_counts (k_counts k) (fst c) /\ k_log k' = k_log k ++ snd c.
Proof.
  intros Hl H. unfold ncg_counted in H. destruct (k_step k) as [p st]. unfold add_step in H.
  destruct (ncg_update _ _ _) as [r|] eqn:E; [|discriminate]. injection H as <-. cbn [k_counts k_log]. eexists. split; [|split; reflexivity].
  unfold ncg_update in E. destruct (init_stepsize _ _ _ _ _) as [s0|]; [|discriminate].
  match goal with |- context [ls ?a ?b ?c ?d ?h] => pose proof (Hl a b c d h) as H; destruct (ls a b c d h) as [[o cc] log]; exact H end.
Qed.
(** The counted solver makes the steps of the solver *)
Lemma counted_steps {S} (cupd : counted S -> result (counted S)) (upd : vec * S -> result (vec * S)) x st :
  (forall k, match cupd k with Ok k' => upd (k_step k) = Ok (k_step k') | Err e => upd (k_step k) = Err e end) ->
  forall n, match counted_after cupd n (counted_init x st) with
            | Ok k => steps_after upd n (x, st) = Ok (k_step k) | Err e => steps_after upd n (x, st) = Err e end.
Proof.
  intros H. induction n as [|n IH]; [reflexivity|]. cbn. destruct (counted_after cupd n _) as [k|e]; rewrite IH; [apply H|reflexivity].
Qed.

Lemma fp_inv {X} (u : FixedPoint.fp_user X) tol n x :
  let r := fp_run_traced u tol n x in FixedPoint.fp_num_fun_eval (snd (fst r)) = fun_evals (snd r).
Proof.
  intros r. unfold r, fp_run_traced. apply (traced_inv (fun v l => FixedPoint.fp_num_fun_eval (snd v) = fun_evals l)); [reflexivity|].
  intros [p st] l H. rewrite fun_evals_app. unfold FixedPoint.fp_update. destruct (FixedPoint.fp_fun u p). cbn in *. lia.
Qed.
Lemma anderson_inv {A} solve (T : vec -> vec * A) cfg x :
  let r := anderson_run_traced solve T cfg x in Anderson.an_num_fun_eval (snd (fst r)) = fun_evals (snd r).
Proof.
  intros r. unfold r, anderson_run_traced. apply (traced_inv (fun v l => Anderson.an_num_fun_eval (snd v) = fun_evals l)); [reflexivity|].
  intros [p st] l H. rewrite fun_evals_app. unfold Anderson.anderson_update. destruct (T _). destruct (Anderson.update_history _ _ _ _ _ _) as [[[? ?] ?] ?]. cbn in *. lia.
Qed.

(** With value_and_grad=True the value-only conditions compute gradients that are not counted *)
Lemma bt_both cfg f gradf given s0 x fx g dir : (0 < maxiter cfg)%nat -> condition cfg = Armijo \/ condition cfg = Goldstein ->
  let r := bt_run_traced cfg f gradf given s0 x fx g dir in (num_grad_eval (snd (fst r)) < grad_evals true (snd r))%nat.
Proof.
  intros Hm Hc r. destruct (bt_inv cfg f gradf given s0 x fx g dir) as [_ H]. fold r in H. rewrite H, grad_evals_both.
  set (d := match dir with Some d => d | None => smul (-1) g end).
  assert (Hle : forall l, (grad_evals false l <= fun_evals l)%nat) by (intros l; unfold grad_evals, fun_evals; induction l as [|[z|z|z] l IH]; cbn in *; lia).
  destruct (run_loop_spec (maxiter cfg) (fun p => xgtb (error (snd (fst p))) (tol cfg)) (traced_update (bt_update cfg f gradf x d) (bt_calls cfg f gradf x d))
              ((s0, bt_init given x fx g), bt_init_calls given x) Hm) as (k & [Hk _] & E & _).
  unfold r, bt_run_traced, traced_run. fold d. rewrite E. destruct k as [|k]; [lia|]. cbn [Nat.iter nat_rect].
  set (p := nat_rect _ _ _ k). unfold traced_update. cbn [snd]. rewrite fun_evals_app, grad_evals_app.
  pose proof (Hle (snd p)). unfold bt_calls. destruct Hc as [-> | ->];
    match goal with |- context [if ?b then _ else _] => destruct b end; cbn; lia.
Qed.

(** ** The log is complete: what is not in it is not used *)
Section Agree.
Context {V : Type}.
Variables (A : call -> Prop) (cond : V -> bool) (upd upd' : V -> V) (calls calls' : V -> list call).
Hypothesis Hstep : forall v, Forall A (calls v) -> upd v = upd' v /\ calls v = calls' v.
Lemma for_prefix n : forall p : V * list call, exists t, snd (python_for (fun p => cond (fst p)) (traced_update upd calls) n p) = snd p ++ t.
Proof.
  induction n as [|n IH]; intros p; cbn; [exists []; rewrite app_nil_r; reflexivity|].
  destruct (cond (fst p)); [|exists []; rewrite app_nil_r; reflexivity].
  destruct (IH (traced_update upd calls p)) as [t ->]. unfold traced_update. cbn [snd]. rewrite <- app_assoc. eexists. reflexivity.
Qed.
Lemma for_agree n : forall p, Forall A (snd (python_for (fun p => cond (fst p)) (traced_update upd calls) n p)) ->
  python_for (fun p => cond (fst p)) (traced_update upd calls) n p = python_for (fun p => cond (fst p)) (traced_update upd' calls') n p.
Proof.
  induction n as [|n IH]; intros p H; [reflexivity|]. cbn in *. destruct (cond (fst p)); [|reflexivity].
  rewrite (IH _ H). f_equal. destruct (for_prefix n (traced_update upd calls p)) as [t E]. rewrite E in H. unfold traced_update in H |- *. cbn [snd] in H.
  apply Forall_app in H. destruct H as [H _]. apply Forall_app in H. destruct H as [_ H]. destruct (Hstep _ H) as [-> ->]. reflexivity.
Qed.
Lemma traced_agree n p : Forall A (snd (traced_run cond upd calls n p)) -> traced_run cond upd calls n p = traced_run cond upd' calls' n p.
Proof.
  unfold traced_run, run_loop. destruct n as [|n]; [reflexivity|]. intros H. rewrite (for_agree _ _ H). f_equal.
  destruct (for_prefix n (traced_update upd calls p)) as [t E]. rewrite E in H. unfold traced_update in H |- *. cbn [snd] in H.
  apply Forall_app in H. destruct H as [H _]. apply Forall_app in H. destruct H as [_ H]. destruct (Hstep _ H) as [-> ->]. reflexivity.
Qed.
End Agree.

Lemma bt_agree cfg f f' gradf gradf' given s0 x fx g dir :
  Forall (same_answer f f' gradf gradf') (snd (bt_run_traced cfg f gradf given s0 x fx g dir)) ->
  bt_run_traced cfg f' gradf' given s0 x fx g dir = bt_run_traced cfg f gradf given s0 x fx g dir.
Proof.
  intros H. symmetry. unfold bt_run_traced in *. refine (traced_agree _ _ _ _ _ _ _ _ _ H). clear H.
  set (d := match dir with Some d => d | None => smul (-1) g end). intros [s st] H. unfold bt_calls in *. cbn [fst] in *.
  set (np := vadd x (smul (Rmin (max_stepsize cfg) s) d)) in *.
  assert (E : bt_update cfg f gradf x d (s, st) = bt_update cfg f' gradf' x d (s, st)).
  { destruct (condition cfg) eqn:Ec.
    1,2: inversion H as [|c l Hv Hl]; subst c l; cbn in Hv; unfold bt_update in Hl |- *; fold np in Hl |- *; rewrite Ec in Hl |- *; rewrite <- Hv;
      cbn [snd done failed] in Hl |- *;
      match type of Hl with Forall _ (if ?b then _ else _) => destruct b eqn:Eb end; [|reflexivity];
      inversion Hl as [|c l Hg _]; subst c l; cbn in Hg; rewrite Hg; reflexivity.
    all: inversion H as [|c l Hv Hl]; subst c l; destruct Hv as [Hv Hg]; unfold bt_update; fold np; rewrite Ec, <- Hv, <- Hg; reflexivity. }
  split; [exact E|]. rewrite E. reflexivity.
Qed.

Lemma trial_agree {G} cfg f f' (gradf gradf' : vec -> G) vdot (step : R * zstate G) :
  same_answer f f' gradf gradf' (CallBoth (line_point (snd step) (fst (trial_step cfg f gradf vdot step)))) ->
  trial_step cfg f gradf vdot step = trial_step cfg f' gradf' vdot step.
Proof.
  destruct step as [s st]. unfold trial_step. cbn [snd same_answer]. destruct (z_found st).
  - unfold zoom_into_interval. cbv zeta. cbn [fst]. intros [H1 H2]. rewrite <- H1, <- H2. reflexivity.
  - unfold search_interval. cbv zeta. cbn [fst]. intros [H1 H2]. rewrite <- H1, <- H2. reflexivity.
Qed.
Lemma zoom_agree {G} cfg f f' (gradf gradf' : vec -> G) vdot given has_aux an s0 x fx (g : G) sl d :
  Forall (same_answer f f' gradf gradf') (snd (zoom_run_traced cfg f gradf vdot given has_aux an s0 x fx g sl d)) ->
  zoom_run_traced cfg f' gradf' vdot given has_aux an s0 x fx g sl d = zoom_run_traced cfg f gradf vdot given has_aux an s0 x fx g sl d.
Proof.
  intros H. symmetry. unfold zoom_run_traced in *. refine (traced_agree _ _ _ _ _ _ _ _ _ H). clear H.
  intros [s st] H. unfold zoom_calls in H.
  assert (T : trial_step cfg f gradf vdot (s, st) = trial_step cfg f' gradf' vdot (s, st)).
  { apply trial_agree. destruct (trial_step cfg f gradf vdot (s, st)). inversion H. assumption. }
  assert (E : zoom_update cfg f gradf vdot (s, st) = zoom_update cfg f' gradf' vdot (s, st)).
  { unfold zoom_update. rewrite <- T. unfold zoom_update in H. destruct (trial_step cfg f gradf vdot (s, st)) as [s' st'].
    change (z_failed (add_evals 1 st')) with (z_failed st') in *. destruct (z_failed st'); [|reflexivity].
    inversion H as [|c l _ Hl]; subst c l. inversion Hl as [|c l Hv _]; subst c l. clear H Hl.
    unfold make_safe_step in *. cbv zeta in *. cbn [snd z_params add_evals] in Hv. destruct Hv as [H1 H2]. cbn [z_params z_dir z_safe z_decrease_error add_evals] in *.
    rewrite <- H1, <- H2. reflexivity. }
  split; [exact E|]. unfold zoom_calls. rewrite <- T, <- E. reflexivity.
Qed.
