(** C67: which options a run of a solver object uses, over every history of attribute changes. *)
From Coq Require Import String.
From Coq Require Import Reals List Bool Arith Lia Lra.
From Verif Require Import Prelude Vec Mat Loop Base Run Zoom Loss Backtracking QuasiNewton Convergence SolverObjects.
Import ListNotations.
Local Open Scope string_scope.
Open Scope R_scope.
Open Scope list_scope.

(** Construction fails exactly for an unknown line search name; a named search gets maxls, max_stepsize
    (Hager-Zhang ignores it), the jit and unroll decisions of the solver and verbose - 1; an instance is
    used as it is.  The deprecated arguments only produce warnings. *)
Theorem C67_construct : forall I (a : attrs I),
  (new a = Err ValueError <-> exists s, a_linesearch a = LsName s /\ s <> "backtracking" /\ s <> "zoom" /\ s <> "hager-zhang") /\
  (forall e, new a = Err e -> e = ValueError) /\
  forall o w, new a = Ok (o, w) ->
    ob_attrs o = a /\ ob_updates o = [] /\ ob_scans o = [] /\ bt_update_jitted (ob_built o) = a_jit a /\
    (forall i, a_linesearch a = LsInstance i -> bt_ls (ob_built o) = GivenLS i /\ bt_ls_options (ob_built o) = None) /\
    (forall s, a_linesearch a = LsName s ->
       bt_ls_options (ob_built o) = Some (a_jit a, unrolls a, (a_verbose a - 1)%nat) /\
       bt_ls (ob_built o) = if string_dec s "backtracking" then BacktrackingLS (a_maxls a) (a_max_stepsize a)
                           else if string_dec s "zoom" then ZoomLS (a_maxls a) (a_max_stepsize a) else HagerZhangLS (a_maxls a)) /\
    (In ConditionDeprecated w <-> a_condition a = true) /\ (In DecreaseFactorDeprecated w <-> a_decrease_factor a = true).
Proof.
  intros I a. unfold new, post_init.
  assert (W : forall b c : bool, (In ConditionDeprecated ((if b then [ConditionDeprecated] else []) ++ (if c then [DecreaseFactorDeprecated] else [])) <-> b = true) /\
    (In DecreaseFactorDeprecated ((if b then [ConditionDeprecated] else []) ++ (if c then [DecreaseFactorDeprecated] else [])) <-> c = true)).
  { intros [] []; simpl; split; split; intros H; try reflexivity; try discriminate; auto; intuition discriminate. }
  destruct (a_linesearch a) as [s|i] eqn:El; unfold setup_linesearch.
  - destruct (string_dec s "backtracking") as [->|N1]; [|destruct (string_dec s "zoom") as [->|N2]; [|destruct (string_dec s "hager-zhang") as [->|N3]]].
    1-3: split; [split; [discriminate|intros (s & E & H1 & H2 & H3); injection E as <-; congruence]|]; split; [discriminate|];
      intros o w H; injection H as <- <-; cbn [ob_attrs ob_updates ob_scans ob_built bt_update_jitted bt_ls bt_ls_options];
      repeat (split; [reflexivity|]); split; [discriminate|]; split; [intros s E; injection E as <-; split; reflexivity|apply W].
    split; [split; [intros _; exists s; auto|reflexivity]|]. split; [intros e H; injection H as <-; reflexivity|discriminate].
  - split; [split; [discriminate|intros (s & E & _); discriminate]|]. split; [discriminate|].
    intros o w H. injection H as <- <-. cbn [ob_attrs ob_updates ob_scans ob_built bt_update_jitted bt_ls bt_ls_options].
    repeat (split; [reflexivity|]). split; [intros j E; injection E as <-; auto|]. split; [discriminate|]. apply W.
Qed.
Print Assumptions C67_construct.

(** *** Histories *)
Section Proofs.
Context {I : Type}.
Implicit Types (a : attrs I) (o : solver_object I) (h : list (event I)).
Lemma after_cons o e h : after o (e :: h) = after (happen o e) h.
Proof. reflexivity. Qed.
Lemma call_update_attrs g o : ob_attrs (snd (call_update g o)) = ob_attrs o /\ ob_built (snd (call_update g o)) = ob_built o /\ ob_scans (snd (call_update g o)) = ob_scans o.
Proof. unfold call_update. destruct (bt_update_jitted _); [destruct (lookup _ _ _)|]; auto. Qed.
Lemma run_view_attrs g o : ob_attrs (snd (run_view g o)) = ob_attrs o /\ ob_built (snd (run_view g o)) = ob_built o /\ ob_updates (snd (run_view g o)) = ob_updates (snd (call_update g o)).
Proof.
  unfold run_view. destruct (call_update_attrs g o) as (A & B & C). destruct (call_update g o) as [u o1]. cbn [fst snd] in *.
  destruct (unrolls _); [|destruct (a_jit _); auto]. destruct (a_jit _); [|auto]. destruct (lookup _ _ _); cbn [ob_attrs ob_built snd ob_updates]; auto.
Qed.
Lemma happen_attrs o e : ob_attrs (happen o e) = (match e with SetAttrs m => m (ob_attrs o) | _ => ob_attrs o end) /\ ob_built (happen o e) = ob_built o.
Proof.
  destruct e as [m|g|g]; cbn [happen]; [auto| |].
  - destruct (call_update_attrs g o) as (A & B & _). auto.
  - destruct (run_view_attrs g o) as (A & B & _). auto.
Qed.
Lemma after_attrs h : forall o, ob_attrs (after o h) = current (ob_attrs o) h /\ ob_built (after o h) = ob_built o.
Proof.
  induction h as [|e h IH]; intros o; [auto|]. rewrite after_cons. destruct (IH (happen o e)) as (A & B). destruct (happen_attrs o e) as (C & D).
  rewrite A, B, C, D. split; [|reflexivity]. destruct e; reflexivity.
Qed.
Lemma update_cache g g' o : bt_update_jitted (ob_built o) = true ->
  lookup Nat.eqb g (ob_updates (snd (call_update g' o))) =
    match lookup Nat.eqb g (ob_updates o) with Some a => Some a | None => if Nat.eqb g g' then Some (ob_attrs o) else None end.
Proof.
  intros J. unfold call_update. rewrite J. destruct (lookup Nat.eqb g' (ob_updates o)) as [a|] eqn:E; cbn [snd ob_updates].
  - destruct (Nat.eqb_spec g g') as [->|]; [rewrite E; reflexivity|]. destruct (lookup Nat.eqb g (ob_updates o)); reflexivity.
  - cbn [lookup]. destruct (Nat.eqb_spec g g') as [->|]; [rewrite E; reflexivity|]. destruct (lookup Nat.eqb g (ob_updates o)); reflexivity.
Qed.
Lemma happen_cache g o e : bt_update_jitted (ob_built o) = true ->
  lookup Nat.eqb g (ob_updates (happen o e)) =
    match lookup Nat.eqb g (ob_updates o) with Some a => Some a
    | None => match e with SetAttrs _ => None | CallUpdate g' | CallRun g' => if Nat.eqb g g' then Some (ob_attrs o) else None end end.
Proof.
  intros J. destruct e as [m|g'|g']; cbn [happen].
  - cbn [set_attrs ob_updates]. destruct (lookup _ _ _); reflexivity.
  - apply update_cache. exact J.
  - destruct (run_view_attrs g' o) as (_ & _ & ->). apply update_cache. exact J.
Qed.
Lemma after_cache g h : forall o, bt_update_jitted (ob_built o) = true ->
  fst (call_update g (after o h)) = match lookup Nat.eqb g (ob_updates o) with Some a => a | None => at_first_call g (ob_attrs o) h end.
Proof.
  induction h as [|e h IH]; intros o J.
  - cbn [after fold_left at_first_call]. unfold call_update. rewrite J. destruct (lookup _ _ _); reflexivity.
  - rewrite after_cons. destruct (happen_attrs o e) as (A & B). rewrite IH by (rewrite B; exact J). rewrite happen_cache by exact J. rewrite A.
    destruct (lookup Nat.eqb g (ob_updates o)) as [a|]; [reflexivity|]. destruct e as [m|g'|g']; cbn [at_first_call]; [reflexivity| |]; destruct (Nat.eqb g g'); reflexivity.
Qed.
Lemma key_eqb_spec p q : key_eqb p q = true <-> p = q.
Proof. destruct p, q. unfold key_eqb. cbn [fst snd]. rewrite andb_true_iff, !Nat.eqb_eq. split; [intros [-> ->]; reflexivity|intros E; injection E; auto]. Qed.
Lemma scan_cache m g o e : a_jit (ob_attrs o) = true ->
  lookup key_eqb (m, g) (ob_scans (happen o e)) =
    match lookup key_eqb (m, g) (ob_scans o) with Some t => Some t
    | None => match e with CallRun g' => if Nat.eqb m (a_maxiter (ob_attrs o)) && Nat.eqb g g' && unrolls (ob_attrs o) then Some (a_tol (ob_attrs o)) else None | _ => None end end.
Proof.
  intros J. destruct e as [s|g'|g']; cbn [happen].
  - cbn [set_attrs ob_scans]. destruct (lookup _ _ _); reflexivity.
  - destruct (call_update_attrs g' o) as (_ & _ & ->). destruct (lookup _ _ _); reflexivity.
  - unfold run_view. destruct (call_update_attrs g' o) as (A & B & C). destruct (call_update g' o) as [u o1]. cbn [fst snd] in *. rewrite A, J, C.
    destruct (unrolls (ob_attrs o)); [|cbn [snd]; rewrite ?C, andb_false_r; destruct (lookup _ _ _); reflexivity]. rewrite andb_true_r.
    destruct (lookup key_eqb (a_maxiter (ob_attrs o), g') (ob_scans o)) as [t|] eqn:E; cbn [snd ob_scans].
    + rewrite ?C. destruct (lookup key_eqb (m, g) (ob_scans o)) as [t'|] eqn:E'; [reflexivity|].
      destruct (Nat.eqb_spec m (a_maxiter (ob_attrs o))) as [->|]; [|reflexivity]. destruct (Nat.eqb_spec g g') as [->|]; [congruence|reflexivity].
    + cbn [lookup]. unfold key_eqb at 1. cbn [fst snd]. destruct (Nat.eqb_spec m (a_maxiter (ob_attrs o))) as [->|]; cbn [andb].
      * destruct (Nat.eqb_spec g g') as [->|]; [rewrite E; reflexivity|]. destruct (lookup key_eqb (a_maxiter (ob_attrs o), g) (ob_scans o)); reflexivity.
      * destruct (lookup key_eqb (m, g) (ob_scans o)); reflexivity.
Qed.
Lemma after_scan m g h : forall o, a_jit (ob_attrs o) = true -> keeps_jit h ->
  match lookup key_eqb (m, g) (ob_scans (after o h)) with Some t => t | None => a_tol (current (ob_attrs o) h) end =
  match lookup key_eqb (m, g) (ob_scans o) with Some t => t | None => a_tol (at_first_scan m g (ob_attrs o) h) end.
Proof.
  induction h as [|e h IH]; intros o J K; [reflexivity|]. rewrite after_cons. destruct (happen_attrs o e) as (A & B).
  assert (K' : keeps_jit h) by (intros s Hs; apply K; right; exact Hs).
  assert (J' : a_jit (ob_attrs (happen o e)) = true) by (rewrite A; destruct e as [s|?|?]; [rewrite (K s (or_introl eq_refl)); exact J|exact J|exact J]).
  specialize (IH (happen o e) J' K'). rewrite A in IH.
  replace (current (ob_attrs o) (e :: h)) with (current (match e with SetAttrs m => m (ob_attrs o) | _ => ob_attrs o end) h) by (destruct e; reflexivity).
  rewrite IH, (scan_cache m g o e J). destruct (lookup key_eqb (m, g) (ob_scans o)) as [t|]; [reflexivity|].
  destruct e as [s|g'|g']; cbn [at_first_scan]; [reflexivity|reflexivity|].
  destruct (Nat.eqb m (a_maxiter (ob_attrs o)) && Nat.eqb g g' && unrolls (ob_attrs o)); reflexivity.
Qed.
Lemma current_jit h : forall a, keeps_jit h -> a_jit (current a h) = a_jit a.
Proof.
  induction h as [|e h IH]; intros a K; [reflexivity|]. assert (K' : keeps_jit h) by (intros s Hs; apply K; right; exact Hs).
  destruct e as [m|g|g]; cbn [current]; rewrite IH by exact K'; [apply K; left; reflexivity|reflexivity|reflexivity].
Qed.
End Proofs.

(** The options of a run after any history of one object (that leaves jit alone).  The line search is
    the one built at construction.  Iteration limit and the options of init_state are current.  Without
    jit so are the tolerance and the options of update; with jit, the options of update are those at
    the first call with the same signature, and so is the tolerance, for that iteration limit, when the
    loop is unrolled. *)
Theorem C67_history : forall I (a0 : attrs I) o0 w h g, new a0 = Ok (o0, w) -> keeps_jit h ->
  let a := current a0 h in
  fst (run_view g (after o0 h)) =
    if runnable a then
      Ok {| ro_maxiter := a_maxiter a;
            ro_tol := if a_jit a0 && unrolls a then a_tol (at_first_scan (a_maxiter a) g a0 h) else a_tol a;
            ro_init := a_cfg a;
            ro_update := a_cfg (if a_jit a0 then at_first_call g a0 h else a);
            ro_linesearch := bt_ls (ob_built o0) |}
    else Err ValueError.
Proof.
  intros I a0 o0 w h g HN K. cbv zeta. destruct (C67_construct I a0) as (_ & _ & C). destruct (C o0 w HN) as (EA & EU & ES & EJ & _).
  destruct (after_attrs h o0) as (A & B). rewrite EA in A. pose proof (current_jit h a0 K) as CJ.
  unfold run_view, runnable. destruct (call_update_attrs g (after o0 h)) as (A' & B' & C').
  assert (U : fst (call_update g (after o0 h)) = if a_jit a0 then at_first_call g a0 h else current a0 h).
  { destruct (a_jit a0) eqn:J; [rewrite (after_cache g h o0) by (rewrite EJ; reflexivity); rewrite EU, EA; reflexivity|].
    unfold call_update. rewrite B, EJ. cbn [fst]. exact A. }
  pose proof (after_scan (a_maxiter (current a0 h)) g h o0) as S. rewrite EA, ES in S. cbn [lookup] in S.
  destruct (call_update g (after o0 h)) as [u o1]. cbn [fst snd] in *. rewrite A', A, B', B, CJ, C', U.
  destruct (unrolls (current a0 h)); cbn [orb]; [|rewrite andb_false_r; destruct (a_jit a0); reflexivity]. rewrite andb_true_r.
  destruct (a_jit a0) eqn:J; [|reflexivity]. specialize (S eq_refl K). rewrite <- S.
  destruct (lookup key_eqb (a_maxiter (current a0 h), g) (ob_scans (after o0 h))); reflexivity.
Qed.
Print Assumptions C67_history.

Lemma first_call_unused {I} g h : forall a : attrs I, unused g h -> at_first_call g a h = current a h.
Proof.
  induction h as [|e h IH]; intros a (U1 & U2); [reflexivity|]. assert (U : unused g h) by (split; intros H; [apply U1|apply U2]; right; exact H).
  destruct e as [m|g'|g']; cbn [at_first_call current]; [apply IH; exact U| |]; (destruct (Nat.eqb_spec g g') as [->|]; [exfalso; ((apply U1; left; reflexivity) || (apply U2; left; reflexivity))|apply IH; exact U]).
Qed.
Lemma first_scan_unused {I} m g h : forall a : attrs I, unused g h -> at_first_scan m g a h = current a h.
Proof.
  induction h as [|e h IH]; intros a (U1 & U2); [reflexivity|]. assert (U : unused g h) by (split; intros H; [apply U1|apply U2]; right; exact H).
  destruct e as [s|g'|g']; cbn [at_first_scan current]; [apply IH; exact U|apply IH; exact U|].
  destruct (Nat.eqb_spec g g') as [->|]; [exfalso; apply U2; left; reflexivity|]. rewrite andb_false_r. cbn [andb]. apply IH. exact U.
Qed.
(** So reconfiguring an object is the same as constructing a new one with the current attributes --
    without jit always, with jit for signatures not used before -- provided the attributes its line
    search was built from did not change. *)
Theorem C67_reconfigure : forall I (a0 : attrs I) o0 w h g o1 w1, new a0 = Ok (o0, w) -> keeps_jit h ->
  let a := current a0 h in
  (a_jit a0 = false \/ unused g h) ->
  a_linesearch a = a_linesearch a0 -> a_maxls a = a_maxls a0 -> a_max_stepsize a = a_max_stepsize a0 ->
  new a = Ok (o1, w1) -> fst (run_view g (after o0 h)) = fst (run_view g o1).
Proof.
  intros I a0 o0 w h g o1 w1 HN K. cbv zeta. intros HJ E1 E2 E3 HN1. rewrite (C67_history I a0 o0 w h g HN K).
  pose proof (C67_history I (current a0 h) o1 w1 [] g HN1 ltac:(intros m [])) as Q. cbn [after fold_left current at_first_call at_first_scan] in Q. rewrite Q.
  destruct (runnable (current a0 h)); [|reflexivity]. rewrite (current_jit h a0 K).
  assert (EL : bt_ls (ob_built o0) = bt_ls (ob_built o1)).
  { clear Q. unfold new, post_init in HN, HN1. rewrite E1, E2, E3 in HN1. destruct (setup_linesearch (a_linesearch a0) (a_maxls a0) (a_max_stepsize a0)) as [ls|]; [|discriminate].
    injection HN as <- _. injection HN1 as <- _. reflexivity. }
  rewrite EL. f_equal. destruct HJ as [J|U]; [rewrite J; reflexivity|]. rewrite (first_call_unused g h a0 U), (first_scan_unused _ g h a0 U).
  destruct (a_jit a0 && unrolls (current a0 h)); destruct (a_jit a0); reflexivity.
Qed.
Print Assumptions C67_reconfigure.

(** A run of a new BFGS object is the run of Convergence.v with the options it was constructed with. *)
Theorem C67_bfgs_fresh : forall I (ls_sem : ls_solver I -> line_search) f gradf (a : attrs I) o w g x0,
  new a = Ok (o, w) -> runnable a = true ->
  object_run ls_sem f gradf g o x0 = bfgs_solve f gradf (ls_sem (bt_ls (ob_built o))) (a_cfg a) (a_maxiter a) x0.
Proof.
  intros I ls_sem f gradf a o w g x0 HN R. unfold object_run.
  pose proof (C67_history I a o w [] g HN ltac:(intros m [])) as Q. cbn [after fold_left current at_first_call at_first_scan] in Q. rewrite Q, R. cbv zeta.
  unfold bfgs_solve, a_tol. cbn [ro_maxiter ro_tol ro_linesearch ro_update ro_init]. destruct (a_jit a && unrolls a); destruct (a_jit a); reflexivity.
Qed.
Print Assumptions C67_bfgs_fresh.
(** unroll=False with jit=False is accepted at construction and raises ValueError in run(), after its
    first update; unroll="auto" never does. *)
Theorem C67_runnable : forall I (a : attrs I) o w g, new a = Ok (o, w) ->
  (fst (run_view g o) = Err ValueError <-> a_unroll a = UnrollIs false /\ a_jit a = false) /\
  (a_unroll a = UnrollAuto -> exists r, fst (run_view g o) = Ok r).
Proof.
  intros I a o w g HN. pose proof (C67_history I a o w [] g HN ltac:(intros m [])) as Q. cbn [after fold_left current] in Q. rewrite Q. cbv zeta.
  unfold runnable, unrolls, get_unroll_option. destruct (a_unroll a) as [|[]]; destruct (a_jit a); try destruct (a_implicit_diff a); cbn; (split; [split; [intros H; try discriminate; auto|intros (H1 & H2); discriminate || reflexivity]|]); try (intros _; eexists; reflexivity); intros; discriminate.
Qed.
Print Assumptions C67_runnable.

(** *** Refuted: attributes of a solver can be changed after construction. *)
(** maxls, linesearch: never again, with or without jit. *)
Theorem C67_maxls_refuted : forall I (a0 : attrs I) o0 w k l g, new a0 = Ok (o0, w) ->
  let h := [SetAttrs (with_maxls k); SetAttrs (with_linesearch l)] in
  a_maxls (ob_attrs (after o0 h)) = k /\ a_linesearch (ob_attrs (after o0 h)) = l /\ fst (run_view g (after o0 h)) = fst (run_view g o0).
Proof.
  intros I a0 o0 w k l g HN. cbv zeta. destruct (C67_construct I a0) as (_ & _ & C). destruct (C o0 w HN) as (EA & _).
  split; [reflexivity|]. split; [reflexivity|].
  rewrite (C67_history I a0 o0 w [SetAttrs (with_maxls k); SetAttrs (with_linesearch l)] g HN) by (intros m [H|[H|[]]] b; injection H as <-; reflexivity).
  pose proof (C67_history I a0 o0 w [] g HN ltac:(intros m [])) as Q. cbn [after fold_left current at_first_call at_first_scan] in Q. rewrite Q. cbv zeta. destruct (a_jit a0); reflexivity.
Qed.
Print Assumptions C67_maxls_refuted.
(** max_stepsize: after a change the initial guess of the search uses the new value and the search
    the old one. *)
Theorem C67_max_stepsize_refuted : exists (a0 : attrs unit) o0 w c r, new a0 = Ok (o0, w) /\ a_jit a0 = false /\
  fst (run_view 0 (after o0 [SetAttrs (with_cfg c)])) = Ok r /\
  init_stepsize (qn_linesearch_init (ro_update r)) (qn_max_stepsize (ro_update r)) (qn_min_stepsize (ro_update r)) (qn_increase_factor (ro_update r)) (qn_max_stepsize (ro_init r)) = Ok 10 /\
  ro_linesearch r = ZoomLS 30 1.
Proof.
  set (cfg := fun s => {| qn_stepsize := StepConst 0; qn_linesearch_init := "max"; qn_increase_factor := 3 / 2; qn_max_stepsize := s; qn_min_stepsize := 1 / 1000000;
     qn_tol := 1 / 1000; qn_stop_if_linesearch_fails := false; qn_history_size := 10; qn_use_gamma := true |}).
  set (a0 := {| a_cfg := cfg 1; a_maxiter := 500; a_jit := false; a_unroll := UnrollAuto; a_implicit_diff := true; a_linesearch := LsName (I := unit) "zoom"; a_maxls := 30; a_verbose := 0; a_condition := false; a_decrease_factor := false |}).
  exists a0. do 2 eexists. exists (cfg 10). eexists. split; [reflexivity|]. split; [reflexivity|]. split; [reflexivity|]. split; reflexivity.
Qed.
Print Assumptions C67_max_stepsize_refuted.
(** Options of update, with jit (the default), once a run with arguments of the same shapes was made:
    BFGS with constant step 1/2 on x^2/2, then stepsize set to 1.  The second run returns 1/2 again;
    a new solver with the step 1 returns the minimiser 0, and so does the changed object if jit=False. *)
Definition step_cfg (s : R) : qn_config :=
  {| qn_stepsize := StepConst s; qn_linesearch_init := "increase"; qn_increase_factor := 3 / 2; qn_max_stepsize := 1; qn_min_stepsize := 1 / 1000000;
     qn_tol := 1 / 1000; qn_stop_if_linesearch_fails := false; qn_history_size := 10; qn_use_gamma := true |}.
Definition step_attrs (jit : bool) (s : R) : attrs unit :=
  {| a_cfg := step_cfg s; a_maxiter := 1; a_jit := jit; a_unroll := UnrollAuto; a_implicit_diff := true; a_linesearch := LsName "zoom"; a_maxls := 30; a_verbose := 0; a_condition := false; a_decrease_factor := false |}.
Theorem C67_set_stepsize_refuted : forall ls_sem, let f := fun x : vec => 1 / 2 * dot x x in let gradf := fun x : vec => x in
  let h := [CallRun 0; SetAttrs (with_cfg (step_cfg 1))] in
  exists o0 w o1 w1 o2 w2, new (step_attrs true (1 / 2)) = Ok (o0, w) /\ new (step_attrs true 1) = Ok (o1, w1) /\ new (step_attrs false (1 / 2)) = Ok (o2, w2) /\
    ob_attrs (after o0 h) = ob_attrs o1 /\
    (exists st, object_run ls_sem f gradf 0 (after o0 h) [1] = Ok ([1 / 2], st)) /\
    (exists st, object_run ls_sem f gradf 0 o1 [1] = Ok ([0], st)) /\ (exists st, object_run ls_sem f gradf 0 (after o2 h) [1] = Ok ([0], st)).
Proof.
  intros ls_sem. cbv zeta. do 6 eexists. split; [reflexivity|]. split; [reflexivity|]. split; [reflexivity|]. split; [reflexivity|].
  assert (X : forall t lsv, 0 < t -> exists st, bfgs_solve (fun x : vec => 1 / 2 * dot x x) (fun x : vec => x) lsv (step_cfg t) 1 [1] = Ok ([1 - t], st)).
  { intros t lsv Ht. unfold bfgs_solve, run_result, bfgs_update. cbn [bfgs_init]. unfold take_step, use_linesearch. cbn [step_cfg qn_stepsize].
    unfold Rleb. destruct (Rle_dec t 0); [lra|]. eexists. cbn. f_equal. f_equal. f_equal. unfold fixed_step. cbn. ring. }
  split; [|split].
  - destruct (X (1 / 2) (ls_sem (ZoomLS 30 1)) ltac:(lra)) as (st & E). exists st. replace (1 - 1 / 2) with (1 / 2) in E by lra. exact E.
  - destruct (X 1 (ls_sem (ZoomLS 30 1)) ltac:(lra)) as (st & E). exists st. replace (1 - 1) with 0 in E by lra. exact E.
  - destruct (X 1 (ls_sem (ZoomLS 30 1)) ltac:(lra)) as (st & E). exists st. replace (1 - 1) with 0 in E by lra. exact E.
Qed.
Print Assumptions C67_set_stepsize_refuted.
(** tol: current in a default object; with implicit_diff=False (an unrolled loop) and jit, the one of the
    first run with these shapes and this maxiter. *)
Theorem C67_set_tol_refuted : forall I (a0 : attrs I) o0 w c g, new a0 = Ok (o0, w) -> a_jit a0 = true -> a_unroll a0 = UnrollAuto ->
  let h := [CallRun g; SetAttrs (with_cfg c)] in
  exists r, fst (run_view g (after o0 h)) = Ok r /\ (ro_tol r = if a_implicit_diff a0 then qn_tol c else a_tol a0) /\
    forall m, m <> a_maxiter a0 -> exists r', fst (run_view g (after o0 (h ++ [SetAttrs (with_maxiter m)]))) = Ok r' /\ ro_tol r' = qn_tol c.
Proof.
  intros I a0 o0 w c g HN J HU. cbv zeta.
  assert (K1 : keeps_jit [CallRun g; SetAttrs (with_cfg (I := I) c)]) by (intros m [H|[H|[]]] b; [discriminate|injection H as <-; reflexivity]).
  rewrite (C67_history I a0 o0 w _ g HN K1). cbn [current]. unfold runnable, unrolls. cbn [with_cfg a_unroll a_implicit_diff a_jit]. rewrite HU, J. cbn [get_unroll_option negb]. rewrite !orb_false_r, !orb_true_r.
  eexists. split; [reflexivity|]. cbn [ro_tol at_first_scan a_maxiter with_cfg andb]. rewrite !Nat.eqb_refl. unfold unrolls. rewrite HU, J. cbn [get_unroll_option negb andb]. rewrite orb_false_r.
  split; [destruct (a_implicit_diff a0); reflexivity|].
  intros m Hm. assert (K2 : keeps_jit ([CallRun g; SetAttrs (with_cfg (I := I) c)] ++ [SetAttrs (with_maxiter m)])) by (intros s [H|[H|[H|[]]]] b; [discriminate|injection H as <-; reflexivity|injection H as <-; reflexivity]).
  rewrite (C67_history I a0 o0 w _ g HN K2). cbn [app current]. unfold runnable, unrolls. cbn [with_cfg with_maxiter a_unroll a_implicit_diff a_jit]. rewrite HU, J. cbn [get_unroll_option negb]. rewrite !orb_true_r.
  eexists. split; [reflexivity|]. cbn [ro_tol at_first_scan a_maxiter with_cfg with_maxiter andb]. apply Nat.eqb_neq in Hm. rewrite Hm. cbn [andb].
  destruct (negb (a_implicit_diff a0) || false); reflexivity.
Qed.
Print Assumptions C67_set_tol_refuted.

(** Non-vacuity: a default object with a history. *)
Example C67_example : exists o w, new (step_attrs true (1 / 2)) = Ok (o, w) /\ keeps_jit [CallRun 0; SetAttrs (with_cfg (I := unit) (step_cfg 1))] /\
  unused 1 [CallRun (I := unit) 0; SetAttrs (with_cfg (step_cfg 1))] /\ runnable (step_attrs true (1 / 2)) = true.
Proof.
  do 2 eexists. split; [reflexivity|]. split; [intros m [H|[H|[]]] b; [discriminate|injection H as <-; reflexivity]|]. split; [|reflexivity].
  split; intros [H|[H|[]]]; discriminate.
Qed.
