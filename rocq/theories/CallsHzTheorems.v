(** C86 for the Hager-Zhang line search. *)
From Coq Require Import Reals List Bool Arith Lia Lra.
From Verif Require Import Prelude Vec Loop Run While Backtracking Zoom HagerZhang CallsHz HagerZhangTheorems.
Import ListNotations.
Local Open Scope R_scope.

Definition exact (t : tally) : Prop := fst t = length (snd t).
Lemma exact_plus a b : exact a -> exact b -> exact (plus_tally a b).
Proof. unfold exact, plus_tally. cbn. rewrite app_length. lia. Qed.

(** Counting changes neither the result of a loop nor whether it ends *)
Lemma while_tally {V} cond (body : V -> option V) calls : (forall v v', body v = Some v' -> exists t, calls v v' = Some t /\ exact t) ->
  forall fuel v t, exact t ->
  match while_fuel fuel cond body v with
  | Some r => exists t', while_fuel fuel (fun p => cond (fst p)) (with_tally body calls) (v, t) = Some (r, t') /\ exact t'
  | None => while_fuel fuel (fun p => cond (fst p)) (with_tally body calls) (v, t) = None
  end.
Proof.
  intros Hc. induction fuel as [|n IH]; intros v t Ht; cbn; destruct (cond v); try reflexivity; [exists t; auto| |exists t; auto].
  unfold with_tally at 1 3. cbn [fst snd]. destruct (body v) as [v'|] eqn:E; [|reflexivity]. destruct (Hc v v' E) as (t1 & -> & H1).
  exact (IH v' _ (exact_plus _ _ Ht H1)).
Qed.

Section HagerZhang.
Context {G : Type}.
Variables (cfg : hz_config) (f : vec -> xnum) (gradf : vec -> G) (vdot : G -> vec -> xnum) (nf : bool) (x d : vec).
Lemma interval_exact fuel low high m thr r : hz_update_interval f gradf vdot nf x d fuel low high m thr = Some r ->
  exists t, interval_calls f gradf vdot x d fuel low high m thr = Some t /\ exact t.
Proof.
  unfold hz_update_interval, interval_calls. destruct m as [m|]; [|intros _; exists (1%nat, [None]); split; reflexivity].
  set (s0 := {| u_done := _ |}).
  pose proof (while_tally u_cond (u_body f gradf vdot x d thr) (fun _ s' => Some (1%nat, [Some (u_middle s')]))
    ltac:(intros v v' _; eexists; split; [reflexivity|reflexivity]) fuel s0 (0%nat, []) eq_refl) as H.
  destruct (while_fuel fuel u_cond _ s0) as [s|]; [|discriminate]. intros _. destruct H as ([n l] & -> & H).
  eexists. split; [reflexivity|]. unfold exact in *. cbn in *. lia.
Qed.
Lemma secant2_exact fuel low high thr r : hz_secant2 f gradf vdot nf x d fuel low high thr = Some r ->
  exists t, secant2_calls f gradf vdot nf x d fuel low high thr = Some t /\ exact t.
Proof.
  unfold hz_secant2, secant2_calls. destruct (hz_update_interval _ _ _ _ _ _ _ low high _ _) as [[[b lo] hi]|] eqn:E; [|discriminate].
  destruct (interval_exact _ _ _ _ _ _ E) as (t & -> & Ht).
  set (c := hz_secant gradf vdot x d low high). destruct (opt_eqb c lo || opt_eqb c hi)%bool.
  - intros H. destruct (interval_exact _ _ _ _ _ _ H) as (t' & -> & Ht'). eexists. split; [reflexivity|]. repeat apply exact_plus; auto; reflexivity.
  - intros _. eexists. split; [reflexivity|]. repeat apply exact_plus; auto; reflexivity.
Qed.
Lemma bracket_exact fuel c thr r : hz_bracket cfg f gradf vdot nf x d fuel c thr = Some r ->
  exists t, bracket_calls cfg f gradf vdot nf x d fuel c thr = Some t /\ exact t.
Proof.
  unfold hz_bracket, bracket_calls. set (s0 := {| b_done := _ |}).
  pose proof (while_tally b_cond (b_body cfg f gradf vdot nf x d fuel thr) (bracket_body_calls f gradf vdot x d fuel thr)) as H.
  specialize (H ltac:(intros v v' E; unfold b_body in E; unfold bracket_body_calls;
    destruct (negb (b_done v || xgeb (b_slope v) (Fin 0)) && xgtb (b_value v) thr)%bool;
    [destruct (hz_update_interval _ _ _ _ _ _ _ _ _ _ _) as [[[? ?] ?]|] eqn:Ei; [|discriminate];
     destruct (interval_exact _ _ _ _ _ _ Ei) as (t & -> & Ht); eexists; split; [reflexivity|apply exact_plus; [exact Ht|reflexivity]]
    |eexists; split; [reflexivity|reflexivity]]) fuel s0 (0%nat, []) eq_refl).
  destruct (while_fuel fuel b_cond _ s0) as [s|]; [|discriminate]. intros _. destruct H as (t & -> & H).
  eexists. split; [reflexivity|]. apply exact_plus; [reflexivity|exact H].
Qed.
Lemma init_exact given fuel v g sl st : hz_init cfg f gradf vdot nf x d fuel v g sl = Some st ->
  exists t, hz_init_calls cfg f gradf vdot nf x d given fuel v = Some t /\ exact t.
Proof.
  unfold hz_init, hz_init_calls. destruct (hz_bracket _ _ _ _ _ _ _ _ _ _) as [[[b lo] hi]|] eqn:E; [|discriminate].
  destruct (bracket_exact _ _ _ _ E) as (t & -> & Ht). intros _. eexists. split; [reflexivity|].
  repeat apply exact_plus; auto; destruct given; reflexivity.
Qed.
Lemma update_exact given fuel v sl s s' : hz_update cfg f gradf vdot nf x d fuel v sl s = Some s' ->
  exists t, hz_update_calls cfg f gradf vdot nf x d given fuel v (snd s) = Some t /\ exact t.
Proof.
  destruct s as [a st]. unfold hz_update, hz_update_calls. cbn [snd].
  destruct (hz_secant2 _ _ _ _ _ _ _ _ _ _) as [[[b lo] hi]|] eqn:E; [|discriminate]. destruct (secant2_exact _ _ _ _ _ E) as (t & -> & Ht).
  destruct (negb (h_done st) && _)%bool.
  - destruct (hz_update_interval _ _ _ _ _ _ _ _ _ _ _) as [[[b' lo'] hi']|] eqn:Ei; [|discriminate]. destruct (interval_exact _ _ _ _ _ _ Ei) as (t' & -> & Ht').
    intros _. eexists. split; [reflexivity|]. repeat apply exact_plus; auto; destruct given; reflexivity.
  - intros _. eexists. split; [reflexivity|]. repeat apply exact_plus; auto; destruct given; reflexivity.
Qed.

Definition linked (o : option (R * hz_state G)) (c : option ((R * hz_state G) * tally)) : Prop :=
  match o, c with Some s, Some (s', t) => s = s' /\ exact t | None, None => True | _, _ => False end.
Lemma linked_step given fuel v sl o c : linked o c ->
  linked (match o with Some s => hz_update cfg f gradf vdot nf x d fuel v sl s | None => None end) (hz_update_counted cfg f gradf vdot nf x d given fuel v sl c).
Proof.
  unfold linked. destruct o as [s|], c as [[s' t]|]; try tauto. intros [<- Ht]. unfold hz_update_counted, with_tally. cbn [fst snd].
  destruct (hz_update _ _ _ _ _ _ _ _ _ _ s) as [s'|] eqn:E; [|exact I]. destruct (update_exact given _ _ _ _ _ E) as (t' & -> & Ht'). split; [reflexivity|]. apply exact_plus; assumption.
Qed.
Lemma linked_for given fuel v sl n : forall o c, linked o c ->
  linked (python_for (fun o => match o with Some s => xgtb (h_error (snd s)) (htol cfg) | None => false end)
            (fun o => match o with Some s => hz_update cfg f gradf vdot nf x d fuel v sl s | None => None end) n o)
         (python_for (fun o => match o with Some p => xgtb (h_error (snd (fst p))) (htol cfg) | None => false end)
            (hz_update_counted cfg f gradf vdot nf x d given fuel v sl) n c).
Proof.
  induction n as [|n IH]; intros o c H; [exact H|]. cbn [python_for].
  assert (E : match o with Some s => xgtb (h_error (snd s)) (htol cfg) | None => false end = match c with Some p => xgtb (h_error (snd (fst p))) (htol cfg) | None => false end).
  { unfold linked in H. destruct o as [s|], c as [[s' t]|]; try tauto. destruct H as [-> _]. reflexivity. }
  rewrite <- E. destruct (match o with Some s => xgtb (h_error (snd s)) (htol cfg) | None => false end); [|exact H]. apply IH, linked_step, H.
Qed.
End HagerZhang.

(** The counted search ends exactly when the search does, with the same step and state, and its counter (num_fun_eval and num_grad_eval are the same number)
    is the number of calls made. *)
Theorem C86_hager_zhang :
  forall (G : Type) cfg f (gradf : vec -> G) vdot nf x d given fuel s0 v g sl,
  match hz_run cfg f gradf vdot nf x d fuel s0 v g sl with
  | Some r => exists count log, hz_run_counted cfg f gradf vdot nf x d given fuel s0 v g sl = Some (r, (count, log)) /\ count = length log
  | None => hz_run_counted cfg f gradf vdot nf x d given fuel s0 v g sl = None
  end.
Proof.
  intros G cfg f gradf vdot nf x d given fuel s0 v g sl. unfold hz_run, hz_run_counted.
  destruct (hz_init _ _ _ _ _ _ _ _ _ _ _) as [st|] eqn:E; [|reflexivity]. destruct (init_exact cfg f gradf vdot nf x d given _ _ _ _ _ E) as (t & -> & Ht).
  set (r := run_loop (hmaxiter cfg) _ _ (Some (s0, st))). set (c := run_loop (hmaxiter cfg) _ _ (Some ((s0, st), t))).
  assert (L : linked r c).
  { unfold r, c, run_loop. destruct (hmaxiter cfg) as [|n]; [split; [reflexivity|exact Ht]|].
    apply linked_for. apply (linked_step cfg f gradf vdot nf x d given fuel v sl (Some (s0, st)) (Some ((s0, st), t))). split; [reflexivity|exact Ht]. }
  unfold linked in L. destruct r as [s|], c as [[s' [n l]]|]; try tauto. destruct L as [<- L]. exists n, l. split; [reflexivity|exact L].
Qed.
Print Assumptions C86_hager_zhang.

(** A search with maxiter > 0 costs at least 13 evaluations: at least three for the initial bracket and ten for each update. *)
Theorem C86_hager_zhang_cost :
  forall (G : Type) cfg f (gradf : vec -> G) vdot nf x d given fuel s0 v g sl r count log,
  (0 < hmaxiter cfg)%nat ->
  hz_run_counted cfg f gradf vdot nf x d given fuel s0 v g sl = Some (r, (count, log)) -> (13 <= count)%nat.
Proof.
  intros G cfg f gradf vdot nf x d given fuel s0 v g sl r count log Hm H. unfold hz_run_counted in H.
  destruct (hz_init _ _ _ _ _ _ _ _ _ _ _) as [st|]; [|discriminate]. destruct (hz_init_calls _ _ _ _ _ _ _ _ _ _) as [t|] eqn:Ei; [|discriminate].
  assert (Hi : (3 <= fst t)%nat).
  { unfold hz_init_calls, bracket_calls in Ei. destruct (while_fuel _ _ _ _) as [[? [n l]]|]; [|discriminate].
    destruct (hz_bracket _ _ _ _ _ _ _ _ _ _) as [[[? ?] ?]|]; [|discriminate]. injection Ei as <-. destruct given; cbn; lia. }
  assert (Hint : forall fu lo hi m th tt, interval_calls f gradf vdot x d fu lo hi m th = Some tt -> (1 <= fst tt)%nat).
  { intros fu lo hi m th tt Ht. unfold interval_calls in Ht. destruct m; [|injection Ht as <-; cbn; lia].
    destruct (while_fuel _ _ _ _) as [[? [n l]]|]; [|discriminate]. injection Ht as <-. cbn. lia. }
  assert (Hs : forall fu lo hi th tt, secant2_calls f gradf vdot nf x d fu lo hi th = Some tt -> (7 <= fst tt)%nat).
  { intros fu lo hi th tt Ht. unfold secant2_calls in Ht. destruct (interval_calls _ _ _ _ _ _ lo hi _ _) as [t1|] eqn:E1; [|discriminate]. apply Hint in E1.
    destruct (hz_update_interval _ _ _ _ _ _ _ _ _ _ _) as [[[? ?] ?]|]; [|discriminate].
    destruct (opt_eqb _ _ || opt_eqb _ _)%bool; [destruct (interval_calls _ _ _ _ _ _ _ _ _ _) as [t2|]; [|discriminate]|];
      injection Ht as <-; cbn; lia. }
  assert (Hu : forall o p', hz_update_counted cfg f gradf vdot nf x d given fuel v sl o = Some p' -> exists p, o = Some p /\ (fst (snd p) + 10 <= fst (snd p'))%nat).
  { intros o p' Ht. destruct o as [p|]; [|discriminate]. exists p. split; [reflexivity|]. cbn in Ht. unfold with_tally in Ht.
    destruct (hz_update _ _ _ _ _ _ _ _ _ _ _) as [s'|]; [|discriminate]. destruct (hz_update_calls _ _ _ _ _ _ _ _ _ _ _) as [t1|] eqn:E1; [|discriminate]. injection Ht as <-.
    unfold hz_update_calls in E1. destruct (secant2_calls _ _ _ _ _ _ _ _ _ _) as [t2|] eqn:E2; [|discriminate]. apply Hs in E2.
    destruct (hz_secant2 _ _ _ _ _ _ _ _ _ _) as [[[? ?] ?]|]; [|discriminate].
    match type of E1 with (match (if ?b then _ else _) with _ => _ end) = _ => destruct b end;
      [destruct (interval_calls _ _ _ _ _ _ _ _ _ _) as [t3|]; [|discriminate]; destruct (hz_update_interval _ _ _ _ _ _ _ _ _ _ _) as [[[? ?] ?]|]; [|discriminate]|];
      injection E1 as <-; destruct given; cbn; lia. }
  destruct (run_loop_spec (hmaxiter cfg) (fun o : option ((R * hz_state G) * tally) => match o with Some p => xgtb (h_error (snd (fst p))) (htol cfg) | None => false end)
    (hz_update_counted cfg f gradf vdot nf x d given fuel v sl) (Some ((s0, st), t)) Hm) as (k & [Hk _] & E & _).
  rewrite E in H. clear E. destruct k as [|k]; [lia|]. clear Hk.
  assert (A : forall j p, Nat.iter j (hz_update_counted cfg f gradf vdot nf x d given fuel v sl) (Some ((s0, st), t)) = Some p -> (3 + 10 * j <= fst (snd p))%nat).
  { induction j as [|j IH]; intros p Hp; [injection Hp as <-; cbn [snd]; lia|]. cbn [Nat.iter nat_rect] in Hp. destruct (Hu _ _ Hp) as (q & Hq & Hle). apply IH in Hq. lia. }
  apply A in H. cbn [fst snd] in H. lia.
Qed.
Print Assumptions C86_hager_zhang_cost.

(** On (c - 1/2)^2 the search ends (C21_example): its calls are counted, and there are at least 13. *)
Example C86_hager_zhang_example :
  let f := f1 (fun c => Fin ((c - / 2) ^ 2)) in let g := g1 (fun c => 2 * (c - / 2)) in
  exists N r, forall fuel, (N <= fuel)%nat -> exists count log,
    hz_run_counted hz_default f g dot1 true [0] [1] true fuel 1 (/ 4) (-1) (-1) = Some (r, (count, log)) /\ count = length log /\ (13 <= count)%nat.
Proof.
  intros f g. destruct C21_example as ((N & r & H) & _). exists N, r. intros fuel Hf. specialize (H fuel Hf).
  pose proof (C86_hager_zhang R hz_default f g dot1 true [0] [1] true fuel 1 (/ 4) (-1) (-1)) as A. unfold f, g in A. rewrite H in A.
  destruct A as (n & l & A & B). exists n, l. split; [exact A|]. split; [exact B|].
  eapply C86_hager_zhang_cost; [|exact A]. cbn. lia.
Qed.
