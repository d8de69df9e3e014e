(** C02, C03, C04: the generic run loops and objective normalisation. *)
From Coq Require Import Reals List ZArith Bool Lia Lra.
From Verif Require Import Prelude Loop LoopProofs Base BaseProofs.
Import ListNotations.

(** C02. [run] has exactly one result.  Its parameters are those of the k-th
    element of the update trajectory, 1 <= k <= maxiter, where all elements
    1..k-1 asked to continue, and element k asked to stop unless k = maxiter.
    State leaves are those of element k, except that a None leaf is filled from
    the initial state. *)
Theorem C02_run :
  forall (P L A : Type) (sv : solver P L A) (i : init_arg P L) (args : A) (maxiter : Z)
         (unroll : unroll_option) (implicit_diff jit : bool),
    (1 <= maxiter)%Z ->
    get_unroll_option unroll implicit_diff jit || jit = true ->
    exists k,
      (1 <= k <= Z.to_nat maxiter)%nat /\
      (forall j, (1 <= j < k)%nat -> cond sv (trajectory sv i args j) = true) /\
      (k = Z.to_nat maxiter \/ cond sv (trajectory sv i args k) = false) /\
      (forall r, run sv i args maxiter unroll implicit_diff jit r <->
        r = Ok (fst (trajectory sv i args k),
                where_state false (init_state sv i args) (snd (trajectory sv i args k)))).
Proof. intros. apply run_pos; assumption. Qed.
Print Assumptions C02_run.

(** C02, default stopping rule [error > tol]: if fewer than maxiter updates were
    made, the returned error is <= tol (or NaN, which also stops the loop). *)
Theorem C02_run_tolerance :
  forall (P L A : Type) (ini : init_arg P L -> A -> state L)
         (upd : init_arg P L -> state L -> A -> P * state L)
         (error : state L -> xnum) (tol : R)
         (i : init_arg P L) (args : A) (maxiter : Z)
         (unroll : unroll_option) (implicit_diff jit : bool),
    let sv := {| init_state := ini; update := upd; cond_fun := default_cond error tol |} in
    (1 <= maxiter)%Z ->
    get_unroll_option unroll implicit_diff jit || jit = true ->
    exists k, (1 <= k <= Z.to_nat maxiter)%nat /\
      (forall j, (1 <= j < k)%nat -> xgtb (error (snd (trajectory sv i args j))) tol = true) /\
      ((k < Z.to_nat maxiter)%nat ->
         error (snd (trajectory sv i args k)) = NaN \/
         xleb (error (snd (trajectory sv i args k))) tol = true) /\
      (forall r, run sv i args maxiter unroll implicit_diff jit r <->
        r = Ok (fst (trajectory sv i args k),
                where_state false (ini i args) (snd (trajectory sv i args k)))).
Proof.
  intros P L A ini upd error tol i args maxiter unroll implicit_diff jit sv Hm Hu.
  destruct (run_pos sv i args maxiter unroll implicit_diff jit Hm Hu) as (k & Hk & Hlt & Hend & Hr).
  exists k. split; [exact Hk|]. split; [exact Hlt|]. split; [|exact Hr].
  intros Hlt'. destruct Hend as [E|E]; [lia|]. apply xgtb_false_inv. exact E.
Qed.
Print Assumptions C02_run_tolerance.

(** C02: when the pattern of None leaves of the final state is covered by the
    initial one, the returned state is exactly the trajectory's state. *)
Theorem C02_state_unchanged :
  forall (L : Type) (s t : state L),
    Forall2 (fun x y => y = None -> x = None) s t -> where_state false s t = t.
Proof. intros L s t H. exact (where_state_false_same s t H). Qed.
Print Assumptions C02_state_unchanged.

(** C02, maxiter = 0 (on the Python and lax back-ends): the initial parameters
    and, where it has no None leaf that the first update fills, the initial state. *)
Theorem C02_run_zero :
  forall (P L A : Type) (sv : solver P L A) (i : init_arg P L) (args : A)
         (unroll : unroll_option) (implicit_diff jit : bool),
    get_unroll_option unroll implicit_diff jit || jit = true ->
    get_unroll_option unroll implicit_diff jit && jit = false ->
    Forall2 (fun x y => x = None -> y = None)
      (init_state sv i args) (snd (update sv i (init_state sv i args) args)) ->
    forall r, run sv i args 0 unroll implicit_diff jit r <->
      r = Ok (arg_params i, init_state sv i args).
Proof.
  intros P L A sv i args unroll im jit H1 H2 HF r.
  rewrite (run_zero sv i args unroll im jit H1 H2 r).
  rewrite (where_state_true_same _ _ HF). reflexivity.
Qed.
Print Assumptions C02_run_zero.

(** C02: the 'auto' unroll option never yields the rejected flag combination, and
    unrolls exactly when implicit differentiation or jit is off. *)
Theorem C02_auto_unroll :
  forall implicit_diff jit,
    get_unroll_option UnrollAuto implicit_diff jit || jit = true /\
    (get_unroll_option UnrollAuto implicit_diff jit = true <->
       implicit_diff = false \/ jit = false).
Proof. intros [|] [|]; simpl; split; try reflexivity; intuition congruence. Qed.
Print Assumptions C02_auto_unroll.

(** Non-vacuity: a solver that halves an integer error and stops early. *)
Definition toy_solver : solver nat nat unit :=
  {| init_state := fun i _ => [Some (arg_params i); None];
     update := fun i s _ => (Nat.div2 (arg_params i), [Some (Nat.div2 (arg_params i)); Some 7]);
     cond_fun := fun p s => match s with Some e :: _ => Nat.ltb 1 e | _ => false end |}.
Example C02_example :
  run toy_solver (Plain 20) tt 100 UnrollAuto true true (Ok (1, [Some 1; Some 7])).
Proof.
  unfold run. exists (Ok (1, [Some 1; Some 7])). split; [|reflexivity].
  apply while_loop_iff. reflexivity.
Qed.

(** C03. On a non-empty iterator and maxiter >= 0 exactly one result: the fold of
    [update] over the batches [ds] found at positions 1, 2, ..., in order; the
    number of batches is maxiter unless the iterator ends earlier; the iterator is
    left at the position after the last batch used. *)
Theorem C03_run_iterator :
  forall (P St A D : Type) (init_state : P -> A -> D -> St)
         (update : P -> St -> A -> D -> P * St) (src : nat -> option D)
         (p : P) (args : A) (maxiter : Z) (d0 : D),
    src 0%nat = Some d0 -> (0 <= maxiter)%Z ->
    exists ds : list D,
      (length ds <= Z.to_nat maxiter)%nat /\
      (forall i, (i < length ds)%nat -> src (1 + i)%nat = nth_error ds i) /\
      (length ds = Z.to_nat maxiter \/ src (1 + length ds)%nat = None) /\
      run_iterator init_state update src p args maxiter =
        Ok (fold_left (fun ps d => update (fst ps) (snd ps) args d) ds (p, init_state p args d0),
            (1 + length ds)%nat).
Proof.
  intros P St A D ini upd src p args maxiter d0 H0 Hm.
  destruct (islice_loop_spec upd src (Z.to_nat maxiter) 1%nat args (p, ini p args d0))
    as (ds & H1 & H2 & H3 & H4).
  exists ds. repeat split; try assumption.
  unfold run_iterator. rewrite H0.
  replace (maxiter <? 0)%Z with false by (symmetry; apply Z.ltb_ge; lia).
  rewrite H4. reflexivity.
Qed.
Print Assumptions C03_run_iterator.

(** C03: the only failures are an empty iterator and a negative maxiter. *)
Theorem C03_run_iterator_errors :
  forall (P St A D : Type) (init_state : P -> A -> D -> St)
         (update : P -> St -> A -> D -> P * St) (src : nat -> option D)
         (p : P) (args : A) (maxiter : Z),
    (exists e, run_iterator init_state update src p args maxiter = Err e) <->
    (src 0%nat = None \/ (maxiter < 0)%Z).
Proof.
  intros. unfold run_iterator. destruct (src 0%nat) as [d|] eqn:E.
  - destruct (Z.ltb_spec maxiter 0) as [H|H].
    + split; [intros _; right; exact H|intros _; eexists; reflexivity].
    + split; [intros (e & He); discriminate|intros [H'|H']; [discriminate|lia]].
  - split; [intros _; left; reflexivity|intros _; eexists; reflexivity].
Qed.
Print Assumptions C03_run_iterator_errors.

Example C03_example :
  let src := fun n => nth_error [10; 20; 30; 40] n in
  run_iterator (fun (p : nat) (_ : unit) d => [d]) (fun p s _ d => (p + d, s ++ [d])) src 0 tt 2
  = Ok ((50, [10; 20; 30]), 3%nat) /\ src 0 = Some 10.
Proof. split; reflexivity. Qed.

(** C04. The three callables agree with the user's objective and with each other,
    for the six calling conventions; aux is None exactly for the conventions
    without aux (see [user_aux]). *)
Theorem C04_make_funs_with_aux :
  forall (I V G X : Type) (gradient : (I -> V) -> I -> G) (u : user_fun I V G X),
    user_consistent u ->
    let '(f, g, vg) := make_funs_with_aux gradient u in
    forall i, f i = (user_value u i, user_aux u i) /\
              g i = (user_grad gradient u i, user_aux u i) /\
              vg i = ((user_value u i, user_aux u i), user_grad gradient u i).
Proof. intros. apply make_funs_with_aux_spec. assumption. Qed.
Print Assumptions C04_make_funs_with_aux.

Theorem C04_make_funs_without_aux :
  forall (I V G X : Type) (gradient : (I -> V) -> I -> G) (u : user_fun I V G X),
    user_consistent u ->
    let '(f, g, vg) := make_funs_without_aux gradient u in
    forall i, f i = user_value u i /\ g i = user_grad gradient u i /\
              vg i = (user_value u i, user_grad gradient u i).
Proof. intros. apply make_funs_without_aux_spec. assumption. Qed.
Print Assumptions C04_make_funs_without_aux.

Example C04_example :
  user_consistent (VGCallAux (fun i : nat => (i, 7)) (fun i => ((i, 7), 1))).
Proof. intros i. reflexivity. Qed.
