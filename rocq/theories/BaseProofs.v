From Coq Require Import Reals List ZArith Bool Lia FunctionalExtensionality.
From Verif Require Import Prelude Loop LoopProofs Base.
Import ListNotations.

Section RunProofs.
Context {P L A : Type}.
Variable sv : solver P L A.

Lemma trajectory_iter i args k :
  trajectory sv i args (S k) =
  Nat.iter k (body sv args) (update sv i (init_state sv i args) args).
Proof.
  induction k as [|k IH]; [reflexivity|].
  change (trajectory sv i args (S (S k)))
    with (let '(p, s) := trajectory sv i args (S k) in update sv (Plain p) s args).
  rewrite IH.
  set (q := Nat.iter k (body sv args) (update sv i (init_state sv i args) args)).
  change (Nat.iter (S k) (body sv args) (update sv i (init_state sv i args) args))
    with (body sv args q).
  destruct q. reflexivity.
Qed.

Lemma get_unroll_auto_ok implicit jit :
  get_unroll_option UnrollAuto implicit jit || jit = true.
Proof. destruct implicit, jit; reflexivity. Qed.

Lemma run_pos i args maxiter unroll implicit jit :
  (1 <= maxiter)%Z ->
  get_unroll_option unroll implicit jit || jit = true ->
  exists k,
    (1 <= k <= Z.to_nat maxiter)%nat /\
    (forall j, (1 <= j < k)%nat -> cond sv (trajectory sv i args j) = true) /\
    (k = Z.to_nat maxiter \/ cond sv (trajectory sv i args k) = false) /\
    forall r, run sv i args maxiter unroll implicit jit r <->
      r = Ok (fst (trajectory sv i args k),
              where_state false (init_state sv i args) (snd (trajectory sv i args k))).
Proof.
  intros Hm Huj. unfold run.
  destruct (while_loop_spec (cond sv) (body sv args)
              (update sv i (init_state sv i args) args) (maxiter - 1)
              (get_unroll_option unroll implicit jit) jit Huj) as (k & (Hle & Hlt & Hend) & Hr);
    [lia|].
  exists (S k). split; [lia|]. split; [|split].
  - intros j Hj. destruct j as [|j]; [lia|]. rewrite trajectory_iter. apply Hlt. lia.
  - destruct Hend as [->|Hf]; [left; lia|]. right. rewrite trajectory_iter. exact Hf.
  - replace (maxiter =? 0)%Z with false by (symmetry; apply Z.eqb_neq; lia).
    rewrite trajectory_iter. intros r. split.
    + intros (many & Hmany & ->). apply Hr in Hmany. subst many. reflexivity.
    + intros ->. eexists. split; [apply Hr; reflexivity|]. reflexivity.
Qed.

Lemma run_zero i args unroll implicit jit :
  get_unroll_option unroll implicit jit || jit = true ->
  (get_unroll_option unroll implicit jit && jit = false) ->
  forall r, run sv i args 0 unroll implicit jit r <->
    r = Ok (arg_params i,
            where_state true (init_state sv i args) (snd (update sv i (init_state sv i args) args))).
Proof.
  intros Huj Hx r. unfold run. simpl (0 =? 0)%Z. cbv iota.
  assert (E : forall many, while_loop (cond sv) (body sv args)
              (update sv i (init_state sv i args) args) (0 - 1)
              (get_unroll_option unroll implicit jit) jit many
            <-> many = Ok (update sv i (init_state sv i args) args)).
  { intros many. rewrite while_loop_iff. unfold loop_value. simpl (Z.to_nat (0 - 1)).
    destruct (get_unroll_option unroll implicit jit), jit; simpl in *; try discriminate; reflexivity. }
  split.
  - intros (many & Hmany & ->). apply E in Hmany. subst many. reflexivity.
  - intros ->. eexists. split; [apply E; reflexivity|]. reflexivity.
Qed.

(** Leaves of the returned state when at least one update was requested. *)
Lemma where_state_false_nth (s t : state L) n d d' :
  length s = length t -> (n < length s)%nat ->
  nth n (where_state false s t) d =
    match nth n t d' with Some b => Some b | None => nth n s d' end.
Proof.
  unfold where_state. revert t n. induction s as [|x s IH]; intros t n Hl Hn.
  - simpl in Hn. lia.
  - destruct t as [|y t]; [discriminate|]. destruct n as [|n]; simpl.
    + destruct x, y; reflexivity.
    + apply IH; simpl in *; lia.
Qed.

Lemma where_state_false_some (s t : state L) :
  length s = length t -> Forall (fun l => l <> None) t -> where_state false s t = t.
Proof.
  unfold where_state. revert t. induction s as [|x s IH]; intros t Hl Ht.
  - destruct t; [reflexivity|discriminate].
  - destruct t as [|y t]; [discriminate|]. inversion Ht; subst. simpl.
    rewrite IH by (auto; simpl in *; lia). destruct x, y; try reflexivity; congruence.
Qed.

(** If the initial state has None exactly where the final one has, nothing changes. *)
Lemma where_state_false_same (s t : state L) :
  Forall2 (fun x y => y = None -> x = None) s t -> where_state false s t = t.
Proof.
  unfold where_state. induction 1 as [|x y s t H _ IH]; [reflexivity|].
  simpl. rewrite IH. destruct x, y; try reflexivity. specialize (H eq_refl). discriminate.
Qed.

Lemma where_state_true_same (s t : state L) :
  Forall2 (fun x y => x = None -> y = None) s t -> where_state true s t = s.
Proof.
  unfold where_state. induction 1 as [|x y s t H _ IH]; [reflexivity|].
  simpl. rewrite IH. destruct x, y; try reflexivity. specialize (H eq_refl). discriminate.
Qed.
End RunProofs.

Section IterProofs.
Context {P St A D : Type}.
Variable init_state : P -> A -> D -> St.
Variable update : P -> St -> A -> D -> P * St.
Variable src : nat -> option D.

Lemma islice_loop_spec n : forall pos args ps,
  exists ds, (length ds <= n)%nat /\
    (forall i, (i < length ds)%nat -> src (pos + i) = nth_error ds i) /\
    (length ds = n \/ src (pos + length ds) = None) /\
    islice_loop update src n pos args ps =
      (fold_left (fun ps d => update (fst ps) (snd ps) args d) ds ps, pos + length ds)%nat.
Proof.
  induction n as [|n IH]; intros pos args ps; simpl.
  - exists []. simpl. split; [lia|]. split; [intros; lia|]. split; [left; reflexivity|].
    f_equal. lia.
  - destruct (src pos) as [d|] eqn:Hd.
    + destruct (IH (S pos) args (update (fst ps) (snd ps) args d)) as (ds & Hl & Hnth & Hend & He).
      exists (d :: ds). simpl. split; [lia|]. split; [|split].
      * intros i Hi. destruct i as [|i]; simpl.
        -- rewrite Nat.add_0_r. exact Hd.
        -- rewrite <- Hnth by lia. f_equal. lia.
      * destruct Hend as [<-|Hn]; [left; reflexivity|]. right. rewrite <- Hn. f_equal. lia.
      * rewrite He. f_equal. lia.
    + exists []. simpl. split; [lia|]. split; [intros; lia|]. split.
      * right. rewrite Nat.add_0_r. exact Hd.
      * f_equal. lia.
Qed.
End IterProofs.

Section MakeFunsProofs.
Context {I V G X : Type}.
Variable gradient : (I -> V) -> I -> G.

Lemma make_funs_with_aux_spec (u : user_fun I V G X) :
  user_consistent u ->
  let '(f, g, vg) := make_funs_with_aux gradient u in
  forall i, f i = (user_value u i, user_aux u i) /\
            g i = (user_grad gradient u i, user_aux u i) /\
            vg i = ((user_value u i, user_aux u i), user_grad gradient u i).
Proof.
  destruct u as [f|f|f|f|f vg|f vg]; simpl; intros Hc i.
  - unfold add_aux_to_value_and_grad. destruct (f i); auto.
  - unfold inj_vg. destruct (f i) as [[v a] g]; auto.
  - unfold jax_value_and_grad_aux, add_aux_to_fun. auto.
  - unfold jax_value_and_grad_aux, inj_fun.
    replace (fun j : I => fst (let '(v, a) := f j in (v, Some a))) with (fun j => fst (f j))
      by (apply functional_extensionality; intros j; destruct (f j); reflexivity).
    destruct (f i); auto.
  - unfold add_aux_to_fun, add_aux_to_value_and_grad. specialize (Hc i).
    destruct (vg i) as [v g]. simpl in *. subst. auto.
  - unfold inj_fun, inj_vg. specialize (Hc i).
    destruct (vg i) as [[v a] g]. simpl in *. subst. rewrite <- Hc. auto.
Qed.

Lemma make_funs_without_aux_spec (u : user_fun I V G X) :
  user_consistent u ->
  let '(f, g, vg) := make_funs_without_aux gradient u in
  forall i, f i = user_value u i /\ g i = user_grad gradient u i /\
            vg i = (user_value u i, user_grad gradient u i).
Proof.
  destruct u as [f|f|f|f|f vg|f vg]; simpl; intros Hc i.
  - unfold add_aux_to_value_and_grad. destruct (f i); auto.
  - destruct (f i) as [[v a] g]; auto.
  - auto.
  - unfold jax_value_and_grad_aux. destruct (f i); auto.
  - specialize (Hc i). destruct (vg i) as [v g]. simpl in *. subst. auto.
  - specialize (Hc i). destruct (vg i) as [[v a] g]. simpl in *. rewrite <- Hc. auto.
Qed.
End MakeFunsProofs.
