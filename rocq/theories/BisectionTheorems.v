(** C16: bisection. *)
From Coq Require Import Reals List ZArith Bool Lra Lia.
From Verif Require Import Prelude Loop Base BaseProofs Bisection BisectionProofs.
Import ListNotations.
Open Scope R_scope.

(** A valid bracket, as documented: opposite signs at the ends. *)
Definition valid_bracket (f : R -> R) (lower upper : R) : Prop :=
  (f lower < 0 /\ 0 <= f upper) \/ (0 < f lower /\ f upper <= 0).

(** Opposite (non-strict) signs at the two ends. *)
Definition sign_change (f : R -> R) (a b : R) : Prop :=
  (f a <= 0 /\ 0 <= f b) \/ (0 <= f a /\ f b <= 0).

(** C16: the invariant after any number k of updates, and the values reported by
    update number k+1. *)
Theorem C16_invariant : forall f lower upper k,
  lower <= upper -> valid_bracket f lower upper ->
  let st := snd (bis_iter f k (initial_state f lower upper)) in
  let '(params, st') := bis_iter f (S k) (initial_state f lower upper) in
  sign_change f (low st) (high st) /\
  high st - low st = (upper - lower) / 2 ^ k /\
  lower <= low st /\ high st <= upper /\
  params = (low st + high st) / 2 /\
  value st' = Fin (f params) /\ error st' = Fin (Rabs (f params)) /\
  iter_num st' = S k /\ num_fun_eval st' = (k + 3)%nat.
Proof.
  intros f lower upper k Hle Hv. cbv zeta.
  destruct (bis_iter f (S k) (initial_state f lower upper)) as [params st'] eqn:E.
  pose proof (bis_iter_mid f k (initial_state f lower upper)) as (M1 & M2 & M3 & _).
  pose proof (bis_iter_counts f (S k) (initial_state f lower upper)) as (N1 & N2).
  rewrite E in *. simpl fst in *. simpl snd in *.
  destruct (bracket_sign_cases (f lower) (f upper)) as [[S1 S2]|[[S1 S2]|[S1 S2]]].
  - destruct (bis_iter_inv f k (initial_state f lower upper)) as (I1 & I2 & I3 & I4 & I5 & _);
      simpl; rewrite ?S1; try lra.
    simpl in I1, I2. rewrite S1 in I1, I2. simpl in I3, I4, I5.
    repeat split; try assumption; try lra; [left; lra|simpl in N1; lia|simpl in N2; lia].
  - destruct (bis_iter_inv f k (initial_state f lower upper)) as (I1 & I2 & I3 & I4 & I5 & _);
      simpl; rewrite ?S1; try lra.
    simpl in I1, I2. rewrite S1 in I1, I2. simpl in I3, I4, I5.
    repeat split; try assumption; try lra; [right; lra|simpl in N1; lia|simpl in N2; lia].
  - exfalso. destruct S2 as [A B]. destruct Hv; [apply A|apply B]; assumption.
Qed.
Print Assumptions C16_invariant.

(** C16: for continuous f every bracket contains a root, hence the parameters
    returned by update k+1 are within (upper-lower)/2^(k+1) of one. *)
Theorem C16_root : forall f lower upper k,
  (forall x, continuity_pt f x) -> lower <= upper -> valid_bracket f lower upper ->
  exists z, lower <= z <= upper /\ f z = 0 /\
    Rabs (fst (bis_iter f (S k) (initial_state f lower upper)) - z) <= (upper - lower) / 2 ^ (S k).
Proof.
  intros f lower upper k Hc Hle Hv.
  pose proof (C16_invariant f lower upper k Hle Hv) as H. cbv zeta in H.
  destruct (bis_iter f (S k) (initial_state f lower upper)) as [params st'] eqn:E.
  destruct H as (Hs & Hw & Hl & Hh & Hp & _).
  set (st := snd (bis_iter f k (initial_state f lower upper))) in *.
  assert (Hp2 : 0 < 2 ^ k) by (apply pow_lt; lra).
  assert (Hww : 0 <= (upper - lower) / 2 ^ k).
  { unfold Rdiv. apply Rmult_le_pos; [lra|]. apply Rlt_le, Rinv_0_lt_compat; exact Hp2. }
  destruct (ivt_weak f (low st) (high st) Hc) as (z & Hz & Hfz); [lra|destruct Hs; nra|].
  exists z. split; [lra|]. split; [exact Hfz|]. simpl fst.
  assert (Ew : (upper - lower) / 2 ^ S k = (high st - low st) / 2) by (rewrite Hw; simpl; field; lra).
  rewrite Ew, Hp. apply Rabs_le. lra.
Qed.
Print Assumptions C16_root.

(** C16: the whole solver.  Either |f(params)| <= tol, or maxiter updates were
    made and params is within (upper-lower)/2^maxiter of a root. *)
Theorem C16_run : forall f lower upper tol maxiter check_bracket unroll jit,
  (forall x, continuity_pt f x) -> lower <= upper -> valid_bracket f lower upper ->
  (1 <= maxiter)%Z -> get_unroll_option unroll true jit || jit = true ->
  exists params st,
    (forall r, bis_run f lower upper tol maxiter check_bracket unroll jit r <-> r = Ok (params, [Some st])) /\
    error st = Fin (Rabs (f params)) /\ lower <= params <= upper /\
    (Rabs (f params) <= tol \/
     exists z, lower <= z <= upper /\ f z = 0 /\
       Rabs (params - z) <= (upper - lower) / 2 ^ (Z.to_nat maxiter)).
Proof.
  intros f lower upper tol maxiter cb unroll jit Hc Hle Hv Hm Hu.
  destruct (bis_run_spec f lower upper tol maxiter unroll jit Hm Hu) as (k & Hk & _ & Hend & Hr).
  destruct k as [|k]; [lia|].
  exists (fst (bis_iter f (S k) (initial_state f lower upper))),
         (snd (bis_iter f (S k) (initial_state f lower upper))).
  pose proof (C16_invariant f lower upper k Hle Hv) as H. cbv zeta in H.
  pose proof (C16_root f lower upper k Hc Hle Hv) as Hroot.
  destruct (bis_iter f (S k) (initial_state f lower upper)) as [params st'] eqn:E.
  simpl fst in *. simpl snd in *.
  destruct H as (Hs & Hw & Hl & Hh & Hp & Hval & Herr & _).
  assert (Hww : 0 <= (upper - lower) / 2 ^ k).
  { unfold Rdiv. apply Rmult_le_pos; [lra|]. apply Rlt_le, Rinv_0_lt_compat, pow_lt; lra. }
  split; [|split; [exact Herr|split; [lra|]]].
  - intros r. unfold bis_run, bis_init.
    destruct cb; [|apply Hr].
    destruct (Req_EM_T (sgn (initial_state f lower upper)) 0) as [E0|E0]; [|apply Hr].
    exfalso. simpl in E0. destruct (bracket_sign_cases (f lower) (f upper)) as [[S1 S2]|[[S1 S2]|[S1 [A B]]]]; try lra.
    destruct Hv; [apply A|apply B]; assumption.
  - destruct (Nat.eq_dec (S k) (Z.to_nat maxiter)) as [Ek|Ek].
    + right. rewrite <- Ek. exact Hroot.
    + left. apply Hend. lia.
Qed.
Print Assumptions C16_run.

(** C16: with check_bracket an invalid bracket raises ValueError, and only then. *)
Theorem C16_check_bracket : forall f lower upper tol maxiter unroll jit,
  (~ valid_bracket f lower upper <-> bis_init f lower upper true = Err ValueError) /\
  (~ valid_bracket f lower upper ->
     forall r, bis_run f lower upper tol maxiter true unroll jit r <-> r = Err ValueError).
Proof.
  intros f lower upper tol maxiter unroll jit.
  assert (A : ~ valid_bracket f lower upper <-> bis_init f lower upper true = Err ValueError).
  { unfold bis_init, valid_bracket.
    destruct (bracket_sign_cases (f lower) (f upper)) as [[S1 S2]|[[S1 S2]|[S1 S2]]];
      simpl sgn; rewrite S1; destruct (Req_EM_T _ 0) as [E|E]; try lra; split; intros H;
      try discriminate; try reflexivity; try (exfalso; apply H; tauto); intros [Hv|Hv]; tauto. }
  split; [exact A|]. intros Hn r. unfold bis_run. apply A in Hn. rewrite Hn. reflexivity.
Qed.
Print Assumptions C16_check_bracket.

(** Finding: the documented requirement is that a root be contained in
    [lower, upper]; a root at the lower end is nevertheless rejected. *)
Theorem C16_root_at_lower_refuted :
  exists f lower upper, lower < upper /\ (forall x, continuity_pt f x) /\ f lower = 0 /\
    0 < f upper /\ bis_init f lower upper true = Err ValueError.
Proof.
  exists (fun x => x), 0, 1. repeat split; try lra.
  - intros x. apply derivable_continuous_pt, derivable_pt_id.
  - apply (C16_check_bracket (fun x => x) 0 1 0 1 UnrollAuto true). unfold valid_bracket. lra.
Qed.
Print Assumptions C16_root_at_lower_refuted.

Example C16_example :
  valid_bracket (fun x => x * x - 2) 0 2 /\ (forall x, continuity_pt (fun x => x * x - 2) x) /\
  get_unroll_option UnrollAuto true true || true = true.
Proof.
  split; [left; lra|]. split; [|reflexivity].
  intros x. apply continuity_pt_minus.
  - apply continuity_pt_mult; apply derivable_continuous_pt, derivable_pt_id.
  - apply continuity_pt_const. intros a b. reflexivity.
Qed.

(** C55: has_aux=True is documented, but the initial bracket test compares the raw
    return value, so every function that returns (value, aux) raises TypeError. *)
Theorem C55_has_aux_refuted : forall (X : Type) (f : R -> R * X) lower upper,
  init_compares (fun t => Pair (fst (f t)) (snd (f t))) lower upper = Err TypeError.
Proof. reflexivity. Qed.
Print Assumptions C55_has_aux_refuted.
Theorem C55_no_aux : forall (f : R -> R) lower upper,
  init_compares (X := unit) (fun t => Number (f t)) lower upper = Ok tt.
Proof. reflexivity. Qed.
Print Assumptions C55_no_aux.
