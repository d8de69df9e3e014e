From Coq Require Import Reals List ZArith Bool Lra Lia.
From Verif Require Import Prelude Loop LoopProofs Base BaseProofs Bisection.
Import ListNotations.
Open Scope R_scope.

Section Proofs.
Variable f : R -> R.

Lemma bracket_sign_cases a b :
  (bracket_sign a b = 1 /\ a < 0 /\ 0 <= b) \/
  (bracket_sign a b = -1 /\ 0 < a /\ b <= 0) \/
  (bracket_sign a b = 0 /\ ~ (a < 0 /\ 0 <= b) /\ ~ (0 < a /\ b <= 0)).
Proof.
  unfold bracket_sign. destruct (Rlt_dec a 0), (Rle_dec 0 b), (Rlt_dec 0 a), (Rle_dec b 0);
    try (left; repeat split; lra); try (right; left; repeat split; lra); right; right; repeat split; lra.
Qed.

Lemma bis_iter_sgn k st : sgn (snd (bis_iter f k st)) = sgn st.
Proof. induction k as [|k IH]; simpl; auto. Qed.

Lemma bis_iter_inv k st :
  let s := sgn st in
  s * f (low st) <= 0 -> 0 <= s * f (high st) -> low st <= high st ->
  let st' := snd (bis_iter f k st) in
  s * f (low st') <= 0 /\ 0 <= s * f (high st') /\
  high st' - low st' = (high st - low st) / 2 ^ k /\
  low st <= low st' /\ high st' <= high st /\ low st' <= high st'.
Proof.
  cbv zeta. intros H1 H2 H3. induction k as [|k IH].
  - simpl. repeat split; try lra. 
  - destruct IH as (I1 & I2 & I3 & I4 & I5 & I6). simpl bis_iter.
    pose proof (bis_iter_sgn k st) as Hs. set (t := snd (bis_iter f k st)) in *.
    unfold bis_update. rewrite Hs.
    assert (Hp : 0 < 2 ^ k) by (apply pow_lt; lra).
    assert (E : (high st - low st) / 2 ^ S k = (high t - low t) / 2)
      by (rewrite I3; simpl; field; lra).
    destruct (Rlt_dec 0 (sgn st * f (0.5 * (high t + low t)))) as [H|H]; simpl low; simpl high;
      rewrite E; repeat split; lra.
Qed.

Lemma bis_iter_mid k st :
  fst (bis_iter f (S k) st) = (low (snd (bis_iter f k st)) + high (snd (bis_iter f k st))) / 2 /\
  value (snd (bis_iter f (S k) st)) = Fin (f (fst (bis_iter f (S k) st))) /\
  error (snd (bis_iter f (S k) st)) = Fin (Rabs (f (fst (bis_iter f (S k) st)))) /\
  (fst (bis_iter f (S k) st) = low (snd (bis_iter f (S k) st)) \/
   fst (bis_iter f (S k) st) = high (snd (bis_iter f (S k) st))).
Proof.
  simpl bis_iter. set (t := snd (bis_iter f k st)). unfold bis_update. simpl.
  split; [lra|]. split; [reflexivity|]. split.
  - f_equal. rewrite <- sqrt_Rsqr_abs. reflexivity.
  - destruct (Rlt_dec 0 (sgn t * f (0.5 * (high t + low t)))); auto.
Qed.

Lemma bis_iter_counts k st :
  iter_num (snd (bis_iter f k st)) = (k + iter_num st)%nat /\
  num_fun_eval (snd (bis_iter f k st)) = (k + num_fun_eval st)%nat.
Proof. induction k as [|k [I1 I2]]; simpl; [auto|]. rewrite I1, I2. auto. Qed.

(** Intermediate value theorem with non-strict signs. *)
Lemma ivt_weak g a b : (forall x, continuity_pt g x) -> a <= b -> g a * g b <= 0 ->
  exists z, a <= z <= b /\ g z = 0.
Proof.
  intros Hc Hab Hsign.
  destruct (IVT_cor g a b) as [z [Hz1 Hz2]]; [intros x; apply Hc|exact Hab|exact Hsign|].
  exists z. auto.
Qed.

Lemma bis_trajectory lower upper tol k :
  trajectory (bis_solver f lower upper tol) (Plain 0) tt k =
  (fst (bis_iter f k (initial_state f lower upper)), [Some (snd (bis_iter f k (initial_state f lower upper)))]).
Proof.
  induction k as [|k IH]; [reflexivity|].
  destruct k as [|k]; [reflexivity|].
  change (trajectory (bis_solver f lower upper tol) (Plain 0) tt (S (S k)))
    with (let '(p, s) := trajectory (bis_solver f lower upper tol) (Plain 0) tt (S k) in
          update (bis_solver f lower upper tol) (Plain p) s tt).
  rewrite IH. reflexivity.
Qed.

Lemma bis_run_spec lower upper tol maxiter unroll jit :
  (1 <= maxiter)%Z -> get_unroll_option unroll true jit || jit = true ->
  exists k, (1 <= k <= Z.to_nat maxiter)%nat /\
    (forall j, (1 <= j < k)%nat -> tol < Rabs (f (fst (bis_iter f j (initial_state f lower upper))))) /\
    ((k < Z.to_nat maxiter)%nat -> Rabs (f (fst (bis_iter f k (initial_state f lower upper)))) <= tol) /\
    forall r, run (bis_solver f lower upper tol) (Plain 0) tt maxiter unroll true jit r <->
      r = Ok (fst (bis_iter f k (initial_state f lower upper)),
              [Some (snd (bis_iter f k (initial_state f lower upper)))]).
Proof.
  intros Hm Hu.
  destruct (run_pos (bis_solver f lower upper tol) (Plain 0) tt maxiter unroll true jit Hm Hu)
    as (k & Hk & Hlt & Hend & Hr).
  exists k. split; [exact Hk|].
  assert (Hc : forall j, (1 <= j)%nat ->
     (cond (bis_solver f lower upper tol) (trajectory (bis_solver f lower upper tol) (Plain 0) tt j) = true
      <-> tol < Rabs (f (fst (bis_iter f j (initial_state f lower upper)))))).
  { intros j Hj. rewrite bis_trajectory. unfold cond. simpl. unfold default_cond, leaf_error.
    destruct j as [|j]; [lia|]. destruct (bis_iter_mid j (initial_state f lower upper)) as (_ & _ & E & _).
    rewrite E. unfold xgtb. destruct (Rlt_dec tol _) as [H|H]; split; intros; try assumption; try reflexivity; try discriminate; contradiction. }
  split; [intros j Hj; apply Hc; [lia|]; apply Hlt; exact Hj|]. split.
  - intros Hlt'. destruct Hend as [E|E]; [lia|].
    apply Rnot_lt_le. intros H. apply Hc in H; [|lia]. rewrite H in E. discriminate.
  - intros r. rewrite Hr, bis_trajectory. simpl. reflexivity.
Qed.
End Proofs.
