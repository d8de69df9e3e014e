(** C29: Anderson acceleration. *)
From Coq Require Import Reals List Lra Lia Bool Arith.
From Verif Require Import Prelude Vec Mat LinAlg Prox Zoom Loss LossProofs Run QuasiNewton QuasiNewtonProofs Anderson AndersonProofs.
Import ListNotations.
Open Scope R_scope.

(** After any number of updates: the history holds exactly the last m evaluated points and their
    residuals (the initial point and zeros in slots not used yet), the Gram matrix is that of the
    stored residuals, the parameters are the image of the last evaluated point and the error is
    the norm of its residual. *)
Theorem C29_history : forall A solve (f : vec -> vec * A) cfg xs sts K, (0 < an_history_size cfg)%nat ->
  anderson_steps solve f cfg xs sts K ->
  let m := an_history_size cfg in let F x := fst (f x) in let e := evaluated cfg sts in
  forall k, (k <= K)%nat ->
  an_iter (sts k) = k /\ an_num_fun_eval (sts k) = S k /\
  length (an_params (sts k)) = m /\ length (an_residuals (sts k)) = m /\
  gram_of (an_residuals (sts k)) (an_gram (sts k)) /\
  (forall j, (j < k)%nat -> (k <= j + m)%nat ->
     nth (j mod m) (an_params (sts k)) [] = e j /\ nth (j mod m) (an_residuals (sts k)) [] = vsub (F (e j)) (e j)) /\
  (forall i, (k <= i < m)%nat -> nth i (an_params (sts k)) [] = xs 0%nat /\ nth i (an_residuals (sts k)) [] = vzero (length (xs 0%nat))) /\
  ((k < K)%nat ->
     xs (S k) = F (e k) /\ an_error (sts (S k)) = Fin (norm2 (vsub (F (e k)) (e k))) /\ an_aux (sts (S k)) = snd (f (e k)) /\
     ((k < m)%nat \/ (k mod an_mixing_frequency cfg <> 0)%nat -> e k = xs k)).
Proof.
  intros A solve f cfg xs sts K Hm H m F e k Hk.
  destruct (run_state solve f cfg xs sts K Hm H k Hk) as (I1 & I2 & I3 & I4 & I5).
  assert (Ee : forall j, (j < K)%nat -> e j = es solve cfg xs sts j) by (intros j Hj; apply (evaluated_es solve f cfg xs sts K); auto).
  split; [exact I1|]. split; [exact I5|]. split; [rewrite I2; apply buf_length|]. split; [rewrite I3; apply buf_length|].
  split; [rewrite I4; apply gram_gram_of|]. split; [|split].
  - intros j Hj Hjk. rewrite I2, I3, Ee by lia. rewrite !buf_recent by (auto; lia). auto.
  - intros i Hi. rewrite I2, I3. rewrite !buf_unused by auto. auto.
  - intros Hk'. rewrite Ee by exact Hk'. destruct (run_step solve f cfg xs sts K Hm H k Hk') as (E1 & E2 & E3).
    split; [exact E1|]. split; [exact E2|]. split; [exact E3|]. intros Hc. apply (es_plain solve f cfg xs sts K Hm H k Hk Hc).
Qed.
Print Assumptions C29_history.

(** The weights computed from the Gram matrix of any residuals sum to one and minimise
    |sum w_i r_i|^2 + ridge |w|^2 among such weights; with ridge > 0 they are the only ones. *)
Theorem C29_weights : forall solve n rs G ridge, exact_solver solve -> Forall (fun r => length r = n) rs -> (0 < length rs)%nat ->
  gram_of rs G -> 0 < ridge ->
  let w := tl (minimize_residuals solve G ridge) in
  mixing_weights n ridge rs w /\ (forall w', mixing_weights n ridge rs w' -> w' = w).
Proof.
  intros solve n rs G ridge Hs Hrs Hm HG Hr. rewrite (gram_unique rs G HG). intros w.
  assert (Hw : mixing_weights n ridge rs w).
  { apply weights_correct; auto; [lra|]. apply (bordered_nonsingular n); assumption. }
  split; [exact Hw|]. intros w' Hw'. apply (weights_unique n rs ridge Hrs); assumption.
Qed.
Print Assumptions C29_weights.

(** Without ridge regularisation, the same provided the linear system is nonsingular. *)
Theorem C29_weights_no_ridge : forall solve n rs G, exact_solver solve -> Forall (fun r => length r = n) rs ->
  gram_of rs G -> nonsingular (S (length rs)) (bordered G 0) ->
  mixing_weights n 0 rs (tl (minimize_residuals solve G 0)).
Proof.
  intros solve n rs G Hs Hrs HG Hns. rewrite (gram_unique rs G HG) in *. apply weights_correct; auto. lra.
Qed.
Print Assumptions C29_weights_no_ridge.

(** An accelerated update evaluates the map at sum w_i (x_i + beta r_i) over the stored points with
    the minimising weights; the combined residual is no longer than any stored one up to ridge. *)
Theorem C29_mixing : forall A solve (f : vec -> vec * A) cfg n xs sts K, (0 < an_history_size cfg)%nat ->
  anderson_steps solve f cfg xs sts K -> (forall x, length x = n -> length (fst (f x)) = n) -> length (xs 0%nat) = n ->
  exact_solver solve -> 0 < an_ridge cfg ->
  forall k, (k < K)%nat -> (an_history_size cfg <= k)%nat -> (k mod an_mixing_frequency cfg = 0)%nat ->
  exists w, let pa := combination n (an_params (sts k)) w in let ra := combination n (an_residuals (sts k)) w in
    mixing_weights n (an_ridge cfg) (an_residuals (sts k)) w /\
    evaluated cfg sts k = vadd pa (smul (an_beta cfg) ra) /\
    (forall j, (k <= j + an_history_size cfg)%nat -> (j < k)%nat ->
       sqnorm ra <= sqnorm (vsub (fst (f (evaluated cfg sts j))) (evaluated cfg sts j)) + an_ridge cfg).
Proof.
  intros A solve f cfg n xs sts K Hm H HF Hx Hs Hr k Hk Hmk Hf.
  destruct (es_mix solve f cfg xs sts K n Hm H HF Hx k ltac:(lia) Hmk Hf Hs ltac:(lra) (gram_ns solve f cfg xs sts K n Hm H HF Hx k ltac:(lia) Hr)) as (w & Hw & E).
  exists w. cbv zeta. split; [exact Hw|]. rewrite (evaluated_es solve f cfg xs sts K Hm H k Hk). split; [exact E|].
  intros j Hj1 Hj2. destruct (run_shapes solve f cfg xs sts K n Hm H HF Hx k ltac:(lia)) as (_ & [S2 S3]).
  pose proof (Nat.mod_upper_bound j (an_history_size cfg) ltac:(lia)).
  pose proof (mixing_le n (an_ridge cfg) _ w (j mod an_history_size cfg) S3 ltac:(rewrite S2; lia) Hw) as L.
  destruct (C29_history A solve f cfg xs sts K Hm H k ltac:(lia)) as (_ & _ & _ & _ & _ & Hh & _).
  destruct (Hh j Hj2 Hj1) as [_ Er]. rewrite Er in L. unfold mixing_objective in L.
  assert (0 <= an_ridge cfg * sqnorm w) by (apply Rmult_le_pos; [lra|apply dot_self_nonneg]). lra.
Qed.
Print Assumptions C29_mixing.

(** For affine maps the combined residual is the residual of the combined point: an accelerated
    update is a damped fixed-point step from a point whose residual is no longer than any stored
    one, up to ridge. *)
Theorem C29_affine : forall A solve (f : vec -> vec * A) cfg n xs sts K, (0 < an_history_size cfg)%nat ->
  anderson_steps solve f cfg xs sts K -> is_affine n (fun x => fst (f x)) -> length (xs 0%nat) = n ->
  exact_solver solve -> 0 < an_ridge cfg ->
  forall k, (k < K)%nat -> (an_history_size cfg <= k)%nat -> (k mod an_mixing_frequency cfg = 0)%nat ->
  exists w pa, vsum w = 1 /\ pa = combination n (an_params (sts k)) w /\
    let F x := fst (f x) in
    evaluated cfg sts k = vadd pa (smul (an_beta cfg) (vsub (F pa) pa)) /\
    (forall j, (k <= j + an_history_size cfg)%nat -> (j < k)%nat ->
       sqnorm (vsub (F pa) pa) <= sqnorm (vsub (F (evaluated cfg sts j)) (evaluated cfg sts j)) + an_ridge cfg).
Proof.
  intros A solve f cfg n xs sts K Hm H (M & b & HM & Hb & HF) Hx Hs Hr k Hk Hmk Hf.
  assert (HL : forall x, length x = n -> length (fst (f x)) = n).
  { intros x Hxl. rewrite HF by exact Hxl. rewrite vadd_length, mvec_length, (proj1 HM). lia. }
  destruct (C29_mixing A solve f cfg n xs sts K Hm H HL Hx Hs Hr k Hk Hmk Hf) as (w & Hw & E & Hle). cbv zeta in *.
  exists w, (combination n (an_params (sts k)) w). destruct Hw as (Lw & Sw & _). split; [exact Sw|]. split; [reflexivity|]. cbv zeta.
  destruct (run_shapes solve f cfg xs sts K n Hm H HL Hx k ltac:(lia)) as ([P1 P2] & [S2 S3]).
  assert (Ec : combination n (an_residuals (sts k)) w = vsub (fst (f (combination n (an_params (sts k)) w))) (combination n (an_params (sts k)) w)).
  { unfold combination. rewrite HF by (apply (tvec_length (an_history_size cfg)); split; assumption).
    rewrite (affine_combination n M b (an_params (sts k)) (an_residuals (sts k)) w HM Hb P2).
    - rewrite Sw, smul_1. reflexivity.
    - unfold mat, vec in *. congruence.
    - unfold mat, vec in *. congruence.
    - intros i Hi. assert (Hi' : (i < an_history_size cfg)%nat) by (unfold mat, vec in *; lia). clear Hi. rename Hi' into Hi. destruct (run_state solve f cfg xs sts K Hm H k ltac:(lia)) as (_ & I2 & I3 & _).
      rewrite I2, I3. etransitivity; [apply (buf_pair _ (xs 0%nat) _ (es solve cfg xs sts) _ (fun z => vsub (fst (f z)) z) k i []); [exact Hi|lia|]|].
      + intros j Hj. reflexivity.
      + cbv beta. rewrite HF; [reflexivity|]. rewrite <- I2. apply (row_length (an_history_size cfg)); [split; assumption|exact Hi]. }
  rewrite Ec in E, Hle. split; [exact E|exact Hle].
Qed.
Print Assumptions C29_affine.

(** A run that starts at a fixed point stays there. *)
Theorem C29_stationary : forall A solve (f : vec -> vec * A) cfg n xs sts K, (0 < an_history_size cfg)%nat ->
  anderson_steps solve f cfg xs sts K -> (forall x, length x = n -> length (fst (f x)) = n) -> length (xs 0%nat) = n ->
  exact_solver solve -> 0 < an_ridge cfg -> fst (f (xs 0%nat)) = xs 0%nat ->
  forall k, (k <= K)%nat -> xs k = xs 0%nat.
Proof.
  intros A solve f cfg n xs sts K Hm H HF Hx Hs Hr Hfix.
  assert (G : forall k, (k <= K)%nat -> xs k = xs 0%nat /\ es solve cfg xs sts k = xs 0%nat /\ (forall j, (j < k)%nat -> es solve cfg xs sts j = xs 0%nat)).
  { induction k as [|k IH]; intros Hk.
    - split; [reflexivity|]. split; [|lia]. rewrite (es_plain solve f cfg xs sts K Hm H 0 Hk ltac:(left; lia)). reflexivity.
    - destruct (IH ltac:(lia)) as (E1 & E2 & E3). destruct (run_step solve f cfg xs sts K Hm H k ltac:(lia)) as (F1 & _).
      assert (EX : xs (S k) = xs 0%nat) by (rewrite F1, E2; exact Hfix).
      assert (EA : forall j, (j < S k)%nat -> es solve cfg xs sts j = xs 0%nat).
      { intros j Hj. destruct (Nat.eq_dec j k) as [->|]; [exact E2|apply E3; lia]. }
      split; [exact EX|]. split; [|exact EA].
      destruct (Nat.lt_ge_cases (S k) (an_history_size cfg)) as [C|C].
      { rewrite (es_plain solve f cfg xs sts K Hm H (S k) Hk) by auto. exact EX. }
      destruct (Nat.eq_dec (S k mod an_mixing_frequency cfg) 0) as [C2|C2].
      2:{ rewrite (es_plain solve f cfg xs sts K Hm H (S k) Hk) by auto. exact EX. }
      destruct (es_mix solve f cfg xs sts K n Hm H HF Hx (S k) Hk C C2 Hs ltac:(lra) (gram_ns solve f cfg xs sts K n Hm H HF Hx (S k) Hk Hr)) as (w & (Lw & Sw & _) & ->).
      destruct (run_state solve f cfg xs sts K Hm H (S k) Hk) as (_ & I2 & I3 & _).
      rewrite I2, I3 in *. rewrite buf_length in Lw.
      assert (B1 : buf (an_history_size cfg) (xs 0%nat) (es solve cfg xs sts) (S k) = repeat (xs 0%nat) (an_history_size cfg)) by (apply buf_const; exact EA).
      assert (B2 : buf (an_history_size cfg) (vzero (length (xs 0%nat))) (res solve f cfg xs sts) (S k) = repeat (vzero (length (xs 0%nat))) (an_history_size cfg)).
      { apply buf_const. intros j Hj. unfold res. rewrite EA, Hfix by exact Hj. apply vsub_self. }
      rewrite B1, B2. unfold combination. rewrite !tvec_repeat by (rewrite ?vzero_length; assumption). rewrite Sw.
      apply vec_eq_dot; [rewrite vadd_length, !smul_length, vzero_length; lia|]. intros z. vring. }
  intros k Hk. apply (G k Hk).
Qed.
Print Assumptions C29_stationary.

(** run: the result is the image of a point whose residual norm is the reported error; stopping
    early means that residual is within tol, so for a map with Lipschitz constant q the result's own
    residual is within q tol. *)
Theorem C29_run : forall A solve (f : vec -> vec * A) cfg x0 x st, (0 < an_history_size cfg)%nat -> (0 < an_maxiter cfg)%nat ->
  anderson_run solve f cfg x0 = (x, st) ->
  (1 <= an_iter st <= an_maxiter cfg)%nat /\
  exists e, x = fst (f e) /\ an_aux st = snd (f e) /\ an_error st = Fin (norm2 (vsub (fst (f e)) e)) /\
    ((an_iter st < an_maxiter cfg)%nat -> norm2 (vsub (fst (f e)) e) <= an_tol cfg /\
       (forall q, 0 <= q -> (forall a b, norm2 (vsub (fst (f a)) (fst (f b))) <= q * norm2 (vsub a b)) ->
          norm2 (vsub (fst (f x)) x) <= q * an_tol cfg)).
Proof.
  intros A solve f cfg x0 x st Hm Hmax H. unfold anderson_run in H.
  match type of H with run_loop _ ?c ?u ?i = _ => destruct (run_loop_spec (an_maxiter cfg) c u i Hmax) as (k & Hk & E & _ & Hs); set (upd := u) in *; set (ini := i) in * end.
  rewrite E in H. clear E.
  set (xs := fun j => fst (Nat.iter j upd ini)). set (sts := fun j => snd (Nat.iter j upd ini)).
  assert (HR : anderson_steps solve f cfg xs sts k).
  { split; [reflexivity|]. intros j _. unfold xs, sts. change (Nat.iter (S j) upd ini) with (upd (Nat.iter j upd ini)).
    destruct (Nat.iter j upd ini) as [a b]. cbn [fst snd]. fold upd. destruct (upd (a, b)). reflexivity. }
  destruct k as [|k]; [lia|].
  assert (Ex : x = xs (S k)) by (unfold xs; rewrite H; reflexivity). assert (Es : st = sts (S k)) by (unfold sts; rewrite H; reflexivity).
  destruct (run_state solve f cfg xs sts (S k) Hm HR (S k) ltac:(lia)) as (I1 & _).
  destruct (run_step solve f cfg xs sts (S k) Hm HR k ltac:(lia)) as (E1 & E2 & E3).
  rewrite Es, I1. split; [lia|]. exists (es solve cfg xs sts k). rewrite Ex. split; [exact E1|]. split; [exact E3|]. split; [exact E2|].
  intros Hlt. destruct Hs as [Hs|Hs]; [lia|]. rewrite H in Hs. cbn [snd] in Hs. rewrite Es, E2 in Hs. cbn [xgtb] in Hs. unfold res in Hs.
  match type of Hs with (if ?d then _ else _) = _ => destruct d; [discriminate|] end.
  set (e := es solve cfg xs sts k) in *. split; [lra|]. intros q Hq HL. rewrite E1. eapply Rle_trans; [apply HL|]. apply Rmult_le_compat_l; lra.
Qed.
Print Assumptions C29_run.

Lemma run_loop_one {V} n cond upd (i : V) : cond (upd i) = false -> run_loop (S n) cond upd i = upd i.
Proof. intros H. destruct n; simpl; [reflexivity|]. rewrite H. reflexivity. Qed.

(** The error is that of the previous point, not "of current estimate": after one update of the map
    x -> 2 x from 1 the parameters are 2, whose residual is 2, and the error is 1. *)
Definition dbl (x : vec) : vec * unit := (smul 2 x, tt).
Definition an_cfg : anderson_config :=
  {| an_history_size := 2; an_mixing_frequency := 1; an_beta := 1; an_maxiter := 10; an_tol := 1; an_ridge := 1 |}.
Theorem C29_error_refuted : forall solve,
  let (x, st) := anderson_run solve dbl an_cfg [1] in
  x = [2] /\ an_error st = Fin 1 /\ norm2 (vsub (fst (dbl x)) x) = 2.
Proof.
  intros solve.
  assert (E : exists st, anderson_update solve dbl an_cfg ([1], anderson_init dbl an_cfg [1]) = ([2], st) /\ an_error st = Fin 1).
  { unfold anderson_update, extrapolate. cbn -[sqrt]. eexists. split; [f_equal; f_equal; ring|]. cbn [an_error].
    f_equal. match goal with |- sqrt ?a = 1 => replace a with 1 by ring end. apply sqrt_1. }
  destruct E as (st & E & Est). unfold anderson_run.
  match goal with |- context [run_loop _ ?c ?u ?i] =>
    assert (E' : u i = ([2], st)) by exact E;
    assert (E2 : run_loop 10 c u i = ([2], st)) end.
  { rewrite (run_loop_one 9); [exact E'|]. rewrite E'. cbn [snd]. rewrite Est. cbn [xgtb an_tol an_cfg]. destruct (Rlt_dec 1 1); [lra|reflexivity]. }
  cbn [an_maxiter an_cfg] in *. rewrite E2. split; [reflexivity|]. split; [exact Est|].
  unfold norm2. cbn -[sqrt]. match goal with |- sqrt ?a = 2 => replace a with (2 * 2) by ring end. apply sqrt_square. lra.
Qed.
Print Assumptions C29_error_refuted.

(** AndersonWrapper keeps the same history over the inner solver's updates; its error is the inner
    solver's; after an extrapolation the inner solver restarts from a fresh state. *)
Theorem C29_wrapper : forall St solve (ini : vec -> St) upd err cfg xs sts K, (0 < an_history_size cfg)%nat ->
  wrapper_steps solve ini upd err cfg xs sts K ->
  let m := an_history_size cfg in let e := wrapper_evaluated cfg sts in
  forall k, (k <= K)%nat ->
  aw_iter (sts k) = k /\ aw_error (sts k) = err (aw_solver_state (sts k)) /\
  gram_of (aw_residuals (sts k)) (aw_gram (sts k)) /\
  length (aw_params (sts k)) = m /\ length (aw_residuals (sts k)) = m /\
  (forall j, (j < k)%nat -> (k <= j + m)%nat ->
     nth (j mod m) (aw_params (sts k)) [] = e j /\ nth (j mod m) (aw_residuals (sts k)) [] = vsub (xs (S j)) (e j)) /\
  ((k < K)%nat ->
     ((k < m)%nat \/ (k mod an_mixing_frequency cfg <> 0)%nat ->
        e k = xs k /\ (xs (S k), aw_solver_state (sts (S k))) = upd (xs k) (aw_solver_state (sts k))) /\
     ((m <= k)%nat -> (k mod an_mixing_frequency cfg = 0)%nat ->
        (xs (S k), aw_solver_state (sts (S k))) = upd (e k) (ini (e k)) /\
        e k = anderson_step solve (length (xs k)) (aw_params (sts k)) (aw_residuals (sts k)) (aw_gram (sts k)) (an_ridge cfg) (an_beta cfg))).
Proof.
  intros St solve ini upd err cfg xs sts K Hm H m e k Hk.
  destruct (wrapper_state_spec solve ini upd err cfg xs sts K Hm H k Hk) as (I1 & I2 & I3 & I4 & I5).
  assert (Ee : forall j, (j < K)%nat -> e j = wes solve ini cfg xs sts j).
  { intros j Hj. unfold e, wrapper_evaluated. destruct (wrapper_state_spec solve ini upd err cfg xs sts K Hm H (S j) Hj) as (_ & -> & _). apply buf_recent; lia. }
  split; [exact I1|]. split; [exact I5|]. split; [rewrite I4; apply gram_gram_of|].
  split; [rewrite I2; apply buf_length|]. split; [rewrite I3; apply buf_length|]. split.
  - intros j Hj Hjk. rewrite I2, I3, Ee by lia. rewrite !buf_recent by (auto; lia). split; [reflexivity|].
    destruct (wrapper_next solve ini upd err cfg xs sts K Hm H j ltac:(lia)) as [-> _]. reflexivity.
  - intros Hk'. destruct (wrapper_next solve ini upd err cfg xs sts K Hm H k Hk') as [N1 N2]. rewrite Ee by exact Hk'. rewrite N1, N2.
    unfold wnext. split.
    + intros Hc. assert (Ex : wrapper_extrapolate solve ini cfg (xs k) (sts k) = (xs k, aw_solver_state (sts k))).
      { unfold wrapper_extrapolate. rewrite I1. destruct (Nat.eqb_spec (k mod an_mixing_frequency cfg) 0); [|reflexivity].
        destruct (Nat.leb_spec (an_history_size cfg) k); [|reflexivity]. fold m in Hc. unfold m in Hc. lia. }
      unfold wes, wss. rewrite Ex. cbn [fst snd]. split; [reflexivity|]. destruct (upd (xs k) (aw_solver_state (sts k))). reflexivity.
    + intros Hc1 Hc2. unfold wes, wss, wrapper_extrapolate. rewrite I1.
      destruct (Nat.eqb_spec (k mod an_mixing_frequency cfg) 0); [|lia]. destruct (Nat.leb_spec (an_history_size cfg) k); [|unfold m in Hc1; lia].
      cbn [andb fst snd]. split; [|reflexivity]. match goal with |- (fst ?u, snd ?u) = _ => destruct u; reflexivity end.
Qed.
Print Assumptions C29_wrapper.

(** [run] of a constructed wrapper: its updates form a run as above, at most the inner solver's
    maxiter of them, and it stops early exactly when the inner solver's error is not above the
    inner solver's tol; by default every history_size-th update extrapolates. *)
Theorem C29_wrapper_run : forall St solve (ini : vec -> St) upd err inner_maxiter inner_tol m freq beta ridge x0,
  (0 < m)%nat -> (0 < inner_maxiter)%nat ->
  let cfg := wrapper_post_init inner_maxiter inner_tol m freq beta ridge in
  an_mixing_frequency cfg = match freq with None => m | Some f => f end /\
  exists xs sts K, xs 0%nat = x0 /\ wrapper_steps solve ini upd err cfg xs sts K /\
    wrapper_run solve ini upd err cfg x0 = (xs K, sts K) /\ (1 <= K <= inner_maxiter)%nat /\
    (forall k, (1 <= k < K)%nat -> xgtb (err (aw_solver_state (sts k))) inner_tol = true) /\
    ((K < inner_maxiter)%nat -> xgtb (err (aw_solver_state (sts K))) inner_tol = false).
Proof.
  intros St solve ini upd err mi t m freq beta ridge x0 Hm Hmi cfg. split; [reflexivity|].
  set (u := wrapper_update solve ini upd err cfg). set (i := (x0, wrapper_init ini err cfg x0)).
  exists (fun k => fst (Nat.iter k u i)), (fun k => snd (Nat.iter k u i)).
  destruct (run_loop_spec mi (fun s => xgtb (aw_error (snd s)) t) u i Hmi) as (K & HK & Er & Hc & Hs).
  exists K. split; [reflexivity|].
  assert (Hst : wrapper_steps solve ini upd err cfg (fun k => fst (Nat.iter k u i)) (fun k => snd (Nat.iter k u i)) K).
  { split; [reflexivity|]. intros k Hk. rewrite <- !surjective_pairing. reflexivity. }
  split; [exact Hst|]. split; [unfold wrapper_run; rewrite <- surjective_pairing; exact Er|]. split; [exact HK|].
  assert (He : forall k, (k <= K)%nat -> err (aw_solver_state (snd (Nat.iter k u i))) = aw_error (snd (Nat.iter k u i))).
  { intros k Hk. symmetry. apply (C29_wrapper St solve ini upd err cfg _ _ K Hm Hst k Hk). }
  split.
  - intros k Hk. cbv beta. rewrite He by lia. apply Hc. exact Hk.
  - intros Hlt. cbv beta. rewrite He by lia. destruct Hs as [->|Hs]; [lia|exact Hs].
Qed.
Print Assumptions C29_wrapper_run.
Example C29_wrapper_run_example :
  an_mixing_frequency (wrapper_post_init 10 (1 / 2) 5 None 1 (1 / 100)) = 5%nat /\
  an_mixing_frequency (wrapper_post_init 10 (1 / 2) 5 (Some 1%nat) 1 (1 / 100)) = 1%nat /\
  an_maxiter (wrapper_post_init 10 (1 / 2) 5 None 1 (1 / 100)) = 10%nat.
Proof. repeat split. Qed.

(** Histories shorter than two are rejected. *)
Theorem C29_constructor : forall cfg,
  anderson_post_init cfg = (if le_lt_dec 2 (an_history_size cfg) then Ok cfg else Err ValueError).
Proof.
  intros cfg. unfold anderson_post_init. destruct (Nat.ltb_spec (an_history_size cfg) 2), (le_lt_dec 2 (an_history_size cfg)); try reflexivity; lia.
Qed.
Print Assumptions C29_constructor.

(** A run with three updates (the third is accelerated) of an affine contraction, with Gaussian
    elimination as linear solver. *)
Definition half (x : vec) : vec * unit := (vadd (smul (/2) x) [1], tt).
Example C29_example :
  exact_solver gauss_solve /\
  (exists xs sts, anderson_steps gauss_solve half an_cfg xs sts 3 /\ xs 0%nat = [0]) /\
  is_affine 1 (fun x => fst (half x)) /\
  (forall x, length x = 1%nat -> length (fst (half x)) = 1%nat) /\ fst (half [2]) = [2] /\
  (0 < an_history_size an_cfg)%nat /\ 0 < an_ridge an_cfg /\ (2 mod an_mixing_frequency an_cfg = 0)%nat /\
  gram_of [[1]; [2]] [[1; 2]; [2; 4]].
Proof.
  split; [exact gauss_exact|]. split.
  { exists (fun j => fst (Nat.iter j (anderson_update gauss_solve half an_cfg) ([0], anderson_init half an_cfg [0]))).
    exists (fun j => snd (Nat.iter j (anderson_update gauss_solve half an_cfg) ([0], anderson_init half an_cfg [0]))).
    split; [|reflexivity]. split; [reflexivity|]. intros j _.
    change (Nat.iter (S j) (anderson_update gauss_solve half an_cfg) ([0], anderson_init half an_cfg [0])) with
      (anderson_update gauss_solve half an_cfg (Nat.iter j (anderson_update gauss_solve half an_cfg) ([0], anderson_init half an_cfg [0]))).
    destruct (Nat.iter j _ _) as [a b]. cbn [fst snd]. destruct (anderson_update _ _ _ (a, b)). reflexivity. }
  split.
  { exists [[/2]], [1]. split; [repeat constructor|]. split; [reflexivity|]. intros [|a [|? ?]] Hx; try discriminate. unfold half. cbn. f_equal. ring. }
  split; [intros [|a [|? ?]] Hx; try discriminate; reflexivity|]. split; [unfold half; cbn; f_equal; field|].
  split; [simpl; lia|]. split; [simpl; lra|]. split; [reflexivity|]. split; [repeat constructor|].
  intros [|[|i]] [|[|j]] Hi Hj; simpl in Hi, Hj; try lia; cbn; ring.
Qed.
