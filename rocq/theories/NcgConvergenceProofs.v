From Coq Require Import String.
From Coq Require Import Reals List Lra Lia Bool Arith Psatz.
From Verif Require Import Prelude Vec Mat LinAlg Zoom Run LinSolveProofs ImplicitDiffTheorems QuasiNewton QuasiNewtonProofs Convergence NonlinearCG NonlinearCGTheorems NcgConvergence.
Import ListNotations.
Local Open Scope string_scope.
Open Scope R_scope.

(** ** One step *)
Section Zoutendijk.
Variables (n : nat) (L : R) (f : vec -> R) (gradf : vec -> vec).
Hypothesis HL : lipschitz_gradient n L gradf.
Lemma lip_slope x d t : length x = n -> length d = n -> 0 <= t ->
  dot (gradf (vadd x (smul t d))) d - dot (gradf x) d <= L * t * dot d d.
Proof.
  destruct HL as (L0 & Hd & A). intros Hx Hdd Ht. pose proof (A x (vadd x (smul t d)) Hx (vadd_smul_length n _ _ _ Hx Hdd)) as B.
  set (y := vsub (gradf (vadd x (smul t d))) (gradf x)) in *.
  assert (E : dist2 (vadd x (smul t d)) x = t * t * dot d d) by vring. rewrite E in B.
  assert (Ey : dot (gradf (vadd x (smul t d))) d - dot (gradf x) d = dot y d) by (unfold y; vring). rewrite Ey.
  pose proof (cauchy_schwarz_sq y d) as CS. pose proof (dot_self_nonneg d) as D0.
  assert (P : 0 <= L * t * dot d d) by (apply Rmult_le_pos; [nra|exact D0]).
  destruct (Rle_lt_dec (dot y d) (L * t * dot d d)) as [Q|Q]; [exact Q|exfalso].
  assert ((L * t * dot d d) * (L * t * dot d d) < dot y d * dot y d) by nra.
  assert (dot y y * dot d d <= L * L * (t * t * dot d d) * dot d d) by (apply Rmult_le_compat_r; assumption).
  nra.
Qed.
(** Wolfe's conditions: the decrease is at least a multiple of the squared slope. *)
Lemma wolfe_decrease c1 c2 x d t : length x = n -> length d = n -> 0 < c1 -> c2 < 1 -> dot (gradf x) d <= 0 -> 0 < t ->
  f (vadd x (smul t d)) <= f x + c1 * t * dot (gradf x) d -> c2 * dot (gradf x) d <= dot (gradf (vadd x (smul t d))) d ->
  c1 * (1 - c2) / L * (dot (gradf x) d * dot (gradf x) d / dot d d) <= f x - f (vadd x (smul t d)).
Proof.
  intros Hx Hd Hc1 Hc2 Hs Ht A W. assert (L0 : 0 < L) by (destruct HL; assumption).
  pose proof (lip_slope x d t Hx Hd ltac:(lra)) as S. set (p := dot (gradf x) d) in *. pose proof (dot_self_nonneg d) as D0.
  assert (Q : (1 - c2) * - p <= L * t * dot d d) by lra.
  assert (G : c1 * t * - p <= f x - f (vadd x (smul t d))) by lra.
  destruct (Req_dec (dot d d) 0) as [Z|Z].
  - assert (P0 : p = 0). { unfold p. rewrite (dot_self_zero d Z). apply dot_vzero_r. }
    rewrite P0 in *. unfold Rdiv. rewrite !Rmult_0_l, Rmult_0_r. lra.
  - eapply Rle_trans; [|exact G]. assert (D1 : 0 < dot d d) by lra.
    apply (Rmult_le_reg_r (L * dot d d)); [nra|].
    replace (c1 * (1 - c2) / L * (p * p / dot d d) * (L * dot d d)) with (c1 * - p * ((1 - c2) * - p)) by (field; lra).
    replace (c1 * t * - p * (L * dot d d)) with (c1 * - p * (L * t * dot d d)) by ring.
    apply Rmult_le_compat_l; [|exact Q]. apply Rmult_le_pos; lra.
Qed.
End Zoutendijk.

(** ** The iterates *)
Section Seq.
Variables (n : nat) (f : vec -> R) (gradf : vec -> vec) (ls : line_search) (cfg : ncg_config).
Hypothesis Hdim : grad_dim n gradf.
Hypothesis Hls : ls_consistent_pos f gradf ls.
Hypothesis Hmax : 0 < c_max_stepsize cfg.
Hypothesis Hinc : 0 < c_increase_factor cfg.
Variables (xs : nat -> vec) (sts : nat -> ncg_state) (K : nat).
Hypothesis Hx0 : length (xs 0%nat) = n.
Hypothesis Hseq : ncg_seq f gradf ls cfg xs sts K.
Hypothesis Hpos : forall k, (S k < K)%nat -> 0 < c_stepsize (sts (S k)).

Lemma seq_init : sts 0%nat = ncg_init f gradf cfg (xs 0%nat).
Proof. pose proof (Hseq 0%nat ltac:(lia)) as H. simpl in H. injection H as H. symmetry. exact H. Qed.
Lemma seq_update k : (k < K)%nat -> ncg_update ls cfg (xs k, sts k) = Ok (xs (S k), sts (S k)).
Proof. intros Hk. pose proof (Hseq (S k) ltac:(lia)) as H. cbn [ncg_after] in H. rewrite (Hseq k) in H by lia. exact H. Qed.
Lemma seq_pos k : (k < K)%nat -> 0 < c_stepsize (sts k).
Proof. intros Hk. destruct k as [|k]; [rewrite seq_init; exact Hmax|apply Hpos; exact Hk]. Qed.
Lemma init_stepsize_pos s a b c t s0 : 0 < a -> 0 < c -> 0 < t -> init_stepsize s a b c t = Ok s0 -> 0 < s0.
Proof.
  intros Ha Hc Ht. unfold init_stepsize. destruct (string_dec s "max"); [intros H; injection H as <-; exact Ha|].
  destruct (string_dec s "current"); [intros H; injection H as <-; exact Ht|]. destruct (string_dec s "increase"); [|discriminate].
  intros H. injection H as <-. destruct (Rleb t b); [exact Ha|apply Rmult_lt_0_compat; assumption].
Qed.
Lemma seq_step k : (k < K)%nat -> c_value (sts k) = f (xs k) -> c_grad (sts k) = gradf (xs k) ->
  let t := c_stepsize (sts (S k)) in let d := searched_direction cfg (sts k) in
  xs (S k) = vadd (xs k) (smul t d) /\ c_value (sts (S k)) = f (xs (S k)) /\ c_grad (sts (S k)) = gradf (xs (S k)) /\
  c_error (sts (S k)) = Fin (norm2 (gradf (xs k))) /\ c_iter (sts (S k)) = S (c_iter (sts k)) /\
  (exists s0, 0 < s0 /\ t = ls_step (ls s0 (xs k) (f (xs k)) (gradf (xs k)) d)) /\
  exists beta, 0 <= beta /\ ncg_beta (c_method cfg) (gradf (xs k)) (gradf (xs (S k))) (c_direction (sts k)) = Ok beta /\
     c_direction (sts (S k)) = vadd (smul (-1) (gradf (xs (S k)))) (smul beta (c_direction (sts k))).
Proof.
  intros Hk I3 I4. cbv zeta. pose proof (seq_update k Hk) as U.
  destruct (update_inv ls cfg _ _ _ _ U) as (s0 & b & d & Edd & Es & Eb & Ex & Est).
  assert (Ed : d = searched_direction cfg (sts k)) by exact Edd. clear Edd. subst d. rewrite I3, I4 in *.
  pose proof (init_stepsize_pos _ _ _ _ _ _ Hmax Hinc (seq_pos k Hk) Es) as S0.
  destruct (Hls s0 (xs k) (f (xs k)) (gradf (xs k)) (searched_direction cfg (sts k)) S0) as (Ep & Ev & Eg).
  rewrite <- Ex in *. rewrite Est. cbn [c_stepsize c_value c_grad c_error c_iter c_direction]. rewrite Eg in *.
  split; [exact Ep|]. split; [exact Ev|]. split; [reflexivity|]. split; [reflexivity|]. split; [reflexivity|].
  split; [exists s0; auto|]. exists b. split; [|auto]. exact (proj1 (proj2 (proj2 (C47_beta _ _ _ _))) _ Eb).
Qed.
Lemma seq_inv k : (k <= K)%nat -> length (xs k) = n /\ length (c_direction (sts k)) = n /\ c_value (sts k) = f (xs k) /\ c_grad (sts k) = gradf (xs k).
Proof.
  induction k as [|k IH]; intros Hk.
  - rewrite seq_init. cbn [ncg_init c_direction c_value c_grad]. rewrite smul_length. auto using Hdim.
  - destruct (IH ltac:(lia)) as (I1 & I2 & I3 & I4). destruct (seq_step k Hk I3 I4) as (Ex & V & G & _ & _ & _ & (beta & _ & _ & Ed)).
    assert (Ld : length (searched_direction cfg (sts k)) = n).
    { unfold searched_direction. destruct (c_linesearch cfg) as [s|]; [destruct (string_dec s "backtracking")|]; auto. rewrite smul_length, I4. apply Hdim. exact I1. }
    assert (L1 : length (xs (S k)) = n) by (rewrite Ex; apply vadd_smul_length; assumption).
    split; [exact L1|]. split; [|split; assumption]. rewrite Ed. apply vadd_smul_length; [rewrite smul_length; apply Hdim; exact L1|exact I2].
Qed.
Lemma seq_searched_len k : (k <= K)%nat -> length (searched_direction cfg (sts k)) = n.
Proof.
  intros Hk. destruct (seq_inv k Hk) as (I1 & I2 & _ & I4). unfold searched_direction.
  destruct (c_linesearch cfg) as [s|]; [destruct (string_dec s "backtracking")|]; auto. rewrite smul_length, I4. apply Hdim. exact I1.
Qed.
Lemma seq_next k : (k < K)%nat ->
  let t := c_stepsize (sts (S k)) in let d := searched_direction cfg (sts k) in
  xs (S k) = vadd (xs k) (smul t d) /\
  c_error (sts (S k)) = Fin (norm2 (gradf (xs k))) /\ c_iter (sts (S k)) = S (c_iter (sts k)) /\
  (exists s0, 0 < s0 /\ t = ls_step (ls s0 (xs k) (f (xs k)) (gradf (xs k)) d)) /\
  exists beta, 0 <= beta /\ ncg_beta (c_method cfg) (gradf (xs k)) (gradf (xs (S k))) (c_direction (sts k)) = Ok beta /\
     c_direction (sts (S k)) = vadd (smul (-1) (gradf (xs (S k)))) (smul beta (c_direction (sts k))).
Proof.
  intros Hk. destruct (seq_inv k ltac:(lia)) as (_ & _ & I3 & I4). destruct (seq_step k Hk I3 I4) as (A & _ & _ & B & C & D & E). cbv zeta. auto 10.
Qed.

(** Fletcher-Reeves with a curvature constant below 1/2: Al-Baali's bounds. *)
Lemma fr_beta g g' d beta : ncg_beta "fletcher-reeves" g g' d = Ok beta -> 0 <= beta /\ beta * clamp_below (dot g g) = dot g' g' /\ dot g g <= clamp_below (dot g g) /\ 0 < clamp_below (dot g g).
Proof.
  unfold ncg_beta. simpl. intros E. injection E as <-. pose proof (clamp_ge (dot g g)) as C1. pose proof eps_pos as E0.
  pose proof (dot_self_nonneg g') as P. assert (C0 : 0 < clamp_below (dot g g)) by lra.
  assert (Q : 0 <= dot g' g' / clamp_below (dot g g)) by (apply Rmult_le_pos; [exact P|left; apply Rinv_0_lt_compat; exact C0]).
  rewrite relu_id by exact Q. split; [exact Q|]. split; [field; lra|]. split; [|exact C0].
  unfold clamp_below, Rleb. destruct (Rle_dec ncg_eps (dot g g)); lra.
Qed.
Variables (c1 c2 : R).
Hypothesis Hm : c_method cfg = "fletcher-reeves".
Hypothesis Hb : forall st, searched_direction cfg st = c_direction st.
Hypothesis Hc2 : 0 < c2 < 1 / 2.
Let sg := (1 - 2 * c2) / (1 - c2).
Lemma fr_sigma : 0 < sg /\ / (1 - c2) = 2 - sg /\ c2 / (1 - c2) = 1 - sg.
Proof. unfold sg. split; [apply Rdiv_lt_0_compat; lra|]. split; field; lra. Qed.
Lemma fr_bounds k : (k <= K)%nat ->
  (forall j, (j < k)%nat -> Rabs (dot (gradf (xs (S j))) (c_direction (sts j))) <= c2 * Rabs (dot (gradf (xs j)) (c_direction (sts j)))) ->
  let G := dot (gradf (xs k)) (gradf (xs k)) in
  - (2 - sg) * G <= dot (gradf (xs k)) (c_direction (sts k)) <= - sg * G.
Proof.
  destruct fr_sigma as (S0 & S1 & S2). induction k as [|k IH]; intros Hk HW; cbv zeta.
  - rewrite seq_init. cbn [ncg_init c_direction]. rewrite dot_smul_r. pose proof (dot_self_nonneg (gradf (xs 0%nat))).
    assert (sg <= 1). { apply (Rmult_le_reg_r (1 - c2)); [lra|]. unfold sg. replace ((1 - 2 * c2) / (1 - c2) * (1 - c2)) with (1 - 2 * c2) by (field; lra). lra. }
    split; nra.
  - specialize (IH ltac:(lia) ltac:(intros j Hj; apply HW; lia)). cbv zeta in IH.
    destruct (seq_next k ltac:(lia)) as (_ & _ & _ & _ & (beta & B0 & Eb & Ed)). rewrite Hm in Eb.
    destruct (fr_beta _ _ _ _ Eb) as (_ & B1 & B2 & B3). pose proof (HW k ltac:(lia)) as W.
    set (g' := gradf (xs (S k))) in *. set (g := gradf (xs k)) in *. set (d := c_direction (sts k)) in *. set (C := clamp_below (dot g g)) in *.
    rewrite Ed, dot_vadd_r, !dot_smul_r. set (u := dot g' d) in *. set (p := dot g d) in *.
    assert (Pb : Rabs p <= / (1 - c2) * C).
    { pose proof (dot_self_nonneg g) as G0. rewrite S1. rewrite Rabs_left1 by nra. assert ((2 - sg) * dot g g <= (2 - sg) * C) by (apply Rmult_le_compat_l; [|exact B2]; rewrite <- S1; left; apply Rinv_0_lt_compat; lra). lra. }
    assert (Ub : Rabs u <= (1 - sg) * C).
    { rewrite <- S2. eapply Rle_trans; [exact W|]. replace (c2 / (1 - c2) * C) with (c2 * (/ (1 - c2) * C)) by (field; lra). apply Rmult_le_compat_l; [lra|exact Pb]. }
    assert (BU : Rabs (beta * u) <= (1 - sg) * dot g' g').
    { rewrite Rabs_mult, (Rabs_pos_eq beta B0), <- B1. replace ((1 - sg) * (beta * C)) with (beta * ((1 - sg) * C)) by ring. apply Rmult_le_compat_l; assumption. }
    pose proof (Rle_abs (beta * u)) as R1. pose proof (Rle_abs (- (beta * u))) as R2. rewrite Rabs_Ropp in R2. lra.
Qed.
Let Cc := (1 + c2) / (1 - c2).
Lemma fr_cc : 1 <= Cc /\ Cc = 1 + 2 * (1 - sg).
Proof. unfold Cc, sg. split; [|field; lra]. apply (Rmult_le_reg_r (1 - c2)); [lra|]. replace ((1 + c2) / (1 - c2) * (1 - c2)) with (1 + c2) by (field; lra). lra. Qed.
(** Growth of the directions while the gradients stay above eps. *)
Lemma fr_direction k eps : (k <= K)%nat -> 0 < eps ->
  (forall j, (j < k)%nat -> Rabs (dot (gradf (xs (S j))) (c_direction (sts j))) <= c2 * Rabs (dot (gradf (xs j)) (c_direction (sts j)))) ->
  (forall j, (j <= k)%nat -> eps * eps <= dot (gradf (xs j)) (gradf (xs j))) ->
  let G := dot (gradf (xs k)) (gradf (xs k)) in
  eps * eps * dot (c_direction (sts k)) (c_direction (sts k)) <= Cc * INR (S k) * (G * G).
Proof.
  intros Hk He. assert (E2 : 0 < eps * eps) by nra. destruct fr_cc as (Q1 & Q2). revert Hk. induction k as [|k IH]; intros Hk HW HG; cbv zeta.
  - rewrite seq_init. cbn [ncg_init c_direction]. rewrite dot_smul_l, dot_smul_r. pose proof (HG 0%nat ltac:(lia)) as G0. simpl INR.
    set (g := dot (gradf (xs 0%nat)) (gradf (xs 0%nat))) in *. replace (-1 * (-1 * g)) with g by ring.
    assert (eps * eps * g <= g * g) by (apply Rmult_le_compat_r; lra). assert (1 * (g * g) <= Cc * (g * g)) by (apply Rmult_le_compat_r; nra). lra.
  - specialize (IH ltac:(lia) ltac:(intros j Hj; apply HW; lia) ltac:(intros j Hj; apply HG; lia)). cbv zeta in IH.
    pose proof (fr_bounds k ltac:(lia) ltac:(intros j Hj; apply HW; lia)) as Bd. cbv zeta in Bd.
    destruct (seq_next k ltac:(lia)) as (_ & _ & _ & _ & (beta & B0 & Eb & Ed)). rewrite Hm in Eb.
    destruct (fr_beta _ _ _ _ Eb) as (_ & B1 & B2 & B3). pose proof (HW k ltac:(lia)) as W. pose proof (HG k ltac:(lia)) as Gk. pose proof (HG (S k) ltac:(lia)) as Gk'.
    destruct fr_sigma as (S0 & S1 & S2).
    rewrite Ed. set (g' := gradf (xs (S k))) in *. set (g := gradf (xs k)) in *. set (d := c_direction (sts k)) in *. set (C := clamp_below (dot g g)) in *.
    set (u := dot g' d) in *. set (p := dot g d) in *. set (a' := dot g' g') in *. set (a := dot g g) in *.
    assert (Ex : dot (vadd (smul (-1) g') (smul beta d)) (vadd (smul (-1) g') (smul beta d)) = a' - 2 * (beta * u) + beta * beta * dot d d) by (unfold a', u; vring).
    rewrite Ex.
    assert (Pb : Rabs p <= / (1 - c2) * C).
    { rewrite S1. rewrite Rabs_left1 by nra. assert ((2 - sg) * a <= (2 - sg) * C) by (apply Rmult_le_compat_l; [|exact B2]; rewrite <- S1; left; apply Rinv_0_lt_compat; lra). lra. }
    assert (Ub : Rabs u <= (1 - sg) * C).
    { rewrite <- S2. eapply Rle_trans; [exact W|]. replace (c2 / (1 - c2) * C) with (c2 * (/ (1 - c2) * C)) by (field; lra). apply Rmult_le_compat_l; [lra|exact Pb]. }
    assert (BU : - (beta * u) <= (1 - sg) * a').
    { eapply Rle_trans; [apply (Rle_trans _ (Rabs (beta * u))); [pose proof (Rle_abs (- (beta * u))) as Q; rewrite Rabs_Ropp in Q; exact Q|apply Rle_refl]|].
      rewrite Rabs_mult, (Rabs_pos_eq beta B0). rewrite <- B1. replace ((1 - sg) * (beta * C)) with (beta * ((1 - sg) * C)) by ring. apply Rmult_le_compat_l; assumption. }
    (* beta a <= a' *)
    assert (Ba : beta * a <= a') by (rewrite <- B1; apply Rmult_le_compat_l; assumption).
    assert (A0 : 0 < a) by lra. assert (A0' : 0 < a') by lra.
    assert (Bsq : (beta * a) * (beta * a) <= a' * a') by (apply Rmult_le_compat; try exact Ba; apply Rmult_le_pos; lra).
    assert (T1 : eps * eps * (a' - 2 * (beta * u)) <= Cc * (a' * a')).
    { assert (H : a' - 2 * (beta * u) <= Cc * a') by (replace (Cc * a') with (a' + 2 * ((1 - sg) * a')) by (rewrite Q2; ring); lra).
      assert (eps * eps * (a' - 2 * (beta * u)) <= eps * eps * (Cc * a')) by (apply Rmult_le_compat_l; [lra|exact H]).
      assert (Cc * a' * (eps * eps) <= Cc * a' * a') by (apply Rmult_le_compat_l; [nra|exact Gk']). lra. }
    assert (T2 : eps * eps * (beta * beta * dot d d) <= Cc * INR (S k) * (a' * a')).
    { replace (eps * eps * (beta * beta * dot d d)) with (beta * beta * (eps * eps * dot d d)) by ring.
      eapply Rle_trans; [apply Rmult_le_compat_l; [nra|exact IH]|].
      replace (beta * beta * (Cc * INR (S k) * (a * a))) with (Cc * INR (S k) * ((beta * a) * (beta * a))) by ring.
      apply Rmult_le_compat_l; [|exact Bsq]. apply Rmult_le_pos; [lra|apply pos_INR]. }
    rewrite (S_INR (S k)). lra.
Qed.
End Seq.

Section Rate.
Variables (n : nat) (L c1 c2 : R) (f : vec -> R) (gradf : vec -> vec) (ls : line_search) (cfg : ncg_config).
Hypothesis HL : lipschitz_gradient n L gradf.
Hypothesis Hls : ls_consistent_pos f gradf ls.
Hypothesis Hmax : 0 < c_max_stepsize cfg.
Hypothesis Hinc : 0 < c_increase_factor cfg.
Hypothesis Hc1 : 0 < c1.
Variables (xs : nat -> vec) (sts : nat -> ncg_state) (K : nat).
Hypothesis Hx0 : length (xs 0%nat) = n.
Hypothesis Hseq : ncg_seq f gradf ls cfg xs sts K.
Hypothesis HW : forall k, (k < K)%nat -> strong_wolfe c1 c2 f gradf (xs k) (searched_direction cfg (sts k)) (c_stepsize (sts (S k))).
Lemma rate_pos k : (S k < K)%nat -> 0 < c_stepsize (sts (S k)).
Proof. intros Hk. destruct (HW k ltac:(lia)) as (P & _). exact P. Qed.
Let Hdim : grad_dim n gradf. Proof. destruct HL as (_ & H & _). exact H. Qed.
Lemma rate_decrease k : (k < K)%nat -> c2 < 1 -> dot (gradf (xs k)) (searched_direction cfg (sts k)) <= 0 ->
  let d := searched_direction cfg (sts k) in
  c1 * (1 - c2) / L * (dot (gradf (xs k)) d * dot (gradf (xs k)) d / dot d d) <= f (xs k) - f (xs (S k)).
Proof.
  intros Hk Hc2 Hs. cbv zeta.
  destruct (seq_next n f gradf ls cfg Hdim Hls Hmax Hinc xs sts K Hx0 Hseq rate_pos k Hk) as (Ex & _). cbv zeta in Ex.
  destruct (HW k Hk) as (P & A & W). destruct (seq_inv n f gradf ls cfg Hdim Hls Hmax Hinc xs sts K Hx0 Hseq rate_pos k ltac:(lia)) as (I1 & _).
  pose proof (seq_searched_len n f gradf ls cfg Hdim Hls Hmax Hinc xs sts K Hx0 Hseq rate_pos k ltac:(lia)) as I2.
  rewrite Ex. apply (wolfe_decrease n L); auto.
  rewrite (Rabs_left1 (dot (gradf (xs k)) _)) in W by exact Hs.
  pose proof (Rle_abs (- dot (gradf (vadd (xs k) (smul (c_stepsize (sts (S k))) (searched_direction cfg (sts k))))) (searched_direction cfg (sts k)))) as R2. rewrite Rabs_Ropp in R2. lra.
Qed.
Lemma rate_sum c2' (u : nat -> R) m : (m <= K)%nat -> (forall k, (k < m)%nat -> c2' * u k <= f (xs k) - f (xs (S k))) -> c2' * sum_below m u <= f (xs 0%nat) - f (xs m).
Proof.
  clear. induction m as [|m IH]; intros Hm H; cbn [sum_below]; [lra|]. specialize (IH ltac:(lia) ltac:(intros k Hk; apply H; lia)). pose proof (H m ltac:(lia)). lra.
Qed.
Hypothesis Hm : c_method cfg = "fletcher-reeves".
Hypothesis Hb : c_linesearch cfg <> LsName "backtracking".
Hypothesis Hc2 : 0 < c2 < 1 / 2.
Lemma searched_id st : searched_direction cfg st = c_direction st.
Proof. unfold searched_direction. destruct (c_linesearch cfg) as [s|]; [|reflexivity]. destruct (string_dec s "backtracking") as [->|]; [contradiction|reflexivity]. Qed.
Lemma rate_curv j : (j < K)%nat -> Rabs (dot (gradf (xs (S j))) (c_direction (sts j))) <= c2 * Rabs (dot (gradf (xs j)) (c_direction (sts j))).
Proof.
  intros Hj. destruct (seq_next n f gradf ls cfg Hdim Hls Hmax Hinc xs sts K Hx0 Hseq rate_pos j Hj) as (Ex & _). cbv zeta in Ex.
  destruct (HW j Hj) as (_ & _ & W). rewrite <- Ex, searched_id in W. exact W.
Qed.
Lemma rate_fr_bounds k : (k <= K)%nat -> let G := dot (gradf (xs k)) (gradf (xs k)) in
  - (2 - (1 - 2 * c2) / (1 - c2)) * G <= dot (gradf (xs k)) (c_direction (sts k)) <= - ((1 - 2 * c2) / (1 - c2)) * G.
Proof.
  intros Hk. apply (fr_bounds n f gradf ls cfg Hdim Hls Hmax Hinc xs sts K Hx0 Hseq rate_pos c2 Hm Hc2 k Hk). intros j Hj. apply rate_curv. lia.
Qed.
Lemma rate_fr_decrease k eps : (k < K)%nat -> 0 < eps -> (forall j, (j <= k)%nat -> eps * eps <= dot (gradf (xs j)) (gradf (xs j))) ->
  fr_constant L c1 c2 * (eps * eps) * / INR (S k) <= f (xs k) - f (xs (S k)).
Proof.
  intros Hk He HG. pose proof (rate_fr_bounds k ltac:(lia)) as B. cbv zeta in B.
  pose proof (fr_direction n f gradf ls cfg Hdim Hls Hmax Hinc xs sts K Hx0 Hseq rate_pos c2 Hm Hc2 k eps ltac:(lia) He ltac:(intros j Hj; apply rate_curv; lia) HG) as D. cbv zeta in D.
  pose proof (rate_decrease k Hk ltac:(lra)) as Q. cbv zeta in Q. rewrite searched_id in Q.
  set (g := gradf (xs k)) in *. set (d := c_direction (sts k)) in *. set (G := dot g g) in *. set (p := dot g d) in *. set (sg := (1 - 2 * c2) / (1 - c2)) in *. set (Cc := (1 + c2) / (1 - c2)) in *.
  assert (E2 : 0 < eps * eps) by nra. assert (G0 : 0 < G) by (pose proof (HG k (Nat.le_refl k)) as Z; fold g in Z; fold G in Z; lra).
  assert (S0 : 0 < sg) by (apply Rdiv_lt_0_compat; lra). assert (C0 : 0 < Cc) by (apply Rdiv_lt_0_compat; lra). assert (L0 : 0 < L) by (destruct HL; assumption).
  assert (P0 : p <= 0) by (assert (0 <= sg * G) by (apply Rmult_le_pos; lra); lra). eapply Rle_trans; [|apply Q; exact P0].
  unfold fr_constant. fold sg Cc. assert (Psq : (sg * G) * (sg * G) <= p * p) by (replace (p * p) with (- p * - p) by ring; apply Rmult_le_compat; try (apply Rmult_le_pos; lra); lra).
  assert (D0 : 0 < dot d d).
  { destruct (Rle_lt_or_eq_dec _ _ (dot_self_nonneg d)) as [Z|Z]; [exact Z|exfalso]. assert (p = 0) by (unfold p; rewrite (dot_self_zero d (eq_sym Z)); apply dot_vzero_r).
    assert (0 < sg * G) by (apply Rmult_lt_0_compat; assumption). lra. }
  assert (I0 : 0 < INR (S k)) by (apply lt_0_INR; lia).
  replace (c1 * (1 - c2) * sg ^ 2 / (L * Cc) * (eps * eps) * / INR (S k)) with (c1 * (1 - c2) / L * (sg ^ 2 * (eps * eps) / (Cc * INR (S k)))) by (field; repeat split; lra).
  apply Rmult_le_compat_l; [apply Rmult_le_pos; [nra|left; apply Rinv_0_lt_compat; exact L0]|].
  assert (CI : 0 < Cc * INR (S k)) by (apply Rmult_lt_0_compat; assumption).
  apply (Rmult_le_reg_r (Cc * INR (S k) * dot d d)); [apply Rmult_lt_0_compat; assumption|].
  replace (sg ^ 2 * (eps * eps) / (Cc * INR (S k)) * (Cc * INR (S k) * dot d d)) with (sg * sg * (eps * eps * dot d d)) by (field; repeat split; lra).
  replace (p * p / dot d d * (Cc * INR (S k) * dot d d)) with (Cc * INR (S k) * (p * p)) by (field; lra).
  eapply Rle_trans; [apply Rmult_le_compat_l; [nra|exact D]|].
  replace (sg * sg * (Cc * INR (S k) * (G * G))) with (Cc * INR (S k) * (sg * G * (sg * G))) by ring.
  apply Rmult_le_compat_l; [lra|exact Psq].
Qed.
End Rate.

Lemma harmonic K : ln (INR K + 1) <= sum_below K (fun k => / INR (S k)).
Proof.
  induction K as [|K IH]; [simpl; rewrite Rplus_0_l, ln_1; lra|]. cbn [sum_below]. rewrite S_INR in *. pose proof (pos_INR K) as P.
  assert (E : ln (INR K + 1 + 1) <= ln (INR K + 1) + / (INR K + 1)).
  { replace (INR K + 1 + 1) with ((INR K + 1) * (1 + / (INR K + 1))) by (field; lra).
    assert (I : 0 < / (INR K + 1)) by (apply Rinv_0_lt_compat; lra). rewrite ln_mult by lra.
    pose proof (exp_ineq1_le (/ (INR K + 1))) as Q. assert (ln (1 + / (INR K + 1)) <= / (INR K + 1)); [|lra].
    rewrite <- (ln_exp (/ (INR K + 1))) at 2. destruct (Rle_lt_or_eq_dec _ _ Q) as [Q'|Q']; [left; apply ln_increasing; lra|rewrite Q'; lra]. }
  lra.
Qed.
