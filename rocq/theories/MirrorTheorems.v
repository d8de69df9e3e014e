(** C50: mirror descent. *)
From Coq Require Import Reals List Bool Lra Lia Arith.
From Verif Require Import Prelude Vec XArith Loop Run ProxGrad Proj Loss LossProofs ProjProofs Mirror.
Import ListNotations.
Open Scope R_scope.

Section Geometry.
Variables (n : nat) (C I : vec -> Prop) (phi : vec -> R) (mapping projection : vec -> vec).
Hypothesis G : mirror_geometry n C I phi mapping projection.
Let D := bregman phi mapping.

Lemma bregman_nonneg z x : I x -> C z -> 0 <= D z x.
Proof.
  intros Hx Hz. unfold D, bregman. destruct (list_eq_dec Req_EM_T z x) as [->|Hne].
  - assert (E : dot (mapping x) (vsub x x) = 0) by vring. lra.
  - assert (H := mg_strict _ _ _ _ _ _ G x z Hx Hz Hne). lra.
Qed.
Lemma bregman_self x : D x x = 0.
Proof. unfold D, bregman. assert (E : dot (mapping x) (vsub x x) = 0) by vring. lra. Qed.
(** first-order condition of the projection *)
Lemma proj_vi y z : length y = n -> C z -> 0 <= dot (vsub (mapping (projection y)) y) (vsub z (projection y)).
Proof.
  intros Ly Hz. destruct (mg_proj _ _ _ _ _ _ G y Ly) as [Ip Hmin]. set (p := projection y) in *. assert (Cp := mg_in _ _ _ _ _ _ G p Ip). destruct (mg_map _ _ _ _ _ _ G p Ip) as [_ Hd].
  apply Rnot_lt_le. intros Hneg. set (q := dot (vsub (mapping p) y) (vsub z p)) in *.
  destruct (Hd z Hz (- q / 2) ltac:(lra)) as (delta & Dpos & HD). set (t := Rmin 1 delta / 2). assert (Ht : 0 < t < delta /\ t <= 1) by (unfold t; unfold Rmin; destruct (Rle_dec 1 delta); lra). destruct Ht as [Ht Ht1].
  specialize (HD t Ht). specialize (Hmin _ (mg_segment _ _ _ _ _ _ G p z t Cp Hz ltac:(lra))). apply Rle_trans with (1 := Rle_abs _) in HD.
  assert (E : dot y (vadd p (smul t (vsub z p))) = dot y p + t * dot y (vsub z p)) by vring.
  assert (Eq : q = dot (mapping p) (vsub z p) - dot y (vsub z p)) by (unfold q; vring). nra.
Qed.
Lemma three_points x z p : D z x - D z p - D p x = dot (vsub (mapping p) (mapping x)) (vsub z p).
Proof. unfold D, bregman. assert (E : dot (mapping x) (vsub z x) = dot (mapping x) (vsub z p) + dot (mapping x) (vsub p x)) by vring. rewrite E, dot_vsub_l. ring. Qed.
Lemma step_ineq x g s z : I x -> length g = n -> C z -> let p := make_projection_grad projection mapping x g s in
  s * dot g (vsub p z) <= D z x - D z p - D p x.
Proof.
  intros Hx Lg Hz p. rewrite three_points. assert (Lm := proj1 (mg_map _ _ _ _ _ _ G x Hx)).
  assert (Ly : length (vadd (mapping x) (smul (- s) g)) = n) by (rewrite vadd_length, smul_length, Lm, Lg; lia).
  assert (V := proj_vi _ z Ly Hz). change (0 <= dot (vsub (mapping p) (vadd (mapping x) (smul (- s) g))) (vsub z p)) in V.
  assert (E : dot (vsub (mapping p) (vadd (mapping x) (smul (- s) g))) (vsub z p) = dot (vsub (mapping p) (mapping x)) (vsub z p) - s * dot g (vsub p z)) by vring. rewrite E in V. lra.
Qed.
Lemma step_in x g s : I x -> length g = n -> I (make_projection_grad projection mapping x g s).
Proof. intros Hx Lg. apply (mg_proj _ _ _ _ _ _ G). rewrite vadd_length, smul_length, (proj1 (mg_map _ _ _ _ _ _ G x Hx)), Lg. lia. Qed.

(** The update minimises the linearised objective plus the Bregman divergence over C, and is the only minimiser. *)
Theorem C50_step x g s : I x -> length g = n ->
  let p := make_projection_grad projection mapping x g s in
  I p /\ (forall z, C z -> s * dot g p + bregman phi mapping p x <= s * dot g z + bregman phi mapping z x) /\
  (forall z, C z -> s * dot g z + bregman phi mapping z x <= s * dot g p + bregman phi mapping p x -> z = p).
Proof.
  intros Hx Lg p. assert (Ip := step_in x g s Hx Lg). split; [exact Ip|].
  assert (K : forall z, C z -> s * dot g p + D p x + D z p <= s * dot g z + D z x).
  { intros z Hz. assert (H := step_ineq x g s z Hx Lg Hz). fold p in H. cbv zeta in H. fold p in H. rewrite dot_vsub_r in H. nra. }
  split.
  - intros z Hz. assert (H := K z Hz). assert (N := bregman_nonneg z p Ip Hz). unfold D in *. lra.
  - intros z Hz Hle. destruct (list_eq_dec Req_EM_T z p) as [E|Hne]; [exact E|exfalso]. assert (H := K z Hz). assert (N := mg_strict _ _ _ _ _ _ G p z Ip Hz Hne). unfold D, bregman in *. lra.
Qed.

Section Problem.
Variables (f : vec -> R) (gradf : vec -> vec) (cfg : md_config).
Hypothesis P : mirror_problem n C I f gradf.
Let pg := make_projection_grad projection mapping.

Lemma opt_vi x : I x -> (minimises C f x <-> forall z, C z -> 0 <= dot (gradf x) (vsub z x)).
Proof.
  intros Hx. assert (Cx := mg_in _ _ _ _ _ _ G x Hx). split.
  - intros [_ Hmin] z Hz. apply Rnot_lt_le. intros Hneg. set (q := dot (gradf x) (vsub z x)) in *.
    destruct (mp_grad _ _ _ _ _ P x Hx z Hz (- q / 2) ltac:(lra)) as (delta & Dpos & HD). set (t := Rmin 1 delta / 2). assert (Ht : 0 < t < delta /\ t <= 1) by (unfold t; unfold Rmin; destruct (Rle_dec 1 delta); lra). destruct Ht as [Ht Ht1].
    specialize (HD t Ht). specialize (Hmin _ (mg_segment _ _ _ _ _ _ G x z t Cx Hz ltac:(lra))). apply Rle_trans with (1 := Rle_abs _) in HD. fold q in HD. nra.
  - intros H. split; [exact Cx|]. intros z Hz. assert (A := mp_convex _ _ _ _ _ P x z Hx Hz). specialize (H z Hz). lra.
Qed.
(** Fixed points of the update, for any positive step, are the minimisers over C. *)
Theorem C50_fixed_point x s : I x -> 0 < s -> (pg x (gradf x) s = x <-> minimises C f x).
Proof.
  intros Hx Hs. rewrite (opt_vi x Hx). assert (Lg := mp_dim _ _ _ _ _ P x Hx). assert (Cx := mg_in _ _ _ _ _ _ G x Hx). split.
  - intros E z Hz. assert (H := step_ineq x (gradf x) s z Hx Lg Hz). cbv zeta in H. fold (pg x (gradf x) s) in H. rewrite E in H. rewrite bregman_self in H. assert (Q : dot (gradf x) (vsub x z) = - dot (gradf x) (vsub z x)) by vring. rewrite Q in H. nra.
  - intros H. destruct (C50_step x (gradf x) s Hx Lg) as (Ip & _ & Hu). fold (pg x (gradf x) s) in *. symmetry. apply Hu; [exact Cx|]. assert (N := bregman_nonneg _ x Hx (mg_in _ _ _ _ _ _ G _ Ip)). fold D. rewrite bregman_self. assert (V := H _ (mg_in _ _ _ _ _ _ G _ Ip)). rewrite dot_vsub_r in V. nra.
Qed.
Theorem C50_optimality_fun x : I x -> (md_optimality_fun gradf pg x = vzero n <-> minimises C f x).
Proof.
  intros Hx. rewrite <- (C50_fixed_point x 1 Hx ltac:(lra)). unfold md_optimality_fun, md_fixed_point_fun. assert (Ip := step_in x (gradf x) 1 Hx (mp_dim _ _ _ _ _ P x Hx)).
  assert (Lp := mg_dim _ _ _ _ _ _ G _ (mg_in _ _ _ _ _ _ G _ Ip)). assert (Lx := mg_dim _ _ _ _ _ _ G _ (mg_in _ _ _ _ _ _ G _ Hx)). fold (pg x (gradf x) 1) in Lp. split.
  - intros E. apply dist2_zero; [congruence|]. unfold dist2, sqnorm. rewrite E. apply dot_vzero_l.
  - intros ->. rewrite vsub_self, Lx. reflexivity.
Qed.

(** *** The iterates *)
Notation X x0 k := (md_iterate cfg gradf pg x0 k).
Lemma md_state_iter x0 k : md_iter (snd (Nat.iter k (md_update cfg gradf pg) (x0, md_init cfg))) = k.
Proof.
  induction k as [|k IH]; [reflexivity|]. change (Nat.iter (S k) ?u ?v) with (u (Nat.iter k u v)). revert IH. destruct (Nat.iter k (md_update cfg gradf pg) (x0, md_init cfg)) as [x st]. cbn [snd md_update md_iter]. lia.
Qed.
Lemma md_next x0 k : X x0 (S k) = pg (X x0 k) (gradf (X x0 k)) (md_step cfg k).
Proof.
  unfold md_iterate. assert (E := md_state_iter x0 k). change (Nat.iter (S k) ?u ?v) with (u (Nat.iter k u v)). revert E. destruct (Nat.iter k (md_update cfg gradf pg) (x0, md_init cfg)) as [x st]. cbn [snd fst md_update md_iter]. intros ->. reflexivity.
Qed.
Lemma md_in x0 k : I x0 -> I (X x0 k).
Proof. intros H0. induction k as [|k IH]; [exact H0|]. rewrite md_next. apply step_in; [exact IH|apply P; exact IH]. Qed.

(** Relative smoothness with short steps: monotone descent and O(1/k) convergence, for any step-size schedule. *)
Theorem C50_rate x0 L k z : I x0 -> C z ->
  (forall x y, I x -> I y -> f y <= f x + dot (gradf x) (vsub y x) + L * bregman phi mapping y x) ->
  (forall i, 0 < md_step cfg i /\ md_step cfg i * L <= 1) ->
  f (X x0 (S k)) <= f (X x0 k) /\ sum_upto (md_step cfg) k * (f (X x0 k) - f z) <= bregman phi mapping z x0.
Proof.
  intros H0 Hz HL Hs.
  assert (K : forall j w, C w -> md_step cfg j * (f (X x0 (S j)) - f w) <= D w (X x0 j) - D w (X x0 (S j))).
  { intros j w Hw. assert (Ij := md_in x0 j H0). assert (Ij1 := md_in x0 (S j) H0). destruct (Hs j) as [Sp SL].
    assert (A := step_ineq (X x0 j) (gradf (X x0 j)) (md_step cfg j) w Ij (mp_dim _ _ _ _ _ P _ Ij) Hw). cbv zeta in A. fold (pg (X x0 j) (gradf (X x0 j)) (md_step cfg j)) in A. rewrite <- md_next in A.
    assert (B := HL _ _ Ij Ij1). assert (Cv := mp_convex _ _ _ _ _ P _ w Ij Hw). assert (N := bregman_nonneg (X x0 (S j)) (X x0 j) Ij (mg_in _ _ _ _ _ _ G _ Ij1)). unfold D in *.
    assert (Q : dot (gradf (X x0 j)) (vsub (X x0 (S j)) w) = dot (gradf (X x0 j)) (vsub (X x0 (S j)) (X x0 j)) - dot (gradf (X x0 j)) (vsub w (X x0 j))) by vring.
    assert (M : md_step cfg j * (f (X x0 (S j)) - f w) <= md_step cfg j * (dot (gradf (X x0 j)) (vsub (X x0 (S j)) w) + L * bregman phi mapping (X x0 (S j)) (X x0 j))) by (apply Rmult_le_compat_l; lra). nra. }
  assert (Desc : forall j, f (X x0 (S j)) <= f (X x0 j)).
  { intros j. assert (Ij := md_in x0 j H0). assert (A := K j (X x0 j) (mg_in _ _ _ _ _ _ G _ Ij)). rewrite bregman_self in A. assert (N := bregman_nonneg (X x0 j) (X x0 (S j)) (md_in x0 (S j) H0) (mg_in _ _ _ _ _ _ G _ Ij)). destruct (Hs j) as [Sp _]. nra. }
  split; [apply Desc|].
  assert (T : forall j, sum_upto (md_step cfg) j * (f (X x0 j) - f z) <= D z x0 - D z (X x0 j)).
  { induction j as [|j IH]; [cbn [sum_upto]; unfold md_iterate; cbn; lra|]. cbn [sum_upto]. assert (A := K j z Hz). assert (B := Desc j).
    assert (Sn : 0 <= sum_upto (md_step cfg) j) by (clear -Hs; induction j as [|j IH]; cbn [sum_upto]; [lra|]; destruct (Hs j); lra). nra. }
  assert (A := T k). assert (N := bregman_nonneg z (X x0 k) (md_in x0 k H0) Hz). unfold D in *. lra.
Qed.

(** Strongly convex generating function: the regret bound, for any step-size schedule. *)
Theorem C50_regret x0 k z : I x0 -> C z ->
  (forall x y, I x -> C y -> phi x + dot (mapping x) (vsub y x) + dist2 y x / 2 <= phi y) ->
  (forall i, 0 <= md_step cfg i) ->
  sum_upto (fun i => md_step cfg i * (f (X x0 i) - f z)) k <=
  bregman phi mapping z x0 + sum_upto (fun i => md_step cfg i * md_step cfg i / 2 * dot (gradf (X x0 i)) (gradf (X x0 i))) k.
Proof.
  intros H0 Hz HS Hs.
  assert (T : forall j, sum_upto (fun i => md_step cfg i * (f (X x0 i) - f z)) j <= D z x0 - D z (X x0 j) + sum_upto (fun i => md_step cfg i * md_step cfg i / 2 * dot (gradf (X x0 i)) (gradf (X x0 i))) j).
  { induction j as [|j IH]; [cbn [sum_upto]; unfold md_iterate; cbn; lra|]. cbn [sum_upto]. assert (Ij := md_in x0 j H0). assert (Ij1 := md_in x0 (S j) H0).
    assert (A := step_ineq (X x0 j) (gradf (X x0 j)) (md_step cfg j) z Ij (mp_dim _ _ _ _ _ P _ Ij) Hz). cbv zeta in A. fold (pg (X x0 j) (gradf (X x0 j)) (md_step cfg j)) in A. rewrite <- md_next in A.
    assert (B := HS _ _ Ij (mg_in _ _ _ _ _ _ G _ Ij1)). assert (Cv := mp_convex _ _ _ _ _ P _ z Ij Hz). unfold D, bregman in *.
    set (s := md_step cfg j) in *. set (g := gradf (X x0 j)) in *. assert (Sn := Hs j). fold s in Sn.
    assert (Sq : 0 <= dot (vadd (vsub (X x0 (S j)) (X x0 j)) (smul s g)) (vadd (vsub (X x0 (S j)) (X x0 j)) (smul s g))) by apply dot_self_nonneg.
    assert (E1 : dot (vadd (vsub (X x0 (S j)) (X x0 j)) (smul s g)) (vadd (vsub (X x0 (S j)) (X x0 j)) (smul s g)) = dist2 (X x0 (S j)) (X x0 j) + 2 * s * dot g (vsub (X x0 (S j)) (X x0 j)) + s * s * dot g g) by vring.
    assert (E2 : dot g (vsub (X x0 (S j)) z) = dot g (vsub (X x0 (S j)) (X x0 j)) - dot g (vsub z (X x0 j))) by vring.
    assert (Q : s * (f (X x0 j) - f z) <= s * (- dot g (vsub z (X x0 j)))) by (apply Rmult_le_compat_l; lra). rewrite E2 in A. nra. }
  assert (A := T k). assert (N := bregman_nonneg z (X x0 k) (md_in x0 k H0) Hz). unfold D in *. lra.
Qed.
End Problem.
End Geometry.
Print Assumptions C50_step.
Print Assumptions C50_fixed_point.
Print Assumptions C50_optimality_fun.
Print Assumptions C50_rate.
Print Assumptions C50_regret.

(** ** State and stopping *)
(** The reported error is the length of the step over the step size; it is 0 exactly when the step does not move. *)
Theorem C50_error cfg gradf pg x st n : let s := md_step cfg (md_iter st) in let r := md_update cfg gradf pg (x, st) in
  s <> 0 -> length x = n -> length (fst r) = n ->
  md_error (snd r) = Fin (norm2 (vsub (fst r) x) / s) /\ (md_error (snd r) = Fin 0 <-> fst r = x) /\
  fst r = pg x (gradf x) s /\ md_iter (snd r) = S (md_iter st) /\
  md_nfun (snd r) = S (md_nfun st) /\ md_ngrad (snd r) = S (md_ngrad st) /\ md_nproj (snd r) = S (md_nproj st).
Proof.
  intros s r Hs Lx Lr. assert (E : md_error (snd r) = Fin (norm2 (vsub (fst r) x) / s)).
  { unfold r. cbn. unfold md_err, xdivx. fold s. destruct (Req_EM_T s 0); [contradiction|reflexivity]. }
  split; [exact E|]. split; [|unfold r; cbn; rewrite !Nat.add_1_r; repeat split; reflexivity].
  rewrite E. split.
  - clearbody r. intros H. assert (H' : norm2 (vsub (fst r) x) / s = 0) by congruence. clear H. rename H' into H. assert (N : norm2 (vsub (fst r) x) = 0) by (apply (Rmult_eq_reg_r (/ s)); [unfold Rdiv in H; lra|apply Rinv_neq_0_compat; exact Hs]).
    apply dist2_zero; [congruence|]. apply norm2_zero_iff in N. unfold dist2, sqnorm. rewrite N. apply dot_vzero_l.
  - intros H. f_equal. rewrite H. assert (N : norm2 (vsub x x) = 0) by (apply norm2_zero_iff; rewrite vsub_self, vzero_length; reflexivity). rewrite N. unfold Rdiv. ring.
Qed.
Print Assumptions C50_error.
(** [run] returns an iterate, after at most maxiter updates, and stops early only when the error is at most tol
    (or is not a number). *)
(** The k-th update uses the constant step size, or the schedule at k. *)
Theorem C50_schedule cfg gradf pg x0 k s : md_stepsize cfg = StepFun s \/ md_stepsize cfg = StepConst (s k) ->
  md_iterate cfg gradf pg x0 (S k) = pg (md_iterate cfg gradf pg x0 k) (gradf (md_iterate cfg gradf pg x0 k)) (s k).
Proof.
  intros H. unfold md_iterate. assert (E : md_iter (snd (Nat.iter k (md_update cfg gradf pg) (x0, md_init cfg))) = k).
  { clear H. induction k as [|k IH]; [reflexivity|]. change (Nat.iter (S k) ?u ?v) with (u (Nat.iter k u v)). revert IH. destruct (Nat.iter k (md_update cfg gradf pg) (x0, md_init cfg)) as [x st]. cbn [snd md_update md_iter]. lia. }
  change (Nat.iter (S k) ?u ?v) with (u (Nat.iter k u v)). revert E. destruct (Nat.iter k (md_update cfg gradf pg) (x0, md_init cfg)) as [x st]. cbn [snd fst md_update md_iter]. intros ->. unfold md_step. destruct H as [-> | ->]; reflexivity.
Qed.
Theorem C50_run cfg gradf pg x0 : (0 < md_maxiter cfg)%nat -> exists k, (1 <= k <= md_maxiter cfg)%nat /\
  fst (md_run cfg gradf pg x0) = md_iterate cfg gradf pg x0 k /\ md_iter (snd (md_run cfg gradf pg x0)) = k /\
  md_nfun (snd (md_run cfg gradf pg x0)) = (k + if md_has_aux cfg then 1 else 0)%nat /\ md_ngrad (snd (md_run cfg gradf pg x0)) = k /\ md_nproj (snd (md_run cfg gradf pg x0)) = k /\
  (k = md_maxiter cfg \/ md_error (snd (md_run cfg gradf pg x0)) = NaN \/ xleb (md_error (snd (md_run cfg gradf pg x0))) (md_tol cfg) = true).
Proof.
  intros Hm. destruct (run_loop_spec (md_maxiter cfg) (fun st => xgtb (md_error (snd st)) (md_tol cfg)) (md_update cfg gradf pg) (x0, md_init cfg) Hm) as (k & Hk & E & _ & H).
  exists k. split; [exact Hk|]. unfold md_run, md_iterate. rewrite E. split; [reflexivity|].
  assert (Cn : forall j, let st := snd (Nat.iter j (md_update cfg gradf pg) (x0, md_init cfg)) in
    md_iter st = j /\ md_nfun st = (j + if md_has_aux cfg then 1 else 0)%nat /\ md_ngrad st = j /\ md_nproj st = j).
  { clear. induction j as [|j IH]; [cbn; auto|]. change (Nat.iter (S j) ?u ?v) with (u (Nat.iter j u v)). revert IH. destruct (Nat.iter j _ _) as [x st]. cbn [snd md_update md_iter md_nfun md_ngrad md_nproj]. intros (-> & -> & -> & ->). lia. }
  destruct (Cn k) as (C1 & C2 & C3 & C4). repeat (split; [assumption|]).
  destruct H as [H|H]; [left; exact H|right; apply xgtb_false_inv; exact H].
Qed.
Print Assumptions C50_schedule.
Print Assumptions C50_run.

(** ** Euclidean geometry *)
Lemma euclid_dir (C : vec -> Prop) x : dir_grad C (fun v => dot v v / 2) x x.
Proof.
  intros z Hz eps He. set (q := dot (vsub z x) (vsub z x)). assert (Q : 0 <= q) by apply dot_self_nonneg. exists (eps / (q + 1)). split; [apply Rdiv_lt_0_compat; lra|]. intros t [T1 T2].
  assert (E : dot (vadd x (smul t (vsub z x))) (vadd x (smul t (vsub z x))) / 2 - dot x x / 2 - t * dot x (vsub z x) = t * t * q / 2) by (unfold q; vexpand; rewrite ?(dot_comm z x); field). rewrite E.
  assert (T3 : t * (q + 1) < eps) by (apply (Rmult_lt_compat_r (q + 1)) in T2; [|lra]; replace (eps / (q + 1) * (q + 1)) with eps in T2 by (field; lra); exact T2).
  rewrite Rabs_right by (apply Rle_ge; assert (0 <= t * t) by nra; nra). nra.
Qed.
Theorem C50_euclidean n (C : vec -> Prop) (projection : vec -> vec) : (forall x, C x -> length x = n) ->
  (forall x z t, C x -> C z -> 0 <= t <= 1 -> C (vadd x (smul t (vsub z x)))) ->
  (forall y, length y = n -> is_projection C y (projection y)) ->
  mirror_geometry n C C (fun v => dot v v / 2) (fun v => v) projection /\
  (forall x z, C x -> C z -> dot x x / 2 + dot x (vsub z x) + dist2 z x / 2 <= dot z z / 2) /\
  (forall x g s, make_projection_grad projection (fun v => v) x g s = projection (vadd x (smul (- s) g))).
Proof.
  intros HD HS HP. split; [|split; [|reflexivity]].
  - split; [exact HD|exact HS|auto| | |].
    + intros x Hx. split; [apply HD; exact Hx|apply euclid_dir].
    + intros x z Hx Hz Hne. assert (E : dot z z / 2 - dot x x / 2 - dot x (vsub z x) = dist2 z x / 2) by (vexpand; rewrite ?(dot_comm z x); field).
      assert (N := dist2_nonneg z x). assert (dist2 z x <> 0) by (intros C0; apply Hne; apply dist2_zero; [rewrite (HD x Hx), (HD z Hz); reflexivity|exact C0]). lra.
    + intros y Ly. destruct (HP y Ly) as (Cp & Hmin & _). split; [exact Cp|]. intros z Hz. specialize (Hmin z Hz).
      assert (E : forall w, dist2 y w = dot y y + 2 * (dot w w / 2 - dot y w)) by (intros w; vexpand; rewrite ?(dot_comm w y); field). rewrite !E in Hmin. lra.
  - intros x z _ _. assert (E : dot z z / 2 - dot x x / 2 - dot x (vsub z x) = dist2 z x / 2) by (vexpand; rewrite ?(dot_comm z x); field). lra.
Qed.
Print Assumptions C50_euclidean.

(** The documented stopping criterion ||x - projection_grad(x, g, 1.0)|| <= tol follows from the reported error in
    the Euclidean geometry when the step size is at most 1. *)
Theorem C50_stopping n (C : vec -> Prop) (projection : vec -> vec) x g s tol : (forall y, length y = n -> var_ineq C y (projection y)) ->
  length x = n -> length g = n -> C x -> 0 < s <= 1 ->
  let pg := make_projection_grad projection (fun v => v) in
  norm2 (vsub (pg x g s) x) / s <= tol -> norm2 (vsub x (pg x g 1)) <= tol.
Proof.
  intros HP Lx Lg Hx Hs pg Htol. set (a := pg x g s) in *. set (b := pg x g 1) in *.
  assert (La : length (vadd x (smul (- s) g)) = n) by (rewrite vadd_length, smul_length; lia). assert (Lb : length (vadd x (smul (- (1)) g)) = n) by (rewrite vadd_length, smul_length; lia).
  destruct (HP _ La) as [Ca Va]. destruct (HP _ Lb) as [Cb Vb]. change (projection (vadd x (smul (- s) g))) with a in *. change (projection (vadd x (smul (- (1)) g))) with b in *.
  specialize (Va b Cb). specialize (Vb a Ca). set (u := vsub a x). set (v := vsub b x).
  assert (E1 : dot (vsub (vadd x (smul (- s) g)) a) (vsub b a) = dot u u - dot u v - s * dot g (vsub b a)) by (unfold u, v; vring).
  assert (E2 : dot (vsub (vadd x (smul (- (1)) g)) b) (vsub a b) = dot v v - dot u v + dot g (vsub b a)) by (unfold u, v; vring).
  assert (K : dot u u + s * dot v v <= (1 + s) * dot u v) by nra.
  assert (CS : dot u v <= norm2 u * norm2 v) by apply dot_le_norm.
  rewrite <- !norm2_sq in K. assert (Nu := norm2_nonneg u). assert (Nv := norm2_nonneg v).
  assert (F : (norm2 u - norm2 v) * (norm2 u - s * norm2 v) <= 0) by nra.
  assert (R1 : s * norm2 v <= norm2 u) by (apply Rnot_lt_le; intros H; assert (norm2 u < norm2 v) by nra; assert (0 < (norm2 u - norm2 v) * (norm2 u - s * norm2 v)); [|lra]; replace ((norm2 u - norm2 v) * (norm2 u - s * norm2 v)) with ((norm2 v - norm2 u) * (s * norm2 v - norm2 u)) by ring; apply Rmult_lt_0_compat; lra).
  replace (norm2 (vsub x b)) with (norm2 v) by (unfold v, norm2; f_equal; vring).
  apply (Rle_trans _ (norm2 u / s)); [|exact Htol]. apply (Rmult_le_reg_r s); [lra|]. unfold Rdiv. rewrite Rmult_assoc, Rinv_l by lra. lra.
Qed.
Print Assumptions C50_stopping.
Lemma md_run_one cfg gradf pg x0 n : md_maxiter cfg = S n -> xgtb (md_error (snd (md_update cfg gradf pg (x0, md_init cfg)))) (md_tol cfg) = false ->
  md_run cfg gradf pg x0 = md_update cfg gradf pg (x0, md_init cfg).
Proof. intros Hm H. unfold md_run. rewrite Hm. unfold run_loop. destruct n as [|n]; [reflexivity|]. unfold python_for. fold (@python_for (vec * md_state)). rewrite H. reflexivity. Qed.
(** With larger steps the solver can stop although the documented criterion is far from met: minimising -x over
    [0, 1] from 0 with step 100 and tol 1/100, the first update already reports an error of 1/100, while
    |x - projection_grad(x, g, 1.0)| = 1. *)
Theorem C50_stopping_refuted : exists cfg gradf projection x0,
  let pg := make_projection_grad projection (fun v => v) in
  (forall y, length y = 1%nat -> is_projection (fun q => length q = 1%nat /\ 0 <= nth 0 q 0 <= 1) y (projection y)) /\
  0 < md_step cfg 0 /\ md_maxiter cfg = 500%nat /\ md_tol cfg = / 100 /\
  md_iter (snd (md_run cfg gradf pg x0)) = 1%nat /\ md_error (snd (md_run cfg gradf pg x0)) = Fin (md_tol cfg) /\
  norm2 (vsub x0 (pg x0 (gradf x0) 1)) = 1.
Proof.
  exists {| md_stepsize := StepConst 100; md_maxiter := 500; md_tol := / 100; md_has_aux := false |}, (fun _ => [-1]), (map (fun a => Rmax 0 (Rmin a 1))), [0]. intros pg.
  assert (N1 : norm2 [1] = 1) by (unfold norm2; cbn; replace (1 * 1 + 0) with (1 * 1) by ring; apply sqrt_square; lra).
  assert (P1 : pg [0] [-1] 100 = [1]) by (unfold pg, make_projection_grad; cbn; f_equal; rewrite Rmin_right by lra; rewrite Rmax_right by lra; reflexivity).
  split.
  { intros y Ly. apply (var_ineq_projection _ _ _ 1); [intros q [H _]; exact H|]. destruct y as [|a [|]]; try discriminate. split.
    - cbn. split; [reflexivity|]. split; [apply Rmax_l|]. apply Rmax_lub; [lra|apply Rmin_r].
    - intros q [Lq [Q1 Q2]]. destruct q as [|b [|]]; try discriminate. cbn in *. unfold Rmax, Rmin. destruct (Rle_dec a 1); destruct (Rle_dec 0 _); nra. }
  split; [cbn; lra|]. split; [reflexivity|]. split; [reflexivity|].
  assert (U : md_update {| md_stepsize := StepConst 100; md_maxiter := 500; md_tol := / 100; md_has_aux := false |} (fun _ => [-1]) pg ([0], md_init {| md_stepsize := StepConst 100; md_maxiter := 500; md_tol := / 100; md_has_aux := false |})
     = ([1], {| md_iter := 1; md_error := Fin (/ 100); md_nfun := 1; md_ngrad := 1; md_nproj := 1 |})).
  { unfold md_update, md_init, md_step. cbn [md_stepsize md_has_aux md_iter md_nfun md_ngrad md_nproj]. rewrite P1. f_equal. f_equal. unfold md_err. replace (vsub [1] [0]) with [1] by (cbn; f_equal; ring). rewrite N1. unfold xdivx. destruct (Req_EM_T 100 0); [lra|]. f_equal. field. }
  assert (Rn : md_run {| md_stepsize := StepConst 100; md_maxiter := 500; md_tol := / 100; md_has_aux := false |} (fun _ => [-1]) pg [0] = ([1], {| md_iter := 1; md_error := Fin (/ 100); md_nfun := 1; md_ngrad := 1; md_nproj := 1 |})).
  { etransitivity; [apply (md_run_one _ _ _ _ 499); [reflexivity|]|exact U]. eapply eq_trans; [apply (f_equal (fun r => xgtb (md_error (snd r)) (/ 100)) U)|]. cbn [snd md_error md_tol xgtb]. destruct (Rlt_dec _ _) as [H|H]; [lra|reflexivity]. }
  rewrite Rn. split; [reflexivity|]. split; [reflexivity|].
  replace (pg [0] [-1] 1) with [1] by (unfold pg, make_projection_grad; cbn; f_equal; rewrite Rmin_right by lra; rewrite Rmax_right by lra; reflexivity).
  replace (vsub [0] [1]) with (smul (-1) [1]) by (cbn; f_equal; ring). rewrite norm2_smul, N1, Rabs_left by lra. ring.
Qed.
Print Assumptions C50_stopping_refuted.

(** ** Kullback-Leibler geometry *)
Lemma kl_coord x z : 0 < x <= 1 -> 0 <= z <= 1 -> (z - x) * (z - x) / 2 <= (xlogx z - z) - (xlogx x - x) - ln x * (z - x).
Proof.
  intros Hx Hz. assert (Ex : xlogx x = x * ln x) by (unfold xlogx; destruct (Req_EM_T x 0); [lra|reflexivity]). rewrite Ex. unfold xlogx. destruct (Req_EM_T z 0) as [->|Hz0]; [nra|].
  assert (Zp : 0 < z) by lra. set (h := fun c => c * ln c - c - ln x * c - (c - x) * (c - x) / 2).
  assert (Hd : forall c, 0 < c -> derivable_pt_lim h c (ln c - ln x - (c - x))).
  { intros c Hc. unfold h. replace (ln c - ln x - (c - x)) with ((1 * ln c + c * / c) - 1 - ln x * 1 - ((1 - 0) * (c - x) + (c - x) * (1 - 0)) / 2) by (field; lra).
    apply derivable_pt_lim_minus; [apply derivable_pt_lim_minus; [apply derivable_pt_lim_minus|]|].
    - apply derivable_pt_lim_mult; [apply derivable_pt_lim_id|apply derivable_pt_lim_ln; exact Hc].
    - apply derivable_pt_lim_id.
    - apply derivable_pt_lim_scal. apply derivable_pt_lim_id.
    - unfold Rdiv. rewrite (Rmult_comm (_ + _)). replace (fun x0 => (x0 - x) * (x0 - x) * / 2) with (mult_real_fct (/ 2) (fun x0 => (x0 - x) * (x0 - x))) by (apply FunctionalExtensionality.functional_extensionality; intros; unfold mult_real_fct; ring). apply derivable_pt_lim_scal.
      apply (derivable_pt_lim_mult (fun c => c - x) (fun c => c - x)); apply derivable_pt_lim_minus; [apply derivable_pt_lim_id|apply derivable_pt_lim_const|apply derivable_pt_lim_id|apply derivable_pt_lim_const]. }
  assert (Hl : forall a b, 0 < a -> a <= b -> b <= 1 -> b - a <= ln b - ln a).
  { intros a b Ha Hab Hb. destruct (Req_dec a b) as [->|Hne]; [lra|]. assert (Q : ln (a / b) <= a / b - 1).
    { assert (0 < a / b) by (apply Rdiv_lt_0_compat; lra). rewrite <- (ln_exp (a / b - 1)). destruct (Rle_lt_or_eq_dec (a / b) (exp (a / b - 1)) ltac:(assert (T := exp_ineq1_le (a / b - 1)); lra)) as [T0|T0]; [left; apply ln_increasing; assumption|right; f_equal; exact T0]. }
    unfold Rdiv in Q. rewrite ln_mult, ln_Rinv in Q by (try apply Rinv_0_lt_compat; lra). assert (S1 : a * / b - 1 <= a - b); [|lra]. apply (Rmult_le_reg_r b); [lra|]. rewrite Rmult_minus_distr_r, Rmult_assoc, Rinv_l by lra. nra. }
  assert (M : h x <= h z).
  { destruct (Rtotal_order x z) as [L|[->|L]]; [|lra|].
    - destruct (MVT_cor2 h (fun c => ln c - ln x - (c - x)) x z L) as (c & E & Hc1 & Hc2); [intros c Hc; apply Hd; lra|]. assert (T := Hl x c ltac:(lra) ltac:(lra) ltac:(lra)). nra.
    - destruct (MVT_cor2 h (fun c => ln c - ln x - (c - x)) z x L) as (c & E & Hc1 & Hc2); [intros c Hc; apply Hd; lra|]. assert (T := Hl c x ltac:(lra) ltac:(lra) ltac:(lra)). nra. }
  unfold h in M. lra.
Qed.
Lemma simplex_le1 n x i : simplex n 1 x -> (i < n)%nat -> 0 <= nth i x 0 <= 1.
Proof.
  intros (L & H0 & Hs) Hi. split; [apply H0; exact Hi|]. rewrite <- Hs. subst n. clear Hs. revert i Hi H0. induction x as [|a x IH]; intros i Hi H0; [simpl in Hi; lia|].
  assert (P : 0 <= vsum x) by (clear -H0; assert (Q : forall j, (j < length x)%nat -> 0 <= nth j x 0) by (intros j Hj; apply (H0 (S j)); simpl; lia); clear H0; induction x as [|b x IH]; cbn [vsum]; [lra|]; assert (A := Q 0%nat ltac:(simpl; lia)); cbn in A; assert (B := IH (fun j Hj => Q (S j) ltac:(simpl; lia))); lra).
  assert (A := H0 0%nat ltac:(simpl; lia)). cbn [nth] in A. destruct i as [|i]; cbn [nth vsum]; [lra|]. assert (B := IH i ltac:(simpl in Hi; lia) (fun j Hj => H0 (S j) ltac:(simpl; lia))). lra.
Qed.
Lemma kl_strong n x z : pos_simplex n x -> simplex n 1 z -> kl_gen x + dot (kl_map x) (vsub z x) + dist2 z x / 2 <= kl_gen z.
Proof.
  intros [Sx Px] Sz. assert (Hx : forall i, (i < n)%nat -> 0 < nth i x 0 <= 1) by (intros i Hi; split; [apply Px; exact Hi|apply (simplex_le1 n x i Sx Hi)]). assert (Hz := fun i => simplex_le1 n z i Sz).
  destruct Sx as (Lx & _ & _). destruct Sz as (Lz & _ & _). clear Px. unfold kl_gen, shannon, kl_map, dist2, sqnorm. revert x z Lx Lz Hx Hz. induction n as [|n IH]; intros [|a x] [|b z] Lx Lz Hx Hz; try discriminate; [cbn; lra|].
  cbn [map vsum vsub dot]. specialize (IH x z ltac:(simpl in Lx; lia) ltac:(simpl in Lz; lia) (fun i Hi => Hx (S i) ltac:(lia)) (fun i Hi => Hz (S i) ltac:(lia))).
  assert (K := kl_coord a b (Hx 0%nat ltac:(lia)) (Hz 0%nat ltac:(lia))). lra.
Qed.
Lemma kl_dir n x : pos_simplex n x -> dir_grad (simplex n 1) kl_gen x (kl_map x).
Proof.
  intros [Sx Px] z Hz. destruct Sx as (Lx & _ & _). destruct Hz as (Lz & _ & _). unfold kl_gen, shannon, kl_map. revert x z Lx Lz Px. induction n as [|n IH]; intros [|a x] [|b z] Lx Lz Px; try discriminate.
  - intros eps He. exists 1. split; [lra|]. intros t [T1 T2]. cbn. replace (0 - 0 - (0 - 0) - t * 0) with 0 by ring. rewrite Rabs_R0. nra.
  - intros eps He. destruct (IH x z ltac:(simpl in Lx; lia) ltac:(simpl in Lz; lia) (fun i Hi => Px (S i) ltac:(lia)) (eps / 2) ltac:(lra)) as (d1 & D1 & H1).
    assert (Ha : 0 < a) by (apply (Px 0%nat); lia).
    assert (Hd : derivable_pt_lim (fun c => c * ln c - c) a (ln a)).
    { replace (ln a) with (1 * ln a + a * / a - 1) by (field; lra). apply derivable_pt_lim_minus; [apply derivable_pt_lim_mult; [apply derivable_pt_lim_id|apply derivable_pt_lim_ln; exact Ha]|apply derivable_pt_lim_id]. }
    set (w := Rabs (b - a) + 1). assert (Wp : 0 < w) by (unfold w; assert (T := Rabs_pos (b - a)); lra).
    destruct (Hd (eps / 2 / w) ltac:(apply Rdiv_lt_0_compat; lra)) as (dl & Hdl). assert (Dl := cond_pos dl).
    set (d2 := Rmin (dl / w) (a / w)). assert (D2 : 0 < d2) by (unfold d2; apply Rmin_glb_lt; apply Rdiv_lt_0_compat; lra).
    exists (Rmin d1 d2). split; [apply Rmin_glb_lt; assumption|]. intros t [T1 T2]. assert (T3 : t < d1) by (assert (Q := Rmin_l d1 d2); lra). assert (T4 : t < d2) by (assert (Q := Rmin_r d1 d2); lra).
    specialize (H1 t (conj T1 T3)).
    assert (Tw : t * w < dl /\ t * w < a).
    { assert (Q1 := Rmin_l (dl / w) (a / w)). assert (Q2 := Rmin_r (dl / w) (a / w)). fold d2 in Q1, Q2. split.
      - apply (Rlt_le_trans _ (dl / w * w)); [apply Rmult_lt_compat_r; lra|]. right. field. lra.
      - apply (Rlt_le_trans _ (a / w * w)); [apply Rmult_lt_compat_r; lra|]. right. field. lra. }
    assert (Hh : Rabs (t * (b - a)) <= t * w) by (rewrite Rabs_mult, (Rabs_right t) by lra; unfold w; assert (T := Rabs_pos (b - a)); nra).
    assert (Pos : 0 < a + t * (b - a)) by (assert (Q := Rle_abs (- (t * (b - a)))); rewrite Rabs_Ropp in Q; lra).
    assert (One : Rabs ((xlogx (a + t * (b - a)) - (a + t * (b - a))) - (xlogx a - a) - t * (ln a * (b - a))) <= eps / 2 * t).
    { unfold xlogx. destruct (Req_EM_T (a + t * (b - a)) 0); [lra|]. destruct (Req_EM_T a 0); [lra|]. destruct (Req_dec (b - a) 0) as [E0|E0]; [rewrite E0; replace (_ - _) with 0 by (rewrite ?Rmult_0_r, ?Rplus_0_r; ring); rewrite Rabs_R0; nra|].
      assert (Hn : t * (b - a) <> 0) by (apply Rmult_integral_contrapositive_currified; lra).
      specialize (Hdl (t * (b - a)) Hn ltac:(lra)). set (hh := t * (b - a)) in *.
      replace ((a + hh) * ln (a + hh) - (a + hh) - (a * ln a - a) - t * (ln a * (b - a))) with (hh * (((a + hh) * ln (a + hh) - (a + hh) - (a * ln a - a)) / hh - ln a)) by (unfold hh; field; split; lra).
      rewrite Rabs_mult. apply (Rle_trans _ (t * w * (eps / 2 / w))); [|right; field; lra].
      apply Rmult_le_compat; [apply Rabs_pos|apply Rabs_pos|exact Hh|lra]. }
    cbn [map vsum vsub vadd smul dot]. cbn [smul] in H1.
    set (A1 := xlogx (a + t * (b - a))) in *. fold (smul t (vsub z x)).
    match goal with |- Rabs ?e <= _ => replace e with ((A1 - (a + t * (b - a)) - (xlogx a - a) - t * (ln a * (b - a))) + (vsum (map xlogx (vadd x (smul t (vsub z x)))) - vsum (vadd x (smul t (vsub z x))) - (vsum (map xlogx x) - vsum x) - t * dot (map ln x) (vsub z x))) by ring end.
    apply (Rle_trans _ _ _ (Rabs_triang _ _)). lra.
Qed.
Lemma simplex_segment n x z t : simplex n 1 x -> simplex n 1 z -> 0 <= t <= 1 -> simplex n 1 (vadd x (smul t (vsub z x))).
Proof.
  intros (Lx & Px & Sx) (Lz & Pz & Sz) Ht. assert (Ls : length (smul t (vsub z x)) = n) by (rewrite smul_length, vsub_length; lia). split; [rewrite vadd_length; lia|]. split.
  - intros i Hi. rewrite nth_vadd by lia. rewrite nth_smul, nth_vsub by lia. specialize (Px i Hi). specialize (Pz i Hi). nra.
  - assert (E : vsum (vadd x (smul t (vsub z x))) = vsum x + t * (vsum z - vsum x)).
    { clear -Lx Lz. revert z n Lx Lz. induction x as [|a x IH]; intros [|b z] n Lx Lz; try (simpl in *; lia); [cbn; ring|]. cbn [vsub smul vadd vsum map]. fold (smul t (vsub z x)). destruct n as [|n]; [discriminate|]. rewrite (IH z n) by (simpl in *; lia). ring. }
    rewrite E, Sx, Sz. ring.
Qed.
Theorem C50_kl n : (0 < n)%nat -> mirror_geometry n (simplex n 1) (pos_simplex n) kl_gen kl_map softmax /\
  (forall x z, pos_simplex n x -> simplex n 1 z -> kl_gen x + dot (kl_map x) (vsub z x) + dist2 z x / 2 <= kl_gen z) /\
  (forall x g s, pos_simplex n x -> length g = n -> forall i, (i < n)%nat ->
    nth i (make_projection_grad softmax kl_map x g s) 0 = nth i x 0 * exp (- s * nth i g 0) / vsum (map (fun j => nth j x 0 * exp (- s * nth j g 0)) (seq 0 n))).
Proof.
  intros Hn. split; [|split; [apply kl_strong|]].
  - split.
    + intros x [H _]; exact H.
    + intros x z t. apply simplex_segment.
    + intros x [H _]; exact H.
    + intros x Hx. split; [unfold kl_map; rewrite map_length; apply Hx|apply kl_dir; exact Hx].
    + intros x z Hx Hz Hne. assert (K := kl_strong n x z Hx Hz). assert (N := dist2_nonneg z x). assert (dist2 z x <> 0) by (intros C0; apply Hne; apply dist2_zero; [destruct Hx as [[-> _] _]; apply Hz|exact C0]). lra.
    + intros y Ly. destruct (lse_max_fun n Hn) as [_ H]. destruct (H y Ly) as (H1 & H2 & H3). split.
      * split; [exact H1|]. intros i Hi. unfold softmax. assert (Hne : y <> []) by (intros ->; simpl in Ly; lia). rewrite (nth_indep _ 0 ((fun a => exp a / vsum (map exp y)) 0)) by (rewrite map_length; lia). rewrite (map_nth (fun a => exp a / vsum (map exp y))). apply Rdiv_lt_0_compat; [apply exp_pos|apply sumexp_pos; exact Hne].
      * intros z Hz. specialize (H3 z Hz). rewrite H2 in H3. unfold kl_gen. destruct H1 as (_ & _ & ->). destruct Hz as (_ & _ & ->). lra.
  - intros x g s [[Lx _] Px] Lg i Hi. unfold make_projection_grad. set (y := vadd (kl_map x) (smul (- s) g)).
    assert (Ly : length y = n) by (unfold y, kl_map; rewrite vadd_length, smul_length, map_length; lia).
    assert (Ey : forall j, (j < n)%nat -> exp (nth j y 0) = nth j x 0 * exp (- s * nth j g 0)).
    { intros j Hj. unfold y. rewrite nth_vadd by (unfold kl_map; rewrite smul_length, map_length; lia). rewrite nth_smul. unfold kl_map. rewrite (nth_indep _ 0 (ln 0)) by (rewrite map_length; lia). rewrite map_nth, exp_plus, exp_ln by (apply Px; exact Hj). reflexivity. }
    unfold softmax. rewrite (nth_indep _ 0 ((fun a => exp a / vsum (map exp y)) 0)) by (rewrite map_length; lia). rewrite (map_nth (fun a => exp a / vsum (map exp y))). rewrite Ey by exact Hi. f_equal. f_equal.
    assert (Q : map exp y = map (fun j => exp (nth j y 0)) (seq 0 n)).
    { rewrite <- Ly. clear. induction y as [|a y IH]; [reflexivity|]. cbn [length seq map nth]. f_equal. rewrite <- seq_shift, map_map. exact IH. }
    rewrite Q. apply map_ext_in. intros j Hj. apply in_seq in Hj. apply Ey. lia.
Qed.
Print Assumptions C50_kl.

(** A problem over the simplex: a linear objective. *)
Example C50_example : mirror_problem 2 (simplex 2 1) (pos_simplex 2) (fun x => dot [1; 3] x) (fun _ => [1; 3]) /\ pos_simplex 2 [/ 2; / 2] /\
  make_projection_grad softmax kl_map [/ 2; / 2] [1; 3] 0 = [/ 2; / 2].
Proof.
  assert (PS : pos_simplex 2 [/ 2; / 2]).
  { split; [split; [reflexivity|split; [|cbn; lra]]|]; intros [|[|i]] Hi; cbn; try lra; lia. }
  split; [|split; [exact PS|]].
  - split; [reflexivity| |].
    + intros x z _ _. rewrite dot_vsub_r. lra.
    + intros x _ z _ eps He. exists 1. split; [lra|]. intros t [T1 T2]. replace (dot [1; 3] (vadd x (smul t (vsub z x))) - dot [1; 3] x - t * dot [1; 3] (vsub z x)) with 0 by vring. rewrite Rabs_R0. nra.
  - unfold make_projection_grad, kl_map, softmax. cbn. replace (ln (/ 2) + - 0 * 1) with (ln (/ 2)) by ring. replace (ln (/ 2) + - 0 * 3) with (ln (/ 2)) by ring. rewrite exp_ln by lra. repeat f_equal; field.
Qed.
