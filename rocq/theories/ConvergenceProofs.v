From Coq Require Import String.
From Coq Require Import Reals List Lra Lia Bool Arith Psatz.
From Verif Require Import Prelude Vec Mat Zoom Loss Backtracking BacktrackingTheorems Run QuasiNewton QuasiNewtonProofs Convergence.
Import ListNotations.
Open Scope R_scope.

(** ** Strongly convex functions with a Lipschitz gradient *)
Section Ssc.
Variables (n : nat) (mu L : R) (f : vec -> R) (gradf : vec -> vec).
Hypothesis HF : strongly_convex_smooth n mu L f gradf.
Let Hmu : 0 < mu. Proof. destruct HF as ((A & _) & _); exact A. Qed.
Let HL : 0 < L. Proof. destruct HF as ((A & B) & _); lra. Qed.
Let Hd : grad_dim n gradf. Proof. destruct HF as (_ & A & _); exact A. Qed.

Lemma ssc_pl x z : length x = n -> length z = n -> 2 * mu * (f x - f z) <= dot (gradf x) (gradf x).
Proof.
  intros Hx Hz. destruct HF as (_ & _ & A). destruct (A x z Hx Hz) as [A1 _].
  unfold dist2, sqnorm in A1. set (w := vsub z x) in *. set (g := gradf x) in *.
  pose proof (dot_self_nonneg (vadd g (smul mu w))) as P. autorewrite with vec in P. rewrite (dot_comm w g) in P.
  assert (2 * mu * (f x - f z) <= 2 * mu * (- (dot g w) - mu / 2 * dot w w)) by (apply Rmult_le_compat_l; lra).
  lra.
Qed.
Lemma ssc_grad_upper x : length x = n -> exists z, length z = n /\ dot (gradf x) (gradf x) <= 2 * L * (f x - f z).
Proof.
  intros Hx. exists (vadd x (smul (- / L) (gradf x))).
  assert (Hz : length (vadd x (smul (- / L) (gradf x))) = n) by (apply vadd_smul_length; [|apply Hd]; exact Hx).
  split; [exact Hz|]. destruct HF as (_ & _ & A). destruct (A x _ Hx Hz) as [_ A1].
  set (g := gradf x) in *. unfold dist2, sqnorm in A1. autorewrite with vec in A1. dot_sym.
  set (fz := f _) in *. rewrite (dot_comm g x) in A1.
  assert (E : f x - fz >= / (2 * L) * dot g g).
  { replace (/ (2 * L) * dot g g) with (/ L * dot g g - L / 2 * (/ L * / L * dot g g)) by (field; lra). lra. }
  assert (2 * L * (f x - fz) >= 2 * L * (/ (2 * L) * dot g g)) by (apply Rle_ge, Rmult_le_compat_l; lra).
  replace (2 * L * (/ (2 * L) * dot g g)) with (dot g g) in H by (field; lra). lra.
Qed.
Lemma ssc_half x z : length x = n -> length z = n ->
  f x + dot (gradf x) (vsub z x) + / (2 * L) * dot (vsub (gradf z) (gradf x)) (vsub (gradf z) (gradf x)) <= f z.
Proof.
  intros Hx Hz. destruct HF as (_ & _ & A).
  set (u := vsub (gradf z) (gradf x)).
  assert (Hu : length u = n) by (apply vsub_len; apply Hd; assumption).
  assert (Hw : length (vadd z (smul (- / L) u)) = n) by (apply vadd_smul_length; assumption).
  destruct (A x _ Hx Hw) as [A1 _]. destruct (A z _ Hz Hw) as [_ A2].
  set (w := vadd z (smul (- / L) u)) in *.
  assert (D1 : dot (gradf x) (vsub w x) = dot (gradf x) (vsub z x) - / L * dot (gradf x) u) by (unfold w; vring).
  assert (D2 : dot (gradf z) (vsub w z) = - / L * dot (gradf z) u) by (unfold w; vring).
  assert (D3 : dist2 w z = / L * / L * dot u u) by (unfold w; vring).
  assert (D4 : dot u u = dot (gradf z) u - dot (gradf x) u) by (unfold u at 1; vring).
  rewrite D1 in A1. rewrite D2, D3 in A2. pose proof (dist2_nonneg w x) as P.
  assert (0 <= mu / 2 * dist2 w x) by nra.
  assert (E : L / 2 * (/ L * / L * dot u u) = / (2 * L) * dot u u) by (field; lra).
  assert (E2 : / L * dot (gradf z) u - / L * dot (gradf x) u = 2 * (/ (2 * L) * dot u u)) by (rewrite D4; field; lra).
  lra.
Qed.
Lemma ssc_cocoercive x z : length x = n -> length z = n ->
  let y := vsub (gradf z) (gradf x) in let s := vsub z x in dot y y <= L * dot y s.
Proof.
  intros Hx Hz y s. pose proof (ssc_half x z Hx Hz) as A. pose proof (ssc_half z x Hz Hx) as B.
  fold y s in A.
  assert (E1 : dot (vsub (gradf x) (gradf z)) (vsub (gradf x) (gradf z)) = dot y y) by (unfold y; vring).
  assert (E2 : dot y s = - dot (gradf z) (vsub x z) - dot (gradf x) s) by (unfold y, s; vring).
  rewrite E1 in B.
  assert (C : 2 * (/ (2 * L) * dot y y) <= dot y s) by lra.
  replace (2 * (/ (2 * L) * dot y y)) with (/ L * dot y y) in C by (field; lra).
  apply (Rmult_le_compat_l L) in C; [|lra]. rewrite <- Rmult_assoc, Rinv_r, Rmult_1_l in C by lra. exact C.
Qed.
Lemma ssc_monotone x z : length x = n -> length z = n ->
  let y := vsub (gradf z) (gradf x) in let s := vsub z x in mu * dot s s <= dot y s.
Proof.
  intros Hx Hz y s. destruct HF as (_ & _ & A). destruct (A x z Hx Hz) as [A1 _]. destruct (A z x Hz Hx) as [A2 _].
  assert (E1 : dist2 z x = dot s s) by reflexivity.
  assert (E2 : dist2 x z = dot s s) by (rewrite dist2_comm; reflexivity).
  assert (E3 : dot y s = - dot (gradf z) (vsub x z) - dot (gradf x) s) by (unfold y, s; vring).
  rewrite E1 in A1. rewrite E2 in A2. fold s in A1. lra.
Qed.
Lemma ssc_slope x d t : length x = n -> length d = n -> 0 <= t ->
  dot (gradf (vadd x (smul t d))) d - dot (gradf x) d <= L * t * dot d d.
Proof.
  intros Hx Hdd Ht. assert (Hz : length (vadd x (smul t d)) = n) by (apply vadd_smul_length; assumption).
  destruct (Rle_lt_or_eq_dec 0 t Ht) as [Hp|<-].
  2:{ rewrite smul_0, Hdd, vadd_vzero_r by lia. lra. }
  pose proof (ssc_cocoercive x _ Hx Hz) as C. cbv zeta in C. set (z := vadd x (smul t d)) in *.
  set (y := vsub (gradf z) (gradf x)) in *.
  assert (Es : vsub z x = smul t d).
  { apply vec_eq_dot; [unfold vec in *; rewrite (vsub_len n), smul_length by assumption; lia|]. intros w. unfold z. vring. }
  rewrite Es in C. rewrite dot_smul_r in C.
  assert (Ey : dot (gradf z) d - dot (gradf x) d = dot y d) by (unfold y; vring). rewrite Ey.
  pose proof (cauchy_schwarz_sq y d) as CS. pose proof (dot_self_nonneg d) as D0.
  destruct (Rle_lt_dec (dot y d) 0) as [N|N]; [assert (0 <= L * t * dot d d) by (apply Rmult_le_pos; nra); lra|].
  assert (dot y d * dot y d <= (L * (t * dot y d)) * dot d d) by (eapply Rle_trans; [exact CS|]; apply Rmult_le_compat_r; assumption).
  nra.
Qed.
End Ssc.

(** ** Vectors *)
Lemma gram3 s y x :
  dot s y * dot s y * dot x x - 2 * dot s y * dot s x * dot y x + dot s x * dot s x * dot y y <= dot s s * dot y y * dot x x.
Proof.
  destruct (Req_dec (dot s s) 0) as [E|E].
  - pose proof (cauchy_schwarz_sq s y) as C1. pose proof (cauchy_schwarz_sq s x) as C2. rewrite E in *.
    assert (dot s y = 0) by nra. assert (dot s x = 0) by nra. rewrite H, H0. lra.
  - pose proof (dot_self_nonneg s) as P0.
    pose proof (cauchy_schwarz_sq (vsub (smul (dot s s) x) (smul (dot s x) s)) (vsub (smul (dot s s) y) (smul (dot s y) s))) as C.
    autorewrite with vec in C. rewrite (dot_comm x s), (dot_comm y s), (dot_comm x y) in C.
    set (S_ := dot s s) in *. set (A := dot s x) in *. set (D := dot s y) in *. set (B := dot y x) in *.
    set (X := dot x x) in *. set (Y := dot y y) in *.
    assert (C' : S_ * S_ * ((S_ * B - A * D) * (S_ * B - A * D)) <= S_ * S_ * ((S_ * X - A * A) * (S_ * Y - D * D))) by (ring_simplify; ring_simplify in C; lra).
    assert (Q : (S_ * B - A * D) * (S_ * B - A * D) <= (S_ * X - A * A) * (S_ * Y - D * D)).
    { assert (0 < S_ * S_) by nra. apply Rmult_le_reg_l in C'; assumption. }
    assert (Q2 : S_ * (S_ * (B * B) - 2 * A * B * D) <= S_ * (S_ * X * Y - X * (D * D) - A * A * Y)) by lra.
    apply Rmult_le_reg_l in Q2; [|lra]. assert (0 <= S_ * (B * B)) by nra. lra.
Qed.

Lemma psd_cs n H x y : mat_shape n n H -> symmetric n H -> pos_semidef n H -> length x = n -> length y = n ->
  dot x (mvec H y) * dot x (mvec H y) <= dot x (mvec H x) * dot y (mvec H y).
Proof.
  intros Hs Hsym Hp Hx Hy.
  assert (Q : forall t, 0 <= dot x (mvec H x) - 2 * t * dot x (mvec H y) + t * t * dot y (mvec H y)).
  { intros t. specialize (Hp (vsub x (smul t y)) ltac:(apply vsub_len; [|rewrite smul_length]; assumption)).
    rewrite mvec_vsub, mvec_smul in Hp. autorewrite with vec in Hp.
    rewrite <- (sym_dot n H x y Hs Hsym Hx Hy) in Hp. lra. }
  pose proof (Hp x Hx) as Px. pose proof (Hp y Hy) as Py.
  destruct (Req_dec (dot y (mvec H y)) 0) as [E|E].
  - rewrite E. destruct (Req_dec (dot x (mvec H y)) 0) as [Z|Z]; [rewrite Z; lra|exfalso].
    specialize (Q ((dot x (mvec H x) + 1) / (2 * dot x (mvec H y)))). rewrite E in Q.
    replace (2 * ((dot x (mvec H x) + 1) / (2 * dot x (mvec H y))) * dot x (mvec H y)) with (dot x (mvec H x) + 1) in Q by (field; exact Z). lra.
  - specialize (Q (dot x (mvec H y) / dot y (mvec H y))).
    set (b := dot x (mvec H y)) in *. set (c := dot y (mvec H y)) in *. set (a := dot x (mvec H x)) in *.
    replace (a - 2 * (b / c) * b + b / c * (b / c) * c) with ((a * c - b * b) / c) in Q by (field; exact E).
    pose proof (Rmult_le_pos _ _ Q Py) as W. replace ((a * c - b * b) / c * c) with (a * c - b * b) in W by (field; exact E). lra.
Qed.

(** ** Eigenvalue bounds *)
Lemma eig_psd n lo hi H : 0 <= lo -> eig_bounds n lo hi H -> pos_semidef n H.
Proof. intros Hl B v Hv. destruct (B v Hv) as [B1 B2]. pose proof (Rmult_le_pos _ _ Hl (dot_self_nonneg v)). lra. Qed.
Lemma eig_norm n lo hi H g : 0 < lo -> 0 <= hi -> mat_shape n n H -> symmetric n H -> eig_bounds n lo hi H -> length g = n ->
  dot (mvec H g) (mvec H g) <= hi * dot g (mvec H g).
Proof.
  intros Hl Hh Hs Hsym B Hg. assert (Hlen : length (mvec H g) = n) by (rewrite mvec_length; apply Hs).
  pose proof (psd_cs n H g (mvec H g) Hs Hsym (eig_psd n lo hi H ltac:(lra) B) Hg Hlen) as C.
  rewrite (sym_dot n H g (mvec H g) Hs Hsym Hg Hlen) in C.
  destruct (B _ Hlen) as [_ B2]. destruct (B g Hg) as [B1 _]. pose proof (dot_self_nonneg g) as G0.
  set (w := mvec H g) in *. set (q := dot g w) in *. pose proof (dot_self_nonneg w) as W0.
  assert (0 <= q) by nra.
  assert (C2 : dot w w * dot w w <= q * (hi * dot w w)) by (eapply Rle_trans; [exact C|]; apply Rmult_le_compat_l; assumption).
  destruct (Rle_lt_or_eq_dec 0 _ W0) as [P|Z]; [nra|]. rewrite <- Z. nra.
Qed.
Lemma eig_weaken n lo lo' hi hi' H : lo' <= lo -> hi <= hi' -> eig_bounds n lo hi H -> eig_bounds n lo' hi' H.
Proof.
  intros A1 A2 B v Hv. destruct (B v Hv) as [B1 B2]. pose proof (dot_self_nonneg v) as V0.
  apply (Rmult_le_compat_r _ _ _ V0) in A1. apply (Rmult_le_compat_r _ _ _ V0) in A2. lra.
Qed.

Definition pair_ok (mu L : R) (p : vec * vec) : Prop :=
  dot (snd p) (snd p) <= L * dot (snd p) (fst p) /\ mu * dot (fst p) (fst p) <= dot (snd p) (fst p).

Lemma eig_update n mu L lo hi H s y : 0 < mu <= L -> 0 < lo -> 0 <= hi -> mat_shape n n H -> length s = n -> length y = n ->
  pair_ok mu L (s, y) -> eig_bounds n lo hi H ->
  eig_bounds n (/ (/ lo + L)) (L / mu * hi + / mu) (bfgs_matrix_update H s y).
Proof.
  intros [Hmu HL] Hlo Hhi Hs Hsl Hyl [P1 P2] B. cbn [fst snd] in P1, P2.
  assert (Hil : 0 < / lo) by (apply Rinv_0_lt_compat; assumption).
  assert (Him : 0 < / mu) by (apply Rinv_0_lt_compat; assumption).
  assert (HLm : 1 <= L / mu). { unfold Rdiv. apply (Rmult_le_reg_r mu); [lra|]. rewrite Rmult_assoc, Rinv_l by lra. lra. }
  pose proof (dot_self_nonneg s) as S0.
  destruct (Req_dec (dot y s) 0) as [E|E].
  { unfold bfgs_matrix_update. destruct (Req_EM_T (dot y s) 0) as [_|]; [|contradiction].
    apply (eig_weaken n lo _ hi _ H); [|nra|exact B].
    replace lo with (/ / lo) at 2 by (apply Rinv_involutive; lra). apply Rinv_le_contravar; lra. }
  assert (D0 : 0 < dot y s) by nra.
  intros x Hx. rewrite (dot_update n) by assumption.
  set (rho := / dot y s). assert (Hr : 0 < rho) by (apply Rinv_0_lt_compat; exact D0).
  assert (HrD : rho * dot y s = 1) by (apply Rinv_l; lra).
  assert (Hul : length (wt rho s y x) = n) by (apply wt_length; assumption).
  destruct (B _ Hul) as [B1 B2]. set (u := wt rho s y x) in *. set (q := dot u (mvec H u)) in *.
  set (A := dot s x). pose proof (dot_self_nonneg u) as U0. pose proof (dot_self_nonneg x) as X0. pose proof (dot_self_nonneg y) as Y0.
  assert (Ryy : rho * dot y y <= L).
  { apply (Rmult_le_compat_l rho) in P1; [|lra]. replace (rho * (L * dot y s)) with (L * (rho * dot y s)) in P1 by ring. rewrite HrD in P1. lra. }
  assert (Rss : rho * dot s s <= / mu).
  { apply (Rmult_le_reg_l mu); [lra|]. rewrite Rinv_r by lra. apply (Rmult_le_compat_l rho) in P2; [|lra]. lra. }
  assert (AA : 0 <= A * A) by nra.
  split.
  - (* lower *)
    assert (Ex : dot x x = dot u u + 2 * (rho * A) * dot u y + rho * A * (rho * A) * dot y y).
    { unfold u, wt. fold A. vring. }
    pose proof (dot_self_nonneg (vsub (smul (rho * A) y) (smul (L * lo) u))) as V. autorewrite with vec in V. rewrite (dot_comm y u) in V.
    assert (LL : 0 < L * lo) by nra.
    assert (V2 : 2 * (rho * A) * dot u y <= / (L * lo) * (rho * A * (rho * A) * dot y y) + L * lo * dot u u).
    { apply (Rmult_le_reg_l (L * lo)); [exact LL|].
      replace (L * lo * (/ (L * lo) * (rho * A * (rho * A) * dot y y) + L * lo * dot u u))
        with (rho * A * (rho * A) * dot y y + L * lo * (L * lo) * dot u u) by (field; split; lra). lra. }
    assert (V3 : rho * A * (rho * A) * dot y y <= L * (rho * (A * A))).
    { replace (rho * A * (rho * A) * dot y y) with (rho * dot y y * (rho * (A * A))) by ring. apply Rmult_le_compat_r; [nra|exact Ryy]. }
    assert (V4 : / (L * lo) * (rho * A * (rho * A) * dot y y) <= / lo * (rho * (A * A))).
    { apply (Rmult_le_compat_l (/ (L * lo))) in V3; [|left; apply Rinv_0_lt_compat; exact LL].
      replace (/ (L * lo) * (L * (rho * (A * A)))) with (/ lo * (rho * (A * A))) in V3 by (field; split; lra). exact V3. }
    assert (Tot : dot x x <= (/ lo + L) * (lo * dot u u + rho * (A * A))).
    { replace ((/ lo + L) * (lo * dot u u + rho * (A * A))) with (dot u u + / lo * (rho * (A * A)) + L * lo * dot u u + L * (rho * (A * A))) by (field; lra). lra. }
    assert (PL : 0 < / lo + L) by lra.
    apply (Rmult_le_reg_l (/ lo + L)); [exact PL|]. rewrite <- Rmult_assoc, Rinv_r, Rmult_1_l by lra.
    eapply Rle_trans; [exact Tot|]. apply Rmult_le_compat_l; [lra|]. nra.
  - (* upper *)
    assert (Eu : dot y s * dot y s * dot u u = dot s y * dot s y * dot x x - 2 * dot s y * dot s x * dot y x + dot s x * dot s x * dot y y).
    { assert (Euu : dot u u = dot x x - 2 * (rho * A) * dot y x + rho * A * (rho * A) * dot y y) by (unfold u, wt; fold A; vring).
      rewrite Euu. rewrite (dot_comm s y). fold A.
      replace (dot y s * dot y s * (dot x x - 2 * (rho * A) * dot y x + rho * A * (rho * A) * dot y y))
        with (dot y s * dot y s * dot x x - 2 * (rho * dot y s) * dot y s * A * dot y x + (rho * dot y s) * (rho * dot y s) * A * A * dot y y) by ring.
      rewrite HrD. ring. }
    pose proof (gram3 s y x) as G. rewrite <- Eu in G.
    assert (SY : dot s s * dot y y <= L / mu * (dot y s * dot y s)).
    { assert (T1 : dot s s <= / mu * dot y s).
      { apply (Rmult_le_reg_l mu); [lra|]. rewrite <- Rmult_assoc, Rinv_r, Rmult_1_l by lra. exact P2. }
      replace (L / mu * (dot y s * dot y s)) with ((/ mu * dot y s) * (L * dot y s)) by (unfold Rdiv; ring).
      apply Rmult_le_compat; lra. }
    assert (UX : dot u u <= L / mu * dot x x).
    { apply (Rmult_le_reg_l (dot y s * dot y s)); [nra|].
      replace (dot y s * dot y s * (L / mu * dot x x)) with (L / mu * (dot y s * dot y s) * dot x x) by ring.
      eapply Rle_trans; [exact G|]. apply Rmult_le_compat_r; assumption. }
    assert (RA : rho * (A * A) <= / mu * dot x x).
    { pose proof (cauchy_schwarz_sq s x) as CS. fold A in CS.
      apply (Rmult_le_compat_l rho) in CS; [|lra]. eapply Rle_trans; [exact CS|].
      rewrite <- Rmult_assoc. apply Rmult_le_compat_r; assumption. }
    nra.
Qed.

Lemma eig_lower_pos L m : 0 < L -> 0 < eig_lower L m.
Proof.
  intros HL. unfold eig_lower. apply Rinv_0_lt_compat. pose proof (pos_INR m). pose proof (Rmax_l 1 L).
  assert (0 <= INR m * L) by nra. lra.
Qed.
Lemma eig_upper_pos mu L m : 0 < mu <= L -> 0 < eig_upper mu L m.
Proof.
  intros [H1 H2]. assert (0 < / mu) by (apply Rinv_0_lt_compat; assumption).
  induction m; simpl; [pose proof (Rmax_l 1 (/ mu)); lra|].
  assert (0 < L / mu) by (unfold Rdiv; nra). nra.
Qed.
Lemma eig_upper_mono mu L m k : 0 < mu <= L -> (m <= k)%nat -> eig_upper mu L m <= eig_upper mu L k.
Proof.
  intros H Hk. induction Hk as [|k Hk IH]; [lra|]. simpl. pose proof (eig_upper_pos mu L k H). destruct H as [H1 H2].
  assert (0 < / mu) by (apply Rinv_0_lt_compat; assumption).
  assert (1 <= L / mu). { unfold Rdiv. apply (Rmult_le_reg_r mu); [lra|]. rewrite Rmult_assoc, Rinv_l by lra. lra. }
  nra.
Qed.
Lemma eig_lower_mono L m k : 0 < L -> (m <= k)%nat -> eig_lower L k <= eig_lower L m.
Proof.
  intros HL Hk. unfold eig_lower. pose proof (pos_INR m). pose proof (Rmax_l 1 L). apply le_INR in Hk.
  apply Rinv_le_contravar; nra.
Qed.

(** The matrix built from gamma I by pairs of such a function. *)
Lemma eig_matrix n mu L gamma l : 0 < mu <= L -> eig_lower L 0 <= gamma <= eig_upper mu L 0 -> pairs_dim n l -> Forall (pair_ok mu L) l ->
  eig_bounds n (eig_lower L (length l)) (eig_upper mu L (length l)) (bfgs_matrix n gamma l).
Proof.
  intros Hm Hg. induction l as [|p l IH] using rev_ind; intros Hd Hp.
  - intros v Hv. unfold bfgs_matrix; cbn [fold_left length]. rewrite mvec_smul_eye, dot_smul_r by exact Hv.
    pose proof (dot_self_nonneg v). nra.
  - apply pairs_dim_snoc in Hd. destruct Hd as (Hd & D1 & D2). apply Forall_app in Hp. destruct Hp as [Hp Hp2]. pose proof (Forall_inv Hp2) as Hpp.
    specialize (IH Hd Hp). rewrite bfgs_matrix_snoc, app_length. cbn [length]. rewrite Nat.add_1_r. cbn [eig_upper].
    pose proof (eig_update n mu L _ _ _ (fst p) (snd p) Hm (eig_lower_pos L (length l) ltac:(lra)) (Rlt_le _ _ (eig_upper_pos mu L (length l) Hm))
      (bfgs_matrix_shape n gamma l Hd) D1 D2 ltac:(destruct p; exact Hpp) IH) as Q.
    assert (E : / (/ eig_lower L (length l) + L) = eig_lower L (S (length l))).
    { unfold eig_lower. rewrite S_INR, Rinv_involutive; [f_equal; ring|].
      pose proof (Rmax_l 1 L). pose proof (pos_INR (length l)). assert (0 <= INR (length l) * L) by nra. lra. }
    rewrite E in Q. exact Q.
Qed.

(** ** One step *)
Section Step.
Variables (n : nat) (mu L : R) (f : vec -> R) (gradf : vec -> vec).
Hypothesis HF : strongly_convex_smooth n mu L f gradf.
Let Hmu : 0 < mu. Proof. destruct HF as ((A & _) & _); exact A. Qed.
Let HL : 0 < L. Proof. destruct HF as ((A & B) & _); lra. Qed.
Let Hdim : grad_dim n gradf. Proof. destruct HF as (_ & A & _); exact A. Qed.
Variables (lo hi : R) (H : mat) (x : vec).
Hypothesis Hlo : 0 < lo.
Hypothesis Hhi : 0 < hi.
Hypothesis HH : mat_shape n n H.
Hypothesis Hsym : symmetric n H.
Hypothesis HB : eig_bounds n lo hi H.
Hypothesis Hx : length x = n.
Let g := gradf x.
Let d := smul (-1) (mvec H g).
Let q := dot g (mvec H g).
Let Hgl : length g = n. Proof. apply Hdim; exact Hx. Qed.
Let Hdl : length d = n. Proof. unfold d. rewrite smul_length, mvec_length. apply HH. Qed.
Lemma step_slope : dot g d = - q. Proof. unfold d, q. rewrite dot_smul_r. ring. Qed.
Lemma step_q : lo * dot g g <= q. Proof. apply (HB g Hgl). Qed.
Lemma step_q0 : 0 <= q. Proof. pose proof step_q. pose proof (dot_self_nonneg g). nra. Qed.
Lemma step_dd : dot d d <= hi * q.
Proof.
  pose proof (eig_norm n lo hi H g Hlo ltac:(lra) HH Hsym HB Hgl) as E. unfold d. autorewrite with vec. fold q in E. lra.
Qed.
(** An efficient step is at least [floor], unless the gradient vanishes. *)
Lemma efficient_floor c1 c2 tmin t : c2 < 1 -> efficient_step c1 c2 tmin f gradf x d t -> q <> 0 ->
  Rmin (wolfe_floor c2 L hi) tmin <= t.
Proof.
  intros Hc (Ht & _ & [C|C]) Hq; [|eapply Rle_trans; [apply Rmin_r|exact C]].
  eapply Rle_trans; [apply Rmin_l|]. pose proof step_q0 as Q0. pose proof step_dd as Dd.
  pose proof (ssc_slope n mu L f gradf HF x d t Hx Hdl ltac:(lra)) as S_. fold g in C, S_. rewrite step_slope in C, S_.
  assert (A : (1 - c2) * q <= L * t * (hi * q)) by (assert (L * t * dot d d <= L * t * (hi * q)) by (apply Rmult_le_compat_l; nra); lra).
  unfold wolfe_floor. apply (Rmult_le_reg_r (L * hi)); [nra|]. unfold Rdiv. rewrite Rmult_assoc, Rinv_l by nra.
  apply (Rmult_le_reg_r q); [lra|]. nra.
Qed.
Lemma decrease_gap c1 floor t fz z : 0 < c1 -> 0 < floor -> (q <> 0 -> floor <= t) -> length z = n ->
  0 <= t -> fz <= f x + c1 * t * dot g d -> fz - f z <= gap_factor mu c1 floor lo * (f x - f z).
Proof.
  intros Hc Hfl Hfloor Hz Ht A. rewrite step_slope in A. pose proof step_q as Q. pose proof step_q0 as Q0.
  pose proof (ssc_pl n mu L f gradf HF x z Hx Hz) as PL. fold g in PL.
  assert (A2 : fz <= f x - c1 * floor * q).
  { destruct (Req_dec q 0) as [E|E]; [rewrite E in *; lra|]. specialize (Hfloor E).
    assert (c1 * floor * q <= c1 * t * q) by (apply Rmult_le_compat_r; [exact Q0|]; nra). lra. }
  assert (A3 : c1 * floor * (lo * (2 * mu * (f x - f z))) <= c1 * floor * q).
  { apply Rmult_le_compat_l; [nra|]. eapply Rle_trans; [|exact Q]. apply Rmult_le_compat_l; lra. }
  unfold gap_factor. lra.
Qed.
End Step.

(** ** Factor *)
Lemma factor_range mu L c1 floor lo hi : 0 < mu <= L -> 0 < lo <= / L -> / mu <= hi -> 0 < c1 -> 0 < floor ->
  c1 * floor * (L * hi) <= 1 / 2 -> 0 <= gap_factor mu c1 floor lo < 1.
Proof.
  intros [Hm HL] [H1 H2] Hh Hc Hf A. unfold gap_factor.
  assert (P : 0 < mu * c1 * floor * lo) by (repeat apply Rmult_lt_0_compat; assumption).
  assert (B : mu * lo <= 1).
  { assert (mu * lo <= L * / L) by (apply Rmult_le_compat; lra). rewrite Rinv_r in H by lra. exact H. }
  assert (C : c1 * floor <= 1 / 2).
  { assert (1 <= L * hi). { assert (L * / mu <= L * hi) by (apply Rmult_le_compat_l; lra).
      assert (mu * / mu <= L * / mu) by (apply Rmult_le_compat_r; [left; apply Rinv_0_lt_compat|]; lra). rewrite Rinv_r in H0 by lra. lra. }
    assert (0 < c1 * floor) by nra. nra. }
  split; [|lra]. replace (2 * mu * c1 * floor * lo) with (2 * (c1 * floor) * (mu * lo)) by ring.
  assert (0 < c1 * floor) by nra. assert (0 < mu * lo) by nra. nra.
Qed.
Lemma eig_lower_le L m : 0 < L -> eig_lower L m <= / L.
Proof.
  intros HL. unfold eig_lower. apply Rinv_le_contravar; [exact HL|]. pose proof (Rmax_r 1 L). pose proof (pos_INR m).
  assert (0 <= INR m * L) by nra. lra.
Qed.
Lemma eig_upper_ge mu L m : 0 < mu <= L -> / mu <= eig_upper mu L m.
Proof.
  intros H. eapply Rle_trans; [|apply (eig_upper_mono mu L 0 m H); lia]. simpl. apply Rmax_r.
Qed.
Lemma gap_power (e : nat -> R) r K : 0 <= r -> (forall k, (k < K)%nat -> e (S k) <= r * e k) ->
  forall k, (k <= K)%nat -> e k <= r ^ k * e 0%nat.
Proof.
  intros Hr Hs. induction k as [|k IH]; intros Hk; [simpl; lra|].
  specialize (IH ltac:(lia)). specialize (Hs k ltac:(lia)). simpl. rewrite Rmult_assoc.
  eapply Rle_trans; [exact Hs|]. apply Rmult_le_compat_l; assumption.
Qed.
