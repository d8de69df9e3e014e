From Coq Require Import Reals List Bool Lra Lia Arith.
From Verif Require Import Prelude Vec Loop Run Zoom ZoomProofs StochGrad.
Import ListNotations.
Open Scope R_scope.

(** ** Polyak *)
Definition well_posed (cfg : polyak_config) (gsq : R) : Prop :=
  match variant cfg with SPS_max => 0 < gsq + ps_delta cfg | SPS_plus => True end.

Lemma polyak_step_fin cfg v gsq : 0 <= ps_delta cfg -> 0 <= ps_eps cfg -> 0 <= gsq -> 0 <= ps_max_stepsize cfg ->
  well_posed cfg gsq ->
  exists s, polyak_stepsize cfg v gsq = Fin s /\
   (fun_min cfg <= v -> 0 <= s /\ s * gsq <= v - fun_min cfg) /\
   (variant cfg = SPS_max -> s = Rmin ((v - fun_min cfg) / (gsq + ps_delta cfg)) (ps_max_stepsize cfg)) /\
   (variant cfg = SPS_plus -> 0 <= s /\ ((gsq <= ps_eps cfg /\ s = 0) \/ (ps_eps cfg < gsq /\ s = Rmax 0 ((v - fun_min cfg) / gsq)))).
Proof.
  intros Hd He Hg Hms Hw. unfold polyak_stepsize, well_posed in *. destruct (variant cfg).
  - unfold xdiv. destruct (Req_EM_T (gsq + ps_delta cfg) 0) as [E|E]; [lra|]. cbn [xmin_fin].
    eexists. split; [reflexivity|]. split; [|split; [reflexivity|discriminate]]. intros Hv.
    assert (H0 : 0 <= (v - fun_min cfg) / (gsq + ps_delta cfg)).
    { apply Rmult_le_pos; [lra|]. left. apply Rinv_0_lt_compat. lra. }
    split; [apply Rmin_glb; assumption|].
    assert (Hm : Rmin ((v - fun_min cfg) / (gsq + ps_delta cfg)) (ps_max_stepsize cfg) <= (v - fun_min cfg) / (gsq + ps_delta cfg)) by apply Rmin_l.
    apply Rle_trans with ((v - fun_min cfg) / (gsq + ps_delta cfg) * gsq); [apply Rmult_le_compat_r; assumption|].
    apply Rle_trans with ((v - fun_min cfg) / (gsq + ps_delta cfg) * (gsq + ps_delta cfg)); [apply Rmult_le_compat_l; lra|].
    right. field. lra.
  - unfold Rleb. destruct (Rle_dec gsq (ps_eps cfg)) as [H|H].
    + exists 0. split; [reflexivity|]. split; [intros; lra|]. split; [discriminate|]. intros _. split; [lra|]. left. auto.
    + unfold xdiv. destruct (Req_EM_T gsq 0) as [E|E]; [lra|]. eexists. split; [reflexivity|].
      split; [|split; [discriminate|]].
      * intros Hv. split; [apply Rmax_r|].
        assert (H0 : 0 <= (v - fun_min cfg) / gsq) by (apply Rmult_le_pos; [lra|left; apply Rinv_0_lt_compat; lra]).
        rewrite Rmax_left by exact H0. right. field. lra.
      * intros _. split; [apply Rmax_r|]. right. split; [lra|]. apply Rmax_comm.
Qed.

Lemma polyak_contract n f gradf cfg x xs s :
  grad_convex n f gradf -> length x = n -> length xs = n -> f xs <= fun_min cfg ->
  0 <= s -> s * sqnorm (gradf x) <= f x - fun_min cfg ->
  dist2 (vadd x (smul (- s) (gradf x))) xs <= dist2 x xs - s * (f x - fun_min cfg).
Proof.
  intros Hc Hx Hxs Hmin Hs Hb. specialize (Hc x xs Hx Hxs).
  assert (E : dist2 (vadd x (smul (- s) (gradf x))) xs = dist2 x xs + 2 * (s * dot (gradf x) (vsub xs x)) + s * (s * sqnorm (gradf x))) by vring.
  rewrite E.
  assert (s * dot (gradf x) (vsub xs x) <= s * (fun_min cfg - f x)) by (apply Rmult_le_compat_l; lra).
  assert (s * (s * sqnorm (gradf x)) <= s * (f x - fun_min cfg)) by (apply Rmult_le_compat_l; lra).
  lra.
Qed.

(** A smooth function bounded below by fmin has ||g||^2 <= 2 L (f - fmin). *)
Lemma smooth_grad_bound n L f gradf fmin x : grad_smooth n L f gradf -> grad_shape n gradf -> 0 < L ->
  (forall y, length y = n -> fmin <= f y) -> length x = n -> sqnorm (gradf x) <= 2 * L * (f x - fmin).
Proof.
  intros HL Hsh HL0 Hm Hx. set (y := vadd x (smul (- / L) (gradf x))).
  assert (Hy : length y = n) by (unfold y; rewrite vadd_length, smul_length, Hsh by exact Hx; lia).
  pose proof (HL x y Hx Hy) as H. pose proof (Hm y Hy) as H2.
  assert (E1 : dot (gradf x) (vsub y x) = - / L * sqnorm (gradf x)) by (unfold y; vring).
  assert (E2 : dist2 y x = / L * / L * sqnorm (gradf x)) by (unfold y; vring).
  rewrite E1, E2 in H. assert (HiL : / L * L = 1) by (apply Rinv_l; lra).
  assert (E3 : L / 2 * (/ L * / L * sqnorm (gradf x)) = / L * sqnorm (gradf x) / 2) by (field; lra).
  rewrite E3 in H. assert (H4 : / L * sqnorm (gradf x) / 2 <= f x - fmin) by lra.
  apply Rmult_le_compat_l with (r := 2 * L) in H4; [|lra].
  replace (2 * L * (/ L * sqnorm (gradf x) / 2)) with (sqnorm (gradf x)) in H4 by (field; lra). exact H4.
Qed.

(** ** Armijo *)
Section A.
Variable cfg : armijo_config.
Variable f : vec -> R.
Variable goldstein : bool.
Variable x g : vec.
Notation pt s := (vadd x (smul (- s) g)).
Notation c := (ar_coef cfg).
Notation body := (armijo_body cfg f goldstein x (f x) g).

Lemma wolfe_false s : wolfe_cond_violated (ar_eps cfg) s c (f x) (f (pt s)) (sqnorm g) = false <->
  armijo_ok f x g c (ar_eps cfg) s.
Proof.
  unfold wolfe_cond_violated, armijo_ok, Rltb. destruct (Rlt_dec _ _); split; intros; try discriminate; auto; lra.
Qed.
Lemma curv_false s : curvature_cond_violated s c (f x) (f (pt s)) (sqnorm g) = false <-> goldstein_ok f x g c s.
Proof.
  unfold curvature_cond_violated, goldstein_ok, Rltb. destruct (Rlt_dec _ _); split; intros; try discriminate; auto; lra.
Qed.

(** Loop states are consistent; a false flag means both conditions hold. *)
Definition ls_inv (t : R * vec * R * bool) : Prop :=
  let '(s, p, v, b) := t in
  p = pt s /\ v = f p /\ 0 < s <= ar_max_stepsize cfg /\
  (b = false -> armijo_ok f x g c (ar_eps cfg) s /\ (goldstein = true -> goldstein_ok f x g c s)).

Lemma body_inv t : 0 < decrease_factor cfg -> 0 < increase_factor cfg -> ls_inv t -> ls_inv (body t).
Proof.
  intros Hd Hi. destruct t as [[[s p] v] b]. intros (-> & -> & Hs & _).
  assert (Hmax : 0 < ar_max_stepsize cfg) by lra.
  assert (Hu : forall a k, 0 < a -> 0 < k -> 0 < Rmin (a * k) (ar_max_stepsize cfg) <= ar_max_stepsize cfg).
  { intros a k Ha Hk. split; [apply Rmin_glb_lt; [apply Rmult_lt_0_compat; assumption|exact Hmax]|apply Rmin_r]. }
  unfold armijo_body, update_stepsize.
  destruct (wolfe_cond_violated _ s _ _ _ _) eqn:Ew.
  - set (s1 := Rmin (s * decrease_factor cfg) (ar_max_stepsize cfg)).
    assert (Hs1 : 0 < s1 <= ar_max_stepsize cfg) by (apply Hu; lra).
    destruct goldstein eqn:Eg.
    + destruct (curvature_cond_violated s1 _ _ _ _) eqn:Ec.
      * unfold ls_inv. split; [reflexivity|]. split; [reflexivity|]. split; [apply Hu; lra|]. intros Hf; discriminate Hf.
      * unfold ls_inv. split; [reflexivity|]. split; [reflexivity|]. split; [exact Hs1|]. intros Hf; discriminate Hf.
    + unfold ls_inv. split; [reflexivity|]. split; [reflexivity|]. split; [exact Hs1|]. discriminate.
  - apply wolfe_false in Ew. destruct goldstein eqn:Eg.
    + destruct (curvature_cond_violated s _ _ _ _) eqn:Ec.
      * unfold ls_inv. split; [reflexivity|]. split; [reflexivity|]. split; [apply Hu; lra|]. intros Hf; discriminate Hf.
      * apply curv_false in Ec. unfold ls_inv. split; [reflexivity|]. split; [reflexivity|]. split; [exact Hs|]. auto.
    + unfold ls_inv. split; [reflexivity|]. split; [reflexivity|]. split; [exact Hs|]. intros _. split; [exact Ew|intros Hf; rewrite Eg in Hf; discriminate Hf].
Qed.

Lemma armijo_ls_spec s0 : 0 < decrease_factor cfg -> 0 < increase_factor cfg -> 0 < s0 <= ar_max_stepsize cfg ->
  exists s k, armijo_line_search cfg f goldstein x (f x) g s0 = (s, pt s, f (pt s)) /\
   0 < s <= ar_max_stepsize cfg /\ (k <= ar_maxls cfg)%nat /\
   (k = ar_maxls cfg \/ (armijo_ok f x g c (ar_eps cfg) s /\ (goldstein = true -> goldstein_ok f x g c s))) /\
   (forall j, (j < k)%nat -> snd (Nat.iter j body (s0, pt s0, f (pt s0), true)) = true).
Proof.
  intros Hd Hi Hs0. unfold armijo_line_search.
  destruct (python_for_spec (@snd (R * vec * R) bool) body (ar_maxls cfg) (s0, pt s0, f (pt s0), true)) as (k & Hk & E & Hc & Hs).
  rewrite E. assert (Hinv : ls_inv (Nat.iter k body (s0, pt s0, f (pt s0), true))).
  { clear -Hd Hi Hs0. induction k as [|k IH]; [simpl; repeat split; try lra; discriminate|]. simpl. apply body_inv; assumption. }
  destruct (Nat.iter k body (s0, pt s0, f (pt s0), true)) as [[[s p] v] b] eqn:Et.
  destruct Hinv as (-> & -> & Hsb & Hb). exists s, k. split; [reflexivity|]. split; [exact Hsb|]. split; [exact Hk|].
  split; [|exact Hc].
  destruct Hs as [Hs|Hs]; [left; exact Hs|right]. cbn [snd] in Hs. apply Hb, Hs.
Qed.
End A.

(** Without Goldstein: geometric decrease. *)
Section A2.
Variable cfg : armijo_config.
Variable f : vec -> R.
Variable x g : vec.
Notation pt s := (vadd x (smul (- s) g)).
Notation c := (ar_coef cfg).
Notation body := (armijo_body cfg f false x (f x) g).

Lemma plain_ls_spec s0 : 0 < decrease_factor cfg <= 1 -> 0 < s0 <= ar_max_stepsize cfg ->
  exists k, (k <= ar_maxls cfg)%nat /\
   let s := s0 * decrease_factor cfg ^ k in
   armijo_line_search cfg f false x (f x) g s0 = (s, pt s, f (pt s)) /\
   (forall j, (j < k)%nat -> ~ armijo_ok f x g c (ar_eps cfg) (s0 * decrease_factor cfg ^ j)) /\
   (k = ar_maxls cfg \/ armijo_ok f x g c (ar_eps cfg) s).
Proof.
  intros Hd. unfold armijo_line_search. generalize (ar_maxls cfg) as n. intros n. revert s0.
  induction n as [|n IH]; intros s0 Hs0.
  - exists 0%nat. cbn. rewrite Rmult_1_r. repeat split; auto; lia.
  - cbn [python_for snd]. unfold armijo_body at 2.
    destruct (wolfe_cond_violated (ar_eps cfg) s0 c (f x) (f (pt s0)) (sqnorm g)) eqn:Ew.
    + unfold update_stepsize. rewrite (Rmin_left (s0 * decrease_factor cfg)) by nra.
      destruct (IH (s0 * decrease_factor cfg)) as (k & Hk & E & Hbad & Hok); [nra|].
      exists (S k). split; [lia|]. cbv zeta in *.
      replace (s0 * decrease_factor cfg ^ S k) with (s0 * decrease_factor cfg * decrease_factor cfg ^ k) by (simpl; ring).
      split; [exact E|]. split.
      * intros [|j] Hj; [simpl; rewrite Rmult_1_r; intros Ha; apply (proj2 (wolfe_false cfg f x g s0)) in Ha; congruence|].
        replace (s0 * decrease_factor cfg ^ S j) with (s0 * decrease_factor cfg * decrease_factor cfg ^ j) by (simpl; ring).
        apply Hbad. lia.
      * destruct Hok as [Hok|Hok]; [left; lia|right; exact Hok].
    + exists 0%nat. split; [lia|]. cbn [pow]. cbv zeta. rewrite Rmult_1_r. split; [|split; [intros; lia|right; apply wolfe_false; exact Ew]].
      destruct n; [reflexivity|]. cbn [python_for snd]. reflexivity.
Qed.

(** Short enough steps satisfy the condition. *)
Lemma armijo_short n L gradf s : grad_smooth n L f gradf -> grad_shape n gradf -> length x = n -> g = gradf x ->
  0 <= ar_eps cfg -> 0 < s -> s * L <= 2 * (1 - c) -> armijo_ok f x g c (ar_eps cfg) s.
Proof.
  intros HL Hsh Hx Eg He Hs Hc. unfold armijo_ok.
  assert (Hy : length (pt s) = n) by (rewrite vadd_length, smul_length, Eg, Hsh by exact Hx; lia).
  pose proof (HL x (pt s) Hx Hy) as H. rewrite <- Eg in H.
  assert (E1 : dot g (vsub (pt s) x) = - s * sqnorm g) by vring.
  assert (E2 : dist2 (pt s) x = s * s * sqnorm g) by vring.
  rewrite E1, E2 in H. assert (Hn : 0 <= sqnorm g) by apply dot_self_nonneg.
  assert (s * L * (s * sqnorm g) <= 2 * (1 - c) * (s * sqnorm g)) by (apply Rmult_le_compat_r; [nra|exact Hc]).
  nra.
Qed.
End A2.
