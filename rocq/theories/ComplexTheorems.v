(** C63: on complex variables the line searches, L-BFGS and the nonlinear conjugate gradient method
    do what they do on the equivalent real problem. *)
From Coq Require Import String.
From Coq Require Import Reals List Lra Lia Bool Arith.
From Verif Require Import Prelude Vec Mat Loss Loop Run While Backtracking BacktrackingProofs BacktrackingTheorems Zoom QuasiNewton NonlinearCG HagerZhang Complex ComplexLS ComplexProofs.
Import ListNotations.
Open Scope R_scope.

(** Writing the complex variables as pairs of reals is a bijection that preserves sums,
    differences, products with real numbers, the (real) inner product and the norm. *)
Theorem C63_operations : forall (x y : cvec) (r : R),
  complexes (reals x) = x /\
  reals (cadd x y) = vadd (reals x) (reals y) /\
  reals (csub x y) = vsub (reals x) (reals y) /\
  reals (cscale r x) = smul r (reals x) /\
  vdot_real x y = dot (reals x) (reals y) /\
  cnorm2 x = norm2 (reals x).
Proof.
  intros x y r. split; [apply complexes_reals|]. split; [apply reals_add|]. split; [apply reals_sub|].
  split; [apply reals_scale|]. split; [apply vdot_real_reals|apply cnorm2_reals].
Qed.
Print Assumptions C63_operations.

(** jax.grad of the complex function, conjugated, is the gradient of the real function; the two
    determine each other. *)
Theorem C63_gradient : forall (f : cvec -> R) (g : cvec -> cvec),
  (jax_grad f g <-> grad_on_pairs (real_fun f) (real_grad g) /\ forall z, length (g z) = length z) /\
  (jax_grad f g -> forall G, grad_on_pairs (real_fun f) G -> forall z, G (reals z) = reals (cconj (g z))).
Proof.
  intros f g. split; [apply grad_iff|]. intros Hj G HG z.
  destruct (proj1 (grad_iff f g) Hj) as [H _].
  destruct (H (reals z) (length z) (reals_length z)) as [L1 D1]. destruct (HG (reals z) (length z) (reals_length z)) as [L2 D2].
  rewrite <- real_grad_reals. apply (nth_ext _ _ 0 0); [unfold vec in *; lia|].
  intros k Hk. rewrite L2 in Hk. exact (uniqueness_limite _ _ _ _ (D2 k Hk) (D1 k Hk)).
Qed.
Print Assumptions C63_gradient.

(** Backtracking: same steps, same flags, same counters; the points correspond. *)
Theorem C63_backtracking : forall cfg f g given s0 z v grad dir,
  let r := cbt_run cfg f g given s0 z v grad dir in
  bt_run cfg (real_fun f) (real_grad g) given s0 (reals z) v (reals (cconj grad)) (option_map reals dir) =
  (fst r, real_bt (snd r)).
Proof. intros. apply cbt_run_real. Qed.
Print Assumptions C63_backtracking.

(** Zoom *)
Theorem C63_zoom : forall cfg f g given s0 z v grad dir,
  let d := direction_or_steepest (reals (cconj grad)) (option_map reals dir) in
  let r := czoom_run cfg f g given s0 z v grad dir in
  zoom_run cfg (real_fun f) (real_grad g) rdot given s0 (reals z) v (reals (cconj grad)) (dot (reals (cconj grad)) d) d =
  (fst r, real_zoom (snd r)).
Proof. intros. apply czoom_run_real. Qed.
Print Assumptions C63_zoom.

(** Hager-Zhang *)
Theorem C63_hager_zhang : forall cfg f g nf fuel s0 z v grad dir,
  let d := direction_or_steepest (reals (cconj grad)) (option_map reals dir) in
  hz_run cfg (real_fun f) (real_grad g) rdot nf (reals z) d fuel s0 v (reals (cconj grad)) (dot (reals (cconj grad)) d) =
  option_map (fun r => (fst r, real_hz (snd r))) (chz_search cfg f g nf fuel s0 z v grad dir).
Proof. intros. apply chz_search_real. Qed.
Print Assumptions C63_hager_zhang.

(** The three searches, as the solvers call them, agree on the two problems. *)
Theorem C63_searches : forall f g,
  (forall cfg, ls_match (cbt_line_search cfg f g) (bt_line_search cfg (real_fun f) (real_grad g))) /\
  (forall cfg, ls_match (czoom_line_search cfg f g) (zoom_line_search cfg (real_fun f) (real_grad g))) /\
  (forall cfg nf fuel, ls_match (chz_line_search cfg nf fuel f g) (hz_line_search cfg nf fuel (real_fun f) (real_grad g))).
Proof. intros f g. split; [intros; apply cbt_match|]. split; [intros; apply czoom_match|intros; apply chz_match]. Qed.
Print Assumptions C63_searches.

(** What a successful Armijo search guarantees on complex variables. *)
Theorem C63_armijo : forall cfg (f : cvec -> xnum) g given s0 z v grad dir,
  condition cfg = Armijo -> 0 <= tol cfg -> 0 < s0 -> 0 < max_stepsize cfg -> 0 < decrease_factor cfg <= 1 -> (0 < maxiter cfg)%nat ->
  let d := match dir with None => cscale (-1) (cconj grad) | Some d => d end in
  let '(s, st) := cbt_run cfg f g given s0 z v grad dir in
  0 < s <= max_stepsize cfg /\ cb_params st = cadd z (cscale s d) /\
  (cb_done st = true -> xle_bound (f (cadd z (cscale s d))) (v + c1 cfg * s * vdot_real (cconj grad) d + tol cfg)).
Proof.
  intros cfg f g given s0 z v grad dir Hc H1 H2 H3 H4 H5 d.
  pose proof (C19_backtracking cfg (real_fun f) (real_grad g) given s0 (reals z) v (reals (cconj grad)) (option_map reals dir) H1 H2 H3 H4 H5) as C.
  cbv zeta in C. rewrite cbt_run_real in C. destruct (cbt_run cfg f g given s0 z v grad dir) as [s st]. cbn [fst snd] in C.
  assert (Ed : the_direction (option_map reals dir) (reals (cconj grad)) = reals d).
  { unfold d, the_direction. destruct dir; cbn [option_map]; [reflexivity|]. rewrite reals_scale. reflexivity. }
  rewrite Ed in C. destruct C as (k & _ & _ & _ & Hs & _ & Hd & Hrest). split; [exact Hs|].
  assert (Hp : cb_params st = cadd z (cscale s d)).
  { apply reals_inj. rewrite reals_add, reals_scale. apply Hrest. }
  split; [exact Hp|]. intros D. destruct (proj1 Hd D) as [A _]. cbv zeta in A.
  rewrite <- reals_scale, <- reals_add, real_fun_reals, <- vdot_real_reals in A. exact A.
Qed.
Print Assumptions C63_armijo.

(** L-BFGS: from corresponding states every update, every run (with its stopping test) and every
    error correspond, for any searches that agree. *)
Theorem C63_lbfgs : forall f g cls ls cfg, ls_match cls ls ->
  (forall z, lbfgs_init (real_fun f) (real_grad g) cfg (reals z) = real_lbfgs (clbfgs_init f g cfg z)) /\
  (forall z st, let w := clbfgs_warm_init f g (z, st) in
     lbfgs_warm_init (real_fun f) (real_grad g) (reals z, real_lbfgs st) = (reals (fst w), real_lbfgs (snd w))) /\
  (forall z st, lbfgs_update (real_fun f) (real_grad g) ls cfg (reals z, real_lbfgs st) =
     map_result (fun s => (reals (fst s), real_lbfgs (snd s))) (clbfgs_update f g cls cfg (z, st))) /\
  (forall n z st, lbfgs_solve (real_fun f) (real_grad g) ls cfg n (reals z, real_lbfgs st) =
     map_result (fun s => (reals (fst s), real_lbfgs (snd s))) (clbfgs_solve f g cls cfg n (z, st))).
Proof.
  intros f g cls ls cfg Hm. split; [intros; apply clbfgs_init_real|]. split; [intros; apply clbfgs_warm_real|].
  split; [intros z st; exact (clbfgs_update_real f g cls ls cfg Hm (z, st))|].
  intros n z st. exact (clbfgs_solve_real f g cls ls cfg Hm n (z, st)).
Qed.
Print Assumptions C63_lbfgs.

(** Nonlinear conjugate gradient *)
Theorem C63_ncg : forall f g cls ls cfg, ls_match cls ls ->
  (forall z st, ncg_update ls cfg (reals z, real_ncg st) =
     map_result (fun s => (reals (fst s), real_ncg (snd s))) (cncg_update cls cfg (z, st))) /\
  (forall n z, ncg_run (real_fun f) (real_grad g) ls cfg n (reals z) =
     map_result (fun s => (reals (fst s), real_ncg (snd s))) (cncg_run f g cls cfg n z)).
Proof.
  intros f g cls ls cfg Hm. split.
  - intros z st. exact (cncg_update_real cls ls cfg Hm (z, st)).
  - intros n z. exact (cncg_run_real f g cls ls cfg Hm n z).
Qed.
Print Assumptions C63_ncg.

Lemma abs2_bump z k c : (k < length z)%nat ->
  abs2 (cbump z k c) = abs2 z + (2 * re (nth k z (Cx 0 0)) * re c + 2 * im (nth k z (Cx 0 0)) * im c + (re c ^ 2 + im c ^ 2)).
Proof.
  unfold abs2. revert k. induction z as [|a z IH]; intros k Hk; cbn [length] in Hk; [lia|]. destruct k as [|k].
  - cbn [cbump map vsum nth]. unfold c_add. cbn [re im]. ring.
  - cbn [cbump map vsum nth]. rewrite IH by lia. ring.
Qed.
Lemma quad_deriv a b : derivable_pt_lim (fun t => a + (b * t + t ^ 2)) 0 b.
Proof.
  intros eps He. exists (mkposreal eps He). intros t Ht Hl. cbn [pos] in Hl.
  replace ((a + (b * (0 + t) + (0 + t) ^ 2) - (a + (b * 0 + 0 ^ 2))) / t - b) with t by (field; exact Ht). exact Hl.
Qed.
Lemma abs2_jax_grad : jax_grad abs2 abs2_grad.
Proof.
  intros z. split; [unfold abs2_grad, cscale; rewrite map_length; apply cconj_length|]. intros k Hk.
  assert (E : nth k (abs2_grad z) (Cx 0 0) = c_scale 2 (c_conj (nth k z (Cx 0 0)))).
  { unfold abs2_grad, cscale, cconj. rewrite map_map. rewrite nth_indep with (d' := c_scale 2 (c_conj (Cx 0 0)))
      by (rewrite map_length; exact Hk). exact (map_nth (fun a => c_scale 2 (c_conj a)) z (Cx 0 0) k). }
  rewrite E. unfold c_scale, c_conj. cbn [re im]. split.
  - refine (dpl_ext _ _ _ _ _ (quad_deriv (abs2 z) (2 * re (nth k z (Cx 0 0))))). intros t. rewrite abs2_bump by exact Hk. cbn [re im]. ring.
  - replace (- (2 * - im (nth k z (Cx 0 0)))) with (2 * im (nth k z (Cx 0 0))) by ring.
    refine (dpl_ext _ _ _ _ _ (quad_deriv (abs2 z) (2 * im (nth k z (Cx 0 0))))). intros t. rewrite abs2_bump by exact Hk. cbn [re im]. ring.
Qed.

(** The remaining first-order solvers take what jax.grad returns without conjugating it: on |z|^2
    a step of GradientDescent moves the imaginary part away from the minimum for every step size. *)
Theorem C63_gradient_descent_refuted : exists f g z,
  jax_grad f g /\ forall s, 0 < s -> f z < f (cgd_step s (g z) z) /\
    reals (cgd_step s (g z) z) <> vadd (reals z) (smul (- s) (real_grad g (reals z))).
Proof.
  exists abs2, abs2_grad, [Cx 0 1]. split; [exact abs2_jax_grad|]. intros s Hs. split.
  - unfold abs2, abs2_grad, cgd_step, cscale, cconj, c_scale, c_conj, c_add. cbn. unfold c_add. cbn. nra.
  - rewrite real_grad_reals. unfold abs2_grad, cgd_step, cscale, cconj, c_scale, c_conj, c_add, smul. cbn. unfold c_add. cbn.
    intros H. injection H. intros. lra.
Qed.
Print Assumptions C63_gradient_descent_refuted.

Example C63_example :
  jax_grad abs2 abs2_grad /\
  let cfg := {| qn_stepsize := StepConst (1/2); qn_linesearch_init := "max"; qn_increase_factor := 1; qn_max_stepsize := 1;
                qn_min_stepsize := 1; qn_tol := 0; qn_stop_if_linesearch_fails := false; qn_history_size := 2; qn_use_gamma := true |} in
  clbfgs_direction cfg (clbfgs_init abs2 abs2_grad cfg [Cx 1 2]) = [Cx (-2) (-4)] /\
  ls_match (cbt_line_search {| condition := Armijo; c1 := 1/10; c2 := 9/10; decrease_factor := 1/2; max_stepsize := 1; tol := 0; maxiter := 5 |} abs2 abs2_grad)
    (bt_line_search {| condition := Armijo; c1 := 1/10; c2 := 9/10; decrease_factor := 1/2; max_stepsize := 1; tol := 0; maxiter := 5 |} (real_fun abs2) (real_grad abs2_grad)).
Proof.
  split; [exact abs2_jax_grad|]. cbv zeta. split; [|apply C63_searches].
  unfold clbfgs_direction, clbfgs_init, abs2_grad. cbn. unfold cinv_hessian_product, vdot_real, c_scale, c_conj, c_add, c_mul. cbn.
  unfold c_add, c_scale. cbn. f_equal. f_equal; ring.
Qed.
