(** Proofs about Complex.v and ComplexLS.v. *)
From Coq Require Import String.
From Coq Require Import Reals List Lra Lia Bool Arith.
From Verif Require Import Prelude Vec Mat Loss Loop Run While Backtracking Zoom QuasiNewton NonlinearCG HagerZhang Complex ComplexLS.
Import ListNotations.
Open Scope R_scope.

(** ** Arithmetic *)
Lemma reals_cons a z : reals (a :: z) = re a :: im a :: reals z.
Proof. reflexivity. Qed.
Lemma reals_length z : length (reals z) = (2 * length z)%nat.
Proof. induction z as [|a z IH]; [reflexivity|]. rewrite reals_cons. cbn [length]. rewrite IH. lia. Qed.
Lemma complexes_reals z : complexes (reals z) = z.
Proof. induction z as [|[a b] z IH]; [reflexivity|]. rewrite reals_cons. cbn [complexes re im]. rewrite IH. reflexivity. Qed.
Lemma reals_complexes x n : length x = (2 * n)%nat -> reals (complexes x) = x.
Proof.
  revert x. induction n as [|n IH]; intros x Hx.
  - destruct x; [reflexivity|discriminate].
  - destruct x as [|a [|b x]]; cbn [length] in Hx; try lia. cbn [complexes]. rewrite reals_cons. cbn [re im].
    rewrite IH by lia. reflexivity.
Qed.
Lemma complexes_length x n : length x = (2 * n)%nat -> length (complexes x) = n.
Proof. intros Hx. pose proof (reals_length (complexes x)) as H. rewrite (reals_complexes x n Hx) in H. lia. Qed.
Lemma reals_inj x y : reals x = reals y -> x = y.
Proof. intros H. rewrite <- (complexes_reals x), <- (complexes_reals y), H. reflexivity. Qed.
Lemma reals_add x y : reals (cadd x y) = vadd (reals x) (reals y).
Proof.
  revert y. induction x as [|a x IH]; intros [|b y]; try reflexivity.
  cbn [cadd]. rewrite !reals_cons. cbn [vadd c_add re im]. rewrite IH. reflexivity.
Qed.
Lemma reals_scale r x : reals (cscale r x) = smul r (reals x).
Proof.
  induction x as [|a x IH]; [reflexivity|]. cbn [cscale map]. rewrite !reals_cons. fold (cscale r x).
  unfold smul. cbn [map c_scale re im]. fold (smul r (reals x)). rewrite IH. reflexivity.
Qed.
Lemma reals_sub x y : reals (csub x y) = vsub (reals x) (reals y).
Proof.
  revert y. induction x as [|a x IH]; intros [|b y]; try reflexivity.
  - change (csub [] (b :: y)) with (cscale (-1) (b :: y)). rewrite reals_scale. cbn [reals vsub flat_map].
    unfold smul. apply map_ext. intros c. ring.
  - cbn [csub]. rewrite !reals_cons. cbn [vsub c_sub re im]. rewrite IH. reflexivity.
Qed.
Lemma vdot_real_reals x y : vdot_real x y = dot (reals x) (reals y).
Proof.
  unfold vdot_real. revert y. induction x as [|a x IH]; intros [|b y]; try reflexivity.
  cbn [cvdot]. rewrite !reals_cons. cbn [dot c_add c_mul c_conj re im]. rewrite IH. ring.
Qed.
Lemma cconj_sub x y : cconj (csub x y) = csub (cconj x) (cconj y).
Proof.
  revert y. induction x as [|a x IH]; intros [|b y]; try reflexivity.
  - cbn [cconj csub map]. unfold cconj. rewrite !map_map. f_equal.
    + unfold c_conj, c_scale. cbn [re im]. f_equal; ring.
    + apply map_ext. intros c. unfold c_conj, c_scale. cbn [re im]. f_equal; ring.
  - cbn [csub cconj map]. fold (cconj x). fold (cconj y). cbn [csub]. f_equal; [|apply IH].
    unfold c_conj, c_sub. cbn [re im]. f_equal; ring.
Qed.
Lemma cconj_scale r x : cconj (cscale r x) = cscale r (cconj x).
Proof.
  unfold cconj, cscale. rewrite !map_map. apply map_ext. intros a. unfold c_conj, c_scale. cbn [re im]. f_equal; ring.
Qed.
Lemma cconj_invol x : cconj (cconj x) = x.
Proof.
  unfold cconj. rewrite map_map. rewrite <- (map_id x) at 2. apply map_ext. intros [a b]. unfold c_conj. cbn [re im]. f_equal. ring.
Qed.
Lemma cconj_length x : length (cconj x) = length x.
Proof. apply map_length. Qed.
Lemma vdot_conj x y : vdot_real (cconj x) (cconj y) = vdot_real x y.
Proof.
  unfold vdot_real. revert y. induction x as [|a x IH]; intros [|b y]; try reflexivity.
  cbn [cconj map]. fold (cconj x). fold (cconj y). cbn [cvdot c_add c_mul c_conj re im]. rewrite IH. ring.
Qed.
Lemma cnorm2_reals x : cnorm2 x = norm2 (reals x).
Proof.
  unfold cnorm2, norm2. f_equal. induction x as [|a x IH]; [reflexivity|].
  cbn [map vsum]. rewrite reals_cons. cbn [dot]. rewrite IH. ring.
Qed.
Lemma norm2_conj x : norm2 (reals (cconj x)) = cnorm2 x.
Proof. rewrite cnorm2_reals. unfold norm2. rewrite <- !vdot_real_reals, vdot_conj. reflexivity. Qed.
Lemma reals_zero n : reals (czero n) = vzero (2 * n).
Proof.
  induction n as [|n IH]; [reflexivity|]. change (czero (S n)) with (Cx 0 0 :: czero n). rewrite reals_cons, IH.
  replace (2 * S n)%nat with (S (S (2 * n))) by lia. reflexivity.
Qed.
Lemma real_fun_reals {A} (f : cvec -> A) z : real_fun f (reals z) = f z.
Proof. unfold real_fun. rewrite complexes_reals. reflexivity. Qed.
Lemma real_grad_reals g z : real_grad g (reals z) = reals (cconj (g z)).
Proof. unfold real_grad. rewrite complexes_reals. reflexivity. Qed.
Lemma if_reals (b : bool) x y : (if b then reals x else reals y) = reals (if b then x else y).
Proof. destruct b; reflexivity. Qed.
Lemma if_conj (b : bool) x y : (if b then reals (cconj x) else reals (cconj y)) = reals (cconj (if b then x else y)).
Proof. destruct b; reflexivity. Qed.
Lemma nth_reals i (l : list cvec) : nth i (map reals l) [] = reals (nth i l []).
Proof. change (@nil R) with (reals []) at 1. apply map_nth. Qed.
Lemma map_set_nth {A B} (h : A -> B) l i v : map h (set_nth l i v) = set_nth (map h l) i (h v).
Proof. revert i. induction l as [|a l IH]; intros [|i]; simpl; try reflexivity. rewrite IH. reflexivity. Qed.

Lemma map_repeat_eq {A B} (h : A -> B) a n : map h (repeat a n) = repeat (h a) n.
Proof. induction n; simpl; congruence. Qed.

(** ** The gradient *)
Lemma dpl_ext (f h : R -> R) x l : (forall t, f t = h t) -> derivable_pt_lim f x l -> derivable_pt_lim h x l.
Proof.
  intros E H eps He. destruct (H eps He) as [d Hd]. exists d. intros t Ht Hl. rewrite <- !E. apply Hd; assumption.
Qed.
Lemma complexes_bump_re x n k t : length x = (2 * n)%nat -> (k < n)%nat ->
  complexes (bump x (2 * k) t) = cbump (complexes x) k (Cx t 0).
Proof.
  revert x k. induction n as [|n IH]; intros x k Hx Hk; [lia|].
  destruct x as [|a [|b x]]; cbn [length] in Hx; try lia. destruct k as [|k].
  - cbn [Nat.mul Nat.add bump complexes cbump]. f_equal. unfold c_add. cbn [re im]. f_equal. ring.
  - replace (2 * S k)%nat with (S (S (2 * k))) by lia. cbn [bump complexes cbump]. f_equal. apply IH; lia.
Qed.
Lemma complexes_bump_im x n k t : length x = (2 * n)%nat -> (k < n)%nat ->
  complexes (bump x (2 * k + 1) t) = cbump (complexes x) k (Cx 0 t).
Proof.
  revert x k. induction n as [|n IH]; intros x k Hx Hk; [lia|].
  destruct x as [|a [|b x]]; cbn [length] in Hx; try lia. destruct k as [|k].
  - cbn [Nat.mul Nat.add bump complexes cbump]. f_equal. unfold c_add. cbn [re im]. f_equal. ring.
  - replace (2 * S k + 1)%nat with (S (S (2 * k + 1))) by lia. cbn [bump complexes cbump]. f_equal. apply IH; lia.
Qed.
Lemma nth_reals_re v k : nth (2 * k) (reals (cconj v)) 0 = re (nth k v (Cx 0 0)).
Proof.
  revert k. induction v as [|a v IH]; intros k.
  - cbn [cconj map reals flat_map]. destruct k; cbn [nth]; try reflexivity.
  - cbn [cconj map]. rewrite reals_cons. fold (cconj v). destruct k as [|k]; [reflexivity|].
    replace (2 * S k)%nat with (S (S (2 * k))) by lia. cbn [nth]. apply IH.
Qed.
Lemma nth_reals_im v k : nth (2 * k + 1) (reals (cconj v)) 0 = - im (nth k v (Cx 0 0)).
Proof.
  revert k. induction v as [|a v IH]; intros k.
  - cbn [cconj map reals flat_map]. replace (nth k [] (Cx 0 0)) with (Cx 0 0) by (destruct k; reflexivity).
    cbn [im]. destruct (2 * k + 1)%nat; cbn [nth]; lra.
  - cbn [cconj map]. rewrite reals_cons. fold (cconj v). destruct k as [|k]; [reflexivity|].
    replace (2 * S k + 1)%nat with (S (S (2 * k + 1))) by lia. cbn [nth]. apply IH.
Qed.
Lemma half k n : (k < 2 * n)%nat -> exists j, (j < n)%nat /\ (k = (2 * j)%nat \/ k = (2 * j + 1)%nat).
Proof.
  intros H. exists (k / 2)%nat. pose proof (Nat.div_mod k 2 ltac:(lia)) as E.
  pose proof (Nat.mod_upper_bound k 2 ltac:(lia)). split; lia.
Qed.
Lemma grad_iff f g : jax_grad f g <-> grad_on_pairs (real_fun f) (real_grad g) /\ forall z, length (g z) = length z.
Proof.
  split.
  - intros H. split; [|intros z; exact (proj1 (H z))]. intros x n Hx. destruct (H (complexes x)) as [Hl Hd].
    rewrite (complexes_length x n Hx) in Hl, Hd. split.
    + unfold real_grad. rewrite reals_length, cconj_length, Hl. unfold vec in *. lia.
    + intros k Hk. rewrite Hx in Hk. destruct (half k n Hk) as (j & Hj & [-> | ->]); destruct (Hd j Hj) as [H1 H2].
      * unfold real_grad. rewrite nth_reals_re. refine (dpl_ext _ _ _ _ _ H1). intros t. unfold real_fun.
        rewrite (complexes_bump_re x n j t Hx Hj). reflexivity.
      * unfold real_grad. rewrite nth_reals_im. refine (dpl_ext _ _ _ _ _ H2). intros t. unfold real_fun.
        rewrite (complexes_bump_im x n j t Hx Hj). reflexivity.
  - intros [H Hlen] z. split; [apply Hlen|]. intros k Hk. destruct (H (reals z) (length z) (reals_length z)) as [_ Hd].
    rewrite reals_length in Hd. split.
    + pose proof (Hd (2 * k)%nat ltac:(lia)) as H1. rewrite real_grad_reals, nth_reals_re in H1.
      refine (dpl_ext _ _ _ _ _ H1). intros t. unfold real_fun.
      rewrite (complexes_bump_re _ (length z) k t (reals_length z) Hk), complexes_reals. reflexivity.
    + pose proof (Hd (2 * k + 1)%nat ltac:(lia)) as H1. rewrite real_grad_reals, nth_reals_im in H1.
      refine (dpl_ext _ _ _ _ _ H1). intros t. unfold real_fun.
      rewrite (complexes_bump_im _ (length z) k t (reals_length z) Hk), complexes_reals. reflexivity.
Qed.

(** ** Loops *)
Lemma python_for_sim {A B} (Rel : A -> B -> Prop) condA condB (fA : A -> A) (fB : B -> B) :
  (forall a b, Rel a b -> condA a = condB b) -> (forall a b, Rel a b -> Rel (fA a) (fB b)) ->
  forall n a b, Rel a b -> Rel (python_for condA fA n a) (python_for condB fB n b).
Proof.
  intros Hc Hf. induction n as [|n IH]; intros a b Hab; simpl; [exact Hab|].
  rewrite (Hc a b Hab). destruct (condB b); auto.
Qed.
Lemma run_loop_sim {A B} (Rel : A -> B -> Prop) n condA condB (fA : A -> A) (fB : B -> B) a b :
  (forall a b, Rel a b -> condA a = condB b) -> (forall a b, Rel a b -> Rel (fA a) (fB b)) ->
  Rel a b -> Rel (run_loop n condA fA a) (run_loop n condB fB b).
Proof. intros Hc Hf Hab. destruct n; simpl; [exact Hab|]. apply python_for_sim; auto. Qed.
Lemma while_ext {V} cond (b1 b2 : V -> option V) : (forall v, b1 v = b2 v) -> forall n v, while_fuel n cond b1 v = while_fuel n cond b2 v.
Proof.
  intros E. induction n as [|n IH]; intros v; simpl; [reflexivity|]. rewrite <- E. destruct (cond v); [|reflexivity].
  destruct (b1 v); [apply IH|reflexivity].
Qed.

(** ** Backtracking *)
Lemma cbt_update_real cfg f g z dir s st :
  bt_update cfg (real_fun f) (real_grad g) (reals z)
    (reals (match dir with None => cscale (-1) (cconj (cb_grad_init st)) | Some d => d end)) (s, real_bt st) =
  (fst (cbt_update cfg f g z dir (s, st)), real_bt (snd (cbt_update cfg f g z dir (s, st)))).
Proof.
  unfold bt_update, cbt_update. cbv zeta. cbn [fst snd].
  set (d := match dir with None => _ | Some d => d end).
  cbn [real_bt iter_num st_params st_value st_grad value_init grad_init error done failed num_fun_eval num_grad_eval].
  rewrite <- !reals_scale, <- !reals_add, !real_fun_reals, !real_grad_reals, <- !vdot_real_reals.
  destruct (condition cfg); cbn [andb]; unfold real_bt;
    cbn [cb_iter cb_params cb_value cb_grad cb_value_init cb_grad_init cb_error cb_done cb_failed cb_num_fun cb_num_grad];
    rewrite ?if_conj, <- ?vdot_real_reals; reflexivity.
Qed.
Lemma cbt_grad_init cfg f g z dir step : cb_grad_init (snd (cbt_update cfg f g z dir step)) = cb_grad_init (snd step).
Proof. destruct step as [s st]. reflexivity. Qed.
Lemma cbt_run_real cfg f g given s0 z v grad dir :
  bt_run cfg (real_fun f) (real_grad g) given s0 (reals z) v (reals (cconj grad)) (option_map reals dir) =
  (fst (cbt_run cfg f g given s0 z v grad dir), real_bt (snd (cbt_run cfg f g given s0 z v grad dir))).
Proof.
  unfold bt_run, cbt_run.
  set (d' := match option_map reals dir with Some d => d | None => _ end).
  assert (Ed : d' = reals (match dir with None => cscale (-1) (cconj grad) | Some d => d end)).
  { unfold d'. destruct dir; cbn [option_map]; [reflexivity|]. rewrite reals_scale. reflexivity. }
  pose (Rel := fun (a : R * bt_state) (b : R * cbt_state) => a = (fst b, real_bt (snd b)) /\ cb_grad_init (snd b) = grad).
  assert (H : Rel (run_loop (maxiter cfg) (fun st => xgtb (error (snd st)) (tol cfg)) (bt_update cfg (real_fun f) (real_grad g) (reals z) d')
      (s0, bt_init given (reals z) v (reals (cconj grad))))
    (run_loop (maxiter cfg) (fun st => xgtb (cb_error (snd st)) (tol cfg)) (cbt_update cfg f g z dir) (s0, cbt_init given z v grad))).
  { apply run_loop_sim.
    - intros a b [-> _]. reflexivity.
    - intros a [s st] [-> Hg]. cbn [fst snd] in *. split; [|rewrite cbt_grad_init; exact Hg].
      rewrite Ed, <- Hg. apply cbt_update_real.
    - split; reflexivity. }
  exact (proj1 H).
Qed.

(** ** Zoom *)
Lemma rdot_slope g z d : rdot (real_grad g (reals z)) (reals d) = cz_slope (g z) d.
Proof. unfold rdot, cz_slope. rewrite real_grad_reals, vdot_real_reals. reflexivity. Qed.
Lemma zoom_point st s : line_point (real_zoom st) s = reals (cline_point st s).
Proof. unfold line_point, cline_point. rewrite reals_add, reals_scale. reflexivity. Qed.
Ltac zfields :=
  cbn [z_iter z_params z_value z_grad z_value_init z_slope_init z_dir z_num_fun z_num_grad z_decrease_error z_curvature_error
    z_error z_done z_failed z_found z_prev z_prev_value z_prev_slope z_low z_value_low z_slope_low z_high z_value_high z_slope_high
    z_cubic_ref z_value_cubic_ref z_safe y_iter y_params y_value y_grad y_value_init y_slope_init y_dir y_num_fun y_num_grad
    y_decrease_error y_curvature_error y_error y_done y_failed y_found y_prev y_prev_value y_prev_slope y_low y_value_low
    y_slope_low y_high y_value_high y_slope_high y_cubic_ref y_value_cubic_ref y_safe fst snd].
Lemma search_real cfg f g s st :
  search_interval cfg (real_fun f) (real_grad g) rdot s (real_zoom st) =
  (fst (csearch_interval cfg f g s st), real_zoom (snd (csearch_interval cfg f g s st))).
Proof.
  unfold search_interval, csearch_interval. cbv zeta. rewrite zoom_point. unfold real_zoom. zfields.
  rewrite !real_fun_reals, !rdot_slope, !real_grad_reals, !if_conj, !if_reals. reflexivity.
Qed.
Lemma zoom_in_real cfg f g st :
  zoom_into_interval cfg (real_fun f) (real_grad g) rdot (real_zoom st) =
  (fst (czoom_into_interval cfg f g st), real_zoom (snd (czoom_into_interval cfg f g st))).
Proof.
  unfold zoom_into_interval, czoom_into_interval. cbv zeta. rewrite zoom_point. unfold real_zoom. zfields.
  change (choose_middle cfg _) with (cchoose_middle cfg st).
  rewrite !real_fun_reals, !rdot_slope, !real_grad_reals, !if_conj, !if_reals. reflexivity.
Qed.
Lemma safe_real f g s st :
  make_safe_step (real_fun f) (real_grad g) s (real_zoom st) =
  (fst (cmake_safe_step f g s st), real_zoom (snd (cmake_safe_step f g s st))).
Proof.
  unfold make_safe_step, cmake_safe_step. cbv zeta. rewrite zoom_point. unfold real_zoom. zfields.
  rewrite !real_fun_reals, !real_grad_reals. reflexivity.
Qed.
Lemma zoom_update_real cfg f g s st :
  zoom_update cfg (real_fun f) (real_grad g) rdot (s, real_zoom st) =
  (fst (czoom_update cfg f g (s, st)), real_zoom (snd (czoom_update cfg f g (s, st)))).
Proof.
  unfold zoom_update, czoom_update.
  assert (E : trial_step cfg (real_fun f) (real_grad g) rdot (s, real_zoom st) =
    (fst (ctrial_step cfg f g (s, st)), real_zoom (snd (ctrial_step cfg f g (s, st))))).
  { unfold trial_step, ctrial_step. cbn [real_zoom z_found]. destruct (y_found st).
    - apply zoom_in_real.
    - apply search_real. }
  rewrite E. destruct (ctrial_step cfg f g (s, st)) as [s1 st1]. cbn [fst snd].
  change (add_evals 1 (real_zoom st1)) with (real_zoom (cadd_evals 1 st1)).
  change (z_failed (real_zoom (cadd_evals 1 st1))) with (y_failed (cadd_evals 1 st1)).
  destruct (y_failed (cadd_evals 1 st1)); [|reflexivity].
  rewrite safe_real. destruct (cmake_safe_step f g s1 (cadd_evals 1 st1)). reflexivity.
Qed.
Lemma czoom_run_real cfg f g given s0 z v grad dir :
  let d := direction_or_steepest (reals (cconj grad)) (option_map reals dir) in
  zoom_run cfg (real_fun f) (real_grad g) rdot given s0 (reals z) v (reals (cconj grad)) (dot (reals (cconj grad)) d) d =
  (fst (czoom_run cfg f g given s0 z v grad dir), real_zoom (snd (czoom_run cfg f g given s0 z v grad dir))).
Proof.
  cbv zeta. unfold zoom_run, czoom_run.
  apply (run_loop_sim (fun (a : R * zstate vec) (b : R * czstate) => a = (fst b, real_zoom (snd b)))).
  - intros a b ->. reflexivity.
  - intros a [s st] ->. apply zoom_update_real.
  - cbn [fst snd]. f_equal. unfold zoom_init, czoom_init, real_zoom. cbv zeta. zfields.
    assert (Ed : direction_or_steepest (reals (cconj grad)) (option_map reals dir) =
                 reals (match dir with None => cscale (-1) (cconj grad) | Some d => d end)).
    { destruct dir; cbn [option_map direction_or_steepest]; [reflexivity|]. rewrite reals_scale. reflexivity. }
    rewrite Ed, <- vdot_real_reals. reflexivity.
Qed.

(** ** Hager-Zhang *)
Section HZ.
Variables (cfg : hz_config) (f : cvec -> xnum) (g : cvec -> cvec) (nf : bool) (z d : cvec).
Notation F := (real_fun f).
Notation Gr := (real_grad g).
Lemma hz_line c : line (reals z) (reals d) c = reals (cline z d c).
Proof. unfold line, cline. rewrite reals_add, reals_scale. reflexivity. Qed.
Lemma hz_value c : lvalue F (reals z) (reals d) c = clvalue f z d c.
Proof. unfold lvalue, clvalue. rewrite hz_line, real_fun_reals. reflexivity. Qed.
Lemma hz_slope c : lslope Gr rdot (reals z) (reals d) c = clslope g z d c.
Proof. unfold lslope, clslope. rewrite hz_line, rdot_slope. reflexivity. Qed.
Lemma hz_interval_real fuel low high m thr :
  hz_update_interval F Gr rdot nf (reals z) (reals d) fuel low high m thr = chz_update_interval f g nf z d fuel low high m thr.
Proof.
  unfold hz_update_interval, chz_update_interval. destruct m as [m|]; [|reflexivity].
  rewrite !hz_value, !hz_slope.
  rewrite (while_ext u_cond _ (cu_body f g z d thr)); [reflexivity|].
  intros s. unfold u_body, cu_body. cbv zeta. rewrite !hz_value, !hz_slope. reflexivity.
Qed.
Lemma hz_secant_real low high : hz_secant Gr rdot (reals z) (reals d) low high = chz_secant g z d low high.
Proof. unfold hz_secant, chz_secant. rewrite !hz_slope. reflexivity. Qed.
Lemma hz_secant2_real fuel low high thr :
  hz_secant2 F Gr rdot nf (reals z) (reals d) fuel low high thr = chz_secant2 f g nf z d fuel low high thr.
Proof.
  unfold hz_secant2, chz_secant2. cbv zeta. rewrite hz_secant_real, hz_interval_real.
  destruct (chz_update_interval f g nf z d fuel low high (chz_secant g z d low high) thr) as [[[b l] h]|]; [|reflexivity].
  rewrite !hz_secant_real, !hz_interval_real. reflexivity.
Qed.
Lemma hz_bracket_real fuel c thr :
  hz_bracket cfg F Gr rdot nf (reals z) (reals d) fuel c thr = chz_bracket cfg f g nf z d fuel c thr.
Proof.
  unfold hz_bracket, chz_bracket. rewrite !hz_value, !hz_slope.
  rewrite (while_ext b_cond _ (cb_body cfg f g nf z d fuel thr)); [reflexivity|].
  intros s. unfold b_body, cb_body. cbv zeta. rewrite !hz_interval_real.
  match goal with |- match ?a with _ => _ end = _ => destruct a as [[[b l] h]|]; [|reflexivity] end.
  rewrite !hz_value, !hz_slope. reflexivity.
Qed.
Lemma best_point_real low high : best_point F Gr rdot (reals z) (reals d) low high = cbest_point f g z d low high.
Proof. unfold best_point, cbest_point. cbv zeta. rewrite !hz_value, !hz_slope. reflexivity. Qed.
Lemma hz_init_real fuel v grad :
  hz_init cfg F Gr rdot nf (reals z) (reals d) fuel v (reals (cconj grad)) (dot (reals (cconj grad)) (reals d)) =
  option_map real_hz (chz_init cfg f g nf z d fuel v grad).
Proof.
  unfold hz_init, chz_init. cbv zeta. rewrite hz_bracket_real.
  destruct (chz_bracket cfg f g nf z d fuel 1 (threshold cfg v)) as [[[b l] h]|]; [|reflexivity].
  rewrite best_point_real. destruct (cbest_point f g z d l h) as [[bp bv] bs].
  unfold cslope0. rewrite <- vdot_real_reals. reflexivity.
Qed.
Lemma hz_update_real fuel v grad s st :
  hz_update cfg F Gr rdot nf (reals z) (reals d) fuel v (dot (reals (cconj grad)) (reals d)) (s, real_hz st) =
  option_map (fun r => (fst r, real_hz (snd r))) (chz_update cfg f g nf z d fuel v grad (s, st)).
Proof.
  unfold hz_update, chz_update. cbv zeta.
  cbn [real_hz h_iter h_done h_low h_high h_value h_error h_params h_grad h_failed].
  rewrite hz_secant2_real.
  destruct (chz_secant2 f g nf z d fuel (k_low st) (k_high st) (threshold cfg v)) as [[[b l] h]|]; [|reflexivity].
  rewrite !hz_interval_real.
  match goal with |- match ?a with _ => _ end = _ => destruct a as [[[b' l'] h']|]; [|reflexivity] end.
  rewrite best_point_real. destruct (cbest_point f g z d l' h') as [[bp bv] bs].
  rewrite hz_line, real_fun_reals, real_grad_reals. unfold cslope0. rewrite <- vdot_real_reals. reflexivity.
Qed.
Lemma hz_run_real fuel s0 v grad :
  hz_run cfg F Gr rdot nf (reals z) (reals d) fuel s0 v (reals (cconj grad)) (dot (reals (cconj grad)) (reals d)) =
  option_map (fun r => (fst r, real_hz (snd r))) (chz_run cfg f g nf z d fuel s0 v grad).
Proof.
  unfold hz_run, chz_run. rewrite hz_init_real. destruct (chz_init cfg f g nf z d fuel v grad) as [st|]; [|reflexivity].
  cbn [option_map].
  apply (run_loop_sim (fun (a : option (R * hz_state vec)) (b : option (R * chz_state)) => a = option_map (fun r => (fst r, real_hz (snd r))) b)).
  - intros a [[s st']|] ->; reflexivity.
  - intros a [[s st']|] ->; [|reflexivity]. cbn [option_map fst snd]. apply hz_update_real.
  - reflexivity.
Qed.
End HZ.
Lemma chz_search_real cfg f g nf fuel s0 z v grad dir :
  let d := direction_or_steepest (reals (cconj grad)) (option_map reals dir) in
  hz_run cfg (real_fun f) (real_grad g) rdot nf (reals z) d fuel s0 v (reals (cconj grad)) (dot (reals (cconj grad)) d) =
  option_map (fun r => (fst r, real_hz (snd r))) (chz_search cfg f g nf fuel s0 z v grad dir).
Proof.
  cbv zeta. unfold chz_search. rewrite <- hz_run_real.
  assert (Ed : direction_or_steepest (reals (cconj grad)) (option_map reals dir) =
                 reals (match dir with None => cscale (-1) (cconj grad) | Some d => d end)).
  { destruct dir; cbn [option_map direction_or_steepest]; [reflexivity|]. rewrite reals_scale. reflexivity. }
  rewrite Ed. reflexivity.
Qed.

(** ** The searches of the solvers *)
Lemma cbt_match cfg f g : ls_match (cbt_line_search cfg f g) (bt_line_search cfg (real_fun f) (real_grad g)).
Proof.
  intros s0 z v gr d. unfold bt_line_search, cbt_line_search.
  pose proof (cbt_run_real cfg (fun z => Fin (f z)) g true s0 z v gr (Some d)) as H. cbn [option_map] in H.
  change (real_fun (fun z => Fin (f z))) with (fun x => Fin (real_fun f x)) in H. rewrite H.
  destruct (cbt_run cfg (fun z => Fin (f z)) g true s0 z v gr (Some d)). reflexivity.
Qed.
Lemma czoom_match cfg f g : ls_match (czoom_line_search cfg f g) (zoom_line_search cfg (real_fun f) (real_grad g)).
Proof.
  intros s0 z v gr d. unfold zoom_line_search, czoom_line_search.
  pose proof (czoom_run_real cfg (fun z => Fin (f z)) g true s0 z v gr (Some d)) as H. cbn [option_map direction_or_steepest] in H.
  change (real_fun (fun z => Fin (f z))) with (fun x => Fin (real_fun f x)) in H. cbv zeta in H. rewrite H.
  destruct (czoom_run cfg (fun z => Fin (f z)) g true s0 z v gr (Some d)). reflexivity.
Qed.
Lemma chz_match cfg nf fuel f g : ls_match (chz_line_search cfg nf fuel f g) (hz_line_search cfg nf fuel (real_fun f) (real_grad g)).
Proof.
  intros s0 z v gr d. unfold hz_line_search, chz_line_search.
  pose proof (chz_search_real cfg (fun z => Fin (f z)) g nf fuel s0 z v gr (Some d)) as H. cbn [option_map direction_or_steepest] in H.
  change (real_fun (fun z => Fin (f z))) with (fun x => Fin (real_fun f x)) in H. cbv zeta in H. rewrite H.
  destruct (chz_search cfg (fun z => Fin (f z)) g nf fuel s0 z v gr (Some d)) as [[s st]|]; reflexivity.
Qed.

(** ** L-BFGS *)
Lemma scan_right_real sh yh rh r idx :
  scan_right (map reals sh) (map reals yh) rh (reals r) idx =
  (reals (fst (cscan_right sh yh rh r idx)), snd (cscan_right sh yh rh r idx)).
Proof.
  induction idx as [|i idx IH]; [reflexivity|]. cbn [scan_right cscan_right]. rewrite IH.
  destruct (cscan_right sh yh rh r idx) as [r1 al]. cbn [fst snd]. rewrite !nth_reals, <- vdot_real_reals, <- reals_scale, <- reals_add.
  reflexivity.
Qed.
Lemma scan_left_real sh yh rh r idx al :
  scan_left (map reals sh) (map reals yh) rh (reals r) idx al = reals (cscan_left sh yh rh r idx al).
Proof.
  revert r al. induction idx as [|i idx IH]; intros r [|a al]; try reflexivity.
  cbn [scan_left cscan_left]. rewrite !nth_reals, <- vdot_real_reals, <- reals_scale, <- reals_add. apply IH.
Qed.
Lemma ihp_real q sh yh rh gm st :
  inv_hessian_product (reals q) (map reals sh) (map reals yh) rh gm st = reals (cinv_hessian_product q sh yh rh gm st).
Proof.
  unfold inv_hessian_product, cinv_hessian_product. rewrite scan_right_real.
  destruct (cscan_right sh yh rh q (buffer_indices st (length rh))) as [r al]. cbn [fst snd].
  rewrite <- reals_scale. apply scan_left_real.
Qed.
Lemma gamma_real sh yh i : compute_gamma (map reals sh) (map reals yh) i = ccompute_gamma sh yh i.
Proof. unfold compute_gamma, ccompute_gamma. rewrite !nth_reals, <- !vdot_real_reals. reflexivity. Qed.
Lemma clbfgs_init_real f g cfg z : lbfgs_init (real_fun f) (real_grad g) cfg (reals z) = real_lbfgs (clbfgs_init f g cfg z).
Proof.
  unfold lbfgs_init, clbfgs_init, real_lbfgs.
  cbn [q_iter q_value q_grad q_stepsize q_error q_s q_y q_rho q_gamma q_failed].
  rewrite real_fun_reals, real_grad_reals, !map_repeat_eq, reals_zero, reals_length. reflexivity.
Qed.
Lemma clbfgs_warm_real f g z st :
  lbfgs_warm_init (real_fun f) (real_grad g) (reals z, real_lbfgs st) =
  (reals (fst (clbfgs_warm_init f g (z, st))), real_lbfgs (snd (clbfgs_warm_init f g (z, st)))).
Proof.
  unfold lbfgs_warm_init, clbfgs_warm_init, real_lbfgs. cbn [fst snd q_iter q_value q_grad q_stepsize q_error q_s q_y q_rho q_gamma q_failed
    l_iter l_value l_grad l_stepsize l_error l_s l_y l_rho l_gamma l_failed].
  rewrite real_fun_reals, real_grad_reals. reflexivity.
Qed.
Lemma clbfgs_direction_real cfg st : lbfgs_direction cfg (real_lbfgs st) = reals (clbfgs_direction cfg st).
Proof.
  unfold lbfgs_direction, clbfgs_direction. cbv zeta. cbn [real_lbfgs l_iter l_grad l_s l_y l_rho l_gamma].
  rewrite <- reals_scale. destruct (qn_history_size cfg); [reflexivity|]. apply ihp_real.
Qed.
Definition both (s : cvec * clbfgs_state) : vec * lbfgs_state := (reals (fst s), real_lbfgs (snd s)).
Section LB.
Variables (f : cvec -> R) (g : cvec -> cvec) (cls : cline_search) (ls : line_search) (cfg : qn_config).
Hypothesis Hm : ls_match cls ls.
Lemma take_step_real z v gr d s it :
  take_step (real_fun f) (real_grad g) ls cfg (reals z) v (reals (cconj gr)) (reals d) s it =
  map_result real_out (ctake_step f g cls cfg z v gr d s it).
Proof.
  unfold take_step, ctake_step. destruct (use_linesearch cfg).
  - destruct (init_stepsize _ _ _ _ _); [|reflexivity]. cbn [map_result]. rewrite Hm. reflexivity.
  - cbv zeta. rewrite <- reals_scale, <- reals_add, real_fun_reals, real_grad_reals. reflexivity.
Qed.
Lemma clbfgs_update_real s :
  lbfgs_update (real_fun f) (real_grad g) ls cfg (both s) = map_result both (clbfgs_update f g cls cfg s).
Proof.
  destruct s as [z st]. unfold lbfgs_update, clbfgs_update, both. cbn [fst snd]. cbv zeta.
  rewrite clbfgs_direction_real.
  change (l_value (real_lbfgs st)) with (q_value st). change (l_grad (real_lbfgs st)) with (reals (cconj (q_grad st))).
  change (l_stepsize (real_lbfgs st)) with (q_stepsize st). change (l_iter (real_lbfgs st)) with (q_iter st).
  rewrite take_step_real.
  destruct (ctake_step f g cls cfg z (q_value st) (q_grad st) (clbfgs_direction cfg st) (q_stepsize st) (q_iter st)) as [o|e]; [|reflexivity].
  cbn [map_result fst snd real_out ls_params ls_value ls_grad ls_step ls_failed real_lbfgs l_s l_y l_rho].
  rewrite <- !reals_sub, <- cconj_sub, <- !vdot_real_reals, norm2_conj.
  unfold real_lbfgs. cbn [q_iter q_value q_grad q_stepsize q_error q_s q_y q_rho q_gamma q_failed].
  destruct (0 <? qn_history_size cfg)%nat.
  - rewrite <- !map_set_nth, gamma_real. reflexivity.
  - reflexivity.
Qed.
Lemma clbfgs_loop_real n s : lbfgs_loop (real_fun f) (real_grad g) ls cfg n (both s) = map_result both (clbfgs_loop f g cls cfg n s).
Proof.
  revert s. induction n as [|n IH]; intros s; [reflexivity|]. cbn [lbfgs_loop clbfgs_loop].
  change (lbfgs_cond cfg (snd (both s))) with (clbfgs_cond cfg (snd s)). destruct (clbfgs_cond cfg (snd s)); [|reflexivity].
  rewrite clbfgs_update_real. destruct (clbfgs_update f g cls cfg s); [apply IH|reflexivity].
Qed.
Lemma clbfgs_solve_real n s : lbfgs_solve (real_fun f) (real_grad g) ls cfg n (both s) = map_result both (clbfgs_solve f g cls cfg n s).
Proof.
  destruct n as [|n]; [reflexivity|]. cbn [lbfgs_solve clbfgs_solve]. rewrite clbfgs_update_real.
  destruct (clbfgs_update f g cls cfg s); [apply clbfgs_loop_real|reflexivity].
Qed.
End LB.

(** ** Nonlinear conjugate gradient *)
Lemma cncg_beta_real m gr gr' d :
  ncg_beta m (reals (cconj gr)) (reals (cconj gr')) (reals d) = cncg_beta m gr gr' d.
Proof.
  unfold ncg_beta, cncg_beta. cbv zeta.
  rewrite <- !reals_sub, <- !cconj_sub, <- !vdot_real_reals, !vdot_conj. reflexivity.
Qed.
Definition both_ncg (s : cvec * cncg_state) : vec * ncg_state := (reals (fst s), real_ncg (snd s)).
Section NC.
Variables (f : cvec -> R) (g : cvec -> cvec) (cls : cline_search) (ls : line_search) (cfg : ncg_config).
Hypothesis Hm : ls_match cls ls.
Lemma cncg_init_real z : ncg_init (real_fun f) (real_grad g) cfg (reals z) = real_ncg (cncg_init f g cfg z).
Proof.
  unfold ncg_init, cncg_init, real_ncg. cbn [n_iter n_stepsize n_error n_value n_grad n_direction].
  rewrite real_fun_reals, real_grad_reals, reals_scale. reflexivity.
Qed.
Lemma crun_ls_real s0 z v gr d :
  run_ls_opt ls s0 (reals z) v (reals (cconj gr)) (option_map reals d) = real_out (crun_ls_opt cls s0 z v gr d).
Proof. unfold run_ls_opt, crun_ls_opt. destruct d; cbn [option_map]; [apply Hm|]. rewrite <- reals_scale. apply Hm. Qed.
Lemma cncg_update_real s : ncg_update ls cfg (both_ncg s) = map_result both_ncg (cncg_update cls cfg s).
Proof.
  destruct s as [z st]. unfold ncg_update, cncg_update, both_ncg. cbn [fst snd]. cbv zeta.
  cbn [real_ncg c_iter c_stepsize c_error c_value c_grad c_direction].
  destruct (init_stepsize _ _ _ _ _) as [s0|e]; [|reflexivity].
  set (dd := match c_linesearch cfg with
    | LsName s => if string_dec s "backtracking" then None else Some (n_direction st)
    | LsInstance _ => Some (n_direction st) end).
  assert (Ed : match c_linesearch cfg with
    | LsName s => if string_dec s "backtracking" then None else Some (reals (n_direction st))
    | LsInstance _ => Some (reals (n_direction st)) end = option_map reals dd).
  { unfold dd. destruct (c_linesearch cfg) as [s|u]; [|reflexivity]. destruct (string_dec s "backtracking"); reflexivity. }
  rewrite Ed, crun_ls_real. set (o := crun_ls_opt cls s0 z (n_value st) (n_grad st) dd).
  cbn [real_out ls_params ls_value ls_grad ls_step ls_failed]. rewrite cncg_beta_real.
  destruct (cncg_beta (c_method cfg) (n_grad st) (cl_grad o) (n_direction st)) as [b|e]; [|reflexivity].
  cbn [map_result fst snd]. rewrite <- !reals_scale, <- reals_add, norm2_conj. reflexivity.
Qed.
Lemma cncg_loop_real n s : ncg_loop ls cfg n (both_ncg s) = map_result both_ncg (cncg_loop cls cfg n s).
Proof.
  revert s. induction n as [|n IH]; intros s; [reflexivity|]. cbn [ncg_loop cncg_loop].
  change (c_error (snd (both_ncg s))) with (n_error (snd s)). destruct (xgtb (n_error (snd s)) (c_tol cfg)); [|reflexivity].
  rewrite cncg_update_real. destruct (cncg_update cls cfg s); [apply IH|reflexivity].
Qed.
Lemma cncg_run_real n z : ncg_run (real_fun f) (real_grad g) ls cfg n (reals z) = map_result both_ncg (cncg_run f g cls cfg n z).
Proof.
  unfold ncg_run, cncg_run. rewrite cncg_init_real. destruct n as [|n]; [reflexivity|].
  change (reals z, real_ncg (cncg_init f g cfg z)) with (both_ncg (z, cncg_init f g cfg z)).
  rewrite cncg_update_real. destruct (cncg_update cls cfg (z, cncg_init f g cfg z)); [apply cncg_loop_real|reflexivity].
Qed.
End NC.
