(** C48: L-BFGS-B (lbfgsb.py). *)
From Coq Require Import String Reals List Bool Arith Lra Lia.
From Verif Require Import Prelude Base Vec Mat XArith LinAlg Loss LossProofs QuasiNewton QuasiNewtonProofs Zoom ZoomTheorems Lbfgsb LbfgsbHess LbfgsbCauchy LbfgsbSub LbfgsbProofs.
Import ListNotations.
Open Scope R_scope.

(** The matrix whose inverse is taken is invertible for every history that stores only pairs of positive curvature, however
    full the buffer, and the resulting Hessian approximation B is symmetric and positive definite. *)
Theorem C48_hessian :
  forall n h k theta sh yh solve, good_history n h k theta sh yh -> exact_solver solve ->
  let w := w_flat theta sh yh n in let m := linalg_inv solve (2 * h) (m_inv h k theta sh yh) in
  nonsingular (2 * h) (m_inv h k theta sh yh) /\
  (forall u v, length u = n -> length v = n -> dot (bapply theta w m u) v = bform theta w m u v /\ bform theta w m u v = bform theta w m v u) /\
  (forall v, length v = n -> v <> vzero n -> 0 < dot (bapply theta w m v) v).
Proof.
  intros n h k theta sh yh solve G SOL w m. assert (LM : length m = (2 * h)%nat) by apply minv_len.
  assert (W : mat_shape n (2 * h) w) by apply (wmat_shape n h k theta sh yh G).
  assert (E : forall u v, length u = n -> length v = n -> dot (bapply theta w m u) v = bform theta w m u v).
  { intros u v Lu Lv. unfold bapply, bform. rewrite dot_vsub_l, dot_smul_l, LM. f_equal.
    assert (L1 : length (tvec (2 * h) w u) = (2 * h)%nat) by (apply (tvec_length n); exact W).
    rewrite (dot_mvec (2 * h)%nat).
    rewrite (minv_sym n h k theta sh yh G solve SOL); [reflexivity|exact L1|apply (tvec_length n); exact W]. }
  split; [apply (m_inv_nonsingular n h k theta sh yh G)|]. split.
  - intros u v Lu Lv. split; [apply E; assumption|]. apply (b_sym (vzero n) theta w m); [rewrite vzero_length, LM; exact W|]. rewrite LM. apply (minv_sym n h k theta sh yh G solve SOL).
  - intros v Lv N. rewrite E by exact Lv. apply (bform_pd n h k theta sh yh G solve SOL); assumption.
Qed.
Print Assumptions C48_hessian.

(** While the buffer has not wrapped around, B satisfies the secant equation B s = y of the newest pair. *)
Theorem C48_secant :
  forall n h theta (pairs : list (vec * vec)) (s y : vec) solve, exact_solver solve -> 0 < theta -> (length pairs < h)%nat ->
  Forall (fun p => length (fst p) = n /\ length (snd p) = n /\ 0 < dot (fst p) (snd p)) (pairs ++ [(s, y)]) ->
  let '(sh, yh, k) := push_pairs n h (pairs ++ [(s, y)]) in
  bapply theta (w_flat theta sh yh n) (linalg_inv solve (2 * h) (m_inv h k theta sh yh)) s = y.
Proof.
  intros n h theta pairs s y solve SOL T L F. assert (Hh : (0 < h)%nat) by lia. assert (Q := push_good n h theta (pairs ++ [(s, y)]) T Hh F). assert (PL := push_last n h pairs s y).
  destruct (push_pairs n h (pairs ++ [(s, y)])) as [[sh yh] k]. destruct Q as [G Ek]. rewrite app_length in Ek. cbn [length] in Ek.
  assert (Q0 := push_good n h theta pairs T Hh (proj1 (proj1 (Forall_app _ _ _) F))). destruct (push_pairs n h pairs) as [[sh0 yh0] k0]. destruct Q0 as [G0 Ek0].
  cbn [fst snd] in PL. subst k0. rewrite Nat.mod_small in PL by exact L. injection PL as E1 E2.
  assert (S := secant n h k theta sh yh solve (length pairs) G SOL L ltac:(lia) ltac:(lia)). destruct (gh_s _ _ _ _ _ _ G0) as [Z1 _], (gh_y _ _ _ _ _ _ G0) as [Z2 _].
  assert (A1 : s_at sh (length pairs) = s) by (unfold s_at; rewrite E1; apply nth_set_same; rewrite Z1; exact L).
  assert (A2 : y_at yh (length pairs) = y) by (unfold y_at; rewrite E2; apply nth_set_same; rewrite Z2; exact L).
  rewrite A1, A2 in S. exact S.
Qed.
Print Assumptions C48_secant.

(** Algorithm CP: the Cauchy point lies on the projected-gradient path, in the box; the model decreases strictly along the path
    up to it; it differs from x unless x is stationary; and where no two breakpoints coincide and the model has curvature at
    least eps along the faces, the model does not decrease just after it: it is the first local minimiser along the path. *)
Theorem C48_cauchy :
  forall eps x g lower upper h k theta sh yh solve,
  0 < eps -> length g = length x -> in_bounds lower upper x -> clear_gradient eps g -> clear_breaks eps x g lower upper ->
  good_history (length x) h k theta sh yh -> exact_solver solve ->
  let w := w_flat theta sh yh (length x) in let m := linalg_inv solve (2 * h) (m_inv h k theta sh yh) in
  let q t := qmodel theta w m g (vsub (path x g lower upper t) x) in
  exists t, 0 <= t /\ x_cauchy eps x g lower upper theta w m = map Fin (path x g lower upper t) /\ in_bounds lower upper (path x g lower upper t) /\
    cauchy_c eps x g lower upper theta w m = tvec (2 * h) w (vsub (path x g lower upper t) x) /\
    (forall a b, 0 <= a -> a < b -> b <= t -> q b < q a) /\
    (path x g lower upper 1 <> x -> 0 < t) /\
    (clear_curvature eps theta w m g -> distinct_breaks x g lower upper ->
     exists delta, 0 < delta /\ forall s, t <= s -> s <= t + delta -> q t <= q s).
Proof.
  intros eps x g lower upper h k theta sh yh solve Heps Lg B CG CB G SOL w m q.
  assert (CGx := CG' eps x g Lg CG). assert (D0 := init_pos eps x g lower upper h k theta sh yh solve G SOL). fold w m in D0.
  assert (Hw : mat_shape (length x) (length m) w) by apply (w_shape x h k theta sh yh solve G).
  assert (Ms := m_sym x h k theta sh yh solve G SOL). fold m in Ms.
  assert (T0 := ts_nonneg eps x g lower upper theta w m Heps Lg B CGx D0).
  set (t := ts eps x g lower upper theta w m) in *.
  assert (PZ : forall s, 0 <= s -> vsub (path x g lower upper s) x = Zt eps x g lower upper s).
  { intros s Hs. rewrite (path_Zt eps x g lower upper Heps Lg B CG CB s Hs). apply vadd_vsub_l. apply Zt_len. }
  exists t. split; [exact T0|]. rewrite (path_Zt eps x g lower upper Heps Lg B CG CB t T0).
  split; [apply (x_cauchy_eq eps x g lower upper theta w m Heps Lg B CGx D0)|].
  split; [apply (xc_box eps x g lower upper theta w m Heps Lg B CGx D0)|].
  split. { rewrite (cauchy_c_eq eps x g lower upper theta w m Heps Lg B CGx D0 Hw Ms CB). rewrite vadd_vsub_l by apply Zt_len. assert (LM : length m = (2 * h)%nat) by apply minv_len. rewrite LM. reflexivity. }
  split. { intros a b Ha Hab Hb. unfold q. rewrite !PZ by lra. apply (decr_ts eps x g lower upper theta w m Heps Lg B CGx D0 Hw Ms CB); assumption. }
  split. { intros N. apply (ts_pos eps x g lower upper theta w m Heps Lg B CGx D0 CB). apply (nzd_path eps x g lower upper Heps Lg B CG CB). exact N. }
  intros CC DB. destruct (local_min eps x g lower upper theta w m Heps Lg B CGx D0 Hw Ms CB) as (del & Hd & Hl); [rewrite <- Lg; exact CC|exact DB|].
  exists del. split; [exact Hd|]. intros s H1 H2. unfold q. rewrite !PZ by lra. apply (Hl s H1 H2).
Qed.
Print Assumptions C48_cauchy.

(** The point the search direction leads to is finite and within the bounds, for every feasible x and every history. *)
Theorem C48_feasible :
  forall solve eps cfg x st lower upper,
  exact_solver solve -> 0 < eps -> length (lb_grad st) = length x -> in_bounds lower upper x -> clear_gradient eps (lb_grad st) ->
  good_history (length x) (qn_history_size cfg) (lb_num_updates st) (lb_theta st) (lb_s st) (lb_y st) ->
  exists p, length p = length x /\ lbfgsb_target solve eps cfg x st lower upper = map Fin (vadd x p) /\
    lbfgsb_direction solve eps cfg x st lower upper = p /\ in_bounds lower upper (vadd x p).
Proof.
  intros solve eps cfg x st lower upper SOL Heps Lg B CG G.
  assert (L := dir_len eps x (lb_grad st) lower upper (qn_history_size cfg) (lb_num_updates st) (lb_theta st) (lb_s st) (lb_y st) solve).
  assert (E := target_eq eps x (lb_grad st) lower upper Heps Lg B CG _ _ _ _ _ solve G SOL).
  assert (I := target_in eps x (lb_grad st) lower upper Heps Lg B CG _ _ _ _ _ solve G SOL).
  set (p := dir _ _ _ _ _ _ _ _ _ _ _) in *. exists p. split; [exact L|]. change (lbfgsb_target solve eps cfg x st lower upper = map Fin (vadd x p)) in E.
  split; [exact E|]. split; [unfold lbfgsb_direction; rewrite E, map_xreal_fin; apply vadd_vsub_l; exact L|exact I].
Qed.
Print Assumptions C48_feasible.

(** The search direction p: zero exactly at the points that are stationary over the box; elsewhere a descent direction, along
    which the quadratic model decreases, at least as much as at the Cauchy point. *)
Theorem C48_direction :
  forall solve eps cfg x st lower upper,
  exact_solver solve -> 0 < eps -> length (lb_grad st) = length x -> in_bounds lower upper x ->
  clear_gradient eps (lb_grad st) -> clear_breaks eps x (lb_grad st) lower upper ->
  good_history (length x) (qn_history_size cfg) (lb_num_updates st) (lb_theta st) (lb_s st) (lb_y st) ->
  let g := lb_grad st in
  let p := lbfgsb_direction solve eps cfg x st lower upper in
  let w := state_w (length x) st in let m := state_m solve (qn_history_size cfg) st in
  let xc := map xreal (x_cauchy eps x g lower upper (lb_theta st) w m) in
  (box_stationary lower upper x g -> p = vzero (length x)) /\
  (~ box_stationary lower upper x g -> dot g p < 0 /\
     qmodel (lb_theta st) w m g p <= qmodel (lb_theta st) w m g (vsub xc x) /\ qmodel (lb_theta st) w m g (vsub xc x) < 0).
Proof.
  intros solve eps cfg x st lower upper SOL Heps Lg B CG CB G g p w m xc.
  assert (L := dir_len eps x g lower upper (qn_history_size cfg) (lb_num_updates st) (lb_theta st) (lb_s st) (lb_y st) solve). assert (E := target_eq eps x g lower upper Heps Lg B CG _ _ _ _ _ solve G SOL).
  assert (P : p = dir eps x g lower upper (qn_history_size cfg) (lb_num_updates st) (lb_theta st) (lb_s st) (lb_y st) solve).
  { unfold p, lbfgsb_direction. change (lbfgsb_target solve eps cfg x st lower upper = map Fin (vadd x (dir eps x g lower upper (qn_history_size cfg) (lb_num_updates st) (lb_theta st) (lb_s st) (lb_y st) solve))) in E.
    rewrite E, map_xreal_fin. apply vadd_vsub_l. exact L. }
  rewrite P. assert (NP := nzd_path eps x g lower upper Heps Lg B CG CB). assert (SP := stationary_path lower upper x g Lg B). split.
  - intros S. apply (dir_stat eps x g lower upper Heps Lg B CG _ _ _ _ _ solve G SOL CB). intros N. apply NP in N. apply N. apply SP. exact S.
  - intros S. assert (N : nzd eps x g lower upper) by (apply NP; intros Q; apply S; apply SP; exact Q).
    destruct (dir_desc eps x g lower upper Heps Lg B CG _ _ _ _ _ solve G SOL CB N) as [D1 _].
    assert (Q1 := q_dir eps x g lower upper Heps Lg B CG _ _ _ _ _ solve G SOL CB). assert (Q2 := q_z_neg eps x g lower upper Heps Lg B CG _ _ _ _ _ solve G SOL CB N).
    assert (Z := z_xc eps x g lower upper Heps Lg B CG _ _ _ _ _ solve G SOL). cbv beta zeta in Z. rewrite <- Z in Q1, Q2. split; [exact D1|split; [exact Q1|exact Q2]].
Qed.
Print Assumptions C48_direction.

(** The error is the largest entry of clip(x - g) - x in absolute value: at most tol iff every entry is; zero iff x is stationary
    over the box, iff the optimality function that implicit differentiation solves is zero. *)
Theorem C48_error :
  forall gradf x lower upper, length (gradf x) = length x -> in_bounds lower upper x ->
  let g := gradf x in
  (exists e, get_error x g lower upper = Fin e /\ 0 <= e /\
     (forall tol, 0 <= tol -> (e <= tol <-> forall i, (i < length x)%nat -> Rabs (nth i (path x g lower upper 1) 0 - nth i x 0) <= tol)) /\
     (e = 0 <-> box_stationary lower upper x g)) /\
  lbfgsb_optimality_fun gradf x (Some (lower, upper)) = map Fin (vsub (path x g lower upper 1) x) /\
  (lbfgsb_optimality_fun gradf x (Some (lower, upper)) = map Fin (vzero (length x)) <-> box_stationary lower upper x g) /\
  lbfgsb_optimality_fun gradf x None = map Fin g.
Proof.
  intros gradf x lower upper Lg B g.
  assert (LP : length (pstep lower upper x g) = length x) by (unfold pstep; rewrite vsub_length; unfold path; rewrite tab_length; lia).
  assert (Z : pstep lower upper x g = vzero (length x) <-> path x g lower upper 1 = x).
  { unfold pstep. split; intros E.
    - apply vec_ext; [apply tab_length|]. intros i Hi. assert (Q := f_equal (fun l : vec => nth i l 0) E). cbv beta in Q. rewrite nth_vsub, nth_vzero in Q. lra.
    - rewrite E. apply vec_ext; [rewrite vsub_length, vzero_length; lia|]. intros i _. rewrite nth_vsub, nth_vzero. lra. }
  split; [|split; [|split; [|reflexivity]]].
  - exists (maxabs (pstep lower upper x g)). split; [apply error_eq; exact B|]. split; [apply maxabs_nonneg|]. split.
    + intros tol Ht. rewrite (maxabs_le _ _ Ht). rewrite LP. split; intros H i Hi; specialize (H i Hi); unfold pstep in *; rewrite nth_vsub in *; exact H.
    + rewrite <- (stationary_path lower upper x g Lg B), <- Z. split.
      * intros E. apply vec_ext; [rewrite LP, vzero_length; reflexivity|]. intros i Hi. rewrite nth_vzero.
        assert (A := proj1 (maxabs_le (pstep lower upper x g) 0 (Rle_refl 0)) (Req_le _ _ E) i Hi). assert (A2 := Rabs_pos (nth i (pstep lower upper x g) 0)).
        destruct (Req_dec (nth i (pstep lower upper x g) 0) 0) as [Q|Q]; [exact Q|]. apply Rabs_pos_lt in Q. lra.
      * intros ->. apply Rle_antisym; [|apply maxabs_nonneg]. apply (maxabs_le _ 0 (Rle_refl 0)). intros i _. rewrite nth_vzero, Rabs_R0. lra.
  - apply projected_step_eq. exact B.
  - cbn [lbfgsb_optimality_fun]. fold g. rewrite (projected_step_eq _ _ _ _ B). rewrite <- (stationary_path lower upper x g Lg B), <- Z. split; [|intros ->; reflexivity].
    intros E. apply (f_equal (map xreal)) in E. rewrite !map_xreal_fin in E. exact E.
Qed.
Print Assumptions C48_error.

(** A run: every iterate is within the bounds; the state holds the value, the gradient, the error and the number of the iterate;
    the history buffers hold the pairs (s, y) of positive curvature, in a ring, and theta comes from the newest of them. *)
Theorem C48_run :
  forall solve eps f gradf ls cfg theta0 bounds x0 steps N,
  let n := length x0 in let h := qn_history_size cfg in
  let '(lower, upper) := bounds_or_default n bounds in
  exact_solver solve -> 0 < eps -> 0 < theta0 -> (0 < h)%nat -> grad_dim n gradf ->
  in_bounds lower upper x0 ->
  (use_linesearch cfg = true -> ls_unit f gradf ls /\ positive_starts cfg) ->
  lbfgsb_run solve eps f gradf ls cfg theta0 bounds x0 steps N ->
  (forall k, (k < N)%nat -> clear_gradient eps (gradf (fst (steps k)))) ->
  forall k, (k <= N)%nat ->
  let '(x, st) := steps k in
  length x = n /\ in_bounds lower upper x /\
  lb_iter st = k /\ lb_value st = f x /\ lb_grad st = gradf x /\ lb_error st = get_error x (gradf x) lower upper /\
  good_history n h (lb_num_updates st) (lb_theta st) (lb_s st) (lb_y st) /\
  (lb_s st, lb_y st, lb_num_updates st) = push_pairs n h (step_pairs gradf (fun j => fst (steps j)) k) /\
  lb_theta st = last_scale (qn_use_gamma cfg) (step_pairs gradf (fun j => fst (steps j)) k) * theta0 /\
  (use_linesearch cfg = true -> forall j, (j < k)%nat -> exists s p, 0 <= s <= 1 /\ length p = n /\
     fst (steps (S j)) = vadd (fst (steps j)) (smul s p) /\ in_bounds lower upper (vadd (fst (steps j)) p)).
Proof.
  intros solve eps f gradf ls cfg theta0 bounds x0 steps N n h. destruct (bounds_or_default n bounds) as [lower upper] eqn:Eb.
  intros SOL Heps T0 Hh GD B0 LS [R0 RS] CG.
  induction k as [|k IH]; intros Hk.
  - rewrite R0. unfold lbfgsb_init. fold n. rewrite Eb. cbn [lb_iter lb_value lb_grad lb_error lb_num_updates lb_theta lb_s lb_y].
    split; [reflexivity|]. split; [exact B0|]. do 4 (split; [reflexivity|]). split; [apply init_good; exact T0|]. split; [reflexivity|].
    split; [unfold step_pairs, last_scale; cbn; ring|]. intros _ j Hj. lia.
  - specialize (IH ltac:(lia)). assert (U := RS k ltac:(lia)). assert (CGk := CG k ltac:(lia)).
    assert (PP : step_pairs gradf (fun j => fst (steps j)) (S k) = step_pairs gradf (fun j => fst (steps j)) k ++
      (if curved (vsub (fst (steps (S k))) (fst (steps k)), vsub (gradf (fst (steps (S k)))) (gradf (fst (steps k)))) then [(vsub (fst (steps (S k))) (fst (steps k)), vsub (gradf (fst (steps (S k)))) (gradf (fst (steps k))))] else [])).
    { unfold step_pairs. rewrite seq_S, map_app, filter_app. cbn [map filter Nat.add]. destruct (curved _); reflexivity. }
    assert (HS : forall j, (j < S k)%nat -> (j < k)%nat \/ j = k) by (intros; lia).
    destruct (steps k) as [x st] eqn:Ek. destruct IH as (Lx & Bx & I1 & I2 & I3 & I4 & G & HP & HT & HJ). cbn [fst] in CGk.
    rewrite <- I3 in CGk. assert (Lg : length (lb_grad st) = length x) by (rewrite I3, Lx; apply GD; exact Lx).
    assert (G' := G). rewrite <- Lx in G'. destruct (C48_feasible solve eps cfg x st lower upper SOL Heps Lg Bx CGk G') as (p & Lp & _ & Ep & Bp).
    unfold lbfgsb_update in U. rewrite Lx, Eb, Ep in U.
    destruct (lbfgsb_step f gradf ls cfg x st p lower upper) as [o|] eqn:Eo; [|discriminate].
    assert (O : length (ls_params o) = n /\ in_bounds lower upper (ls_params o) /\ ls_value o = f (ls_params o) /\ ls_grad o = gradf (ls_params o) /\
      (use_linesearch cfg = true -> exists s, 0 <= s <= 1 /\ ls_params o = vadd x (smul s p))).
    { unfold lbfgsb_step in Eo. destruct (use_linesearch cfg) eqn:UL.
      - destruct (LS eq_refl) as [LU (IN & P1 & P2 & P3)].
        assert (S0 : exists s0, init_stepsize (qn_linesearch_init cfg) (qn_max_stepsize cfg) (qn_min_stepsize cfg) (qn_increase_factor cfg) (lb_stepsize st) = Ok s0 /\ 0 < s0).
        { unfold init_stepsize. destruct IN as [-> | ->]; cbn; [eexists; split; [reflexivity|exact P1]|]. unfold Rleb. destruct (Rle_dec (lb_stepsize st) (qn_min_stepsize cfg)); eexists; split; try reflexivity; [exact P1|]. apply Rmult_lt_0_compat; lra. }
        destruct S0 as (s0 & Es0 & Ps0). rewrite Es0 in Eo. injection Eo as Eo. destruct (LU s0 x (lb_value st) (lb_grad st) p Ps0) as (A1 & A2 & A3 & A4). rewrite Eo in A1, A2, A3, A4.
        rewrite A2. split; [rewrite vadd_length, smul_length, Lp, Lx; lia|]. split; [apply box_convex; assumption|]. rewrite <- A2. split; [exact A3|]. split; [exact A4|]. intros _. exists (ls_step o). split; assumption.
      - injection Eo as Eo. subst o. cbn [ls_params ls_value ls_grad]. destruct (clip_box lower upper x (vadd x (smul (fixed_step cfg (lb_iter st)) p)) Bx) as [C1 C2]. split; [rewrite tab_length; exact Lx|]. split; [rewrite C1; exact C2|]. split; [reflexivity|]. split; [reflexivity|]. discriminate. }
    destruct O as (Lo & Bo & Vo & Go & So). set (s := vsub (ls_params o) x) in *. set (y := vsub (ls_grad o) (lb_grad st)) in *.
    assert (Ls : length s = n) by (unfold s; rewrite vsub_length; lia). assert (Ly : length y = n) by (unfold y; rewrite vsub_length, Go, (GD _ Lo); lia).
    unfold lbfgsb_store in U. fold h in U. destruct (Rlt_dec 0 (dot y s)) as [C|C].
    + injection U as U. rewrite <- U. cbn [lb_iter lb_value lb_grad lb_error lb_num_updates lb_theta lb_s lb_y].
      rewrite <- U in PP. cbn [fst] in PP. rewrite <- Go, <- I3 in PP. fold s y in PP. unfold curved in PP. cbn [fst snd] in PP.
      destruct (Rlt_dec 0 (dot y s)) as [_|C']; [|contradiction].
      assert (TH : 0 < (if qn_use_gamma cfg then dot y y / dot y s else 1) * theta0).
      { apply Rmult_lt_0_compat; [|exact T0]. destruct (qn_use_gamma cfg); [|lra]. apply Rdiv_lt_0_compat; [|exact C].
        destruct (dot_self_nonneg y) as [Q|Q]; [exact Q|]. exfalso. symmetry in Q. apply dot_self_zero in Q. rewrite Q, dot_vzero_l in C. lra. }
      split; [exact Lo|]. split; [exact Bo|]. split; [rewrite I1; lia|]. split; [exact Vo|]. split; [exact Go|]. split; [rewrite Go; reflexivity|].
      split; [apply (store_good n h (lb_num_updates st) (lb_theta st)); try assumption; rewrite dot_comm; exact C|].
      rewrite PP. split; [|split].
      * unfold push_pairs. rewrite fold_left_app. fold (push_pairs n h (step_pairs gradf (fun j => fst (steps j)) k)). rewrite <- HP. reflexivity.
      * unfold last_scale. rewrite rev_app_distr. reflexivity.
      * intros UL j Hj. destruct (HS j Hj) as [Hj'| ->]; [apply HJ; assumption|]. rewrite <- U, Ek. cbn [fst]. destruct (So UL) as (a & A1 & A2). exists a, p. split; [exact A1|]. split; [congruence|]. split; [exact A2|exact Bp].
    + injection U as U. rewrite <- U. cbn [lb_iter lb_value lb_grad lb_error lb_num_updates lb_theta lb_s lb_y].
      rewrite <- U in PP. cbn [fst] in PP. rewrite <- Go, <- I3 in PP. fold s y in PP. unfold curved in PP. cbn [fst snd] in PP.
      destruct (Rlt_dec 0 (dot y s)) as [C'|_]; [contradiction|]. rewrite app_nil_r in PP.
      split; [exact Lo|]. split; [exact Bo|]. split; [rewrite I1; lia|]. split; [exact Vo|]. split; [exact Go|]. split; [rewrite Go; reflexivity|].
      split; [exact G|]. rewrite PP. split; [exact HP|]. split; [exact HT|].
      intros UL j Hj. destruct (HS j Hj) as [Hj'| ->]; [apply HJ; assumption|]. rewrite <- U, Ek. cbn [fst]. destruct (So UL) as (a & A1 & A2). exists a, p. split; [exact A1|]. split; [congruence|]. split; [exact A2|exact Bp].
Qed.
Print Assumptions C48_run.

(** The zoom line search with max_stepsize at most 1 (the default of LBFGSB) is such a line search. *)
Theorem C48_zoom :
  forall zcfg f gradf, zoom_ok zcfg -> zmax zcfg <= 1 -> ls_unit f gradf (zoom_ls zcfg f gradf).
Proof.
  intros zcfg f gradf Z M s0 x v g d Hs. unfold zoom_ls.
  assert (Q := C20_zoom vec zcfg (fun z => Fin (f z)) gradf (fun a b => Fin (dot a b)) x d v g (dot g d) s0 true Z Hs). cbv zeta in Q.
  destruct (zoom_run _ _ _ _ _ _ _ _ _ _ _) as [s st]. destruct Q as (k & _ & _ & S & P & V & G & _). cbv zeta. cbn [ls_step ls_params ls_value ls_grad].
  split; [lra|]. split; [exact P|]. split; [rewrite V; reflexivity|exact G].
Qed.
Print Assumptions C48_zoom.

(** Warm start: [init_state] given the result of a run resumes it: the next update is the one the run would have made. *)
Theorem C48_warm_start :
  forall solve eps f gradf ls cfg theta0 bounds x st,
  lb_value st = f x -> lb_grad st = gradf x ->
  lbfgsb_update solve eps f gradf ls cfg theta0 bounds (x, lbfgsb_restart f gradf (x, st) bounds) =
  lbfgsb_update solve eps f gradf ls cfg theta0 bounds (x, st).
Proof.
  intros solve eps f gradf ls cfg theta0 bounds x st V G. unfold lbfgsb_restart, lbfgsb_update. destruct (bounds_or_default (length x) bounds) as [lower upper].
  unfold lbfgsb_direction, lbfgsb_target, lbfgsb_step, lbfgsb_store. cbn [lb_iter lb_value lb_grad lb_stepsize lb_s lb_y lb_theta lb_num_updates]. rewrite V, G. reflexivity.
Qed.
Print Assumptions C48_warm_start.

(** Once the buffer has wrapped around, the newest pair may sit in a slot before older ones; the strictly lower triangle of S Y^T is
    taken in buffer order all the same, and B no longer satisfies the secant equation of the newest pair. *)
Theorem C48_secant_wrap_refuted :
  ~ (forall n h theta (pairs : list (vec * vec)) (s y : vec) solve, exact_solver solve -> 0 < theta -> (0 < h)%nat ->
     Forall (fun p => length (fst p) = n /\ length (snd p) = n /\ 0 < dot (fst p) (snd p)) (pairs ++ [(s, y)]) ->
     let '(sh, yh, k) := push_pairs n h (pairs ++ [(s, y)]) in
     bapply theta (w_flat theta sh yh n) (linalg_inv solve (2 * h) (m_inv h k theta sh yh)) s = y).
Proof.
  intros H. specialize (H 2%nat 2%nat (5 / 2) [([0; 1], [1; 2]); ([0; 1], [1; 2])] [1; 0] [2; 1] gauss_solve gauss_exact).
  specialize (H ltac:(lra) ltac:(lia)). 
  assert (F : Forall (fun p : vec * vec => length (fst p) = 2%nat /\ length (snd p) = 2%nat /\ 0 < dot (fst p) (snd p)) ([([0; 1], [1; 2]); ([0; 1], [1; 2])] ++ [([1; 0], [2; 1])])).
  { repeat constructor; cbn; lra. }
  specialize (H F). assert (G := push_good 2 2 (5 / 2) _ ltac:(lra) ltac:(lia) F).
  assert (H' : bapply (5 / 2) (w_flat (5 / 2) [[1; 0]; [0; 1]] [[2; 1]; [1; 2]] 2) (linalg_inv gauss_solve (2 * 2) (m_inv 2 3 (5 / 2) [[1; 0]; [0; 1]] [[2; 1]; [1; 2]])) [1; 0] = [2; 1]) by exact H.
  assert (G' : good_history 2 2 3 (5 / 2) [[1; 0]; [0; 1]] [[2; 1]; [1; 2]]) by apply G. clear H G. rename H' into H. rename G' into G. set (sh := [[1; 0]; [0; 1]]) in *. set (yh := [[2; 1]; [1; 2]]) in *.
  set (q := [- (5 / 6); - / 2; 1; / 3]). assert (W : wz (5 / 2) sh yh [1; 0] = [2; 1; 5 / 2; 0]).
  { unfold wz, w_rows, sh, yh, mvec. cbn. repeat (f_equal; try lra). }
  assert (SY : mvec (m_inv 2 3 (5 / 2) sh yh) q = wz (5 / 2) sh yh [1; 0]).
  { rewrite W. unfold q, sh, yh. cbv [m_inv diag_block lower_tril sst_block hcat tab seq map app mtrans mvec unused Nat.leb Nat.eqb Nat.ltb s_at y_at nth dot unit_vec]. cbn. repeat (f_equal; try lra). }
  assert (EQ : mvec (linalg_inv gauss_solve (2 * 2) (m_inv 2 3 (5 / 2) sh yh)) (wz (5 / 2) sh yh [1; 0]) = q).
  { destruct (minv_spec 2 2 3 (5 / 2) sh yh G gauss_solve gauss_exact (wz (5 / 2) sh yh [1; 0]) (wz_length 2 2 3 (5 / 2) sh yh G _)) as [L E].
    apply (nonsingular_unique (2 * 2) (m_inv 2 3 (5 / 2) sh yh)); [apply (m_inv_nonsingular 2 2 3 (5 / 2) sh yh G)|exact L|reflexivity|]. rewrite SY. exact E. }
  unfold bapply in H. assert (LM : length (linalg_inv gauss_solve (2 * 2) (m_inv 2 3 (5 / 2) sh yh)) = (2 * 2)%nat) by apply minv_len. rewrite LM in H.
  change (w_flat (5 / 2) sh yh 2) with (wmat 2 (5 / 2) sh yh) in H. rewrite (wmat_tvec 2 2 3 (5 / 2) sh yh G [1; 0] eq_refl) in H. rewrite EQ in H.
  rewrite (wmat_mvec 2 2 3 (5 / 2) sh yh G) in H by reflexivity. apply (f_equal (fun l : vec => nth 0 l 0)) in H. unfold q, sh, yh, w_rows in H. cbn in H. lra.
Qed.
Print Assumptions C48_secant_wrap_refuted.

(** The gradient condition of C48_feasible is needed: an entry smaller than eps is not zero to the algorithm, but its breakpoint is
    taken to be infinite, so that a coordinate at its bound moves out of the box. *)
Theorem C48_tiny_gradient_refuted :
  forall eps, 0 < eps -> forall solve, exact_solver solve ->
  exists cfg x st lower upper, length (lb_grad st) = length x /\ in_bounds lower upper x /\
    good_history (length x) (qn_history_size cfg) (lb_num_updates st) (lb_theta st) (lb_s st) (lb_y st) /\
    ~ in_bounds lower upper (vadd x (lbfgsb_direction solve eps cfg x st lower upper)).
Proof.
  intros eps He solve SOL.
  set (cfg := {| qn_stepsize := StepConst 0; qn_linesearch_init := "increase"; qn_increase_factor := 2; qn_max_stepsize := 1; qn_min_stepsize := 0;
    qn_tol := 0; qn_stop_if_linesearch_fails := false; qn_history_size := 1; qn_use_gamma := true |}%string).
  set (st := {| lb_iter := 0; lb_value := 0; lb_grad := [eps / 2]; lb_stepsize := 1; lb_error := Fin 0; lb_s := [[0]]; lb_y := [[0]]; lb_theta := 1; lb_num_updates := 0; lb_failed := false |}).
  exists cfg, [0], st, [Fin 0], [PInf]. split; [reflexivity|]. split.
  { intros [|i] Hi; cbn in Hi; [|lia]. cbn [lo up nth]. split; [apply xle_fin; lra|reflexivity]. }
  split. { apply (init_good 1 1 1). lra. }
  intros B. specialize (B 0%nat). assert (T : lbfgsb_target solve eps cfg [0] st [Fin 0] [PInf] = [Fin (- eps / 2)]).
  { unfold lbfgsb_target. cbn [lb_theta lb_s lb_y lb_num_updates lb_grad st qn_history_size cfg length].
    set (m := linalg_inv solve (2 * 1) (m_inv 1 0 1 [[0]] [[0]])). assert (Lm : length m = 2%nat) by apply (minv_len 1 0 1 [[0]] [[0]] solve). clearbody m.
    assert (Ew : w_flat 1 [[0]] [[0]] 1 = [[0; 0]]) by (cbn; repeat (f_equal; try lra)). rewrite Ew.
    assert (Et : cp_t eps [0] [eps / 2] [Fin 0] [PInf] = [PInf]).
    { unfold cp_t, tab. cbn [length seq map nth]. rewrite Rabs_right by lra. destruct (Rlt_dec (eps / 2) eps); [reflexivity|lra]. }
    assert (Ed : cp_d eps [0] [eps / 2] [Fin 0] [PInf] = [- (eps / 2)]) by (unfold cp_d; rewrite Et; reflexivity).
    assert (Ei : t_ind eps [0] [eps / 2] [Fin 0] [PInf] = [0%nat]) by (unfold t_ind; rewrite Et; reflexivity).
    assert (Es : t_sorted eps [0] [eps / 2] [Fin 0] [PInf] = [PInf]) by (unfold t_sorted; rewrite Ei, Et; reflexivity).
    assert (Ea : active_sorted eps [0] [eps / 2] [Fin 0] [PInf] = [true]) by (unfold active_sorted; rewrite Es; reflexivity).
    assert (Edt : cp_dt eps [0] [eps / 2] [Fin 0] [PInf] = [PInf]) by (unfold cp_dt, tab; cbn [length seq map]; rewrite Es; reflexivity).
    assert (Z2 : forall u : vec, tvec 2 [[0; 0]] u = [0; 0]) by (intros [|a u]; cbn; repeat (f_equal; try lra)).
    assert (MZ : mvec m [0; 0] = [0; 0]) by (change [0; 0] with (vzero 2); rewrite mvec_vzero, Lm; reflexivity).
    set (I := cp_init eps [0] [eps / 2] [Fin 0] [PInf] 1 [[0; 0]] m).
    assert (EI : cp_i I = 0%nat /\ cp_df I = - (eps / 2) ^ 2 /\ cp_ddf I = (eps / 2) ^ 2 /\ cp_mask I = [true] /\ cp_c I = [0; 0] /\ cp_p I = [0; 0]).
    { unfold I, cp_init. cbn [cp_i cp_df cp_ddf cp_mask cp_c cp_p]. rewrite Lm, Ed, Z2, MZ, Ea. unfold start_ind. rewrite Ea. cbn. repeat split; ring. }
    destruct EI as (E1 & E2 & E3 & E4 & E5 & E6).
    assert (P2 : (eps / 2) ^ 2 <> 0) by (apply pow_nonzero; lra).
    assert (EF : cp_final eps [0] [eps / 2] [Fin 0] [PInf] 1 [[0; 0]] m = I).
    { unfold cp_final. cbn [length cp_while]. fold I. unfold cp_cond. rewrite E1, E2, E3, Edt. cbn [nth Nat.min length Nat.sub].
      unfold xdivx. destruct (Req_EM_T ((eps / 2) ^ 2) 0); [contradiction|]. reflexivity. }
    assert (EM : dt_min eps [0] [eps / 2] [Fin 0] [PInf] 1 [[0; 0]] m = Fin 1).
    { unfold dt_min. rewrite EF, E2, E3. unfold xdivx. destruct (Req_EM_T ((eps / 2) ^ 2) 0); [contradiction|]. cbn [xmax]. rewrite Ropp_involutive.
      replace ((eps / 2) ^ 2 / (eps / 2) ^ 2) with 1 by (field; lra). rewrite Rmax_left by lra. reflexivity. }
    assert (EO : t_old eps [0] [eps / 2] [Fin 0] [PInf] 1 [[0; 0]] m = Fin 1).
    { unfold t_old. rewrite EF, E1, EM. cbn. f_equal. ring. }
    assert (EK : active_set_mask eps [0] [eps / 2] [Fin 0] [PInf] 1 [[0; 0]] m = [true]).
    { unfold active_set_mask, tab. cbn [length seq map]. rewrite Ei, EF, E4. reflexivity. }
    assert (EX : x_cauchy eps [0] [eps / 2] [Fin 0] [PInf] 1 [[0; 0]] m = [Fin (- eps / 2)]).
    { unfold x_cauchy, tab. cbn [length seq map]. rewrite EK, EO, Ed. cbn. do 2 f_equal. lra. }
    assert (EC : cauchy_c eps [0] [eps / 2] [Fin 0] [PInf] 1 [[0; 0]] m = [0; 0]).
    { unfold cauchy_c. rewrite EF, E5, E6, EM. cbn. repeat (f_equal; try lra). }
    rewrite EK, EX, EC. cbn [map xreal].
    assert (WM : w_masked [0] [[0; 0]] [true] = [[0; 0]]) by (cbn; repeat (f_equal; try lra)).
    assert (WZ : forall u : vec, mvec [[0; 0]] u = [0]) by (intros [|a [|b u]]; cbn; repeat (f_equal; try lra)).
    assert (RC : r_c [0] [eps / 2] [- eps / 2] [0; 0] 1 [[0; 0]] m [true] = [0]).
    { unfold r_c. rewrite WM, WZ. cbn. repeat (f_equal; try lra). }
    assert (DU : sub_du solve [0] [eps / 2] [- eps / 2] [0; 0] 1 [[0; 0]] m [true] = [0]).
    { unfold sub_du. rewrite RC, WM, WZ. cbn [smul map vsub]. f_equal. ring. }
    assert (AS : alpha_star solve [0] [eps / 2] [Fin 0] [PInf] [- eps / 2] [0; 0] 1 [[0; 0]] m [true] = Fin 1).
    { unfold alpha_star, tab. cbn [length seq map fold_right]. unfold sub_alpha. rewrite DU. cbn [nth bmask]. rewrite Rabs_R0. destruct (Rlt_dec 0 0); [lra|]. cbn. f_equal. apply Rmin_left. lra. }
    unfold minimize_subspace, tab. cbn [length seq map]. rewrite AS, DU. cbn. do 2 f_equal. lra. }
  unfold lbfgsb_direction in B. rewrite T in B. cbn [map xreal] in B. specialize (B ltac:(cbn; lia)). destruct B as [B _]. cbn [lo nth vsub vadd] in B. apply (proj1 (xle_fin _ _)) in B. cbn in B. lra.
Qed.
Print Assumptions C48_tiny_gradient_refuted.

(** Steps longer than 1 are not projected back: with a line search that may return the step 2 the iterate leaves the box. *)
Theorem C48_long_step_refuted :
  forall solve eps, exact_solver solve -> 0 < eps < 1 / 4 ->
  exists f gradf ls cfg x0 bounds steps,
    let '(lower, upper) := bounds in
    in_bounds lower upper x0 /\ grad_dim 1 gradf /\ clear_gradient eps (gradf x0) /\ clear_breaks eps x0 (gradf x0) lower upper /\ (0 < qn_history_size cfg)%nat /\
    ls_consistent f gradf ls /\ (forall s0 x v g d, 0 <= ls_step (ls s0 x v g d) <= qn_max_stepsize cfg /\ (dot g d < 0 -> f (ls_params (ls s0 x v g d)) <= f x + ls_step (ls s0 x v g d) * dot (gradf x) d)) /\
    lbfgsb_run solve eps f gradf ls cfg 1 (Some bounds) x0 steps 1 /\
    ~ in_bounds lower upper (fst (steps 1%nat)).
Proof.
  intros solve eps SOL He.
  set (f := fun v : vec => nth 0 v 0). set (gradf := fun v : vec => [1]).
  set (ls := fun (s0 : R) (x : vec) (v : R) (g d : vec) => {| ls_step := 2; ls_params := vadd x (smul 2 d); ls_value := f (vadd x (smul 2 d)); ls_grad := gradf (vadd x (smul 2 d)); ls_failed := false |}).
  set (cfg := {| qn_stepsize := StepConst 0; qn_linesearch_init := "increase"; qn_increase_factor := 2; qn_max_stepsize := 2; qn_min_stepsize := 0;
    qn_tol := 0; qn_stop_if_linesearch_fails := false; qn_history_size := 1; qn_use_gamma := true |}%string).
  set (x0 := [1 / 2]). set (lower := [Fin 0]). set (upper := [PInf]).
  set (st0 := lbfgsb_init f gradf cfg 1 x0 (Some (lower, upper))).
  assert (B : in_bounds lower upper x0). { intros [|i] Hi; cbn in Hi; [|lia]. split; [apply xle_fin; cbn; lra|reflexivity]. }
  assert (CG : clear_gradient eps (gradf x0)). { intros [|i] Hi; cbn in Hi; [|lia]. right. cbn. rewrite Rabs_R1. lra. }
  assert (CB : clear_breaks eps x0 (gradf x0) lower upper).
  { intros [|i] r Hi [[H1 H2]|[H1 H2]]; cbn in Hi; try lia; cbn in H1, H2; [lra|]. injection H2 as H2. right. lra. }
  assert (G : good_history 1 1 0 1 [[0]] [[0]]) by (apply (init_good 1 1 1); lra).
  set (w := w_flat 1 [[0]] [[0]] 1). set (m := linalg_inv solve (2 * 1) (m_inv 1 0 1 [[0]] [[0]])).
  assert (BE : forall u v : vec, length u = 1%nat -> length v = 1%nat -> bform 1 w m u v = dot u v).
  { intros u v Lu Lv. assert (Q := bform_empty 1 1 1 m u v (minv_len 1 0 1 [[0]] [[0]] solve) Lu Lv ltac:(lra)). rewrite Rmult_1_l in Q. exact Q. }
  assert (EQ : forall a, qmodel 1 w m [1] [a] = a + / 2 * (a * a)). { intros a. unfold qmodel. rewrite BE by reflexivity. cbn. ring. }
  assert (PA : forall t, 0 <= t -> path x0 [1] lower upper t = [Rmax (1 / 2 - t) 0]). { intros t Ht. unfold path, tab. cbn. rewrite Rmult_1_r. reflexivity. }
  destruct (C48_cauchy eps x0 [1] lower upper 1 0 1 [[0]] [[0]] solve ltac:(lra) eq_refl B CG CB G SOL) as (t & T0 & EX & _ & _ & _ & _ & LM).
  fold m in EX, LM. change (w_flat 1 [[0]] [[0]] (length x0)) with w in EX, LM.
  assert (TT : 1 / 2 <= t).
  { destruct LM as (del & D1 & D2).
    - intros v Lv Hv Nv. rewrite BE by exact Lv. destruct v as [|a [|? ?]]; try discriminate Lv. destruct (Hv 0%nat ltac:(cbn; lia)) as [E|E]; cbn in E; subst a; [exfalso; apply Nv; reflexivity|]. cbn. lra.
    - intros [|i] [|j] r Hi Hj _ _; cbn in Hi, Hj; lia.
    - destruct (Rle_lt_dec (1 / 2) t) as [Q|Q]; [exact Q|exfalso]. set (s := Rmin (t + del) (1 / 2)). assert (S1 : t < s) by (unfold s; apply Rmin_glb_lt; lra).
      assert (S2 : s <= t + del) by apply Rmin_l. assert (S3 : s <= 1 / 2) by apply Rmin_r. specialize (D2 s ltac:(lra) S2). rewrite !PA in D2 by lra. rewrite !Rmax_left in D2 by lra.
      cbn [vsub x0] in D2. change (qmodel 1 w m [1] [1 / 2 - t - 1 / 2] <= qmodel 1 w m [1] [1 / 2 - s - 1 / 2]) in D2. rewrite !EQ in D2. nra. }
  destruct (C48_feasible solve eps cfg x0 st0 lower upper SOL ltac:(lra) eq_refl B CG G) as (p & Lp & _ & Ep & Bp).
  destruct (C48_direction solve eps cfg x0 st0 lower upper SOL ltac:(lra) eq_refl B CG CB G) as [_ DD].
  assert (NS : ~ box_stationary lower upper x0 [1]).
  { intros S. specialize (S [0] eq_refl). assert (Q : in_bounds lower upper [0]) by (intros [|i] Hi; cbn in Hi; [|lia]; split; [apply xle_fin; cbn; lra|reflexivity]). specialize (S Q). cbn in S. lra. }
  destruct (DD NS) as (_ & Q1 & _). change (state_w (length x0) st0) with w in Q1. change (state_m solve (qn_history_size cfg) st0) with m in Q1. change (lb_theta st0) with 1 in Q1. change (lb_grad st0) with [1] in Q1.
  rewrite Ep in Q1. rewrite EX, map_xreal_fin, PA in Q1 by exact T0. rewrite Rmax_right in Q1 by lra. destruct p as [|a [|? ?]]; try discriminate Lp.
  change (vsub [0] x0) with [0 - 1 / 2] in Q1. rewrite !EQ in Q1. destruct (Bp 0%nat ltac:(cbn; lia)) as [Ba _]. cbn [vadd x0 nth lo lower] in Ba. apply (proj1 (xle_fin _ _)) in Ba. cbn in Ba.
  assert (Ea : a = - (1 / 2)) by nra. subst a.
  exists f, gradf, ls, cfg, x0, (lower, upper).
  assert (UP : exists r, lbfgsb_update solve eps f gradf ls cfg 1 (Some (lower, upper)) (x0, st0) = Ok r /\ fst r = vadd x0 (smul 2 [- (1 / 2)])).
  { unfold lbfgsb_update. cbn [bounds_or_default]. rewrite Ep. unfold lbfgsb_step. assert (UL : use_linesearch cfg = true) by (cbn; unfold Rleb; destruct (Rle_dec 0 0); [reflexivity|lra]). rewrite UL.
    assert (IS : exists s0, init_stepsize (qn_linesearch_init cfg) (qn_max_stepsize cfg) (qn_min_stepsize cfg) (qn_increase_factor cfg) (lb_stepsize st0) = Ok s0) by (eexists; reflexivity).
    destruct IS as (s0 & ->). destruct (lbfgsb_store _ _ _ _ _) as [[[? ?] ?] ?]. eexists. split; [reflexivity|]. reflexivity. }
  destruct UP as (r & U1 & U2). exists (fun k => match k with O => (x0, st0) | _ => r end).
  split; [exact B|]. split; [intros v _; reflexivity|]. split; [exact CG|]. split; [exact CB|]. split; [cbn; lia|].
  split; [intros s0 x v g d; repeat split|]. split; [|split].
  - intros s0 x v g d. cbn [ls ls_step ls_params qn_max_stepsize cfg]. split; [lra|]. intros _. unfold f, gradf. rewrite nth_vadd, nth_smul. destruct d as [|b d]; cbn; rewrite ?dot_nil_l; lra.
  - split; [reflexivity|]. intros [|k] Hk; [exact U1|lia].
  - cbn [fst]. rewrite U2. intros Q. destruct (Q 0%nat ltac:(cbn; lia)) as [Q' _]. apply (proj1 (xle_fin _ _)) in Q'. cbn in Q'. lra.
Qed.
Print Assumptions C48_long_step_refuted.

Example C48_example : exists x g lower upper sh yh eps,
  0 < eps /\ length g = length x /\ in_bounds lower upper x /\ clear_gradient eps g /\ clear_breaks eps x g lower upper /\ distinct_breaks x g lower upper /\
  good_history (length x) 2 1 (5 / 2) sh yh /\ ~ box_stationary lower upper x g.
Proof.
  exists [1; 1], [1; -2], [Fin 0; NInf], [PInf; Fin 4], [[1; 0]; [0; 0]], [[2; 1]; [0; 0]], (1 / 1000).
  split; [lra|]. split; [reflexivity|]. split. { intros [|[|i]] Hi; cbn in Hi; try lia; cbn [lo up nth]; split; try reflexivity; apply xle_fin; lra. }
  split. { intros [|[|i]] Hi; cbn in Hi; try lia; right; cbn [nth]; unfold Rabs; destruct (Rcase_abs _); lra. }
  split. { intros [|[|i]] r Hi [[H1 H2]|[H1 H2]]; cbn in Hi, H1, H2; try lia; try discriminate H2; try lra; injection H2 as H2; right; lra. }
  split. { intros [|[|i]] [|[|j]] r Hi Hj [[A1 A2]|[A1 A2]] [[B1 B2]|[B1 B2]]; cbn in Hi, Hj, A1, A2, B1, B2; try lia; try discriminate A2; try discriminate B2; try lra; injection A2 as A2; injection B2 as B2; lra. }
  split. { constructor; [lra|split; [reflexivity|repeat constructor]|split; [reflexivity|repeat constructor]| |].
    - intros [|[|i]] Hi Hk; try lia. cbn. lra.
    - intros [|[|i]] Hi Hk; try lia. split; reflexivity. }
  intros S. specialize (S [0; 2] eq_refl). assert (B : in_bounds [Fin 0; NInf] [PInf; Fin 4] [0; 2]).
  { intros [|[|i]] Hi; cbn in Hi; try lia; cbn [lo up nth]; split; try reflexivity; apply xle_fin; lra. }
  specialize (S B). cbn in S. lra.
Qed.
Example C48_run_example : exists solve f gradf ls cfg lower upper x0 steps,
  exact_solver solve /\ grad_dim 2 gradf /\ in_bounds lower upper x0 /\ ls_unit f gradf ls /\ positive_starts cfg /\ use_linesearch cfg = true /\
  clear_gradient (1 / 1000) (gradf x0) /\ ~ box_stationary lower upper x0 (gradf x0) /\ lbfgsb_run solve (1 / 1000) f gradf ls cfg 1 (Some (lower, upper)) x0 steps 1.
Proof.
  set (f := fun v : vec => / 2 * dot v v). set (gradf := fun v : vec => tab 2 (fun i => nth i v 0)).
  set (zcfg := {| zc1 := 1 / 10000; zc2 := 9 / 10; zc3 := 1 / 1000000; rel_tol_cubic := 2 / 10; rel_tol_quad := 1 / 10;
    interval_threshold := 1 / 100000; increase_factor := 2; ztol := 0; zmaxiter := 30; max_stepsize_arg := Some 1 |}).
  set (cfg := {| qn_stepsize := StepConst 0; qn_linesearch_init := "increase"; qn_increase_factor := 2; qn_max_stepsize := 1; qn_min_stepsize := 1 / 1000000;
    qn_tol := 1 / 1000; qn_stop_if_linesearch_fails := false; qn_history_size := 10; qn_use_gamma := true |}%string).
  assert (ZM : zmax zcfg = 1) by (cbn; destruct (Req_EM_T 1 0); lra).
  set (st0 := lbfgsb_init f gradf cfg 1 [1; 2] (Some ([Fin 0; Fin 1], [PInf; PInf]))).
  assert (UP : exists r, lbfgsb_update gauss_solve (1 / 1000) f gradf (zoom_ls zcfg f gradf) cfg 1 (Some ([Fin 0; Fin 1], [PInf; PInf])) ([1; 2], st0) = Ok r).
  { unfold lbfgsb_update. cbn [bounds_or_default]. unfold lbfgsb_step. assert (UL : use_linesearch cfg = true) by (cbn; unfold Rleb; destruct (Rle_dec 0 0); [reflexivity|lra]). rewrite UL.
    assert (IS : exists s0, init_stepsize (qn_linesearch_init cfg) (qn_max_stepsize cfg) (qn_min_stepsize cfg) (qn_increase_factor cfg) (lb_stepsize st0) = Ok s0) by (eexists; reflexivity).
    destruct IS as (s0 & ->). destruct (lbfgsb_store _ _ _ _ _) as [[[? ?] ?] ?]. eexists. reflexivity. }
  destruct UP as (r & U). exists gauss_solve, f, gradf, (zoom_ls zcfg f gradf), cfg, [Fin 0; Fin 1], [PInf; PInf], [1; 2], (fun k => match k with O => ([1; 2], st0) | _ => r end).
  split; [exact gauss_exact|]. split; [intros v _; reflexivity|]. split. { intros [|[|i]] Hi; cbn in Hi; try lia; cbn [lo up nth]; split; try reflexivity; apply xle_fin; lra. }
  split. { apply C48_zoom; [|rewrite ZM; lra]. unfold zoom_ok. rewrite ZM. cbn. repeat split; try lra; lia. }
  split. { split; [right; reflexivity|]. cbn. lra. }
  split. { cbn. unfold Rleb. destruct (Rle_dec 0 0); [reflexivity|lra]. }
  split. { intros [|[|i]] Hi; cbn in Hi; try lia; right; cbn; unfold Rabs; destruct (Rcase_abs _); lra. }
  split. { intros S. specialize (S [0; 1] eq_refl). assert (B : in_bounds [Fin 0; Fin 1] [PInf; PInf] [0; 1]).
    { intros [|[|i]] Hi; cbn in Hi; try lia; cbn [lo up nth]; split; try reflexivity; apply xle_fin; lra. }
    specialize (S B). cbn in S. lra. }
  split; [reflexivity|]. intros [|k] Hk; [exact U|lia].
Qed.
