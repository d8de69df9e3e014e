(** C35, C36: BoxOSQP. *)
From Coq Require Import Reals List Lra Lia Bool Arith.
From Verif Require Import Prelude Vec Mat LinAlg LinSolve LMTheorems XArith Loop Run Osqp OsqpProofs OsqpConverge.
Import ListNotations.
Open Scope R_scope.

(** Gap bound: residuals pr = A x - z and dr = Q x + c + A'y, z in the box, y normal to it at z. *)
Lemma gap m n Q c A l u x z y w : qp_problem m n Q c A l u -> length x = n -> length w = n -> in_box l u z -> normal_to_box l u y z -> qp_feasible A l u w ->
  qp_objective Q c x <= qp_objective Q c w + dot (vadd (vadd (mvec Q x) c) (tvec n A y)) (vsub x w) - dot y (vsub (mvec A x) z).
Proof.
  intros HP Lx Lw Iz [Ly Ny] Hw. specialize (Ny (mvec A w) Hw). rewrite dot_vsub_r in Ny.
  assert (P := qp_psd _ _ _ _ _ _ _ HP (vsub w x) (vsub_length_eq _ _ _ Lw Lx)). rewrite mvec_vsub, dot_vsub_l, !dot_vsub_r in P.
  assert (Sy : dot x (mvec Q w) = dot w (mvec Q x)) by (apply (sym_dot n); try assumption; [apply (qp_Q _ _ _ _ _ _ _ HP)|apply (qp_sym _ _ _ _ _ _ _ HP)]).
  unfold qp_objective. rewrite !dot_vadd_l, !dot_tvec, !dot_vsub_r, mvec_vsub, dot_vsub_r. rewrite (dot_comm (mvec Q x) x), (dot_comm (mvec Q x) w). lra.
Qed.
Lemma mu_phi y : exists mu phi, bmu (full_kkt [] [] (fin y)) = fin mu /\ bphi (full_kkt [] [] (fin y)) = fin phi /\ length mu = length y /\ length phi = length y /\
  forall i, 0 <= nth i mu 0 /\ 0 <= nth i phi 0 /\ nth i mu 0 - nth i phi 0 = nth i y 0 /\ nth i mu 0 * nth i phi 0 = 0.
Proof.
  induction y as [|t y (mu & phi & E1 & E2 & L1 & L2 & H)]; [exists [], []; repeat split; auto; destruct i; simpl; lra|].
  exists (Rmax t 0 :: mu), (Rmax (- t) 0 :: phi). cbn [full_kkt bmu bphi fin map] in E1, E2 |- *. fold (fin y) in *. rewrite E1, E2. split; [|split; [reflexivity|]].
  - f_equal. simpl. unfold Rmax. destruct (Rle_dec 0 t), (Rle_dec t 0); try reflexivity; try lra. f_equal. lra.
  - split; [simpl; congruence|]. split; [simpl; congruence|]. intros [|i]; [|apply H]. cbn [nth]. unfold Rmax. destruct (Rle_dec t 0), (Rle_dec (- t) 0); repeat split; lra.
Qed.

(** ** C35 *)
(** Every update, whatever the linear solver returns: if the new dual y is finite then so is the new
    z, it lies in the box, and y is normal to the box at z. *)
Theorem C35_box : forall m n Q c A l u eps_div lin_solve cfg p st p' st' r y',
  qp_problem m n Q c A l u -> (forall r p b, length (lin_solve r p b) = n) -> length (bx p) = n -> length (bz p) = m -> length (by_ p) = m -> o_rho st = Fin r -> 0 < r ->
  box_update n Q c A l u eps_div lin_solve cfg (p, st) = Ok (p', st') -> by_ p' = fin y' ->
  exists z', bz p' = fin z' /\ in_box l u z' /\ normal_to_box l u y' z'.
Proof.
  intros m n Q c A l u eps_div lin_solve cfg p st p' st' r y' HP HL Lx Lz Ly Er Hr H Hy. unfold box_update in H. rewrite Er in H.
  destruct (admm_step n c A l u lin_solve cfg p (Fin r) (o_lin st)) as [[[x z] y] ss] eqn:Es. destruct (residuals n Q c A x z y) as [pres dres].
  destruct (if Nat.eqb (Nat.modulo (o_iter st) (step_freq cfg)) 0 then _ else _) as [rho' ss'].
  destruct (if Nat.eqb (Nat.modulo (o_iter st) (term_freq cfg)) 0 then _ else _) as [e s]. destruct (_ && _)%bool; [discriminate|]. injection H as <- <-. cbn [by_ bz full_kkt] in *. subst y.
  unfold admm_step in Es. cbv zeta in Es. injection Es as _ Ez Ey _. assert (La := proj1 (qp_A _ _ _ _ _ _ _ HP)).
  set (zm := xvadd (bz p) (xsmul (Fin (momentum cfg)) (xvsub (xmvec (finm A) (lin_solve (ss_rho (o_lin st)) (ss_prev (o_lin st)) (linear_rhs n c A cfg (bx p) (bz p) (by_ p) (Fin r)))) (bz p)))) in *.
  assert (Lzm : length zm = m) by (unfold zm; rewrite xvadd_length, xsmul_length, xvsub_length, xmvec_length; unfold finm; rewrite map_length; unfold mat, xvec, vec in *; lia).
  destruct (normal_step m n Q c A l u HP zm (by_ p) r y' Lzm Ly Hr Ey) as (_ & _ & z1 & _ & _ & Ez1 & _ & HI & HN).
  exists z1. split; [rewrite <- Ez; exact Ez1|split; assumption].
Qed.
Print Assumptions C35_box.

(** The duals split: mu - phi = y, mu, phi >= 0, mu_i phi_i = 0. *)
Theorem C35_duals : forall n Q c A l u eps_div lin_solve cfg p st p' st' y,
  box_update n Q c A l u eps_div lin_solve cfg (p, st) = Ok (p', st') -> by_ p' = fin y ->
  exists mu phi, bmu p' = fin mu /\ bphi p' = fin phi /\ length mu = length y /\ length phi = length y /\
    forall i, 0 <= nth i mu 0 /\ 0 <= nth i phi 0 /\ nth i mu 0 - nth i phi 0 = nth i y 0 /\ nth i mu 0 * nth i phi 0 = 0.
Proof.
  intros n Q c A l u eps_div lin_solve cfg p st p' st' y H Hy. unfold box_update in H. destruct (admm_step _ _ _ _ _ _ _ _ _ _) as [[[x z] y0] ss]. destruct (residuals n Q c A x z y0) as [pres dres].
  destruct (if Nat.eqb (Nat.modulo (o_iter st) (step_freq cfg)) 0 then _ else _) as [rho' ss'].
  destruct (if Nat.eqb (Nat.modulo (o_iter st) (term_freq cfg)) 0 then _ else _) as [e s]. destruct (_ && _)%bool; [discriminate|]. injection H as <- <-. cbn [by_ full_kkt] in Hy. subst y0. exact (mu_phi y).
Qed.
Print Assumptions C35_duals.

(** With an exact linear solver (and no infeasibility test) the update is the ADMM step of the paper;
    at check iterations the error is the largest residual and SOLVED means error <= tol, at the
    others error and status are those of the previous iterate. *)
Theorem C35_update : forall m n Q c A l u eps_div lin_solve cfg p st r x z y,
  qp_problem m n Q c A l u -> lin_exact n Q A (sigma cfg) lin_solve -> check_infeas cfg = false -> 0 < r ->
  finite_params m n p x z y -> o_rho st = Fin r -> ss_rho (o_lin st) = Fin r -> (o_status st = UNSOLVED \/ o_status st = SOLVED) ->
  exists s x' z' y' st' e f, box_update n Q c A l u eps_div lin_solve cfg (p, st) = Ok (full_kkt (fin x') (fin z') (fin y'), st') /\
    vadd (vadd (mvec Q s) (smul (sigma cfg) s)) (smul r (tvec n A (mvec A s))) = vsub (vsub (smul (sigma cfg) x) c) (tvec n A (vadd y (smul (- r) z))) /\
    x' = vadd x (smul (momentum cfg) (vsub s x)) /\ in_box l u z' /\ normal_to_box l u y' z' /\
    vadd z' (smul (1 / r) y') = vadd (vadd z (smul (1 / r) y)) (smul (momentum cfg) (vsub (mvec A s) z)) /\
    o_iter st' = S (o_iter st) /\ ss_rho (o_lin st') = o_rho st' /\
    is_inf_norm (vsub (mvec A x') z') e /\ is_inf_norm (vadd (vadd (mvec Q x') c) (tvec n A y')) f /\
    (if Nat.eqb (Nat.modulo (o_iter st) (term_freq cfg)) 0 then o_error st' = Fin (Rmax e f) /\ (o_status st' = SOLVED <-> Rmax e f <= osqp_tol cfg)
     else o_error st' = o_error st /\ o_status st' = o_status st).
Proof.
  intros m n Q c A l u eps_div lin_solve cfg p st r x z y HP HE Hck Hr Hf Er Es Hst.
  destruct (update_exact m n Q c A l u eps_div lin_solve cfg HP HE p st r (o_iter st) x z y Hck Hr Hf Er Es eq_refl Hst) as (s & x' & z' & y' & st' & e & f & Eu & Lx & Lz & Ly & HS & E1 & E2 & E3 & E4 & He & Hf' & Ht).
  destruct HS as [Ls El Ex Hb Hn Ev]. exists s, x', z', y', st', e, f. unfold zy in Ev. repeat split; try assumption; try apply He; try apply Hf'; try apply Hb; try apply Hn; destruct (Nat.eqb _ 0); tauto.
Qed.
Print Assumptions C35_update.

(** The adapted rho is in [rho_min, rho_max] unless it is NaN, which happens exactly when A x and z are
    both zero, or Q x, A'y and c all are. *)
Theorem C35_rho : forall m n Q c A l u eps_div cfg r x z y, qp_problem m n Q c A l u -> 0 < r -> 0 < eps_div -> rho_min cfg <= rho_max cfg ->
  length x = n -> length z = m -> length y = m ->
  let rho' := new_rho n Q c A eps_div cfg (Fin r) (fin (vsub (mvec A x) z)) (fin (vadd (vadd (mvec Q x) c) (tvec n A y))) (fin x) (fin y) in
  (rho' = NaN \/ exists t, rho' = Fin t /\ rho_min cfg <= t <= rho_max cfg) /\
  (rho' = NaN <-> (mvec A x = vzero m /\ z = vzero m) \/ (mvec Q x = vzero n /\ tvec n A y = vzero n /\ c = vzero n)).
Proof.
  intros m n Q c A l u eps_div cfg r x z y HP Hr He Hm Lx Lz Ly rho'. split.
  { unfold rho', new_rho. cbv zeta. apply xclip_range. exact Hm. }
  assert (HA := qp_A _ _ _ _ _ _ _ HP). assert (HQ := qp_Q _ _ _ _ _ _ _ HP). assert (Lc := qp_c _ _ _ _ _ _ _ HP). assert (Hpos := qp_pos _ _ _ _ _ _ _ HP).
  assert (La : length (mvec A x) = m) by (rewrite mvec_length; apply HA). assert (Lq : length (mvec Q x) = n) by (rewrite mvec_length; apply HQ).
  assert (Lt : length (tvec n A y) = n) by (apply (tvec_length m); exact HA).
  set (pr := vsub (mvec A x) z) in *. assert (Lp : length pr = m) by (apply vsub_length_eq; assumption).
  set (dr := vadd (vadd (mvec Q x) c) (tvec n A y)) in *. assert (Ld : length dr = n) by (repeat apply vadd_length_eq; assumption).
  assert (NE : forall (v : vec) k, length v = k -> (0 < k)%nat -> v <> []) by (intros v k L K ->; simpl in L; lia).
  destruct (xinf_norm_fin pr) as (a & Ea & Ha); [apply (NE _ _ Lp); lia|]. destruct (xinf_norm_fin dr) as (b & Eb & Hb); [apply (NE _ _ Ld); lia|].
  destruct (xinf_norm_fin (mvec A x)) as (ea & Eea & Hea); [apply (NE _ _ La); lia|]. destruct (xinf_norm_fin (mvec Q x)) as (eq & Eeq & Heq); [apply (NE _ _ Lq); lia|].
  destruct (xinf_norm_fin (tvec n A y)) as (et & Eet & Het); [apply (NE _ _ Lt); lia|]. destruct (xinf_norm_fin c) as (ec & Eec & Hec); [apply (NE _ _ Lc); lia|].
  assert (Za := inf_norm_zero _ _ Ha). assert (Zb := inf_norm_zero _ _ Hb). assert (Zea := inf_norm_zero _ _ Hea). assert (Zeq := inf_norm_zero _ _ Heq). assert (Zet := inf_norm_zero _ _ Het). assert (Zec := inf_norm_zero _ _ Hec).
  rewrite Lp in Za. rewrite Ld in Zb. rewrite La in Zea. rewrite Lq in Zeq. rewrite Lt in Zet. rewrite Lc in Zec.
  apply inf_norm_nonneg in Ha, Hb, Hea, Heq, Het, Hec.
  assert (Zpz : mvec A x = vzero m -> (z = vzero m <-> pr = vzero m)).
  { intros E. unfold pr. rewrite E. split.
    - intros ->. rewrite vsub_self, vzero_length. reflexivity.
    - intros K. apply vec_ext; [rewrite vzero_length; exact Lz|]. intros i _. rewrite nth_vzero. assert (Ki := f_equal (fun v => nth i v 0) K). cbv beta in Ki. rewrite nth_vsub, !nth_vzero in Ki. lra. }
  assert (ZD : mvec Q x = vzero n -> tvec n A y = vzero n -> c = vzero n -> dr = vzero n).
  { intros E1 E2 E3. unfold dr. rewrite E1, E2, E3. assert (V0 : vadd (vzero n) (vzero n) = vzero n) by (apply vadd_vzero_r; rewrite vzero_length; lia). rewrite !V0. reflexivity. }
  set (mx := Rmax eq (Rmax et ec)). assert (Zmx : mx = 0 <-> eq = 0 /\ et = 0 /\ ec = 0).
  { unfold mx. unfold Rmax. destruct (Rle_dec et ec); destruct (Rle_dec eq _); split; intros; lra. }
  assert (Pmx : 0 <= mx) by (unfold mx; eapply Rle_trans; [exact Heq|apply Rmax_l]).
  unfold rho', new_rho. cbv zeta. rewrite !xmvec_fin, !xtvec_fin, Ea, Eb, Eea, Eeq, Eet, Eec. cbn [xmax]. fold mx.
  assert (CL : forall v, xclip v (Fin (rho_min cfg)) (Fin (rho_max cfg)) = NaN <-> v = NaN) by (intros [t| | |]; simpl; split; intros; try discriminate; reflexivity).
  rewrite CL. cbn [xdivx].
  destruct (Req_EM_T ea 0) as [Z1|Z1]; destruct (Req_EM_T mx 0) as [Z2|Z2].
  - (* A x = 0, max_inf = 0 *)
    assert (B0 : b = 0) by (apply Zb; apply ZD; [apply Zeq|apply Zet|apply Zec]; tauto). rewrite B0. unfold xinf_times at 2. destruct (Rlt_dec 0 0) as [|_]; [lra|]. destruct (Rlt_dec 0 0) as [|_]; [lra|].
    cbn [xadd]. assert (E : xdivx (xinf_times a) NaN = NaN) by (destruct (xinf_times a); reflexivity). rewrite E. split; [|reflexivity]. intros _. right. tauto.
  - (* A x = 0 only *)
    cbn [xadd]. assert (Pb : 0 < b / mx + eps_div) by (assert (0 <= b / mx) by (apply Rmult_le_pos; [lra|apply Rlt_le, Rinv_0_lt_compat; lra]); lra).
    unfold xinf_times. destruct (Rlt_dec 0 a) as [Pa|Pa].
    + cbn [xdivx]. destruct (Rlt_dec _ 0); [lra|]. simpl. unfold xinf_times. destruct (Rlt_dec 0 r); [|lra]. split; [discriminate|]. intros [[_ H]|(H1 & H2 & H3)]; exfalso; [|tauto].
      assert (a = 0) by (apply Za; apply Zpz; [apply Zea; exact Z1|exact H]). lra.
    + destruct (Rlt_dec a 0); [lra|]. cbn [xdivx xsqrt xmul]. split; [|reflexivity]. intros _. left. split; [apply Zea; exact Z1|]. apply Zpz; [apply Zea; exact Z1|]. apply Za. lra.
  - assert (B0 : b = 0) by (apply Zb; apply ZD; [apply Zeq|apply Zet|apply Zec]; tauto). rewrite B0. unfold xinf_times. destruct (Rlt_dec 0 0) as [|_]; [lra|].
    simpl. split; [|reflexivity]. intros _. right. tauto.
  - cbn [xadd xdivx]. assert (Pb : 0 < b / mx + eps_div) by (assert (0 <= b / mx) by (apply Rmult_le_pos; [lra|apply Rlt_le, Rinv_0_lt_compat; lra]); lra).
    destruct (Req_EM_T (b / mx + eps_div) 0); [lra|]. cbn [xsqrt]. destruct (Rlt_dec _ 0) as [C|].
    + exfalso. assert (0 <= a / ea / (b / mx + eps_div)) by (repeat apply Rmult_le_pos; try lra; apply Rlt_le, Rinv_0_lt_compat; lra). lra.
    + cbn [xmul]. split; [discriminate|]. intros [[H _]|(H1 & H2 & H3)]; exfalso; tauto.
Qed.
Print Assumptions C35_rho.

(** SOLVED is trustworthy, whatever the linear solver did: the returned point is finite, z is in the
    box, y normal to it, both residuals are at most tol, and x is optimal up to the residuals. *)
Theorem C35_solved : forall m n Q c A l u eps_div lin_solve cfg p p' st',
  qp_problem m n Q c A l u -> (forall r p b, length (lin_solve r p b) = n) -> 0 < rho_start cfg /\ 0 < rho_min cfg /\ rho_min cfg <= rho_max cfg ->
  length (bx p) = n -> length (bz p) = m -> length (by_ p) = m ->
  box_run_from n Q c A l u eps_div lin_solve cfg p = Ok (p', st') -> o_status st' = SOLVED ->
  exists x z y e f, bx p' = fin x /\ bz p' = fin z /\ by_ p' = fin y /\ length x = n /\ in_box l u z /\ normal_to_box l u y z /\
    is_inf_norm (vsub (mvec A x) z) e /\ is_inf_norm (vadd (vadd (mvec Q x) c) (tvec n A y)) f /\ e <= osqp_tol cfg /\ f <= osqp_tol cfg /\ o_error st' = Fin (Rmax e f) /\
    forall w, length w = n -> qp_feasible A l u w -> qp_objective Q c x <= qp_objective Q c w + osqp_tol cfg * (norm1 (vsub x w) + norm1 y).
Proof.
  intros m n Q c A l u eps_div lin_solve cfg p p' st' HP HL Hrho Lx Lz Ly H Hs.
  destruct (run_solved m n Q c A l u eps_div lin_solve cfg HP HL Hrho p p' st' (conj Lx (conj Lz Ly)) H Hs) as (x & z & y & e & f & -> & Lx' & HI & HN & He & Hf & He' & Hf' & Er).
  exists x, z, y, e, f. cbn [bx bz by_ full_kkt]. repeat (split; [reflexivity || assumption|]). intros w Lw Hw.
  assert (G := gap m n Q c A l u x z y w HP Lx' Lw HI HN Hw).
  assert (HB : forall v b t, (forall i, (i < length v)%nat -> Rabs (nth i v 0) <= t) -> 0 <= t -> length v = length b -> Rabs (dot v b) <= t * norm1 b).
  { clear. intros v. induction v as [|a v IH]; intros [|b0 b] t Hb Ht Hl; try discriminate; [unfold norm1; simpl; rewrite Rabs_R0; lra|].
    unfold norm1 in *. simpl. assert (H0 := Hb 0%nat ltac:(simpl; lia)). simpl in H0. assert (H1 := IH b t (fun i Hi => Hb (S i) ltac:(simpl; lia)) Ht ltac:(simpl in Hl; lia)).
    eapply Rle_trans; [apply Rabs_triang|]. rewrite Rabs_mult. assert (Rabs a * Rabs b0 <= t * Rabs b0) by (apply Rmult_le_compat_r; [apply Rabs_pos|exact H0]). lra. }
  assert (Lq := proj1 (qp_Q _ _ _ _ _ _ _ HP)). assert (La := proj1 (qp_A _ _ _ _ _ _ _ HP)). assert (Lc := qp_c _ _ _ _ _ _ _ HP). assert (HA := qp_A _ _ _ _ _ _ _ HP).
  assert (Lz' : length z = m) by (destruct HI as [L _]; rewrite L; apply (qp_l _ _ _ _ _ _ _ HP)). assert (Ly' : length y = m) by (destruct HN as [L _]; congruence).
  assert (Nt : 0 <= osqp_tol cfg) by (apply inf_norm_nonneg in He; lra).
  assert (B1 := HB (vadd (vadd (mvec Q x) c) (tvec n A y)) (vsub x w) (osqp_tol cfg) (fun i Hi => Rle_trans _ _ _ (proj1 Hf i Hi) Hf') Nt ltac:(rewrite !vadd_length, mvec_length, (tvec_length m), vsub_length by exact HA; unfold mat, vec in *; lia)).
  assert (B2 := HB (vsub (mvec A x) z) y (osqp_tol cfg) (fun i Hi => Rle_trans _ _ _ (proj1 He i Hi) He') Nt ltac:(rewrite vsub_length, mvec_length; unfold mat, vec in *; lia)).
  rewrite (dot_comm y) in G. assert (T1 := Rle_abs (dot (vadd (vadd (mvec Q x) c) (tvec n A y)) (vsub x w))). assert (T2 := Rle_abs (- dot (vsub (mvec A x) z) y)). rewrite Rabs_Ropp in T2. lra.
Qed.
Print Assumptions C35_solved.

(** Zero residuals mean optimality; conversely every such triple is a KKT pair. *)
Theorem C35_optimal : forall m n Q c A l u x z y, qp_problem m n Q c A l u -> length x = n -> in_box l u z -> normal_to_box l u y z ->
  vsub (mvec A x) z = vzero m -> vadd (vadd (mvec Q x) c) (tvec n A y) = vzero n -> qp_solution n Q c A l u x /\ qp_kkt n Q c A l u x y.
Proof.
  intros m n Q c A l u x z y HP Lx HI HN E1 E2.
  assert (La := proj1 (qp_A _ _ _ _ _ _ _ HP)). assert (Lz' : length z = m) by (destruct HI as [L _]; rewrite L; apply (qp_l _ _ _ _ _ _ _ HP)).
  assert (Ez : mvec A x = z).
  { apply vec_ext; [rewrite mvec_length; unfold mat, vec in *; lia|]. intros i _. assert (K := f_equal (fun v => nth i v 0) E1). cbv beta in K. rewrite nth_vsub, nth_vzero in K. lra. }
  split.
  - split; [exact Lx|]. split; [unfold qp_feasible; rewrite Ez; exact HI|]. intros w Lw Hw. assert (G := gap m n Q c A l u x z y w HP Lx Lw HI HN Hw). rewrite E1, E2, dot_vzero_l, dot_vzero_r in G. lra.
  - split; [exact Lx|]. split; [unfold qp_feasible; rewrite Ez; exact HI|]. split; [rewrite Ez; exact HN|exact E2].
Qed.
Print Assumptions C35_optimal.

(** Every step with an exact solver and a constant rho moves closer to every primal-dual solution, in
    the norm sigma |x|^2 + rho |z + y/rho|^2, by at least momentum (2 - momentum) times the squared
    displacement. *)
Theorem C35_monotone : forall m n Q c A l u eps_div lin_solve cfg p st r x z y xs ys,
  qp_problem m n Q c A l u -> lin_exact n Q A (sigma cfg) lin_solve -> check_infeas cfg = false -> 0 < r -> 0 < momentum cfg < 2 -> 0 < sigma cfg ->
  finite_params m n p x z y -> in_box l u z -> normal_to_box l u y z -> o_rho st = Fin r -> ss_rho (o_lin st) = Fin r -> (o_status st = UNSOLVED \/ o_status st = SOLVED) -> qp_kkt n Q c A l u xs ys ->
  exists x' z' y' st', box_update n Q c A l u eps_div lin_solve cfg (p, st) = Ok (full_kkt (fin x') (fin z') (fin y'), st') /\
    let d x z y := sigma cfg * dist2 x xs + r * dist2 (vadd z (smul (1 / r) y)) (vadd (mvec A xs) (smul (1 / r) ys)) in
    d x' z' y' + (2 - momentum cfg) / momentum cfg * (sigma cfg * dist2 x' x + r * dist2 (vadd z' (smul (1 / r) y')) (vadd z (smul (1 / r) y))) <= d x z y.
Proof.
  intros m n Q c A l u eps_div lin_solve cfg p st r x z y xs ys HP HE Hck Hr Hm Hs Hf Iz Ny Er Es Hst HK.
  destruct (update_exact m n Q c A l u eps_div lin_solve cfg HP HE p st r (o_iter st) x z y Hck Hr Hf Er Es eq_refl Hst) as (s & x' & z' & y' & st' & e & f & Eu & Lx & Lz & Ly & HS & _).
  assert (LY := lyapunov m n Q c A l u (sigma cfg) (momentum cfg) r HP Hr Hm x z y s x' z' y' xs ys HS ltac:(apply Hf) Iz Ny HK).
  exists x', z', y', st'. split; [exact Eu|]. cbv zeta. destruct HS as [Ls El Ex Hb Hn Ev]. unfold potential, zy in LY. unfold zy in Ev. eapply Rle_trans; [|exact LY].
  apply Rplus_le_compat_l. rewrite Ex, Ev. set (v0 := vadd z (smul (1 / r) y)). rewrite !dist2_step. rewrite !dist2_self, !vsub_self, !dot_vzero_r. apply Req_le. field. lra.
Qed.
Print Assumptions C35_monotone.

Lemma admm_fixed m n Q c A l u lin_solve cfg p ss r xs ys :
  qp_problem m n Q c A l u -> lin_exact n Q A (sigma cfg) lin_solve -> 0 < r -> 0 < momentum cfg < 2 -> 0 < sigma cfg ->
  qp_kkt n Q c A l u xs ys -> bx p = fin xs -> bz p = fin (mvec A xs) -> by_ p = fin ys -> ss_rho ss = Fin r ->
  exists ss', admm_step n c A l u lin_solve cfg p (Fin r) ss = (fin xs, fin (mvec A xs), fin ys, ss').
Proof.
  intros HP HE Hr Hm Hs HK Ex Ez Ey Es. assert (HK' := HK). destruct HK as (Lx & Hf & Hn & Hst').
  assert (La : length (mvec A xs) = m) by (rewrite mvec_length; apply (qp_A _ _ _ _ _ _ _ HP)). assert (Lys : length ys = m) by (destruct Hn as [L _]; rewrite L; exact La).
  assert (Hfin : finite_params m n p xs (mvec A xs) ys) by (repeat split; assumption).
  destruct (admm_exact m n Q c A l u lin_solve cfg HP HE p ss r xs (mvec A xs) ys Hr Hfin Es) as (s & x' & z' & y' & Eu & Lx' & Lz & Ly & HS).
  assert (LY := lyapunov m n Q c A l u (sigma cfg) (momentum cfg) r HP Hr Hm xs (mvec A xs) ys s x' z' y' xs ys HS Lx Hf Hn HK').
  destruct (nonexpansive m n Q c A l u (sigma cfg) (momentum cfg) r HP Hr Hm xs (mvec A xs) ys s x' z' y' HS Hf Hn) as [B1 B2].
  destruct HS as [Ls El Ex' Hb Hn' Ev]. unfold potential in LY. rewrite !dist2_self in LY.
  assert (D1 := dist2_nonneg x' xs). assert (D2 := dist2_nonneg (zy r z' y') (zy r (mvec A xs) ys)).
  assert (S1 := dot_self_nonneg (vsub s xs)). assert (S2 := dot_self_nonneg (vsub (mvec A s) (mvec A xs))).
  assert (P0 : 0 < momentum cfg * (2 - momentum cfg)) by (apply Rmult_lt_0_compat; lra).
  assert (P1 : 0 <= sigma cfg * dist2 x' xs) by (apply Rmult_le_pos; lra). assert (P2 : 0 <= r * dist2 (zy r z' y') (zy r (mvec A xs) ys)) by (apply Rmult_le_pos; lra).
  set (a := sigma cfg * dot (vsub s xs) (vsub s xs)) in *. set (b := r * dot (vsub (mvec A s) (mvec A xs)) (vsub (mvec A s) (mvec A xs))) in *.
  assert (Pa : 0 <= a) by (apply Rmult_le_pos; lra). assert (Pb : 0 <= b) by (apply Rmult_le_pos; lra).
  assert (Pab : 0 <= momentum cfg * (2 - momentum cfg) * (a + b)) by (apply Rmult_le_pos; lra).
  assert (Zx : dist2 x' xs = 0) by (apply Rmult_eq_reg_l with (sigma cfg); lra).
  assert (Zab : a + b = 0) by (apply Rmult_eq_reg_l with (momentum cfg * (2 - momentum cfg)); lra).
  assert (Zb : dot (vsub (mvec A s) (mvec A xs)) (vsub (mvec A s) (mvec A xs)) = 0) by (apply Rmult_eq_reg_l with r; unfold b in *; lra).
  assert (Zn : norm2 (vsub (mvec A s) (mvec A xs)) = 0) by (unfold norm2; rewrite Zb; apply sqrt_0). rewrite Zn in B1, B2.
  assert (E1 : x' = xs) by (apply dist2_zero; [congruence|exact Zx]).
  assert (E2 : z' = mvec A xs) by (apply dist2_zero; [congruence|]; rewrite dist2_norm; assert (N := norm2_nonneg (vsub z' (mvec A xs))); replace (norm2 (vsub z' (mvec A xs))) with 0 by lra; ring).
  assert (E3 : y' = ys) by (apply dist2_zero; [congruence|]; rewrite dist2_norm; assert (N := norm2_nonneg (vsub y' ys)); replace (norm2 (vsub y' ys)) with 0 by lra; ring).
  rewrite E1, E2, E3 in Eu. eexists. exact Eu.
Qed.
(** A primal-dual solution is a fixed point: warm-started there, run returns it after one iteration,
    with status SOLVED. *)
Theorem C35_fixed_point : forall m n Q c A l u eps_div lin_solve cfg p xs ys,
  qp_problem m n Q c A l u -> lin_exact n Q A (sigma cfg) lin_solve -> check_infeas cfg = false -> good_options cfg -> (0 < osqp_maxiter cfg)%nat ->
  qp_kkt n Q c A l u xs ys -> bx p = fin xs -> bz p = fin (mvec A xs) -> by_ p = fin ys ->
  exists st', box_run_from n Q c A l u eps_div lin_solve cfg p = Ok (full_kkt (fin xs) (fin (mvec A xs)) (fin ys), st') /\ o_status st' = SOLVED /\ o_error st' = Fin 0 /\ o_iter st' = 1%nat.
Proof.
  intros m n Q c A l u eps_div lin_solve cfg p xs ys HP HE Hck (G1 & G2 & G3 & G4 & G5 & G6 & G7 & G8) Hmax HK Ex Ez Ey.
  set (st := box_init_state n Q c A cfg p).
  assert (Ei : o_iter st = 0%nat /\ o_rho st = Fin (rho_start cfg) /\ ss_rho (o_lin st) = Fin (rho_start cfg)) by (unfold st, box_init_state; destruct (residuals _ _ _ _ _ _ _); repeat split).
  destruct Ei as (I1 & I2 & I3). destruct (admm_fixed m n Q c A l u lin_solve cfg p (o_lin st) (rho_start cfg) xs ys) as (ss' & Ea); try assumption.
  destruct (qp_pos _ _ _ _ _ _ _ HP) as [Hn Hm]. destruct HK as (Lx & Hf & HN & HS).
  assert (La : length (mvec A xs) = m) by (rewrite mvec_length; apply (qp_A _ _ _ _ _ _ _ HP)).
  assert (Z0 : forall k, (0 < k)%nat -> xinf_norm (fin (vzero k)) = Fin 0).
  { intros k Hk. destruct (xinf_norm_fin (vzero k)) as (e & Ee & He); [destruct k; [lia|discriminate]|]. rewrite Ee. f_equal. apply (inf_norm_zero _ _ He). rewrite vzero_length. reflexivity. }
  assert (Hupd : exists st', box_update n Q c A l u eps_div lin_solve cfg (p, st) = Ok (full_kkt (fin xs) (fin (mvec A xs)) (fin ys), st') /\ o_status st' = SOLVED /\ o_error st' = Fin 0 /\ o_iter st' = 1%nat).
  { unfold box_update. rewrite I2, Ea, I1. unfold residuals. rewrite !xmvec_fin, xtvec_fin, xvsub_fin, !xvadd_fin, vsub_self, La, HS. rewrite !Nat.mod_0_l by lia. cbn [Nat.eqb].
    destruct (update_stepsize _ _ _ _ _ _ _ _ _ _ _ _) as [rho' ss'']. unfold check_termination. rewrite Hck. unfold compute_error. cbv zeta. rewrite !Z0 by assumption. cbn [xmax]. rewrite Rmax_left by lra. cbn [xle]. destruct (Rle_dec 0 (osqp_tol cfg)); [|lra].
    rewrite andb_false_r. eexists. split; [reflexivity|]. repeat split. }
  destruct Hupd as (st' & Eu & Es & Ee & Ei'). exists st'. split; [|repeat split; assumption]. unfold box_run_from. fold st.
  destruct (run_loop_spec (osqp_maxiter cfg) (box_cond cfg) (box_step n Q c A l u eps_div lin_solve cfg) (Ok (p, st)) Hmax) as (k & Hk & Erun & Hct & _). rewrite Erun.
  assert (Nat.iter 1 (box_step n Q c A l u eps_div lin_solve cfg) (Ok (p, st)) = Ok (full_kkt (fin xs) (fin (mvec A xs)) (fin ys), st')) as E1 by exact Eu.
  destruct k as [|[|k]]; [lia|exact E1|]. exfalso. specialize (Hct 1%nat ltac:(lia)). rewrite E1 in Hct. cbn [box_cond] in Hct. rewrite Ee in Hct. simpl in Hct. destruct (Rlt_dec (osqp_tol cfg) 0); [lra|discriminate].
Qed.
Print Assumptions C35_fixed_point.

Lemma exists_INR r : exists k, r < INR k.
Proof.
  exists (Z.to_nat (up r)). destruct (archimed r) as [H _]. destruct (Z.le_gt_cases 0 (up r)) as [Hz|Hz].
  - rewrite INR_IZR_INZ, Z2Nat.id by exact Hz. exact H.
  - apply Rlt_trans with (IZR (up r)); [exact H|]. apply Rlt_le_trans with 0; [apply IZR_lt; exact Hz|apply pos_INR].
Qed.
(** Convergence: an exact solver, admissible options, a problem with a primal-dual solution, and a
    numeric rho after the first update.  With a large enough budget, and no later rho update within
    it, run ends with status SOLVED (hence with C35_solved's guarantees). *)
Theorem C35_converges : forall m n Q c A l u eps_div lin_solve cfg p x0 z0 y0 p1 st1 r1 xs ys,
  qp_problem m n Q c A l u -> lin_exact n Q A (sigma cfg) lin_solve -> good_options cfg -> check_infeas cfg = false ->
  qp_kkt n Q c A l u xs ys -> finite_params m n p x0 z0 y0 ->
  box_update n Q c A l u eps_div lin_solve cfg (p, box_init_state n Q c A cfg p) = Ok (p1, st1) -> o_rho st1 = Fin r1 ->
  exists N, forall maxiter freq, (N <= maxiter <= freq)%nat ->
    exists p' st', box_run_from n Q c A l u eps_div lin_solve (with_budget cfg maxiter freq) p = Ok (p', st') /\ o_status st' = SOLVED.
Proof.
  intros m n Q c A l u eps_div lin_solve cfg p x0 z0 y0 p1 st1 r1 xs ys HP HE HG Hck HK Hf Hu1 Hr1.
  destruct HG as (G1 & G2 & G3 & G4 & G5 & G6 & G7 & G8).
  assert (Ei : box_init_state n Q c A cfg p = {| o_iter := 0; o_error := PInf; o_status := UNSOLVED; o_pres := fst (residuals n Q c A (bx p) (bz p) (by_ p)); o_dres := snd (residuals n Q c A (bx p) (bz p) (by_ p));
     o_rho := Fin (rho_start cfg); o_lin := {| ss_prev := bx p; ss_rho := Fin (rho_start cfg) |} |}) by (unfold box_init_state; destruct (residuals _ _ _ _ _ _ _); reflexivity).
  destruct (update_exact m n Q c A l u eps_div lin_solve cfg HP HE p (box_init_state n Q c A cfg p) (rho_start cfg) 0 x0 z0 y0 Hck G3 Hf) as (s & x1 & z1 & y1 & st1' & e & f & Eu & Lx & Lz & Ly & HS & E1 & E2 & E3 & E4 & He & Hf' & Ht); try (rewrite Ei; reflexivity); [rewrite Ei; left; reflexivity|].
  change (box_step n Q c A l u eps_div lin_solve cfg (Ok (p, box_init_state n Q c A cfg p))) with (box_update n Q c A l u eps_div lin_solve cfg (p, box_init_state n Q c A cfg p)) in Eu.
  rewrite Hu1 in Eu. injection Eu as -> <-.
  assert (Pr1 : 0 < r1).
  { rewrite E4 in Hr1. assert (R := new_rho_ok n Q c A eps_div cfg (conj G3 (conj G4 G5)) (Fin (rho_start cfg)) (fin (vsub (mvec A x1) z1)) (fin (vadd (vadd (mvec Q x1) c) (tvec n A y1))) (fin x1) (fin y1)).
    destruct (Nat.eqb _ 0); [|injection Hr1 as <-; exact G3]. rewrite Hr1 in R. destruct R as [R|(t & R & Pt)]; [discriminate|]. injection R as ->. exact Pt. }
  set (V := potential (sigma cfg) r1 A x1 z1 y1 xs ys). set (d := kappa cfg * small n Q A cfg r1).
  assert (Pd : 0 < d) by (apply Rmult_lt_0_compat; [apply kappa_pos; repeat split; assumption || lra|apply small_pos; try assumption; repeat split; assumption || lra]).
  destruct (exists_INR (V / d)) as (M & HM).
  exists (1 + M * term_freq cfg)%nat. intros maxiter freq [Hb1 Hb2]. set (cfg' := with_budget cfg maxiter freq).
  assert (HG' : good_options cfg') by (unfold good_options, cfg', with_budget; cbn [sigma momentum rho_start rho_min rho_max osqp_tol term_freq step_freq]; repeat (split; [assumption|]); lia).
  assert (Hu1' : box_update n Q c A l u eps_div lin_solve cfg' (p, box_init_state n Q c A cfg' p) = Ok (full_kkt (fin x1) (fin z1) (fin y1), st1)).
  { rewrite <- Hu1. unfold box_update. change (box_init_state n Q c A cfg' p) with (box_init_state n Q c A cfg p). rewrite Ei. cbn [o_iter o_rho o_lin o_error o_status].
    change (step_freq cfg') with freq. change (term_freq cfg') with (term_freq cfg).
    rewrite (Nat.mod_0_l freq), (Nat.mod_0_l (term_freq cfg)), (Nat.mod_0_l (step_freq cfg)) by lia. reflexivity. }
  assert (Al : alive m n l u cfg' r1 1 (Ok (full_kkt (fin x1) (fin z1) (fin y1), st1)) x1 z1 y1).
  { exists (full_kkt (fin x1) (fin z1) (fin y1)), st1. split; [reflexivity|]. split; [|split; [exact E3|]].
    - split; [repeat split; assumption|]. split; [apply (es_box _ _ _ _ _ _ _ _ _ _ _ _ _ _ _ _ HS)|]. split; [apply (es_normal _ _ _ _ _ _ _ _ _ _ _ _ _ _ _ _ HS)|]. split; [exact Hr1|]. split; [congruence|exact E1].
    - rewrite Nat.mod_0_l in Ht by lia. simpl in Ht. destruct Ht as [T1 T2]. cbn [osqp_tol cfg' with_budget].
      destruct (Rle_dec (Rmax e f) (osqp_tol cfg)) as [L|L]; [left; apply T2; exact L|right]. rewrite T1. simpl. destruct (Rlt_dec _ _); [reflexivity|lra]. }
  destruct (reach m n Q c A l u eps_div lin_solve cfg' r1 xs ys HP HE HG' Hck Pr1 HK M 1 _ x1 z1 y1 Al ltac:(lia)) as (j & Hj & Hc).
  { cbn [step_freq term_freq cfg' with_budget]. lia. }
  { change (kappa cfg' * small n Q A cfg' r1) with d. fold V. apply Rmult_lt_reg_r with (/ d); [apply Rinv_0_lt_compat; exact Pd|]. rewrite Rmult_assoc, Rinv_r, Rmult_1_r by lra. exact HM. }
  unfold box_run_from. cbn [osqp_maxiter cfg' with_budget]. fold cfg'.
  destruct (run_loop_spec maxiter (box_cond cfg') (box_step n Q c A l u eps_div lin_solve cfg') (Ok (p, box_init_state n Q c A cfg' p)) ltac:(lia)) as (k & Hk & Erun & Hct & Hst). rewrite Erun.
  destruct k as [|k]; [lia|]. rewrite <- iter_shift in *. change (box_step n Q c A l u eps_div lin_solve cfg' (Ok (p, box_init_state n Q c A cfg' p))) with (box_update n Q c A l u eps_div lin_solve cfg' (p, box_init_state n Q c A cfg' p)) in *. rewrite Hu1' in *.
  assert (Hkj : (k <= j)%nat).
  { apply Nat.nlt_ge. intros C. specialize (Hct (S j) ltac:(lia)). rewrite <- iter_shift in Hct.
    change (box_step n Q c A l u eps_div lin_solve cfg' (Ok (p, box_init_state n Q c A cfg' p))) with (box_update n Q c A l u eps_div lin_solve cfg' (p, box_init_state n Q c A cfg' p)) in Hct. rewrite Hu1' in Hct. congruence. }
  assert (Hcf : box_cond cfg' (Nat.iter k (box_step n Q c A l u eps_div lin_solve cfg') (Ok (full_kkt (fin x1) (fin z1) (fin y1), st1))) = false).
  { destruct Hst as [Hst|Hst]; [|exact Hst]. assert (k = j) by (cbn [term_freq cfg' with_budget] in Hj; lia). subst k. exact Hc. }
  destruct (advance m n Q c A l u eps_div lin_solve cfg' r1 xs ys HP HE HG' Hck Pr1 HK k 1 _ x1 z1 y1 Al ltac:(lia)) as (x2 & z2 & y2 & Al2 & _); [cbn [step_freq cfg' with_budget]; lia|].
  destruct (alive_stop _ _ _ _ _ _ _ _ _ _ _ Al2 Hcf) as (p' & st' & Ep & Es'). exists p', st'. split; [exact Ep|exact Es'].
Qed.
Print Assumptions C35_converges.

(** NaN poisoning *)
Lemma xsmul_nan v : xsmul NaN v = repeat NaN (length v).
Proof. induction v as [|a v IH]; [reflexivity|]. simpl. f_equal. exact IH. Qed.
Lemma xvadd_nan_r v : forall k, length v = k -> xvadd v (repeat NaN k) = repeat NaN k.
Proof. induction v as [|a v IH]; intros [|k] H; try discriminate; [reflexivity|]. injection H as H. simpl. f_equal; [destruct a; reflexivity|apply IH; exact H]. Qed.
Lemma xvsub_nan_r v : forall k, length v = k -> xvsub v (repeat NaN k) = repeat NaN k.
Proof. induction v as [|a v IH]; intros [|k] H; try discriminate; [reflexivity|]. injection H as H. simpl. f_equal; [destruct a; reflexivity|apply IH; exact H]. Qed.
Lemma clip_nan : forall k l u, length l = k -> length u = k -> box_clip (repeat NaN k) l u = repeat NaN k.
Proof. induction k as [|k IH]; intros [|a l] [|b u] H1 H2; try discriminate; [reflexivity|]. injection H1 as H1. injection H2 as H2. simpl. f_equal. apply IH; assumption. Qed.
Lemma inf_norm_nan k : (0 < k)%nat -> xinf_norm (repeat NaN k) = NaN.
Proof. destruct k as [|k]; [lia|]. intros _. unfold xinf_norm. simpl. induction k as [|k IH]; [reflexivity|]. simpl. exact IH. Qed.
(** Once rho is NaN, every later z and y is NaN and rho stays NaN; the status is never SOLVED at a check. *)
Theorem C35_nan : forall m n Q c A l u eps_div lin_solve cfg p st, qp_problem m n Q c A l u -> check_infeas cfg = false ->
  (forall r p b, length (lin_solve r p b) = n) -> length (bz p) = m -> length (by_ p) = m -> o_rho st = NaN -> (o_status st = UNSOLVED \/ o_status st = SOLVED) ->
  exists p' st', box_update n Q c A l u eps_div lin_solve cfg (p, st) = Ok (p', st') /\ bz p' = repeat NaN m /\ by_ p' = repeat NaN m /\ o_rho st' = NaN /\
    (o_status st' = UNSOLVED \/ o_status st' = o_status st).
Proof.
  intros m n Q c A l u eps_div lin_solve cfg p st HP Hck HL Lz Ly Er Hst. assert (La := proj1 (qp_A _ _ _ _ _ _ _ HP)). assert (Hpos := qp_pos _ _ _ _ _ _ _ HP).
  unfold box_update. rewrite Er. unfold admm_step. cbv zeta. set (s := lin_solve _ _ _).
  set (zm := xvadd (bz p) (xsmul (Fin (momentum cfg)) (xvsub (xmvec (finm A) s) (bz p)))).
  assert (Lzm : length zm = m) by (unfold zm; rewrite xvadd_length, xsmul_length, xvsub_length, xmvec_length; unfold finm; rewrite map_length; unfold mat, xvec, vec in *; lia).
  change (xdivx (Fin 1) NaN) with NaN. rewrite xsmul_nan, Ly, (xvadd_nan_r zm m Lzm), (clip_nan m l u (qp_l _ _ _ _ _ _ _ HP) (qp_u _ _ _ _ _ _ _ HP)), (xvsub_nan_r zm m Lzm), xsmul_nan, repeat_length, (xvadd_nan_r (by_ p) m Ly).
  unfold residuals. set (x' := xvadd (bx p) _). assert (LAx : length (xmvec (finm A) x') = m) by (rewrite xmvec_length; unfold finm; rewrite map_length; exact La). rewrite (xvsub_nan_r _ m LAx).
  set (dr := xvadd _ _).
  assert (Enr : forall a b d e, new_rho n Q c A eps_div cfg NaN a b d e = NaN) by reflexivity.
  assert (Ect : forall q q', check_termination n Q c A l u cfg (repeat NaN m) dr q q' = (NaN, UNSOLVED)).
  { intros q q'. unfold check_termination. rewrite Hck. unfold compute_error. cbv zeta. rewrite inf_norm_nan by lia. reflexivity. }
  assert (NE : (negb (osqp_jit cfg) && match o_status st with PRIMAL_INFEASIBLE | DUAL_INFEASIBLE => true | _ => false end)%bool = false) by (destruct Hst as [-> | ->]; apply andb_false_r).
  unfold update_stepsize. rewrite Enr. destruct (Nat.eqb (Nat.modulo (o_iter st) (step_freq cfg)) 0); destruct (Nat.eqb (Nat.modulo (o_iter st) (term_freq cfg)) 0); rewrite ?Ect, ?NE, ?andb_false_r;
    (eexists; eexists; split; [reflexivity|]); cbn [bz by_ full_kkt o_rho o_status]; repeat split; auto.
Qed.
Print Assumptions C35_nan.

(** An exact linear solver exists: Gaussian elimination. *)
Definition kkt_system (n : nat) (Q A : mat) (sig rho : R) : mat := madd (madd Q (msmul sig (eye n))) (msmul rho (mmul n (mtrans n A) A)).
Definition gauss_lin (n : nat) (Q A : mat) (sig : R) (rho : xnum) (prev b : xvec) : xvec :=
  match rho with Fin r => let s := gauss_solve (kkt_system n Q A sig r) (unf b) in if Nat.eqb (length s) n then fin s else repeat NaN n | _ => repeat NaN n end.
Lemma gauss_lin_shape n Q A sig r p b : length (gauss_lin n Q A sig r p b) = n.
Proof. unfold gauss_lin. destruct r; try apply repeat_length. cbv zeta. destruct (Nat.eqb (length _) n) eqn:E; [|apply repeat_length]. apply Nat.eqb_eq in E. rewrite fin_length. exact E. Qed.
Lemma kkt_system_shape m n Q A sig r : mat_shape n n Q -> mat_shape m n A -> mat_shape n n (kkt_system n Q A sig r).
Proof. intros HQ HA. apply madd_shape; [apply madd_shape; [exact HQ|apply msmul_shape, eye_shape]|]. apply msmul_shape. apply (mmul_shape n n m); [apply mtrans_shape; apply HA|exact HA]. Qed.
Lemma kkt_system_mvec m n Q A sig r s : mat_shape n n Q -> mat_shape m n A -> length s = n ->
  mvec (kkt_system n Q A sig r) s = vadd (vadd (mvec Q s) (smul sig s)) (smul r (tvec n A (mvec A s))).
Proof.
  intros HQ HA Ls. unfold kkt_system.
  assert (S1 : mat_shape n n (msmul sig (eye n))) by apply msmul_shape, eye_shape.
  assert (S2 : mat_shape n n (madd Q (msmul sig (eye n)))) by (apply madd_shape; assumption).
  assert (S3 : mat_shape n n (msmul r (mmul n (mtrans n A) A))) by (apply msmul_shape, (mmul_shape n n m); [apply mtrans_shape; apply HA|exact HA]).
  assert (LA : length (mvec A s) = m) by (rewrite mvec_length; apply HA).
  rewrite mvec_madd by (rewrite (proj1 S2); symmetry; apply S3). rewrite mvec_madd by (rewrite (proj1 HQ); symmetry; apply S1).
  rewrite !mvec_msmul, (mvec_eye n s Ls), mvec_mmul, (mvec_mtrans m n A _ HA LA). reflexivity.
Qed.
Lemma gauss_lin_exact m n Q c A l u sig : qp_problem m n Q c A l u -> 0 < sig -> lin_exact n Q A sig (gauss_lin n Q A sig).
Proof.
  intros HP Hs rho prev b Hr Lb. assert (HA := qp_A _ _ _ _ _ _ _ HP). assert (HQ := qp_Q _ _ _ _ _ _ _ HP).
  assert (PD : pos_def n (kkt_system n Q A sig rho)).
  { intros v Lv Hv. rewrite (kkt_system_mvec m) by assumption. rewrite !dot_vadd_r, !dot_smul_r, (dot_comm v (tvec n A (mvec A v))), dot_tvec.
    assert (P1 := qp_psd _ _ _ _ _ _ _ HP v Lv). assert (P2 := dot_self_nonneg (mvec A v)).
    assert (P3 : 0 < dot v v). { assert (P3 := dot_self_nonneg v). destruct (Req_dec (dot v v) 0) as [E|E]; [|lra]. exfalso. apply Hv. rewrite <- Lv. apply dot_self_zero. exact E. }
    assert (0 < sig * dot v v) by (apply Rmult_lt_0_compat; assumption). assert (0 <= rho * dot (mvec A v) (mvec A v)) by (apply Rmult_le_pos; lra). lra. }
  assert (NS := posdef_nonsingular n _ (kkt_system_shape m n Q A sig rho HQ HA) PD). destruct (gauss_exact n _ b NS Lb) as [L E].
  exists (gauss_solve (kkt_system n Q A sig rho) b). unfold gauss_lin. rewrite unf_fin. cbv zeta. rewrite L, Nat.eqb_refl. split; [reflexivity|]. split; [reflexivity|].
  rewrite <- (kkt_system_mvec m) by assumption. exact E.
Qed.

Ltac vcons := repeat match goal with |- _ :: _ = _ :: _ => f_equal end.
(** min 1/2 |x|^2 + x_2 subject to x_1 = 0; the solution is (0, -1) *)
Definition nan_Q : mat := [[1; 0]; [0; 1]].
Definition nan_c : vec := [0; 1].
Definition nan_A : mat := [[1; 0]].
Definition nan_b : xvec := [Fin 0].
Lemma nan_problem : qp_problem 1 2 nan_Q nan_c nan_A nan_b nan_b.
Proof.
  constructor; try reflexivity; try (split; [reflexivity|repeat constructor]); try (split; lia).
  - intros [|[|i]] [|[|j]] Hi Hj; try lia; reflexivity.
  - intros [|a [|b [|]]] Lv; try discriminate. unfold nan_Q. simpl. nra.
  - intros [|i] Hi; [|lia]. simpl. lra.
Qed.
(** The documented guarantee fails for the default options: on this strictly convex, feasible problem
    the very first step-size update is 0/0, and however many iterations follow the run returns NaN
    with status UNSOLVED. *)
Theorem C35_nan_refuted : qp_problem 1 2 nan_Q nan_c nan_A nan_b nan_b /\ qp_solution 2 nan_Q nan_c nan_A nan_b nan_b [0; -1] /\
  forall eps_div lin_solve maxiter, 0 < eps_div -> lin_exact 2 nan_Q nan_A (sigma (default_osqp true)) lin_solve -> (forall r p b, length (lin_solve r p b) = 2%nat) -> (2 <= maxiter)%nat ->
  exists p' st', box_run 2 nan_Q nan_c nan_A nan_b nan_b eps_div lin_solve (with_budget (default_osqp true) maxiter 10) None = Ok (p', st') /\
    o_status st' = UNSOLVED /\ bz p' = [NaN] /\ by_ p' = [NaN].
Proof.
  split; [exact nan_problem|]. split.
  { apply (C35_optimal 1 2 nan_Q nan_c nan_A nan_b nan_b [0; -1] [0] [0] nan_problem); try reflexivity.
    - split; [reflexivity|]. intros [|i] Hi; [|simpl in Hi; lia]. simpl. lra.
    - split; [reflexivity|]. intros [|t [|]] [L H]; try discriminate. simpl. lra.
    - unfold vzero; simpl. vcons; try reflexivity; lra.
    - unfold vzero; simpl. vcons; try reflexivity; lra. }
  intros eps_div lin_solve maxiter He HE HL Hm. set (cfg := with_budget (default_osqp true) maxiter 10). unfold box_run.
  set (p0 := box_init_params 2 nan_A nan_b nan_b None). set (st0 := box_init_state 2 nan_Q nan_c nan_A cfg p0).
  assert (Hf : finite_params 1 2 p0 [0; 0] [0] [0]).
  { repeat split; unfold p0, fin, xvzero; simpl; vcons; try reflexivity; unfold xclip; simpl; f_equal; unfold Rmin, Rmax; repeat destruct (Rle_dec _ _); lra. }
  assert (E0 : o_rho st0 = Fin (1 / 10) /\ ss_rho (o_lin st0) = Fin (1 / 10) /\ o_iter st0 = 0%nat /\ o_status st0 = UNSOLVED) by (repeat split).
  destruct E0 as (E01 & E02 & E03 & E04).
  destruct (update_exact 1 2 nan_Q nan_c nan_A nan_b nan_b eps_div lin_solve cfg nan_problem HE p0 st0 (1 / 10) 0 [0; 0] [0] [0] eq_refl ltac:(lra) Hf E01 E02 E03 (or_introl E04)) as (s & x' & z' & y' & st1 & e & f & Eu & Lx & Lz & Ly & HS & E1 & E2 & E3 & E4 & HH).
  destruct HH as (He1 & Hf1 & Ht).
  destruct HS as [Ls El Ex Hb Hn Ev]. destruct s as [|s0 [|s1 [|]]]; try discriminate. unfold nan_Q, nan_A, nan_c in El. simpl in El. injection El as El0 El1.
  assert (S0 : s0 = 0) by lra. change (momentum cfg) with (16 / 10) in *. change (sigma cfg) with (1 / 1000000) in *.
  assert (Zx : mvec nan_A x' = vzero 1). { rewrite Ex, S0. unfold nan_A. unfold vzero; simpl. vcons; try reflexivity; lra. }
  assert (Zz : z' = vzero 1). { destruct z' as [|t [|]]; try discriminate. destruct Hb as [_ Hb]. specialize (Hb 0%nat ltac:(simpl; lia)). simpl in Hb. unfold vzero; simpl. vcons; try reflexivity; lra. }
  assert (Nan : o_rho st1 = NaN).
  { rewrite E4. simpl Nat.eqb. cbv iota. apply (C35_rho 1 2 nan_Q nan_c nan_A nan_b nan_b eps_div cfg (1 / 10) x' z' y' nan_problem); try assumption; try lra; [simpl; lra|]. left. split; assumption. }
  assert (Hc1 : xgtb (o_error st1) (osqp_tol cfg) = true /\ o_status st1 = UNSOLVED).
  { simpl Nat.eqb in Ht. cbv iota in Ht. destruct Ht as [T1 T2].
    assert (B : 1 / 1000 < Rmax e f).
    { assert (D := proj1 Hf1 1%nat). rewrite Ex in D. destruct y' as [|t [|]]; try discriminate. unfold nan_Q, nan_A, nan_c in D. simpl in D. specialize (D ltac:(lia)).
      eapply Rlt_le_trans; [|apply Rmax_r]. eapply Rlt_le_trans; [|exact D]. clear - El1. rewrite Rabs_left by lra. lra. }
    rewrite T1. simpl. destruct (Rlt_dec (1 / 1000) (Rmax e f)); [|lra]. split; [reflexivity|]. destruct E3 as [E3|E3]; [exact E3|]. apply T2 in E3. simpl in E3. lra. }
  destruct Hc1 as [Hc1 Hs1].
  set (stp := box_step 2 nan_Q nan_c nan_A nan_b nan_b eps_div lin_solve cfg) in *.
  assert (INV : forall k, exists p' st', Nat.iter (S (S k)) stp (Ok (p0, st0)) = Ok (p', st') /\ bz p' = [NaN] /\ by_ p' = [NaN] /\ o_rho st' = NaN /\ o_status st' = UNSOLVED).
  { induction k as [|k (p2 & st2 & E & B1 & B2 & B3 & B4)].
    - cbn [Nat.iter nat_rect]. rewrite Eu. unfold stp, box_step.
      destruct (C35_nan 1 2 nan_Q nan_c nan_A nan_b nan_b eps_div lin_solve cfg (full_kkt (fin x') (fin z') (fin y')) st1 nan_problem eq_refl HL) as (p2 & st2 & E & B1 & B2 & B3 & B4); try assumption; try (cbn [bz by_ full_kkt]; rewrite fin_length; assumption).
      exists p2, st2. rewrite Hs1 in B4. repeat split; try assumption. tauto.
    - cbn [Nat.iter nat_rect] in *. rewrite E. unfold stp, box_step.
      destruct (C35_nan 1 2 nan_Q nan_c nan_A nan_b nan_b eps_div lin_solve cfg p2 st2 nan_problem eq_refl HL) as (p3 & st3 & E' & B1' & B2' & B3' & B4'); try assumption; try (rewrite B1 || rewrite B2; reflexivity); [left; exact B4|].
      exists p3, st3. rewrite B4 in B4'. repeat split; try assumption. tauto. }
  unfold box_run_from. change (osqp_maxiter cfg) with maxiter. fold st0 stp.
  destruct (run_loop_spec maxiter (box_cond cfg) stp (Ok (p0, st0)) ltac:(lia)) as (k & Hk & Erun & _ & Hst). rewrite Erun.
  destruct k as [|[|k]]; [lia| |].
  - exfalso. destruct Hst as [Hst|Hst]; [lia|]. cbn [Nat.iter nat_rect] in Hst. rewrite Eu in Hst. cbn [box_cond] in Hst. congruence.
  - destruct (INV k) as (p' & st' & E & B1 & B2 & _ & B4). exists p', st'. repeat split; assumption.
Qed.
Print Assumptions C35_nan_refuted.

(** A concrete case: the hypotheses of the convergence theorem hold for
    min 1/2 x^2 - x subject to 0 <= x <= 1/2, default options, from zero, with Gaussian elimination. *)
Definition ex_Q : mat := [[1]].
Definition ex_c : vec := [-1].
Definition ex_A : mat := [[1]].
Definition ex_l : xvec := [Fin 0].
Definition ex_u : xvec := [Fin (1 / 2)].
Lemma ex_problem : qp_problem 1 1 ex_Q ex_c ex_A ex_l ex_u.
Proof.
  constructor; try reflexivity; try (split; [reflexivity|repeat constructor]); try (split; lia).
  - intros [|i] [|j] Hi Hj; try lia; reflexivity.
  - intros [|a [|]] Lv; try discriminate. unfold ex_Q. simpl. nra.
  - intros [|i] Hi; [|lia]. simpl. lra.
Qed.
Example C35_example : exists N, forall maxiter freq, (N <= maxiter <= freq)%nat ->
  exists p' st', box_run 1 ex_Q ex_c ex_A ex_l ex_u (1 / 1000000) (gauss_lin 1 ex_Q ex_A (1 / 1000000)) (with_budget (default_osqp true) maxiter freq) None = Ok (p', st') /\ o_status st' = SOLVED.
Proof.
  set (ls := gauss_lin 1 ex_Q ex_A (1 / 1000000)). assert (HE : lin_exact 1 ex_Q ex_A (1 / 1000000) ls) by (apply (gauss_lin_exact 1 1 ex_Q ex_c ex_A ex_l ex_u); [exact ex_problem|lra]).
  set (p0 := box_init_params 1 ex_A ex_l ex_u None).
  assert (Hf : finite_params 1 1 p0 [0] [0] [0]).
  { repeat split; unfold p0, fin, xvzero; simpl; vcons; try reflexivity; unfold xclip; simpl; f_equal; unfold Rmin, Rmax; repeat destruct (Rle_dec _ _); lra. }
  set (cfg := default_osqp true). set (st0 := box_init_state 1 ex_Q ex_c ex_A cfg p0).
  destruct (update_exact 1 1 ex_Q ex_c ex_A ex_l ex_u (1 / 1000000) ls cfg ex_problem HE p0 st0 (1 / 10) 0 [0] [0] [0]) as (s & x' & z' & y' & st1 & e & f & Eu & Lx & Lz & Ly & HS & E1 & E2 & E3 & E4 & HH); try reflexivity; try assumption; try lra; [left; reflexivity|].
  assert (HG : good_options cfg) by (unfold good_options, cfg, default_osqp; simpl; repeat split; lra || lia).
  assert (Num : exists r1, o_rho st1 = Fin r1).
  { rewrite E4. simpl Nat.eqb. cbv iota. destruct (C35_rho 1 1 ex_Q ex_c ex_A ex_l ex_u (1 / 1000000) cfg (1 / 10) x' z' y' ex_problem) as [[C|(t & C & _)] [C2 _]]; try assumption; try lra; [simpl; lra| |exists t; exact C].
    exfalso. destruct (C2 C) as [[C3 _]|(_ & _ & C3)]; [|apply (f_equal (fun v => nth 0 v 0)) in C3; simpl in C3; lra].
    destruct HS as [Ls El Ex _ _ _]. destruct s as [|s0 [|]]; try discriminate. rewrite Ex in C3. unfold ex_A in C3. simpl in C3. injection C3 as C3. change (momentum cfg) with (16 / 10) in C3.
    unfold ex_Q, ex_A, ex_c in El. simpl in El. injection El as El. lra. }
  destruct Num as (r1 & Hr1).
  assert (HK : qp_kkt 1 ex_Q ex_c ex_A ex_l ex_u [1 / 2] [1 / 2]).
  { repeat split.
    - destruct i; [|simpl in *; lia]. simpl. lra.
    - destruct i; [|simpl in *; lia]. simpl. lra.
    - intros [|t [|]] [L H]; try discriminate. specialize (H 0%nat ltac:(simpl; lia)). simpl in H |- *. lra.
    - unfold vzero; simpl. vcons; try reflexivity; lra. }
  exact (C35_converges 1 1 ex_Q ex_c ex_A ex_l ex_u (1 / 1000000) ls cfg p0 [0] [0] [0] _ st1 r1 [1 / 2] [1 / 2] ex_problem HE HG eq_refl HK Hf Eu Hr1).
Qed.
