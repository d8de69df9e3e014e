(** C20: zoom line search. *)
From Coq Require Import Reals List Bool Lra Lia Arith.
From Verif Require Import Prelude Vec Loop Run Backtracking BacktrackingProofs Zoom ZoomProofs.
Import ListNotations.
Open Scope R_scope.

(** Sensible options: positive sizes, increase factor at least 1, tolerances >= 0. *)
Definition zoom_ok (cfg : zoom_config) : Prop :=
  0 <= ztol cfg /\ 0 < zmax cfg /\ 1 <= increase_factor cfg /\
  0 <= rel_tol_cubic cfg /\ 0 <= rel_tol_quad cfg /\ (0 < zmaxiter cfg)%nat.

(** Whatever values, slopes, NaNs or infinities the objective produces: exactly one of
    done/failed holds; the returned step is in [0, max_stepsize] and the returned
    params, value and gradient are those of that step.  done: sufficient decrease holds,
    and the curvature condition too unless the step is max_stepsize.  failed: the step
    is the largest tried one with sufficient decrease if there is any; otherwise it is
    the last tried one, or 0 if the objective was not even finite there.
    [tried j] is the step evaluated by the j-th update. *)
Theorem C20_zoom :
  forall (G : Type) cfg f gradf vdot x d fx (g : G) sl s0 given,
  zoom_ok cfg -> 0 < s0 ->
  let tried j := fst (trial_step cfg f gradf vdot (Nat.iter j (zoom_update cfg f gradf vdot) (s0, zoom_init given x fx g sl d))) in
  let good s := decrease_ok cfg f gradf vdot x d fx sl s (ztol cfg) in
  let curv s := curvature_ok cfg gradf vdot x d sl s (ztol cfg) in
  let '(s, st) := zoom_run cfg f gradf vdot given s0 x fx g sl d in
  exists k, (1 <= k <= zmaxiter cfg)%nat /\
    z_failed st = negb (z_done st) /\ 0 <= s <= zmax cfg /\
    z_params st = vadd x (smul s d) /\ z_value st = f (z_params st) /\ z_grad st = gradf (z_params st) /\
    (z_done st = true -> 0 < s /\ s = tried (k - 1)%nat /\ good s /\ (curv s \/ s = zmax cfg)) /\
    (z_failed st = true ->
       (0 < s /\ good s /\ (exists j, (j < k)%nat /\ s = tried j) /\
          forall j, (j < k)%nat -> good (tried j) -> tried j <= s) \/
       ((forall j, (j < k)%nat -> ~ good (tried j)) /\ (s = 0 \/ s = tried (k - 1)%nat))) /\
    (forall j, (j < k)%nat -> 0 < tried j <= zmax cfg) /\
    z_num_fun st = ((if given then 0 else 1) + k + (if z_failed st then 1 else 0))%nat /\
    z_num_grad st = z_num_fun st.
Proof.
  intros G cfg f gradf vdot x d fx g sl s0 given (H1 & H2 & H3 & H4 & H5 & H6) Hs0 tried good curv.
  pose proof (zoom_run_spec cfg f gradf vdot x d fx sl s0 H1 Hs0 H2 H3 H4 H5 given g H6) as H. cbv zeta in H.
  unfold zoom_run. destruct (run_loop _ _ _ _) as [s st]. cbn [fst snd] in H.
  destruct H as (k & Hk & A1 & A2 & A3 & A4 & A5 & A6 & A7 & A8 & A9 & A10).
  exists k. rewrite A3. split; [exact Hk|]. split; [exact A1|]. split; [exact A2|]. split; [reflexivity|].
  split; [exact A4|]. split; [exact A5|]. split; [exact A6|]. split; [|split; [exact A8|split; [exact A9|rewrite A9, A10; reflexivity]]].
  intros Hf. destruct (A7 Hf) as [H|[H Hor]]; [left; exact H|right]. split; [exact H|]. destruct Hor as [[H' _]|H']; auto.
Qed.
Print Assumptions C20_zoom.

(** While the search goes on along a descent direction, the bracket is proper: its
    [low] end satisfies sufficient decrease exactly, the objective decreases from low
    towards high, recorded values are those of the objective, and every zoom iteration
    shrinks the bracket by a fixed factor. *)
Theorem C20_bracket :
  forall (G : Type) cfg f gradf vdot x d fx (g : G) sl s0 given k,
  zoom_ok cfg -> 0 < s0 -> sl < 0 -> 1 < increase_factor cfg -> 0 <= zc2 cfg ->
  f (vadd x (smul 0 d)) = Fin fx -> vdot (gradf (vadd x (smul 0 d))) d = Fin sl ->
  let it j := Nat.iter j (zoom_update cfg f gradf vdot) (s0, zoom_init given x fx g sl d) in
  (forall j, (1 <= j <= k)%nat -> z_done (snd (it j)) = false /\ z_failed (snd (it j)) = false) ->
  let st := snd (it k) in
  z_found st = true ->
  decrease_ok cfg f gradf vdot x d fx sl (z_low st) 0 /\
  z_low st <> z_high st /\ 0 <= z_low st <= zmax cfg /\ 0 <= z_high st <= zmax cfg /\
  xneg_times (vdot (gradf (vadd x (smul (z_low st) d))) d) (z_high st - z_low st) /\
  z_value_low st = f (vadd x (smul (z_low st) d)) /\ z_value_high st = f (vadd x (smul (z_high st) d)) /\
  (let st' := snd (it (S k)) in z_done st' = false -> z_failed st' = false ->
    Rabs (z_high st' - z_low st') <=
      (1 - Rmin (Rmin (rel_tol_cubic cfg) (rel_tol_quad cfg)) (1 / 2)) * Rabs (z_high st - z_low st)).
Proof.
  intros G cfg f gradf vdot x d fx g sl s0 given k (H1 & H2 & H3 & H4 & H5 & H6) Hs0 Hsl Hi Hc2 Hp Hd it Hlive st Hf.
  assert (Hc : forall j, (1 <= j <= k)%nat -> zoom_cond (it j) = true).
  { intros j Hj. unfold zoom_cond. destruct (Hlive j Hj) as [-> ->]. reflexivity. }
  destruct (live_geom cfg f gradf vdot x d fx sl s0 H1 Hs0 H2 H3 H4 H5 given g Hsl Hi Hc2 Hp Hd k Hc) as [_ Hb].
  destruct (Hb Hf) as [K1 K2 K3 K4 K5 K6].
  destruct (live_spec cfg f gradf vdot x d fx sl s0 H1 Hs0 H2 H3 H4 H5 given g k Hc) as (HB & _).
  destruct (b_zoom _ _ _ _ _ _ _ _ _ HB Hf) as (R1 & R2 & _).
  split; [exact K1|]. split; [eapply xneg_ne; exact K6|]. split; [exact R1|]. split; [exact R2|].
  split; [rewrite K3 in K6; exact K6|]. split; [exact K2|]. split; [exact K4|].
  intros st' Hd' Hf'.
  apply (live_shrink cfg f gradf vdot x d fx sl s0 H1 Hs0 H2 H3 H4 H5 given g Hsl Hi Hc2 Hp Hd k); [|exact Hf].
  intros j Hj. destruct (Nat.eq_dec j (S k)) as [->|]; [|apply Hc; lia].
  unfold zoom_cond. fold (it (S k)). fold st'. rewrite Hd', Hf'. reflexivity.
Qed.
Print Assumptions C20_bracket.

(** The interpolation steps: the returned point is the local minimiser of the cubic
    (critical point of the quadratic) through the given data. *)
Theorem C20_cubicmin : forall a fa fpa b fb c fc m,
  cubicmin a (Fin fa) (Fin fpa) b (Fin fb) c (Fin fc) = Some m ->
  exists A B, let p t := A * (t - a) ^ 3 + B * (t - a) ^ 2 + fpa * (t - a) + fa in
    p a = fa /\ p b = fb /\ p c = fc /\
    3 * A * (m - a) ^ 2 + 2 * B * (m - a) + fpa = 0 /\ 0 <= 6 * A * (m - a) + 2 * B.
Proof.
  intros a fa fpa b fb c fc m H. unfold cubicmin in H.
  destruct (cubicmin_coefs a fa fpa b fb c fc) as [A B] eqn:E.
  destruct (Req_EM_T _ 0) as [|Hden]; [discriminate|]. destruct (Req_EM_T A 0) as [|HA]; [discriminate|].
  destruct (Rlt_dec _ 0) as [|Hr]; [discriminate|]. injection H as <-. apply Rnot_lt_le in Hr.
  unfold cubicmin_coefs in E. injection E as EA EB.
  assert (Hdb : b - a <> 0) by (intros Z; apply Hden; rewrite Z; ring).
  assert (Hdc : c - a <> 0) by (intros Z; apply Hden; rewrite Z; ring).
  assert (Hdd : (b - a) - (c - a) <> 0) by (intros Z; apply Hden; rewrite Z; ring).
  exists A, B. cbv zeta. split; [ring|]. split; [|split; [|split]].
  - rewrite <- EA, <- EB. field. repeat split; try assumption; intros Z; apply Hdd; lra.
  - rewrite <- EA, <- EB. field. repeat split; try assumption; intros Z; apply Hdd; lra.
  - set (r := sqrt (B * B - 3 * A * fpa)).
    assert (Er : r * r = B * B - 3 * A * fpa) by (apply sqrt_sqrt; exact Hr).
    assert (E : 3 * A * (a + (- B + r) / (3 * A) - a) ^ 2 + 2 * B * (a + (- B + r) / (3 * A) - a) + fpa = (r * r - B * B + 3 * A * fpa) / (3 * A)) by (field; exact HA).
    rewrite E, Er. field. exact HA.
  - set (r := sqrt (B * B - 3 * A * fpa)). pose proof (sqrt_pos (B * B - 3 * A * fpa)) as Hp. fold r in Hp.
    assert (E : 6 * A * (a + (- B + r) / (3 * A) - a) + 2 * B = 2 * r) by (field; exact HA). rewrite E. lra.
Qed.
Print Assumptions C20_cubicmin.
Theorem C20_quadmin : forall a fa fpa b fb m,
  quadmin a (Fin fa) (Fin fpa) b (Fin fb) = Some m ->
  exists B, let p t := B * (t - a) ^ 2 + fpa * (t - a) + fa in
    p a = fa /\ p b = fb /\ 2 * B * (m - a) + fpa = 0.
Proof.
  intros a fa fpa b fb m H. unfold quadmin in H. destruct (Req_EM_T (b - a) 0) as [|Hd]; [discriminate|].
  set (B := (fb - fa - fpa * (b - a)) / (b - a) ^ 2) in *. destruct (Req_EM_T B 0) as [|HB]; [discriminate|]. injection H as <-.
  exists B. cbv zeta. split; [ring|]. split; [unfold B; field; exact Hd|]. field. exact HB.
Qed.
Print Assumptions C20_quadmin.

(** "done" alone does not imply the strong Wolfe curvature condition that the class
    documents: on a linear objective the search stops at max_stepsize with done set,
    failed unset and the curvature condition violated. *)
Theorem C20_done_implies_curvature_refuted :
  exists (cfg : zoom_config) f gradf vdot x d fx (g : unit) sl s0,
    zoom_ok cfg /\ 0 < s0 /\ sl < 0 /\ f (vadd x (smul 0 d)) = Fin fx /\ vdot (gradf (vadd x (smul 0 d))) d = Fin sl /\
    let '(s, st) := zoom_run cfg f gradf vdot true s0 x fx g sl d in
    z_done st = true /\ z_failed st = false /\ ~ curvature_ok cfg gradf vdot x d sl s (ztol cfg).
Proof.
  exists {| zc1 := 1 / 10000; zc2 := 9 / 10; zc3 := 1 / 1000000; rel_tol_cubic := 2 / 10; rel_tol_quad := 1 / 10;
    interval_threshold := 1 / 1000000; increase_factor := 2; ztol := 0; zmaxiter := 30; max_stepsize_arg := Some 1 |},
    (fun z => Fin (- nth 0 z 0)), (fun _ => tt), (fun _ _ => Fin (-1)), [0], [1], 0, tt, (-1), 1.
  assert (Hz : forall c, max_stepsize_arg c = Some 1 -> zmax c = 1).
  { intros c E. unfold zmax. rewrite E. destruct (Req_EM_T 1 0); lra. }
  split; [|split; [lra|split; [lra|split; [simpl; f_equal; ring|split; [reflexivity|]]]]].
  { unfold zoom_ok. rewrite Hz by reflexivity. cbn. repeat split; try lra; lia. }
  set (cfg := {| zc1 := _ |}).
  set (ff := fun z : vec => Fin (- nth 0 z 0)).
  unfold zoom_run.
  assert (E : let r := zoom_update cfg ff (fun _ => tt) (fun _ _ => Fin (-1)) (1, zoom_init true [0] 0 tt (-1) [1]) in
     fst r = 1 /\ z_done (snd r) = true /\ z_failed (snd r) = false).
  { cbv zeta. unfold zoom_update, trial_step. cbn [zoom_init z_found]. unfold search_interval. cbn [zoom_init z_iter Nat.eqb z_params z_dir z_value_init z_slope_init z_prev_value z_prev].
    rewrite (Hz cfg eq_refl). rewrite Rmin_left by lra.
    assert (Ed : decrease_error cfg 1 (ff (line_point (zoom_init true [0] 0 tt (-1) [1]) 1)) (Fin (-1)) 0 (-1) = Fin 0).
    { unfold decrease_error, ff, line_point. cbn. f_equal. unfold Rmin, Rmax, Rabs. repeat destruct (Rcase_abs _); repeat destruct (Rle_dec _ _); lra. }
    rewrite Ed.
    assert (Ec : exists c, curvature_error cfg (Fin (-1)) (-1) = Fin c /\ 0 < c).
    { eexists. unfold curvature_error. cbn. split; [reflexivity|]. unfold Rmax, Rabs. destruct (Rcase_abs (-1)); destruct (Rle_dec _ 0); lra. }
    destruct Ec as (c & -> & Hc).
    assert (Hm : xleb (xmaximum (Fin 0) (Fin c)) (ztol cfg) = false).
    { simpl. destruct (Rle_dec (Rmax 0 c) 0) as [Hx|]; [|reflexivity]. pose proof (Rmax_r 0 c). lra. }
    rewrite Hm.
    assert (Hg : xgtb (Fin 0) 0 = false) by (simpl; destruct (Rlt_dec 0 0); [lra|reflexivity]). rewrite Hg.
    assert (Hs : xgeb (Fin (-1)) (Fin 0) = false) by (simpl; destruct (Rle_dec 0 (-1)); [lra|reflexivity]). rewrite Hs.
    replace (Rleb 1 1) with true by (symmetry; apply Rleb_true; lra).
    cbn [Nat.ltb Nat.leb]. rewrite andb_false_r. cbn. split; [reflexivity|]. split; reflexivity. }
  destruct (zoom_update cfg ff (fun _ => tt) (fun _ _ => Fin (-1)) (1, zoom_init true [0] 0 tt (-1) [1])) as [s1 st] eqn:E'.
  cbn [fst snd] in E. destruct E as (-> & Ed & Ef). rename E' into E.
  assert (En : zmaxiter cfg = S (S 28)) by reflexivity. rewrite En. unfold run_loop. change (fun z : list R => Fin (- nth 0 z 0)) with ff. rewrite E.
  assert (Estop : forall n, python_for zoom_cond (zoom_update cfg ff (fun _ => tt) (fun _ _ => Fin (-1))) (S n) (1, st) = (1, st)).
  { intros n. simpl. unfold zoom_cond at 1. cbn [snd]. rewrite Ed, Ef. reflexivity. }
  rewrite Estop.
  split; [exact Ed|]. split; [exact Ef|]. intros (v & Ev & Hv). injection Ev as <-. cbn in Hv. unfold Rabs in Hv. destruct (Rcase_abs (-1)); lra.
Qed.
Print Assumptions C20_done_implies_curvature_refuted.

Example C20_example : zoom_ok {| zc1 := 1 / 10000; zc2 := 9 / 10; zc3 := 1 / 1000000; rel_tol_cubic := 2 / 10; rel_tol_quad := 1 / 10;
    interval_threshold := 1 / 1000000; increase_factor := 2; ztol := 0; zmaxiter := 30; max_stepsize_arg := None |} /\
  cubicmin 0 (Fin 0) (Fin (-3)) 1 (Fin (-2)) 2 (Fin 2) = Some 1.
Proof.
  split.
  - unfold zoom_ok, zmax. cbn [ztol max_stepsize_arg zmaxiter increase_factor rel_tol_cubic rel_tol_quad].
    repeat split; try lra; try lia; apply pow_lt; lra.
  - unfold cubicmin, cubicmin_coefs. destruct (Req_EM_T _ 0) as [H|H]; [lra|].
    destruct (Req_EM_T _ 0) as [H1|H1]; [lra|]. destruct (Rlt_dec _ 0) as [H2|H2]; [exfalso; match type of H2 with ?e < 0 => replace e with 9 in H2 by field end; lra|].
    f_equal.
    match goal with |- context [sqrt ?e] => replace e with (3 * 3) by field end.
    rewrite sqrt_square by lra. field.
Qed.
