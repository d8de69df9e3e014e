(** C82: L-BFGS-B with linesearch = "hager-zhang" leaves the box. *)
From Coq Require Import String Reals List Bool Arith Lra Lia.
From Verif Require Import Prelude Base Vec Mat XArith LinAlg Loss LossProofs QuasiNewton QuasiNewtonProofs Zoom ZoomTheorems Lbfgsb LbfgsbHess LbfgsbCauchy LbfgsbSub LbfgsbProofs LbfgsbTheorems.
From Verif Require HagerZhang HzRuns HzRunsProofs.
Import ListNotations.
Open Scope R_scope.

(** f(x) = x + (x - 1/2)^2 / 20 on x >= 0 from x = 1/2, with the default options of the search: the search ignores
    max_stepsize = 1, takes a step of at least 5 along the direction (-1/2), and the first iterate is below 0. *)
Definition box_f (v : vec) : R := nth 0 v 0 + 1 / 20 * ((nth 0 v 0 - 1 / 2) * (nth 0 v 0 - 1 / 2)).
Definition box_g (v : vec) : vec := [1 + 1 / 10 * (nth 0 v 0 - 1 / 2)].
Definition box_cfg : qn_config :=
  {| qn_stepsize := StepConst 0; qn_linesearch_init := "increase"; qn_increase_factor := 3 / 2; qn_max_stepsize := 1; qn_min_stepsize := 1 / 1000000;
     qn_tol := 1 / 1000; qn_stop_if_linesearch_fails := false; qn_history_size := 1; qn_use_gamma := true |}%string.
Lemma box_search fuel s0 : (2 < fuel)%nat -> exists c, 5 <= c /\
  ls_params (HzRuns.hz_ls fuel HzRuns.hz_defaults box_f box_g s0 [1 / 2] (box_f [1 / 2]) (box_g [1 / 2]) [- (1 / 2)]) = vadd [1 / 2] (smul c [- (1 / 2)]) /\
  ls_failed (HzRuns.hz_ls fuel HzRuns.hz_defaults box_f box_g s0 [1 / 2] (box_f [1 / 2]) (box_g [1 / 2]) [- (1 / 2)]) = false.
Proof.
  intros Hf. unfold HzRuns.hz_ls. set (x := [1 / 2]). set (d := [- (1 / 2)]).
  assert (Hsl : dot (box_g x) d = - (1 / 2)) by (unfold box_g, x, d; cbn; lra). rewrite Hsl.
  assert (Hc : HzRuns.hz_constants HzRuns.hz_defaults) by (unfold HzRuns.hz_constants; cbn; repeat split; try lra; lia).
  destruct (HzRunsProofs.hz_quad HzRuns.hz_defaults (fun z => Fin (box_f z)) box_g (fun a b => Fin (dot a b)) true x d (box_f x) (- (1 / 2)) (1 / 40)) with (fuel := fuel) (J := 2%nat) (s0 := s0) (g := box_g x)
    as (j & c & st & step & A1 & A2 & A3 & A4 & A5 & A6 & A7 & A8 & A9 & A10 & A11 & A12 & A13); try assumption; try lra.
  { intros c. unfold HagerZhang.lvalue, HagerZhang.line, box_f, x, d. cbn. f_equal. field. }
  { intros c. unfold HagerZhang.lslope, HagerZhang.line, box_g, x, d. cbn. f_equal. field. }
  { cbn. lra. }
  assert (T : - - (1 / 2) / (1 / 40) = 20) by field. rewrite T in *. rewrite A2. cbn [ls_params ls_failed]. exists c. split; [|split; [exact A7|]].
  - destruct A1 as [B1 B2]. destruct j as [|[|j]]; cbn [HzRuns.hz_defaults HagerZhang.hexp pow] in B2; [lra|lra|].
    assert (P : 1 <= 5 ^ j) by (apply pow_R1_Rle; lra). destruct A10 as [E|[E|E]]; rewrite E; cbn [HzRunsProofs.blow HzRuns.hz_defaults HagerZhang.hexp pow]; lra.
  - rewrite A6. destruct (Req_EM_T 20 _) as [E|_]; [exfalso|reflexivity]. destruct A1 as [B1 B2]. cbn [HzRuns.hz_defaults HagerZhang.hexp] in E.
    destruct j as [|[|[|j]]]; cbn [pow] in E; try lra. assert (P : 1 <= 5 ^ j) by (apply pow_R1_Rle; lra). lra.
Qed.
Theorem C82_lbfgsb_leaves_box_refuted : forall solve eps, exact_solver solve -> 0 < eps < 1 / 4 ->
  exists f gradf cfg x0 bounds, let '(lower, upper) := bounds in
    in_bounds lower upper x0 /\ grad_dim 1 gradf /\ clear_gradient eps (gradf x0) /\ clear_breaks eps x0 (gradf x0) lower upper /\ (0 < qn_history_size cfg)%nat /\ qn_max_stepsize cfg = 1 /\
    forall fuel, (2 < fuel)%nat -> exists steps,
    lbfgsb_run solve eps f gradf (HzRuns.hz_ls fuel HzRuns.hz_defaults f gradf) cfg 1 (Some bounds) x0 steps 1 /\
    ~ in_bounds lower upper (fst (steps 1%nat)).
Proof.
  intros solve eps SOL He. set (f := box_f). set (gradf := box_g). set (cfg := box_cfg).
  set (x0 := [1 / 2]). set (lower := [Fin 0]). set (upper := [PInf]).
  set (st0 := lbfgsb_init f gradf cfg 1 x0 (Some (lower, upper))).
  assert (Hg : gradf x0 = [1]) by (unfold gradf, box_g, x0; cbn; f_equal; lra).
  assert (B : in_bounds lower upper x0). { intros [|i] Hi; cbn in Hi; [|lia]. split; [apply xle_fin; cbn; lra|reflexivity]. }
  assert (CG : clear_gradient eps [1]). { intros [|i] Hi; cbn in Hi; [|lia]. right. cbn. rewrite Rabs_R1. lra. }
  assert (CB : clear_breaks eps x0 [1] lower upper).
  { intros [|i] r Hi [[H1 H2]|[H1 H2]]; cbn in Hi; try lia; cbn in H1, H2; [lra|]. injection H2 as H2. right. lra. }
  assert (G : good_history 1 1 0 1 [[0]] [[0]]) by (apply (init_good 1 1 1); lra).
  set (w := w_flat 1 [[0]] [[0]] 1). set (m := linalg_inv solve (2 * 1) (m_inv 1 0 1 [[0]] [[0]])).
  assert (BE : forall u v : vec, length u = 1%nat -> length v = 1%nat -> bform 1 w m u v = dot u v).
  { intros u v Lu Lv. assert (Q := bform_empty 1 1 1 m u v (minv_len 1 0 1 [[0]] [[0]] solve) Lu Lv ltac:(lra)). rewrite Rmult_1_l in Q. exact Q. }
  assert (EQ : forall a, qmodel 1 w m [1] [a] = a + / 2 * (a * a)). { intros a. unfold qmodel. rewrite BE by reflexivity. cbn. ring. }
  assert (PA : forall t, 0 <= t -> path x0 [1] lower upper t = [Rmax (1 / 2 - t) 0]). { intros t Ht. unfold path, tab. cbn. rewrite Rmult_1_r. reflexivity. }
  destruct (C48_cauchy eps x0 [1] lower upper 1 0 1 [[0]] [[0]] solve ltac:(lra) eq_refl B CG CB G SOL) as (t & T0 & EX & _ & _ & _ & _ & LM).
  fold m in EX, LM. change (w_flat 1 [[0]] [[0]] (length x0)) with w in EX, LM.
  assert (TT : 1 / 2 <= t).
  { destruct LM as (del & D1 & D2).
    - intros v Lv Hv Nv. rewrite BE by exact Lv. destruct v as [|a [|? ?]]; try discriminate Lv. destruct (Hv 0%nat ltac:(cbn; lia)) as [E|E]; cbn in E; subst a; [exfalso; apply Nv; reflexivity|]. cbn. lra.
    - intros [|i] [|j] r Hi Hj _ _; cbn in Hi, Hj; lia.
    - destruct (Rle_lt_dec (1 / 2) t) as [Q|Q]; [exact Q|exfalso]. set (s := Rmin (t + del) (1 / 2)). assert (S1 : t < s) by (unfold s; apply Rmin_glb_lt; lra).
      assert (S2 : s <= t + del) by apply Rmin_l. assert (S3 : s <= 1 / 2) by apply Rmin_r. specialize (D2 s ltac:(lra) S2). rewrite !PA in D2 by lra. rewrite !Rmax_left in D2 by lra.
      cbn [vsub x0] in D2. change (qmodel 1 w m [1] [1 / 2 - t - 1 / 2] <= qmodel 1 w m [1] [1 / 2 - s - 1 / 2]) in D2. rewrite !EQ in D2. nra. }
  assert (Hlg : lb_grad st0 = [1]) by exact Hg.
  assert (CG0 : clear_gradient eps (lb_grad st0)) by (rewrite Hlg; exact CG).
  assert (CB0 : clear_breaks eps x0 (lb_grad st0) lower upper) by (rewrite Hlg; exact CB).
  destruct (C48_feasible solve eps cfg x0 st0 lower upper SOL ltac:(lra) eq_refl B CG0 G) as (p & Lp & _ & Ep & Bp).
  destruct (C48_direction solve eps cfg x0 st0 lower upper SOL ltac:(lra) eq_refl B CG0 CB0 G) as [_ DD].
  assert (NS : ~ box_stationary lower upper x0 (lb_grad st0)).
  { rewrite Hlg. intros S. specialize (S [0] eq_refl). assert (Q : in_bounds lower upper [0]) by (intros [|i] Hi; cbn in Hi; [|lia]; split; [apply xle_fin; cbn; lra|reflexivity]). specialize (S Q). cbn in S. lra. }
  destruct (DD NS) as (_ & Q1 & _). change (state_w (length x0) st0) with w in Q1. change (state_m solve (qn_history_size cfg) st0) with m in Q1. change (lb_theta st0) with 1 in Q1. rewrite Hlg in Q1.
  rewrite Ep in Q1. rewrite EX, map_xreal_fin, PA in Q1 by exact T0. rewrite Rmax_right in Q1 by lra. destruct p as [|a [|? ?]]; try discriminate Lp.
  change (vsub [0] x0) with [0 - 1 / 2] in Q1. rewrite !EQ in Q1. destruct (Bp 0%nat ltac:(cbn; lia)) as [Ba _]. cbn [vadd x0 nth lo lower] in Ba. apply (proj1 (xle_fin _ _)) in Ba. cbn in Ba.
  assert (Ea : a = - (1 / 2)) by nra. subst a.
  exists f, gradf, cfg, x0, (lower, upper).
  split; [exact B|]. split; [intros v _; reflexivity|]. split; [rewrite Hg; exact CG|]. split; [rewrite Hg; exact CB|]. split; [cbn; lia|]. split; [reflexivity|].
  intros fuel Hf. set (ls := HzRuns.hz_ls fuel HzRuns.hz_defaults f gradf).
  assert (UP : exists r c, lbfgsb_update solve eps f gradf ls cfg 1 (Some (lower, upper)) (x0, st0) = Ok r /\ 5 <= c /\ fst r = vadd x0 (smul c [- (1 / 2)])).
  { unfold lbfgsb_update. cbn [bounds_or_default]. rewrite Ep. unfold lbfgsb_step. assert (UL : use_linesearch cfg = true) by (cbn; unfold Rleb; destruct (Rle_dec 0 0); [reflexivity|lra]). rewrite UL.
    assert (IS : exists s0, init_stepsize (qn_linesearch_init cfg) (qn_max_stepsize cfg) (qn_min_stepsize cfg) (qn_increase_factor cfg) (lb_stepsize st0) = Ok s0) by (eexists; reflexivity).
    destruct IS as (s0 & ->). destruct (box_search fuel s0 Hf) as (c & C1 & C2 & _). change (lb_value st0) with (box_f [1 / 2]). change (lb_grad st0) with (box_g [1 / 2]).
    destruct (lbfgsb_store _ _ _ _ _) as [[[? ?] ?] ?]. eexists. exists c. split; [reflexivity|]. split; [exact C1|]. exact C2. }
  destruct UP as (r & c & U1 & U2 & U3). exists (fun k => match k with O => (x0, st0) | _ => r end). split.
  - split; [reflexivity|]. intros [|k] Hk; [exact U1|lia].
  - cbn [fst]. rewrite U3. intros Q. destruct (Q 0%nat ltac:(cbn; lia)) as [Q' _]. apply (proj1 (xle_fin _ _)) in Q'. cbn in Q'. lra.
Qed.
Print Assumptions C82_lbfgsb_leaves_box_refuted.
