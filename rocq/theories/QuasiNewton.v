(** Models of linesearch_util.py, bfgs.py and lbfgs.py (real-valued parameters, flattened to a
    vector: bfgs.py flattens, lbfgs.py works leaf by leaf with inner products summed over the
    leaves, which is the same thing). *)
From Coq Require Import String.
From Coq Require Import Reals List Lra Lia Bool Arith.
From Verif Require Import Prelude Vec Mat Zoom Loss Backtracking.
Import ListNotations.
Local Open Scope string_scope.
Open Scope R_scope.

(** ** linesearch_util.py *)
(** What the [linesearch] option can be: a name or an instance of IterativeLineSearch; [I] is
    the type of such instances. *)
Inductive ls_arg (I : Type) := LsName (s : string) | LsInstance (i : I).
Arguments LsName {I} s. Arguments LsInstance {I} i.
(** The solver object that is built, with the options it receives. *)
Inductive ls_solver (I : Type) :=
| BacktrackingLS (maxiter : nat) (max_stepsize : R)
| ZoomLS (maxiter : nat) (max_stepsize : R)
| HagerZhangLS (maxiter : nat)
| GivenLS (i : I).
Arguments BacktrackingLS {I}. Arguments ZoomLS {I}. Arguments HagerZhangLS {I}. Arguments GivenLS {I}.

(** linesearch_util.py:24-78 [_setup_linesearch] (jit, unroll, verbose, has_aux only affect how
    the same search is executed or reported) *)
Definition setup_linesearch {I} (linesearch : ls_arg I) (maxlsiter : nat) (max_stepsize : R) : result (ls_solver I) :=
  match linesearch with
  | LsName s =>
      if string_dec s "backtracking" then Ok (BacktrackingLS maxlsiter max_stepsize)
      else if string_dec s "zoom" then Ok (ZoomLS maxlsiter max_stepsize)
      else if string_dec s "hager-zhang" then Ok (HagerZhangLS maxlsiter)
      else Err ValueError
  | LsInstance i => Ok (GivenLS i)
  end.

(** linesearch_util.py:81-103 [_init_stepsize] *)
Definition init_stepsize (strategy : string) (max_stepsize min_stepsize increase_factor stepsize : R) : result R :=
  if string_dec strategy "max" then Ok max_stepsize
  else if string_dec strategy "current" then Ok stepsize
  else if string_dec strategy "increase" then
    Ok (if Rleb stepsize min_stepsize then max_stepsize else stepsize * increase_factor)
  else Err ValueError.

(** ** Options shared by BFGS and L-BFGS *)
(** bfgs.py:119-137, lbfgs.py:210-232 [stepsize]: a number or a callable. *)
Inductive step_option := StepConst (r : R) | StepFun (h : nat -> R).
Record qn_config := {
  qn_stepsize : step_option; qn_linesearch_init : string;
  qn_increase_factor : R; qn_max_stepsize : R; qn_min_stepsize : R;
  qn_tol : R; qn_stop_if_linesearch_fails : bool;
  qn_history_size : nat; qn_use_gamma : bool
}.
(** bfgs.py:202 and lbfgs.py:333-335 *)
Definition use_linesearch (cfg : qn_config) : bool :=
  match qn_stepsize cfg with StepFun _ => false | StepConst r => Rleb r 0 end.
(** bfgs.py:229-232 and lbfgs.py:362-365 *)
Definition fixed_step (cfg : qn_config) (iter_num : nat) : R :=
  match qn_stepsize cfg with StepFun h => h iter_num | StepConst r => r end.

(** The part of a line-search result that the solvers read:
    (stepsize, state.params, state.value, state.grad, state.failed). *)
Record ls_out := { ls_step : R; ls_params : vec; ls_value : R; ls_grad : vec; ls_failed : bool }.
(** [run_ls init_stepsize params value grad descent_direction] *)
Definition line_search := R -> vec -> R -> vec -> vec -> ls_out.

Section Solver.
Variable f : vec -> R.
Variable gradf : vec -> vec.
Variable run_ls : line_search.
Variable cfg : qn_config.

(** The step along [d], common to bfgs.py:202-238 and lbfgs.py:333-374. *)
Definition take_step (params : vec) (value : R) (grad d : vec) (prev_stepsize : R) (iter_num : nat) : result ls_out :=
  if use_linesearch cfg then
    match init_stepsize (qn_linesearch_init cfg) (qn_max_stepsize cfg) (qn_min_stepsize cfg)
            (qn_increase_factor cfg) prev_stepsize with
    | Err e => Err e
    | Ok s0 => Ok (run_ls s0 params value grad d)
    end
  else
    let s := fixed_step cfg iter_num in
    let p := vadd params (smul s d) in
    Ok {| ls_step := s; ls_params := p; ls_value := f p; ls_grad := gradf p; ls_failed := false |}.

(** ** BFGS *)
Record bfgs_state := {
  b_iter : nat; b_value : R; b_grad : vec; b_stepsize : R; b_error : xnum; b_H : mat
}.

(** bfgs.py:147-176 [init_state] *)
Definition bfgs_init (params : vec) : bfgs_state :=
  {| b_iter := 0; b_value := f params; b_grad := gradf params; b_stepsize := qn_max_stepsize cfg;
     b_error := PInf; b_H := eye (length params) |}.

(** bfgs.py:244-250: rho = 1/(y.s) is infinite exactly when y.s = 0, and H is then kept;
    einsum('ij,jk,lk', w, H, w) is w H w^T. *)
Definition bfgs_matrix_update (H : mat) (s y : vec) : mat :=
  let n := length s in
  if Req_EM_T (dot y s) 0 then H
  else
    let rho := / dot y s in
    let w := msub (eye n) (msmul rho (outer s y)) in
    madd (mmul_t (mmul n w H) w) (msmul rho (outer s s)).

(** bfgs.py:200 *)
Definition bfgs_direction (st : bfgs_state) : vec := smul (-1) (mvec (b_H st) (b_grad st)).

(** bfgs.py:178-275 [update] *)
Definition bfgs_update (step : vec * bfgs_state) : result (vec * bfgs_state) :=
  let '(params, st) := step in
  let d := bfgs_direction st in
  match take_step params (b_value st) (b_grad st) d (b_stepsize st) (b_iter st) with
  | Err e => Err e
  | Ok o =>
      let s := vsub (ls_params o) params in
      let y := vsub (ls_grad o) (b_grad st) in
      Ok (ls_params o,
          {| b_iter := S (b_iter st); b_value := ls_value o; b_grad := ls_grad o;
             b_stepsize := ls_step o; b_error := Fin (norm2 (ls_grad o));
             b_H := bfgs_matrix_update (b_H st) s y |})
  end.

(** ** L-BFGS *)
Record lbfgs_state := {
  l_iter : nat; l_value : R; l_grad : vec; l_stepsize : R; l_error : xnum;
  l_s : list vec; l_y : list vec; l_rho : list R; l_gamma : R; l_failed : bool
}.

(** lbfgs.py:81-86, the reverse scan: goes through [indices] from the last to the first and
    returns the final carry together with the alphas in the order of [indices]. *)
Fixpoint scan_right (s_hist y_hist : list vec) (rho_hist : list R) (r : vec) (indices : list nat) : vec * list R :=
  match indices with
  | [] => (r, [])
  | i :: rest =>
      let '(r1, alphas) := scan_right s_hist y_hist rho_hist r rest in
      let alpha := nth i rho_hist 0 * dot (nth i s_hist []) r1 in
      (vadd r1 (smul (- alpha) (nth i y_hist [])), alpha :: alphas)
  end.
(** lbfgs.py:90-96, the forward scan over (indices, alphas). *)
Fixpoint scan_left (s_hist y_hist : list vec) (rho_hist : list R) (r : vec) (indices : list nat) (alphas : list R) : vec :=
  match indices, alphas with
  | i :: rest, alpha :: alphas' =>
      let beta := nth i rho_hist 0 * dot (nth i y_hist []) r in
      scan_left s_hist y_hist rho_hist (vadd r (smul (alpha - beta) (nth i s_hist []))) rest alphas'
  | _, _ => r
  end.
(** lbfgs.py:43-98 [inv_hessian_product] *)
Definition buffer_indices (start m : nat) : list nat := map (fun t => (start + t) mod m) (seq 0 m).
Definition inv_hessian_product (q : vec) (s_hist y_hist : list vec) (rho_hist : list R) (gamma : R) (start : nat) : vec :=
  let indices := buffer_indices start (length rho_hist) in
  let '(r, alphas) := scan_right s_hist y_hist rho_hist q indices in
  scan_left s_hist y_hist rho_hist (smul gamma r) indices alphas.

(** lbfgs.py:101-114 [compute_gamma] *)
Definition compute_gamma (s_hist y_hist : list vec) (last : nat) : R :=
  let num := dot (nth last y_hist []) (nth last s_hist []) in
  let denom := dot (nth last y_hist []) (nth last y_hist []) in
  if Rltb 0 denom then num / denom else 1.

(** lbfgs.py:262-293 [init_state], from parameters *)
Definition lbfgs_init (params : vec) : lbfgs_state :=
  let m := qn_history_size cfg in
  {| l_iter := 0; l_value := f params; l_grad := gradf params; l_stepsize := qn_max_stepsize cfg;
     l_error := PInf; l_s := repeat (vzero (length params)) m; l_y := repeat (vzero (length params)) m;
     l_rho := repeat 0 m; l_gamma := 1; l_failed := false |}.
(** lbfgs.py:262-293 [init_state], from an OptStep: a warm start *)
Definition lbfgs_warm_init (step : vec * lbfgs_state) : vec * lbfgs_state :=
  let '(params, st) := step in
  (params,
   {| l_iter := l_iter st; l_value := f params; l_grad := gradf params; l_stepsize := l_stepsize st;
      l_error := PInf; l_s := l_s st; l_y := l_y st; l_rho := l_rho st; l_gamma := l_gamma st;
      l_failed := false |}).

(** lbfgs.py:316-331.  [start] with history_size = 0 is not used. *)
Definition lbfgs_direction (st : lbfgs_state) : vec :=
  let start := (l_iter st mod qn_history_size cfg)%nat in
  let d := smul (-1) (l_grad st) in
  match qn_history_size cfg with
  | O => d
  | S _ => inv_hessian_product d (l_s st) (l_y st) (l_rho st) (l_gamma st) start
  end.

(** lbfgs.py:295-417 [update] *)
Definition lbfgs_update (step : vec * lbfgs_state) : result (vec * lbfgs_state) :=
  let '(params, st) := step in
  let m := qn_history_size cfg in
  let start := (l_iter st mod m)%nat in
  let d := lbfgs_direction st in
  match take_step params (l_value st) (l_grad st) d (l_stepsize st) (l_iter st) with
  | Err e => Err e
  | Ok o =>
      let s := vsub (ls_params o) params in
      let y := vsub (ls_grad o) (l_grad st) in
      let vdot_sy := dot s y in
      let rho := if Req_EM_T vdot_sy 0 then 0 else 1 / vdot_sy in
      let s_hist := if (0 <? m)%nat then set_nth (l_s st) start s else l_s st in
      let y_hist := if (0 <? m)%nat then set_nth (l_y st) start y else l_y st in
      let rho_hist := if (0 <? m)%nat then set_nth (l_rho st) start rho else l_rho st in
      let gamma := if ((0 <? m)%nat && qn_use_gamma cfg)%bool then compute_gamma s_hist y_hist start else 1 in
      Ok (ls_params o,
          {| l_iter := S (l_iter st); l_value := ls_value o; l_grad := ls_grad o; l_stepsize := ls_step o;
             l_error := Fin (norm2 (ls_grad o)); l_s := s_hist; l_y := y_hist; l_rho := rho_hist;
             l_gamma := gamma; l_failed := ls_failed o |})
  end.

(** lbfgs.py:242-246 [_cond_fun] *)
Definition lbfgs_cond (st : lbfgs_state) : bool :=
  (xgtb (l_error st) (qn_tol cfg) && (negb (qn_stop_if_linesearch_fails cfg) || negb (l_failed st)))%bool.

End Solver.

(** ** Specification *)
(** A line search as the solvers use it: it returns a point on the line with the value and the
    gradient there (C19-C21 prove this of the three searches). *)
Definition ls_consistent (f : vec -> R) (gradf : vec -> vec) (ls : line_search) : Prop :=
  forall s0 x v g d, let o := ls s0 x v g d in
    ls_params o = vadd x (smul (ls_step o) d) /\ ls_value o = f (ls_params o) /\ ls_grad o = gradf (ls_params o).
(** One step of a run along the direction [d] that meets Wolfe's curvature condition. *)
Definition wolfe_step (c2 : R) (step : R) (d g g' : vec) : Prop :=
  0 < step /\ c2 * dot g d <= dot g' d.
Definition grad_dim (n : nat) (gradf : vec -> vec) : Prop := forall x, length x = n -> length (gradf x) = n.
(** Strictly monotone gradient: what a strictly convex function has. *)
Definition strictly_monotone (n : nat) (gradf : vec -> vec) : Prop :=
  forall x z, length x = n -> length z = n -> x <> z -> 0 < dot (vsub (gradf x) (gradf z)) (vsub x z).

(** BFGS matrix obtained from gamma I by the pairs (s, y), the first of the list first. *)
Definition bfgs_matrix (n : nat) (gamma : R) (pairs : list (vec * vec)) : mat :=
  fold_left (fun H p => bfgs_matrix_update H (fst p) (snd p)) pairs (msmul gamma (eye n)).
(** The K-th pair of a sequence of steps (x_k, g_k). *)
Definition pair_at (xs gs : nat -> vec) (k : nat) : vec * vec :=
  (vsub (xs (S k)) (xs k), vsub (gs (S k)) (gs k)).
(** The last min(K, m) pairs of the first K, oldest first. *)
Definition last_pairs (m K : nat) (xs gs : nat -> vec) : list (vec * vec) :=
  map (pair_at xs gs) (seq (K - m) (K - (K - m))).
(** equation (7.20) of Numerical Optimization for the newest pair; 1 before the first pair, when
    y = 0 and when use_gamma is off. *)
Definition gamma_at (use_gamma : bool) (xs gs : nat -> vec) (K : nat) : R :=
  match K with
  | O => 1
  | S k => let '(s, y) := pair_at xs gs k in
           if use_gamma then (if Req_EM_T (dot y y) 0 then 1 else dot y s / dot y y) else 1
  end.

(** K iterations of a solver from the initial state: iterates [xs] and states [sts]. *)
Definition bfgs_run (f : vec -> R) (gradf : vec -> vec) (ls : line_search) (cfg : qn_config)
    (xs : nat -> vec) (sts : nat -> bfgs_state) (K : nat) : Prop :=
  sts 0%nat = bfgs_init f gradf cfg (xs 0%nat) /\
  forall k, (k < K)%nat -> bfgs_update f gradf ls cfg (xs k, sts k) = Ok (xs (S k), sts (S k)).
Definition lbfgs_run (f : vec -> R) (gradf : vec -> vec) (ls : line_search) (cfg : qn_config)
    (xs : nat -> vec) (sts : nat -> lbfgs_state) (K : nat) : Prop :=
  sts 0%nat = lbfgs_init f gradf cfg (xs 0%nat) /\
  forall k, (k < K)%nat -> lbfgs_update f gradf ls cfg (xs k, sts k) = Ok (xs (S k), sts (S k)).
(** The three documented strategies. *)
Definition known_strategy (s : string) : Prop := s = "max" \/ s = "current" \/ s = "increase".

(** The backtracking search of C19 as the [run_ls] of the solvers (value and grad are given;
    [fun] is real-valued). *)
Definition bt_line_search (bcfg : bt_config) (f : vec -> R) (gradf : vec -> vec) : line_search :=
  fun s0 x v g d =>
    let '(s, st) := bt_run bcfg (fun z => Fin (f z)) gradf true s0 x v g (Some d) in
    {| ls_step := s; ls_params := st_params st;
       ls_value := match st_value st with Fin r => r | _ => 0 end;
       ls_grad := st_grad st; ls_failed := failed st |}.
