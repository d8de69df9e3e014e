(** Models of the code that handles complex variables: tree_util.py (inner product, norm,
    conjugate), backtracking_linesearch.py, lbfgs.py and nonlinear_cg.py.  A complex pytree is
    flattened to a list of complex numbers (C40 and C41 treat the pytree itself; inner products
    and norms are sums over the leaves).  aux is omitted. *)
From Coq Require Import String.
From Coq Require Import Reals List Lra Lia Bool Arith.
From Verif Require Import Prelude Vec Mat Loss Loop Run Backtracking Zoom QuasiNewton NonlinearCG.
Import ListNotations.
Local Open Scope string_scope.
Open Scope R_scope.

(** ** Complex arrays *)
Record cx := Cx { re : R; im : R }.
Definition c_add (a b : cx) : cx := Cx (re a + re b) (im a + im b).
Definition c_sub (a b : cx) : cx := Cx (re a - re b) (im a - im b).
Definition c_mul (a b : cx) : cx := Cx (re a * re b - im a * im b) (re a * im b + im a * re b).
Definition c_conj (a : cx) : cx := Cx (re a) (- im a).
(** product of a real number and a complex number *)
Definition c_scale (r : R) (a : cx) : cx := Cx (r * re a) (r * im a).
Definition cvec := list cx.
(** tree_util.py:71-72 [tree_add]; like [vadd], the shorter operand is padded with zeros (jax.numpy
    only accepts operands of equal length here) *)
Fixpoint cadd (x y : cvec) : cvec :=
  match x, y with
  | [], _ => y
  | _, [] => x
  | a :: x', b :: y' => c_add a b :: cadd x' y'
  end.
(** tree_util.py:74-75 [tree_sub] *)
Fixpoint csub (x y : cvec) : cvec :=
  match x, y with
  | [], _ => map (c_scale (-1)) y
  | _, [] => x
  | a :: x', b :: y' => c_sub a b :: csub x' y'
  end.
(** tree_util.py:84-91 [tree_scalar_mul] with a real scalar; [tree_add_scalar_mul] is
    [cadd x (cscale s y)] *)
Definition cscale (r : R) (x : cvec) : cvec := map (c_scale r) x.
(** tree_util.py:274-276 [tree_conj] *)
Definition cconj (x : cvec) : cvec := map c_conj x.
(** tree_util.py:94-104 [_vdot], [tree_vdot]: jnp.vdot conjugates its first argument *)
Fixpoint cvdot (x y : cvec) : cx :=
  match x, y with
  | a :: x', b :: y' => c_add (c_mul (c_conj a) b) (cvdot x' y')
  | _, _ => Cx 0 0
  end.
(** tree_util.py:107-121 [_vdot_real], [tree_vdot_real] *)
Definition vdot_real (x y : cvec) : R := re (cvdot x y).
(** tree_util.py:138-145 [tree_l2_norm] *)
Definition cnorm2 (x : cvec) : R :=
  sqrt (vsum (map (fun a => re a ^ 2 + im a ^ 2) x)).
(** an array of n complex zeros (lbfgs.py:117-119 [init_history]) *)
Definition czero (n : nat) : cvec := repeat (Cx 0 0) n.

(** ** Specification: the equivalent real problem *)
(** Each complex variable x + i y becomes the two real variables x, y. *)
Definition reals (z : cvec) : vec := flat_map (fun a => [re a; im a]) z.
Fixpoint complexes (x : vec) : cvec :=
  match x with
  | a :: b :: x' => Cx a b :: complexes x'
  | [a] => [Cx a 0]
  | [] => []
  end.
(** The objective as a function of the real variables. *)
Definition real_fun {A} (f : cvec -> A) (x : vec) : A := f (complexes x).
(** Its gradient, from what jax.grad returns on the complex function (see [jax_grad]). *)
Definition real_grad (g : cvec -> cvec) (x : vec) : vec := reals (cconj (g (complexes x))).
(** [bump z k c]: z with c added to its k-th coordinate *)
Fixpoint cbump (z : cvec) (k : nat) (c : cx) : cvec :=
  match z, k with
  | [], _ => []
  | a :: z', O => c_add a c :: z'
  | a :: z', S k' => a :: cbump z' k' c
  end.
Fixpoint bump (x : vec) (k : nat) (t : R) : vec :=
  match x, k with
  | [], _ => []
  | a :: x', O => a + t :: x'
  | a :: x', S k' => a :: bump x' k' t
  end.
(** jax.grad of a real-valued function of complex variables: the derivative with respect to the
    real part minus i times the derivative with respect to the imaginary part. *)
Definition jax_grad (f : cvec -> R) (g : cvec -> cvec) : Prop :=
  forall z, length (g z) = length z /\
  forall k, (k < length z)%nat ->
    derivable_pt_lim (fun t => f (cbump z k (Cx t 0))) 0 (re (nth k (g z) (Cx 0 0))) /\
    derivable_pt_lim (fun t => f (cbump z k (Cx 0 t))) 0 (- im (nth k (g z) (Cx 0 0))).
(** The gradient of a function of 2n real variables, for every n. *)
Definition grad_on_pairs (f : vec -> R) (g : vec -> vec) : Prop :=
  forall x n, length x = (2 * n)%nat -> length (g x) = length x /\
  forall k, (k < length x)%nat -> derivable_pt_lim (fun t => f (bump x k t)) 0 (nth k (g x) 0).

(** ** backtracking_linesearch.py *)
(** backtracking_linesearch.py:34-47 [BacktrackingLineSearchState] *)
Record cbt_state := {
  cb_iter : nat; cb_params : cvec; cb_value : xnum; cb_grad : cvec;
  cb_value_init : R; cb_grad_init : cvec; cb_error : xnum; cb_done : bool; cb_failed : bool;
  cb_num_fun : nat; cb_num_grad : nat
}.
Section Backtracking.
Variable cfg : bt_config.
Variable f : cvec -> xnum.
Variable gradf : cvec -> cvec.
(** backtracking_linesearch.py:101-149 [init_state] *)
Definition cbt_init (given : bool) (params : cvec) (value : R) (grad : cvec) : cbt_state :=
  {| cb_iter := 0; cb_params := params; cb_value := Fin value; cb_grad := grad;
     cb_value_init := value; cb_grad_init := grad; cb_error := PInf; cb_done := false; cb_failed := false;
     cb_num_fun := if given then 0 else 1; cb_num_grad := if given then 0 else 1 |}.
(** backtracking_linesearch.py:151-285 [update]; 186-189: the direction and the slope *)
Definition cbt_update (params : cvec) (direction : option cvec) (step : R * cbt_state) : R * cbt_state :=
  let '(stepsize, state) := step in
  let stepsize := Rmin (max_stepsize cfg) stepsize in
  let value := cb_value_init state in
  let grad := cb_grad_init state in
  let descent_direction := match direction with None => cscale (-1) (cconj grad) | Some d => d end in
  let slope := vdot_real (cconj grad) descent_direction in
  let new_params := cadd params (cscale stepsize descent_direction) in
  let value_only := match condition cfg with Armijo | Goldstein => true | _ => false end in
  let new_value := f new_params in
  let new_grad := if value_only then grad else gradf new_params in
  let new_slope := if value_only then slope else vdot_real (cconj new_grad) descent_direction in
  let num_grad := if value_only then cb_num_grad state else S (cb_num_grad state) in
  let error_cond1 := clean_error (xsub new_value (value + c1 cfg * stepsize * slope)) in
  let error :=
    match condition cfg with
    | Armijo => error_cond1
    | StrongWolfe =>
        xmaximum error_cond1 (clean_error (Fin (Rabs new_slope - c2 cfg * Rabs slope)))
    | Wolfe => xmaximum error_cond1 (clean_error (Fin (c2 cfg * slope - new_slope)))
    | Goldstein =>
        xmaximum error_cond1
          (clean_error (rsub (value + (1 - c1 cfg) * stepsize * slope) new_value))
    end in
  let done := cb_done state || xleb error (tol cfg) in
  let failed := cb_failed state || (Nat.eqb (cb_iter state + 1) (maxiter cfg) && negb done) in
  let new_stepsize := if done || failed then stepsize else stepsize * decrease_factor cfg in
  let extra := if (value_only && (done || failed))%bool then 1%nat else 0%nat in
  let new_grad := if value_only then (if done || failed then gradf new_params else grad) else new_grad in
  (new_stepsize,
   {| cb_iter := cb_iter state + 1; cb_params := new_params; cb_value := new_value; cb_grad := new_grad;
      cb_value_init := cb_value_init state; cb_grad_init := cb_grad_init state;
      cb_error := error; cb_done := done; cb_failed := failed;
      cb_num_fun := cb_num_fun state + 1 + extra; cb_num_grad := num_grad + extra |}).
(** base.py:482-492 [run] *)
Definition cbt_run (given : bool) (init_stepsize : R) (params : cvec) (value : R) (grad : cvec)
    (direction : option cvec) : R * cbt_state :=
  run_loop (maxiter cfg) (fun st => xgtb (cb_error (snd st)) (tol cfg)) (cbt_update params direction)
    (init_stepsize, cbt_init given params value grad).
End Backtracking.
(** Specification: the state of the search on the real problem *)
Definition real_bt (s : cbt_state) : bt_state :=
  {| iter_num := cb_iter s; st_params := reals (cb_params s); st_value := cb_value s; st_grad := reals (cconj (cb_grad s));
     value_init := cb_value_init s; grad_init := reals (cconj (cb_grad_init s)); error := cb_error s; done := cb_done s;
     failed := cb_failed s; num_fun_eval := cb_num_fun s; num_grad_eval := cb_num_grad s |}.

(** ** What the solvers read of a line search *)
Record cls_out := { cl_step : R; cl_params : cvec; cl_value : R; cl_grad : cvec; cl_failed : bool }.
Definition cline_search := R -> cvec -> R -> cvec -> cvec -> cls_out.
(** Specification: a search on the complex problem and a search on the real problem that agree *)
Definition real_out (o : cls_out) : ls_out :=
  {| ls_step := cl_step o; ls_params := reals (cl_params o); ls_value := cl_value o;
     ls_grad := reals (cconj (cl_grad o)); ls_failed := cl_failed o |}.
Definition ls_match (cls : cline_search) (ls : line_search) : Prop :=
  forall s0 z v g d, ls s0 (reals z) v (reals (cconj g)) (reals d) = real_out (cls s0 z v g d).
(** The backtracking search as the [run_ls] of the solvers (like [bt_line_search]). *)
Definition cbt_line_search (bcfg : bt_config) (f : cvec -> R) (gradf : cvec -> cvec) : cline_search :=
  fun s0 x v g d =>
    let '(s, st) := cbt_run bcfg (fun z => Fin (f z)) gradf true s0 x v g (Some d) in
    {| cl_step := s; cl_params := cb_params st;
       cl_value := match cb_value st with Fin r => r | _ => 0 end;
       cl_grad := cb_grad st; cl_failed := cb_failed st |}.

(** ** lbfgs.py *)
Record clbfgs_state := {
  q_iter : nat; q_value : R; q_grad : cvec; q_stepsize : R; q_error : xnum;
  q_s : list cvec; q_y : list cvec; q_rho : list R; q_gamma : R; q_failed : bool
}.
Section Solvers.
Variable f : cvec -> R.
Variable gradf : cvec -> cvec.
Variable run_ls : cline_search.
Section Lbfgs.
Variable cfg : qn_config.
(** lbfgs.py:81-86, the reverse scan *)
Fixpoint cscan_right (s_hist y_hist : list cvec) (rho_hist : list R) (r : cvec) (indices : list nat) : cvec * list R :=
  match indices with
  | [] => (r, [])
  | i :: rest =>
      let '(r1, alphas) := cscan_right s_hist y_hist rho_hist r rest in
      let alpha := nth i rho_hist 0 * vdot_real (nth i s_hist []) r1 in
      (cadd r1 (cscale (- alpha) (nth i y_hist [])), alpha :: alphas)
  end.
(** lbfgs.py:90-96, the forward scan *)
Fixpoint cscan_left (s_hist y_hist : list cvec) (rho_hist : list R) (r : cvec) (indices : list nat) (alphas : list R) : cvec :=
  match indices, alphas with
  | i :: rest, alpha :: alphas' =>
      let beta := nth i rho_hist 0 * vdot_real (nth i y_hist []) r in
      cscan_left s_hist y_hist rho_hist (cadd r (cscale (alpha - beta) (nth i s_hist []))) rest alphas'
  | _, _ => r
  end.
(** lbfgs.py:43-98 [inv_hessian_product] *)
Definition cinv_hessian_product (q : cvec) (s_hist y_hist : list cvec) (rho_hist : list R) (gamma : R) (start : nat) : cvec :=
  let indices := buffer_indices start (length rho_hist) in
  let '(r, alphas) := cscan_right s_hist y_hist rho_hist q indices in
  cscan_left s_hist y_hist rho_hist (cscale gamma r) indices alphas.
(** lbfgs.py:101-114 [compute_gamma] *)
Definition ccompute_gamma (s_hist y_hist : list cvec) (last : nat) : R :=
  let num := vdot_real (nth last y_hist []) (nth last s_hist []) in
  let denom := vdot_real (nth last y_hist []) (nth last y_hist []) in
  if Rltb 0 denom then num / denom else 1.
(** lbfgs.py:262-293 [init_state], from parameters *)
Definition clbfgs_init (params : cvec) : clbfgs_state :=
  let m := qn_history_size cfg in
  {| q_iter := 0; q_value := f params; q_grad := gradf params; q_stepsize := qn_max_stepsize cfg;
     q_error := PInf; q_s := repeat (czero (length params)) m; q_y := repeat (czero (length params)) m;
     q_rho := repeat 0 m; q_gamma := 1; q_failed := false |}.
(** lbfgs.py:262-293 [init_state], from an OptStep: a warm start *)
Definition clbfgs_warm_init (step : cvec * clbfgs_state) : cvec * clbfgs_state :=
  let '(params, st) := step in
  (params,
   {| q_iter := q_iter st; q_value := f params; q_grad := gradf params; q_stepsize := q_stepsize st;
      q_error := PInf; q_s := q_s st; q_y := q_y st; q_rho := q_rho st; q_gamma := q_gamma st;
      q_failed := false |}).
(** lbfgs.py:316-331 *)
Definition clbfgs_direction (st : clbfgs_state) : cvec :=
  let start := (q_iter st mod qn_history_size cfg)%nat in
  let d := cscale (-1) (cconj (q_grad st)) in
  match qn_history_size cfg with
  | O => d
  | S _ => cinv_hessian_product d (q_s st) (q_y st) (q_rho st) (q_gamma st) start
  end.
(** lbfgs.py:333-374: line search or given step size *)
Definition ctake_step (params : cvec) (value : R) (grad d : cvec) (prev_stepsize : R) (iter_num : nat) : result cls_out :=
  if use_linesearch cfg then
    match init_stepsize (qn_linesearch_init cfg) (qn_max_stepsize cfg) (qn_min_stepsize cfg)
            (qn_increase_factor cfg) prev_stepsize with
    | Err e => Err e
    | Ok s0 => Ok (run_ls s0 params value grad d)
    end
  else
    let s := fixed_step cfg iter_num in
    let p := cadd params (cscale s d) in
    Ok {| cl_step := s; cl_params := p; cl_value := f p; cl_grad := gradf p; cl_failed := false |}.
(** lbfgs.py:295-417 [update]; 375-378: s, y and rho *)
Definition clbfgs_update (step : cvec * clbfgs_state) : result (cvec * clbfgs_state) :=
  let '(params, st) := step in
  let m := qn_history_size cfg in
  let start := (q_iter st mod m)%nat in
  let d := clbfgs_direction st in
  match ctake_step params (q_value st) (q_grad st) d (q_stepsize st) (q_iter st) with
  | Err e => Err e
  | Ok o =>
      let s := csub (cl_params o) params in
      let y := cconj (csub (cl_grad o) (q_grad st)) in
      let vdot_sy := vdot_real s y in
      let rho := if Req_EM_T vdot_sy 0 then 0 else 1 / vdot_sy in
      let s_hist := if (0 <? m)%nat then set_nth (q_s st) start s else q_s st in
      let y_hist := if (0 <? m)%nat then set_nth (q_y st) start y else q_y st in
      let rho_hist := if (0 <? m)%nat then set_nth (q_rho st) start rho else q_rho st in
      let gamma := if ((0 <? m)%nat && qn_use_gamma cfg)%bool then ccompute_gamma s_hist y_hist start else 1 in
      Ok (cl_params o,
          {| q_iter := S (q_iter st); q_value := cl_value o; q_grad := cl_grad o; q_stepsize := cl_step o;
             q_error := Fin (cnorm2 (cl_grad o)); q_s := s_hist; q_y := y_hist; q_rho := rho_hist;
             q_gamma := gamma; q_failed := cl_failed o |})
  end.
(** lbfgs.py:242-246 [_cond_fun] *)
Definition clbfgs_cond (st : clbfgs_state) : bool :=
  (xgtb (q_error st) (qn_tol cfg) && (negb (qn_stop_if_linesearch_fails cfg) || negb (q_failed st)))%bool.
(** base.py:296-332 [_run]: one update, then updates as long as [clbfgs_cond] holds *)
Fixpoint clbfgs_loop (fuel : nat) (s : cvec * clbfgs_state) : result (cvec * clbfgs_state) :=
  match fuel with
  | O => Ok s
  | S fuel' => if clbfgs_cond (snd s) then
                 match clbfgs_update s with Ok s' => clbfgs_loop fuel' s' | Err e => Err e end
               else Ok s
  end.
Definition clbfgs_solve (maxiter : nat) (s : cvec * clbfgs_state) : result (cvec * clbfgs_state) :=
  match maxiter with
  | O => Ok s
  | S m => match clbfgs_update s with Ok s' => clbfgs_loop m s' | Err e => Err e end
  end.
End Lbfgs.
End Solvers.
(** The same run on real variables (C27 treats its updates). *)
Section RealRun.
Variable f : vec -> R.
Variable gradf : vec -> vec.
Variable run_ls : line_search.
Variable cfg : qn_config.
Fixpoint lbfgs_loop (fuel : nat) (s : vec * lbfgs_state) : result (vec * lbfgs_state) :=
  match fuel with
  | O => Ok s
  | S fuel' => if lbfgs_cond cfg (snd s) then
                 match lbfgs_update f gradf run_ls cfg s with Ok s' => lbfgs_loop fuel' s' | Err e => Err e end
               else Ok s
  end.
Definition lbfgs_solve (maxiter : nat) (s : vec * lbfgs_state) : result (vec * lbfgs_state) :=
  match maxiter with
  | O => Ok s
  | S m => match lbfgs_update f gradf run_ls cfg s with Ok s' => lbfgs_loop m s' | Err e => Err e end
  end.
End RealRun.
(** Specification: the state of L-BFGS on the real problem *)
Definition real_lbfgs (s : clbfgs_state) : lbfgs_state :=
  {| l_iter := q_iter s; l_value := q_value s; l_grad := reals (cconj (q_grad s)); l_stepsize := q_stepsize s; l_error := q_error s;
     l_s := map reals (q_s s); l_y := map reals (q_y s); l_rho := q_rho s; l_gamma := q_gamma s; l_failed := q_failed s |}.
Definition map_result {A B} (h : A -> B) (r : result A) : result B :=
  match r with Ok a => Ok (h a) | Err e => Err e end.

(** ** nonlinear_cg.py *)
(** nonlinear_cg.py:35-49 [NonlinearCGState] *)
Record cncg_state := { n_iter : nat; n_stepsize : R; n_error : xnum; n_value : R; n_grad : cvec; n_direction : cvec }.
(** nonlinear_cg.py:230-253: new_beta *)
Definition cncg_beta (method : string) (grad new_grad descent_direction : cvec) : result R :=
  if string_dec method "polak-ribiere" then
    let gTg := clamp_below (vdot_real grad grad) in
    Ok (relu (vdot_real (cconj (csub new_grad grad)) (cconj new_grad) / gTg))
  else if string_dec method "fletcher-reeves" then
    let gTg := clamp_below (vdot_real grad grad) in
    Ok (relu (vdot_real new_grad new_grad / gTg))
  else if string_dec method "hestenes-stiefel" then
    let grad_diff := csub new_grad grad in
    let dTg := clamp_below (vdot_real (cconj grad_diff) descent_direction) in
    Ok (relu (vdot_real (cconj grad_diff) (cconj new_grad) / dTg))
  else Err ValueError.
Section NCG.
Variable f : cvec -> R.
Variable gradf : cvec -> cvec.
Variable run_ls : cline_search.
Variable cfg : ncg_config.
(** self.run_ls; a missing descent direction is replaced by minus the conjugate of the gradient
    (backtracking_linesearch.py:186-187) *)
Definition crun_ls_opt (s0 : R) (params : cvec) (value : R) (grad : cvec) (d : option cvec) : cls_out :=
  run_ls s0 params value grad (match d with None => cscale (-1) (cconj grad) | Some d => d end).
(** nonlinear_cg.py:140-173 [init_state] *)
Definition cncg_init (params : cvec) : cncg_state :=
  {| n_iter := 0; n_stepsize := c_max_stepsize cfg; n_error := PInf; n_value := f params; n_grad := gradf params;
     n_direction := cscale (-1) (cconj (gradf params)) |}.
(** nonlinear_cg.py:175-283 [update] *)
Definition cncg_update (step : cvec * cncg_state) : result (cvec * cncg_state) :=
  let '(params, state) := step in
  let value := n_value state in
  let grad := n_grad state in
  let descent_direction := n_direction state in
  let ls_descent_direction :=
    match c_linesearch cfg with
    | LsName s => if string_dec s "backtracking" then None else Some descent_direction
    | LsInstance _ => Some descent_direction
    end in
  match init_stepsize (c_linesearch_init cfg) (c_max_stepsize cfg) (c_min_stepsize cfg) (c_increase_factor cfg) (n_stepsize state) with
  | Err e => Err e
  | Ok s0 =>
      let o := crun_ls_opt s0 params value grad ls_descent_direction in
      let new_grad := cl_grad o in
      match cncg_beta (c_method cfg) grad new_grad descent_direction with
      | Err e => Err e
      | Ok new_beta =>
          let new_descent_direction := cadd (cscale (-1) (cconj new_grad)) (cscale new_beta descent_direction) in
          let error := cnorm2 grad in
          Ok (cl_params o,
              {| n_iter := S (n_iter state); n_stepsize := cl_step o; n_error := Fin error; n_value := cl_value o;
                 n_grad := new_grad; n_direction := new_descent_direction |})
      end
  end.
(** base.py:264-266, 296-332 [_run] *)
Fixpoint cncg_loop (fuel : nat) (s : cvec * cncg_state) : result (cvec * cncg_state) :=
  match fuel with
  | O => Ok s
  | S fuel' => if xgtb (n_error (snd s)) (c_tol cfg) then
                 match cncg_update s with Ok s' => cncg_loop fuel' s' | Err e => Err e end
               else Ok s
  end.
Definition cncg_run (maxiter : nat) (x0 : cvec) : result (cvec * cncg_state) :=
  match maxiter with
  | O => Ok (x0, cncg_init x0)
  | S m => match cncg_update (x0, cncg_init x0) with Ok s => cncg_loop m s | Err e => Err e end
  end.
End NCG.
(** Specification: the state of the conjugate gradient method on the real problem *)
Definition real_ncg (s : cncg_state) : ncg_state :=
  {| c_iter := n_iter s; c_stepsize := n_stepsize s; c_error := n_error s; c_value := n_value s;
     c_grad := reals (cconj (n_grad s)); c_direction := reals (n_direction s) |}.

(** ** proximal_gradient.py *)
(** proximal_gradient.py:207-209 [_prox_grad] without a prox, as GradientDescent uses it: the
    gradient is not conjugated. *)
Definition cgd_step (stepsize : R) (grad x : cvec) : cvec := cadd x (cscale (- stepsize) grad).
(** The function |z|^2 and what jax.grad returns on it *)
Definition abs2 (z : cvec) : R := vsum (map (fun a => re a ^ 2 + im a ^ 2) z).
Definition abs2_grad (z : cvec) : cvec := cscale 2 (cconj z).
