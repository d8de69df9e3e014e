(** Model of jaxopt/_src/lbfgsb.py: L-BFGS-B.  Pytrees are flattened (lines 48-68), parameters and gradients are real
    vectors, bounds are extended numbers.  [eps] is np.finfo(dtype).eps, a parameter. *)
From Coq Require Import String Reals List Bool Arith Lra Lia.
From Verif Require Import Prelude Base Vec Mat XArith LinAlg Loss QuasiNewton Zoom.
Import ListNotations.
Open Scope R_scope.

(** the array of f 0, ..., f (n-1) *)
Definition tab {A} (n : nat) (f : nat -> A) : list A := map f (seq 0 n).
Definition xreal (a : xnum) : R := match a with Fin r => r | _ => 0 end.
Definition xbounds := list xnum.
(** the bounds of coordinate i *)
Definition lo (lower : xbounds) (i : nat) : xnum := nth i lower NInf.
Definition up (upper : xbounds) (i : nat) : xnum := nth i upper PInf.
(** jnp.clip(y, l, u) = minimum(maximum(y, l), u) for a finite y *)
Definition xclip (y : R) (l u : xnum) : xnum := xmin (xmax (Fin y) l) u.
(** lbfgsb.py:71-76 [_get_error]: the inf-norm of clip(x - g, l, u) - x *)
Definition projected_step (x grad : vec) (lower upper : xbounds) : list xnum :=
  tab (length x) (fun i => xsub (xclip (nth i x 0 - nth i grad 0) (lo lower i) (up upper i)) (Fin (nth i x 0))).
Definition get_error (x grad : vec) (lower upper : xbounds) : xnum :=
  fold_right xmax (Fin 0) (map xabs (projected_step x grad lower upper)).

(** jnp.argsort of an array without NaN: stable insertion sort of the indices *)
Fixpoint insert_by {A} (le : A -> A -> bool) (i : A) (l : list A) : list A :=
  match l with [] => [i] | j :: l' => if le i j then i :: l else j :: insert_by le i l' end.
Definition argsort (t : list xnum) : list nat :=
  fold_right (insert_by (fun i j => xle (nth i t NaN) (nth j t NaN))) [] (seq 0 (length t)).
(** position of k in a permutation: argsort(t_ind)[k] *)
Fixpoint index_of (k : nat) (l : list nat) : nat :=
  match l with [] => O | j :: l' => if Nat.eqb k j then O else S (index_of k l') end.
(** jnp.argmax of a boolean array followed by a True *)
Fixpoint first_true (l : list bool) : nat := match l with [] => O | b :: l' => if b then O else S (first_true l') end.

Section Cauchy.
Variables (eps : R) (x grad : vec) (lower upper : xbounds) (theta : R) (w m : mat).
Let n := length x.
(** lbfgsb.py:115-117, the breakpoints t *)
Definition cp_t : list xnum :=
  tab n (fun i => let g := nth i grad 0 in
    if Rlt_dec (Rabs g) eps then PInf
    else if Rlt_dec g 0 then xdivx (xsub (Fin (nth i x 0)) (up upper i)) (Fin g)
    else xdivx (xsub (Fin (nth i x 0)) (lo lower i)) (Fin g)).
(** lbfgsb.py:118 *)
Definition cp_d : vec := tab n (fun i => if xltb (nth i cp_t NaN) (Fin eps) then 0 else - nth i grad 0).
(** lbfgsb.py:119 *)
Definition cp_bound : list xnum :=
  tab n (fun i => let d := nth i cp_d 0 in if Rlt_dec 0 d then up upper i else if Rlt_dec d 0 then lo lower i else Fin (nth i x 0)).
(** lbfgsb.py:122-124 *)
Definition t_ind : list nat := argsort cp_t.
Definition t_sorted : list xnum := map (fun i => nth i cp_t NaN) t_ind.
(** t_sorted[i - 1], 0 for i = 0 *)
Definition t_prev (i : nat) : xnum := match i with O => Fin 0 | S j => nth j t_sorted NaN end.
Definition cp_dt : list xnum := tab n (fun i => xsub (nth i t_sorted NaN) (t_prev i)).
(** lbfgsb.py:127-131 *)
Definition active_sorted : list bool := map (fun t => xltb (Fin eps) t) t_sorted.
Definition start_ind : nat := first_true active_sorted.
Record cp_state := { cp_i : nat; cp_df : R; cp_ddf : R; cp_mask : list bool; cp_c : vec; cp_p : vec }.
(** lbfgsb.py:133-138 *)
Definition cp_init : cp_state :=
  let k := length m in
  let p := tvec k w cp_d in
  let df := - dot cp_d cp_d in
  {| cp_i := start_ind; cp_df := df; cp_ddf := - theta * df - dot (mvec m p) p; cp_mask := active_sorted;
     cp_c := vzero k; cp_p := p |}.
(** lbfgsb.py:140-141; an index out of range is clamped *)
Definition cp_cond (s : cp_state) : bool :=
  (xle (nth (Nat.min (cp_i s) (n - 1)) cp_dt NaN) (xdivx (Fin (- cp_df s)) (Fin (cp_ddf s))) && Nat.ltb (cp_i s) n)%bool.
(** lbfgsb.py:143-162.  df, ddf, c, p are real numbers: with ddf <> 0 the condition lets the body run only for a finite
    dt (C48_cauchy), so that all of them stay finite. *)
Definition cp_body (s : cp_state) : cp_state :=
  let i := cp_i s in
  let j := nth i t_ind 0%nat in
  let dt := xreal (nth i cp_dt NaN) in
  let g := nth j grad 0 in
  let wj := nth j w [] in
  let c_new := vadd (cp_c s) (smul dt (cp_p s)) in
  let df_new := cp_df s + dt * cp_ddf s + g ^ 2 + theta * g * (xreal (nth j cp_bound NaN) - nth j x 0) - g * dot wj (mvec m c_new) in
  let ddf_new := cp_ddf s - theta * g ^ 2 - 2 * g * dot wj (mvec m (cp_p s)) - g ^ 2 * dot wj (mvec m wj) in
  let ddf_new := Rmax eps ddf_new in
  let p_new := vadd (cp_p s) (smul g wj) in
  {| cp_i := i + 1; cp_df := df_new; cp_ddf := ddf_new; cp_mask := set_nth (cp_mask s) i false; cp_c := c_new; cp_p := p_new |}.
(** lbfgsb.py:164, jax.lax.while_loop; cp_i grows by one and the condition requires cp_i < n, so fuel n suffices *)
Fixpoint cp_while (fuel : nat) (s : cp_state) : cp_state :=
  match fuel with O => s | S k => if cp_cond s then cp_while k (cp_body s) else s end.
Definition cp_final : cp_state := cp_while n cp_init.
(** lbfgsb.py:165-166 *)
Definition dt_min : xnum :=
  match xmax (xdivx (Fin (- cp_df cp_final)) (Fin (cp_ddf cp_final))) (Fin 0) with NaN => Fin 0 | v => v end.
(** lbfgsb.py:167-172 *)
Definition t_old : xnum := xadd (t_prev (cp_i cp_final)) dt_min.
(** lbfgsb.py:173 *)
Definition active_set_mask : list bool := tab n (fun k => nth (index_of k t_ind) (cp_mask cp_final) false).
(** lbfgsb.py:174-175 [_find_cauchy_point] *)
Definition x_cauchy : list xnum :=
  tab n (fun k => if nth k active_set_mask false then xadd (Fin (nth k x 0)) (xmul t_old (Fin (nth k cp_d 0))) else nth k cp_bound NaN).
Definition cauchy_c : vec := vadd (cp_c cp_final) (smul (xreal dt_min) (cp_p cp_final)).
End Cauchy.

Section Subspace.
(** jnp.linalg.solve *)
Variable solve : mat -> vec -> vec.
Variables (x grad : vec) (lower upper : xbounds) (xc c : vec) (theta : R) (w m : mat) (mask : list bool).
Let n := length x.
Let k := length m.
Definition bmask (i : nat) : bool := nth i mask false.
(** lbfgsb.py:182 *)
Definition w_masked : mat := tab n (fun i => smul (if bmask i then 1 else 0) (nth i w [])).
(** lbfgsb.py:183-185 *)
Definition r_c : vec := vsub (vadd grad (smul theta (vsub xc x))) (mvec w_masked (mvec m c)).
(** lbfgsb.py:189-193 *)
Definition sub_n : mat := msub (eye k) (mmul k m (msmul (/ theta) (mmul k (mtrans k w_masked) w_masked))).
Definition sub_v : vec := solve sub_n (mvec m (tvec k w_masked r_c)).
(** lbfgsb.py:194 *)
Definition sub_du : vec := vsub (smul (- / theta) r_c) (smul (/ theta ^ 2) (mvec w_masked sub_v)).
(** lbfgsb.py:199-202 *)
Definition sub_alpha (i : nat) : xnum :=
  let du := nth i sub_du 0 in
  if (bmask i && (if Rlt_dec 0 (Rabs du) then true else false))%bool
  then xmax (xdivx (xsub (up upper i) (Fin (nth i xc 0))) (Fin du)) (xdivx (xsub (lo lower i) (Fin (nth i xc 0))) (Fin du))
  else Fin 1.
Definition alpha_star : xnum := xmin (fold_right xmin PInf (tab n sub_alpha)) (Fin 1).
(** lbfgsb.py:203 [_minimize_subspace] *)
Definition minimize_subspace : list xnum :=
  tab n (fun i => if bmask i then xadd (Fin (nth i xc 0)) (xmul alpha_star (Fin (nth i sub_du 0))) else Fin (nth i xc 0)).
End Subspace.

Section History.
Variables (h num_updates : nat) (theta : R) (s_hist y_hist : list vec).
Definition s_at (i : nat) : vec := nth i s_hist [].
Definition y_at (i : nat) : vec := nth i y_hist [].
(** lbfgsb.py:412-413: Y and theta S stacked (W is its transpose) *)
Definition w_rows : mat := y_hist ++ map (smul theta) s_hist.
Definition w_flat (n : nat) : mat := mtrans n w_rows.
(** lbfgsb.py:421-424: num_updates % h - 1, where index -1 is the last *)
Definition prev_ind : nat := match (num_updates mod h)%nat with O => (h - 1)%nat | S j => j end.
Definition unused (i : nat) : R := if Nat.leb num_updates i then 1 else 0.
(** lbfgsb.py:414, 426-434 *)
Definition fill_diag_syt : R := if Nat.ltb 0 num_updates then dot (s_at prev_ind) (y_at prev_ind) else 1.
Definition diag_block : mat := tab h (fun i => tab h (fun j => if Nat.eqb i j then -1 * dot (s_at i) (y_at i) + unused i * fill_diag_syt else 0)).
Definition lower_tril : mat := tab h (fun i => tab h (fun j => if Nat.ltb j i then dot (s_at i) (y_at j) else 0)).
(** lbfgsb.py:436-439 *)
Definition fill_diag_sst : R := if Nat.ltb 0 num_updates then dot (s_at prev_ind) (s_at prev_ind) else 1.
Definition sst_block : mat :=
  tab h (fun i => tab h (fun j => (if Nat.eqb i j then unused i * fill_diag_sst * theta else 0) + theta * dot (s_at i) (s_at j))).
(** lbfgsb.py:440-446, equation 3.4 *)
Fixpoint hcat (A B : mat) : mat := match A, B with a :: A', b :: B' => (a ++ b) :: hcat A' B' | _, _ => [] end.
Definition m_inv : mat := hcat diag_block (mtrans h lower_tril) ++ hcat lower_tril sst_block.
End History.
(** lbfgsb.py:447 jnp.linalg.inv, column by column *)
Definition linalg_inv (solve : mat -> vec -> vec) (k : nat) (A : mat) : mat := mtrans k (map (solve A) (eye k)).

(** lbfgsb.py:206-222 [LbfgsbState] (aux and the counters are not modelled) *)
Record lbfgsb_state := {
  lb_iter : nat; lb_value : R; lb_grad : vec; lb_stepsize : R; lb_error : xnum;
  lb_s : list vec; lb_y : list vec; lb_theta : R; lb_num_updates : nat; lb_failed : bool
}.

Section Solver.
Variables (solve : mat -> vec -> vec) (eps : R) (f : vec -> R) (gradf : vec -> vec) (run_ls : line_search).
(** options shared with BFGS, and [theta] *)
Variables (cfg : qn_config) (theta0 : R).
(** [bounds]: None is (-inf, inf) (lines 362-364, 400-402) *)
Definition bounds_or_default (n : nat) (bounds : option (xbounds * xbounds)) : xbounds * xbounds :=
  match bounds with Some b => b | None => (repeat NInf n, repeat PInf n) end.
(** lbfgsb.py:318-376 [init_state], from parameters *)
Definition lbfgsb_init (params : vec) (bounds : option (xbounds * xbounds)) : lbfgsb_state :=
  let h := qn_history_size cfg in let n := length params in
  let '(lower, upper) := bounds_or_default n bounds in
  {| lb_iter := 0; lb_value := f params; lb_grad := gradf params; lb_stepsize := qn_max_stepsize cfg;
     lb_error := get_error params (gradf params) lower upper;
     lb_s := repeat (vzero n) h; lb_y := repeat (vzero n) h; lb_theta := theta0; lb_num_updates := 0; lb_failed := false |}.
(** lbfgsb.py:334-344, 366-376: [init_state] from the OptStep of an earlier run; history, counters, theta and step size are kept *)
Definition lbfgsb_restart (step : vec * lbfgsb_state) (bounds : option (xbounds * xbounds)) : lbfgsb_state :=
  let '(params, st) := step in
  let '(lower, upper) := bounds_or_default (length params) bounds in
  {| lb_iter := lb_iter st; lb_value := f params; lb_grad := gradf params; lb_stepsize := lb_stepsize st;
     lb_error := get_error params (gradf params) lower upper;
     lb_s := lb_s st; lb_y := lb_y st; lb_theta := lb_theta st; lb_num_updates := lb_num_updates st; lb_failed := false |}.
(** lbfgsb.py:404-465: the descent direction *)
Definition lbfgsb_target (params : vec) (st : lbfgsb_state) (lower upper : xbounds) : list xnum :=
  let h := qn_history_size cfg in
  let w := w_flat (lb_theta st) (lb_s st) (lb_y st) (length params) in
  let m := linalg_inv solve (2 * h) (m_inv h (lb_num_updates st) (lb_theta st) (lb_s st) (lb_y st)) in
  let xc := map xreal (x_cauchy eps params (lb_grad st) lower upper (lb_theta st) w m) in
  let c := cauchy_c eps params (lb_grad st) lower upper (lb_theta st) w m in
  let mask := active_set_mask eps params (lb_grad st) lower upper (lb_theta st) w m in
  minimize_subspace solve params (lb_grad st) lower upper xc c (lb_theta st) w m mask.
Definition lbfgsb_direction (params : vec) (st : lbfgsb_state) (lower upper : xbounds) : vec :=
  vsub (map xreal (lbfgsb_target params st lower upper)) params.
(** lbfgsb.py:467-509: the step; with a fixed step size the result is clipped to the bounds, with a line search it is not *)
Definition lbfgsb_step (params : vec) (st : lbfgsb_state) (d : vec) (lower upper : xbounds) : result ls_out :=
  if use_linesearch cfg then
    match init_stepsize (qn_linesearch_init cfg) (qn_max_stepsize cfg) (qn_min_stepsize cfg) (qn_increase_factor cfg) (lb_stepsize st) with
    | Err e => Err e
    | Ok s0 => Ok (run_ls s0 params (lb_value st) (lb_grad st) d)
    end
  else
    let s := fixed_step cfg (lb_iter st) in
    let q := vadd params (smul s d) in
    let p := tab (length params) (fun i => xreal (xclip (nth i q 0) (lo lower i) (up upper i))) in
    Ok {| ls_step := s; ls_params := p; ls_value := f p; ls_grad := gradf p; ls_failed := false |}.
(** lbfgsb.py:511-539: the history *)
Definition lbfgsb_store (st : lbfgsb_state) (s y : vec) : list vec * list vec * R * nat :=
  let curvature := dot y s in
  let gamma_inv := if qn_use_gamma cfg then dot y y / curvature else 1 in
  let history_ind := (lb_num_updates st mod qn_history_size cfg)%nat in
  if Rlt_dec 0 curvature
  then (set_nth (lb_s st) history_ind s, set_nth (lb_y st) history_ind y, gamma_inv * theta0, (lb_num_updates st + 1)%nat)
  else (lb_s st, lb_y st, lb_theta st, lb_num_updates st).
(** lbfgsb.py:378-570 [update] *)
Definition lbfgsb_update (bounds : option (xbounds * xbounds)) (step : vec * lbfgsb_state) : result (vec * lbfgsb_state) :=
  let '(params, st) := step in
  let '(lower, upper) := bounds_or_default (length params) bounds in
  let d := lbfgsb_direction params st lower upper in
  match lbfgsb_step params st d lower upper with
  | Err e => Err e
  | Ok o =>
      let s := vsub (ls_params o) params in
      let y := vsub (ls_grad o) (lb_grad st) in
      let '(s_hist, y_hist, theta, num) := lbfgsb_store st s y in
      Ok (ls_params o,
          {| lb_iter := lb_iter st + 1; lb_value := ls_value o; lb_grad := ls_grad o; lb_stepsize := ls_step o;
             lb_error := get_error (ls_params o) (ls_grad o) lower upper;
             lb_s := s_hist; lb_y := y_hist; lb_theta := theta; lb_num_updates := num; lb_failed := ls_failed o |})
  end.
(** lbfgsb.py:311-316 [_cond_fun] *)
Definition lbfgsb_cond (st : lbfgsb_state) : bool :=
  (xgtb (lb_error st) (qn_tol cfg) && (negb (qn_stop_if_linesearch_fails cfg) || negb (lb_failed st)))%bool.
(** lbfgsb.py:572-581 [_fixed_point_fun], [optimality_fun] *)
Definition lbfgsb_optimality_fun (sol : vec) (bounds : option (xbounds * xbounds)) : list xnum :=
  match bounds with
  | None => map Fin (gradf sol)
  | Some (lower, upper) => projected_step sol (gradf sol) lower upper
  end.
End Solver.

(** ** Specification *)
(** x is within the bounds. *)
Definition in_bounds (lower upper : xbounds) (x : vec) : Prop :=
  forall i, (i < length x)%nat -> xle (lo lower i) (Fin (nth i x 0)) = true /\ xle (Fin (nth i x 0)) (up upper i) = true.
(** The projected-gradient path: P(x - t g), coordinate by coordinate. *)
Definition clip_real (y : R) (l u : xnum) : R :=
  let a := match l with Fin l => Rmax y l | _ => y end in match u with Fin u => Rmin a u | _ => a end.
Definition path (x g : vec) (lower upper : xbounds) (t : R) : vec :=
  tab (length x) (fun i => clip_real (nth i x 0 - t * nth i g 0) (lo lower i) (up upper i)).
(** u^T B v for B = theta I - W M W^T *)
Definition bform (theta : R) (w m : mat) (u v : vec) : R :=
  theta * dot u v - dot (tvec (length m) w u) (mvec m (tvec (length m) w v)).
(** The quadratic model of the objective at x, as a function of the displacement z *)
Definition qmodel (theta : R) (w m : mat) (g z : vec) : R := dot g z + / 2 * bform theta w m z z.
(** The history after storing the pairs (s, y), oldest first, in a buffer of size h (lines 520-539, all curvatures positive). *)
Definition push_pairs (n h : nat) (pairs : list (vec * vec)) : list vec * list vec * nat :=
  fold_left (fun st p => let '(sh, yh, k) := st in (set_nth sh (k mod h)%nat (fst p), set_nth yh (k mod h)%nat (snd p), (k + 1)%nat))
    pairs (repeat (vzero n) h, repeat (vzero n) h, 0%nat).
(** A history buffer with k pairs stored: used slots hold pairs of positive curvature, unused slots are zero. *)
Record good_history (n h k : nat) (theta : R) (sh yh : list vec) : Prop := {
  gh_theta : 0 < theta;
  gh_s : mat_shape h n sh; gh_y : mat_shape h n yh;
  gh_used : forall i, (i < h)%nat -> (i < k)%nat -> 0 < dot (s_at sh i) (y_at yh i);
  gh_unused : forall i, (i < h)%nat -> (k <= i)%nat -> s_at sh i = vzero n /\ y_at yh i = vzero n
}.
(** theta I - W M W^T as a linear map *)
Definition bapply (theta : R) (w m : mat) (v : vec) : vec := vsub (smul theta v) (mvec w (mvec m (tvec (length m) w v))).
(** Coordinate i of the path reaches its bound at time t. *)
Definition hits (x g : vec) (lower upper : xbounds) (i : nat) (t : R) : Prop :=
  (nth i g 0 < 0 /\ up upper i = Fin (nth i x 0 - t * nth i g 0)) \/ (0 < nth i g 0 /\ lo lower i = Fin (nth i x 0 - t * nth i g 0)).
(** Gradient entries are zero or at least eps, breakpoints zero or larger than eps: no comparison with eps is decided by rounding. *)
Definition clear_gradient (eps : R) (g : vec) : Prop := forall i, (i < length g)%nat -> nth i g 0 = 0 \/ eps <= Rabs (nth i g 0).
Definition clear_breaks (eps : R) (x g : vec) (lower upper : xbounds) : Prop :=
  forall i r, (i < length x)%nat -> hits x g lower upper i r -> r = 0 \/ eps < r.
(** No two coordinates reach a bound at the same positive time. *)
Definition distinct_breaks (x g : vec) (lower upper : xbounds) : Prop :=
  forall i j r, (i < length x)%nat -> (j < length x)%nat -> hits x g lower upper i r -> hits x g lower upper j r -> i = j \/ r = 0.
(** The model has curvature at least eps along every face direction of the path. *)
Definition clear_curvature (eps theta : R) (w m : mat) (g : vec) : Prop :=
  forall v, length v = length g -> (forall k, (k < length g)%nat -> nth k v 0 = 0 \/ nth k v 0 = - nth k g 0) -> v <> vzero (length g) ->
  eps <= bform theta w m v v.
(** First-order optimality over the box. *)
Definition box_stationary (lower upper : xbounds) (x g : vec) : Prop :=
  forall z, length z = length x -> in_bounds lower upper z -> 0 <= dot g (vsub z x).
(** The zoom line search as LBFGSB.run_ls calls it. *)
Definition zoom_ls (zcfg : zoom_config) (f : vec -> R) (gradf : vec -> vec) : line_search := fun s0 x v g d =>
  let '(s, st) := zoom_run zcfg (fun z => Fin (f z)) gradf (fun a b => Fin (dot a b)) true s0 x v g (dot g d) d in
  {| ls_step := s; ls_params := z_params st; ls_value := xreal (z_value st); ls_grad := z_grad st; ls_failed := z_failed st |}.
(** Iterates of a run. *)
Definition lbfgsb_run solve eps f gradf ls cfg theta0 bounds (x0 : vec) (steps : nat -> vec * lbfgsb_state) (N : nat) : Prop :=
  steps 0%nat = (x0, lbfgsb_init f gradf cfg theta0 x0 bounds) /\
  forall k, (k < N)%nat -> lbfgsb_update solve eps f gradf ls cfg theta0 bounds (steps k) = Ok (steps (S k)).
(** B of a state: its W and M *)
Definition state_w (n : nat) (st : lbfgsb_state) : mat := w_flat (lb_theta st) (lb_s st) (lb_y st) n.
Definition state_m (solve : mat -> vec -> vec) (h : nat) (st : lbfgsb_state) : mat :=
  linalg_inv solve (2 * h) (m_inv h (lb_num_updates st) (lb_theta st) (lb_s st) (lb_y st)).
(** A line search that returns steps in [0, 1] along the direction, with the value and gradient of the point it returns. *)
Definition ls_unit (f : vec -> R) (gradf : vec -> vec) (ls : line_search) : Prop := forall s0 x v g d, 0 < s0 ->
  let o := ls s0 x v g d in
  0 <= ls_step o <= 1 /\ ls_params o = vadd x (smul (ls_step o) d) /\ ls_value o = f (ls_params o) /\ ls_grad o = gradf (ls_params o).
(** Options under which every line search starts from a positive step. *)
Definition positive_starts (cfg : qn_config) : Prop :=
  (qn_linesearch_init cfg = "max" \/ qn_linesearch_init cfg = "increase")%string /\
  0 < qn_max_stepsize cfg /\ 0 <= qn_min_stepsize cfg /\ 0 < qn_increase_factor cfg.
(** The pairs (s, y) of the first N steps that have positive curvature, oldest first. *)
Definition curved (p : vec * vec) : bool := if Rlt_dec 0 (dot (snd p) (fst p)) then true else false.
Definition step_pairs (gradf : vec -> vec) (xs : nat -> vec) (N : nat) : list (vec * vec) :=
  filter curved (map (fun k => (vsub (xs (S k)) (xs k), vsub (gradf (xs (S k))) (gradf (xs k)))) (seq 0 N)).
Definition last_scale (use_gamma : bool) (pairs : list (vec * vec)) : R :=
  match rev pairs with [] => 1 | (s, y) :: _ => if use_gamma then dot y y / dot y s else 1 end.
