(** Model of broyden.py.  Parameters and residuals are pytrees with real leaves; a pytree is the
    list of its flattened leaves (the leaf structure matters here: the inverse-Jacobian product
    is computed leaf by leaf). *)
From Coq Require Import Reals List Lra Lia Bool Arith.
From Verif Require Import Prelude Vec Mat Prox Zoom Loss Run Backtracking QuasiNewton.
Import ListNotations.
Open Scope R_scope.

Definition tree := list vec.
(** tree_util.py:71-104, 138-150: leaf-wise arithmetic, inner product, squared norm *)
Definition tree_scalar_mul (a : R) (t : tree) : tree := map (smul a) t.
Definition tree_sub (s t : tree) : tree := map2 vsub s t.
Definition tree_add_scalar_mul (x : tree) (a : R) (y : tree) : tree := map2 (fun u v => vadd u (smul a v)) x y.
Definition tree_vdot (s t : tree) : R := vsum (map2 dot s t).
Definition tree_l2_norm (t : tree) : R := sqrt (tree_vdot t t).

(** broyden.py:41-46 [matvec]: C D^T x, the rows of both histories taken in the order [indices] *)
Definition matvec (d_history c_history : list vec) (x : vec) (indices : list nat) : vec :=
  let dtx := map (fun j => dot (nth j d_history []) x) indices in
  tvec (length x) (map (fun j => nth j c_history []) indices) dtx.

(** broyden.py:48-62 [inv_jacobian_product_leaf] *)
Definition inv_jacobian_product_leaf (v : vec) (d_history c_history : list vec) (gamma : R) (start : nat) : vec :=
  let indices := buffer_indices start (length d_history) in
  vadd (smul gamma v) (matvec d_history c_history v indices).

(** A history: for every leaf the list of its rows. *)
Definition history := list (list vec).
(** broyden.py:65-90 [inv_jacobian_product] *)
Definition inv_jacobian_product (t : tree) (d_history c_history : history) (gamma : R) (start : nat) : tree :=
  map2 (fun v dc => inv_jacobian_product_leaf v (fst dc) (snd dc) gamma start) t (combine d_history c_history).
(** broyden.py:92-97 [inv_jacobian_rproduct]; conjugation is the identity on reals *)
Definition inv_jacobian_rproduct (t : tree) (d_history c_history : history) (gamma : R) (start : nat) : tree :=
  inv_jacobian_product t c_history d_history gamma start.

(** broyden.py:100-102 [init_history] *)
Definition init_history (t : tree) (history_size : nat) : history :=
  map (fun leaf => repeat (vzero (length leaf)) history_size) t.
(** broyden.py:105-107 [update_history] *)
Definition update_history (h : history) (new : tree) (last : nat) : history :=
  map2 (fun rows v => set_nth rows last v) h new.

(** broyden.py:110-123 [BroydenState].  [by_hist = None]: a denominator was zero and the history
    holds infinities or NaN. *)
Record broyden_state := {
  by_iter : nat; by_value : tree; by_stepsize : R; by_error : xnum;
  by_hist : option (history * history); by_gamma : R; by_failed : bool
}.
(** broyden.py:189-210: the options used here.  [by_history_size]'s default is None,
    which [broyden_post_init] replaces. *)
Record broyden_config := {
  by_cfg_stepsize : step_option; by_maxiter : nat; by_tol : R; by_stop_if_fails : bool;
  by_max_stepsize : R; by_min_stepsize : R; by_increase_factor : R;
  by_history_size : option nat; by_gamma0 : R
}.
(** broyden.py:407-420 [__post_init__]: the default history size is maxiter.  The normalisation of
    [fun] to a function with auxiliary output is not repeated here (C58). *)
Definition broyden_post_init (cfg : broyden_config) : broyden_config :=
  {| by_cfg_stepsize := by_cfg_stepsize cfg; by_maxiter := by_maxiter cfg; by_tol := by_tol cfg;
     by_stop_if_fails := by_stop_if_fails cfg; by_max_stepsize := by_max_stepsize cfg;
     by_min_stepsize := by_min_stepsize cfg; by_increase_factor := by_increase_factor cfg;
     by_history_size := match by_history_size cfg with None => Some (by_maxiter cfg) | h => h end;
     by_gamma0 := by_gamma0 cfg |}.
(** broyden.py:338-346: (stepsize, params, value there, failed) from (initial step, params, direction) *)
Record by_ls_out := { byl_step : R; byl_params : tree; byl_value : tree; byl_failed : bool }.

Section Broyden.
Variable fun_ : tree -> tree.
Variable ls : R -> tree -> tree -> by_ls_out.
Variable cfg : broyden_config.

(** broyden.py:224-264 [init_state].  jnp.zeros rejects the shape (None, ...). *)
Definition broyden_init (params : tree) : result broyden_state :=
  match by_history_size cfg with
  | None => Err TypeError
  | Some m =>
      Ok {| by_iter := 0; by_value := fun_ params; by_stepsize := by_max_stepsize cfg; by_error := PInf;
            by_hist := Some (init_history params m, init_history params m); by_gamma := by_gamma0 cfg;
            by_failed := false |}
  end.

(** broyden.py:307-358: the step along [d] *)
Definition by_take_step (params : tree) (d : tree) (prev : R) (iter_num : nat) : by_ls_out :=
  match by_cfg_stepsize cfg with
  | StepFun h =>
      let p := tree_add_scalar_mul params (h iter_num) d in
      {| byl_step := h iter_num; byl_params := p; byl_value := fun_ p; byl_failed := false |}
  | StepConst r =>
      if Rleb r 0 then
        ls (if Rleb prev (by_min_stepsize cfg) then by_max_stepsize cfg else prev * by_increase_factor cfg) params d
      else
        let p := tree_add_scalar_mul params r d in
        {| byl_step := r; byl_params := p; byl_value := fun_ p; byl_failed := false |}
  end.

(** broyden.py:266-389 [update], m = history_size > 0.  [None]: the parameters are not finite. *)
Definition broyden_update (m : nat) (step : tree * broyden_state) : option (tree * broyden_state) :=
  let '(params, st) := step in
  match by_hist st with
  | None => None
  | Some (dh, ch) =>
      let start := (by_iter st mod m)%nat in
      let jac_prod t := inv_jacobian_product t dh ch (by_gamma st) start in
      let jac_rprod t := inv_jacobian_rproduct t dh ch (by_gamma st) start in
      let direction := tree_scalar_mul (-1) (jac_prod (by_value st)) in
      let o := by_take_step params direction (by_stepsize st) (by_iter st) in
      let delta_x := tree_sub (byl_params o) params in
      let v := jac_rprod delta_x in
      let delta_g := tree_sub (byl_value o) (by_value st) in
      let vd := tree_vdot v delta_g in
      let c := tree_sub delta_x (jac_prod delta_g) in
      let last := ((start + m) mod m)%nat in
      let hist :=
        if Req_EM_T vd 0 then None
        else Some (update_history dh (tree_scalar_mul (1 / vd) v) last, update_history ch c last) in
      Some (byl_params o,
            {| by_iter := S (by_iter st); by_value := byl_value o; by_stepsize := byl_step o;
               by_error := Fin (tree_l2_norm (byl_value o)); by_hist := hist;
               by_gamma := by_gamma st; by_failed := byl_failed o |})
  end.

(** broyden.py:217-222 [_cond_fun] *)
Definition broyden_cond (st : broyden_state) : bool :=
  (xgtb (by_error st) (by_tol cfg) && (negb (by_stop_if_fails cfg) || negb (by_failed st)))%bool.

(** base.py:296-332 [_run] *)
Definition broyden_run (params : tree) : result (option (tree * broyden_state)) :=
  match by_history_size cfg, broyden_init params with
  | Some m, Ok st =>
      Ok (run_loop (by_maxiter cfg) (fun s => match s with Some (_, st) => broyden_cond st | None => false end)
            (fun s => match s with Some s => broyden_update m s | None => None end) (Some (params, st)))
  | _, Err e => Err e
  | None, Ok _ => Err TypeError
  end.
End Broyden.

(** broyden.py:316-346: the backtracking search on the squared residual norm, for one leaf.
    [grad2] is the gradient of |fun|^2 that jax.value_and_grad computes; value and gradient are
    recomputed at the start because no gradient is passed. *)
Definition broyden_bt (bcfg : bt_config) (fun_ : tree -> tree) (grad2 : vec -> vec) : R -> tree -> tree -> by_ls_out :=
  fun s0 params d =>
    let F x := tree_vdot (fun_ [x]) (fun_ [x]) in
    let x := nth 0 params [] in
    let '(s, st) := bt_run bcfg (fun z => Fin (F z)) grad2 false s0 x (F x) (grad2 x) (Some (nth 0 d [])) in
    {| byl_step := s; byl_params := [st_params st]; byl_value := fun_ [st_params st]; byl_failed := failed st |}.

(** ** Specification *)
(** One array as parameters and residual. *)
Definition one_leaf (F : vec -> vec) (t : tree) : tree := [F (nth 0 t [])].
(** The line search stays on the line and reports the residual there. *)
Definition by_ls_consistent (fun_ : tree -> tree) (ls : R -> tree -> tree -> by_ls_out) : Prop :=
  forall s0 x d, let o := ls s0 x d in
    byl_params o = tree_add_scalar_mul x (byl_step o) d /\ byl_value o = fun_ (byl_params o).
(** A run: iterates [xs], states [sts], K updates, one leaf of dimension n. *)
Definition broyden_steps (F : vec -> vec) ls cfg (m : nat) (xs : nat -> vec) (sts : nat -> broyden_state) (K : nat) : Prop :=
  by_history_size cfg = Some m /\
  broyden_init (one_leaf F) cfg [xs 0%nat] = Ok (sts 0%nat) /\
  forall k, (k < K)%nat -> broyden_update (one_leaf F) ls cfg m ([xs k], sts k) = Some ([xs (S k)], sts (S k)).
(** The inverse-Jacobian approximation held by a state, and its transpose. *)
Definition inv_jac (m : nat) (st : broyden_state) (v : vec) : vec :=
  match by_hist st with
  | Some (dh, ch) => nth 0 (inv_jacobian_product [v] dh ch (by_gamma st) (by_iter st mod m)) []
  | None => []
  end.
Definition inv_jac_t (m : nat) (st : broyden_state) (v : vec) : vec :=
  match by_hist st with
  | Some (dh, ch) => nth 0 (inv_jacobian_rproduct [v] dh ch (by_gamma st) (by_iter st mod m)) []
  | None => []
  end.
(** Broyden's approximations of the Jacobian itself: gamma^-1 I, then the rank-one correction
    B + (dF - B dx) dx' / |dx|^2, as functions. *)
Fixpoint broyden_jacobian (gamma : R) (xs gs : nat -> vec) (k : nat) (v : vec) : vec :=
  match k with
  | O => smul (/ gamma) v
  | S k' =>
      let dx := vsub (xs (S k')) (xs k') in
      let dg := vsub (gs (S k')) (gs k') in
      vadd (broyden_jacobian gamma xs gs k' v)
        (smul (dot dx v / dot dx dx) (vsub dg (broyden_jacobian gamma xs gs k' dx)))
  end.
(** Shapes: [dims] are the sizes of the leaves; a history has m rows for each. *)
Definition rows_dim (n : nat) (h : list vec) : Prop := Forall (fun r => length r = n) h.
Definition hist_ok (dims : list nat) (m : nat) (h : history) : Prop :=
  Forall2 (fun n rows => length rows = m /\ rows_dim n rows) dims h.
Definition tree_ok (dims : list nat) (t : tree) : Prop := Forall2 (fun n v => length v = n) dims t.
