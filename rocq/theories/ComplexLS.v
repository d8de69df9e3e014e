(** Models of zoom_linesearch.py and hager_zhang_linesearch.py on complex variables (see Complex.v). *)
From Coq Require Import String.
From Coq Require Import Reals List Bool Lra.
From Verif Require Import Prelude Vec Loop Run While Backtracking Zoom QuasiNewton HagerZhang Complex.
Import ListNotations.
Open Scope R_scope.

(** ** zoom_linesearch.py *)
Section Zoom.
Variable cfg : zoom_config.
Variable f : cvec -> xnum.
Variable gradf : cvec -> cvec.

(** zoom_linesearch.py:133-177 [ZoomLineSearchState] ([aux] omitted). *)
Record czstate := {
  y_iter : nat; y_params : cvec; y_value : xnum; y_grad : cvec;
  y_value_init : R; y_slope_init : R; y_dir : cvec;
  y_num_fun : nat; y_num_grad : nat;
  y_decrease_error : xnum; y_curvature_error : xnum; y_error : xnum; y_done : bool; y_failed : bool;
  y_found : bool; y_prev : R; y_prev_value : xnum; y_prev_slope : xnum;
  y_low : R; y_value_low : xnum; y_slope_low : xnum;
  y_high : R; y_value_high : xnum; y_slope_high : xnum;
  y_cubic_ref : R; y_value_cubic_ref : xnum; y_safe : R
}.

(** zoom_linesearch.py:251-259 [_value_and_slope_on_line] *)
Definition cz_slope (grad d : cvec) : xnum := Fin (vdot_real (cconj grad) d).
Definition cline_point (st : czstate) (s : R) : cvec := cadd (y_params st) (cscale s (y_dir st)).

(** zoom_linesearch.py:312-465 [_search_interval] *)
Definition csearch_interval (init_stepsize : R) (st : czstate) : R * czstate :=
  let larger_stepsize := increase_factor cfg * y_prev st in
  let new_stepsize := if Nat.eqb (y_iter st) 0 then init_stepsize else larger_stepsize in
  let new_stepsize := Rmin new_stepsize (zmax cfg) in
  let max_stepsize_reached := Rleb (zmax cfg) new_stepsize in
  let new_step := cline_point st new_stepsize in
  let new_value := f new_step in
  let new_grad := gradf new_step in
  let new_slope := cz_slope new_grad (y_dir st) in
  let derr := decrease_error cfg new_stepsize new_value new_slope (y_value_init st) (y_slope_init st) in
  let cerr := curvature_error cfg new_slope (y_slope_init st) in
  let new_error := xmaximum derr cerr in
  let safe_decrease := xleb derr (ztol cfg) in
  let new_safe := if safe_decrease then new_stepsize else y_safe st in
  let set_high_to_new := xgtb derr 0 || (xgeb new_value (y_prev_value st) && Nat.ltb 0 (y_iter st)) in
  let set_low_to_new := xgeb new_slope (Fin 0) && negb set_high_to_new in
  let low := if set_low_to_new then new_stepsize else y_prev st in
  let value_low := if set_low_to_new then new_value else y_prev_value st in
  let slope_low := if set_low_to_new then new_slope else y_prev_slope st in
  let high := if set_low_to_new then y_prev st else new_stepsize in
  let value_high := if set_low_to_new then y_prev_value st else new_value in
  let slope_high := if set_low_to_new then y_prev_slope st else new_slope in
  let interval_found := set_high_to_new || set_low_to_new || xleb new_error (ztol cfg) in
  let done := xleb new_error (ztol cfg) || (max_stepsize_reached && negb interval_found) in
  let max_iter_reached := Nat.leb (zmaxiter cfg) (y_iter st + 1) && negb done in
  (new_stepsize,
   {| y_iter := y_iter st + 1;
      y_params := if done then new_step else y_params st;
      y_value := if done then new_value else Fin (y_value_init st);
      y_grad := if done then new_grad else y_grad st;
      y_value_init := y_value_init st; y_slope_init := y_slope_init st; y_dir := y_dir st;
      y_num_fun := y_num_fun st; y_num_grad := y_num_grad st;
      y_decrease_error := derr; y_curvature_error := cerr; y_error := new_error;
      y_done := done; y_failed := max_iter_reached; y_found := interval_found;
      y_prev := new_stepsize; y_prev_value := new_value; y_prev_slope := new_slope;
      y_low := low; y_value_low := value_low; y_slope_low := slope_low;
      y_high := high; y_value_high := value_high; y_slope_high := slope_high;
      y_cubic_ref := low; y_value_cubic_ref := value_low; y_safe := new_safe |}).

(** zoom_linesearch.py:497-529: choice of the next trial inside the interval. *)
Definition cchoose_middle (st : czstate) : R :=
  let delta := Rabs (y_high st - y_low st) in
  let left := Rmin (y_high st) (y_low st) in
  let right := Rmax (y_high st) (y_low st) in
  let cubic_chk := rel_tol_cubic cfg * delta in
  let quad_chk := rel_tol_quad cfg * delta in
  let middle_cubic := cubicmin (y_low st) (y_value_low st) (y_slope_low st) (y_high st) (y_value_high st)
                        (y_cubic_ref st) (y_value_cubic_ref st) in
  let middle_quad := quadmin (y_low st) (y_value_low st) (y_slope_low st) (y_high st) (y_value_high st) in
  let bisection := (y_low st + y_high st) / 2 in
  match middle_cubic with
  | Some m => if within middle_cubic (left + cubic_chk) (right - cubic_chk) then m else
      match middle_quad with
      | Some q => if within middle_quad (left + quad_chk) (right - quad_chk) then q else bisection
      | None => bisection
      end
  | None =>
      match middle_quad with
      | Some q => if within middle_quad (left + quad_chk) (right - quad_chk) then q else bisection
      | None => bisection
      end
  end.

(** zoom_linesearch.py:467-657 [_zoom_into_interval] *)
Definition czoom_into_interval (st : czstate) : R * czstate :=
  let delta := Rabs (y_high st - y_low st) in
  let too_small_int := Rleb delta (interval_threshold cfg) in
  let middle := cchoose_middle st in
  let step := cline_point st middle in
  let value_middle := f step in
  let grad_step := gradf step in
  let slope_middle := cz_slope grad_step (y_dir st) in
  let derr := decrease_error cfg middle value_middle slope_middle (y_value_init st) (y_slope_init st) in
  let cerr := curvature_error cfg slope_middle (y_slope_init st) in
  let new_error := xmaximum derr cerr in
  let safe_decrease := xleb derr (ztol cfg) in
  let new_safe := if safe_decrease then middle else y_safe st in
  let new_safe := Rmax new_safe (y_safe st) in
  let done := xleb new_error (ztol cfg) in
  let set_high_to_middle := xgtb derr 0 || xgeb value_middle (y_value_low st) in
  let set_high_to_low := xmul_nonneg slope_middle (y_high st - y_low st) && negb set_high_to_middle in
  let set_low_to_middle := negb set_high_to_middle in
  let pick {A} (m l h : A) : A :=
    if set_high_to_low then l else if set_high_to_middle then m else h in
  let pick_low {A} (m l : A) : A := if set_low_to_middle then m else l in
  let hi_changed := set_high_to_middle || set_high_to_low in
  let max_iter_reached := Nat.leb (zmaxiter cfg) (y_iter st + 1) in
  let presumably_failed := max_iter_reached || (too_small_int && Rltb 0 new_safe) in
  let failed := presumably_failed && negb done in
  (middle,
   {| y_iter := y_iter st + 1;
      y_params := if done then step else y_params st;
      y_value := if done then value_middle else Fin (y_value_init st);
      y_grad := if done then grad_step else y_grad st;
      y_value_init := y_value_init st; y_slope_init := y_slope_init st; y_dir := y_dir st;
      y_num_fun := y_num_fun st; y_num_grad := y_num_grad st;
      y_decrease_error := derr; y_curvature_error := cerr; y_error := new_error;
      y_done := done; y_failed := failed; y_found := y_found st;
      y_prev := y_prev st; y_prev_value := y_prev_value st; y_prev_slope := y_prev_slope st;
      y_low := pick_low middle (y_low st);
      y_value_low := pick_low value_middle (y_value_low st);
      y_slope_low := pick_low slope_middle (y_slope_low st);
      y_high := pick middle (y_low st) (y_high st);
      y_value_high := pick value_middle (y_value_low st) (y_value_high st);
      y_slope_high := pick slope_middle (y_slope_low st) (y_slope_high st);
      y_cubic_ref := if hi_changed then y_high st else y_low st;
      y_value_cubic_ref := if hi_changed then y_value_high st else y_value_low st;
      y_safe := new_safe |}).

(** zoom_linesearch.py:286-311 [_make_safe_step] *)
Definition cmake_safe_step (stepsize : R) (st : czstate) : R * czstate :=
  let outside_domain := xisinf (y_decrease_error st) in
  let final := if Rltb 0 (y_safe st) || outside_domain then y_safe st else stepsize in
  let step := cline_point st final in
  (final,
   {| y_iter := y_iter st; y_params := step; y_value := f step; y_grad := gradf step;
      y_value_init := y_value_init st; y_slope_init := y_slope_init st; y_dir := y_dir st;
      y_num_fun := y_num_fun st; y_num_grad := y_num_grad st;
      y_decrease_error := y_decrease_error st; y_curvature_error := y_curvature_error st;
      y_error := y_error st; y_done := y_done st; y_failed := y_failed st; y_found := y_found st;
      y_prev := y_prev st; y_prev_value := y_prev_value st; y_prev_slope := y_prev_slope st;
      y_low := y_low st; y_value_low := y_value_low st; y_slope_low := y_slope_low st;
      y_high := y_high st; y_value_high := y_value_high st; y_slope_high := y_slope_high st;
      y_cubic_ref := y_cubic_ref st; y_value_cubic_ref := y_value_cubic_ref st; y_safe := y_safe st |}).

(** The [_replace(num_fun_eval=..., num_grad_eval=...)] of 783-787 and 803-806. *)
Definition cadd_evals (n : nat) (st : czstate) : czstate :=
  {| y_iter := y_iter st; y_params := y_params st; y_value := y_value st; y_grad := y_grad st;
     y_value_init := y_value_init st; y_slope_init := y_slope_init st; y_dir := y_dir st;
     y_num_fun := y_num_fun st + n; y_num_grad := y_num_grad st + n;
     y_decrease_error := y_decrease_error st; y_curvature_error := y_curvature_error st;
     y_error := y_error st; y_done := y_done st; y_failed := y_failed st; y_found := y_found st;
     y_prev := y_prev st; y_prev_value := y_prev_value st; y_prev_slope := y_prev_slope st;
     y_low := y_low st; y_value_low := y_value_low st; y_slope_low := y_slope_low st;
     y_high := y_high st; y_value_high := y_value_high st; y_slope_high := y_slope_high st;
     y_cubic_ref := y_cubic_ref st; y_value_cubic_ref := y_value_cubic_ref st; y_safe := y_safe st |}.

(** The trial evaluated by one update (first [cond] of [update], 772-781). *)
Definition ctrial_step (step : R * czstate) : R * czstate :=
  let '(stepsize, st) := step in
  if y_found st then czoom_into_interval st else csearch_interval stepsize st.

(** zoom_linesearch.py:730-806 [update] *)
Definition czoom_update (step : R * czstate) : R * czstate :=
  let '(new_stepsize, new_state) := ctrial_step step in
  let new_state := cadd_evals 1 new_state in
  if y_failed new_state then
    let '(s, st) := cmake_safe_step new_stepsize new_state in (s, cadd_evals 1 st)
  else (new_stepsize, new_state).

(** zoom_linesearch.py:640-728 [init_state] (no aux). *)
Definition czoom_init (given : bool) (params : cvec) (value : R) (grad : cvec) (direction : option cvec) : czstate :=
  let n := if given then 0%nat else 1%nat in
  let d := match direction with None => cscale (-1) (cconj grad) | Some d => d end in
  let slope := vdot_real (cconj grad) d in
  {| y_iter := 0; y_params := params; y_value := Fin value; y_grad := grad;
     y_value_init := value; y_slope_init := slope; y_dir := d;
     y_num_fun := n; y_num_grad := n;
     y_decrease_error := PInf; y_curvature_error := PInf; y_error := PInf;
     y_done := false; y_failed := false; y_found := false;
     y_prev := 0; y_prev_value := Fin value; y_prev_slope := Fin slope;
     y_low := 0; y_value_low := Fin value; y_slope_low := Fin slope;
     y_high := 0; y_value_high := Fin value; y_slope_high := Fin slope;
     y_cubic_ref := 0; y_value_cubic_ref := Fin value; y_safe := 0 |}.

(** zoom_linesearch.py:808-813 [_cond_fun] *)
Definition czoom_cond (step : R * czstate) : bool := negb (y_done (snd step) || y_failed (snd step)).

Definition czoom_run (given : bool) (init_stepsize : R) (params : cvec) (value : R) (grad : cvec) (direction : option cvec) : R * czstate :=
  run_loop (zmaxiter cfg) czoom_cond czoom_update (init_stepsize, czoom_init given params value grad direction).
End Zoom.

(** ** hager_zhang_linesearch.py *)
Section HagerZhang.
Variable cfg : hz_config.
Variable f : cvec -> xnum.
Variable gradf : cvec -> cvec.
(** Whether evaluating at a non-finite step yields NaN (see [hz_update_interval]). *)
Variable nonfinite_fails : bool.
Variables (x d : cvec).

(** hager_zhang_linesearch.py:115-118 [_value_and_grad_on_line] *)
Definition cline (c : R) : cvec := cadd x (cscale c d).
Definition clvalue (c : R) : xnum := f (cline c).
Definition clslope (c : R) : xnum := Fin (vdot_real (cconj (gradf (cline c))) d).

(** hager_zhang_linesearch.py:128: the slope at the start *)
Definition cslope0 (grad : cvec) : R := vdot_real (cconj grad) d.

(** hager_zhang_linesearch.py:169-203 [body_fn]; note [(low + high) / 2] uses the old
    end points. *)
Definition cu_body (thr : R) (s : ustate) : option ustate :=
  let middle := u_middle s in
  let update_right := xgeb (u_slope s) (Fin 0) in
  let new_high := if negb (u_done s) && update_right then middle else u_high s in
  let done := u_done s || update_right in
  let update_left := xleb (u_value s) thr in
  let new_low := if negb done && update_left then middle else u_low s in
  let done := done || update_left in
  let new_high := if negb done then middle else new_high in
  let done := done || xisneginf (u_value s) in
  let new_middle := if negb done then (u_low s + u_high s) / 2 else middle in
  let new_value := if negb done then clvalue new_middle else u_value s in
  let new_slope := if negb done then clslope new_middle else u_slope s in
  Some {| u_done := done; u_failed := u_failed s || failed_nan new_value new_slope;
          u_low := new_low; u_middle := new_middle; u_high := new_high;
          u_value := new_value; u_slope := new_slope |}.

(** hager_zhang_linesearch.py:153-217 [_update], returning (failed, low, high).  A
    non-finite [middle] ([None]: NaN or an infinity) fails the test of [cond_fn] at
    once; whether it counts as failed depends on what the objective returns there. *)
Definition chz_update_interval (fuel : nat) (low high : R) (middle : option R) (thr : R)
    : option (bool * R * R) :=
  match middle with
  | None => Some (nonfinite_fails, low, high)
  | Some m =>
      match while_fuel fuel u_cond (cu_body thr)
              {| u_done := Rleb high m || Rleb m low; u_failed := failed_nan (clvalue m) (clslope m);
                 u_low := low; u_middle := m; u_high := high; u_value := clvalue m; u_slope := clslope m |} with
      | Some s => Some (u_failed s, u_low s, u_high s)
      | None => None
      end
  end.

(** hager_zhang_linesearch.py:219-224 [_secant]; a non-finite slope or equal slopes
    give NaN or an infinity, [None]. *)
Definition chz_secant (low high : R) : option R :=
  match clslope low, clslope high with
  | Fin dlow, Fin dhigh =>
      if Req_EM_T dhigh dlow then None else Some ((low * dhigh - high * dlow) / (dhigh - dlow))
  | _, _ => None
  end.
(** hager_zhang_linesearch.py:226-255 [_secant2] *)
Definition chz_secant2 (fuel : nat) (low high thr : R) : option (bool * R * R) :=
  let c := chz_secant low high in
  match chz_update_interval fuel low high c thr with
  | None => None
  | Some (failed, new_low, new_high) =>
      let on_left := opt_eqb c new_low in
      let on_right := opt_eqb c new_high in
      let c := if on_right then chz_secant high new_high else c in
      let c := if on_left then chz_secant low new_low else c in
      if on_left || on_right then chz_update_interval fuel new_low new_high c thr
      else Some (failed, new_low, new_high)
  end.

(** hager_zhang_linesearch.py:265-324 [body_fn] of [_bracket] *)
Definition cb_body (fuel : nat) (thr : R) (s : bstate) : option bstate :=
  let middle := b_middle s in
  let update_right := xgeb (b_slope s) (Fin 0) in
  let new_high := if negb (b_done s) && update_right then middle else b_high s in
  let new_low := if negb (b_done s) && update_right then b_best s else b_low s in
  let done := b_done s || update_right in
  let reupdate := negb done && xgtb (b_value s) thr in
  match (if reupdate then chz_update_interval fuel 0 middle (Some (middle / 2)) thr
         else Some (b_failed s, new_low, new_high)) with
  | None => None
  | Some (new_failed, new_low, new_high) =>
      let failed := b_failed s || new_failed in
      let done := done || reupdate in
      let best := if negb done && xleb (b_value s) thr then middle else b_best s in
      let new_middle := if negb done then hexp cfg * middle else middle in
      let new_value := clvalue new_middle in
      let new_slope := clslope new_middle in
      Some {| b_done := done; b_failed := failed || failed_nan new_value new_slope;
              b_low := new_low; b_middle := new_middle; b_high := new_high;
              b_value := new_value; b_slope := new_slope; b_best := best |}
  end.

(** hager_zhang_linesearch.py:267-350 [_bracket] *)
Definition chz_bracket (fuel : nat) (c thr : R) : option (bool * R * R) :=
  match while_fuel fuel b_cond (cb_body fuel thr)
          {| b_done := xisneginf (clvalue c); b_failed := failed_nan (clvalue c) (clslope c);
             b_low := 0; b_middle := c; b_high := c; b_value := clvalue c; b_slope := clslope c;
             b_best := 0 |} with
  | Some s => Some (b_failed s, b_low s, b_high s)
  | None => None
  end.

(** hager_zhang_linesearch.py:46-61 [HagerZhangLineSearchState] (no aux, no counters). *)
Record chz_state := {
  k_iter : nat; k_done : bool; k_low : R; k_high : R; k_value : xnum; k_error : xnum;
  k_params : cvec; k_grad : cvec; k_failed : bool
}.

(** The best of the two end points, its value and its slope (418-422, 506-511). *)
Definition cbest_point (low high : R) : R * xnum * xnum :=
  let vl := clvalue low in
  let vh := clvalue high in
  if xltb vl vh then (low, xmin2 vl vh, clslope low) else (high, xmin2 vl vh, clslope high).

(** hager_zhang_linesearch.py:351-439 [init_state]; the initial step is deleted. *)
Definition chz_init (fuel : nat) (value : R) (grad : cvec) : option chz_state :=
  let thr := threshold cfg value in
  match chz_bracket fuel 1 thr with
  | None => None
  | Some (failed, low, high) =>
      let '(bp, bv, bs) := cbest_point low high in
      let error := hz_error cfg bp bv bs value (cslope0 grad) thr in
      Some {| k_iter := 0; k_done := xleb error (htol cfg); k_low := low; k_high := high;
              k_value := Fin value; k_error := error; k_params := x; k_grad := grad;
              k_failed := failed |}
  end.

(** hager_zhang_linesearch.py:448-564 [update] *)
Definition chz_update (fuel : nat) (value : R) (grad : cvec) (step : R * chz_state) : option (R * chz_state) :=
  let '(stepsize, st) := step in
  let thr := threshold cfg value in
  match chz_secant2 fuel (k_low st) (k_high st) thr with
  | None => None
  | Some (failed, new_low, new_high) =>
      let failed := k_failed st || failed in
      let new_low := if k_done st then k_low st else new_low in
      let new_high := if k_done st then k_high st else new_high in
      match (if negb (k_done st) && Rltb (hshrink cfg * (k_high st - k_low st)) (new_high - new_low)
             then chz_update_interval fuel new_low new_high (Some ((new_low + new_high) / 2)) thr
             else Some (failed, new_low, new_high)) with
      | None => None
      | Some (failed, new_low, new_high) =>
          let '(bp, bv, bs) := cbest_point new_low new_high in
          let new_stepsize := if k_done st then stepsize else bp in
          let new_params := cline bp in
          let error := if k_done st then k_error st else hz_error cfg bp bv bs value (cslope0 grad) thr in
          let done := k_done st || xleb error (htol cfg) in
          let failed := failed || (Nat.eqb (k_iter st + 1) (hmaxiter cfg) && negb done) in
          Some (new_stepsize,
                {| k_iter := k_iter st + 1; k_done := done; k_low := new_low; k_high := new_high;
                   k_value := f new_params; k_error := error; k_params := new_params;
                   k_grad := gradf new_params; k_failed := failed |})
      end
  end.

(** base.py:296-332 [_run] and 482-492; [None] when one of the unbounded loops runs out
    of fuel. *)
Definition chz_run (fuel : nat) (init_stepsize value : R) (grad : cvec) : option (R * chz_state) :=
  match chz_init fuel value grad with
  | None => None
  | Some st =>
      run_loop (hmaxiter cfg)
        (fun o => match o with Some s => xgtb (k_error (snd s)) (htol cfg) | None => false end)
        (fun o => match o with Some s => chz_update fuel value grad s | None => None end)
        (Some (init_stepsize, st))
  end.
End HagerZhang.
(** The missing direction (hager_zhang_linesearch.py:387-388, 475-476) *)
Definition chz_search (cfg : hz_config) (f : cvec -> xnum) (gradf : cvec -> cvec) (nonfinite_fails : bool) (fuel : nat)
    (init_stepsize : R) (params : cvec) (value : R) (grad : cvec) (direction : option cvec) : option (R * chz_state) :=
  let d := match direction with None => cscale (-1) (cconj grad) | Some d => d end in
  chz_run cfg f gradf nonfinite_fails params d fuel init_stepsize value grad.

(** ** Specification: the same searches on the real variables *)
(** The inner product of a real gradient with a direction *)
Definition rdot (g d : vec) : xnum := Fin (dot g d).
Definition real_zoom (s : czstate) : zstate vec :=
  {| z_iter := y_iter s; z_params := reals (y_params s); z_value := y_value s; z_grad := reals (cconj (y_grad s));
     z_value_init := y_value_init s; z_slope_init := y_slope_init s; z_dir := reals (y_dir s);
     z_num_fun := y_num_fun s; z_num_grad := y_num_grad s;
     z_decrease_error := y_decrease_error s; z_curvature_error := y_curvature_error s;
     z_error := y_error s; z_done := y_done s; z_failed := y_failed s; z_found := y_found s;
     z_prev := y_prev s; z_prev_value := y_prev_value s; z_prev_slope := y_prev_slope s;
     z_low := y_low s; z_value_low := y_value_low s; z_slope_low := y_slope_low s;
     z_high := y_high s; z_value_high := y_value_high s; z_slope_high := y_slope_high s;
     z_cubic_ref := y_cubic_ref s; z_value_cubic_ref := y_value_cubic_ref s; z_safe := y_safe s |}.
Definition real_hz (s : chz_state) : hz_state vec :=
  {| h_iter := k_iter s; h_done := k_done s; h_low := k_low s; h_high := k_high s; h_value := k_value s;
     h_error := k_error s; h_params := reals (k_params s); h_grad := reals (cconj (k_grad s)); h_failed := k_failed s |}.
Definition direction_or_steepest (grad : vec) (direction : option vec) : vec :=
  match direction with None => smul (-1) grad | Some d => d end.
Definition finite_or (v : R) (x : xnum) : R := match x with Fin r => r | _ => v end.
(** The two searches as the [run_ls] of the solvers; a Hager-Zhang search that does not end is
    represented by an arbitrary fixed answer. *)
Definition zoom_line_search (cfg : zoom_config) (f : vec -> R) (gradf : vec -> vec) : line_search :=
  fun s0 x v g d =>
    let '(s, st) := zoom_run cfg (fun z => Fin (f z)) gradf rdot true s0 x v g (dot g d) d in
    {| ls_step := s; ls_params := z_params st; ls_value := finite_or 0 (z_value st); ls_grad := z_grad st; ls_failed := z_failed st |}.
Definition czoom_line_search (cfg : zoom_config) (f : cvec -> R) (gradf : cvec -> cvec) : cline_search :=
  fun s0 x v g d =>
    let '(s, st) := czoom_run cfg (fun z => Fin (f z)) gradf true s0 x v g (Some d) in
    {| cl_step := s; cl_params := y_params st; cl_value := finite_or 0 (y_value st); cl_grad := y_grad st; cl_failed := y_failed st |}.
Definition hz_line_search (cfg : hz_config) (nf : bool) (fuel : nat) (f : vec -> R) (gradf : vec -> vec) : line_search :=
  fun s0 x v g d =>
    match hz_run cfg (fun z => Fin (f z)) gradf rdot nf x d fuel s0 v g (dot g d) with
    | Some (s, st) =>
        {| ls_step := s; ls_params := h_params st; ls_value := finite_or 0 (h_value st); ls_grad := h_grad st; ls_failed := h_failed st |}
    | None => {| ls_step := 0; ls_params := []; ls_value := 0; ls_grad := []; ls_failed := true |}
    end.
Definition chz_line_search (cfg : hz_config) (nf : bool) (fuel : nat) (f : cvec -> R) (gradf : cvec -> cvec) : cline_search :=
  fun s0 x v g d =>
    match chz_search cfg (fun z => Fin (f z)) gradf nf fuel s0 x v g (Some d) with
    | Some (s, st) =>
        {| cl_step := s; cl_params := k_params st; cl_value := finite_or 0 (k_value st); cl_grad := k_grad st; cl_failed := k_failed st |}
    | None => {| cl_step := 0; cl_params := []; cl_value := 0; cl_grad := []; cl_failed := true |}
    end.
