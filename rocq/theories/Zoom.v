(** Model of jaxopt/_src/zoom_linesearch.py. *)
From Coq Require Import Reals List Bool Lra.
From Verif Require Import Prelude Vec Loop Run Backtracking.
Import ListNotations.
Open Scope R_scope.

(** Floating-point operations on possibly non-finite values (no rounding). *)
Definition xaddr (x : xnum) (r : R) : xnum := match x with Fin v => Fin (v + r) | y => y end.
Definition xabs (x : xnum) : xnum :=
  match x with Fin v => Fin (Rabs v) | PInf | NInf => PInf | NaN => NaN end.
(** jnp.maximum / jnp.minimum: NaN if either argument is. *)
Definition xmax2 (a b : xnum) : xnum :=
  match a, b with
  | NaN, _ | _, NaN => NaN
  | PInf, _ | _, PInf => PInf
  | NInf, y => y
  | y, NInf => y
  | Fin u, Fin v => Fin (Rmax u v)
  end.
Definition xmin2 (a b : xnum) : xnum :=
  match a, b with
  | NaN, _ | _, NaN => NaN
  | NInf, _ | _, NInf => NInf
  | PInf, y => y
  | y, PInf => y
  | Fin u, Fin v => Fin (Rmin u v)
  end.
(** IEEE [a >= b], false on NaN. *)
Definition xgeb (a b : xnum) : bool :=
  match a, b with
  | NaN, _ | _, NaN => false
  | PInf, _ | _, NInf => true
  | NInf, _ | _, PInf => false
  | Fin u, Fin v => if Rle_dec v u then true else false
  end.
(** IEEE [x * r >= 0] for finite [r] (0 * inf is NaN). *)
Definition xmul_nonneg (x : xnum) (r : R) : bool :=
  match x with
  | Fin v => if Rle_dec 0 (v * r) then true else false
  | PInf => if Rlt_dec 0 r then true else false
  | NInf => if Rlt_dec r 0 then true else false
  | NaN => false
  end.
Definition xisinf (x : xnum) : bool := match x with PInf | NInf => true | _ => false end.
Definition Rltb (a b : R) : bool := if Rlt_dec a b then true else false.
Definition Rleb (a b : R) : bool := if Rle_dec a b then true else false.

(** zoom_linesearch.py:63-95 [_cubicmin]; [None] stands for a NaN or infinite
    result, which every use discards (the strict bounds tests at 514-518 fail). *)
Definition cubicmin_coefs (a fa fpa b fb c fc : R) : R * R :=
  let C := fpa in
  let db := b - a in
  let dc := c - a in
  let denom := (db * dc) ^ 2 * (db - dc) in
  let vb := fb - fa - C * db in
  let vc := fc - fa - C * dc in
  ((dc ^ 2 * vb + - db ^ 2 * vc) / denom, (- dc ^ 3 * vb + db ^ 3 * vc) / denom).
Definition cubicmin (a : R) (fa fpa : xnum) (b : R) (fb : xnum) (c : R) (fc : xnum) : option R :=
  match fa, fpa, fb, fc with
  | Fin fa, Fin fpa, Fin fb, Fin fc =>
      let db := b - a in
      let dc := c - a in
      let denom := (db * dc) ^ 2 * (db - dc) in
      let '(A, B) := cubicmin_coefs a fa fpa b fb c fc in
      let radical := B * B - 3 * A * fpa in
      if Req_EM_T denom 0 then None
      else if Req_EM_T A 0 then None
      else if Rlt_dec radical 0 then None
      else Some (a + (- B + sqrt radical) / (3 * A))
  | _, _, _, _ => None
  end.

(** zoom_linesearch.py:98-120 [_quadmin]; [None] as above (with fb infinite the
    result is [a] or NaN, which the strict tests at 521-523 reject too). *)
Definition quadmin (a : R) (fa fpa : xnum) (b : R) (fb : xnum) : option R :=
  match fa, fpa, fb with
  | Fin fa, Fin fpa, Fin fb =>
      let db := b - a in
      let B := (fb - fa - fpa * db) / (db ^ 2) in
      if Req_EM_T db 0 then None
      else if Req_EM_T B 0 then None
      else Some (a - fpa / (2 * B))
  | _, _, _ => None
  end.

(** zoom_linesearch.py:231-249: dataclass fields. *)
Record zoom_config := {
  zc1 : R; zc2 : R; zc3 : R; rel_tol_cubic : R; rel_tol_quad : R;
  interval_threshold : R; increase_factor : R; ztol : R; zmaxiter : nat; max_stepsize_arg : option R
}.
(** zoom_linesearch.py:883-887 [__post_init__]: [if not self.max_stepsize]. *)
Definition zmax (cfg : zoom_config) : R :=
  match max_stepsize_arg cfg with
  | None => 2 ^ zmaxiter cfg
  | Some m => if Req_EM_T m 0 then 2 ^ zmaxiter cfg else m
  end.

Section Zoom.
(** Values and slopes may be non-finite. [G] is the type of gradients and
    [vdot g d] their (real part of the) inner product with the direction. *)
Context {G : Type}.
Variable cfg : zoom_config.
Variable f : vec -> xnum.
Variable gradf : vec -> G.
Variable vdot : G -> vec -> xnum.

(** zoom_linesearch.py:133-177 [ZoomLineSearchState] ([aux] omitted). *)
Record zstate := {
  z_iter : nat; z_params : vec; z_value : xnum; z_grad : G;
  z_value_init : R; z_slope_init : R; z_dir : vec;
  z_num_fun : nat; z_num_grad : nat;
  z_decrease_error : xnum; z_curvature_error : xnum; z_error : xnum; z_done : bool; z_failed : bool;
  z_found : bool; z_prev : R; z_prev_value : xnum; z_prev_slope : xnum;
  z_low : R; z_value_low : xnum; z_slope_low : xnum;
  z_high : R; z_value_high : xnum; z_slope_high : xnum;
  z_cubic_ref : R; z_value_cubic_ref : xnum; z_safe : R
}.

(** zoom_linesearch.py:261-280 [_decrease_error], with 349-352 (maximum with 0, NaN to inf). *)
Definition decrease_error (stepsize : R) (value_step slope_step : xnum) (value_init slope_init : R) : xnum :=
  let exact := xaddr value_step (- value_init - zc1 cfg * stepsize * slope_init) in
  let approx := xaddr slope_step (- ((2 * zc1 cfg - 1) * slope_init)) in
  let delta_values := xaddr value_step (- value_init - zc3 cfg * Rabs value_init) in
  clean_error (xmin2 (xmax2 approx delta_values) exact).

(** zoom_linesearch.py:282-284 [_curvature_error], with 354-358. *)
Definition curvature_error (slope_step : xnum) (slope_init : R) : xnum :=
  clean_error (xaddr (xabs slope_step) (- (zc2 cfg * Rabs slope_init))).

Definition line_point (st : zstate) (s : R) : vec := vadd (z_params st) (smul s (z_dir st)).

(** zoom_linesearch.py:312-465 [_search_interval] *)
Definition search_interval (init_stepsize : R) (st : zstate) : R * zstate :=
  let larger_stepsize := increase_factor cfg * z_prev st in
  let new_stepsize := if Nat.eqb (z_iter st) 0 then init_stepsize else larger_stepsize in
  let new_stepsize := Rmin new_stepsize (zmax cfg) in
  let max_stepsize_reached := Rleb (zmax cfg) new_stepsize in
  let new_step := line_point st new_stepsize in
  let new_value := f new_step in
  let new_grad := gradf new_step in
  let new_slope := vdot new_grad (z_dir st) in
  let derr := decrease_error new_stepsize new_value new_slope (z_value_init st) (z_slope_init st) in
  let cerr := curvature_error new_slope (z_slope_init st) in
  let new_error := xmaximum derr cerr in
  let safe_decrease := xleb derr (ztol cfg) in
  let new_safe := if safe_decrease then new_stepsize else z_safe st in
  let set_high_to_new := xgtb derr 0 || (xgeb new_value (z_prev_value st) && Nat.ltb 0 (z_iter st)) in
  let set_low_to_new := xgeb new_slope (Fin 0) && negb set_high_to_new in
  let low := if set_low_to_new then new_stepsize else z_prev st in
  let value_low := if set_low_to_new then new_value else z_prev_value st in
  let slope_low := if set_low_to_new then new_slope else z_prev_slope st in
  let high := if set_low_to_new then z_prev st else new_stepsize in
  let value_high := if set_low_to_new then z_prev_value st else new_value in
  let slope_high := if set_low_to_new then z_prev_slope st else new_slope in
  let interval_found := set_high_to_new || set_low_to_new || xleb new_error (ztol cfg) in
  let done := xleb new_error (ztol cfg) || (max_stepsize_reached && negb interval_found) in
  let max_iter_reached := Nat.leb (zmaxiter cfg) (z_iter st + 1) && negb done in
  (new_stepsize,
   {| z_iter := z_iter st + 1;
      z_params := if done then new_step else z_params st;
      z_value := if done then new_value else Fin (z_value_init st);
      z_grad := if done then new_grad else z_grad st;
      z_value_init := z_value_init st; z_slope_init := z_slope_init st; z_dir := z_dir st;
      z_num_fun := z_num_fun st; z_num_grad := z_num_grad st;
      z_decrease_error := derr; z_curvature_error := cerr; z_error := new_error;
      z_done := done; z_failed := max_iter_reached; z_found := interval_found;
      z_prev := new_stepsize; z_prev_value := new_value; z_prev_slope := new_slope;
      z_low := low; z_value_low := value_low; z_slope_low := slope_low;
      z_high := high; z_value_high := value_high; z_slope_high := slope_high;
      z_cubic_ref := low; z_value_cubic_ref := value_low; z_safe := new_safe |}).

(** zoom_linesearch.py:497-529: choice of the next trial inside the interval. *)
Definition within (o : option R) (lo hi : R) : bool :=
  match o with Some m => Rltb lo m && Rltb m hi | None => false end.
Definition choose_middle (st : zstate) : R :=
  let delta := Rabs (z_high st - z_low st) in
  let left := Rmin (z_high st) (z_low st) in
  let right := Rmax (z_high st) (z_low st) in
  let cubic_chk := rel_tol_cubic cfg * delta in
  let quad_chk := rel_tol_quad cfg * delta in
  let middle_cubic := cubicmin (z_low st) (z_value_low st) (z_slope_low st) (z_high st) (z_value_high st)
                        (z_cubic_ref st) (z_value_cubic_ref st) in
  let middle_quad := quadmin (z_low st) (z_value_low st) (z_slope_low st) (z_high st) (z_value_high st) in
  let bisection := (z_low st + z_high st) / 2 in
  match middle_cubic with
  | Some m => if within middle_cubic (left + cubic_chk) (right - cubic_chk) then m else
      match middle_quad with
      | Some q => if within middle_quad (left + quad_chk) (right - quad_chk) then q else bisection
      | None => bisection
      end
  | None =>
      match middle_quad with
      | Some q => if within middle_quad (left + quad_chk) (right - quad_chk) then q else bisection
      | None => bisection
      end
  end.

(** zoom_linesearch.py:467-657 [_zoom_into_interval] *)
Definition zoom_into_interval (st : zstate) : R * zstate :=
  let delta := Rabs (z_high st - z_low st) in
  let too_small_int := Rleb delta (interval_threshold cfg) in
  let middle := choose_middle st in
  let step := line_point st middle in
  let value_middle := f step in
  let grad_step := gradf step in
  let slope_middle := vdot grad_step (z_dir st) in
  let derr := decrease_error middle value_middle slope_middle (z_value_init st) (z_slope_init st) in
  let cerr := curvature_error slope_middle (z_slope_init st) in
  let new_error := xmaximum derr cerr in
  let safe_decrease := xleb derr (ztol cfg) in
  let new_safe := if safe_decrease then middle else z_safe st in
  let new_safe := Rmax new_safe (z_safe st) in
  let done := xleb new_error (ztol cfg) in
  let set_high_to_middle := xgtb derr 0 || xgeb value_middle (z_value_low st) in
  let set_high_to_low := xmul_nonneg slope_middle (z_high st - z_low st) && negb set_high_to_middle in
  let set_low_to_middle := negb set_high_to_middle in
  let pick {A} (m l h : A) : A :=
    if set_high_to_low then l else if set_high_to_middle then m else h in
  let pick_low {A} (m l : A) : A := if set_low_to_middle then m else l in
  let hi_changed := set_high_to_middle || set_high_to_low in
  let max_iter_reached := Nat.leb (zmaxiter cfg) (z_iter st + 1) in
  let presumably_failed := max_iter_reached || (too_small_int && Rltb 0 new_safe) in
  let failed := presumably_failed && negb done in
  (middle,
   {| z_iter := z_iter st + 1;
      z_params := if done then step else z_params st;
      z_value := if done then value_middle else Fin (z_value_init st);
      z_grad := if done then grad_step else z_grad st;
      z_value_init := z_value_init st; z_slope_init := z_slope_init st; z_dir := z_dir st;
      z_num_fun := z_num_fun st; z_num_grad := z_num_grad st;
      z_decrease_error := derr; z_curvature_error := cerr; z_error := new_error;
      z_done := done; z_failed := failed; z_found := z_found st;
      z_prev := z_prev st; z_prev_value := z_prev_value st; z_prev_slope := z_prev_slope st;
      z_low := pick_low middle (z_low st);
      z_value_low := pick_low value_middle (z_value_low st);
      z_slope_low := pick_low slope_middle (z_slope_low st);
      z_high := pick middle (z_low st) (z_high st);
      z_value_high := pick value_middle (z_value_low st) (z_value_high st);
      z_slope_high := pick slope_middle (z_slope_low st) (z_slope_high st);
      z_cubic_ref := if hi_changed then z_high st else z_low st;
      z_value_cubic_ref := if hi_changed then z_value_high st else z_value_low st;
      z_safe := new_safe |}).

(** zoom_linesearch.py:286-311 [_make_safe_step] *)
Definition make_safe_step (stepsize : R) (st : zstate) : R * zstate :=
  let outside_domain := xisinf (z_decrease_error st) in
  let final := if Rltb 0 (z_safe st) || outside_domain then z_safe st else stepsize in
  let step := line_point st final in
  (final,
   {| z_iter := z_iter st; z_params := step; z_value := f step; z_grad := gradf step;
      z_value_init := z_value_init st; z_slope_init := z_slope_init st; z_dir := z_dir st;
      z_num_fun := z_num_fun st; z_num_grad := z_num_grad st;
      z_decrease_error := z_decrease_error st; z_curvature_error := z_curvature_error st;
      z_error := z_error st; z_done := z_done st; z_failed := z_failed st; z_found := z_found st;
      z_prev := z_prev st; z_prev_value := z_prev_value st; z_prev_slope := z_prev_slope st;
      z_low := z_low st; z_value_low := z_value_low st; z_slope_low := z_slope_low st;
      z_high := z_high st; z_value_high := z_value_high st; z_slope_high := z_slope_high st;
      z_cubic_ref := z_cubic_ref st; z_value_cubic_ref := z_value_cubic_ref st; z_safe := z_safe st |}).

(** The [_replace(num_fun_eval=..., num_grad_eval=...)] of 783-787 and 803-806. *)
Definition add_evals (n : nat) (st : zstate) : zstate :=
  {| z_iter := z_iter st; z_params := z_params st; z_value := z_value st; z_grad := z_grad st;
     z_value_init := z_value_init st; z_slope_init := z_slope_init st; z_dir := z_dir st;
     z_num_fun := z_num_fun st + n; z_num_grad := z_num_grad st + n;
     z_decrease_error := z_decrease_error st; z_curvature_error := z_curvature_error st;
     z_error := z_error st; z_done := z_done st; z_failed := z_failed st; z_found := z_found st;
     z_prev := z_prev st; z_prev_value := z_prev_value st; z_prev_slope := z_prev_slope st;
     z_low := z_low st; z_value_low := z_value_low st; z_slope_low := z_slope_low st;
     z_high := z_high st; z_value_high := z_value_high st; z_slope_high := z_slope_high st;
     z_cubic_ref := z_cubic_ref st; z_value_cubic_ref := z_value_cubic_ref st; z_safe := z_safe st |}.

(** The trial evaluated by one update (first [cond] of [update], 772-781). *)
Definition trial_step (step : R * zstate) : R * zstate :=
  let '(stepsize, st) := step in
  if z_found st then zoom_into_interval st else search_interval stepsize st.

(** zoom_linesearch.py:730-806 [update] *)
Definition zoom_update (step : R * zstate) : R * zstate :=
  let '(new_stepsize, new_state) := trial_step step in
  let new_state := add_evals 1 new_state in
  if z_failed new_state then
    let '(s, st) := make_safe_step new_stepsize new_state in (s, add_evals 1 st)
  else (new_stepsize, new_state).

(** zoom_linesearch.py:640-728 [init_state] (no aux). *)
Definition zoom_init (given : bool) (params : vec) (value : R) (grad : G) (slope : R) (d : vec) : zstate :=
  let n := if given then 0%nat else 1%nat in
  {| z_iter := 0; z_params := params; z_value := Fin value; z_grad := grad;
     z_value_init := value; z_slope_init := slope; z_dir := d;
     z_num_fun := n; z_num_grad := n;
     z_decrease_error := PInf; z_curvature_error := PInf; z_error := PInf;
     z_done := false; z_failed := false; z_found := false;
     z_prev := 0; z_prev_value := Fin value; z_prev_slope := Fin slope;
     z_low := 0; z_value_low := Fin value; z_slope_low := Fin slope;
     z_high := 0; z_value_high := Fin value; z_slope_high := Fin slope;
     z_cubic_ref := 0; z_value_cubic_ref := Fin value; z_safe := 0 |}.

(** zoom_linesearch.py:808-813 [_cond_fun] *)
Definition zoom_cond (step : R * zstate) : bool := negb (z_done (snd step) || z_failed (snd step)).

Definition zoom_run (given : bool) (init_stepsize : R) (params : vec) (value : R) (grad : G) (slope : R) (d : vec) : R * zstate :=
  run_loop (zmaxiter cfg) zoom_cond zoom_update (init_stepsize, zoom_init given params value grad slope d).

(** ** Specification *)
(** Sufficient decrease at step [s], up to [tol]: either the Armijo inequality or the
    approximate one (slope and near-equality of values); NaN slopes are rejected. *)
Definition decrease_ok (x d : vec) (fx slope s tol : R) : Prop :=
  let z := vadd x (smul s d) in
  let sl := vdot (gradf z) d in
  sl <> NaN /\
  (xle_bound (f z) (fx + zc1 cfg * s * slope + tol) \/
   (xle_bound (f z) (fx + zc3 cfg * Rabs fx + tol) /\ xle_bound sl ((2 * zc1 cfg - 1) * slope + tol))).
Definition curvature_ok (x d : vec) (slope s tol : R) : Prop :=
  exists v, vdot (gradf (vadd x (smul s d))) d = Fin v /\ Rabs v <= zc2 cfg * Rabs slope + tol.
End Zoom.

(** v * r < 0 for a possibly infinite slope v. *)
Definition xneg_times (v : xnum) (r : R) : Prop :=
  match v with Fin u => u * r < 0 | PInf => r < 0 | NInf => 0 < r | NaN => False end.
Arguments zstate : clear implicits.
