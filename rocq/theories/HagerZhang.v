(** Model of jaxopt/_src/hager_zhang_linesearch.py. *)
From Coq Require Import Reals List Bool Lra.
From Verif Require Import Prelude Vec Loop Run While Backtracking Zoom.
Import ListNotations.
Open Scope R_scope.

(** hager_zhang_linesearch.py:95-108: the dataclass fields ([max_stepsize] is unused
    by the code). *)
Record hz_config := {
  hc1 : R; hc2 : R; hexp : R; hshrink : R; hthr : R; htol : R; hmaxiter : nat
}.

Definition xisnan (x : xnum) : bool := match x with NaN => true | _ => false end.
Definition xisneginf (x : xnum) : bool := match x with NInf => true | _ => false end.
(** IEEE [a < b] between two possibly non-finite values. *)
Definition xltb (a b : xnum) : bool :=
  match a, b with
  | NaN, _ | _, NaN => false
  | PInf, _ | _, NInf => false
  | NInf, _ | _, PInf => true
  | Fin u, Fin v => Rltb u v
  end.

Section HagerZhang.
Context {G : Type}.
Variable cfg : hz_config.
(** The objective, its gradient and the inner product of a gradient with a direction;
    values and slopes may be non-finite. *)
Variable f : vec -> xnum.
Variable gradf : vec -> G.
Variable vdot : G -> vec -> xnum.
(** Whether evaluating at a non-finite step yields NaN (see [hz_update_interval]). *)
Variable nonfinite_fails : bool.
Variables (x d : vec).

(** hager_zhang_linesearch.py:42-43 [_failed_nan] *)
Definition failed_nan (v s : xnum) : bool := xisnan v || xisnan s.

(** hager_zhang_linesearch.py:115-118 [_value_and_grad_on_line] *)
Definition line (c : R) : vec := vadd x (smul c d).
Definition lvalue (c : R) : xnum := f (line c).
Definition lslope (c : R) : xnum := vdot (gradf (line c)) d.

(** hager_zhang_linesearch.py:119-151 [_satisfies_wolfe_and_approx_wolfe];
    [slope0] is the slope at the start. *)
Definition hz_error (c : R) (value_c slope_c : xnum) (value slope0 thr : R) : xnum :=
  let armijo_error := xmax2 (xsub value_c (value + hc1 cfg * c * slope0)) (Fin 0) in
  let curvature := rsub (hc2 cfg * slope0) slope_c in
  let wolfe_error := xmax2 armijo_error curvature in
  let approx_wolfe_error := xmax2 (xsub slope_c ((2 * hc1 cfg - 1) * slope0)) (Fin 0) in
  let approx_wolfe_error := xmax2 approx_wolfe_error curvature in
  let approx_wolfe_error := xmax2 approx_wolfe_error (xsub value_c thr) in
  xmin2 wolfe_error approx_wolfe_error.

(** Loop state of [_update]: done, failed, low, middle, high, value_middle, grad_middle. *)
Record ustate := { u_done : bool; u_failed : bool; u_low : R; u_middle : R; u_high : R;
                   u_value : xnum; u_slope : xnum }.

(** hager_zhang_linesearch.py:165-167 [cond_fn] *)
Definition u_cond (s : ustate) : bool :=
  Rltb (u_middle s) (u_high s) && Rltb (u_low s) (u_middle s) && negb (u_done s) && negb (u_failed s).

(** hager_zhang_linesearch.py:169-203 [body_fn]; note [(low + high) / 2] uses the old
    end points. *)
Definition u_body (thr : R) (s : ustate) : option ustate :=
  let middle := u_middle s in
  let update_right := xgeb (u_slope s) (Fin 0) in
  let new_high := if negb (u_done s) && update_right then middle else u_high s in
  let done := u_done s || update_right in
  let update_left := xleb (u_value s) thr in
  let new_low := if negb done && update_left then middle else u_low s in
  let done := done || update_left in
  let new_high := if negb done then middle else new_high in
  let done := done || xisneginf (u_value s) in
  let new_middle := if negb done then (u_low s + u_high s) / 2 else middle in
  let new_value := if negb done then lvalue new_middle else u_value s in
  let new_slope := if negb done then lslope new_middle else u_slope s in
  Some {| u_done := done; u_failed := u_failed s || failed_nan new_value new_slope;
          u_low := new_low; u_middle := new_middle; u_high := new_high;
          u_value := new_value; u_slope := new_slope |}.

(** hager_zhang_linesearch.py:153-217 [_update], returning (failed, low, high).  A
    non-finite [middle] ([None]: NaN or an infinity) fails the test of [cond_fn] at
    once; whether it counts as failed depends on what the objective returns there. *)
Definition hz_update_interval (fuel : nat) (low high : R) (middle : option R) (thr : R)
    : option (bool * R * R) :=
  match middle with
  | None => Some (nonfinite_fails, low, high)
  | Some m =>
      match while_fuel fuel u_cond (u_body thr)
              {| u_done := Rleb high m || Rleb m low; u_failed := failed_nan (lvalue m) (lslope m);
                 u_low := low; u_middle := m; u_high := high; u_value := lvalue m; u_slope := lslope m |} with
      | Some s => Some (u_failed s, u_low s, u_high s)
      | None => None
      end
  end.

(** hager_zhang_linesearch.py:219-224 [_secant]; a non-finite slope or equal slopes
    give NaN or an infinity, [None]. *)
Definition hz_secant (low high : R) : option R :=
  match lslope low, lslope high with
  | Fin dlow, Fin dhigh =>
      if Req_EM_T dhigh dlow then None else Some ((low * dhigh - high * dlow) / (dhigh - dlow))
  | _, _ => None
  end.
Definition opt_eqb (c : option R) (r : R) : bool :=
  match c with Some v => if Req_EM_T v r then true else false | None => false end.

(** hager_zhang_linesearch.py:226-255 [_secant2] *)
Definition hz_secant2 (fuel : nat) (low high thr : R) : option (bool * R * R) :=
  let c := hz_secant low high in
  match hz_update_interval fuel low high c thr with
  | None => None
  | Some (failed, new_low, new_high) =>
      let on_left := opt_eqb c new_low in
      let on_right := opt_eqb c new_high in
      let c := if on_right then hz_secant high new_high else c in
      let c := if on_left then hz_secant low new_low else c in
      if on_left || on_right then hz_update_interval fuel new_low new_high c thr
      else Some (failed, new_low, new_high)
  end.

(** Loop state of [_bracket]. *)
Record bstate := { b_done : bool; b_failed : bool; b_low : R; b_middle : R; b_high : R;
                   b_value : xnum; b_slope : xnum; b_best : R }.

(** hager_zhang_linesearch.py:262-263 [cond_fn] of [_bracket] *)
Definition b_cond (s : bstate) : bool := negb (b_done s) && negb (b_failed s).

(** hager_zhang_linesearch.py:265-324 [body_fn] of [_bracket] *)
Definition b_body (fuel : nat) (thr : R) (s : bstate) : option bstate :=
  let middle := b_middle s in
  let update_right := xgeb (b_slope s) (Fin 0) in
  let new_high := if negb (b_done s) && update_right then middle else b_high s in
  let new_low := if negb (b_done s) && update_right then b_best s else b_low s in
  let done := b_done s || update_right in
  let reupdate := negb done && xgtb (b_value s) thr in
  match (if reupdate then hz_update_interval fuel 0 middle (Some (middle / 2)) thr
         else Some (b_failed s, new_low, new_high)) with
  | None => None
  | Some (new_failed, new_low, new_high) =>
      let failed := b_failed s || new_failed in
      let done := done || reupdate in
      let best := if negb done && xleb (b_value s) thr then middle else b_best s in
      let new_middle := if negb done then hexp cfg * middle else middle in
      let new_value := lvalue new_middle in
      let new_slope := lslope new_middle in
      Some {| b_done := done; b_failed := failed || failed_nan new_value new_slope;
              b_low := new_low; b_middle := new_middle; b_high := new_high;
              b_value := new_value; b_slope := new_slope; b_best := best |}
  end.

(** hager_zhang_linesearch.py:267-350 [_bracket] *)
Definition hz_bracket (fuel : nat) (c thr : R) : option (bool * R * R) :=
  match while_fuel fuel b_cond (b_body fuel thr)
          {| b_done := xisneginf (lvalue c); b_failed := failed_nan (lvalue c) (lslope c);
             b_low := 0; b_middle := c; b_high := c; b_value := lvalue c; b_slope := lslope c;
             b_best := 0 |} with
  | Some s => Some (b_failed s, b_low s, b_high s)
  | None => None
  end.

(** hager_zhang_linesearch.py:46-61 [HagerZhangLineSearchState] (no aux, no counters). *)
Record hz_state := {
  h_iter : nat; h_done : bool; h_low : R; h_high : R; h_value : xnum; h_error : xnum;
  h_params : vec; h_grad : G; h_failed : bool
}.

(** The best of the two end points, its value and its slope (418-422, 506-511). *)
Definition best_point (low high : R) : R * xnum * xnum :=
  let vl := lvalue low in
  let vh := lvalue high in
  if xltb vl vh then (low, xmin2 vl vh, lslope low) else (high, xmin2 vl vh, lslope high).

(** hager_zhang_linesearch.py:390-391 and 478-479 *)
Definition threshold (value : R) : R := value + hthr cfg * Rabs value.

(** hager_zhang_linesearch.py:351-439 [init_state]; the initial step is deleted. *)
Definition hz_init (fuel : nat) (value : R) (grad : G) (slope0 : R) : option hz_state :=
  let thr := threshold value in
  match hz_bracket fuel 1 thr with
  | None => None
  | Some (failed, low, high) =>
      let '(bp, bv, bs) := best_point low high in
      let error := hz_error bp bv bs value slope0 thr in
      Some {| h_iter := 0; h_done := xleb error (htol cfg); h_low := low; h_high := high;
              h_value := Fin value; h_error := error; h_params := x; h_grad := grad;
              h_failed := failed |}
  end.

(** hager_zhang_linesearch.py:448-564 [update] *)
Definition hz_update (fuel : nat) (value slope0 : R) (step : R * hz_state) : option (R * hz_state) :=
  let '(stepsize, st) := step in
  let thr := threshold value in
  match hz_secant2 fuel (h_low st) (h_high st) thr with
  | None => None
  | Some (failed, new_low, new_high) =>
      let failed := h_failed st || failed in
      let new_low := if h_done st then h_low st else new_low in
      let new_high := if h_done st then h_high st else new_high in
      match (if negb (h_done st) && Rltb (hshrink cfg * (h_high st - h_low st)) (new_high - new_low)
             then hz_update_interval fuel new_low new_high (Some ((new_low + new_high) / 2)) thr
             else Some (failed, new_low, new_high)) with
      | None => None
      | Some (failed, new_low, new_high) =>
          let '(bp, bv, bs) := best_point new_low new_high in
          let new_stepsize := if h_done st then stepsize else bp in
          let new_params := line bp in
          let error := if h_done st then h_error st else hz_error bp bv bs value slope0 thr in
          let done := h_done st || xleb error (htol cfg) in
          let failed := failed || (Nat.eqb (h_iter st + 1) (hmaxiter cfg) && negb done) in
          Some (new_stepsize,
                {| h_iter := h_iter st + 1; h_done := done; h_low := new_low; h_high := new_high;
                   h_value := f new_params; h_error := error; h_params := new_params;
                   h_grad := gradf new_params; h_failed := failed |})
      end
  end.

(** base.py:296-332 [_run] and 482-492; [None] when one of the unbounded loops runs out
    of fuel. *)
Definition hz_run (fuel : nat) (init_stepsize value : R) (grad : G) (slope0 : R) : option (R * hz_state) :=
  match hz_init fuel value grad slope0 with
  | None => None
  | Some st =>
      run_loop (hmaxiter cfg)
        (fun o => match o with Some s => xgtb (h_error (snd s)) (htol cfg) | None => false end)
        (fun o => match o with Some s => hz_update fuel value slope0 s | None => None end)
        (Some (init_stepsize, st))
  end.

(** One update, lifted to a possibly diverged history. *)
Definition hz_next (fuel : nat) (value slope0 : R) (o : option (R * hz_state)) : option (R * hz_state) :=
  match o with Some s => hz_update fuel value slope0 s | None => None end.

(** ** Specification *)
(** The Wolfe conditions at step [c], each inequality up to [tol]. *)
Definition wolfe (value slope0 tol c : R) : Prop :=
  xle_bound (lvalue c) (value + hc1 cfg * c * slope0 + tol) /\
  xge_bound (lslope c) (hc2 cfg * slope0 - tol).
(** The approximate Wolfe conditions of Hager and Zhang at step [c], up to [tol]. *)
Definition approx_wolfe (value slope0 tol c : R) : Prop :=
  xle_bound (lvalue c) (value + hthr cfg * Rabs value + tol) /\
  xle_bound (lslope c) ((2 * hc1 cfg - 1) * slope0 + tol) /\
  xge_bound (lslope c) (hc2 cfg * slope0 - tol).
(** What a bracket end point satisfies: the low end descends and is not above the
    threshold; the high end ascends or lies above the threshold. *)
Definition low_ok (value : R) (c : R) : Prop :=
  xle_bound (lvalue c) (value + hthr cfg * Rabs value) /\
  match lslope c with Fin v => v < 0 | NInf => True | _ => False end.
Definition high_ok (value : R) (c : R) : Prop :=
  xge_bound (lslope c) 0 \/ xgtb (lvalue c) (value + hthr cfg * Rabs value) = true.
End HagerZhang.
Arguments hz_state : clear implicits.
