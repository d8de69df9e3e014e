(** The evaluation counters of the Hager-Zhang search next to a record of its calls.  All its calls compute value and gradient together, at points of
    the line x + c d; a call is recorded by its step c, [None] for a step that is not finite. *)
From Coq Require Import Reals List Bool Arith.
From Verif Require Import Prelude Vec Loop Run While Backtracking Zoom HagerZhang.
Import ListNotations.
Local Open Scope R_scope.

(** A counter as the code computes it, and the calls *)
Notation tally := (nat * list (option R))%type (only parsing).
Section HagerZhang.
Context {G : Type}.
Variables (cfg : hz_config) (f : vec -> xnum) (gradf : vec -> G) (vdot : G -> vec -> xnum) (nonfinite_fails : bool) (x d : vec).
Definition plus_tally (a b : tally) : tally := (fst a + fst b, snd a ++ snd b)%nat.
(** A loop body that also counts *)
Definition with_tally {V} (body : V -> option V) (calls : V -> V -> option tally) (p : V * tally) : option (V * tally) :=
  match body (fst p) with
  | None => None
  | Some v' => match calls (fst p) v' with Some t => Some (v', plus_tally (snd p) t) | None => None end
  end.
(** hager_zhang_linesearch.py:157-158 (the first middle), 190-191 (one per iteration, [it + 1]), 216 ([nit + 1]) *)
Definition interval_calls (fuel : nat) (low high : R) (middle : option R) (thr : R) : option tally :=
  match middle with
  | None => Some (1%nat, [None])
  | Some m =>
      match while_fuel fuel (fun p => u_cond (fst p)) (with_tally (u_body f gradf vdot x d thr) (fun _ s' => Some (1%nat, [Some (u_middle s')])))
              ({| u_done := Rleb high m || Rleb m low; u_failed := failed_nan (lvalue f x d m) (lslope gradf vdot x d m);
                  u_low := low; u_middle := m; u_high := high; u_value := lvalue f x d m; u_slope := lslope gradf vdot x d m |}, (0%nat, [])) with
      | Some (_, (nit, log)) => Some ((nit + 1)%nat, Some m :: log)
      | None => None
      end
  end.
(** hager_zhang_linesearch.py:232-255: the two secants of 241-244 are computed whether they are used or not *)
Definition secant2_calls (fuel : nat) (low high thr : R) : option tally :=
  let c := hz_secant gradf vdot x d low high in
  match interval_calls fuel low high c thr, hz_update_interval f gradf vdot nonfinite_fails x d fuel low high c thr with
  | Some t, Some (failed, new_low, new_high) =>
      let on_left := opt_eqb c new_low in
      let on_right := opt_eqb c new_high in
      let c := if on_right then hz_secant gradf vdot x d high new_high else c in
      let c := if on_left then hz_secant gradf vdot x d low new_low else c in
      let first := plus_tally (2%nat, [Some low; Some high]) (plus_tally t (4%nat, [Some high; Some new_high; Some low; Some new_low])) in
      if on_left || on_right then
        match interval_calls fuel new_low new_high c thr with Some t' => Some (plus_tally first t') | None => None end
      else Some (plus_tally first (0%nat, []))
  | _, _ => None
  end.
(** hager_zhang_linesearch.py:281-312: the interval update if there is one, then the new middle *)
Definition bracket_body_calls (fuel : nat) (thr : R) (s s' : bstate) : option tally :=
  let reupdate := negb (b_done s || xgeb (b_slope s) (Fin 0)) && xgtb (b_value s) thr in
  match (if reupdate then interval_calls fuel 0 (b_middle s) (Some (b_middle s / 2)) thr else Some (0%nat, [])) with
  | Some t => Some (plus_tally t (1%nat, [Some (b_middle s')]))
  | None => None
  end.
(** hager_zhang_linesearch.py:326-349 *)
Definition bracket_calls (fuel : nat) (c thr : R) : option tally :=
  match while_fuel fuel (fun p => b_cond (fst p)) (with_tally (b_body cfg f gradf vdot nonfinite_fails x d fuel thr) (bracket_body_calls fuel thr))
          ({| b_done := xisneginf (lvalue f x d c); b_failed := failed_nan (lvalue f x d c) (lslope gradf vdot x d c);
              b_low := 0; b_middle := c; b_high := c; b_value := lvalue f x d c; b_slope := lslope gradf vdot x d c; b_best := 0 |}, (0%nat, [])) with
  | Some (_, t) => Some (plus_tally (1%nat, [Some c]) t)
  | None => None
  end.
(** hager_zhang_linesearch.py:376-411: value and gradient at x when they are not given, the bracket, its two ends *)
Definition hz_init_calls (given : bool) (fuel : nat) (value : R) : option tally :=
  match bracket_calls fuel 1 (threshold cfg value), hz_bracket cfg f gradf vdot nonfinite_fails x d fuel 1 (threshold cfg value) with
  | Some t, Some (_, low, high) =>
      Some (plus_tally (if given then (0%nat, []) else (1%nat, [Some 0])) (plus_tally t (2%nat, [Some low; Some high])))
  | _, _ => None
  end.
(** hager_zhang_linesearch.py:466-529; [given]: value and gradient are handed to every update too (base.py:482-492) *)
Definition hz_update_calls (given : bool) (fuel : nat) (value : R) (st : hz_state G) : option tally :=
  let thr := threshold cfg value in
  match secant2_calls fuel (h_low st) (h_high st) thr, hz_secant2 f gradf vdot nonfinite_fails x d fuel (h_low st) (h_high st) thr with
  | Some t, Some (failed, new_low, new_high) =>
      let new_low := if h_done st then h_low st else new_low in
      let new_high := if h_done st then h_high st else new_high in
      let again := negb (h_done st) && Rltb (hshrink cfg * (h_high st - h_low st)) (new_high - new_low) in
      let c := Some ((new_low + new_high) / 2) in
      match (if again then interval_calls fuel new_low new_high c thr else Some (0%nat, [])),
            (if again then hz_update_interval f gradf vdot nonfinite_fails x d fuel new_low new_high c thr else Some (failed, new_low, new_high)) with
      | Some t', Some (_, new_low, new_high) =>
          let bp := fst (fst (best_point f gradf vdot x d new_low new_high)) in
          Some (plus_tally (if given then (0%nat, []) else (1%nat, [Some 0]))
                 (plus_tally t (plus_tally t' (plus_tally (2%nat, [Some new_low; Some new_high]) (1%nat, [Some bp])))))
      | _, _ => None
      end
  | _, _ => None
  end.
(** base.py:296-332 [_run]: step, state, counter and calls *)
Definition hz_update_counted (given : bool) (fuel : nat) (value slope0 : R) (o : option ((R * hz_state G) * tally)) : option ((R * hz_state G) * tally) :=
  match o with
  | Some p => with_tally (hz_update cfg f gradf vdot nonfinite_fails x d fuel value slope0) (fun s _ => hz_update_calls given fuel value (snd s)) p
  | None => None
  end.
Definition hz_run_counted (given : bool) (fuel : nat) (init_stepsize value : R) (grad : G) (slope0 : R) : option ((R * hz_state G) * tally) :=
  match hz_init cfg f gradf vdot nonfinite_fails x d fuel value grad slope0, hz_init_calls given fuel value with
  | Some st, Some t =>
      run_loop (hmaxiter cfg) (fun o => match o with Some p => xgtb (h_error (snd (fst p))) (htol cfg) | None => false end)
        (hz_update_counted given fuel value slope0) (Some ((init_stepsize, st), t))
  | _, _ => None
  end.
End HagerZhang.
