(** Specification for C82: the solvers with linesearch = "hager-zhang".  The programs are HagerZhang.v,
    QuasiNewton.v, Lbfgsb.v. *)
From Coq Require Import String.
From Coq Require Import Reals List Bool Lra.
From Verif Require Import Prelude Vec Mat Backtracking Zoom QuasiNewton HagerZhang.
Import ListNotations.
Open Scope R_scope.

(** linesearch_util.py:60-71, lbfgs.py:344-356, bfgs.py:212-224, lbfgsb.py:477-490: the Hager-Zhang search as run_ls.
    [fuel] bounds the two unbounded loops of the search; when it runs out the code does not return, here a failed
    search at step 0 stands for that. *)
Definition hz_ls (fuel : nat) (hcfg : hz_config) (f : vec -> R) (gradf : vec -> vec) : line_search := fun s0 x v g d =>
  match hz_run hcfg (fun z => Fin (f z)) gradf (fun a b => Fin (dot a b)) true x d fuel s0 v g (dot g d) with
  | Some (s, st) => {| ls_step := s; ls_params := h_params st; ls_value := f (h_params st); ls_grad := h_grad st; ls_failed := h_failed st |}
  | None => let z := vadd x (smul 0 d) in {| ls_step := 0; ls_params := z; ls_value := f z; ls_grad := gradf z; ls_failed := true |}
  end.

(** hager_zhang_linesearch.py:95-108, the default options with maxls = 30 (linesearch_util.py:62-70) *)
Definition hz_defaults : hz_config :=
  {| hc1 := / 10; hc2 := 9 / 10; hexp := 5; hshrink := 66 / 100; hthr := / 1000000; htol := 0; hmaxiter := 30 |}.

(** ** Specification *)
(** Options under which the search makes sense. *)
Definition hz_constants (hcfg : hz_config) : Prop :=
  0 < hc1 hcfg <= 1 / 2 /\ hc1 hcfg <= hc2 hcfg < 1 /\ 0 <= hthr hcfg /\ 1 < hexp hcfg /\ htol hcfg = 0 /\ (0 < hmaxiter hcfg)%nat.
(** The line of x and d is a parabola with slope sl < 0 and curvature q > 0 at x. *)
Definition parabola (f : vec -> R) (gradf : vec -> vec) (x d : vec) (sl q : R) : Prop :=
  sl < 0 /\ 0 < q /\ forall c, f (vadd x (smul c d)) = f x + sl * c + q / 2 * (c * c) /\ dot (gradf (vadd x (smul c d))) d = sl + q * c.
(** What a search returns, apart from the step it reports. *)
Definition same_point (o o' : ls_out) : Prop :=
  ls_params o = ls_params o' /\ ls_value o = ls_value o' /\ ls_grad o = ls_grad o' /\ ls_failed o = ls_failed o'.
(** The step from x to p along d. *)
Definition step_to (x p d : vec) : R := if Req_EM_T (dot d d) 0 then 1 else dot (vsub p x) d / dot d d.
(** The same search with the true step. *)
Definition true_step (ls : line_search) : line_search := fun s0 x v g d =>
  let o := ls 1 x v g d in
  {| ls_step := step_to x (ls_params o) d; ls_params := ls_params o; ls_value := ls_value o; ls_grad := ls_grad o; ls_failed := ls_failed o |}.
