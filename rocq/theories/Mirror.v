(** Model of jaxopt/_src/mirror_descent.py (fun and its gradient are given; dtypes and verbosity are not
    modelled). *)
From Coq Require Import Reals List Bool Lra.
From Verif Require Import Prelude Vec XArith Loop Run ProxGrad Proj Loss.
Import ListNotations.
Open Scope R_scope.

(** mirror_descent.py:83-95, the fields that matter here. *)
Record md_config := { md_stepsize : stepsize_option; md_maxiter : nat; md_tol : R; md_has_aux : bool }.
(** mirror_descent.py:37-45 [MirrorDescentState] ([aux] omitted) *)
Record md_state := { md_iter : nat; md_error : xnum; md_nfun : nat; md_ngrad : nat; md_nproj : nat }.

(** mirror_descent.py:97-115 [make_projection_grad] (hyper-parameters of the projection fixed) *)
Definition make_projection_grad (projection mapping : vec -> vec) (x g : vec) (stepsize : R) : vec :=
  let update := vadd (mapping x) (smul (- stepsize) g) in projection update.

Section Mirror.
Variable cfg : md_config.
Variable gradf : vec -> vec.
Variable projection_grad : vec -> vec -> R -> vec.

(** mirror_descent.py:117-142 [init_state] *)
Definition md_init : md_state :=
  {| md_iter := 0; md_error := PInf; md_nfun := if md_has_aux cfg then 1 else 0; md_ngrad := 0; md_nproj := 0 |}.
(** mirror_descent.py:144-147 [_error] *)
Definition md_err (x next_x : vec) (stepsize : R) : xnum := xdivx (Fin (norm2 (vsub next_x x))) (Fin stepsize).
(** mirror_descent.py:149-152 [_stepsize] *)
Definition md_step (iter_num : nat) : R := match md_stepsize cfg with StepFun s => s iter_num | StepConst s => s end.
(** mirror_descent.py:154-193 [_update], [update] *)
Definition md_update (step : vec * md_state) : vec * md_state :=
  let '(x, state) := step in
  let stepsize := md_step (md_iter state) in
  let next_x := projection_grad x (gradf x) stepsize in
  (next_x, {| md_iter := md_iter state + 1; md_error := md_err x next_x stepsize;
              md_nfun := md_nfun state + 1; md_ngrad := md_ngrad state + 1; md_nproj := md_nproj state + 1 |}).
(** mirror_descent.py:195-200 [run]; base.py:296-332, 264-266 *)
Definition md_run (x0 : vec) : vec * md_state :=
  run_loop (md_maxiter cfg) (fun st => xgtb (md_error (snd st)) (md_tol cfg)) md_update (x0, md_init).
Definition md_iterate (x0 : vec) (k : nat) : vec := fst (Nat.iter k md_update (x0, md_init)).
(** mirror_descent.py:202-209 [_fixed_point_fun], [optimality_fun] *)
Definition md_fixed_point_fun (sol : vec) : vec := projection_grad sol (gradf sol) 1.
Definition md_optimality_fun (sol : vec) : vec := vsub (md_fixed_point_fun sol) sol.
End Mirror.

(** ** Specification *)
(** [g] is the gradient of [f] at [x] along the segments towards the points of [C]. *)
Definition dir_grad (C : vec -> Prop) (f : vec -> R) (x g : vec) : Prop :=
  forall z, C z -> forall eps, 0 < eps -> exists delta, 0 < delta /\ forall t, 0 < t < delta ->
    Rabs (f (vadd x (smul t (vsub z x))) - f x - t * dot g (vsub z x)) <= eps * t.
(** A mirror geometry: the generating function [phi] is strictly convex on the convex set [C], [mapping] is its
    gradient on the part [I] of C, and [projection y] minimises phi - <y, .> over C and lies in I. *)
Record mirror_geometry (n : nat) (C I : vec -> Prop) (phi : vec -> R) (mapping projection : vec -> vec) : Prop := {
  mg_dim : forall x, C x -> length x = n;
  mg_segment : forall x z t, C x -> C z -> 0 <= t <= 1 -> C (vadd x (smul t (vsub z x)));
  mg_in : forall x, I x -> C x;
  mg_map : forall x, I x -> length (mapping x) = n /\ dir_grad C phi x (mapping x);
  mg_strict : forall x z, I x -> C z -> z <> x -> phi x + dot (mapping x) (vsub z x) < phi z;
  mg_proj : forall y, length y = n -> I (projection y) /\ forall z, C z -> phi (projection y) - dot y (projection y) <= phi z - dot y z
}.
(** the Bregman divergence *)
Definition bregman (phi : vec -> R) (mapping : vec -> vec) (z x : vec) : R := phi z - phi x - dot (mapping x) (vsub z x).
(** a convex objective with its gradient on [I], over [C] *)
Record mirror_problem (n : nat) (C I : vec -> Prop) (f : vec -> R) (gradf : vec -> vec) : Prop := {
  mp_dim : forall x, I x -> length (gradf x) = n;
  mp_convex : forall x z, I x -> C z -> f x + dot (gradf x) (vsub z x) <= f z;
  mp_grad : forall x, I x -> dir_grad C f x (gradf x)
}.
Definition minimises (C : vec -> Prop) (f : vec -> R) (x : vec) : Prop := C x /\ forall z, C z -> f x <= f z.
Fixpoint sum_upto (a : nat -> R) (k : nat) : R := match k with O => 0 | S j => sum_upto a j + a j end.
(** the Kullback-Leibler geometry: tests/mirror_descent_test.py:35-44 *)
Definition kl_gen (x : vec) : R := shannon x - vsum x.
Definition kl_map (x : vec) : vec := map ln x.
Definition pos_simplex (n : nat) (x : vec) : Prop := simplex n 1 x /\ forall i, (i < n)%nat -> 0 < nth i x 0.
