(** Differentiation through the iterations (implicit_diff = False): base.py [_run] under jax.jvp and jax.vjp, for
    FixedPointIteration.  jax.jvp of the loop carries the tangent of params next to params; the condition only looks at
    the primal values (loop.py:28-69).  jax.vjp of the unrolled loop goes back through the same iterations. *)
From Coq Require Import Reals List Lra Lia Bool Arith.
From Verif Require Import Prelude Vec Mat LinAlg LinSolve ImplicitDiff Run FixedPoint ImplicitError.
Import ListNotations.
Open Scope R_scope.

Section Unrolled.
Context {X : Type}.
Variables (n : nat) (ps : list nat).
(** fixed_point_fun as a function of the arguments to differentiate *)
Variable u : list vec -> fp_user X.
(** the Jacobians that jax applies at (params, args) *)
Variables (J1 : vec -> mat) (D2 : vec -> list mat).
Variables (args tangents : list vec).
(** jax.jvp of fixed_point_iteration.py:97-124 [update], in params and args *)
Definition fp_update_jvp (s : (vec * fp_state X) * vec) : (vec * fp_state X) * vec :=
  let '((params, state), dparams) := s in
  (fp_update (u args) (params, state), vadd (mvec (J1 params) dparams) (jvp_args n (D2 params) tangents)).
(** jax.jvp of base.py:296-332 [_run]; dinit is the tangent of init_params *)
Definition fp_run_jvp (tol : R) (maxiter : nat) (init dinit : vec) : (vec * fp_state X) * vec :=
  run_loop maxiter (fun s => xgtb (fp_error (snd (fst s))) tol) fp_update_jvp ((init, fp_init_state), dinit).
(** jax.vjp of k updates from init: the gradients with respect to init_params and to the arguments, for a cotangent w
    of the final params; [xs] are the iterates at which the updates were made, last one first *)
Fixpoint fp_backward (xs : list vec) (w : vec) (acc : list vec) : vec * list vec :=
  match xs with
  | [] => (w, acc)
  | x :: xs' => fp_backward xs' (tvec n (J1 x) w) (map (fun ab => vadd (fst ab) (snd ab)) (combine (map (fun pM => tvec (fst pM) (snd pM) w) (combine ps (D2 x))) acc))
  end.
(** the iterates visited by a run, last one first *)
Fixpoint visited (k : nat) (init : vec) : list vec :=
  match k with O => [] | S k' => Nat.iter k' (the_map (u args)) init :: visited k' init end.
(** jax.vjp of base.py:296-332 [_run], unrolled *)
Definition fp_run_vjp (tol : R) (maxiter : nat) (init w : vec) : vec * list vec :=
  let '(_, state) := fp_run (u args) tol maxiter init in
  fp_backward (visited (fp_iter state) init) w (map vzero ps).
End Unrolled.

(** ** Specification *)
(** The tangents of the iterates of T(., args), by the chain rule *)
Fixpoint tangent_iterate (n : nat) (T : vec -> vec) (J1 : vec -> mat) (D2 : vec -> list mat) (v : list vec) (x0 dx0 : vec) (k : nat) : vec :=
  match k with
  | O => dx0
  | S k' => let x := Nat.iter k' T x0 in vadd (mvec (J1 x) (tangent_iterate n T J1 D2 v x0 dx0 k')) (jvp_args n (D2 x) v)
  end.
(** the error that a run compares with tol after its j-th update *)
Definition step_error (T : vec -> vec) (x0 : vec) (j : nat) : R := vdist (Nat.iter j T x0) (Nat.iter (j - 1) T x0).
(** A gradient step as a map, and its Jacobians from those of the gradient *)
Definition gd_map (s : R) (gradf : vec -> list vec -> vec) (z : vec) (a : list vec) : vec := vadd z (smul (- s) (gradf z a)).
Definition gd_J1 (n : nat) (s : R) (H : vec -> mat) (z : vec) : mat := msub (eye n) (msmul s (H z)).
Definition gd_D2 (s : R) (G : vec -> list mat) (z : vec) : list mat := map (msmul (- s)) (G z).
