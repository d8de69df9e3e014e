(** Perturbed optimisers (perturbations.py).
    Arrays of shape [D1, ..., Dk] are flattened: the code itself reshapes them to (num_samples, -1). *)
From Coq Require Import Reals List Bool Arith Lra Lia.
From Verif Require Import Prelude Vec.
Import ListNotations.
Open Scope R_scope.

(** perturbations.py:29-30 Normal.log_prob, 41-42 Gumbel.log_prob *)
Definition normal_log_prob (z : R) : R := - / 2 * z ^ 2.
Definition gumbel_log_prob (z : R) : R := - z - exp (- z).

(** jnp.mean(_, axis=0) of an array (n, D) *)
Definition vsum_rows (D : nat) (rows : list vec) : vec := fold_right vadd (vzero D) rows.
Definition mean_rows (D : nat) (rows : list vec) : vec := smul (/ INR (length rows)) (vsum_rows D rows).
(** jnp.einsum('nd,ne,e->d', out, nabla, tangent) *)
Definition einsum_nd_ne_e (D : nat) (out nabla : list vec) (tangent : vec) : vec :=
  vsum_rows D (map (fun p : vec * vec => smul (dot (snd p) tangent) (fst p)) (combine out nabla)).

Section Perturb.
Variable Key : Type.
(** noise.sample(seed, (num_samples,) + inputs.shape): the same key gives the same samples *)
Variable sample : Key -> nat -> nat -> list vec.
(** jax.grad(noise.log_prob) *)
Variable grad_log_prob : R -> R.
Variables (num_samples : nat) (sigma : R).

(** inputs + sigma * samples *)
Definition perturbed (inputs : vec) (rng : Key) : list vec :=
  map (fun z => vadd inputs (smul sigma z)) (sample rng num_samples (length inputs)).
(** perturbations.py:104, 117, 261, 276 *)
Definition nabla_z (inputs : vec) (rng : Key) : list vec :=
  map (map (fun z => - grad_log_prob z)) (sample rng num_samples (length inputs)).

Section Argmax.
Variable argmax_fun : vec -> vec.
(** perturbations.py:92-97 make_perturbed_argmax.forward_pert *)
Definition pert_argmax (inputs : vec) (rng : Key) : vec := mean_rows (length inputs) (map argmax_fun (perturbed inputs rng)).
(** perturbations.py:99-110 pert_jvp *)
Definition pert_argmax_jvp (tangent inputs : vec) (rng : Key) : vec :=
  smul (1 / (INR num_samples * sigma)) (einsum_nd_ne_e (length inputs) (map argmax_fun (perturbed inputs rng)) (nabla_z inputs rng) tangent).
(** perturbations.py:112-124 pert_jvp_control_variate *)
Definition pert_argmax_jvp_cv (tangent inputs : vec) (rng : Key) : vec :=
  let output := argmax_fun inputs in
  smul (1 / (INR num_samples * sigma))
    (einsum_nd_ne_e (length inputs) (map (fun o => vsub o output) (map argmax_fun (perturbed inputs rng))) (nabla_z inputs rng) tangent).
(** perturbations.py:126-129: the rule that is registered *)
Definition argmax_rule (control_variate : bool) : vec -> vec -> Key -> vec := if control_variate then pert_argmax_jvp_cv else pert_argmax_jvp.
(** perturbations.py:178-187 make_perturbed_max.forward_pert *)
Definition pert_max (inputs : vec) (rng : Key) : R :=
  let p := perturbed inputs rng in
  / INR (length p) * vsum (map (fun pq : vec * vec => dot (fst pq) (snd pq)) (combine p (map argmax_fun p))).
(** perturbations.py:189-195 *)
Definition pert_max_jvp (tangent inputs : vec) (rng : Key) : R := dot (pert_argmax inputs rng) tangent.
End Argmax.

Section Fun.
(** [fun] maps an input to an array of shape [shape]; its entries are a flat vector. *)
Variable shape : list nat.
Variable fun_ : vec -> vec.
Definition size (s : list nat) : nat := fold_right Nat.mul 1%nat s.
(** numpy broadcasting, on reversed shapes *)
Fixpoint bc (a b : list nat) : option (list nat) :=
  match a, b with
  | [], _ => Some b
  | _, [] => Some a
  | x :: a', y :: b' =>
      match bc a' b' with
      | None => None
      | Some l => if Nat.eqb x y then Some (x :: l) else if Nat.eqb x 1 then Some (y :: l) else if Nat.eqb y 1 then Some (x :: l) else None
      end
  end.
Definition broadcast (a b : list nat) : option (list nat) := match bc (rev a) (rev b) with Some l => Some (rev l) | None => None end.
(** jnp.squeeze *)
Definition squeeze (s : list nat) : list nat := filter (fun d => negb (Nat.eqb d 1)) s.
Definition shape_eqb (a b : list nat) : bool := if list_eq_dec Nat.eq_dec a b then true else false.
(** perturbations.py:249-254 make_perturbed_fun.forward_pert *)
Definition pert_fun (inputs : vec) (rng : Key) : vec := mean_rows (size shape) (map fun_ (perturbed inputs rng)).
(** The end of both rules, perturbations.py:267-268, 282-283: reshape tangent_flat to output_pert.shape[1:], squeeze; jax.custom_jvp
    then requires the tangent to have the shape of the output. *)
Definition finish (flat_size : nat) (flat : vec) : result vec :=
  if Nat.eqb flat_size (size (shape ++ [1%nat])) then
    if shape_eqb (squeeze (shape ++ [1%nat])) shape then Ok flat else Err TypeError
  else Err TypeError.
(** perturbations.py:256-268 pert_jvp: output_pert has shape (n,) + shape + (1,) *)
Definition pert_fun_jvp (tangent inputs : vec) (rng : Key) : result vec :=
  finish (size shape)
    (smul (1 / (INR num_samples * sigma)) (einsum_nd_ne_e (size shape) (map fun_ (perturbed inputs rng)) (nabla_z inputs rng) tangent)).
(** perturbations.py:270-283 pert_jvp_control_variate: output_pert - output broadcasts (n,) + shape + (1,) against shape.
    The entries are those of the scalar case, the only one that does not raise (C49_control_variate_refuted). *)
Definition pert_fun_jvp_cv (tangent inputs : vec) (rng : Key) : result vec :=
  match broadcast (num_samples :: shape ++ [1%nat]) shape with
  | None => Err TypeError
  | Some b =>
      let output := fun_ inputs in
      finish (size b / num_samples)
        (smul (1 / (INR num_samples * sigma))
           (einsum_nd_ne_e (size shape) (map (fun o => vsub o output) (map fun_ (perturbed inputs rng))) (nabla_z inputs rng) tangent))
  end.
End Fun.
End Perturb.

(** ** Specification *)
(** [sample] returns num_samples vectors of the requested size. *)
Definition sample_ok {Key} (sample : Key -> nat -> nat -> list vec) : Prop :=
  forall rng n D, length (sample rng n D) = n /\ Forall (fun z => length z = D) (sample rng n D).
(** argmax_fun returns a maximiser of the linear form over the set Y. *)
Definition is_argmax (D : nat) (Y : vec -> Prop) (argmax_fun : vec -> vec) : Prop :=
  (forall y, Y y -> length y = D) /\
  forall x, length x = D -> Y (argmax_fun x) /\ forall y, Y y -> dot y x <= dot (argmax_fun x) x.
(** v is a convex combination of points of Y *)
Definition convex_comb (D : nat) (Y : vec -> Prop) (v : vec) : Prop :=
  exists l : list (R * vec), Forall (fun p => 0 <= fst p /\ Y (snd p)) l /\ vsum (map fst l) = 1 /\
    v = vsum_rows D (map (fun p => smul (fst p) (snd p)) l).
(** The argmax does not change on a segment around the perturbed points, in the direction t. *)
Definition locally_constant {Key} (sample : Key -> nat -> nat -> list vec) N sigma (argmax_fun : vec -> vec) (x t : vec) (rng : Key) : Prop :=
  exists delta, 0 < delta /\ forall z, In z (sample rng N (length x)) -> forall s, Rabs s < delta ->
    argmax_fun (vadd (vadd x (smul s t)) (smul sigma z)) = argmax_fun (vadd x (smul sigma z)).
