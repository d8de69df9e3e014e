(** Model of jaxopt/_src/optax_wrapper.py (OptaxSolver) on pytrees of typed arrays, with the run loop of
    IterativeSolver and run_iterator of StochasticSolver, exceptions included.  The optimiser (an
    optax.GradientTransformation) is arbitrary.  Not modelled: verbosity, the dtype of [state.value]. *)
From Coq Require Import Reals List ZArith Lra Lia Bool Arith.
From Verif Require Import Prelude Vec Loop Run Base Pytree.
Import ListNotations.
Open Scope R_scope.

Section Optax.
(** dtypes, their promotion, and rounding to a dtype *)
Context {dtype : Type}.
Variable dtype_eq : forall a b : dtype, {a = b} + {a <> b}.
Variable promote : dtype -> dtype -> dtype.
Variable cast : dtype -> R -> R.
(** pytrees of typed arrays *)
Notation typed := (dtype * arr R)%type.
Notation ttree := (tree typed).
Definition vals (t : ttree) : ptree := fmap snd t.
Definition dtypes (t : ttree) : list dtype := map fst (leaves t).

(** tree_util.py:229-264 [tree_single_dtype]: None for a tree without arrays *)
Definition tree_single_dtype (t : ttree) : result (option dtype) :=
  match dtypes t with
  | [] => Ok None
  | d :: ds => if forallb (fun e => if dtype_eq d e then true else false) ds then Ok (Some d) else Err ValueError
  end.
(** optax_wrapper.py:119 [update_fun]: the sum is computed in the promoted dtype and cast to the dtype of the parameter *)
Definition typed_add (p : typed) (t : ttree) : result typed :=
  match t with
  | Leaf u => match bin_op (fun a b => cast (fst p) (cast (promote (fst p) (fst u)) (a + b))) (snd p) (snd u) with Ok w => Ok (fst p, w) | Err e => Err e end
  | Node _ _ => Err TypeError
  end.
(** optax_wrapper.py:117-119 [_apply_updates] *)
Definition apply_updates (params updates : ttree) : result ttree := tree_map2 typed_add params updates.

(** [D]: the data (args, kwargs) of a call; [X]: auxiliary outputs; [St]: states of the optimiser *)
Context {D X St : Type}.
(** optax_wrapper.py:31-37 [OptaxState] *)
Record optax_state := { os_iter : nat; os_value : xnum; os_error : xnum; os_internal : St; os_aux : option X }.
(** jax.grad with respect to the parameters *)
Variable gradient : (ttree * D -> R) -> ttree * D -> ttree.
Variable u : user_fun (ttree * D) R ttree X.
(** opt.init, opt.update(grad, state, params) *)
Variable opt_init : ttree -> St.
Variable opt_update : ttree -> St -> ttree -> ttree * St.
Variable pre_update : option (ttree -> optax_state -> D -> ttree * optax_state).
Variable maxiter : Z.
Variable tol : R.
Let fn := fst (fst (make_funs_with_aux gradient u)).
Let gr := snd (fst (make_funs_with_aux gradient u)).
Let vg := snd (make_funs_with_aux gradient u).

(** optax_wrapper.py:92-115 [init_state] *)
Definition optax_init (p : ttree) (d : D) : result optax_state :=
  let opt_state := opt_init p in
  let '(value, aux) := fn (p, d) in
  match tree_single_dtype p with
  | Err e => Err e
  | Ok _ => Ok {| os_iter := 0; os_value := PInf; os_error := PInf; os_internal := opt_state; os_aux := aux |}
  end.
(** optax_wrapper.py:121-159 [update] *)
Definition optax_update (p0 : ttree) (st0 : optax_state) (d : D) : result (ttree * optax_state) :=
  let '(p, st) := match pre_update with Some h => h p0 st0 d | None => (p0, st0) end in
  let '((value, aux), grad) := vg (p, d) in
  let '(delta, opt_state) := opt_update grad (os_internal st) p in
  match apply_updates p delta with
  | Err e => Err e
  | Ok p' =>
      match tree_single_dtype p' with
      | Err e => Err e
      | Ok _ =>
          match tree_l2_norm (vals grad) false with
          | Err e => Err e
          | Ok error => Ok (p', {| os_iter := os_iter st + 1; os_value := Fin value; os_error := Fin error; os_internal := opt_state; os_aux := aux |})
          end
      end
  end.
(** optax_wrapper.py:161-163 [optimality_fun] *)
Definition optax_optimality_fun (p : ttree) (d : D) : ttree := fst (gr (p, d)).

(** base.py:296-332 [_run] with fixed data *)
Fixpoint optax_loop (n : nat) (p : ttree) (st : optax_state) (d : D) : result (ttree * optax_state) :=
  match n with
  | O => Ok (p, st)
  | S n' => if xgtb (os_error st) tol then match optax_update p st d with Ok (p', st') => optax_loop n' p' st' d | Err e => Err e end else Ok (p, st)
  end.
Definition optax_run (p0 : ttree) (d : D) : result (ttree * optax_state) :=
  match optax_init p0 d with
  | Err e => Err e
  | Ok st0 =>
      match optax_update p0 st0 d with
      | Err e => Err e
      | Ok (p1, st1) =>
          match optax_loop (Z.to_nat (maxiter - 1)) p1 st1 d with
          | Err e => Err e
          | Ok r => Ok (if (maxiter =? 0)%Z then (p0, st0) else r)
          end
      end
  end.
(** base.py:385-411 [run_iterator] *)
Fixpoint optax_islice (n pos : nat) (src : nat -> option D) (p : ttree) (st : optax_state) : result (ttree * optax_state) :=
  match n with
  | O => Ok (p, st)
  | S n' => match src pos with None => Ok (p, st) | Some d => match optax_update p st d with Ok (p', st') => optax_islice n' (S pos) src p' st' | Err e => Err e end end
  end.
Definition optax_run_iterator (p0 : ttree) (src : nat -> option D) : result (ttree * optax_state) :=
  match src 0%nat with
  | None => Err StopIteration
  | Some d0 =>
      match optax_init p0 d0 with
      | Err e => Err e
      | Ok st0 => if (maxiter <? 0)%Z then Err ValueError else optax_islice (Z.to_nat maxiter) 1 src p0 st0
      end
  end.

(** ** Specification *)
(** same containers, same shapes, same dtypes *)
Definition same_type (x y : ttree) : Prop := fmap (fun a : typed => (fst a, shape (snd a))) x = fmap (fun a : typed => (fst a, shape (snd a))) y.
(** an array tree with at least one leaf, all of one dtype *)
Definition good_params (p : ttree) : Prop := wf (vals p) /\ exists d, dtypes p <> [] /\ Forall (eq d) (dtypes p).
(** the training loop of the Optax documentation, on the concatenation of the parameters: after the batches [ds], the
    parameters are [p] and the optimiser state is [s] *)
Inductive training_loop : ttree -> St -> list D -> ttree -> St -> Prop :=
| tl_nil p s : training_loop p s [] p s
| tl_cons p s d ds delta s1 p1 q t :
    opt_update (user_grad gradient u (p, d)) s p = (delta, s1) ->
    same_type p1 p -> wf (vals p1) -> ravel (vals p1) = vadd (ravel (vals p)) (ravel (vals delta)) ->
    training_loop p1 s1 ds q t -> training_loop p s (d :: ds) q t.
(** the gradient and the updates computed by the optimiser have the structure and shapes of the parameters *)
Definition opt_keeps_kind : Prop := forall p s d, wf (vals p) -> 
  wf (vals (user_grad gradient u (p, d))) /\ same_kind (vals (user_grad gradient u (p, d))) (vals p) /\
  wf (vals (fst (opt_update (user_grad gradient u (p, d)) s p))) /\ same_kind (vals (fst (opt_update (user_grad gradient u (p, d)) s p))) (vals p).
End Optax.
Arguments optax_state X St : clear implicits.
