(** Model of the runs of the SciPy wrappers (jaxopt/_src/scipy_wrappers.py): what SciPy is called with, what the
    user's functions are called with, and what is returned.
    SciPy is an arbitrary terminating interactive process: it may evaluate the functions it was given at any points, in any
    order and as often as it likes, adapt to the answers, and finish with any result.  A dtype is represented by the
    rounding it applies to numbers. *)
From Coq Require Import String.
From Coq Require Import Reals List Lra Lia Bool Arith ZArith.
From Verif Require Import Prelude Vec Mat Pytree Scipy.
Import ListNotations.
Open Scope R_scope.

(** ** SciPy *)
(** A run of a SciPy routine: it asks the first function (answers of type [A]) or the second (answers of type [B]) at a
    vector, and ends with a result or an exception. *)
Inductive process (A B O : Type) : Type :=
| Return (o : O)
| Raise (e : exn)
| Ask1 (x : vec) (k : A -> process A B O)
| Ask2 (x : vec) (k : B -> process A B O).
Arguments Return {A B O} o.
Arguments Raise {A B O} e.
Arguments Ask1 {A B O} x k.
Arguments Ask2 {A B O} x k.
(** what the user's code is called with *)
Inductive event := EFun (x : ptree) | EJac (x : ptree) | ECallback (x : ptree).
(** Running a process against two Python functions: the user-visible calls in order, and the outcome.  An exception raised
    by a function ends the run. *)
Fixpoint play {A B O} (f : vec -> list event * result A) (g : vec -> list event * result B) (p : process A B O) : list event * result O :=
  match p with
  | Return o => ([], Ok o)
  | Raise e => ([], Err e)
  | Ask1 x k => match f x with (ev, Ok a) => let (ev', r) := play f g (k a) in (ev ++ ev', r) | (ev, Err e) => (ev, Err e) end
  | Ask2 x k => match g x with (ev, Ok b) => let (ev', r) := play f g (k b) in (ev ++ ev', r) | (ev, Err e) => (ev, Err e) end
  end.

(** ** The bridge with dtypes *)
Section Bridge.
Variables (dtype : Type) (round : dtype -> R -> R).
(** [cast] is the conversion to self.dtype (the identity for self.dtype = None) *)
Variable cast : R -> R.

Definition cast_arr (f : R -> R) (a : arr R) : arr R := mk_arr (shape a) (map f (data a)).
(** scipy_wrappers.py:145-165 [jnp_to_onp] *)
Definition to_onp (x : ptree) : result vec := match jnp_to_onp x with Ok v => Ok (map cast v) | Err e => Err e end.
(** scipy_wrappers.py:216-233 [make_onp_to_jnp]: [jnp.asarray(leaf.reshape(shape), dtype)], the dtypes being those of the
    leaves of the example *)
Definition to_jnp (p : topology) (dts : list dtype) (x : vec) : result ptree :=
  match onp_to_jnp p x with
  | Ok t => unflatten (structure t) (zip_with (fun d a => cast_arr (round d) a) dts (leaves t))
  | Err e => Err e
  end.
(** a function of a pytree as SciPy sees it: the vector is converted, then the user's function is called *)
Definition ask {C} (p : topology) (dts : list dtype) (ev : ptree -> list event) (f : ptree -> result C) (x : vec) : list event * result C :=
  match to_jnp p dts x with Ok t => (ev t, f t) | Err e => ([], Err e) end.

(** ** LbfgsInvHessProductPyTree *)
Record lbfgs_product := { lp_sk : arr R; lp_yk : arr R; lp_shape : nat * nat; lp_n_corrs : nat; lp_rho : vec }.
(** scipy_wrappers.py:56-72 [LbfgsInvHessProductPyTree.__init__] (1 / 0 is left unspecified) *)
Definition new_lbfgs_product (sk yk : arr R) : result lbfgs_product :=
  match shape sk with
  | [n_corrs; n] =>
      if shape_eqb (shape sk) (shape yk)
      then Ok {| lp_sk := sk; lp_yk := yk; lp_shape := (n, n); lp_n_corrs := n_corrs;
                 lp_rho := zip_with (fun s y => 1 / dot s y) (to_rows n_corrs n (data sk)) (to_rows n_corrs n (data yk)) |}
      else Err ValueError
  | _ => Err ValueError
  end.
(** scipy_wrappers.py:78-81 [tree_flatten]: the leaves; a leaf may be any object *)
Inductive leaf_object := ArrayLeaf (a : arr R) | OtherLeaf.
Definition lbfgs_flatten (p : lbfgs_product) : list leaf_object := [ArrayLeaf (lp_sk p); ArrayLeaf (lp_yk p)].
(** scipy_wrappers.py:83-85 [tree_unflatten]: calls the constructor, which reads [sk.shape] (and [yk.shape]) *)
Definition lbfgs_unflatten (children : list leaf_object) : result lbfgs_product :=
  match children with
  | [ArrayLeaf sk; ArrayLeaf yk] => new_lbfgs_product sk yk
  | [_; _] => Err AttributeError
  | _ => Err TypeError
  end.
(** jax.tree_util.tree_map over the object *)
Definition lbfgs_tree_map (f : arr R -> leaf_object) (p : lbfgs_product) : result lbfgs_product :=
  lbfgs_unflatten (map (fun l => match l with ArrayLeaf a => f a | OtherLeaf => OtherLeaf end) (lbfgs_flatten p)).

(** ** ScipyMinimize, ScipyBoundedMinimize *)
(** the arguments of scipy.optimize.minimize (jac=True: the function returns value and gradient) *)
Record min_call := { mc_x0 : vec; mc_tol : option R; mc_bounds : option (vec * vec); mc_method : option string; mc_callback : bool; mc_options : dict }.
(** the attribute hess_inv of its result: absent, an LbfgsInvHessProduct, an array, anything else *)
Inductive res_hess := NoHess | LbfgsHess (sk yk : arr R) | ArrayHess (a : arr R) | OtherHess.
Record min_result := { mr_x : vec; mr_fun : R; mr_success : bool; mr_status : Z; mr_nit : Z; mr_hess : res_hess;
                       mr_nfev : option Z; mr_njev : option Z; mr_nhev : option Z }.
Inductive hess_inv := HProduct (p : lbfgs_product) | HArray (a : arr R).
(** scipy_wrappers.py:87-96 [ScipyMinimizeInfo] *)
Record min_info := { mi_fun_val : R; mi_success : bool; mi_status : Z; mi_iter_num : Z; mi_hess_inv : option hess_inv;
                     mi_num_fun_eval : Z; mi_num_jac_eval : Z; mi_num_hess_eval : Z }.
(** scipy_wrappers.py:351-358: a hess_inv of any other type leaves the local variable unbound *)
Definition convert_hess (h : res_hess) : result (option hess_inv) :=
  match h with
  | NoHess => Ok None
  | LbfgsHess sk yk => match new_lbfgs_product sk yk with Ok p => Ok (Some (HProduct p)) | Err e => Err e end
  | ArrayHess a => Ok (Some (HArray a))
  | OtherHess => Err UnboundLocalError
  end.
(** scipy_wrappers.py:360-365 *)
Definition counter (attr : option Z) : Z := match attr with Some n => n | None => 0%Z end.

Record min_solver := { ms_tol : option R; ms_method : option string; ms_options : dict }.
Variable callback_result : Type.
(** scipy_wrappers.py:332-335 [scipy_fun] *)
Definition min_fun (p : topology) (dts : list dtype) (value_and_grad : ptree -> result (R * ptree)) : vec -> list event * result (R * vec) :=
  ask p dts (fun t => [EFun t]) (fun t =>
    match value_and_grad t with
    | Ok (value, grads) => match to_onp grads with Ok g => Ok (cast value, g) | Err e => Err e end
    | Err e => Err e
    end).
(** scipy_wrappers.py:324-330: without a callback SciPy has nothing to call *)
Definition min_callback (p : topology) (dts : list dtype) (callback : option (ptree -> result callback_result)) : vec -> list event * result callback_result :=
  match callback with
  | Some f => ask p dts (fun t => [ECallback t]) f
  | None => fun _ => ([], Err TypeError)
  end.
(** scipy_wrappers.py:337-339: both bounds are flattened *)
Definition convert_bounds (bounds : option (ptree * ptree)) : result (option (vec * vec)) :=
  match bounds with
  | None => Ok None
  | Some (lb, ub) => match to_onp lb, to_onp ub with
                     | Ok l, Ok u => Ok (Some (l, u)) | Err e, _ => Err e | _, Err e => Err e end
  end.
(** scipy_wrappers.py:349-375: from SciPy's result to the returned pair *)
Definition min_finish (p : topology) (dts : list dtype) (r : min_result) : result (ptree * min_info) :=
  match to_jnp p dts (mr_x r) with
  | Err e => Err e
  | Ok params =>
      match convert_hess (mr_hess r) with
      | Err e => Err e
      | Ok h => Ok (params, {| mi_fun_val := mr_fun r; mi_success := mr_success r; mi_status := mr_status r; mi_iter_num := mr_nit r; mi_hess_inv := h;
                               mi_num_fun_eval := counter (mr_nfev r); mi_num_jac_eval := counter (mr_njev r); mi_num_hess_eval := counter (mr_nhev r) |})
      end
  end.
(** scipy_wrappers.py:318-375 [ScipyMinimize._run]; [run] of ScipyMinimize (377-390) passes no bounds, [run] of
    ScipyBoundedMinimize (441-457) passes its argument.  The extra arguments are fixed throughout a run and part of
    [value_and_grad].  [dts] are the dtypes of the leaves of [init_params]. *)
Definition min_run (minimize : min_call -> process (R * vec) callback_result min_result) (s : min_solver)
    (value_and_grad : ptree -> result (R * ptree)) (callback : option (ptree -> result callback_result))
    (init_params : ptree) (dts : list dtype) (bounds : option (ptree * ptree)) : list event * result (ptree * min_info) :=
  let p := pytree_topology_from_example init_params in
  match convert_bounds bounds with
  | Err e => ([], Err e)
  | Ok b =>
      match to_onp init_params with
      | Err e => ([], Err e)
      | Ok x0 =>
          let call := {| mc_x0 := x0; mc_tol := ms_tol s; mc_bounds := b; mc_method := ms_method s;
                         mc_callback := match callback with Some _ => true | None => false end; mc_options := ms_options s |} in
          match play (min_fun p dts value_and_grad) (min_callback p dts callback) (minimize call) with
          | (ev, Ok r) => (ev, min_finish p dts r)
          | (ev, Err e) => (ev, Err e)
          end
      end
  end.
(** ** ScipyRootFinding *)
Record root_call := { rc_x0 : vec; rc_tol : option R; rc_method : option string; rc_options : option dict }.
Inductive root_counts := RootResults (iterations function_calls : Z) | Attributes (nit nfev : option Z).
Record root_result := { rr_x : vec; rr_fun : vec; rr_success : bool; rr_status : Z; rr_counts : root_counts }.
(** scipy_wrappers.py:99-106 [ScipyRootInfo] *)
Record root_info := { ri_fun_val : vec; ri_success : bool; ri_status : Z; ri_iter_num : option Z; ri_num_fun_eval : option Z }.
Record root_solver := { rs_tol : option R; rs_method : option string; rs_options : option dict }.
(** scipy_wrappers.py:520-527 [scipy_fun]: value and Jacobian *)
Definition root_fun (p : topology) (dts : list dtype) (optimality_fun jac : ptree -> result ptree) : vec -> list event * result (vec * mat) :=
  fun x => match to_jnp p dts x with
  | Err e => ([], Err e)
  | Ok t =>
      match optimality_fun t with
      | Err e => ([EFun t], Err e)
      | Ok value =>
          ([EFun t; EJac t],
           match jac t with
           | Err e => Err e
           | Ok jacs => match to_onp value, jac_jnp_to_onp p p jacs with
                        | Ok v, Ok J => Ok (v, map (map cast) J) | Err e, _ => Err e | _, Err e => Err e end
           end)
      end
  end.
Definition root_finish (p : topology) (dts : list dtype) (r : root_result) : result (ptree * root_info) :=
  match to_jnp p dts (rr_x r) with
  | Err e => Err e
  | Ok params =>
      let '(iter_num, num_fun_eval) := match rr_counts r with RootResults i f => (Some i, Some f) | Attributes i f => (i, f) end in
      Ok (params, {| ri_fun_val := rr_fun r; ri_success := rr_success r; ri_status := rr_status r; ri_iter_num := iter_num; ri_num_fun_eval := num_fun_eval |})
  end.
(** scipy_wrappers.py:500-560 [ScipyRootFinding.run] *)
Definition root_run (root : root_call -> process (vec * mat) unit root_result) (s : root_solver) (optimality_fun jac : ptree -> result ptree)
    (init_params : ptree) (dts : list dtype) : list event * result (ptree * root_info) :=
  let p := pytree_topology_from_example init_params in
  match to_onp init_params with
  | Err e => ([], Err e)
  | Ok x0 =>
      match play (root_fun p dts optimality_fun jac) (fun _ => ([], Err TypeError))
                 (root {| rc_x0 := x0; rc_tol := rs_tol s; rc_method := rs_method s; rc_options := rs_options s |}) with
      | (ev, Ok r) => (ev, root_finish p dts r)
      | (ev, Err e) => (ev, Err e)
      end
  end.

(** ** ScipyLeastSquares, ScipyBoundedLeastSquares *)
(** the bounds are two vectors, or the two scalars -inf and inf *)
Inductive ls_bounds := Unbounded | Between (l u : vec).
Record ls_call := { lc_x0 : vec; lc_bounds : ls_bounds; lc_method : option string; lc_loss : string; lc_options : dict }.
Record ls_result := { lr_x : vec; lr_cost : R; lr_fun : vec; lr_success : bool; lr_status : Z; lr_nfev : Z; lr_njev : option Z; lr_optimality : R }.
(** scipy_wrappers.py:109-117 [ScipyLeastSquaresInfo] *)
Record ls_info := { li_cost_val : R; li_fun_val : vec; li_success : bool; li_status : Z; li_num_fun_eval : Z; li_num_jac_eval : Z; li_error : R }.
Record ls_solver := { lss_method : option string; lss_loss : string; lss_options : dict }.
(** scipy_wrappers.py:652-655 and 657-660: [scipy_fun] and [scipy_jac] *)
Definition ls_fun (p : topology) (dts : list dtype) (fun_ : ptree -> result ptree) : vec -> list event * result vec :=
  ask p dts (fun t => [EFun t]) (fun t => match fun_ t with Ok value => to_onp value | Err e => Err e end).
Definition ls_jac (p q : topology) (dts : list dtype) (jac : ptree -> result ptree) : vec -> list event * result mat :=
  ask p dts (fun t => [EJac t]) (fun t =>
    match jac t with
    | Ok jacs => match jac_jnp_to_onp p q jacs with Ok J => Ok (map (map cast) J) | Err e => Err e end
    | Err e => Err e
    end).
(** the keyword arguments that the call passes beside [**self.options]; a key given twice raises TypeError *)
Definition ls_explicit : list string := ["jac"; "bounds"; "method"; "loss"]%string.
Definition ls_duplicate (options : dict) : bool := existsb (dict_mem options) ls_explicit.
(** scipy_wrappers.py:676-684; jnp.asarray(None, dtype) for a missing Jacobian count (method 'lm') gives NaN converted to an
    integer, which is left unspecified *)
Definition ls_finish (p : topology) (dts : list dtype) (r : ls_result) : result (ptree * ls_info) :=
  match to_jnp p dts (lr_x r) with
  | Err e => Err e
  | Ok params =>
      match lr_njev r with
      | None => Err Unspecified
      | Some njev => Ok (params, {| li_cost_val := lr_cost r; li_fun_val := lr_fun r; li_success := lr_success r; li_status := lr_status r;
                                    li_num_fun_eval := lr_nfev r; li_num_jac_eval := njev; li_error := lr_optimality r |})
      end
  end.
(** scipy_wrappers.py:641-684 [ScipyLeastSquares._run] *)
Definition ls_run (least_squares : ls_call -> process vec mat ls_result) (s : ls_solver) (fun_ jac : ptree -> result ptree)
    (init_params : ptree) (dts : list dtype) (bounds : option (ptree * ptree)) : list event * result (ptree * ls_info) :=
  match fun_ init_params with
  | Err e => ([EFun init_params], Err e)
  | Ok init_output =>
      let p := pytree_topology_from_example init_params in
      let q := pytree_topology_from_example init_output in
      match match bounds with
            | None => Ok Unbounded
            | Some _ => match convert_bounds bounds with Ok (Some (l, u)) => Ok (Between l u) | Ok None => Ok Unbounded | Err e => Err e end
            end with
      | Err e => ([EFun init_params], Err e)
      | Ok b =>
          match to_onp init_params with
          | Err e => ([EFun init_params], Err e)
          | Ok x0 =>
              if ls_duplicate (lss_options s) then ([EFun init_params], Err TypeError)
              else match play (ls_fun p dts fun_) (ls_jac p q dts jac)
                              (least_squares {| lc_x0 := x0; lc_bounds := b; lc_method := lss_method s; lc_loss := lss_loss s; lc_options := lss_options s |}) with
                   | (ev, Ok r) => (EFun init_params :: ev, ls_finish p dts r)
                   | (ev, Err e) => (EFun init_params :: ev, Err e)
                   end
          end
      end
  end.
End Bridge.

(** ** Specification *)
(** the pytree an event carries *)
Definition event_tree (e : event) : ptree := match e with EFun x | EJac x | ECallback x => x end.
Definition event_map (f : ptree -> ptree) (e : event) : event := match e with EFun x => EFun (f x) | EJac x => EJac (f x) | ECallback x => ECallback (f x) end.
(** every entry of leaf number i is a value of the dtype number i *)
Definition of_dtypes {dtype} (round : dtype -> R -> R) (dts : list dtype) (x : ptree) : Prop :=
  Forall2 (fun d a => Forall (fun r => round d r = r) (data a)) dts (leaves x).
(** [x] is [u] with leaf number i rounded to dtype number i *)
Definition rounded {dtype} (round : dtype -> R -> R) (dts : list dtype) (u x : ptree) : Prop :=
  same_kind x u /\ forall i d, nth_error dts i = Some d -> data (nth i (leaves x) no_arr) = map (round d) (data (nth i (leaves u) no_arr)).
(** a pytree of the kind of [init] with leaves of the given dtypes *)
Definition like {dtype} (round : dtype -> R -> R) (dts : list dtype) (init x : ptree) : Prop := wf x /\ same_kind x init /\ of_dtypes round dts x.
(** dtypes: exact numbers; integers (conversion truncates towards zero) *)
Definition no_rounding (d : unit) (r : R) : R := r.
Definition truncate (d : unit) (r : R) : R := if Rle_dec 0 r then IZR (Int_part r) else - IZR (Int_part (- r)).
(** the same numbers as one 1-D array *)
Definition as_vector (x : ptree) : ptree := Leaf (mk_arr [length (ravel x)] (ravel x)).
(** leafwise, entrywise order *)
Definition tree_le (x y : ptree) : Prop := Forall2 (fun a b => Forall2 Rle (data a) (data b)) (leaves x) (leaves y).
(** [g] is the gradient of [f] at [x]: the derivative of [f] along [x + h t] at h = 0 is the inner product of [g] and [t] *)
Definition tree_gradient (f : ptree -> R) (x g : ptree) : Prop :=
  forall t path s, wf t -> same_kind t x -> (forall h, tree_add_scalar_mul x h t = Ok (path h)) -> tree_vdot g t = Ok s ->
    derivable_pt_lim (fun h => f (path h)) 0 s.
(** [g] is the gradient at [v] of a function of a vector *)
Definition vec_gradient (f : vec -> R) (v g : vec) : Prop :=
  length g = length v /\ forall w, length w = length v -> derivable_pt_lim (fun h => f (vadd v (smul h w))) 0 (dot g w).
(** [jac] has the blocks [block i j], the derivatives of leaf i of [f] with respect to leaf j of its argument, at [x] *)
Definition tree_jacobian (f : ptree -> ptree) (x jac : ptree) : Prop :=
  let n := length (leaves x) in let m := length (leaves (f x)) in
  length (leaves jac) = (m * n)%nat /\ exists block : nat -> nat -> mat,
  (forall i j, (i < m)%nat -> (j < n)%nat ->
     mat_shape (length (data (nth i (leaves (f x)) no_arr))) (length (data (nth j (leaves x) no_arr))) (block i j) /\
     data (nth (j + i * n) (leaves jac) no_arr) = concat (block i j)) /\
  forall t path, wf t -> same_kind t x -> (forall h, tree_add_scalar_mul x h t = Ok (path h)) ->
    forall i e, (i < m)%nat -> (e < length (data (nth i (leaves (f x)) no_arr)))%nat ->
      derivable_pt_lim (fun h => nth e (data (nth i (leaves (f (path h))) no_arr)) 0) 0
        (vsum (map (fun j => nth e (mvec (block i j) (data (nth j (leaves t) no_arr))) 0) (seq 0 n))).
(** [J] is the Jacobian at [v] of a function of vectors *)
Definition vec_jacobian (f : vec -> vec) (v : vec) (J : mat) : Prop :=
  mat_shape (length (f v)) (length v) J /\
  forall w e, length w = length v -> (e < length (f v))%nat -> derivable_pt_lim (fun h => nth e (f (vadd v (smul h w))) 0) 0 (nth e (mvec J w) 0).
