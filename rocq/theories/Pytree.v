(** Model of jaxopt/_src/tree_util.py and of the pytree bridge of jaxopt/_src/scipy_wrappers.py.
    Arrays are real (complex leaves are not modelled: x.real = x, x.imag = 0), stored as a shape and the
    row-major list of entries; dtypes are not modelled. *)
From Coq Require Import Reals List Lra Lia Bool Arith.
From Coq Require String.
From Verif Require Import Prelude Vec Mat.
Import ListNotations.
Open Scope R_scope.

(** ** jax.tree_util *)
(** A pytree: leaves and containers; [k] is the container type together with its keys (tuple, list, dict
    with its sorted keys, None is a container without children). *)
Inductive tree (A : Type) : Type :=
| Leaf (a : A)
| Node (k : String.string) (cs : list (tree A)).
Arguments Leaf {A} a.
Arguments Node {A} k cs.
Fixpoint fmap {A B} (f : A -> B) (t : tree A) : tree B :=
  match t with Leaf a => Leaf (f a) | Node k cs => Node k (map (fmap f) cs) end.
Fixpoint leaves {A} (t : tree A) : list A :=
  match t with Leaf a => [a] | Node _ cs => flat_map leaves cs end.
Definition treedef := tree unit.
Definition structure {A} (t : tree A) : treedef := fmap (fun _ => tt) t.
Fixpoint num_nodes {A} (t : tree A) : nat :=
  match t with Leaf _ => 1 | Node _ cs => S (list_sum (map num_nodes cs)) end.
(** treedef_is_leaf: num_nodes == 1 (also true of containers without children) *)
Definition is_leaf (d : treedef) : bool := Nat.eqb (num_nodes d) 1.
Fixpoint treedef_eqb {A B} (s : tree A) (t : tree B) : bool :=
  match s, t with
  | Leaf _, Leaf _ => true
  | Node k cs, Node k' cs' =>
      (String.eqb k k' && (fix go (l : list (tree A)) (l' : list (tree B)) : bool :=
        match l, l' with [] , [] => true | a :: l, b :: l' => (treedef_eqb a b && go l l')%bool | _, _ => false end) cs cs')%bool
  | _, _ => false
  end.
(** unflatten, returning the leaves that are left over; None: too few *)
Fixpoint fill {A} (d : treedef) (l : list A) : option (tree A * list A) :=
  match d with
  | Leaf _ => match l with a :: l' => Some (Leaf a, l') | [] => None end
  | Node k cs =>
      match (fix go (ds : list treedef) (l : list A) : option (list (tree A) * list A) :=
        match ds with
        | [] => Some ([], l)
        | d :: ds' => match fill d l with Some (t, l') => match go ds' l' with Some (ts, r) => Some (t :: ts, r) | None => None end | None => None end
        end) cs l with
      | Some (ts, r) => Some (Node k ts, r)
      | None => None
      end
  end.
(** tree_unflatten / treedef.unflatten: ValueError unless the number of leaves is right *)
Definition unflatten {A} (d : treedef) (l : list A) : result (tree A) :=
  match fill d l with Some (t, []) => Ok t | _ => Err ValueError end.
(** treedef.flatten_up_to: the subtrees of [t] at the leaves of [d] *)
Fixpoint flatten_up_to {A B} (d : tree A) (t : tree B) : result (list (tree B)) :=
  match d, t with
  | Leaf _, _ => Ok [t]
  | Node k cs, Node k' cs' =>
      if String.eqb k k' then
        (fix go (l : list (tree A)) (l' : list (tree B)) : result (list (tree B)) :=
          match l, l' with
          | [], [] => Ok []
          | a :: l, b :: l' => match flatten_up_to a b, go l l' with Ok x, Ok y => Ok (x ++ y) | Err e, _ => Err e | _, Err e => Err e end
          | _, _ => Err ValueError
          end) cs cs'
      else Err ValueError
  | Node _ _, Leaf _ => Err ValueError
  end.
Fixpoint sequence {A} (l : list (result A)) : result (list A) :=
  match l with
  | [] => Ok []
  | Ok a :: l' => match sequence l' with Ok r => Ok (a :: r) | Err e => Err e end
  | Err e :: _ => Err e
  end.
Fixpoint zip_with {A B C} (f : A -> B -> C) (l : list A) (l' : list B) : list C :=
  match l, l' with a :: l, b :: l' => f a b :: zip_with f l l' | _, _ => [] end.
(** tree_map(f, t) and tree_map(f, t, u): [u] must have the structure of [t] as a prefix; [f] sees a
    subtree of [u] *)
Definition tree_map1 {A B} (f : A -> result B) (t : tree A) : result (tree B) :=
  match sequence (map f (leaves t)) with Ok l => unflatten (structure t) l | Err e => Err e end.
Definition tree_map2 {A B C} (f : A -> tree B -> result C) (t : tree A) (u : tree B) : result (tree C) :=
  match flatten_up_to t u with
  | Ok us => match sequence (zip_with f (leaves t) us) with Ok l => unflatten (structure t) l | Err e => Err e end
  | Err e => Err e
  end.
(** functools.reduce(operator.add, leaves): TypeError on an empty list *)
Definition reduce_add (l : list R) : result R :=
  match l with [] => Err TypeError | a :: l' => Ok (fold_left Rplus l' a) end.

(** ** Arrays *)
Record arr (E : Type) := mk_arr { shape : list nat; data : list E }.
Arguments mk_arr {E} shape data.
Arguments shape {E} a.
Arguments data {E} a.
Definition size (s : list nat) : nat := fold_right Nat.mul 1%nat s.
Definition shape_eqb (s t : list nat) : bool := if list_eq_dec Nat.eq_dec s t then true else false.
Definition is_scalar (s : list nat) : bool := match s with [] => true | _ => false end.
(** elementwise operation; broadcasting is modelled for equal shapes and for 0-d arrays *)
Definition bin_op {E F G} (f : E -> F -> G) (x : arr E) (y : arr F) : result (arr G) :=
  if shape_eqb (shape x) (shape y) then Ok (mk_arr (shape x) (zip_with f (data x) (data y)))
  else match data x, data y with
       | [a], _ => if is_scalar (shape x) then Ok (mk_arr (shape y) (map (f a) (data y))) else Err Unspecified
       | _, [b] => if is_scalar (shape y) then Ok (mk_arr (shape x) (map (fun a => f a b) (data x))) else Err Unspecified
       | _, _ => Err Unspecified
       end.
(** an arithmetic operator between a JAX array and a container raises TypeError (numpy leaves, which would
    coerce a list, are not modelled) *)
Definition on_arrays {E F G} (f : arr E -> arr F -> result G) (x : arr E) (t : tree (arr F)) : result G :=
  match t with Leaf y => f x y | Node _ _ => Err TypeError end.
Notation ptree := (tree (arr R)).

(** ** tree_util.py *)
(** tree_util.py:71-81 *)
Definition tree_add : ptree -> ptree -> result ptree := tree_map2 (on_arrays (bin_op Rplus)).
Definition tree_sub : ptree -> ptree -> result ptree := tree_map2 (on_arrays (bin_op Rminus)).
Definition tree_mul : ptree -> ptree -> result ptree := tree_map2 (on_arrays (bin_op Rmult)).
(** tree_util.py:84-86 *)
Definition tree_scalar_mul (s : R) : ptree -> result ptree := tree_map1 (fun x => Ok (mk_arr (shape x) (map (fun t => s * t) (data x)))).
(** tree_util.py:89-91 *)
Definition tree_add_scalar_mul (tx : ptree) (s : R) (ty : ptree) : result ptree :=
  tree_map2 (on_arrays (fun x y => bin_op (fun a b => a + s * b) x y)) tx ty.
(** jnp.vdot: both arguments raveled; sizes must agree *)
Definition vdot (x y : arr R) : result R := if Nat.eqb (length (data x)) (length (data y)) then Ok (dot (data x) (data y)) else Err TypeError.
(** tree_util.py:101-104 *)
Definition tree_vdot (tx ty : ptree) : result R :=
  match tree_map2 (on_arrays vdot) tx ty with Ok t => reduce_add (leaves t) | Err e => Err e end.
(** tree_util.py:119-121: Python's sum starts from 0 *)
Definition tree_vdot_real (tx ty : ptree) : result R :=
  match tree_map2 (on_arrays vdot) tx ty with Ok t => Ok (fold_left Rplus (leaves t) 0) | Err e => Err e end.
(** tree_util.py:132-135 *)
Definition tree_sum (t : ptree) : result R :=
  match tree_map1 (fun x => Ok (vsum (data x))) t with Ok s => reduce_add (leaves s) | Err e => Err e end.
(** tree_util.py:138-145 *)
Definition tree_l2_norm (t : ptree) (squared : bool) : result R :=
  match tree_map1 (fun x => Ok (mk_arr (shape x) (map (fun a => a * a + 0 * 0) (data x)))) t with
  | Err e => Err e
  | Ok sq => match tree_sum sq with Ok s => Ok (if squared then s else sqrt s) | Err e => Err e end
  end.
(** tree_util.py:148-155 *)
Definition tree_zeros_like : ptree -> result ptree := tree_map1 (fun x => Ok (mk_arr (shape x) (map (fun _ => 0) (data x)))).
Definition tree_ones_like : ptree -> result ptree := tree_map1 (fun x => Ok (mk_arr (shape x) (map (fun _ => 1) (data x)))).
(** tree_util.py:185-188: concatenate([]) and max([]) raise ValueError *)
Definition tree_inf_norm (t : ptree) : result R :=
  match leaves t with
  | [] => Err ValueError
  | _ => match map Rabs (flat_map data (leaves t)) with [] => Err ValueError | a :: l => Ok (fold_left Rmax l a) end
  end.
(** tree_util.py:213-215 *)
Definition tree_negative (t : ptree) : result ptree := tree_scalar_mul (-1) t.
(** tree_util.py:223-226 (jnp.mean of a non-empty array) *)
Definition mean (x : vec) : R := vsum x / INR (length x).
Definition tree_mean (t : ptree) : result R :=
  match tree_map1 (fun x => Ok (mk_arr [] [mean (data x)])) t with
  | Err e => Err e
  | Ok avg => match tree_sum avg with Ok s => Ok (s / INR (length (leaves avg))) | Err e => Err e end
  end.
(** Leaves of shape (m, ...): [slice x i] is x[i] *)
Definition slice (m : nat) (x : arr R) (i : nat) : arr R :=
  let w := (length (data x) / m)%nat in mk_arr (tl (shape x)) (firstn w (skipn (i * w) (data x))).
(** tree_util.py:158-168: tensordot(weights, x, axes=1) contracts the first axis *)
Definition tree_average (trees : ptree) (weights : vec) : result ptree :=
  tree_map1 (fun x => match shape x with
    | m :: s => if Nat.eqb m (length weights) then
        Ok (mk_arr s (fold_right vadd (vzero (length (data x) / m)) (zip_with (fun w i => smul w (data (slice m x i))) weights (seq 0 m))))
        else Err TypeError
    | [] => Err Unspecified end) trees.
(** tree_util.py:171-182: vmap over the first axis of the first and then of the second argument *)
Definition tree_gram (m : nat) (a : ptree) : result (list (list R)) :=
  sequence (map (fun j => sequence (map (fun i => tree_vdot (fmap (fun x => slice m x i) a) (fmap (fun x => slice m x j) a)) (seq 0 m))) (seq 0 m)).

(** tree_util.py:34-68 [broadcast_pytrees] *)
Fixpoint common_treedef {A} (trees : list (tree A)) (d : option treedef) : result (option treedef) :=
  match trees with
  | [] => Ok d
  | t :: ts =>
      if is_leaf (structure t) then common_treedef ts d
      else let d' := match d with Some d => d | None => structure t end in
           if treedef_eqb (structure t) d' then common_treedef ts (Some d') else Err ValueError
  end.
Definition broadcast_pytrees {A} (trees : list (tree A)) : result (list (tree A)) :=
  match common_treedef trees None with
  | Err e => Err e
  | Ok None => Ok trees
  | Ok (Some d) =>
      let max_num_leaves := fold_right Nat.max 0%nat (map (fun t => length (leaves t)) trees) in
      sequence (map (fun t => if is_leaf (structure t)
        then match leaves t with a :: _ => unflatten d (repeat a max_num_leaves) | [] => Err IndexError end
        else unflatten d (leaves t)) trees)
  end.
(** jnp.where(cond, a, b): a Boolean array and two numeric arrays.  Leaves of either kind share a type. *)
Inductive leafval := LB (b : arr bool) | LR (r : arr R).
Definition where3 (c : arr bool) (x y : arr R) : result (arr R) :=
  match bin_op (fun cb xv => (cb, xv)) c x with
  | Err e => Err e
  | Ok cx => bin_op (fun '(cb, xv) yv => if (cb : bool) then xv else yv) cx y
  end.
(** tree_util.py:191-210 [tree_where] *)
Definition tree_where (cond a b : tree leafval) : result (tree leafval) :=
  match broadcast_pytrees [cond; a; b] with
  | Err e => Err e
  | Ok [c; x; y] =>
      match flatten_up_to c x, flatten_up_to c y with
      | Ok xs, Ok ys =>
          match sequence (zip_with (fun cl xy => match cl, xy with
            | LB cb, (Leaf (LR xv), Leaf (LR yv)) => match where3 cb xv yv with Ok r => Ok (LR r) | Err e => Err e end
            | _, _ => Err Unspecified end) (leaves c) (zip_with pair xs ys)) with
          | Ok l => unflatten (structure c) l
          | Err e => Err e
          end
      | Err e, _ => Err e
      | _, Err e => Err e
      end
  | Ok _ => Err ValueError
  end.

(** ** scipy_wrappers.py: the bridge *)
(** scipy_wrappers.py:120-142 PyTreeTopology (dtypes not modelled) *)
Record topology := { top_treedef : treedef; top_shapes : list (list nat) }.
Definition top_sizes (p : topology) : list nat := map size (top_shapes p).
(** scipy_wrappers.py:236-241 [pytree_topology_from_example] *)
Definition pytree_topology_from_example (x : ptree) : topology := {| top_treedef := structure x; top_shapes := map shape (leaves x) |}.
(** scipy_wrappers.py:145-165 [jnp_to_onp]: concatenate([]) raises ValueError *)
Definition jnp_to_onp (x : ptree) : result vec :=
  match leaves x with [] => Err ValueError | l => Ok (flat_map data l) end.
(** numpy.cumsum, numpy.split at increasing indices, reshape *)
Fixpoint cumsum_from (s : nat) (l : list nat) : list nat := match l with [] => [] | a :: l' => (s + a)%nat :: cumsum_from (s + a) l' end.
Fixpoint split_from (start : nat) (idx : list nat) (x : vec) : list vec :=
  match idx with
  | [] => [skipn start x]
  | i :: idx' => firstn (i - start) (skipn start x) :: split_from i idx' x
  end.
Definition reshape (s : list nat) (x : vec) : result (arr R) := if Nat.eqb (length x) (size s) then Ok (mk_arr s x) else Err ValueError.
(** scipy_wrappers.py:216-233 [make_onp_to_jnp] *)
Definition onp_to_jnp (p : topology) (x : vec) : result ptree :=
  let split_indices := cumsum_from 0 (removelast (top_sizes p)) in
  let flattened_leaves := split_from 0 split_indices x in
  match sequence (zip_with (fun leaf s => reshape s leaf) flattened_leaves (top_shapes p)) with
  | Ok l => unflatten (top_treedef p) l
  | Err e => Err e
  end.
(** row-major reshape to [rows, cols] *)
Fixpoint to_rows (rows cols : nat) (x : vec) : mat := match rows with O => [] | S r => firstn cols x :: to_rows r cols (skipn cols x) end.
(** numpy.block: [hcat] of matrices with the same number of rows, rows stacked *)
Fixpoint hcat (ms : list mat) (rows : nat) : mat :=
  match ms with [] => repeat [] rows | M :: ms' => zip_with (@app R) M (hcat ms' rows) end.
(** scipy_wrappers.py:168-213 [make_jac_jnp_to_onp]; a missing leaf raises IndexError, a block of the wrong
    size ValueError *)
Definition jac_jnp_to_onp (inp out : topology) (jac : ptree) : result mat :=
  let jacs_leaves := leaves jac in
  let n_in := length (top_shapes inp) in
  match sequence (map (fun i => let out_size := nth i (top_sizes out) 0%nat in
      match sequence (map (fun j => let in_size := nth j (top_sizes inp) 0%nat in
          match nth_error jacs_leaves (j + i * n_in) with
          | None => Err IndexError
          | Some x => if Nat.eqb (length (data x)) (out_size * in_size) then Ok (to_rows out_size in_size (data x)) else Err ValueError
          end) (seq 0 (length (top_shapes inp)))) with
      | Ok blocks => Ok (hcat blocks out_size)
      | Err e => Err e
      end) (seq 0 (length (top_shapes out)))) with
  | Ok rows => Ok (concat rows)
  | Err e => Err e
  end.

(** ** Specification *)
(** every array has as many entries as its shape says *)
Definition wf (t : ptree) : Prop := Forall (fun x => length (data x) = size (shape x)) (leaves t).
(** the concatenation of all leaves *)
Definition ravel (t : ptree) : vec := flat_map data (leaves t).
(** same containers and same leaf shapes *)
Definition same_kind (x y : ptree) : Prop := fmap shape x = fmap shape y.
Definition nonempty (t : ptree) : Prop := leaves t <> [].
(** the copy of [d] with every leaf equal to [a] *)
Definition const_tree {A} (d : treedef) (a : A) : tree A := fmap (fun _ => a) d.

(** [T] stacks the trees [ts], all of the kind of [x0], along a new first axis *)
Definition no_arr : arr R := mk_arr [] [].
Definition stacked (x0 : ptree) (ts : list ptree) (T : ptree) : Prop :=
  Forall (fun u => same_kind u x0 /\ wf u) ts /\ structure T = structure x0 /\
  forall l, (l < length (leaves T))%nat ->
    shape (nth l (leaves T) no_arr) = length ts :: shape (nth l (leaves x0) no_arr) /\
    data (nth l (leaves T) no_arr) = flat_map (fun u => data (nth l (leaves u) no_arr)) ts.
(** the linear combination of vectors of length [n] *)
Definition lincomb (n : nat) (ws : vec) (vs : list vec) : vec := fold_right vadd (vzero n) (zip_with smul ws vs).
(** entrywise selection *)
Fixpoint select (c : list bool) (x y : vec) : vec :=
  match c, x, y with b :: c, u :: x, v :: y => (if b then u else v) :: select c x y | _, _, _ => [] end.
(** what broadcasting an argument against the structure [d] gives *)
Definition broadcast_to {A} (d : treedef) (t : tree A) : tree A := match t with Leaf a => const_tree d a | Node _ _ => t end.
