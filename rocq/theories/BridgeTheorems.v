(** C62: runs of the SciPy wrappers on pytrees. *)
From Coq Require Import String.
From Coq Require Import Reals List Lra Lia Bool Arith ZArith.
From Verif Require Import Prelude Vec Mat Pytree PytreeProofs PytreeTheorems Scipy Bridge BridgeProofs.
Import ListNotations.
Open Scope R_scope.

(** ** The points at which the user's code is called *)
Lemma ask_events {dtype} (round : dtype -> R -> R) {C} init dts (ev : ptree -> list event) (f : ptree -> result C) :
  wf init -> nonempty init -> length dts = length (leaves init) -> (forall d r, round d (round d r) = round d r) ->
  (forall t e, In e (ev t) -> event_tree e = t) ->
  forall x, Forall (fun e => like round dts init (event_tree e)) (fst (ask dtype round (pytree_topology_from_example init) dts ev f x)).
Proof.
  intros W Hn L I He x. unfold ask. destruct (Nat.eq_dec (length x) (length (ravel init))) as [E|E].
  - destruct (to_jnp_ok round init dts x W Hn L E) as (u & t & Wu & Ku & Ru & -> & Wt & Kt & Rt). cbn [fst]. apply Forall_forall. intros e H. rewrite (He t e H). split; [exact Wt|]. split; [exact Kt|].
    apply (rounded_dtypes round dts u t I); [|exact Rt]. rewrite L. apply leaves_length. apply same_kind_structure in Ku. congruence.
  - rewrite (to_jnp_bad round init dts x W Hn E). constructor.
Qed.
Lemma root_events {dtype} (round : dtype -> R -> R) cast init dts f jac :
  wf init -> nonempty init -> length dts = length (leaves init) -> (forall d r, round d (round d r) = round d r) ->
  forall x, Forall (fun e => like round dts init (event_tree e)) (fst (root_fun dtype round cast (pytree_topology_from_example init) dts f jac x)).
Proof.
  intros W Hn L I x. unfold root_fun. destruct (Nat.eq_dec (length x) (length (ravel init))) as [E|E].
  - destruct (to_jnp_ok round init dts x W Hn L E) as (u & t & Wu & Ku & Ru & -> & Wt & Kt & Rt).
    assert (Hl : like round dts init t). { split; [exact Wt|]. split; [exact Kt|]. apply (rounded_dtypes round dts u t I); [|exact Rt]. rewrite L. apply leaves_length. apply same_kind_structure in Ku. congruence. }
    destruct (f t); cbn [fst]; repeat (apply Forall_cons; [exact Hl|]); apply Forall_nil.
  - rewrite (to_jnp_bad round init dts x W Hn E). constructor.
Qed.
(** Whatever SciPy does, the objective, the Jacobian and the callback are only ever called with pytrees of the structure, shapes
    and dtypes of the initial parameters. *)
Theorem C62_calls {dtype} (round : dtype -> R -> R) (cast : R -> R) init dts :
  wf init -> nonempty init -> length dts = length (leaves init) -> of_dtypes round dts init -> (forall d r, round d (round d r) = round d r) ->
  let ok e := like round dts init (event_tree e) in
  (forall B minimize s vg (cb : option (ptree -> result B)) bounds, Forall ok (fst (min_run dtype round cast B minimize s vg cb init dts bounds))) /\
  (forall root s f jac, Forall ok (fst (root_run dtype round cast root s f jac init dts))) /\
  (forall least_squares s f jac bounds, Forall ok (fst (ls_run dtype round cast least_squares s f jac init dts bounds))).
Proof.
  intros W Hn L O I ok. assert (Hok : ok (EFun init)) by (split; [exact W|]; split; [reflexivity|exact O]). split; [|split].
  - intros. unfold min_run. destruct (convert_bounds cast bounds); [|constructor]. destruct (to_onp cast init); [|constructor].
    match goal with |- context [play ?f ?g ?p] => pose proof (play_events ok f g p) as H; destruct (play f g p) as [ev [r|e]] end; cbn [fst] in *; apply H.
    1,3: apply ask_events; try assumption; intros t e' [<-|[]]; reflexivity.
    all: unfold min_callback; destruct cb; [apply ask_events; try assumption; intros t e' [<-|[]]; reflexivity|intros; constructor].
  - intros. unfold root_run. destruct (to_onp cast init); [|constructor].
    match goal with |- context [play ?f ?g ?p] => pose proof (play_events ok f g p) as H; destruct (play f g p) as [ev [r|e]] end; cbn [fst] in *; apply H.
    1,3: apply root_events; assumption. all: intros; constructor.
  - intros. unfold ls_run. destruct (f init) as [y|e0]; [|apply Forall_cons; [exact Hok|apply Forall_nil]].
    match goal with |- context [match ?b with Ok _ => _ | Err _ => _ end] => destruct b as [b'|e0] end; [|apply Forall_cons; [exact Hok|apply Forall_nil]].
    destruct (to_onp cast init); [|apply Forall_cons; [exact Hok|apply Forall_nil]]. destruct (ls_duplicate _); [apply Forall_cons; [exact Hok|apply Forall_nil]|].
    match goal with |- context [play ?f ?g ?p] => pose proof (play_events ok f g p) as H; destruct (play f g p) as [ev [r|e]] end; cbn [fst] in *; (constructor; [exact Hok|]); apply H.
    all: apply ask_events; try assumption; intros t e' [<-|[]]; reflexivity.
Qed.
Print Assumptions C62_calls.

(** ** Pytrees are only a presentation *)
Lemma as_vector_wf x : wf (as_vector x). Proof. unfold wf, as_vector. cbn. repeat constructor. cbn. lia. Qed.
Lemma as_vector_nonempty x : nonempty (as_vector x). Proof. discriminate. Qed.
Lemma as_vector_ravel x : ravel (as_vector x) = ravel x. Proof. unfold as_vector. unfold ravel at 1. cbn. apply app_nil_r. Qed.
Lemma as_vector_like t x : wf t -> same_kind t (as_vector x) -> t = as_vector t.
Proof.
  intros W K. apply same_kind_iff in K. destruct K as [K1 K2]. destruct t as [[s v]|k cs]; [|discriminate]. cbn in K2. injection K2 as ->.
  unfold wf in W. cbn in W. inversion W as [|a l H _]. cbn [shape data] in H. unfold as_vector, ravel. cbn [leaves flat_map data]. rewrite app_nil_r. rewrite H. unfold size. cbn [fold_right]. rewrite Nat.mul_1_r. reflexivity.
Qed.
Lemma to_onp_vector cast x : nonempty x -> to_onp cast (as_vector x) = to_onp cast x.
Proof. intros Hn. unfold to_onp. rewrite (jnp_ok _ Hn), (jnp_ok _ (as_vector_nonempty x)), as_vector_ravel. reflexivity. Qed.
Lemma to_jnp_vector {dtype} (round : dtype -> R -> R) d init v : wf init -> nonempty init ->
  to_jnp dtype round (pytree_topology_from_example (as_vector init)) [d] v =
  match to_jnp dtype round (pytree_topology_from_example init) (repeat d (length (leaves init))) v with Ok t => Ok (as_vector t) | Err e => Err e end.
Proof.
  intros W Hn. destruct (Nat.eq_dec (length v) (length (ravel init))) as [E|E].
  - destruct (to_jnp_ok round init (repeat d (length (leaves init))) v W Hn) as (u & t & Wu & Ku & Ru & -> & Wt & Kt & Rt); [apply repeat_length|exact E|].
    destruct (to_jnp_ok round (as_vector init) [d] v (as_vector_wf _) (as_vector_nonempty _)) as (u' & t' & Wu' & Ku' & Ru' & -> & Wt' & Kt' & Rt'); [reflexivity|rewrite as_vector_ravel; exact E|].
    f_equal. rewrite (as_vector_like t' init Wt' Kt'). unfold as_vector. f_equal.
    assert (ravel t' = ravel t) as ->; [|reflexivity].
    assert (Lu : length (leaves u) = length (leaves init)) by (apply leaves_length; apply same_kind_structure; exact Ku).
    assert (Lu' : length (leaves u') = 1%nat) by (rewrite (leaves_length u' (as_vector init) (same_kind_structure _ _ Ku')); reflexivity).
    rewrite (rounded_uniform round d (length (leaves init)) u t Lu Rt), (rounded_uniform round d 1 u' t' Lu' Rt'), Ru, Ru'. reflexivity.
  - rewrite (to_jnp_bad round init) by assumption. apply to_jnp_bad; [apply as_vector_wf|apply as_vector_nonempty|rewrite as_vector_ravel; exact E].
Qed.
(** Minimising a function of a pytree is minimising the function of the flat vector: if [vg'] and [cb'] do on the flattened
    parameters what [vg] and [cb] do on the pytree, then a run on the flattened problem makes the corresponding calls in the
    same order and returns the flattened parameters and the same information, whatever SciPy does. *)
Theorem C62_flat {dtype} (round : dtype -> R -> R) (cast : R -> R) d B minimize s vg vg' (cb cb' : option (ptree -> result B)) init bounds bounds' :
  wf init -> nonempty init ->
  (forall x, wf x -> same_kind x init -> vg' (as_vector x) = match vg x with Ok (v, g) => Ok (v, as_vector g) | Err e => Err e end) ->
  (forall x v g, vg x = Ok (v, g) -> nonempty g) ->
  match cb, cb' with None, None => True | Some f, Some f' => forall x, wf x -> same_kind x init -> f' (as_vector x) = f x | _, _ => False end ->
  match bounds, bounds' with None, None => True | Some (l, u), Some (l', u') => nonempty l /\ nonempty u /\ l' = as_vector l /\ u' = as_vector u | _, _ => False end ->
  let run := min_run dtype round cast B minimize s vg cb init (repeat d (length (leaves init))) bounds in
  min_run dtype round cast B minimize s vg' cb' (as_vector init) [d] bounds' =
    (map (event_map as_vector) (fst run), match snd run with Ok (params, info) => Ok (as_vector params, info) | Err e => Err e end).
Proof.
  intros W Hn Hv Hg Hc Hb run. unfold run, min_run.
  assert (Eb : convert_bounds cast bounds' = convert_bounds cast bounds).
  { destruct bounds as [[l u]|], bounds' as [[l' u']|]; try contradiction; [|reflexivity]. destruct Hb as (N1 & N2 & -> & ->). unfold convert_bounds. rewrite !to_onp_vector by assumption. reflexivity. }
  rewrite Eb, to_onp_vector by exact Hn. clear Eb Hb. destruct (convert_bounds cast bounds) as [b|e]; [|reflexivity]. destruct (to_onp cast init) as [x0|e]; [|reflexivity].
  assert (Ec : match cb' with Some _ => true | None => false end = match cb with Some _ => true | None => false end) by (destruct cb, cb'; try contradiction; reflexivity).
  rewrite Ec. clear Ec.
  assert (Ha : forall C (ev : ptree -> event) (f f' : ptree -> result C), (forall t, event_map as_vector (ev t) = ev (as_vector t)) -> (forall x, wf x -> same_kind x init -> f' (as_vector x) = f x) -> forall x,
    ask dtype round (pytree_topology_from_example (as_vector init)) [d] (fun t => [ev t]) f' x =
    (map (event_map as_vector) (fst (ask dtype round (pytree_topology_from_example init) (repeat d (length (leaves init))) (fun t => [ev t]) f x)), snd (ask dtype round (pytree_topology_from_example init) (repeat d (length (leaves init))) (fun t => [ev t]) f x))).
  { intros C ev f f' He Hf x. unfold ask. rewrite to_jnp_vector by assumption. destruct (Nat.eq_dec (length x) (length (ravel init))) as [E|E].
    - destruct (to_jnp_ok round init (repeat d (length (leaves init))) x W Hn) as (u & t & _ & _ & _ & -> & Wt & Kt & _); [apply repeat_length|exact E|]. cbn [fst snd map]. rewrite He, (Hf t Wt Kt). reflexivity.
    - rewrite (to_jnp_bad round init) by assumption. reflexivity. }
  rewrite (play_map (event_map as_vector) (min_fun dtype round cast (pytree_topology_from_example init) (repeat d (length (leaves init))) vg)
                    (min_callback dtype round B (pytree_topology_from_example init) (repeat d (length (leaves init))) cb)).
  - match goal with |- context [play ?f ?g ?p] => destruct (play f g p) as [ev [r|e]] end; cbn [fst snd]; [|reflexivity]. f_equal.
    unfold min_finish. rewrite to_jnp_vector by assumption. destruct (to_jnp _ _ _ _ (mr_x r)); [|reflexivity]. destruct (convert_hess (mr_hess r)); reflexivity.
  - intros x. unfold min_fun. apply (Ha _ EFun); [reflexivity|]. intros t Wt Kt. rewrite (Hv t Wt Kt). destruct (vg t) as [[v g]|e] eqn:E; [|reflexivity]. rewrite to_onp_vector; [reflexivity|]. exact (Hg _ _ _ E).
  - intros x. unfold min_callback. destruct cb as [f|], cb' as [f'|]; try contradiction; [|reflexivity]. apply (Ha _ ECallback); [reflexivity|exact Hc].
Qed.
Print Assumptions C62_flat.

(** ** What is returned *)
(** From SciPy's result: the parameters are the vector [x] of the result, put into the structure of the initial parameters and
    rounded to their dtypes; the fields of the information are those of the result, absent counters being 0.  A vector of the
    wrong length is rejected, and a hess_inv of an unknown type raises. *)
Theorem C62_result {dtype} (round : dtype -> R -> R) (cast : R -> R) B minimize s vg (cb : option (ptree -> result B)) init dts bounds b r ev :
  wf init -> nonempty init -> length dts = length (leaves init) ->
  convert_bounds cast bounds = Ok b ->
  let p := pytree_topology_from_example init in
  play (min_fun dtype round cast p dts vg) (min_callback dtype round B p dts cb)
       (minimize {| mc_x0 := map cast (ravel init); mc_tol := ms_tol s; mc_bounds := b; mc_method := ms_method s;
                    mc_callback := match cb with Some _ => true | None => false end; mc_options := ms_options s |}) = (ev, Ok r) ->
  exists out, min_run dtype round cast B minimize s vg cb init dts bounds = (ev, out) /\
  (length (mr_x r) <> length (ravel init) -> out = Err ValueError) /\
  (length (mr_x r) = length (ravel init) -> mr_hess r = OtherHess -> out = Err UnboundLocalError) /\
  (length (mr_x r) = length (ravel init) -> forall h, convert_hess (mr_hess r) = Ok h ->
     exists u params, wf u /\ same_kind u init /\ ravel u = mr_x r /\ wf params /\ same_kind params init /\ rounded round dts u params /\
       out = Ok (params, {| mi_fun_val := mr_fun r; mi_success := mr_success r; mi_status := mr_status r; mi_iter_num := mr_nit r; mi_hess_inv := h;
                            mi_num_fun_eval := match mr_nfev r with Some k => k | None => 0%Z end; mi_num_jac_eval := match mr_njev r with Some k => k | None => 0%Z end;
                            mi_num_hess_eval := match mr_nhev r with Some k => k | None => 0%Z end |})).
Proof.
  intros W Hn L Hb p Hp. exists (min_finish dtype round p dts r). split.
  - unfold min_run. rewrite Hb. unfold to_onp. rewrite (jnp_ok _ Hn). fold p. rewrite Hp. reflexivity.
  - unfold min_finish. clear Hp. subst p. split; [|split].
    + intros E. rewrite (to_jnp_bad round init dts _ W Hn E). reflexivity.
    + intros E H. destruct (to_jnp_ok round init dts _ W Hn L E) as (u & t & _ & _ & _ & -> & _). rewrite H. reflexivity.
    + intros E h H. destruct (to_jnp_ok round init dts _ W Hn L E) as (u & t & Wu & Ku & Ru & -> & Wt & Kt & Rt). rewrite H. exists u, t. repeat (split; [assumption|]). reflexivity.
Qed.
Print Assumptions C62_result.

(** The reported value is the objective at the returned parameters (not at SciPy's unrounded vector), and a zero gradient seen by
    SciPy is a zero of the optimality function at the returned parameters: if SciPy reports the value, respectively finds the
    gradient to be zero, at the point it returns. *)
Theorem C62_value {dtype} (round : dtype -> R -> R) (cast : R -> R) init dts vg r params info v g :
  let p := pytree_topology_from_example init in
  snd (min_fun dtype round cast p dts vg (mr_x r)) = Ok (v, g) -> min_finish dtype round p dts r = Ok (params, info) ->
  exists value grads, vg params = Ok (value, grads) /\ v = cast value /\ g = map cast (ravel grads) /\
    (mr_fun r = v -> mi_fun_val info = cast value) /\
    ((forall z, cast z = 0 -> z = 0) -> Forall (fun z => z = 0) g -> Forall (fun z => z = 0) (ravel grads)).
Proof.
  intros p Hf Hr. unfold min_finish in Hr. unfold min_fun, ask in Hf. destruct (to_jnp dtype round p dts (mr_x r)) as [t|e]; [|discriminate].
  destruct (convert_hess (mr_hess r)) as [h|e]; [|discriminate]. injection Hr as <- <-. cbn [snd] in Hf. destruct (vg t) as [[value grads]|e]; [|discriminate].
  unfold to_onp, jnp_to_onp in Hf. destruct (leaves grads) as [|a l] eqn:El; [discriminate|]. injection Hf as <- <-.
  assert (Eg : flat_map data (a :: l) = ravel grads) by (unfold ravel; rewrite El; reflexivity). cbn [flat_map] in Eg. exists value, grads. split; [reflexivity|]. split; [reflexivity|]. rewrite Eg. split; [reflexivity|]. split; [intros E; exact E|].
  intros C F. apply Forall_forall. intros z Hz. apply C. apply (proj1 (Forall_forall _ _) F). apply in_map. exact Hz.
Qed.
Print Assumptions C62_value.

(** ** Bounds *)
Lemma F2_length {A B} (P : A -> B -> Prop) l l' : Forall2 P l l' -> length l = length l'.
Proof. intros H. induction H; cbn; congruence. Qed.
Lemma le_split x y : wf x -> wf y -> same_kind x y -> (tree_le x y <-> Forall2 Rle (ravel x) (ravel y)).
Proof.
  intros Wx Wy K. pose proof (ravel_kind x y Wx Wy K) as F. unfold tree_le, ravel. clear K Wx Wy. induction F as [|a b l l' Hab F IH]; [cbn; split; constructor|]. cbn [flat_map]. split.
  - intros H. inversion H; subst. apply Forall2_app; [assumption|]. apply IH. assumption.
  - intros H. apply Forall2_app_inv_l in H. destruct H as (l1 & l2 & H1 & H2 & E). assert (length l1 = length (data b)) by (apply F2_length in H1; lia).
    assert (E1 : l1 = data b /\ l2 = flat_map data l'). { clear -E H. revert H E. generalize (data b) (flat_map data l'). intros m; revert l1. induction m as [|z m IH]; intros [|w l1] k L E; try discriminate; [split; [reflexivity|symmetry; exact E]|]. cbn in E. injection E as <- E. destruct (IH l1 k) as [-> ->]; [simpl in L; lia|exact E|]. split; reflexivity. }
    destruct E1 as [-> ->]. constructor; [exact H1|]. apply IH. exact H2.
Qed.
(** The flattened bounds passed to SciPy bound the flattened parameters entry by entry, and rounding to the dtypes of the
    parameters keeps the returned parameters within the user's bounds if these are values of those dtypes. *)
Theorem C62_bounds {dtype} (round : dtype -> R -> R) (cast : R -> R) init dts lb ub r params info :
  wf init -> nonempty init -> length dts = length (leaves init) -> wf lb -> wf ub -> same_kind lb init -> same_kind ub init ->
  exists l u, convert_bounds cast (Some (lb, ub)) = Ok (Some (l, u)) /\ l = map cast (ravel lb) /\ u = map cast (ravel ub) /\
  ((forall d a b, a <= b -> round d a <= round d b) -> of_dtypes round dts lb -> of_dtypes round dts ub ->
   Forall (fun z => cast z = z) (ravel lb) -> Forall (fun z => cast z = z) (ravel ub) ->
   min_finish dtype round (pytree_topology_from_example init) dts r = Ok (params, info) ->
   Forall2 Rle l (mr_x r) -> Forall2 Rle (mr_x r) u -> tree_le lb params /\ tree_le params ub).
Proof.
  intros W Hn L Wl Wu Kl Ku. exists (map cast (ravel lb)), (map cast (ravel ub)). split; [unfold convert_bounds, to_onp; rewrite !jnp_ok by (eapply nonempty_kind; eassumption); reflexivity|]. split; [reflexivity|]. split; [reflexivity|].
  intros M Ol Ou Cl Cu Hf Hl Hu.
  assert (Id : forall z, Forall (fun a => cast a = a) z -> map cast z = z) by (intros z H; induction H as [|a z Ha _ IH]; [reflexivity|cbn; rewrite Ha, IH; reflexivity]).
  rewrite (Id _ Cl) in Hl. rewrite (Id _ Cu) in Hu.
  assert (E : length (mr_x r) = length (ravel init)) by (apply F2_length in Hl; rewrite <- Hl; apply ravel_length; assumption).
  unfold min_finish in Hf. destruct (to_jnp_ok round init dts _ W Hn L E) as (w & t & Ww & Kw & Rw & Et & Wt & Kt & Rt). rewrite Et in Hf. destruct (convert_hess (mr_hess r)); [|discriminate]. injection Hf as <- _.
  assert (Klw : same_kind lb w) by (unfold same_kind in *; congruence). assert (Kwu : same_kind w ub) by (unfold same_kind in *; congruence).
  pose proof (leaves_length _ _ (same_kind_structure _ _ Kl)) as N1. pose proof (leaves_length _ _ (same_kind_structure _ _ Ku)) as N2. pose proof (leaves_length _ _ (same_kind_structure _ _ Kw)) as N3.
  split.
  - apply (rounded_le round dts lb w lb t M); [congruence|apply same_kind_structure; exact Klw|apply rounded_id; [congruence|exact Ol]|exact Rt|]. apply le_split; try assumption. rewrite Rw. exact Hl.
  - apply (rounded_le round dts w ub t ub M); [congruence|apply same_kind_structure; exact Kwu|exact Rt|apply rounded_id; [congruence|exact Ou]|]. apply le_split; try assumption. rewrite Rw. exact Hu.
Qed.
Print Assumptions C62_bounds.

(** ** Derivatives *)
(** With exact arithmetic SciPy minimises the function of the flat vector, and the gradient it is given is the gradient of that
    function. *)
Theorem C62_gradient init vg (f : ptree -> R) (G : ptree -> ptree) : wf init -> nonempty init ->
  (forall x, wf x -> same_kind x init -> vg x = Ok (f x, G x) /\ wf (G x) /\ same_kind (G x) x /\ tree_gradient f x (G x)) ->
  exists (F : vec -> R) (DF : vec -> vec),
    (forall x, wf x -> same_kind x init -> F (ravel x) = f x /\ DF (ravel x) = ravel (G x)) /\
    forall v, length v = length (ravel init) ->
      snd (min_fun unit no_rounding (fun r => r) (pytree_topology_from_example init) (repeat tt (length (leaves init))) vg v) = Ok (F v, DF v) /\
      vec_gradient F v (DF v).
Proof.
  intros W Hn H. set (p := pytree_topology_from_example init). set (dts := repeat tt (length (leaves init))).
  set (F v := match to_jnp unit no_rounding p dts v with Ok t => f t | Err _ => 0 end). set (DF v := match to_jnp unit no_rounding p dts v with Ok t => ravel (G t) | Err _ => [] end).
  assert (HF : forall x, wf x -> same_kind x init -> F (ravel x) = f x /\ DF (ravel x) = ravel (G x)) by (intros x Wx Kx; unfold F, DF, p, dts; rewrite (to_jnp_exact init x W Hn Wx Kx); auto).
  exists F, DF. split; [exact HF|]. intros v Lv. destruct (tree_of init v W Hn Lv) as (x & Wx & Kx & <-).
  destruct (H x Wx Kx) as (E1 & E2 & E3 & E4). destruct (HF x Wx Kx) as [-> ->]. assert (Nx := nonempty_kind _ _ Kx Hn). assert (Ng := nonempty_kind _ _ E3 Nx). split.
  - unfold min_fun, ask, p, dts. rewrite (to_jnp_exact init x W Hn Wx Kx). cbn [snd]. rewrite E1. rewrite (to_onp_exact _ Ng). reflexivity.
  - split; [apply ravel_length; assumption|]. intros w Lw. destruct (tree_of init w W Hn) as (t & Wt & Kt & <-); [unfold vec in *; congruence|].
    assert (Ktx : same_kind t x) by (unfold same_kind in *; congruence). destruct (tree_path x t Wx Wt Ktx) as (path & P1 & P2).
    assert (D := E4 t path (dot (ravel (G x)) (ravel t)) Wt Ktx P1). 
    assert (Kgt : same_kind (G x) t) by (unfold same_kind in *; congruence). specialize (D (proj1 (C40_vdot (G x) t E2 Wt Kgt) Ng)).
    intros eps Heps. destruct (D eps Heps) as [delta Hd]. exists delta. intros h Hh0 Hh. specialize (Hd h Hh0 Hh).
    assert (Ef : forall h, F (vadd (ravel x) (smul h (ravel t))) = f (path h)). { intros k. destruct (P2 k) as (Q1 & Q2 & Q3). rewrite <- Q3. apply HF; [exact Q1|unfold same_kind in *; congruence]. }
    rewrite !Ef. exact Hd.
Qed.
Print Assumptions C62_gradient.

(** The matrices given to SciPy are the Jacobians of the flat functions. *)
Lemma jac_core init out (f : ptree -> ptree) x jx : wf init -> nonempty init -> wf out -> nonempty out ->
  wf x -> same_kind x init -> (forall y, wf y -> same_kind y init -> wf (f y) /\ same_kind (f y) out) -> tree_jacobian f x jx ->
  exists J, jac_jnp_to_onp (pytree_topology_from_example init) (pytree_topology_from_example out) jx = Ok J /\
    mat_shape (length (ravel (f x))) (length (ravel x)) J /\
    forall t path e, wf t -> same_kind t x -> (forall h, tree_add_scalar_mul x h t = Ok (path h)) -> (forall h, wf (path h) /\ same_kind (path h) x) -> (e < length (ravel (f x)))%nat ->
      derivable_pt_lim (fun h => nth e (ravel (f (path h))) 0) 0 (nth e (mvec J (ravel t)) 0).
Proof.
  intros W Hn Wo Hno Wx Kx Hf (Lj & block & Hb & Hd).
  destruct (Hf x Wx Kx) as [Wf Kf].
  pose proof (proj1 (same_kind_iff _ _) Kx) as [_ Sx]. pose proof (proj1 (same_kind_iff _ _) Kf) as [_ Sf].
  assert (Nx : length (leaves x) = length (leaves init)) by (apply leaves_length; apply same_kind_structure; exact Kx).
  assert (Nf : length (leaves (f x)) = length (leaves out)) by (apply leaves_length; apply same_kind_structure; exact Kf).
  set (n := length (leaves x)) in *. set (m := length (leaves (f x))) in *.
  assert (Sz : forall (y z : ptree), wf y -> map shape (leaves y) = map shape (leaves z) -> forall k, (k < length (leaves y))%nat -> size (nth k (map shape (leaves z)) []) = length (data (nth k (leaves y) no_arr))).
  { intros y z Wy E k Hk. rewrite <- E. rewrite (nth_indep _ [] (shape no_arr)) by (rewrite map_length; exact Hk). rewrite map_nth. symmetry. apply (proj1 (Forall_forall _ _) Wy). apply nth_In. exact Hk. }
  assert (Hb' : forall i j, (i < m)%nat -> (j < n)%nat -> mat_shape (size (nth i (map shape (leaves out)) [])) (size (nth j (map shape (leaves init)) [])) (block i j) /\ data (nth (j + i * n) (leaves jx) no_arr) = concat (block i j)).
  { intros i j Hi Hj. rewrite (Sz (f x) out Wf Sf i Hi), (Sz x init Wx Sx j Hj). apply Hb; assumption. }
  assert (EJ := jac_assembled (pytree_topology_from_example init) (pytree_topology_from_example out) jx block). cbv zeta in EJ. cbn [pytree_topology_from_example top_shapes] in EJ. rewrite !map_length, <- Nx, <- Nf in EJ. specialize (EJ Lj Hb').
  eexists. split; [exact EJ|].
  set (osz i := size (nth i (map shape (leaves out)) [])). set (isz j := size (nth j (map shape (leaves init)) [])).
  assert (Rsum : forall y : ptree, length (ravel y) = list_sum (map (fun a => length (data a)) (leaves y))) by (intros y; unfold ravel; induction (leaves y) as [|a l IH]; [reflexivity|]; cbn [flat_map map list_sum fold_right]; rewrite app_length, IH; reflexivity).
  assert (Esz : forall y z : ptree, wf y -> map shape (leaves y) = map shape (leaves z) -> map (fun a => length (data a)) (leaves y) = map (fun k => size (nth k (map shape (leaves z)) [])) (seq 0 (length (leaves y)))).
  { intros y z Wy E. apply nth_ext with 0%nat 0%nat; [rewrite !map_length, seq_length; reflexivity|]. intros k Hk. rewrite map_length in Hk.
    rewrite (nth_indep _ 0%nat (length (data no_arr))) by (rewrite map_length; exact Hk). rewrite (map_nth (fun a => length (data a))).
    rewrite (nth_indep _ 0%nat (size (nth 0 (map shape (leaves z)) []))) by (rewrite map_length, seq_length; exact Hk). rewrite (map_nth (fun k => size (nth k (map shape (leaves z)) []))), seq_nth by exact Hk. symmetry. apply Sz; assumption. }
  assert (Hrow : forall i, (i < m)%nat -> mat_shape (osz i) (length (ravel x)) (hcat (map (block i) (seq 0 n)) (osz i))).
  { intros i Hi. rewrite Rsum, (Esz x init Wx Sx). fold n. apply hcat_shape. assert (P : forall j, In j (seq 0 n) -> mat_shape (osz i) (isz j) (block i j)) by (intros j Hj; apply in_seq in Hj; apply Hb'; lia).
    revert P. generalize (seq 0 n). intros l P. induction l as [|j l IH]; [constructor|]. cbn [map]. constructor; [apply P; left; reflexivity|]. apply IH. intros k Hk. apply P. right. exact Hk. }
  split.
  { rewrite (Rsum (f x)), (Esz (f x) out Wf Sf). fold m. assert (P : forall i, In i (seq 0 m) -> mat_shape (osz i) (length (ravel x)) (hcat (map (block i) (seq 0 n)) (osz i))) by (intros i Hi; apply in_seq in Hi; apply Hrow; lia).
    revert P. generalize (seq 0 m). intros l P. induction l as [|i l IH]; [split; [reflexivity|constructor]|]. cbn [map concat list_sum fold_right].
    destruct (P i (or_introl eq_refl)) as [A1 A2]. destruct IH as [B1 B2]; [intros k Hk; apply P; right; exact Hk|]. split; [rewrite app_length; unfold osz in *; f_equal; [exact A1|exact B1]|]. apply Forall_app. split; assumption. }
  intros t path e Wt Kt P1 P2 He.
  pose proof (proj1 (same_kind_iff _ _) Kt) as [_ St].
  rewrite (Rsum (f x)) in He. destruct (flat_index _ e He) as (i & e' & I1 & I2 & I3). rewrite map_length in I1. fold m in I1.
  rewrite (nth_indep _ 0%nat (length (data no_arr))) in I2 by (rewrite map_length; exact I1). rewrite (map_nth (fun a => length (data a))) in I2.
  specialize (Hd t path Wt Kt P1 i e' I1 I2).
  assert (Ey : forall h, nth e (ravel (f (path h))) 0 = nth e' (data (nth i (leaves (f (path h))) no_arr)) 0).
  { intros h. destruct (P2 h) as [Wp Kp]. assert (Kpi : same_kind (path h) init) by (unfold same_kind in *; congruence). destruct (Hf _ Wp Kpi) as [Wy Ky]. pose proof (proj1 (same_kind_iff _ _) Ky) as [_ Sy].
    unfold ravel. rewrite flat_map_concat_map. rewrite I3.
    - rewrite (nth_indep _ [] (data no_arr)) by (rewrite map_length, (leaves_length (f (path h)) out (same_kind_structure _ _ Ky)), <- Nf; exact I1). rewrite map_nth. reflexivity.
    - rewrite map_map. rewrite (Esz _ out Wy Sy), (Esz _ out Wf Sf). rewrite (leaves_length (f (path h)) out (same_kind_structure _ _ Ky)). fold m. rewrite Nf. reflexivity. }
  assert (EJw : nth e (mvec (concat (map (fun i => hcat (map (block i) (seq 0 n)) (osz i)) (seq 0 m))) (ravel t)) 0 = vsum (map (fun j => nth e' (mvec (block i j) (data (nth j (leaves t) no_arr))) 0) (seq 0 n))).
  { unfold mvec at 1. rewrite concat_map, map_map.
    assert (Hseg : forall k, (k < m)%nat -> map (fun r => dot r (ravel t)) (hcat (map (block k) (seq 0 n)) (osz k)) = fold_right vadd (vzero (osz k)) (map (fun j => mvec (block k j) (data (nth j (leaves t) no_arr))) (seq 0 n)) /\ Forall (fun v : vec => length v = osz k) (map (fun j => mvec (block k j) (data (nth j (leaves t) no_arr))) (seq 0 n))).
    { intros k Hk. assert (Nt : length (leaves t) = n) by (apply leaves_length; apply same_kind_structure; exact Kt). split.
      - assert (Et : map data (leaves t) = map (fun j => data (nth j (leaves t) no_arr)) (seq 0 n)). { apply nth_ext with [] []; [rewrite !map_length, seq_length; exact Nt|]. intros j Hj. rewrite map_length in Hj. rewrite (nth_indep _ [] (data no_arr)) by (rewrite map_length; exact Hj). rewrite map_nth. rewrite (nth_indep _ [] (data (nth 0 (leaves t) no_arr))) by (rewrite map_length, seq_length; lia). rewrite (map_nth (fun j => data (nth j (leaves t) no_arr))), seq_nth by lia. reflexivity. }
        assert (Hcat := fun H => proj2 (hcat_spec (osz k) (map (block k) (seq 0 n)) (map data (leaves t)) H)). unfold ravel. rewrite flat_map_concat_map. unfold mvec at 1 in Hcat. rewrite Hcat.
        + f_equal. rewrite Et. generalize (seq 0 n). intros l. induction l as [|j l IH]; [reflexivity|]. cbn [map zip_with]. f_equal. exact IH.
        + rewrite Et. assert (P : forall j, In j (seq 0 n) -> mat_shape (osz k) (length (data (nth j (leaves t) no_arr))) (block k j)).
          { intros j Hj. apply in_seq in Hj. assert (length (data (nth j (leaves t) no_arr)) = isz j) as ->; [|apply Hb'; lia]. unfold isz. symmetry. apply Sz; [exact Wt|congruence|lia]. }
          revert P. generalize (seq 0 n). intros l P. induction l as [|j l IH]; [constructor|]. cbn [map]. constructor; [apply P; left; reflexivity|]. apply IH. intros q Hq. apply P. right. exact Hq.
      - apply Forall_forall. intros v Hv. apply in_map_iff in Hv. destruct Hv as (j & <- & Hj). apply in_seq in Hj. unfold mvec. rewrite map_length. apply Hb'; lia. }
    rewrite I3.
    - rewrite (nth_indep _ [] (map (fun r => dot r (ravel t)) (hcat (map (block 0%nat) (seq 0 n)) (osz 0%nat)))) by (rewrite map_length, seq_length; exact I1).
      rewrite (map_nth (fun i => map (fun r => dot r (ravel t)) (hcat (map (block i) (seq 0 n)) (osz i)))), seq_nth by exact I1. cbn [Nat.add]. destruct (Hseg i I1) as [-> HF]. rewrite (fold_vadd_nth (osz i) e' _ HF), map_map. reflexivity.
    - rewrite map_map, (Esz (f x) out Wf Sf). fold m. apply map_ext_in. intros k Hk. apply in_seq in Hk. rewrite map_length. apply Hrow. lia. }
  rewrite <- EJw in Hd. intros eps Heps. destruct (Hd eps Heps) as [delta Hdl]. exists delta. intros h Hh0 Hh. specialize (Hdl h Hh0 Hh). rewrite !Ey. exact Hdl.
Qed.

Theorem C62_jacobian init out (f J_ : ptree -> ptree) fun_ jac : wf init -> nonempty init -> wf out -> nonempty out ->
  (forall x, wf x -> same_kind x init -> fun_ x = Ok (f x) /\ jac x = Ok (J_ x) /\ wf (f x) /\ same_kind (f x) out /\ tree_jacobian f x (J_ x)) ->
  let p := pytree_topology_from_example init in let q := pytree_topology_from_example out in let dts := repeat tt (length (leaves init)) in
  exists (F : vec -> vec) (J : vec -> mat),
    (forall x, wf x -> same_kind x init -> F (ravel x) = ravel (f x)) /\
    forall v, length v = length (ravel init) -> vec_jacobian F v (J v) /\
      snd (ls_fun unit no_rounding (fun r => r) p dts fun_ v) = Ok (F v) /\ snd (ls_jac unit no_rounding (fun r => r) p q dts jac v) = Ok (J v) /\
      (out = init -> snd (root_fun unit no_rounding (fun r => r) p dts fun_ jac v) = Ok (F v, J v)).
Proof.
  intros W Hn Wo Hno H p q dts.
  set (F v := match to_jnp unit no_rounding p dts v with Ok t => ravel (f t) | Err _ => [] end).
  set (J v := match to_jnp unit no_rounding p dts v with Ok t => match jac_jnp_to_onp p q (J_ t) with Ok M => M | Err _ => [] end | Err _ => [] end).
  assert (HF : forall x, wf x -> same_kind x init -> F (ravel x) = ravel (f x)) by (intros x Wx Kx; unfold F, p, dts; rewrite (to_jnp_exact init x W Hn Wx Kx); reflexivity).
  exists F, J. split; [exact HF|]. intros v Lv. destruct (tree_of init v W Hn Lv) as (x & Wx & Kx & <-).
  destruct (H x Wx Kx) as (E1 & E2 & E3 & E4 & E5).
  destruct (jac_core init out f x (J_ x) W Hn Wo Hno Wx Kx) as (M & EM & SM & DM); [intros y Wy Ky; destruct (H y Wy Ky) as (_ & _ & A & B & _); split; assumption|exact E5|].
  assert (EJ : J (ravel x) = M) by (unfold J, p, q, dts; rewrite (to_jnp_exact init x W Hn Wx Kx), EM; reflexivity).
  assert (Nf := nonempty_kind _ _ E4 Hno). rewrite EJ.
  assert (Id : map (map (fun r : R => r)) M = M) by (rewrite (map_ext _ (fun r => r)) by (intros; apply map_id); apply map_id).
  split; [|split; [|split]].
  - split; [rewrite HF by assumption; exact SM|]. intros w e Lw He. rewrite HF in He by assumption. destruct (tree_of init w W Hn) as (t & Wt & Kt & <-); [unfold vec in *; congruence|].
    assert (Ktx : same_kind t x) by (unfold same_kind in *; congruence). destruct (tree_path x t Wx Wt Ktx) as (path & P1 & P2).
    assert (D := DM t path e Wt Ktx P1 (fun h => conj (proj1 (P2 h)) (proj1 (proj2 (P2 h)))) He).
    assert (Ef : forall h, F (vadd (ravel x) (smul h (ravel t))) = ravel (f (path h))). { intros k. destruct (P2 k) as (Q1 & Q2 & Q3). rewrite <- Q3. apply HF; [exact Q1|unfold same_kind in *; congruence]. }
    intros eps Heps. destruct (D eps Heps) as [delta Hd]. exists delta. intros h Hh0 Hh. specialize (Hd h Hh0 Hh). rewrite !Ef. exact Hd.
  - unfold ls_fun, ask, p, dts. rewrite (to_jnp_exact init x W Hn Wx Kx). cbn [snd]. rewrite E1, HF by assumption. apply to_onp_exact. exact Nf.
  - unfold ls_jac, ask, p, dts. rewrite (to_jnp_exact init x W Hn Wx Kx). cbn [snd]. rewrite E2. unfold q. rewrite EM, Id. reflexivity.
  - intros ->. unfold root_fun, p, dts. rewrite (to_jnp_exact init x W Hn Wx Kx). rewrite E1. cbn [snd]. rewrite E2, (to_onp_exact _ Nf), EM, Id, HF by assumption. reflexivity.
Qed.
Print Assumptions C62_jacobian.

(** ** Roots and least squares *)
(** The returned pytree and information of ScipyRootFinding and of the least-squares wrappers. *)
Theorem C62_root_result {dtype} (round : dtype -> R -> R) (cast : R -> R) root s f jac init dts r ev :
  wf init -> nonempty init -> length dts = length (leaves init) ->
  play (root_fun dtype round cast (pytree_topology_from_example init) dts f jac) (fun _ => ([], Err TypeError))
       (root {| rc_x0 := map cast (ravel init); rc_tol := rs_tol s; rc_method := rs_method s; rc_options := rs_options s |}) = (ev, Ok r) ->
  exists out, root_run dtype round cast root s f jac init dts = (ev, out) /\
  (length (rr_x r) <> length (ravel init) -> out = Err ValueError) /\
  (length (rr_x r) = length (ravel init) -> exists u params info, wf u /\ same_kind u init /\ ravel u = rr_x r /\ wf params /\ same_kind params init /\ rounded round dts u params /\
     out = Ok (params, info) /\ ri_fun_val info = rr_fun r /\ ri_success info = rr_success r /\ ri_status info = rr_status r /\
     (forall i k, rr_counts r = RootResults i k -> ri_iter_num info = Some i /\ ri_num_fun_eval info = Some k) /\
     (forall i k, rr_counts r = Attributes i k -> ri_iter_num info = i /\ ri_num_fun_eval info = k)).
Proof.
  intros W Hn L Hp. exists (root_finish dtype round (pytree_topology_from_example init) dts r). split.
  - unfold root_run, to_onp. rewrite (jnp_ok _ Hn). rewrite Hp. reflexivity.
  - unfold root_finish. split.
    + intros E. rewrite (to_jnp_bad round init dts _ W Hn E). reflexivity.
    + intros E. destruct (to_jnp_ok round init dts _ W Hn L E) as (u & t & Wu & Ku & Ru & -> & Wt & Kt & Rt). exists u, t.
      destruct (rr_counts r) as [i k|i k]; eexists; repeat (split; [eassumption || reflexivity|]); (split; intros i' k' H; [try discriminate H|try discriminate H]); injection H as <- <-; split; reflexivity.
Qed.
Print Assumptions C62_root_result.
Theorem C62_ls_result {dtype} (round : dtype -> R -> R) (cast : R -> R) least_squares s f jac init y dts bounds b r ev :
  wf init -> nonempty init -> length dts = length (leaves init) -> f init = Ok y -> convert_bounds cast bounds = Ok b ->
  (forall k, In k ["jac"; "bounds"; "method"; "loss"]%string -> dict_mem (lss_options s) k = false) ->
  play (ls_fun dtype round cast (pytree_topology_from_example init) dts f) (ls_jac dtype round cast (pytree_topology_from_example init) (pytree_topology_from_example y) dts jac)
       (least_squares {| lc_x0 := map cast (ravel init); lc_bounds := match b with Some (l, u) => Between l u | None => Unbounded end;
                         lc_method := lss_method s; lc_loss := lss_loss s; lc_options := lss_options s |}) = (ev, Ok r) ->
  exists out, ls_run dtype round cast least_squares s f jac init dts bounds = (EFun init :: ev, out) /\
  (length (lr_x r) <> length (ravel init) -> out = Err ValueError) /\
  (length (lr_x r) = length (ravel init) -> forall njev, lr_njev r = Some njev -> exists u params, wf u /\ same_kind u init /\ ravel u = lr_x r /\ wf params /\ same_kind params init /\ rounded round dts u params /\
     out = Ok (params, {| li_cost_val := lr_cost r; li_fun_val := lr_fun r; li_success := lr_success r; li_status := lr_status r;
                          li_num_fun_eval := lr_nfev r; li_num_jac_eval := njev; li_error := lr_optimality r |})).
Proof.
  intros W Hn L Hy Hb Hk Hp. exists (ls_finish dtype round (pytree_topology_from_example init) dts r). split.
  - unfold ls_run. rewrite Hy. assert (D : ls_duplicate (lss_options s) = false) by (unfold ls_duplicate, ls_explicit; cbn [existsb]; rewrite !Hk by (cbn; tauto); reflexivity).
    destruct bounds as [lu|]; [rewrite Hb; destruct b as [[l u]|]|injection Hb as <-]; unfold to_onp; rewrite (jnp_ok _ Hn), D, Hp; reflexivity.
  - unfold ls_finish. split.
    + intros E. rewrite (to_jnp_bad round init dts _ W Hn E). reflexivity.
    + intros E k Hj. destruct (to_jnp_ok round init dts _ W Hn L E) as (u & t & Wu & Ku & Ru & -> & Wt & Kt & Rt). rewrite Hj. exists u, t. repeat (split; [assumption|]). reflexivity.
Qed.
Print Assumptions C62_ls_result.
(** An option that the wrapper passes itself raises TypeError, before SciPy is called. *)
Theorem C62_ls_duplicate {dtype} (round : dtype -> R -> R) (cast : R -> R) least_squares s f jac init y dts bounds b k :
  nonempty init -> f init = Ok y -> convert_bounds cast bounds = Ok b -> In k ["jac"; "bounds"; "method"; "loss"]%string -> dict_mem (lss_options s) k = true ->
  ls_run dtype round cast least_squares s f jac init dts bounds = ([EFun init], Err TypeError).
Proof.
  intros Hn Hy Hb Hk Hd. unfold ls_run. rewrite Hy.
  assert (D : ls_duplicate (lss_options s) = true) by (unfold ls_duplicate, ls_explicit; apply existsb_exists; exists k; split; assumption).
  destruct bounds as [lu|]; [rewrite Hb; destruct b as [[l u]|]|]; unfold to_onp; rewrite (jnp_ok _ Hn), D; reflexivity.
Qed.
Print Assumptions C62_ls_duplicate.
(** SciPy's least_squares accepts the methods 'trf', 'dogbox' and 'lm' only.  The default method of the wrappers is None, so a
    least-squares wrapper constructed without a method never returns. *)
Theorem C62_ls_default_method_refuted {dtype} (round : dtype -> R -> R) (cast : R -> R) least_squares s f jac init dts bounds :
  (forall c, ~ In (lc_method c) [Some "trf"; Some "dogbox"; Some "lm"]%string -> least_squares c = Raise ValueError) ->
  lss_method s = None -> forall out, snd (ls_run dtype round cast least_squares s f jac init dts bounds) <> Ok out.
Proof.
  intros H Hm out. unfold ls_run. destruct (f init) as [y|e]; [|discriminate].
  match goal with |- context [match ?b with Ok _ => _ | Err _ => _ end] => destruct b as [b'|e0] end; [|discriminate].
  destruct (to_onp cast init); [|discriminate]. destruct (ls_duplicate _); [discriminate|]. rewrite H; [discriminate|]. cbn [lc_method]. rewrite Hm. cbn. intuition discriminate.
Qed.
Print Assumptions C62_ls_default_method_refuted.

(** ** The inverse Hessian product as a pytree *)
Lemma skipn_add {A} a b (l : list A) : skipn a (skipn b l) = skipn (b + a) l.
Proof. revert l. induction b as [|b IH]; intros l; [reflexivity|]. destruct l as [|z l]; [cbn; apply skipn_nil|]. cbn. apply IH. Qed.
(** Flattening and rebuilding gives the same object; mapping over its leaves rebuilds it from the mapped arrays; its [rho] is the
    vector of the 1 / <s_i, y_i>. *)
Theorem C62_lbfgs_tree sk yk p : new_lbfgs_product sk yk = Ok p ->
  lbfgs_unflatten (lbfgs_flatten p) = Ok p /\ lp_sk p = sk /\ lp_yk p = yk /\
  (exists k n, shape sk = [k; n] /\ shape yk = [k; n] /\ lp_n_corrs p = k /\ lp_shape p = (n, n) /\
     (length (data sk) = (k * n)%nat -> length (data yk) = (k * n)%nat -> length (lp_rho p) = k /\
        forall i, (i < k)%nat -> nth i (lp_rho p) 0 = 1 / dot (firstn n (skipn (i * n) (data sk))) (firstn n (skipn (i * n) (data yk))))) /\
  (forall f, (forall a, shape (f a) = shape a) -> lbfgs_tree_map (fun a => ArrayLeaf (f a)) p = new_lbfgs_product (f sk) (f yk) /\ exists p', new_lbfgs_product (f sk) (f yk) = Ok p').
Proof.
  unfold new_lbfgs_product at 1. destruct (shape sk) as [|k [|n [|]]] eqn:Es; try discriminate. unfold shape_eqb. destruct (list_eq_dec Nat.eq_dec [k; n] (shape yk)) as [E|]; [|discriminate]. intros H. injection H as <-.
  assert (Heq : forall l : list nat, (if list_eq_dec Nat.eq_dec l l then true else false) = true) by (intros l; destruct (list_eq_dec Nat.eq_dec l l); congruence).
  split; [cbn [lbfgs_flatten lp_sk lp_yk lbfgs_unflatten]; unfold new_lbfgs_product, shape_eqb; rewrite Es, <- E, Heq; reflexivity|]. split; [reflexivity|]. split; [reflexivity|]. split.
  - exists k, n. split; [reflexivity|]. split; [symmetry; exact E|]. split; [reflexivity|]. split; [reflexivity|]. cbn [lp_rho]. clear Es E. generalize (data sk) (data yk). intros x y _ _.
    assert (Lr : forall k x, length (to_rows k n x) = k) by (intros k0; induction k0 as [|k0 IH]; intros z; [reflexivity|cbn; f_equal; apply IH]).
    split; [rewrite zip_length by (rewrite !Lr; reflexivity); apply Lr|]. revert x y. induction k as [|k IH]; intros x y i Hi; [lia|]. cbn [to_rows zip_with]. destruct i as [|i]; [reflexivity|]. cbn [nth]. rewrite IH by lia.
    assert (Sk : forall (z : vec), skipn (i * n) (skipn n z) = skipn (S i * n) z). { intros z. rewrite skipn_add. f_equal. } rewrite !Sk. reflexivity.
  - intros f Hf. split; [reflexivity|]. unfold new_lbfgs_product. rewrite Hf, Es. unfold shape_eqb. rewrite Hf, <- E, Heq. eexists. reflexivity.
Qed.
Print Assumptions C62_lbfgs_tree.
(** Unlike other pytrees it cannot be rebuilt from leaves that are not matrices: mapping any function whose values are not arrays,
    or are arrays of another rank (for instance a sum over each leaf), raises. *)
Theorem C62_lbfgs_tree_refuted p :
  lbfgs_tree_map (fun _ => OtherLeaf) p = Err AttributeError /\
  (forall f, length (shape (f (lp_sk p))) <> 2%nat -> lbfgs_tree_map (fun a => ArrayLeaf (f a)) p = Err ValueError).
Proof.
  split; [reflexivity|]. intros f H. unfold lbfgs_tree_map. cbn [lbfgs_flatten map lbfgs_unflatten]. unfold new_lbfgs_product. destruct (shape (f (lp_sk p))) as [|a [|b [|]]]; try reflexivity. exfalso. apply H. reflexivity.
Qed.
Print Assumptions C62_lbfgs_tree_refuted.

(** ** Bounds that are not values of the dtype of the parameters *)
(** With integer parameters the returned parameters can violate the bounds although SciPy's vector does not. *)
Theorem C62_bounds_dtype_refuted : exists (init lb ub : ptree) (r : min_result) (params : ptree) (info : min_info),
  wf init /\ of_dtypes truncate [tt] init /\ same_kind lb init /\ same_kind ub init /\
  Forall2 Rle (ravel lb) (mr_x r) /\ Forall2 Rle (mr_x r) (ravel ub) /\
  min_finish unit truncate (pytree_topology_from_example init) [tt] r = Ok (params, info) /\ ~ tree_le lb params.
Proof.
  assert (T : forall z r, IZR z <= r < IZR z + 1 -> 0 <= r -> truncate tt r = IZR z).
  { intros z r H1 H2. unfold truncate. destruct (Rle_dec 0 r); [|contradiction]. f_equal. pose proof (base_Int_part r) as [A B].
    assert (IZR (Int_part r) < IZR z + 1) by lra. assert (IZR z < IZR (Int_part r) + 1) by lra. rewrite <- plus_IZR in *. apply lt_IZR in H, H0. lia. }
  exists (Leaf (mk_arr [1%nat] [1])), (Leaf (mk_arr [1%nat] [1 / 2])), (Leaf (mk_arr [1%nat] [1])),
    {| mr_x := [1 / 2]; mr_fun := 0; mr_success := true; mr_status := 0%Z; mr_nit := 1%Z; mr_hess := NoHess; mr_nfev := None; mr_njev := None; mr_nhev := None |}.
  eexists (Leaf (mk_arr [1%nat] [truncate tt (1 / 2)])). eexists. split; [repeat constructor|]. split; [repeat constructor; rewrite (T 1%Z) by lra; reflexivity|]. split; [reflexivity|]. split; [reflexivity|].
  split; [repeat constructor; lra|]. split; [repeat constructor; lra|]. split; [reflexivity|].
  intros H. unfold tree_le in H. cbn in H. inversion H as [|? ? ? ? H1 _]; subst. inversion H1 as [|? ? ? ? H2 _]; subst. change (1 / 2 <= truncate tt (1 / 2)) in H2. rewrite (T 0%Z) in H2 by lra. lra.
Qed.
Print Assumptions C62_bounds_dtype_refuted.

(** ** Example *)
(** A dictionary of a vector and a scalar; the squared norm, its gradient, and a "SciPy" that evaluates the function, reports to the
    callback and returns the point after one gradient step of length 1/4. *)
Definition ex_init : ptree := Node "dict(a,b)" [Leaf (mk_arr [2%nat] [4; 8]); Leaf (mk_arr [] [12])].
Definition ex_f (x : ptree) : R := dot (ravel x) (ravel x).
Definition ex_G (x : ptree) : ptree := fmap (fun a => mk_arr (shape a) (map (fun r => 2 * r) (data a))) x.
Definition ex_vg (x : ptree) : result (R * ptree) := Ok (ex_f x, ex_G x).
Definition ex_minimize (c : min_call) : process (R * vec) unit min_result :=
  Ask1 (mc_x0 c) (fun a => Ask2 (mc_x0 c) (fun _ =>
    Return {| mr_x := vsub (mc_x0 c) (smul (1 / 4) (snd a)); mr_fun := fst a; mr_success := true; mr_status := 0%Z; mr_nit := 1%Z;
              mr_hess := LbfgsHess (mk_arr [1%nat; 2%nat] [1; 2]) (mk_arr [1%nat; 2%nat] [3; 4]); mr_nfev := Some 1%Z; mr_njev := None; mr_nhev := None |})).
Lemma ex_shape x : wf x -> same_kind x ex_init -> exists a b c, x = Node "dict(a,b)" [Leaf (mk_arr [2%nat] [a; b]); Leaf (mk_arr [] [c])].
Proof.
  intros W K. unfold same_kind in K. destruct x as [|k [|[[s1 d1]|] [|[[s2 d2]|] [|]]]]; try discriminate. cbn in K. injection K as -> -> ->.
  unfold wf in W. cbn in W. inversion W as [|? ? H1 W2]; subst. inversion W2 as [|? ? H2 _]; subst. cbn in H1, H2.
  destruct d1 as [|a [|b [|]]]; try discriminate. destruct d2 as [|c [|]]; try discriminate. exists a, b, c. reflexivity.
Qed.
Definition ex_block (i j : nat) : mat :=
  match i, j with 0%nat, 0%nat => [[3; 0]; [0; 3]] | 0%nat, _ => [[0]; [0]] | _, 0%nat => [[0; 0]] | _, _ => [[3]] end.
Definition ex_map (x : ptree) : ptree := fmap (fun a => mk_arr (shape a) (map (fun r => 3 * r) (data a))) x.
Definition ex_jac (x : ptree) : ptree :=
  Node "jac" [Leaf (mk_arr [2%nat; 2%nat] [3; 0; 0; 3]); Leaf (mk_arr [2%nat] [0; 0]); Leaf (mk_arr [2%nat] [0; 0]); Leaf (mk_arr [] [3])].
Example C62_example :
  wf ex_init /\ nonempty ex_init /\ of_dtypes truncate [tt; tt] ex_init /\ (forall r, truncate tt (truncate tt r) = truncate tt r) /\
  (forall x, wf x -> same_kind x ex_init -> ex_vg x = Ok (ex_f x, ex_G x) /\ wf (ex_G x) /\ same_kind (ex_G x) x /\ tree_gradient ex_f x (ex_G x)) /\
  (forall x, wf x -> same_kind x ex_init -> wf (ex_map x) /\ same_kind (ex_map x) ex_init /\ tree_jacobian ex_map x (ex_jac x)) /\
  exists info, min_run unit no_rounding (fun r => r) unit ex_minimize {| ms_tol := None; ms_method := Some "L-BFGS-B"%string; ms_options := [] |} ex_vg (Some (fun _ => Ok tt)) ex_init [tt; tt] None =
    ([EFun ex_init; ECallback ex_init],
     Ok (Node "dict(a,b)" [Leaf (mk_arr [2%nat] [4 - 1 / 4 * (2 * 4); 8 - 1 / 4 * (2 * 8)]); Leaf (mk_arr [] [12 - 1 / 4 * (2 * 12)])], info)) /\
    mi_num_fun_eval info = 1%Z /\ mi_num_jac_eval info = 0%Z.
Proof.
  assert (T : forall z, (0 <= z)%Z -> truncate tt (IZR z) = IZR z).
  { intros z Hz. unfold truncate. destruct (Rle_dec 0 (IZR z)) as [|C]; [|exfalso; apply C; apply IZR_le; exact Hz]. f_equal. pose proof (base_Int_part (IZR z)) as [A B].
    assert (IZR (Int_part (IZR z)) < IZR z + 1) by lra. assert (IZR z < IZR (Int_part (IZR z)) + 1) by lra. rewrite <- plus_IZR in *. apply lt_IZR in H, H0. lia. }
  assert (P : forall r, 0 <= r -> (0 <= Int_part r)%Z). { intros r Hr. pose proof (base_Int_part r) as [A B]. assert (-1 < IZR (Int_part r)) by lra. apply lt_IZR in H. lia. }
  assert (Tn : forall z, (0 <= z)%Z -> truncate tt (- IZR z) = - IZR z).
  { intros z Hz. destruct (Z.eq_dec z 0) as [->|Hz']; [rewrite Ropp_0; exact (T 0%Z ltac:(lia))|]. unfold truncate. destruct (Rle_dec 0 (- IZR z)) as [C|_]; [exfalso; assert (0 < IZR z) by (apply IZR_lt; lia); lra|].
    rewrite Ropp_involutive. pose proof (T z Hz) as Tz. unfold truncate in Tz. destruct (Rle_dec 0 (IZR z)) as [|C]; [rewrite Tz; reflexivity|exfalso; apply C; apply IZR_le; exact Hz]. }
  split; [repeat constructor|]. split; [discriminate|]. split; [repeat constructor; apply T; lia|]. split; [|split; [|split]].
  - intros r. unfold truncate at 2 3. destruct (Rle_dec 0 r) as [Hr|Hr]; [apply T; apply P; exact Hr|]. apply Tn. apply P. lra.
  - intros x W K. destruct (ex_shape x W K) as (a & b & c & ->). split; [reflexivity|]. split; [repeat constructor|]. split; [reflexivity|].
    intros t path s Wt Kt Hp Hs. destruct (ex_shape t Wt) as (ta & tb & tc & ->); [exact Kt|]. cbn in Hs. injection Hs as <-.
    assert (Ep : forall h, path h = Node "dict(a,b)" [Leaf (mk_arr [2%nat] [a + h * ta; b + h * tb]); Leaf (mk_arr [] [c + h * tc])]) by (intros h; specialize (Hp h); cbn in Hp; injection Hp as <-; reflexivity).
    intros eps Heps. assert (D : derivable_pt_lim (fun h => (a + h * ta) * (a + h * ta) + ((b + h * tb) * (b + h * tb) + (c + h * tc) * (c + h * tc))) 0 (2 * a * ta + (2 * b * tb + 2 * c * tc))).
    { assert (Q : forall a ta, derivable_pt_lim (fun h => (a + h * ta) * (a + h * ta)) 0 (2 * a * ta)).
      { intros u v. replace (2 * u * v) with ((0 + 1 * v) * (u + 0 * v) + (u + 0 * v) * (0 + 1 * v)) by ring.
        assert (L : derivable_pt_lim (fun h => u + h * v) 0 (0 + 1 * v)). { apply (derivable_pt_lim_plus (fun _ => u) (fun h => h * v)); [apply derivable_pt_lim_const|]. replace (1 * v) with (1 * v + 0 * 0) by ring. apply (derivable_pt_lim_mult (fun h => h) (fun _ => v)); [apply derivable_pt_lim_id|apply derivable_pt_lim_const]. }
        apply (derivable_pt_lim_mult (fun h => u + h * v) (fun h => u + h * v)); exact L. }
      apply (derivable_pt_lim_plus (fun h => (a + h * ta) * (a + h * ta)) (fun h => (b + h * tb) * (b + h * tb) + (c + h * tc) * (c + h * tc))); [apply Q|].
      apply (derivable_pt_lim_plus (fun h => (b + h * tb) * (b + h * tb)) (fun h => (c + h * tc) * (c + h * tc))); apply Q. }
    destruct (D eps Heps) as [delta Hd]. exists delta. intros h H0 H1. specialize (Hd h H0 H1). rewrite !Ep. unfold ex_f. cbn.
    match goal with |- Rabs ?u < _ => match type of Hd with Rabs ?v < _ => replace u with v; [exact Hd|] end end. field. exact H0.
  - intros x W K. destruct (ex_shape x W K) as (a & b & c & ->). split; [repeat constructor|]. split; [reflexivity|]. split; [reflexivity|]. exists ex_block. split.
    + intros i j Hi Hj. cbn in Hi, Hj. destruct i as [|[|]]; destruct j as [|[|]]; try lia; (split; [split; [reflexivity|repeat constructor]|reflexivity]).
    + intros t path Wt Kt Hp i e Hi He. destruct (ex_shape t Wt) as (ta & tb & tc & ->); [exact Kt|].
      assert (Ep : forall h, path h = Node "dict(a,b)" [Leaf (mk_arr [2%nat] [a + h * ta; b + h * tb]); Leaf (mk_arr [] [c + h * tc])]) by (intros h; specialize (Hp h); cbn in Hp; injection Hp as <-; reflexivity).
      assert (Q : forall u v, derivable_pt_lim (fun h => 3 * (u + h * v)) 0 (3 * v)).
      { intros u v eps Heps. exists (mkposreal 1 Rlt_0_1). intros h H0 _. replace ((3 * (u + (0 + h) * v) - 3 * (u + 0 * v)) / h - 3 * v) with 0 by (field; exact H0). rewrite Rabs_R0. exact Heps. }
      cbn in Hi. destruct i as [|[|]]; [| |lia]; cbn in He; destruct e as [|[|]]; try lia; intros eps Heps.
      * destruct (Q a ta eps Heps) as [delta Hd]. exists delta. intros h H0 H1. specialize (Hd h H0 H1). rewrite !Ep. cbn. replace (3 * ta + (0 * tb + 0) + (0 * tc + 0 + 0)) with (3 * ta) by ring. exact Hd.
      * destruct (Q b tb eps Heps) as [delta Hd]. exists delta. intros h H0 H1. specialize (Hd h H0 H1). rewrite !Ep. cbn. replace (0 * ta + (3 * tb + 0) + (0 * tc + 0 + 0)) with (3 * tb) by ring. exact Hd.
      * destruct (Q c tc eps Heps) as [delta Hd]. exists delta. intros h H0 H1. specialize (Hd h H0 H1). rewrite !Ep. cbn. replace (0 * ta + (0 * tb + 0) + (3 * tc + 0 + 0)) with (3 * tc) by ring. exact Hd.
  - eexists. split; [reflexivity|]. split; reflexivity.
Qed.
