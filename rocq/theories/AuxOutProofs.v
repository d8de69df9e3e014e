From Coq Require Import String.
From Coq Require Import Reals List ZArith Lra Lia Bool Arith.
From Verif Require Import Prelude Vec Loop Run Base BaseTheorems Pytree PytreeProofs ProxGrad AuxOut.
Import ListNotations.
Open Scope R_scope.

Lemma is_none_eq t : is_none t = true -> t = none.
Proof. destruct t as [a|k [|]]; cbn; try discriminate. intros H. apply String.eqb_eq in H. subst. reflexivity. Qed.

Lemma zip_app {A B C} (f : A -> B -> C) l1 l2 m1 m2 : length l1 = length m1 -> zip_with f (l1 ++ l2) (m1 ++ m2) = zip_with f l1 m1 ++ zip_with f l2 m2.
Proof. revert m1. induction l1 as [|a l1 IH]; intros [|b m1] H; try discriminate; [reflexivity|]. cbn. f_equal. apply IH. cbn in H. lia. Qed.
Lemma sequence_app {A} (l m : list (result A)) r s : sequence l = Ok r -> sequence m = Ok s -> sequence (l ++ m) = Ok (r ++ s).
Proof.
  revert r. induction l as [|[a|e] l IH]; intros r H K; cbn in *; [injection H as <-; exact K| |discriminate].
  destruct (sequence l) as [r'|] eqn:E; [|discriminate]. injection H as <-. rewrite (IH r' eq_refl K). reflexivity.
Qed.

(** what the selection has to produce *)
Inductive selects (c : bool) : ptree -> ptree -> ptree -> Prop :=
| sel_none y : selects c none y y
| sel_leaf a b : shape a = shape b -> length (data a) = length (data b) -> selects c (Leaf a) (Leaf b) (Leaf (if c then a else b))
| sel_node k cs cs' ws : is_none (Node k cs) = false -> sel_list c cs cs' ws -> selects c (Node k cs) (Node k cs') (Node k ws)
with sel_list (c : bool) : list ptree -> list ptree -> list ptree -> Prop :=
| sel_nil : sel_list c [] [] []
| sel_cons x y w xs ys ws : selects c x y w -> sel_list c xs ys ws -> sel_list c (x :: xs) (y :: ys) (w :: ws).
Scheme selects_mut := Induction for selects Sort Prop with sel_list_mut := Induction for sel_list Sort Prop.

Lemma zip_sel (c : bool) l l' : length l = length l' -> zip_with (fun s t : R => if c then s else t) l l' = if c then l else l'.
Proof. revert l'. induction l as [|a l IH]; intros [|b l'] H; try discriminate; [destruct c; reflexivity|]. cbn. rewrite IH by (cbn in H; lia). destruct c; reflexivity. Qed.

Definition go_flat {A B} := fix go (l : list (tree A)) (l' : list (tree B)) : result (list (tree B)) :=
          match l, l' with
          | [], [] => Ok []
          | a :: l, b :: l' => match flatten_up_to a b, go l l' with Ok x, Ok y => Ok (x ++ y) | Err e, _ => Err e | _, Err e => Err e end
          | _, _ => Err ValueError
          end.

Lemma selects_flat c x y w : selects c x y w ->
  exists us t, flatten_up_to (opt_leaves x) y = Ok us /\ sequence (zip_with (where_sub c) (leaves (opt_leaves x)) us) = Ok (leaves t) /\ structure t = structure (opt_leaves x) /\ join t = w.
Proof.
  intros H. induction H using selects_mut with (P0 := fun xs ys ws (_ : sel_list c xs ys ws) =>
    exists us ts, go_flat (map opt_leaves xs) ys = Ok us /\ sequence (zip_with (where_sub c) (flat_map leaves (map opt_leaves xs)) us) = Ok (flat_map leaves ts) /\ map structure ts = map structure (map opt_leaves xs) /\ map join ts = ws).
  - exists [y], (Leaf y). cbn. repeat split.
  - exists [Leaf b], (Leaf (Leaf (if c then a else b))). cbn. unfold bin_op. rewrite e, shape_eqb_refl, zip_sel by exact e0. repeat split.
    destruct a as [sa da], b as [sb db]. cbn in *. subst sa. destruct c; reflexivity.
  - destruct IHselects as (us & ts & F & S & T & J). exists us, (Node k ts). cbn [opt_leaves]. rewrite e. cbn [flatten_up_to]. rewrite String.eqb_refl. fold (@go_flat (option (arr R)) (arr R)). rewrite F. cbn [leaves].
    split; [reflexivity|]. split; [exact S|]. change (structure (Node k ts)) with (Node k (map structure ts)). change (structure (Node k (map opt_leaves cs))) with (Node k (map structure (map opt_leaves cs))). change (join (Node k ts)) with (Node k (map join ts)). rewrite T, J. split; reflexivity.
  - exists [], []. cbn. repeat split.
  - destruct IHselects as (us & t & F & S & T & J), IHselects0 as (us' & ts & F' & S' & T' & J'). exists (us ++ us'), (t :: ts). cbn [map]. cbn [go_flat]. rewrite F. fold (@go_flat (option (arr R)) (arr R)). rewrite F'.
    split; [reflexivity|]. cbn [flat_map map]. rewrite zip_app by (symmetry; eapply flatten_up_to_length; exact F). rewrite T, T', J, J'. split; [apply sequence_app; assumption|]. split; reflexivity.
Qed.
Lemma where_selects c x y w : selects c x y w -> where_step c x y = Ok w.
Proof.
  intros H. destruct (selects_flat _ _ _ _ H) as (us & t & F & S & T & J). unfold where_step, tree_map2. rewrite F, S, <- T.
  replace (unflatten (structure t) (leaves t)) with (Ok t) by (symmetry; apply unflatten_ok; split; reflexivity). rewrite J. reflexivity.
Qed.
Section KeepsInd.
Variable P : ptree -> ptree -> Prop.
Hypothesis H0 : forall y, P none y.
Hypothesis H1 : forall a b, shape a = shape b -> length (data a) = length (data b) -> P (Leaf a) (Leaf b).
Hypothesis H2 : forall k cs cs', Forall2 keeps cs cs' -> Forall2 P cs cs' -> P (Node k cs) (Node k cs').
Fixpoint keeps_ind' x y (h : keeps x y) : P x y :=
  match h in keeps x y return P x y with
  | keeps_none y => H0 y
  | keeps_leaf a b e l => H1 a b e l
  | keeps_node k cs cs' f => H2 k cs cs' f ((fix go l l' (f : Forall2 keeps l l') : Forall2 P l l' := match f with Forall2_nil _ => Forall2_nil _ | Forall2_cons _ _ h f => Forall2_cons _ _ (keeps_ind' _ _ h) (go _ _ f) end) cs cs' f)
  end.
End KeepsInd.
Lemma keeps_selects_false x y : keeps x y -> selects false x y y.
Proof.
  intros H. induction H as [y|a b E L|k cs cs' F G] using keeps_ind'.
  - apply sel_none.
  - exact (sel_leaf false a b E L).
  - destruct (is_none (Node k cs)) eqn:N.
    + pose proof (is_none_eq _ N) as E. injection E as -> ->. apply sel_none.
    + apply sel_node; [exact N|]. clear -G. induction G; constructor; assumption.
Qed.
Lemma keeps_selects_true x y : keeps x y -> no_none x -> selects true x y x.
Proof.
  intros H. induction H as [y|a b E L|k cs cs' F G] using keeps_ind'; intros N.
  - inversion N. discriminate.
  - exact (sel_leaf true a b E L).
  - inversion N as [|k' cs0 E C]; subst. apply sel_node; [exact E|]. clear -G C. induction G; inversion C; subst; constructor; auto.
Qed.

Lemma iter_shift {A} (f : A -> A) k x : Nat.iter k f (f x) = Nat.iter (S k) f x.
Proof. induction k as [|k IH]; [reflexivity|]. change (f (Nat.iter k f (f x)) = f (Nat.iter (S k) f x)). rewrite IH. reflexivity. Qed.
(** ** runs with auxiliary output *)
Section PG.
Variable cfg : pg_config.
Variable gradient : (vec -> R) -> vec -> vec.
Variable u : objective.
Variable prox : vec -> R -> vec.
Notation upd := (pg_update cfg (pg_f gradient u) (pg_g gradient u) prox).
Notation updx := (pg_update_aux cfg gradient u prox).
Lemma make_aux x : user_consistent u -> snd (fst (snd (make_funs_with_aux gradient u) x)) = user_aux u x.
Proof. intros H. pose proof (C04_make_funs_with_aux _ _ _ _ gradient u H) as K. destruct (make_funs_with_aux gradient u) as [[f g] v]. destruct (K x) as (_ & _ & E). cbn [snd fst]. rewrite E. reflexivity. Qed.
Lemma pg_f_user x : user_consistent u -> pg_f gradient u x = user_value u x.
Proof. intros H. unfold pg_f. pose proof (C04_make_funs_with_aux _ _ _ _ gradient u H) as K. destruct (make_funs_with_aux gradient u) as [[f g] v]. destruct (K x) as (E & _ & _). cbn [fst snd]. rewrite E. reflexivity. Qed.
Lemma pg_g_user x : user_consistent u -> pg_g gradient u x = user_grad gradient u x.
Proof. intros H. unfold pg_g. pose proof (C04_make_funs_with_aux _ _ _ _ gradient u H) as K. destruct (make_funs_with_aux gradient u) as [[f g] v]. destruct (K x) as (_ & _ & E). cbn [snd fst]. rewrite E. reflexivity. Qed.

Lemma iter_fst k s : fst (Nat.iter k updx s) = Nat.iter k upd (fst s).
Proof. induction k as [|k IH]; [reflexivity|]. cbn [Nat.iter nat_rect]. unfold pg_update_aux at 1. cbn [fst]. f_equal. exact IH. Qed.
Lemma iter_snd k s : user_consistent u -> snd (Nat.iter (S k) updx s) = aux_tree (user_aux u (eval_point cfg (Nat.iter k upd (fst s)))).
Proof. intros H. cbn [Nat.iter nat_rect]. unfold pg_update_aux at 1. cbn [snd]. rewrite make_aux by exact H. fold (Nat.iter k updx s). rewrite iter_fst. reflexivity. Qed.
Lemma python_for_fst n s : fst (python_for (fun st => xgtb (pg_error (snd (fst st))) (pg_tol cfg)) updx n s) = python_for (fun st => xgtb (pg_error (snd st)) (pg_tol cfg)) upd n (fst s).
Proof. revert s. induction n as [|n IH]; intros s; [reflexivity|]. cbn [python_for]. destruct (xgtb (pg_error (snd (fst s))) (pg_tol cfg)); [|reflexivity]. rewrite IH. reflexivity. Qed.

(** the outcome of a run, given what [init_state] stored *)
Lemma run_aux a0 x0 : user_consistent u -> pg_init_aux u x0 = Ok a0 -> (0 < pg_maxiter cfg)%nat ->
  exists k, (1 <= k <= pg_maxiter cfg)%nat /\ pg_run cfg (pg_f gradient u) (pg_g gradient u) prox x0 = Nat.iter k upd (x0, pg_init cfg x0) /\
    pg_run_aux cfg gradient u prox x0 = match where_step false a0 (aux_tree (user_aux u (eval_point cfg (Nat.iter (k - 1) upd (x0, pg_init cfg x0))))) with
      | Ok a => Ok (Nat.iter k upd (x0, pg_init cfg x0), a) | Err e => Err e end.
Proof.
  intros H E M. unfold pg_run_aux. rewrite E. destruct (pg_maxiter cfg) as [|n] eqn:Em; [lia|]. cbn [Nat.eqb]. replace (S n - 1)%nat with n by lia.
  set (c := fun st : (vec * pg_state) * ptree => xgtb (pg_error (snd (fst st))) (pg_tol cfg)).
  destruct (python_for_spec c updx n (updx (x0, pg_init cfg x0, a0))) as (j & Hj & Er & _).
  rewrite iter_shift in Er.
  exists (S j). split; [lia|]. pose proof (python_for_fst n (updx (x0, pg_init cfg x0, a0))) as Ef. fold c in Ef. rewrite Er, iter_fst in Ef. cbn [fst] in Ef. split.
  - unfold pg_run. rewrite Em. cbn [run_loop]. symmetry. etransitivity; [exact Ef|]. unfold pg_update_aux. cbn [fst]. reflexivity.
  - rewrite Er, iter_snd by exact H. cbn [fst]. replace (S j - 1)%nat with j by lia. rewrite iter_fst. reflexivity.
Qed.
End PG.
