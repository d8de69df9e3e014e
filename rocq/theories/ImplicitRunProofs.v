From Coq Require Import String.
From Coq Require Import Reals List Lra Lia Bool Arith Permutation.
From Verif Require Import Prelude Vec Mat LinAlg LinSolve ImplicitDiff ImplicitDiffProofs ImplicitDiffTheorems ImplicitRun.
Import ListNotations.
Open Scope R_scope.

(** ** Binding does not look at the values *)
Definition kmap {V W} (f : V -> W) (kw : list (string * V)) : list (string * W) := map (fun kv => (fst kv, f (snd kv))) kw.
Definition bmap {V W} (f : V -> W) (x : bound V) : bound W :=
  match x with Absent => Absent | One v => One (f v) | Many vs => Many (map f vs) | Dict kvs => Dict (kmap f kvs) end.
Lemma kmap_fst {V W} (f : V -> W) kw : map fst (kmap f kw) = map fst kw.
Proof. unfold kmap. rewrite map_map. reflexivity. Qed.
Lemma kmap_snd {V W} (f : V -> W) kw : map snd (kmap f kw) = map f (map snd kw).
Proof. unfold kmap. rewrite !map_map. reflexivity. Qed.
Lemma lookup_kmap {V W} (f : V -> W) k kw : lookup k (kmap f kw) = option_map f (lookup k kw).
Proof. induction kw as [|[k0 v] kw IH]; simpl; [reflexivity|]. destruct (string_dec k k0); [reflexivity|exact IH]. Qed.
Lemma remove_kmap {V W} (f : V -> W) k kw : remove_key k (kmap f kw) = kmap f (remove_key k kw).
Proof. induction kw as [|[k0 v] kw IH]; simpl; [reflexivity|]. destruct (string_dec k k0); [reflexivity|]. simpl. rewrite IH. reflexivity. Qed.
Section Nat.
Context {V W D D' : Type}.
Variable f : V -> W.
Variable h : param D -> param D'.
Hypothesis Hn : forall p, p_name (h p) = p_name p.
Hypothesis Hk : forall p, p_kind (h p) = p_kind p.
Hypothesis Hd : forall p, p_default (h p) = None <-> p_default p = None.
Definition hb (px : param D * bound V) : param D' * bound W := (h (fst px), bmap f (snd px)).
Lemma bind_kw_nat ps : forall kw, bind_kw (map h ps) (kmap f kw) = match bind_kw ps kw with Ok b => Ok (map hb b) | Err e => Err e end.
Proof.
  induction ps as [|p ps IH]; intros kw.
  - destruct kw; reflexivity.
  - cbn [map bind_kw]. rewrite Hk, Hn, lookup_kmap, remove_kmap, !IH. destruct (p_kind p).
    + destruct (lookup (p_name p) kw) as [v|]; cbn [option_map].
      * destruct (bind_kw ps (remove_key (p_name p) kw)); reflexivity.
      * destruct (p_default p) eqn:E, (p_default (h p)) eqn:E'; try reflexivity; try (destruct (bind_kw ps kw); reflexivity).
        -- apply Hd in E'. congruence.
        -- apply Hd in E. congruence.
    + destruct (bind_kw ps kw); reflexivity.
    + destruct (lookup (p_name p) kw) as [v|]; cbn [option_map].
      * destruct (bind_kw ps (remove_key (p_name p) kw)); reflexivity.
      * destruct (p_default p) eqn:E, (p_default (h p)) eqn:E'; try reflexivity; try (destruct (bind_kw ps kw); reflexivity).
        -- apply Hd in E'. congruence.
        -- apply Hd in E. congruence.
    + destruct ps; [|reflexivity]. cbn [map]. destruct kw; reflexivity.
Qed.
Lemma bind_nat ps : forall args kw, bind (map h ps) (map f args) (kmap f kw) = match bind ps args kw with Ok b => Ok (map hb b) | Err e => Err e end.
Proof.
  induction ps as [|p ps IH]; intros args kw.
  - destruct args; [apply (bind_kw_nat [])|reflexivity].
  - destruct args as [|a args]; [apply (bind_kw_nat (p :: ps))|]. cbn [map bind]. rewrite Hk, Hn, lookup_kmap. destruct (p_kind p); try reflexivity.
    + destruct (lookup (p_name p) kw); [reflexivity|]. cbn [option_map]. rewrite IH. destruct (bind ps args kw); reflexivity.
    + rewrite bind_kw_nat. destruct (bind_kw ps kw); reflexivity.
Qed.
Lemma ba_args_nat b : ba_args (map hb b) = map f (ba_args b).
Proof.
  induction b as [|[p x] b IH]; [reflexivity|]. cbn [map ba_args hb fst snd]. rewrite Hk. destruct (p_kind p); try reflexivity; destruct x; cbn [bmap]; try reflexivity.
  - rewrite IH. reflexivity.
  - rewrite IH, map_app. reflexivity.
  - rewrite IH. reflexivity.
  - rewrite IH, map_app. reflexivity.
Qed.
Lemma one_kw_nat p x : one_kw (h p) (bmap f x) = kmap f (one_kw p x).
Proof. destruct x; cbn [bmap one_kw]; try reflexivity. rewrite Hn. reflexivity. Qed.
Lemma kmap_app (a b : list (string * V)) : kmap f (a ++ b) = kmap f a ++ kmap f b.
Proof. apply map_app. Qed.
Lemma ba_kwargs_nat b : forall s, ba_kwargs s (map hb b) = kmap f (ba_kwargs s b).
Proof.
  induction b as [|[p x] b IH]; intros s; [reflexivity|]. cbn [map ba_kwargs]. unfold hb at 1. cbn [fst snd]. rewrite Hk, one_kw_nat, !IH. destruct s.
  - rewrite kmap_app. reflexivity.
  - destruct (p_kind p); try (rewrite kmap_app; reflexivity); destruct x; cbn [bmap]; reflexivity.
Qed.
End Nat.
Definition pmap {V W} (f : V -> W) (p : param V) : param W := {| p_name := p_name p; p_kind := p_kind p; p_default := option_map f (p_default p) |}.
Lemma pmap_default {V W} (f : V -> W) p : p_default (pmap f p) = None <-> p_default p = None.
Proof. cbn. destruct (p_default p); cbn; split; congruence. Qed.
Lemma apply_defaults_nat {V W} (f : V -> W) b : apply_defaults (map (hb f (pmap f)) b) = map (hb f (pmap f)) (apply_defaults b).
Proof.
  induction b as [|[p x] b IH]; [reflexivity|]. cbn [map apply_defaults]. unfold apply_defaults in *. cbn [map]. rewrite IH. f_equal.
  destruct x; try reflexivity. unfold hb. cbn. destruct (p_kind p), (p_default p); reflexivity.
Qed.
Lemma signature_bind_nat {V W} (f : V -> W) sig args kw :
  signature_bind (map (pmap f) sig) (map f args) (kmap f kw) = match signature_bind sig args kw with Ok (a, k) => Ok (map f a, kmap f k) | Err e => Err e end.
Proof.
  unfold signature_bind. rewrite (bind_nat f (pmap f)) by (intros; try reflexivity; apply pmap_default). destruct (bind sig args kw) as [b|]; [|reflexivity].
  cbv zeta. rewrite apply_defaults_nat, ba_args_nat by reflexivity. rewrite ba_kwargs_nat by reflexivity. reflexivity.
Qed.
Lemma param_id {D} : forall p : param D, p_default ((fun q => q) p) = None <-> p_default p = None.
Proof. tauto. Qed.
Lemma bind_nat_id {V W D} (f : V -> W) (sig : list (param D)) args kw :
  bind sig (map f args) (kmap f kw) = match bind sig args kw with Ok b => Ok (map (hb f (fun q => q)) b) | Err e => Err e end.
Proof. rewrite <- (map_id sig) at 1. apply bind_nat; intros; try reflexivity. Qed.

(** ** What the solver call consists of: the user's arguments and some defaults, each once *)
Definition bvals {V} (x : bound V) : list V := match x with Absent => [] | One v => [v] | Many vs => vs | Dict kvs => map snd kvs end.
Definition allv {V D} (b : list (param D * bound V)) : list V := flat_map (fun px => bvals (snd px)) b.
Lemma remove_perm {V} k (kw : list (string * V)) v : lookup k kw = Some v -> Permutation (map snd kw) (v :: map snd (remove_key k kw)).
Proof.
  induction kw as [|[k0 v0] kw IH]; [discriminate|]. cbn. destruct (string_dec k k0).
  - intros E. injection E as ->. reflexivity.
  - intros E. cbn. rewrite (IH E). apply perm_swap.
Qed.
Lemma bind_kw_perm {V D} (ps : list (param D)) : forall (kw : list (string * V)) b, bind_kw ps kw = Ok b -> Permutation (allv b) (map snd kw).
Proof.
  induction ps as [|p ps IH]; intros kw b H.
  - destruct kw; [|discriminate]. injection H as <-. reflexivity.
  - cbn [bind_kw] in H. destruct (p_kind p).
    + destruct (lookup (p_name p) kw) as [v|] eqn:El.
      * destruct (bind_kw ps _) as [b'|] eqn:Eb; [|discriminate]. injection H as <-. cbn. rewrite (IH _ _ Eb). symmetry. apply remove_perm. exact El.
      * destruct (p_default p); [|discriminate]. destruct (bind_kw ps kw) as [b'|] eqn:Eb; [|discriminate]. injection H as <-. cbn. exact (IH _ _ Eb).
    + destruct (bind_kw ps kw) as [b'|] eqn:Eb; [|discriminate]. injection H as <-. cbn. exact (IH _ _ Eb).
    + destruct (lookup (p_name p) kw) as [v|] eqn:El.
      * destruct (bind_kw ps _) as [b'|] eqn:Eb; [|discriminate]. injection H as <-. cbn. rewrite (IH _ _ Eb). symmetry. apply remove_perm. exact El.
      * destruct (p_default p); [|discriminate]. destruct (bind_kw ps kw) as [b'|] eqn:Eb; [|discriminate]. injection H as <-. cbn. exact (IH _ _ Eb).
    + destruct ps; [|discriminate]. injection H as <-. cbn. destruct kw; cbn; [reflexivity|]. rewrite app_nil_r. reflexivity.
Qed.
Lemma bind_perm {V D} (ps : list (param D)) : forall (args : list V) kw b, bind ps args kw = Ok b -> Permutation (allv b) (args ++ map snd kw).
Proof.
  induction ps as [|p ps IH]; intros args kw b H.
  - destruct args; [|discriminate]. exact (bind_kw_perm [] kw b H).
  - destruct args as [|a args]; [exact (bind_kw_perm (p :: ps) kw b H)|]. cbn [bind] in H. destruct (p_kind p); try discriminate.
    + destruct (lookup (p_name p) kw); [discriminate|]. destruct (bind ps args kw) as [b'|] eqn:Eb; [|discriminate]. injection H as <-. cbn. apply perm_skip. exact (IH _ _ _ Eb).
    + destruct (bind_kw ps kw) as [b'|] eqn:Eb; [|discriminate]. injection H as <-. cbn. apply perm_skip. apply Permutation_app_head. exact (bind_kw_perm _ _ _ Eb).
Qed.
Lemma allv_defaults {V} (b : list (param V * bound V)) : exists defs, Permutation (allv (apply_defaults b)) (allv b ++ defs) /\
  forall d, In d defs -> exists p x, In (p, x) b /\ p_default p = Some d.
Proof.
  induction b as [|[p x] b (defs & HP & HI)].
  - exists []. split; [reflexivity|]. intros d [].
  - assert (HI' : forall d, In d defs -> exists p0 x0, In (p0, x0) ((p, x) :: b) /\ p_default p0 = Some d).
    { intros d Hd. destruct (HI d Hd) as (p0 & x0 & H1 & H2). exists p0, x0. split; [right; exact H1|exact H2]. }
    assert (K : forall vs, Permutation (vs ++ allv (apply_defaults b)) ((vs ++ allv b) ++ defs)) by (intros; rewrite HP, app_assoc; reflexivity).
    destruct x as [|v|vs|kvs]; [|exists defs; split; [exact (K [v])|exact HI']|exists defs; split; [exact (K vs)|exact HI']|exists defs; split; [exact (K (map snd kvs))|exact HI']].
    cbn. destruct (p_kind p); try (exists defs; split; [exact HP|exact HI']).
    + destruct (p_default p) as [d|] eqn:Ed; [|exists defs; split; [exact HP|exact HI']]. exists (d :: defs). split.
      * cbn. apply Permutation_cons_app. exact HP.
      * intros d' [<-|Hd]; [exists p, Absent; split; [left; reflexivity|exact Ed]|exact (HI' d' Hd)].
    + destruct (p_default p) as [d|] eqn:Ed; [|exists defs; split; [exact HP|exact HI']]. exists (d :: defs). split.
      * cbn. apply Permutation_cons_app. exact HP.
      * intros d' [<-|Hd]; [exists p, Absent; split; [left; reflexivity|exact Ed]|exact (HI' d' Hd)].
Qed.
Lemma bind_kw_flat {V} (ps : list (param V)) : forall (kw : list (string * V)) b, bind_kw ps kw = Ok b ->
  map snd (ba_kwargs true (apply_defaults b)) = allv (apply_defaults b) /\
  ba_args (apply_defaults b) ++ map snd (ba_kwargs false (apply_defaults b)) = allv (apply_defaults b).
Proof.
  induction ps as [|p ps IH]; intros kw b H.
  - destruct kw; [|discriminate]. injection H as <-. split; reflexivity.
  - cbn [bind_kw] in H. destruct (p_kind p) eqn:Ek.
    + destruct (lookup (p_name p) kw) as [v|] eqn:El.
      * destruct (bind_kw ps _) as [b'|] eqn:Eb; [|discriminate]. injection H as <-. destruct (IH _ _ Eb) as [H1 H2]. cbn [apply_defaults map]. fold (apply_defaults b').
        split; cbn [ba_kwargs ba_args one_kw]; rewrite ?Ek; cbn; f_equal; assumption.
      * destruct (p_default p) as [d|] eqn:Ed; [|discriminate]. destruct (bind_kw ps kw) as [b'|] eqn:Eb; [|discriminate]. injection H as <-. destruct (IH _ _ Eb) as [H1 H2].
        cbn [apply_defaults map]. fold (apply_defaults b'). rewrite Ek, Ed. split; cbn [ba_kwargs ba_args one_kw]; rewrite ?Ek; cbn; f_equal; assumption.
    + destruct (bind_kw ps kw) as [b'|] eqn:Eb; [|discriminate]. injection H as <-. destruct (IH _ _ Eb) as [H1 H2].
      cbn [apply_defaults map]. fold (apply_defaults b'). rewrite Ek. split; cbn [ba_kwargs ba_args one_kw]; rewrite ?Ek; cbn; assumption.
    + destruct (lookup (p_name p) kw) as [v|] eqn:El.
      * destruct (bind_kw ps _) as [b'|] eqn:Eb; [|discriminate]. injection H as <-. destruct (IH _ _ Eb) as [H1 H2]. cbn [apply_defaults map]. fold (apply_defaults b').
        split; cbn [ba_kwargs ba_args one_kw]; rewrite ?Ek; cbn; f_equal; assumption.
      * destruct (p_default p) as [d|] eqn:Ed; [|discriminate]. destruct (bind_kw ps kw) as [b'|] eqn:Eb; [|discriminate]. injection H as <-. destruct (IH _ _ Eb) as [H1 H2].
        cbn [apply_defaults map]. fold (apply_defaults b'). rewrite Ek, Ed. split; cbn [ba_kwargs ba_args one_kw]; rewrite ?Ek; cbn; f_equal; assumption.
    + destruct ps; [|discriminate]. injection H as <-. destruct kw as [|kv kw]; cbn; rewrite Ek; cbn; rewrite ?app_nil_r; split; reflexivity.
Qed.
Lemma bind_flat {V} (ps : list (param V)) : forall (args : list V) kw b, bind ps args kw = Ok b ->
  ba_args (apply_defaults b) ++ map snd (ba_kwargs false (apply_defaults b)) = allv (apply_defaults b).
Proof.
  induction ps as [|p ps IH]; intros args kw b H.
  - destruct args; [|discriminate]. exact (proj2 (bind_kw_flat [] kw b H)).
  - destruct args as [|a args]; [exact (proj2 (bind_kw_flat (p :: ps) kw b H))|]. cbn [bind] in H. destruct (p_kind p) eqn:Ek; try discriminate.
    + destruct (lookup (p_name p) kw); [discriminate|]. destruct (bind ps args kw) as [b'|] eqn:Eb; [|discriminate]. injection H as <-.
      cbn [apply_defaults map]. fold (apply_defaults b'). cbn [ba_kwargs ba_args one_kw]. rewrite ?Ek. cbn. f_equal. exact (IH _ _ _ Eb).
    + destruct (bind_kw ps kw) as [b'|] eqn:Eb; [|discriminate]. injection H as <-.
      cbn [apply_defaults map]. fold (apply_defaults b'). cbn [ba_kwargs ba_args one_kw]. rewrite ?Ek. cbn. f_equal. rewrite <- app_assoc. f_equal. exact (proj2 (bind_kw_flat _ _ _ Eb)).
Qed.
Lemma signature_bind_perm {V} (sig : list (param V)) args kw a k : signature_bind sig args kw = Ok (a, k) ->
  exists defs, Permutation (a ++ map snd k) ((args ++ map snd kw) ++ defs) /\ forall d, In d defs -> exists p, In p sig /\ p_default p = Some d.
Proof.
  unfold signature_bind. destruct (bind sig args kw) as [b|] eqn:Eb; [|discriminate]. intros E. injection E as <- <-.
  destruct (allv_defaults b) as (defs & HP & HI). exists defs. split.
  - rewrite (bind_flat _ _ _ _ Eb), HP. apply Permutation_app_tail. exact (bind_perm _ _ _ _ Eb).
  - intros d Hd. destruct (HI d Hd) as (p & x & Hp & E). exists p. split; [|exact E]. clear -Eb Hp.
    assert (K : forall (ps : list (param V)) (kw : list (string * V)) b, bind_kw ps kw = Ok b -> map fst b = ps).
    { induction ps as [|q ps IH]; intros kw0 b0 H.
      - destruct kw0; [|discriminate]. injection H as <-. reflexivity.
      - cbn [bind_kw] in H. destruct (p_kind q).
        + destruct (lookup _ kw0); [|destruct (p_default q); [|discriminate]]; (destruct (bind_kw ps _) eqn:E; [|discriminate]; injection H as <-; cbn; f_equal; exact (IH _ _ E)).
        + destruct (bind_kw ps _) eqn:E; [|discriminate]; injection H as <-; cbn; f_equal; exact (IH _ _ E).
        + destruct (lookup _ kw0); [|destruct (p_default q); [|discriminate]]; (destruct (bind_kw ps _) eqn:E; [|discriminate]; injection H as <-; cbn; f_equal; exact (IH _ _ E)).
        + destruct ps; [|discriminate]. injection H as <-. reflexivity. }
    assert (K' : forall (ps : list (param V)) args (kw : list (string * V)) b, bind ps args kw = Ok b -> map fst b = ps).
    { induction ps as [|q ps IH]; intros args0 kw0 b0 H.
      - destruct args0; [|discriminate]. exact (K _ _ _ H).
      - destruct args0 as [|a0 args0]; [exact (K _ _ _ H)|]. cbn [bind] in H. destruct (p_kind q); try discriminate.
        + destruct (lookup _ kw0); [discriminate|]. destruct (bind ps _ _) eqn:E; [|discriminate]; injection H as <-; cbn; f_equal; exact (IH _ _ _ E).
        + destruct (bind_kw ps _) eqn:E; [|discriminate]; injection H as <-; cbn; f_equal; exact (K _ _ _ E). }
    rewrite <- (K' _ _ _ _ Eb). apply in_map_iff. exists (p, x). split; [reflexivity|exact Hp].
Qed.
(** keys of the flat call are distinct *)
Lemma remove_keys_in {V} k (kw : list (string * V)) q : In q (map fst (remove_key k kw)) -> In q (map fst kw).
Proof. induction kw as [|[k0 v0] kw IH]; cbn; [tauto|]. destruct (string_dec k k0); cbn; tauto. Qed.
Lemma remove_nodup {V} k (kw : list (string * V)) : NoDup (map fst kw) -> NoDup (map fst (remove_key k kw)) /\ ~ In k (map fst (remove_key k kw)).
Proof.
  induction kw as [|[k0 v0] kw IH]; cbn; intros H; [split; [constructor|tauto]|]. inversion H as [|? ? H1 H2]; subst. destruct (string_dec k k0) as [->|C]; [split; assumption|].
  destruct (IH H2) as [H3 H4]. cbn. split; [constructor; [intros Hi; apply H1; exact (remove_keys_in _ _ _ Hi)|exact H3]|]. intros [E|Hi]; [congruence|exact (H4 Hi)].
Qed.
Lemma lookup_none_in {V} k (kw : list (string * V)) : lookup k kw = None -> ~ In k (map fst kw).
Proof. induction kw as [|[k0 v0] kw IH]; cbn; [tauto|]. destruct (string_dec k k0); [discriminate|]. intros H [E|Hi]; [congruence|exact (IH H Hi)]. Qed.
Lemma bind_kw_keys {V} (ps : list (param V)) : forall (kw : list (string * V)) b, NoDup (map p_name ps) -> NoDup (map fst kw) -> bind_kw ps kw = Ok b -> forall s,
  NoDup (map fst (ba_kwargs s (apply_defaults b))) /\ forall k, In k (map fst (ba_kwargs s (apply_defaults b))) -> In k (map p_name ps) \/ In k (map fst kw).
Proof.
  induction ps as [|p ps IH]; intros kw b Hp Hk H.
  - destruct kw; [|discriminate]. injection H as <-. intros s. cbn. split; [constructor|tauto].
  - cbn [bind_kw] in H. cbn in Hp. inversion Hp as [|? ? Hp1 Hp2]; subst.
    assert (ONE : forall kw' b' v, NoDup (map fst kw') -> ~ In (p_name p) (map fst kw') -> (forall q, In q (map fst kw') -> In q (map fst kw)) -> bind_kw ps kw' = Ok b' ->
      (p_kind p = PosOrKw \/ p_kind p = KwOnly) ->
      forall s, NoDup (map fst (ba_kwargs s ((p, One v) :: apply_defaults b'))) /\ forall k, In k (map fst (ba_kwargs s ((p, One v) :: apply_defaults b'))) -> In k (map p_name (p :: ps)) \/ In k (map fst kw)).
    { intros kw' b' v Hk' Hni Hsub Eb Hkind s. 
      assert (Y : forall s', NoDup (p_name p :: map fst (ba_kwargs s' (apply_defaults b'))) /\ forall k, In k (p_name p :: map fst (ba_kwargs s' (apply_defaults b'))) -> In k (map p_name (p :: ps)) \/ In k (map fst kw)).
      { intros s'. destruct (IH _ _ Hp2 Hk' Eb s') as [N I]. split.
        - constructor; [|exact N]. intros Hi. destruct (I _ Hi); [exact (Hp1 H0)|exact (Hni H0)].
        - intros k [<-|Hi]; [left; left; reflexivity|]. destruct (I _ Hi) as [Q|Q]; [left; right; exact Q|right; exact (Hsub _ Q)]. }
      assert (N : forall s', NoDup (map fst (ba_kwargs s' (apply_defaults b'))) /\ forall k, In k (map fst (ba_kwargs s' (apply_defaults b'))) -> In k (map p_name (p :: ps)) \/ In k (map fst kw)).
      { intros s'. destruct (Y s') as [Y1 Y2]. split; [inversion Y1; assumption|]. intros k Hi. apply Y2. right. exact Hi. }
      cbn [ba_kwargs]. destruct s; [cbn; apply Y|]. destruct Hkind as [-> | ->]; [apply N|cbn; apply Y]. }
    destruct (p_kind p) eqn:Ek.
    + destruct (lookup (p_name p) kw) as [v|] eqn:El.
      * destruct (bind_kw ps _) as [b'|] eqn:Eb; [|discriminate]. injection H as <-. cbn [apply_defaults map]. fold (apply_defaults b'). destruct (remove_nodup (p_name p) kw Hk) as [N1 N2].
        apply (ONE _ _ v N1 N2 (remove_keys_in _ _) Eb). left. reflexivity.
      * destruct (p_default p) as [d|] eqn:Ed; [|discriminate]. destruct (bind_kw ps kw) as [b'|] eqn:Eb; [|discriminate]. injection H as <-. cbn [apply_defaults map]. fold (apply_defaults b').
        rewrite Ek, Ed. apply (ONE _ _ d Hk (lookup_none_in _ _ El) (fun q Hq => Hq) Eb). left. reflexivity.
    + destruct (bind_kw ps kw) as [b'|] eqn:Eb; [|discriminate]. injection H as <-. cbn [apply_defaults map]. fold (apply_defaults b'). rewrite Ek.
      assert (Y : forall s', NoDup (map fst (ba_kwargs s' (apply_defaults b'))) /\ forall k, In k (map fst (ba_kwargs s' (apply_defaults b'))) -> In k (map p_name (p :: ps)) \/ In k (map fst kw)).
      { intros s'. destruct (IH _ _ Hp2 Hk Eb s') as [N I]. split; [exact N|]. intros k Hi. destruct (I _ Hi); [left; right|right]; assumption. }
      intros s. cbn [ba_kwargs one_kw]. rewrite Ek. destruct s; cbn; apply Y.
    + destruct (lookup (p_name p) kw) as [v|] eqn:El.
      * destruct (bind_kw ps _) as [b'|] eqn:Eb; [|discriminate]. injection H as <-. cbn [apply_defaults map]. fold (apply_defaults b'). destruct (remove_nodup (p_name p) kw Hk) as [N1 N2].
        apply (ONE _ _ v N1 N2 (remove_keys_in _ _) Eb). right. reflexivity.
      * destruct (p_default p) as [d|] eqn:Ed; [|discriminate]. destruct (bind_kw ps kw) as [b'|] eqn:Eb; [|discriminate]. injection H as <-. cbn [apply_defaults map]. fold (apply_defaults b').
        rewrite Ek, Ed. apply (ONE _ _ d Hk (lookup_none_in _ _ El) (fun q Hq => Hq) Eb). right. reflexivity.
    + destruct ps; [|discriminate]. injection H as <-. intros s. destruct kw as [|kv kw]; cbn; rewrite Ek; destruct s; cbn; try (split; [constructor|tauto]); rewrite app_nil_r; (split; [exact Hk|]); intros k Hi; right; exact Hi.
Qed.
Lemma signature_bind_keys {V} (sig : list (param V)) args kw a k : NoDup (map p_name sig) -> NoDup (map fst kw) -> signature_bind sig args kw = Ok (a, k) -> NoDup (map fst k).
Proof.
  unfold signature_bind. destruct (bind sig args kw) as [b|] eqn:Eb; [|discriminate]. intros Hn Hk E. injection E as _ <-.
  revert args b Hn Eb. induction sig as [|p ps IH]; intros args b Hn H.
  - destruct args; [|discriminate]. exact (proj1 (bind_kw_keys [] kw b Hn Hk H false)).
  - destruct args as [|a0 args]; [exact (proj1 (bind_kw_keys (p :: ps) kw b Hn Hk H false))|]. cbn in Hn. inversion Hn as [|? ? Hp1 Hp2]; subst. cbn [bind] in H. destruct (p_kind p) eqn:Ek; try discriminate.
    + destruct (lookup (p_name p) kw); [discriminate|]. destruct (bind ps args kw) as [b'|] eqn:Eb; [|discriminate]. injection H as <-.
      cbn [apply_defaults map]. fold (apply_defaults b'). cbn [ba_kwargs]. rewrite Ek. exact (IH _ _ Hp2 Eb).
    + destruct (bind_kw ps kw) as [b'|] eqn:Eb; [|discriminate]. injection H as <-.
      cbn [apply_defaults map]. fold (apply_defaults b'). cbn [ba_kwargs]. rewrite Ek. exact (proj1 (bind_kw_keys _ _ _ Hp2 Hk Eb false)).
Qed.

(** ** Sums *)
Definition rsum (l : list R) : R := fold_right Rplus 0 l.
Lemma rsum_app l l' : rsum (l ++ l') = rsum l + rsum l'.
Proof. induction l as [|x l IH]; cbn; [unfold rsum; cbn; lra|]. unfold rsum in *. cbn. rewrite IH. lra. Qed.
Lemma rsum_perm l l' : Permutation l l' -> rsum l = rsum l'.
Proof. induction 1; cbn; unfold rsum in *; try lra; congruence. Qed.
Lemma pairing_app g1 g2 d1 d2 : length g1 = length d1 -> pairing (g1 ++ g2) (d1 ++ d2) = pairing g1 d1 + pairing g2 d2.
Proof.
  revert d1; induction g1 as [|g g1 IH]; intros [|d d1] H; try discriminate; [unfold pairing; cbn; lra|].
  unfold pairing in *. cbn. rewrite IH by (cbn in H; lia). lra.
Qed.
Lemma pairing_map {T} (g : T -> option vec) (d : T -> vec) l : pairing (map g l) (map d l) = rsum (map (fun x => pair1 (g x) (d x)) l).
Proof. induction l as [|x l IH]; [reflexivity|]. unfold pairing, rsum in *. cbn. rewrite IH. reflexivity. Qed.
Lemma pairing_some vs ds : pairing (map Some vs) ds = total_dot vs ds.
Proof. revert ds; induction vs as [|v vs IH]; intros [|d ds]; try reflexivity. unfold pairing, total_dot in *. cbn. rewrite IH. reflexivity. Qed.
Lemma pairing_none vs d0 ds : pairing (None :: map Some vs) (d0 :: ds) = total_dot vs ds.
Proof. unfold pairing. cbn. fold (pairing (map Some vs) ds). rewrite pairing_some. lra. Qed.

(** ** The backward pass on the flat arguments *)
Lemma tag_args_snd {V} (args : list V) : map snd (tag_args args) = args.
Proof. unfold tag_args. generalize 0%nat. induction args as [|a args IH]; intros n; cbn; [reflexivity|]. f_equal. apply IH. Qed.
Lemma tag_kwargs_snd {V} (kw : list (string * V)) : kmap snd (tag_kwargs kw) = kw.
Proof. unfold kmap, tag_kwargs. rewrite map_map. cbn. rewrite <- (map_id kw) at 2. apply map_ext. intros [k v]. reflexivity. Qed.
Lemma match_bind {V D} (sig : list (param D)) (args : list V) kw out mapping :
  signature_bind_and_match sig args kw = Ok (out, [], mapping) -> exists b, bind sig args kw = Ok b /\ ba_kwargs false b = [] /\ ba_args b = out.
Proof.
  unfold signature_bind_and_match. intros H. assert (N := bind_nat_id snd sig (tag_args args) (tag_kwargs kw)). rewrite tag_args_snd, tag_kwargs_snd in N.
  destruct (bind sig (tag_args args) (tag_kwargs kw)) as [b|] eqn:E; [|discriminate]. injection H as H1 H2 H3. rewrite N. eexists. split; [reflexivity|].
  rewrite ba_kwargs_nat, ba_args_nat by reflexivity. split; [|exact H1]. apply map_eq_nil in H2. rewrite H2. reflexivity.
Qed.
Lemma nodup_skipn {T} n (l : list T) : NoDup l -> NoDup (skipn n l).
Proof. revert n; induction l as [|x l IH]; intros [|n] H; cbn; try assumption. inversion H. apply IH. assumption. Qed.
Lemma lookup_in {V} k (kw : list (string * V)) v : lookup k kw = Some v -> In (k, v) kw.
Proof. induction kw as [|[k0 v0] kw IH]; [discriminate|]. cbn. destruct (string_dec k k0) as [->|]; intros E; [left; congruence|right; auto]. Qed.
Lemma map_combine_fst {T U} (a : list T) (b : list U) : length a = length b -> map fst (combine a b) = a.
Proof. revert b; induction a as [|x a IH]; intros [|y b] H; try discriminate; cbn; [reflexivity|]. f_equal. apply IH. cbn in H. lia. Qed.
Lemma map_combine_snd {T U} (a : list T) (b : list U) : length a = length b -> map snd (combine a b) = b.
Proof. revert b; induction a as [|x a IH]; intros [|y b] H; try discriminate; cbn; [reflexivity|]. f_equal. apply IH. cbn in H. lia. Qed.
Lemma nth_error_same {T} (l l' : list T) : (forall j, nth_error l j = nth_error l' j) -> l = l'.
Proof.
  revert l'; induction l as [|x l IH]; intros [|y l'] H; [reflexivity|discriminate (H 0%nat)|discriminate (H 0%nat)|].
  f_equal; [injection (H 0%nat) as ->; reflexivity|]. apply IH. intros j. exact (H (S j)).
Qed.
Lemma lookup_rev_own {G} (ks : list string) (gs : list G) : NoDup ks -> length ks = length gs -> map (fun k => lookup k (rev (combine ks gs))) ks = map Some gs.
Proof.
  intros Hn Hl. apply nth_error_same. intros j. rewrite !nth_error_map. destruct (nth_error ks j) as [k|] eqn:Ek.
  - destruct (nth_error gs j) as [g|] eqn:Eg; [|apply nth_error_None in Eg; assert (j < length ks)%nat by (apply nth_error_Some; congruence); lia].
    cbn. f_equal. exact (lookup_rev_combine ks gs j k g Hn Hl Ek Eg).
  - apply nth_error_None in Ek. destruct (nth_error gs j) as [g|] eqn:Eg; [|reflexivity]. assert (j < length gs)%nat by (apply nth_error_Some; congruence). lia.
Qed.

Lemma bwd_sum {T} (ref_sig : signature) (ta : list T) (tk : list (string * T)) (val dir : T -> vec) (vjp : list vec -> list vec) gs :
  sig_ok ref_sig -> NoDup (map fst tk) -> ta ++ map snd tk <> [] -> (forall a, length (vjp a) = length a) ->
  solver_fun_bwd ref_sig vjp (map fst tk) (map val (ta ++ map snd tk)) = Ok gs ->
  exists b, bind ref_sig ta tk = Ok b /\ ba_kwargs false b = [] /\ ba_args b <> [] /\ length gs = length (ta ++ map snd tk) /\
    pairing gs (map dir (ta ++ map snd tk)) = total_dot (vjp (map val (tl (ba_args b)))) (map dir (tl (ba_args b))) /\
    (ta <> [] -> nth_error gs 0 = Some None).
Proof.
  intros Hs Hnd Hne Hv H.
  assert (Ex : extract_kwargs (map fst tk) (map val (ta ++ map snd tk)) = (map val ta, kmap val tk)).
  { unfold extract_kwargs. rewrite !map_length, app_length, map_length. replace (length ta + length tk - length tk)%nat with (length ta) by lia. rewrite map_app.
    rewrite firstn_app, map_length, Nat.sub_diag, firstn_O, app_nil_r. rewrite <- (map_length val ta) at 1. rewrite firstn_all. f_equal.
    rewrite skipn_app, map_length, Nat.sub_diag, skipn_O. rewrite <- (map_length val ta) at 1. rewrite skipn_all. cbn [app].
    clear. induction tk as [|[k v] tk IH]; cbn; [reflexivity|]. f_equal. exact IH. }
  unfold solver_fun_bwd in H. rewrite Ex in H.
  destruct (signature_bind_and_match ref_sig (map val ta) (kmap val tk)) as [[[out ok] mapping]|] eqn:Em; [|discriminate]. destruct ok; [|discriminate].
  destruct (match_bind _ _ _ _ _ Em) as (bv & Ebv & Ekv & Eav). rewrite bind_nat_id in Ebv. destruct (bind ref_sig ta tk) as [b|] eqn:Eb; [|discriminate]. injection Ebv as <-.
  rewrite ba_kwargs_nat in Ekv by reflexivity. rewrite ba_args_nat in Eav by reflexivity. apply map_eq_nil in Ekv.
  destruct (bind_args ref_sig ta tk b Hs Eb) as (lt & Elt & Mt).
  destruct (match_shape _ _ _ _ _ Hs Em) as (l & El & Emap & Mv & Hcov). rewrite map_length in *.
  assert (Hnk : NoDup (map p_name (skipn (length ta) ref_sig))).
  { rewrite <- skipn_map. apply nodup_skipn. apply Hs. }
  assert (Nlt := matched_nodup _ _ _ Hnk Mt). assert (Nl := matched_nodup _ _ _ Hnk Mv).
  assert (Esnd : map snd l = map val (map snd lt)).
  { rewrite <- Eav, Elt, map_app in El. apply app_inv_head in El. symmetry. exact El. }
  assert (Len : length l = length lt) by (rewrite <- (map_length snd l), Esnd, !map_length; reflexivity).
  assert (Efst : map fst l = map fst lt).
  { destruct Mt as (M1 & _). destruct Mv as (M2 & _). rewrite M1, M2, Len. reflexivity. }
  assert (Hin : incl lt tk).
  { intros [k v] Hi. destruct Mt as (_ & _ & M3). rewrite Forall_forall in M3. apply lookup_in. exact (M3 _ Hi). }
  assert (Llt : (length tk <= length lt)%nat).
  { rewrite <- (map_length fst tk), <- (map_length fst lt). apply NoDup_incl_length; [exact Hnd|]. intros k Hk. rewrite <- Efst. apply Hcov. rewrite kmap_fst. exact Hk. }
  assert (HP : Permutation lt tk).
  { apply NoDup_Permutation_bis; [exact (NoDup_map_inv _ _ Nlt)|exact Llt|exact Hin]. }
  exists b. split; [reflexivity|]. split; [exact Ekv|].
  assert (Hone : ba_args b <> []).
  { rewrite Elt. intros C. apply app_eq_nil in C. destruct C as [-> C]. apply map_eq_nil in C. subst lt. apply Permutation_nil in HP. subst tk. apply Hne. reflexivity. }
  split; [exact Hone|].
  set (grads := None :: map Some (vjp (tl out))) in *.
  assert (Lo : length out = (length ta + length lt)%nat) by (rewrite <- Eav, Elt, map_length, app_length, map_length; reflexivity).
  assert (Lg : length grads = length out).
  { unfold grads. cbn. rewrite map_length, Hv. rewrite <- Eav. destruct (ba_args b); [contradiction|reflexivity]. }
  assert (Egr : grads = firstn (length ta) grads ++ skipn (length ta) grads) by (symmetry; apply firstn_skipn).
  set (g1 := firstn (length ta) grads) in *. set (g2 := skipn (length ta) grads) in *.
  assert (L1 : length g1 = length ta) by (unfold g1; rewrite firstn_length; lia).
  assert (L2 : length g2 = length lt) by (unfold g2; rewrite skipn_length; lia).
  rewrite Egr, Emap in H. rewrite map_back_spec in H; [|exact L1|rewrite map_length; lia]. rewrite Efst in H.
  destruct (forallb _ _) in H; [|discriminate]. injection H as <-. rewrite kmap_fst.
  set (g := fun k => match lookup k (rev (combine (map fst lt) g2)) with Some g => g | None => None end).
  assert (Eg : map g (map fst lt) = g2).
  { assert (O := lookup_rev_own (map fst lt) g2 Nlt ltac:(rewrite map_length; lia)).
    assert (O' : map (fun o => match o with Some x => x | None => None end) (map (fun k => lookup k (rev (combine (map fst lt) g2))) (map fst lt)) = map (fun o => match o with Some x => x | None => None end) (map Some g2)) by (rewrite O; reflexivity).
    rewrite (map_map Some) in O'. rewrite map_id in O'. rewrite <- O' at 1. rewrite (map_map _ (fun o => match o with Some x => x | None => None end)). reflexivity. }
  assert (Em1 : map (fun o => match o with Some x => x | None => None end) (map Some g1) = g1) by (rewrite map_map; apply map_id).
  rewrite Em1. split; [rewrite !app_length, !map_length; lia|]. split.
  - rewrite map_app. rewrite pairing_app by (rewrite map_length; exact L1).
    rewrite (map_map fst g), (map_map snd dir). rewrite (pairing_map (fun x : string * T => g (fst x)) (fun x => dir (snd x))).
    rewrite <- (rsum_perm _ _ (Permutation_map (fun x : string * T => pair1 (g (fst x)) (dir (snd x))) HP)).
    rewrite <- (pairing_map (fun x : string * T => g (fst x)) (fun x => dir (snd x))). rewrite <- (map_map fst g), Eg, <- (map_map snd dir).
    rewrite <- pairing_app by (rewrite map_length; exact L1). rewrite <- Egr, <- map_app, <- Elt. unfold grads. rewrite <- Eav.
    destruct (ba_args b) as [|o os]; [contradiction|]. cbn [map tl]. apply pairing_none.
  - intros Hta. destruct ta as [|t0 ta]; [contradiction|]. unfold g1, grads. reflexivity.
Qed.

(** ** From the flat arguments to the user's *)
Definition nondefault (s : source) : bool := match s with FromDefault _ => false | _ => true end.
Lemma filter_perm {T} (f : T -> bool) l l' : Permutation l l' -> Permutation (filter f l) (filter f l').
Proof.
  induction 1 as [|x l l' H IH|x y l|l l' l'' H IH H' IH']; cbn.
  - constructor.
  - destruct (f x); [apply perm_skip|]; exact IH.
  - destruct (f x), (f y); try apply perm_swap; reflexivity.
  - transitivity (filter f l'); assumption.
Qed.
Definition phi (dir : source -> vec) (srcs : list source) (gs : list (option vec)) (s : source) : R :=
  match s with
  | FromArg i => pair1 (gradient_at (is_arg i) srcs gs) (dir s)
  | FromKw k => pair1 (gradient_at (is_kw k) srcs gs) (dir s)
  | FromDefault _ => 0
  end.
Lemma dot_zeros (g : vec) n : dot g (vzero n) = 0.
Proof. apply dot_vzero_r. Qed.
Lemma flat_phi dir srcs gs : (forall v, dir (FromDefault v) = vzero (length v)) -> NoDup (filter nondefault srcs) -> length gs = length srcs ->
  pairing gs (map dir srcs) = rsum (map (phi dir srcs gs) srcs).
Proof.
  intros Hd. revert gs. induction srcs as [|s srcs IH]; intros [|g gs] Hn Hl; try discriminate; [reflexivity|].
  unfold pairing, rsum. cbn [map combine fold_right fst snd]. fold (pairing gs (map dir srcs)).
  assert (Hn' : NoDup (filter nondefault srcs)) by (cbn in Hn; destruct (nondefault s); [inversion Hn; assumption|exact Hn]).
  rewrite IH by (try exact Hn'; cbn in Hl; lia). f_equal.
  - destruct s as [i|k|v]; cbn [phi gradient_at is_arg is_kw].
    + rewrite Nat.eqb_refl. reflexivity.
    + rewrite String.eqb_refl. reflexivity.
    + rewrite Hd. destruct g; cbn; [apply dot_zeros|reflexivity].
  - unfold rsum. f_equal. apply map_ext_in. intros s' Hs'.
    assert (Hne : nondefault s' = true -> s <> s').
    { intros E C. subst s'. cbn in Hn. rewrite E in Hn. inversion Hn as [|? ? H1 _]. apply H1. apply filter_In. split; assumption. }
    destruct s' as [i|k|v]; cbn [phi gradient_at]; [| |reflexivity].
    + replace (is_arg i s) with false; [reflexivity|]. symmetry. destruct s as [j| |]; try reflexivity. cbn. apply Nat.eqb_neq. intros ->. exact (Hne eq_refl eq_refl).
    + replace (is_kw k s) with false; [reflexivity|]. symmetry. destruct s as [|j|]; try reflexivity. cbn. apply String.eqb_neq. intros ->. exact (Hne eq_refl eq_refl).
Qed.
Lemma user_sum dir srcs gs n keys defs : (forall v, dir (FromDefault v) = vzero (length v)) -> NoDup keys -> (forall s, In s defs -> nondefault s = false) ->
  Permutation srcs ((map FromArg (seq 0 n) ++ map FromKw keys) ++ defs) -> length gs = length srcs ->
  pairing gs (map dir srcs) =
  pairing (map (fun i => gradient_at (is_arg i) srcs gs) (seq 0 n)) (map (fun i => dir (FromArg i)) (seq 0 n)) +
  pairing (map (fun k => gradient_at (is_kw k) srcs gs) keys) (map (fun k => dir (FromKw k)) keys).
Proof.
  intros Hd Hk Hdf HP Hl. 
  assert (Ef : filter nondefault ((map FromArg (seq 0 n) ++ map FromKw keys) ++ defs) = map FromArg (seq 0 n) ++ map FromKw keys).
  { assert (A : forall l, Forall (fun s => nondefault s = true) l -> filter nondefault l = l).
    { induction l as [|x l IH]; intros HF; [reflexivity|]. inversion HF; subst. cbn. rewrite H1. f_equal. apply IH. assumption. }
    assert (B : forall l, (forall s, In s l -> nondefault s = false) -> filter nondefault l = []).
    { induction l as [|x l IH]; intros HF; [reflexivity|]. cbn. rewrite (HF x) by (left; reflexivity). apply IH. intros s Hs. apply HF. right. exact Hs. }
    rewrite filter_app, (B defs Hdf), app_nil_r. apply A. apply Forall_app. split; apply Forall_forall; intros s Hs; apply in_map_iff in Hs; destruct Hs as (q & <- & _); reflexivity. }
  assert (Hn : NoDup (filter nondefault srcs)).
  { apply (Permutation_NoDup (Permutation_sym (filter_perm nondefault _ _ HP))). rewrite Ef.
    assert (I1 : NoDup (map FromArg (seq 0 n))) by (apply FinFun.Injective_map_NoDup; [intros a b E; injection E; auto|apply seq_NoDup]).
    assert (I2 : NoDup (map FromKw keys)) by (apply FinFun.Injective_map_NoDup; [intros a b E; injection E; auto|exact Hk]).
    revert I1. generalize (seq 0 n). intros ns. induction ns as [|x ns IH]; cbn; intros I1; [exact I2|]. inversion I1; subst. constructor; [|apply IH; assumption].
    intros Hi. apply in_app_iff in Hi. destruct Hi as [Hi|Hi]; [contradiction|]. apply in_map_iff in Hi. destruct Hi as (q & C & _). discriminate C. }
  rewrite (flat_phi dir srcs gs Hd Hn Hl). rewrite (rsum_perm _ _ (Permutation_map (phi dir srcs gs) HP)).
  rewrite !map_app, !rsum_app, !map_map. rewrite !pairing_map. cbn [phi].
  assert (Z : rsum (map (phi dir srcs gs) defs) = 0).
  { clear -Hdf. induction defs as [|x l IH]; [reflexivity|]. unfold rsum in *. cbn. rewrite IH by (intros s Hs; apply Hdf; right; exact Hs).
    specialize (Hdf x (or_introl eq_refl)). destruct x; try discriminate. cbn. lra. }
  rewrite Z. lra.
Qed.

(** ** Values at time t *)
Definition value_of (args : list vec) (kw : list (string * vec)) (s : source) : vec :=
  match s with FromArg i => nth i args [] | FromKw k => match lookup k kw with Some v => v | None => [] end | FromDefault v => v end.
Definition dir_of (dargs : list vec) (dkw : list (string * vec)) (s : source) : vec :=
  match s with FromArg i => nth i dargs [] | FromKw k => match lookup k dkw with Some v => v | None => [] end | FromDefault v => vzero (length v) end.
Lemma map_nth_seq {T} (l : list T) d : map (fun i => nth i l d) (seq 0 (length l)) = l.
Proof.
  apply nth_error_same. intros j. rewrite nth_error_map. destruct (Nat.lt_ge_cases j (length l)) as [H|H].
  - rewrite (nth_error_nth' (seq 0 (length l)) 0%nat) by (rewrite seq_length; exact H). rewrite seq_nth by exact H. cbn. symmetry. apply nth_error_nth'. exact H.
  - rewrite (proj2 (nth_error_None (seq 0 (length l)) j)) by (rewrite seq_length; exact H). symmetry. apply nth_error_None. exact H.
Qed.
Lemma lookup_own {V} (kw : list (string * V)) d : NoDup (map fst kw) -> map (fun k => match lookup k kw with Some v => v | None => d end) (map fst kw) = map snd kw.
Proof.
  induction kw as [|[k v] kw IH]; cbn [map fst snd lookup]; intros H; [reflexivity|]. inversion H as [|? ? H1 H2]; subst. f_equal; [destruct (string_dec k k) as [|C]; [reflexivity|contradiction]|].
  etransitivity; [|exact (IH H2)]. apply map_ext_in. intros q Hq. destruct (string_dec q k) as [->|]; [contradiction|reflexivity].
Qed.
Lemma kw_rebuild {V} (kw : list (string * V)) : combine (map fst kw) (map snd kw) = kw.
Proof. induction kw as [|[k v] kw IH]; cbn; [reflexivity|]. f_equal. exact IH. Qed.
Lemma sources_sig sig args kw : map (pmap (value_of args kw)) (map source_param sig) = sig.
Proof. rewrite map_map. rewrite <- (map_id sig) at 2. apply map_ext. intros [n k [d|]]; reflexivity. Qed.
Lemma sources_bind sig args kw : NoDup (map fst kw) ->
  signature_bind sig args kw =
  match signature_bind (map source_param sig) (map FromArg (seq 0 (length args))) (map (fun k => (k, FromKw k)) (map fst kw)) with
  | Ok (a, k) => Ok (map (value_of args kw) a, kmap (value_of args kw) k) | Err e => Err e end.
Proof.
  intros Hn. rewrite <- signature_bind_nat. rewrite sources_sig. f_equal.
  - rewrite map_map. cbn. symmetry. apply map_nth_seq.
  - unfold kmap. rewrite map_map. cbn. rewrite <- (kw_rebuild kw) at 1. rewrite <- (lookup_own kw [] Hn). generalize (map fst kw). intros ks. clear. induction ks as [|k ks IH]; [reflexivity|]. cbn [map combine]. f_equal. exact IH.
Qed.
Lemma args_move_length args t d : length d = length args -> length (args_move args t d) = length args.
Proof. intros H. unfold args_move. rewrite map_length, combine_length. lia. Qed.
Lemma nth_args_move args t d i : length d = length args -> nth i (args_move args t d) [] = vadd (nth i args []) (smul t (nth i d [])).
Proof.
  unfold args_move. revert d i; induction args as [|a args IH]; intros [|x d] i H; try discriminate.
  - cbn. destruct i; reflexivity.
  - destruct i; [reflexivity|]. cbn [combine map nth]. apply IH. cbn in H. lia.
Qed.
Lemma lookup_move keys vals t ds k : length vals = length keys -> length ds = length keys ->
  match lookup k (combine keys (args_move vals t ds)) with Some v => v | None => [] end =
  vadd (match lookup k (combine keys vals) with Some v => v | None => [] end) (smul t (match lookup k (combine keys ds) with Some v => v | None => [] end)).
Proof.
  revert vals ds; induction keys as [|q keys IH]; intros [|v vals] [|d ds] H1 H2; try discriminate; [reflexivity|]. cbn [combine args_move map lookup fst snd].
  destruct (string_dec k q); [reflexivity|]. apply IH; cbn in *; lia.
Qed.
Lemma value_move args kw t dargs dkw s : length dargs = length args -> map fst dkw = map fst kw ->
  value_of (args_move args t dargs) (kw_move kw t dkw) s = vadd (value_of args kw s) (smul t (dir_of dargs dkw s)).
Proof.
  intros H1 H2. destruct s as [i|k|v]; cbn [value_of dir_of].
  - apply nth_args_move. exact H1.
  - unfold kw_move. rewrite lookup_move by (rewrite ?map_length; try reflexivity; rewrite <- (map_length fst dkw), H2, map_length; reflexivity).
    rewrite kw_rebuild. rewrite <- H2, kw_rebuild. reflexivity.
  - apply vec_ext; [rewrite vadd_length, smul_length, vzero_length; lia|]. intros i _. rewrite nth_vadd, nth_smul, nth_vzero. lra.
Qed.
Lemma same_lengths_nth xs ys i : same_lengths xs ys -> length (nth i xs []) = length (nth i ys []).
Proof. intros H. revert i. induction H; intros [|i]; cbn; auto. Qed.
Lemma dir_length args kw dargs dkw s : same_lengths dargs args -> map fst dkw = map fst kw -> same_lengths (map snd dkw) (map snd kw) ->
  length (dir_of dargs dkw s) = length (value_of args kw s).
Proof.
  intros H1 H2 H3. destruct s as [i|k|v]; cbn [value_of dir_of].
  - apply same_lengths_nth. exact H1.
  - revert kw H2 H3. induction dkw as [|[q d] dkw IH]; intros [|[q' v] kw] H2 H3; try discriminate; [reflexivity|]. cbn [map fst snd lookup] in H2, H3 |- *. injection H2 as -> H2. inversion H3; subst.
    destruct (string_dec k q'); [assumption|]. apply IH; assumption.
  - apply vzero_length.
Qed.
