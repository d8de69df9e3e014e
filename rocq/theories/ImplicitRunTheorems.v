(** C60: implicit differentiation of a whole solver call. *)
From Coq Require Import String.
From Coq Require Import Reals List Lra Lia Bool Arith Permutation.
From Verif Require Import Prelude Vec Mat LinAlg LinSolve LinSolveTheorems ImplicitDiff ImplicitDiffProofs ImplicitDiffTheorems ImplicitRun ImplicitRunProofs.
Import ListNotations.
Open Scope R_scope.

(** The decorated solver returns what the solver returns on the arguments of the call, defaults filled in. *)
Theorem C60_value : forall St Sc ds (f : list vec -> list (string * vec) -> result (output St)) jac solver_sig optimality_sig ref has_aux solve args kw,
  match @custom_root St Sc ds f jac solver_sig optimality_sig ref has_aux solve args kw with Ok (o, _) => Ok o | Err e => Err e end =
  match signature_bind solver_sig args kw with Ok (a, k) => f a k | Err e => Err e end.
Proof.
  intros St Sc ds f jac solver_sig optimality_sig ref has_aux solve args kw. unfold custom_root. assert (H := C39_forward vec solver_sig args kw). unfold wrapped_call in H.
  destruct (signature_bind solver_sig args kw) as [[a k]|e]; [|reflexivity]. unfold solver_fun_flat. apply (f_equal (fun r => match r with Ok z => z | Err _ => (a, k) end)) in H. cbv beta iota zeta in H. rewrite H. destruct (f a k); reflexivity.
Qed.
Print Assumptions C60_value.

(** The gradients handed to autodiff are the true derivatives of the solution, argument by argument, however each
    was passed.  Let x(t) be a continuous curve of roots of the optimality function as the positional arguments of
    the call move along dargs and the keyword arguments along dkw (defaults stay).  Then x is differentiable at 0,
    and for every cotangent w of the solution, <w, x'> is the sum of <gradient, direction> over the arguments. *)
Theorem C60_gradient : forall St Sc ds (f : list vec -> list (string * vec) -> result (output St)) F jac solver_sig optimality_sig ref has_aux solve args kw o pull
    (c : output Sc) ga gk sol w theta n dargs dkw x,
  let ref_sig := resolve_reference ref optimality_sig in
  let the_solve := match solve with Some s => s | None => ds end in
  sig_ok solver_sig -> sig_ok ref_sig -> NoDup (map fst kw) -> (args <> [] \/ kw <> []) -> jac_arity jac ->
  custom_root ds f jac solver_sig optimality_sig ref has_aux solve args kw = Ok (o, pull) -> pull c = Ok (ga, gk) ->
  main_part has_aux o = Ok sol -> main_part has_aux c = Ok w -> length w = n ->
  optimality_args solver_sig ref_sig args kw = Ok theta -> regular_root F jac the_solve n sol theta ->
  directions args kw dargs dkw -> root_curve F solver_sig ref_sig args kw dargs dkw n sol x ->
  length ga = length args /\ map fst gk = map fst kw /\
  exists x', curve_derivative x x' /\ dot w x' = pairing ga dargs + pairing (map snd gk) (map snd dkw).
Proof.
  intros St Sc ds f F jac solver_sig optimality_sig ref has_aux solve args kw o pull c ga gk sol w theta n dargs dkw x ref_sig the_solve
    Hss Hrs Hnk Hne Hja HC HP Ho Hc Hw Hth (Hsol & HF & H0 & Hfr & HN & HJ & HS & HT) (Hd1 & Hd2 & Hd3) (Lx & Hx0 & Hcont & r & Hr & Hroot).
  unfold custom_root in HC. fold ref_sig in HC. change (match solve with Some s => s | None => ds end) with the_solve in HC.
  assert (Hd1l : length dargs = length args) by (clear -Hd1; induction Hd1; cbn; lia).
  assert (Hbind := sources_bind solver_sig args kw Hnk).
  destruct (signature_bind (map source_param solver_sig) (map FromArg (seq 0 (length args))) (map (fun k => (k, FromKw k)) (map fst kw))) as [[ta tk]|e] eqn:Et;
    [|rewrite Hbind in HC; discriminate].
  set (val := value_of args kw) in *. set (dir := dir_of dargs dkw).
  rewrite Hbind in HC. destruct (solver_fun_flat f (map fst (kmap val tk)) (map val ta ++ map snd (kmap val tk))) as [o'|] eqn:Ef; [|discriminate]. injection HC as -> <-.
  unfold flat_bwd in HP. rewrite Hc, Ho in HP. rewrite kmap_fst, kmap_snd, <- map_app in HP.
  set (vjp := fun a : list vec => root_vjp (the_solve (length sol)) (length sol) (fst (jac sol a)) (snd (jac sol a)) (map (@length R) a) w) in HP.
  destruct (solver_fun_bwd ref_sig vjp (map fst tk) (map val (ta ++ map snd tk))) as [gs|] eqn:Eg; [|discriminate]. injection HP as <- <-.
  destruct (signature_bind_perm _ _ _ _ _ Et) as (defs & Pd & Hdef).
  assert (Pd' : Permutation (ta ++ map snd tk) ((map FromArg (seq 0 (length args)) ++ map FromKw (map fst kw)) ++ defs)).
  { rewrite Pd. rewrite !map_map. reflexivity. }
  assert (Hnd : NoDup (map fst tk)).
  { apply (signature_bind_keys _ _ _ _ _ ) in Et; [exact Et| |].
    - rewrite map_map. apply Hss.
    - rewrite map_map. cbn. rewrite map_id. exact Hnk. }
  assert (Hflat : ta ++ map snd tk <> []).
  { intros C. rewrite C in Pd'. apply Permutation_nil in Pd'. apply app_eq_nil in Pd'. destruct Pd' as [Pd' _]. apply app_eq_nil in Pd'. destruct Pd' as [P1 P2].
    apply map_eq_nil in P1. apply map_eq_nil in P2. apply map_eq_nil in P2. destruct args; [|discriminate]. destruct Hne; congruence. }
  assert (Hvl : forall a, length (vjp a) = length a).
  { intros a. unfold vjp, root_vjp. rewrite map_length, combine_length, map_length, Hja. apply Nat.min_id. }
  destruct (bwd_sum ref_sig ta tk val dir vjp gs Hrs Hnd Hflat Hvl Eg) as (b & Eb & Ekb & Hb & Lgs & Esum & _).
  (* the arguments of optimality_fun at time t *)
  assert (Hopt : forall args' kw', length args' = length args -> map fst kw' = map fst kw -> optimality_args solver_sig ref_sig args' kw' = Ok (map (value_of args' kw') (tl (ba_args b)))).
  { intros args' kw' E1 E2. unfold optimality_args. rewrite (sources_bind solver_sig args' kw') by (rewrite E2; exact Hnk). rewrite E1, E2, Et.
    rewrite bind_nat_id, Eb, ba_kwargs_nat, Ekb, ba_args_nat by reflexivity. cbn [kmap map]. f_equal. destruct (ba_args b); reflexivity. }
  assert (Eth : theta = map val (tl (ba_args b))).
  { rewrite Hopt in Hth by reflexivity. injection Hth as <-. reflexivity. }
  set (ts := tl (ba_args b)) in *.
  assert (Hmove : forall t, map (value_of (args_move args t dargs) (kw_move kw t dkw)) ts = args_move theta t (map dir ts)).
  { intros t. rewrite Eth. unfold args_move. clear -Hd1l Hd2. induction ts as [|s ts IH]; [reflexivity|]. cbn [map combine fst snd]. f_equal; [|exact IH].
    apply value_move; assumption. }
  set (ps := map (@length R) theta) in *.
  assert (Hth_ok : args_ok ps theta).
  { unfold ps. clear. induction theta as [|a l IH]; constructor; [reflexivity|exact IH]. }
  assert (Hdir_ok : args_ok ps (map dir ts)).
  { unfold ps. rewrite Eth. clear -Hd1 Hd2 Hd3. induction ts as [|s ts IH]; constructor; [|exact IH]. apply dir_length; assumption. }
  assert (Hroot' : forall t, Rabs t < r -> F (x t) (args_move theta t (map dir ts)) = vzero n).
  { intros t Ht. destruct (Hroot t Ht) as (th & E1 & E2). rewrite Hopt in E1.
    - injection E1 as <-. rewrite <- Hmove. exact E2.
    - apply args_move_length. exact Hd1l.
    - unfold kw_move. apply map_combine_fst. rewrite args_move_length; rewrite !map_length; [reflexivity|]. rewrite <- (map_length fst dkw), Hd2, map_length. reflexivity. }
  destruct (C38_ift (the_solve n) n ps F sol theta (fst (jac sol theta)) (snd (jac sol theta)) (map dir ts) x r HN HJ Hth_ok Hdir_ok Hsol HF Hfr H0 Lx Hx0 Hcont Hr Hroot' HS HT)
    as (J & _ & HJd & HJv).
  split; [rewrite map_length, seq_length; reflexivity|]. split; [rewrite map_map; apply map_id|].
  exists J. split; [exact HJd|].
  rewrite <- (HJv w Hw).
  assert (Evjp : vjp (map val ts) = root_vjp (the_solve n) n (fst (jac sol theta)) (snd (jac sol theta)) ps w).
  { unfold vjp. rewrite <- Eth, Hsol. reflexivity. }
  rewrite <- Evjp. rewrite <- Esum.
  rewrite (user_sum dir (ta ++ map snd tk) gs (length args) (map fst kw) defs); [| |exact Hnk| |exact Pd'|exact Lgs].
  - unfold flat_sources. rewrite Et. f_equal.
    + f_equal. rewrite <- Hd1l. apply map_nth_seq.
    + rewrite (map_map _ snd). cbn [snd]. f_equal. cbn [dir dir_of]. rewrite <- Hd2. apply (lookup_own dkw []). rewrite Hd2. exact Hnk.
  - intros v. reflexivity.
  - intros s Hs. destruct (Hdef s Hs) as (p & Hp & Ed). apply in_map_iff in Hp. destruct Hp as (q & <- & _). cbn in Ed. destruct (p_default q); [|discriminate]. injection Ed as <-. reflexivity.
Qed.
Print Assumptions C60_gradient.

(** The same for custom_fixed_point: x(t) is a continuous curve of fixed points of T. *)
Theorem C60_fixed_point : forall St Sc ds (f : list vec -> list (string * vec) -> result (output St)) T jacT solver_sig fixed_point_sig ref has_aux solve args kw o pull
    (c : output Sc) ga gk sol w theta n dargs dkw x,
  let ref_sig := resolve_reference ref fixed_point_sig in
  let the_solve := match solve with Some s => s | None => ds end in
  sig_ok solver_sig -> sig_ok ref_sig -> NoDup (map fst kw) -> (args <> [] \/ kw <> []) -> jac_arity jacT ->
  custom_fixed_point ds f jacT solver_sig fixed_point_sig ref has_aux solve args kw = Ok (o, pull) -> pull c = Ok (ga, gk) ->
  main_part has_aux o = Ok sol -> main_part has_aux c = Ok w -> length w = n ->
  optimality_args solver_sig ref_sig args kw = Ok theta -> regular_fixed_point T jacT the_solve n sol theta ->
  directions args kw dargs dkw -> fixed_point_curve T solver_sig ref_sig args kw dargs dkw n sol x ->
  length ga = length args /\ map fst gk = map fst kw /\
  exists x', curve_derivative x x' /\ dot w x' = pairing ga dargs + pairing (map snd gk) (map snd dkw).
Proof.
  intros St Sc ds f T jacT solver_sig fixed_point_sig ref has_aux solve args kw o pull c ga gk sol w theta n dargs dkw x ref_sig the_solve
    Hss Hrs Hnk Hne Hja HC HP Ho Hc Hw Hth (Hsol & HT & Hfix & Hfr & HSh & HN & HJ & HS & HTs) Hd (Lx & Hx0 & Hcont & r & Hr & Hroot).
  assert (Hth_ok : args_ok (map (@length R) theta) theta) by (clear; induction theta as [|a l IH]; constructor; [reflexivity|exact IH]).
  destruct (C38_fixed_point_root n _ T sol theta _ (snd (jacT sol theta)) Hsol HT Hth_ok HSh) as [E1 E2].
  refine (C60_gradient St Sc ds f (fixed_point_optimality T) _ solver_sig fixed_point_sig ref has_aux solve args kw o pull c ga gk sol w theta n dargs dkw x Hss Hrs Hnk Hne _ HC HP Ho Hc Hw Hth _ Hd _).
  - intros y a. exact (Hja y a).
  - unfold regular_root. cbn [fst snd]. rewrite Hsol. split; [reflexivity|]. split.
    { intros y a Hy Ha. unfold fixed_point_optimality. rewrite vsub_length, (HT y a Hy Ha), Hy. apply Nat.max_id. }
    split; [apply E1; exact Hfix|]. split; [apply E2; exact Hfr|]. unfold fixed_point_D1. exact (conj HN (conj HJ (conj HS HTs))).
  - split; [exact Lx|]. split; [exact Hx0|]. split; [exact Hcont|]. exists r. split; [exact Hr|]. intros t Ht. destruct (Hroot t Ht) as (th & A & B). exists th. split; [exact A|].
    unfold fixed_point_optimality. rewrite B, vsub_self, Lx. reflexivity.
Qed.
Print Assumptions C60_fixed_point.

(** The default linear solver, normal CG, solves both systems whenever CG is exact on positive definite systems. *)
Theorem C60_default_solve : forall cg n D1, exact_on_positive cg -> nonsingular n D1 -> let ds := normal_cg_solver cg in
  solves_with (ds n) n (mvec D1) /\ solves_with (ds n) n (tvec n D1) /\
  forall St Sc (f : list vec -> list (string * vec) -> result (output St)) jac solver_sig optimality_sig ref has_aux args kw,
    @custom_root St Sc ds f jac solver_sig optimality_sig ref has_aux None args kw = custom_root ds f jac solver_sig optimality_sig ref has_aux (Some ds) args kw.
Proof. intros cg n D1 H1 H2. destruct (C38_default_solver cg n D1 H1 H2) as [A B]. split; [exact A|]. split; [exact B|]. reflexivity. Qed.
Print Assumptions C60_default_solve.

(** ** IterativeSolver.run *)
Lemma lookup_absent {V} k (kw : list (string * V)) : ~ In k (map fst kw) -> lookup k kw = None.
Proof. induction kw as [|[k' v] kw IH]; [reflexivity|]. cbn [map fst In lookup]. intros H. destruct (string_dec k k') as [->|]; [exfalso; apply H; left; reflexivity|apply IH; intros C; apply H; right; exact C]. Qed.
Lemma run_bind {V} (d : list (param V)) (x0 : V) args kw : map p_default d = [None; None; None] -> map p_name d = ["init_params"; "args"; "kwargs"]%string ->
  map p_kind d = [PosOrKw; VarPos; VarKw] -> ~ In "init_params"%string (map fst kw) -> signature_bind d (x0 :: args) kw = Ok (x0 :: args, kw).
Proof.
  intros Ed En Ek H. destruct d as [|[n1 k1 d1] [|[n2 k2 d2] [|[n3 k3 d3] [|]]]]; try discriminate. cbn in Ed, En, Ek. injection Ed as -> -> ->. injection En as -> -> ->. injection Ek as -> -> ->.
  unfold signature_bind. cbn [bind p_kind p_name]. rewrite lookup_absent by exact H. destruct args as [|a args]; cbn [bind bind_kw p_kind]; destruct kw as [|e kw]; cbn; rewrite ?app_nil_r; reflexivity.
Qed.
Lemma run_sig_bind x0 args kw : ~ In "init_params"%string (map fst kw) -> signature_bind run_sig (x0 :: args) kw = Ok (x0 :: args, kw).
Proof. apply run_bind; reflexivity. Qed.
Lemma run_sources n keys : ~ In "init_params"%string keys -> flat_sources run_sig (S n) keys = map FromArg (seq 0 (S n)) ++ map FromKw keys.
Proof.
  intros H. unfold flat_sources. cbn [seq map]. rewrite run_bind; try reflexivity.
  - rewrite map_map. reflexivity.
  - rewrite map_map. cbn [fst]. rewrite map_id. exact H.
Qed.

(** [run] returns what the loop [_run] returns on the same arguments, whatever implicit_diff. *)
Theorem C60_run_value : forall St Sc ds (f : list vec -> list (string * vec) -> result (output St)) jac unrolled implicit_diff optimality_sig ref solve x0 args kw,
  ~ In "init_params"%string (map fst kw) ->
  match @run St Sc ds f jac unrolled implicit_diff optimality_sig ref solve x0 args kw with Ok (o, _) => Ok o | Err e => Err e end = f (x0 :: args) kw.
Proof.
  intros St Sc ds f jac unrolled impl optimality_sig ref solve x0 args kw H. unfold run. destruct (match impl with None => true | Some b => b end).
  - rewrite C60_value, run_sig_bind by exact H. reflexivity.
  - destruct (f (x0 :: args) kw); reflexivity.
Qed.
Print Assumptions C60_run_value.

(** With implicit_diff (the default), the gradients depend on the cotangent of the parameters only, not on that of the
    state; the initial parameters receive none; and the call can be differentiated exactly when its arguments, the
    initial parameters included, resolve to the positional parameters of the reference.  Otherwise: TypeError. *)
Theorem C60_run : forall St Sc ds (f : list vec -> list (string * vec) -> result (output St)) jac unrolled implicit_diff optimality_sig ref solve x0 args kw sol st w (sc : Sc),
  let ref_sig := resolve_reference ref optimality_sig in
  ~ In "init_params"%string (map fst kw) -> NoDup (map fst kw) -> sig_ok ref_sig -> jac_arity jac -> implicit_diff <> Some false ->
  f (x0 :: args) kw = Ok (WithAux sol st) ->
  exists pull, run ds f jac unrolled implicit_diff optimality_sig ref solve x0 args kw = Ok (WithAux sol st, pull) /\
    (forall sc', pull (WithAux w sc) = pull (WithAux w sc')) /\
    (resolvable ref_sig (S (length args)) (map fst kw) -> exists ga gk, pull (WithAux w sc) = Ok (None :: ga, gk) /\ length ga = length args /\ map fst gk = map fst kw) /\
    (~ resolvable ref_sig (S (length args)) (map fst kw) -> pull (WithAux w sc) = Err TypeError).
Proof.
  intros St Sc ds f jac unrolled impl optimality_sig ref solve x0 args kw sol st w sc ref_sig Hi Hnd Hs Hja Himpl Hf. unfold run.
  replace (match impl with None => true | Some b => b end) with true by (destruct impl as [[]|]; congruence).
  unfold custom_root. fold ref_sig. rewrite run_sig_bind by exact Hi.
  assert (Ef : solver_fun_flat f (map fst kw) ((x0 :: args) ++ map snd kw) = Ok (WithAux sol st)).
  { assert (V := C39_forward vec run_sig (x0 :: args) kw). unfold wrapped_call in V. rewrite run_sig_bind in V by exact Hi. unfold solver_fun_flat.
    apply (f_equal (fun r => match r with Ok z => z | Err _ => ([], []) end)) in V. cbv beta iota zeta in V. rewrite V. exact Hf. }
  rewrite Ef. eexists. split; [reflexivity|]. cbv beta. unfold flat_bwd. cbn [main_part].
  set (the_solve := match solve with None => ds | Some s => s end).
  set (vjp := fun a : list vec => root_vjp (the_solve (length sol)) (length sol) (fst (jac sol a)) (snd (jac sol a)) (map (@length R) a) w).
  assert (Hvl : forall a, length (vjp a) = length a).
  { intros a. unfold vjp, root_vjp. rewrite map_length, combine_length, map_length, Hja. apply Nat.min_id. }
  assert (Lf : length ((x0 :: args) ++ map snd kw) = (S (length args) + length kw)%nat) by (rewrite app_length, map_length; reflexivity).
  destruct (C39_resolvable vec vec vec ref_sig vjp (map fst kw) ((x0 :: args) ++ map snd kw) Hs Hnd) as [R1 R2]; [rewrite Lf, map_length; lia|discriminate|exact Hvl|].
  rewrite Lf, map_length in R1, R2. replace (S (length args) + length kw - length kw)%nat with (S (length args)) in R1, R2 by lia.
  split; [reflexivity|]. split.
  - intros HR. destruct (R1 HR) as (gs & E). fold vjp. rewrite E.
    destruct (bwd_sum ref_sig (x0 :: args) kw (fun v => v) (fun v => v) vjp gs Hs Hnd) as (_ & _ & _ & _ & _ & _ & H0); [discriminate|exact Hvl|rewrite map_id; exact E|].
    specialize (H0 ltac:(discriminate)). destruct gs as [|g gs]; [discriminate|]. injection H0 as ->.
    unfold user_gradients. cbn [length]. rewrite run_sources by exact Hi. cbn [seq map app gradient_at is_arg Nat.eqb].
    eexists. eexists. split; [reflexivity|]. rewrite map_length, seq_length, map_map. cbn [fst]. rewrite map_id. split; reflexivity.
  - intros HR. fold vjp. rewrite (R2 HR). reflexivity.
Qed.
Print Assumptions C60_run.
(** implicit_diff=False: the gradients are those of the unrolled loop. *)
Theorem C60_unrolled : forall St Sc ds (f : list vec -> list (string * vec) -> result (output St)) jac (unrolled : list vec -> list (string * vec) -> output Sc -> result gradients) optimality_sig ref solve x0 args kw o,
  f (x0 :: args) kw = Ok o -> run ds f jac unrolled (Some false) optimality_sig ref solve x0 args kw = Ok (o, unrolled (x0 :: args) kw).
Proof. intros. unfold run. rewrite H. reflexivity. Qed.
Print Assumptions C60_unrolled.
(** Combined with C60_gradient, the gradients of [run] are those of the root curve: a run binds its arguments, the
    initial parameters first, to the reference. *)
Theorem C60_run_gradient : forall St Sc ds (f : list vec -> list (string * vec) -> result (output St)) F jac unrolled implicit_diff optimality_sig ref solve x0 args kw sol st pull
    w (sc : Sc) ga gk theta n dargs dkw x,
  let ref_sig := resolve_reference ref optimality_sig in
  let the_solve := match solve with Some s => s | None => ds end in
  ~ In "init_params"%string (map fst kw) -> sig_ok ref_sig -> NoDup (map fst kw) -> jac_arity jac -> implicit_diff <> Some false ->
  run ds f jac unrolled implicit_diff optimality_sig ref solve x0 args kw = Ok (WithAux sol st, pull) -> pull (WithAux w sc) = Ok (None :: ga, gk) -> length w = n ->
  optimality_args run_sig ref_sig (x0 :: args) kw = Ok theta -> regular_root F jac the_solve n sol theta ->
  directions args kw dargs dkw -> root_curve F run_sig ref_sig (x0 :: args) kw (vzero (length x0) :: dargs) dkw n sol x ->
  exists x', curve_derivative x x' /\ dot w x' = pairing ga dargs + pairing (map snd gk) (map snd dkw).
Proof.
  intros St Sc ds f F jac unrolled impl optimality_sig ref solve x0 args kw sol st pull w sc ga gk theta n dargs dkw x ref_sig the_solve Hi Hs Hnd Hja Himpl HR HP Hw Hth Hreg (Hd1 & Hd2 & Hd3) Hcurve.
  unfold run in HR. replace (match impl with None => true | Some b => b end) with true in HR by (destruct impl as [[]|]; congruence).
  destruct (C60_gradient St Sc ds f F jac run_sig optimality_sig ref true solve (x0 :: args) kw (WithAux sol st) pull (WithAux w sc) (None :: ga) gk sol w theta n (vzero (length x0) :: dargs) dkw x) as (_ & _ & x' & A & B).
  - split; [cbn; repeat constructor; cbn; intuition discriminate|]. simpl. repeat first [exact I | apply Forall_nil | apply Forall_cons; [split; [cbn; lia|split; intros; discriminate]|] | split].
  - exact Hs.
  - exact Hnd.
  - left. discriminate.
  - exact Hja.
  - exact HR.
  - exact HP.
  - reflexivity.
  - reflexivity.
  - exact Hw.
  - exact Hth.
  - exact Hreg.
  - split; [constructor; [apply vzero_length|exact Hd1]|]. split; assumption.
  - exact Hcurve.
  - exists x'. split; [exact A|]. rewrite B. unfold pairing. cbn [combine fold_right fst snd pair1]. lra.
Qed.
Print Assumptions C60_run_gradient.

(** ** The solver classes *)
(** The reference of every class but four has the documented parameters; *)
Theorem C60_reference : forall c own subfun ref, class_reference c own subfun = Ok ref -> ~ catch_all_class c -> c <> ProjectedGradient ->
  (c = Bisection -> subfun = None) ->
  resolve_reference ref (class_optimality_sig c own) = documented_parameters c (match subfun with Some s => s | None => own end).
Proof.
  intros c own subfun ref H HC HP HB. unfold catch_all_class in HC.
  assert (I : forall name f, match inserted_reference name f with Ok s => Ok (RefSignature s) | Err e => Err e end = Ok ref -> resolve_reference ref (class_optimality_sig c own) = insert_1 (mk_param name PosOrKw) f).
  { intros name f E. unfold inserted_reference, new_signature in E. destruct (validate _ _ _ _); [|discriminate]. injection E as <-. reflexivity. }
  destruct c; cbn [class_reference] in H; try (exfalso; apply HC; cbn; tauto); try congruence;
    try (injection H as <-; destruct subfun; reflexivity); try (rewrite (I _ _ H); destruct subfun, own; reflexivity).
  - destruct subfun as [s|]; [|discriminate]. rewrite (I _ _ H). destruct s; reflexivity.
  - injection H as <-. rewrite HB by reflexivity. reflexivity.
Qed.
Print Assumptions C60_reference.
(** so that a run which passes the first parameters by position and the others by keyword, in any order, can be
    differentiated. *)
Theorem C60_keywords : forall c own subfun ref St Sc ds (f : list vec -> list (string * vec) -> result (output St)) jac unrolled solve x0 args kw sol st w (sc : Sc) by_position by_keyword,
  class_reference c own subfun = Ok ref -> ~ catch_all_class c -> c <> ProjectedGradient -> (c = Bisection -> subfun = None) ->
  let params := documented_parameters c (match subfun with Some s => s | None => own end) in
  params = by_position ++ by_keyword -> NoDup (map p_name params) -> Forall (fun p => p_kind p = PosOrKw) params ->
  length by_position = S (length args) -> Permutation (map fst kw) (map p_name by_keyword) ->
  ~ In "init_params"%string (map fst kw) -> jac_arity jac -> f (x0 :: args) kw = Ok (WithAux sol st) ->
  exists pull ga gk, run ds f jac unrolled (Some true) (class_optimality_sig c own) ref solve x0 args kw = Ok (WithAux sol st, pull) /\
    pull (WithAux w sc) = Ok (None :: ga, gk) /\ length ga = length args /\ map fst gk = map fst kw.
Proof.
  intros c own subfun ref St Sc ds f jac unrolled solve x0 args kw sol st w sc bp bk Hc H1 H2 H3 params Hsplit Hnd Hpos Hlen Hperm Hi Hja Hf.
  assert (Er := C60_reference c own subfun ref Hc H1 H2 H3). fold params in Er.
  assert (Hok : sig_ok params).
  { split; [exact Hnd|]. clear -Hpos. induction Hpos as [|p ps Hp Hps IH]; [exact I|]. cbn [map kinds_ok]. split; [|exact IH]. rewrite Hp. clear -Hps.
    induction Hps as [|q qs Hq Hqs IH]; constructor; [|exact IH]. rewrite Hq. split; [lia|]. split; intros; discriminate. }
  destruct (C60_run St Sc ds f jac unrolled (Some true) (class_optimality_sig c own) ref solve x0 args kw sol st w sc Hi) as (pull & E & _ & HR & _).
  - apply (Permutation_NoDup (Permutation_sym Hperm)). rewrite Hsplit, map_app in Hnd. clear -Hnd. induction (map p_name bp) as [|a l IH]; [exact Hnd|]. apply IH. inversion Hnd; assumption.
  - rewrite Er. exact Hok.
  - exact Hja.
  - discriminate.
  - exact Hf.
  - rewrite Er in HR. destruct HR as (ga & gk & A & B & C).
    + exists bp, bk, []. rewrite app_nil_r. split; [exact Hsplit|]. split; [rewrite <- Hsplit; exact Hpos|]. split; [exact Hperm|]. split; [constructor|]. left. exact Hlen.
    + exists pull, ga, gk. auto.
Qed.
Print Assumptions C60_keywords.
(** GaussNewton, LevenbergMarquardt, ScipyMinimize and ScipyLeastSquares: their [run] accepts keyword arguments for
    the user's function, but any keyword argument makes the differentiation of the call a TypeError, whatever the
    function and its parameters.  Positional arguments are fine. *)
Theorem C60_keywords_refuted : forall c own subfun, catch_all_class c ->
  exists ref, class_reference c own subfun = Ok ref /\
  forall St Sc ds (f : list vec -> list (string * vec) -> result (output St)) jac unrolled solve x0 args kw sol st w (sc : Sc),
    ~ In "init_params"%string (map fst kw) -> NoDup (map fst kw) -> jac_arity jac -> f (x0 :: args) kw = Ok (WithAux sol st) ->
    exists pull, run ds f jac unrolled (Some true) (class_optimality_sig c own) ref solve x0 args kw = Ok (WithAux sol st, pull) /\
      (kw <> [] -> pull (WithAux w sc) = Err TypeError) /\
      (kw = [] -> exists ga, pull (WithAux w sc) = Ok (None :: ga, []) /\ length ga = length args).
Proof.
  intros c own subfun HC. exists RefNone. split.
  { cbn in HC. decompose [or] HC; subst; try reflexivity; contradiction. }
  intros St Sc ds f jac unrolled solve x0 args kw sol st w sc Hi Hnd Hja Hf.
  assert (Ho : exists first, class_optimality_sig c own = catch_all first /\ first <> "args"%string /\ first <> "kwargs"%string).
  { cbn in HC. decompose [or] HC; subst; try contradiction; eexists; (split; [reflexivity|split; discriminate]). }
  destruct Ho as (first & Eo & N1 & N2). rewrite Eo.
  assert (Hok : sig_ok (catch_all first)).
  { split; [cbn; repeat constructor; cbn; intuition congruence|]. simpl. repeat first [exact I | apply Forall_nil | apply Forall_cons; [split; [cbn; lia|split; intros; discriminate]|] | split]. }
  destruct (C60_run St Sc ds f jac unrolled (Some true) (catch_all first) RefNone solve x0 args kw sol st w sc Hi Hnd Hok Hja ltac:(discriminate) Hf) as (pull & E & _ & HR & HN).
  exists pull. split; [exact E|]. cbn [resolve_reference] in HR, HN. split.
  - intros Hk. apply HN. intros (ps1 & ps2 & ps3 & Es & HF & HP & _ & HL).
    assert (Hk2 : ps2 <> []).
    { intros ->. apply Permutation_sym, Permutation_nil, map_eq_nil in HP. contradiction. }
    destruct HL as [HL|(_ & HK & _)]; [|apply map_eq_nil in HK; contradiction].
    destruct ps1 as [|p1 ps1]; [discriminate|]. destruct ps2 as [|p2 ps2]; [contradiction|]. unfold catch_all in Es. cbn [app] in Es. injection Es as _ Es.
    destruct ps1 as [|q ps1]; cbn [app] in Es; injection Es as Eq _; subst; inversion HF as [|? ? _ HF']; inversion HF' as [|? ? Q _]; discriminate Q.
  - intros ->. destruct HR as (ga & gk & A & B & C).
    + exists [mk_param first PosOrKw], [], [mk_param "args" VarPos; mk_param "kwargs" VarKw]. split; [reflexivity|]. split; [repeat constructor|]. split; [constructor|]. split; [repeat constructor|].
      destruct args as [|a args]; [left; reflexivity|right]. cbn [length]. split; [lia|]. split; [reflexivity|]. eexists. eexists. split; reflexivity.
    + exists ga. destruct gk; [|discriminate]. auto.
Qed.
Print Assumptions C60_keywords_refuted.

(** Construction of ProximalGradient, BlockCoordinateDescent, MirrorDescent, LBFGSB: for a function with a valid
    signature it succeeds exactly when the first parameter is an ordinary one without default and no parameter is
    called like the inserted one.  Otherwise: ValueError. *)
Lemma validate_name top seen names names' ps name : (forall n, In n names' <-> n = name \/ In n names) ->
  validate top seen names' ps = (validate top seen names ps && negb (existsb (fun p => String.eqb name (p_name p)) ps)).
Proof.
  revert top seen names names'. induction ps as [|p ps IH]; intros top seen names names' HN; [reflexivity|]. cbn [validate existsb].
  destruct (Nat.ltb _ top); [reflexivity|]. destruct (is_pos p && negb (has_default p) && seen); [reflexivity|].
  assert (E : existsb (String.eqb (p_name p)) names' = String.eqb name (p_name p) || existsb (String.eqb (p_name p)) names).
  { apply eq_true_iff_eq. rewrite orb_true_iff, !existsb_exists. split.
    - intros (n & A & B). apply String.eqb_eq in B. subst n. apply HN in A. destruct A as [->|A]; [left; apply String.eqb_refl|right; exists (p_name p); split; [exact A|apply String.eqb_refl]].
    - intros [A|(n & A & B)].
      + apply String.eqb_eq in A. exists name. split; [apply HN; left; reflexivity|rewrite A; apply String.eqb_refl].
      + exists n. split; [apply HN; right; exact A|exact B]. }
  rewrite E. destruct (existsb (String.eqb (p_name p)) names); [rewrite orb_true_r; reflexivity|]. rewrite orb_false_r.
  destruct (String.eqb name (p_name p)); [rewrite andb_false_r; reflexivity|]. cbn [orb negb].
  apply IH. intros n. cbn [In]. rewrite HN. tauto.
Qed.
Theorem C60_insert : forall name p0 ps, new_signature (p0 :: ps) = Ok (p0 :: ps) ->
  (p_kind p0 = PosOrKw /\ p_default p0 = None /\ ~ In name (map p_name (p0 :: ps)) ->
    inserted_reference name (p0 :: ps) = Ok (p0 :: mk_param name PosOrKw :: ps)) /\
  (~ (p_kind p0 = PosOrKw /\ p_default p0 = None /\ ~ In name (map p_name (p0 :: ps))) -> inserted_reference name (p0 :: ps) = Err ValueError).
Proof.
  intros name p0 ps H. unfold new_signature in H. destruct (validate 0 false [] (p0 :: ps)) eqn:HV; [clear H|discriminate].
  cbn [validate existsb] in HV. change (Nat.ltb (kind_rank (p_kind p0)) 0) with false in HV. rewrite andb_false_r in HV. cbn [orb] in HV.
  assert (E : validate 0 false [] (insert_1 (mk_param name PosOrKw) (p0 :: ps)) =
    (is_pos p0 && negb (has_default p0) && negb (existsb (fun p => String.eqb name (p_name p)) (p0 :: ps)))%bool).
  { cbn [insert_1 validate existsb]. change (Nat.ltb (kind_rank (p_kind p0)) 0) with false. rewrite andb_false_r. cbn [orb].
    unfold is_pos at 1 2, has_default at 1 2. cbn [mk_param p_kind p_name p_default]. rewrite orb_false_r.
    change (kind_rank PosOrKw) with 0%nat. unfold is_pos, has_default in *. destruct (p_kind p0) eqn:Ek; try reflexivity. cbn [kind_rank] in *. change (Nat.ltb 0 0) with false. cbn [andb negb] in *.
    destruct (p_default p0) eqn:Ed; [reflexivity|]. cbn [andb negb orb] in *.
    destruct (String.eqb name (p_name p0)) eqn:En; [reflexivity|]. cbn [orb negb].
    cbn [mk_param p_kind p_default andb]. rewrite (validate_name 0 false [p_name p0] [name; p_name p0] ps name); [rewrite HV; reflexivity|]. intros n. cbn [In]. split; intros [->|K]; auto. }
  unfold inserted_reference, new_signature. change {| p_name := name; p_kind := PosOrKw; p_default := None |} with (mk_param name PosOrKw). rewrite E.
  assert (EI : existsb (fun p => String.eqb name (p_name p)) (p0 :: ps) = true <-> In name (map p_name (p0 :: ps))).
  { rewrite existsb_exists, in_map_iff. split; intros (p & A & B); exists p; [apply String.eqb_eq in B; subst; auto|subst name; split; [exact B|apply String.eqb_refl]]. }
  split.
  - intros (K1 & K2 & K3). unfold is_pos, has_default. rewrite K1, K2. destruct (existsb _ _); [exfalso; apply K3; apply EI; reflexivity|]. reflexivity.
  - intros K. destruct (is_pos p0 && negb (has_default p0) && negb (existsb (fun p => String.eqb name (p_name p)) (p0 :: ps)))%bool eqn:EB; [|reflexivity]. exfalso. apply K.
    apply andb_true_iff in EB. destruct EB as [EB E3]. apply andb_true_iff in EB. destruct EB as [E1 E2]. unfold is_pos in E1. unfold has_default in E2.
    split; [destruct (p_kind p0); try discriminate; reflexivity|]. split; [destruct (p_default p0); [discriminate|reflexivity]|]. intros C. apply EI in C. rewrite C in E3. discriminate.
Qed.
Print Assumptions C60_insert.
(** The documentation asks for "a smooth function of the form fun(x, *args, **kwargs)".  A function whose only
    parameters are *args and **kwargs, which can be called so, works with GradientDescent, but the four classes refuse it at construction. *)
Definition variadic : signature := [mk_param "args" VarPos; mk_param "kwargs" VarKw].
Theorem C60_insert_refuted : new_signature variadic = Ok variadic /\
  (forall x args kw, NoDup (map fst kw) -> signature_bind variadic (x :: args) kw = Ok (x :: args, kw)) /\
  (exists ref, class_reference GradientDescent variadic None = Ok ref) /\
  (forall c, In c [ProximalGradient; MirrorDescent; LBFGSB] -> class_reference c variadic None = Err ValueError) /\
  class_reference BlockCoordinateDescent variadic (Some variadic) = Err ValueError.
Proof.
  split; [reflexivity|]. split.
  - intros x args kw _. unfold signature_bind, variadic. cbn [bind bind_kw mk_param p_kind]. destruct kw as [|e kw]; cbn; rewrite ?app_nil_r; reflexivity.
  - split; [eexists; reflexivity|]. split; [|reflexivity]. intros c H. cbn in H. decompose [or] H; subst; try reflexivity; contradiction.
Qed.
Print Assumptions C60_insert_refuted.

(** AndersonWrapper reads solver.reference_signature: solvers that set none cannot be wrapped, although the
    documentation asks for init() and update() only. *)
Theorem C60_wrapper : forall c own subfun ref, ~ catch_all_class c -> c <> Bisection -> c <> ProjectedGradient ->
  class_reference c own subfun = Ok ref -> wrapper_reference c own subfun = Ok ref.
Proof.
  intros c own subfun ref H1 H2 H3 H. unfold wrapper_reference. rewrite H. destruct ref; try reflexivity. exfalso. unfold catch_all_class in H1.
  destruct c; cbn [class_reference] in H; try (apply H1; cbn; tauto); try congruence; try (destruct (inserted_reference _ _); discriminate). destruct subfun; [|discriminate]. destruct (inserted_reference _ _); discriminate.
Qed.
Print Assumptions C60_wrapper.
Theorem C60_wrapper_refuted : forall c own subfun, In c [GaussNewton; LevenbergMarquardt; Bisection; ProjectedGradient] ->
  (exists ref, class_reference c own subfun = Ok ref) /\ wrapper_reference c own subfun = Err AttributeError.
Proof. intros c own subfun H. cbn in H. decompose [or] H; subst; try contradiction; (split; [eexists; reflexivity|reflexivity]). Qed.
Print Assumptions C60_wrapper_refuted.

(** A run of GradientDescent on x^2 - (a + 3 b) x, whose minimiser (a + 3 b) / 2 has derivatives 1/2 and 3/2, with
    the keyword arguments in the other order. *)
Definition ex_fun_sig : signature := [mk_param "x" PosOrKw; mk_param "a" PosOrKw; mk_param "b" PosOrKw].
Definition ex_F (x : vec) (th : list vec) : vec := vsub (smul 2 x) (vadd (nth 0 th []) (smul 3 (nth 1 th []))).
Definition ex_jac (x : vec) (th : list vec) : mat * list mat := ([[2]], map (fun i => match i with O => [[-1]] | _ => [[-3]] end) (seq 0 (length th))).
Definition ex_solve (n : nat) (f : vec -> vec) (b : vec) : vec := smul (1 / 2) b.
Definition ex_loop (args : list vec) (kw : list (string * vec)) : result (output unit) :=
  match lookup "a"%string kw, lookup "b"%string kw with
  | Some a, Some b => Ok (WithAux (smul (1 / 2) (vadd a (smul 3 b))) tt)
  | _, _ => Err TypeError
  end.
Definition ex_kw : list (string * vec) := [("b"%string, [2]); ("a"%string, [4])].
Definition ex_dkw : list (string * vec) := [("b"%string, [7]); ("a"%string, [1])].
Example C60_example : exists ref pull,
  class_reference GradientDescent ex_fun_sig None = Ok ref /\ resolve_reference ref (class_optimality_sig GradientDescent ex_fun_sig) = ex_fun_sig /\
  run (Sc:=unit) ex_solve ex_loop ex_jac (fun _ _ _ => Err Unspecified) None (class_optimality_sig GradientDescent ex_fun_sig) ref None [0] [] ex_kw = Ok (WithAux [5] tt, pull) /\
  pull (WithAux [1] tt) = Ok ([None], [("b"%string, Some [3 / 2]); ("a"%string, Some [1 / 2])]) /\
  jac_arity ex_jac /\ optimality_args run_sig ex_fun_sig [[0]] ex_kw = Ok [[4]; [2]] /\ regular_root ex_F ex_jac ex_solve 1 [5] [[4]; [2]] /\
  directions [] ex_kw [] ex_dkw /\ root_curve ex_F run_sig ex_fun_sig [[0]] ex_kw [[0]] ex_dkw 1 [5] (fun t => [5 + t * 11]).
Proof.
  exists (RefCallable ex_fun_sig None). eexists. split; [reflexivity|]. split; [reflexivity|].
  assert (E5 : smul (1 / 2) (vadd [4] (smul 3 [2])) = [5]) by (cbn; f_equal; lra).
  split.
  { unfold run, custom_root. rewrite (run_sig_bind [0] [] ex_kw) by (cbn; intuition discriminate).
    match goal with |- context [solver_fun_flat ?f ?k ?l] => assert (Ef : solver_fun_flat f k l = Ok (WithAux [5] tt)) by (rewrite <- E5; reflexivity); rewrite Ef end. reflexivity. }
  split.
  { cbn -[Rmult Rplus Ropp Rdiv IZR]. unfold user_gradients. rewrite run_sources by (cbn; intuition discriminate). cbn -[Rmult Rplus Ropp Rdiv IZR]. replace (1 / 2 * (-1 * 1) * -3 + 0) with (3 / 2) by lra. replace (1 / 2 * (-1 * 1) * -1 + 0) with (1 / 2) by lra. reflexivity. }
  split; [intros x a; unfold ex_jac; cbn; rewrite map_length, seq_length; reflexivity|]. split; [reflexivity|]. split; [|split].
  - assert (HN : nonsingular 1 [[2]]).
    { split; [repeat constructor|]. intros [|a [|]] L E; try discriminate. cbv in E. injection E as E. cbv. f_equal. lra. }
    unfold regular_root. cbn [map length]. split; [reflexivity|]. split; [|split; [|split; [|split; [|split; [|split]]]]].
    + intros y a Hy Ha. inversion Ha as [|? a0 ? a' La Ha']; subst. inversion Ha' as [|? b0 ? b' Lb Hb']; subst. unfold ex_F. cbn [nth]. rewrite vsub_length, vadd_length, !smul_length. unfold vec in *. rewrite Hy, La, Lb. reflexivity.
    + unfold ex_F. cbn. f_equal. lra.
    + intros eps He. exists 1. split; [lra|]. intros x a Hx Ha _ _. destruct x as [|x [|]]; try discriminate. inversion Ha as [|? a0 ? a' La Ha']; subst. inversion Ha' as [|? b0 ? b' Lb Hb']; subst. inversion Hb'; subst.
      destruct a0 as [|a0 [|]]; try discriminate. destruct b0 as [|b0 [|]]; try discriminate.
      match goal with |- norm2 ?z <= _ => assert (Ez : z = vzero 1) by (cbv; f_equal; ring) end.
      rewrite Ez. assert (Zn : norm2 (vzero 1) = 0) by (apply norm2_zero_iff; reflexivity). rewrite Zn.
      apply Rmult_le_pos; [lra|]. apply Rplus_le_le_0_compat; apply norm2_nonneg.
    + exact HN.
    + repeat constructor.
    + intros [|b [|]] Hb; try discriminate. cbn. split; [reflexivity|]. f_equal. lra.
    + intros [|b [|]] Hb; try discriminate. cbn. split; [reflexivity|]. f_equal. lra.
  - split; [constructor|]. split; [reflexivity|]. repeat constructor.
  - split; [reflexivity|]. split; [f_equal; lra|]. split.
    + intros eps He. exists (eps / 12). split; [lra|]. intros t Ht. cbn. unfold norm2, sqnorm. cbn. rewrite Rplus_0_r.
      match goal with |- sqrt (?z * ?z) < _ => rewrite (sqrt_Rsqr_abs z : sqrt (z * z) = Rabs z); replace z with (11 * t) by lra end.
      rewrite Rabs_mult, (Rabs_right 11) by lra. lra.
    + exists 1. split; [lra|]. intros t _. eexists. split; [reflexivity|]. unfold ex_F. cbn. f_equal. lra.
Qed.
