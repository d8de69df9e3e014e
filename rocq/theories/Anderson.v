(** Models of anderson.py and anderson_wrapper.py.  Parameters are real pytrees flattened to one
    vector: every operation used (tree_average, tree_add_scalar_mul, tree_sub, tree_vdot) is
    leaf-wise linear or an inner product summed over the leaves. *)
From Coq Require Import Reals List Lra Lia Bool Arith.
From Verif Require Import Prelude Vec Mat LinAlg Prox Zoom Loss Run.
Import ListNotations.
Open Scope R_scope.

Section Anderson.
(** jnp.linalg.solve *)
Variable solve : mat -> vec -> vec.

(** anderson.py:39-41 the bordered matrix H *)
Definition bordered (residual_gram : mat) (ridge : R) : mat :=
  let m := length residual_gram in
  (0 :: vones m) :: map (fun row => 1 :: row) (madd residual_gram (msmul ridge (eye m))).
(** anderson.py:35-44 [minimize_residuals] *)
Definition minimize_residuals (residual_gram : mat) (ridge : R) : vec :=
  solve (bordered residual_gram ridge) (1 :: vzero (length residual_gram)).

(** tree_util.py:158-168 [tree_average]: sum of weights[i] * trees[i]; n is the size of a tree *)
Definition tree_average (n : nat) (trees : mat) (weights : vec) : vec := tvec n trees weights.

(** anderson.py:46-59 [anderson_step] *)
Definition anderson_step (n : nat) (params_history residuals_history residual_gram : mat) (ridge beta : R) : vec :=
  let alphas := tl (minimize_residuals residual_gram ridge) in
  let pa := tree_average n params_history alphas in
  let ra := tree_average n residuals_history alphas in
  vadd pa (smul beta ra).

(** anderson.py:78-86 [update_history]; pytree_replace_elem (64-77) is [set_nth] *)
Definition update_history (pos : nat) (params_history residuals_history residual_gram : mat)
    (extrapolated residual : vec) : mat * mat * mat * R :=
  let params_history := set_nth params_history pos extrapolated in
  let residuals_history := set_nth residuals_history pos residual in
  let new_row := map (fun r => dot r residual) residuals_history in
  let residual_gram := set_nth residual_gram pos new_row in
  let residual_gram := map2 (fun row v => set_nth row pos v) residual_gram new_row in
  (params_history, residuals_history, residual_gram, sqrt (entry residual_gram pos pos)).

(** anderson.py:89-109 [AndersonState] *)
Record anderson_state (A : Type) := {
  an_iter : nat; an_error : xnum; an_params : mat; an_residuals : mat; an_gram : mat; an_aux : A; an_num_fun_eval : nat
}.
Arguments an_iter {A}. Arguments an_error {A}. Arguments an_params {A}. Arguments an_residuals {A}.
Arguments an_gram {A}. Arguments an_aux {A}. Arguments an_num_fun_eval {A}.
(** anderson.py:147-159 options *)
Record anderson_config := {
  an_history_size : nat; an_mixing_frequency : nat; an_beta : R; an_maxiter : nat; an_tol : R; an_ridge : R
}.

(** anderson.py:256-269 [__post_init__] *)
Definition anderson_post_init (cfg : anderson_config) : result anderson_config :=
  if Nat.ltb (an_history_size cfg) 2 then Err ValueError else Ok cfg.

(** anderson.py:174-178 and anderson_wrapper.py:91-95: initial histories *)
Definition init_params_history (m : nat) (x : vec) : mat := repeat x m.
Definition init_residuals_history (m : nat) (x : vec) : mat := repeat (vzero (length x)) m.
Definition init_gram (m : nat) : mat := repeat (vzero m) m.

Section Fixed.
Context {A : Type}.
(** [_value_with_aux] *)
Variable value_with_aux : vec -> vec * A.
Variable cfg : anderson_config.

(** anderson.py:161-190 [init_state] *)
Definition anderson_init (x : vec) : anderson_state A :=
  let m := an_history_size cfg in
  {| an_iter := 0; an_error := PInf; an_params := init_params_history m x;
     an_residuals := init_residuals_history m x; an_gram := init_gram m;
     an_aux := snd (value_with_aux x); an_num_fun_eval := 1 |}.

(** anderson.py:208-225: the point at which the map is evaluated *)
Definition extrapolate (params : vec) (st : anderson_state A) : vec :=
  if (Nat.eqb (an_iter st mod an_mixing_frequency cfg) 0 && Nat.leb (an_history_size cfg) (an_iter st))%bool
  then anderson_step (length params) (an_params st) (an_residuals st) (an_gram st) (an_ridge cfg) (an_beta cfg)
  else params.

(** anderson.py:192-244 [update] *)
Definition anderson_update (step : vec * anderson_state A) : vec * anderson_state A :=
  let '(params, st) := step in
  let extrapolated := extrapolate params st in
  let pos := (an_iter st mod an_history_size cfg)%nat in
  let '(next_params, aux) := value_with_aux extrapolated in
  let residual := vsub next_params extrapolated in
  let '(ph, rh, gram, error) := update_history pos (an_params st) (an_residuals st) (an_gram st) extrapolated residual in
  (next_params,
   {| an_iter := S (an_iter st); an_error := Fin error; an_params := ph; an_residuals := rh; an_gram := gram;
      an_aux := aux; an_num_fun_eval := S (an_num_fun_eval st) |}).

(** base.py:264-266 [_cond_fun], 296-332 [run] *)
Definition anderson_run (x : vec) : vec * anderson_state A :=
  run_loop (an_maxiter cfg) (fun s => xgtb (an_error (snd s)) (an_tol cfg)) anderson_update (x, anderson_init x).
End Fixed.

(** anderson_wrapper.py:33-51 [AndersonWrapperState]; S is the inner solver's state *)
Record wrapper_state (S : Type) := {
  aw_iter : nat; aw_solver_state : S; aw_error : xnum; aw_params : mat; aw_residuals : mat; aw_gram : mat
}.
Arguments aw_iter {S}. Arguments aw_solver_state {S}. Arguments aw_error {S}. Arguments aw_params {S}.
Arguments aw_residuals {S}. Arguments aw_gram {S}.
Section Wrapper.
Context {St : Type}.
(** The inner solver: init_state, update, and its state's error. *)
Variable inner_init : vec -> St.
Variable inner_update : vec -> St -> vec * St.
Variable inner_error : St -> xnum.
Variable cfg : anderson_config.

(** anderson_wrapper.py:88-101 [init_state] *)
Definition wrapper_init (x : vec) : wrapper_state St :=
  let m := an_history_size cfg in
  {| aw_iter := 0; aw_solver_state := inner_init x; aw_error := inner_error (inner_init x);
     aw_params := init_params_history m x; aw_residuals := init_residuals_history m x; aw_gram := init_gram m |}.

(** anderson_wrapper.py:120-143 *)
Definition wrapper_extrapolate (params : vec) (st : wrapper_state St) : vec * St :=
  if (Nat.eqb (aw_iter st mod an_mixing_frequency cfg) 0 && Nat.leb (an_history_size cfg) (aw_iter st))%bool
  then let e := anderson_step (length params) (aw_params st) (aw_residuals st) (aw_gram st) (an_ridge cfg) (an_beta cfg) in
       (e, inner_init e)
  else (params, aw_solver_state st).

(** anderson_wrapper.py:103-167 [update] *)
Definition wrapper_update (step : vec * wrapper_state St) : vec * wrapper_state St :=
  let '(params, st) := step in
  let '(extrapolated, solver_state) := wrapper_extrapolate params st in
  let pos := (aw_iter st mod an_history_size cfg)%nat in
  let '(next_params, solver_state) := inner_update extrapolated solver_state in
  let residual := vsub next_params extrapolated in
  let '(ph, rh, gram, _) := update_history pos (aw_params st) (aw_residuals st) (aw_gram st) extrapolated residual in
  (next_params,
   {| aw_iter := S (aw_iter st); aw_solver_state := solver_state; aw_error := inner_error solver_state;
      aw_params := ph; aw_residuals := rh; aw_gram := gram |}).

(** base.py:264-266 [_cond_fun], 296-332 [run] *)
Definition wrapper_run (x : vec) : vec * wrapper_state St :=
  run_loop (an_maxiter cfg) (fun s => xgtb (aw_error (snd s)) (an_tol cfg)) wrapper_update (x, wrapper_init x).
End Wrapper.
(** anderson_wrapper.py:78-86 options, 172-181 [__post_init__]: maxiter and tol are the inner
    solver's, the default mixing frequency is the history size.  The signature (181) is in C60. *)
Definition wrapper_post_init (inner_maxiter : nat) (inner_tol : R) (history_size : nat)
    (mixing_frequency : option nat) (beta ridge : R) : anderson_config :=
  {| an_history_size := history_size;
     an_mixing_frequency := match mixing_frequency with None => history_size | Some f => f end;
     an_beta := beta; an_maxiter := inner_maxiter; an_tol := inner_tol; an_ridge := ridge |}.
End Anderson.
Arguments an_iter {A}. Arguments an_error {A}. Arguments an_params {A}. Arguments an_residuals {A}.
Arguments an_gram {A}. Arguments an_aux {A}. Arguments an_num_fun_eval {A}.
Arguments aw_iter {S}. Arguments aw_solver_state {S}. Arguments aw_error {S}. Arguments aw_params {S}.
Arguments aw_residuals {S}. Arguments aw_gram {S}.

(** ** Specification *)
(** sum of w_i x_i *)
Definition combination (n : nat) (xs : list vec) (w : vec) : vec := tvec n xs w.
(** Squared norm of the combined residual plus ridge times that of the weights. *)
Definition mixing_objective (n : nat) (ridge : R) (rs : list vec) (w : vec) : R :=
  sqnorm (combination n rs w) + ridge * sqnorm w.
Definition mixing_weights (n : nat) (ridge : R) (rs : list vec) (w : vec) : Prop :=
  length w = length rs /\ vsum w = 1 /\
  forall w', length w' = length rs -> vsum w' = 1 -> mixing_objective n ridge rs w <= mixing_objective n ridge rs w'.
(** Inner products of the residuals. *)
Definition gram_of (rs : list vec) (G : mat) : Prop :=
  mat_shape (length rs) (length rs) G /\
  forall i j, (i < length rs)%nat -> (j < length rs)%nat -> entry G i j = dot (nth i rs []) (nth j rs []).
(** A run of K updates. *)
Definition anderson_steps {A} solve (f : vec -> vec * A) cfg (xs : nat -> vec) (sts : nat -> anderson_state A) (K : nat) : Prop :=
  sts 0%nat = anderson_init f cfg (xs 0%nat) /\
  forall k, (k < K)%nat -> anderson_update solve f cfg (xs k, sts k) = (xs (S k), sts (S k)).
Definition wrapper_steps {St} solve (i : vec -> St) u e cfg (xs : nat -> vec) (sts : nat -> wrapper_state St) (K : nat) : Prop :=
  sts 0%nat = wrapper_init i e cfg (xs 0%nat) /\
  forall k, (k < K)%nat -> wrapper_update solve i u e cfg (xs k, sts k) = (xs (S k), sts (S k)).
Definition is_affine (n : nat) (f : vec -> vec) : Prop :=
  exists M b, mat_shape n n M /\ length b = n /\ forall x, length x = n -> f x = vadd (mvec M x) b.
(** The point at which the fixed-point map was evaluated in update j, as recorded by the state
    after that update. *)
Definition evaluated {A} (cfg : anderson_config) (sts : nat -> anderson_state A) (j : nat) : vec :=
  nth (j mod an_history_size cfg) (an_params (sts (S j))) [].
Definition wrapper_evaluated {St} (cfg : anderson_config) (sts : nat -> wrapper_state St) (j : nat) : vec :=
  nth (j mod an_history_size cfg) (aw_params (sts (S j))) [].
