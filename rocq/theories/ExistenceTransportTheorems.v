(** C81, optimal transport: the dual problems handed to the inner solver have solutions, hence the projections exist. *)
From Coq Require Import Reals List Lra Lia Bool Arith.
From Verif Require Import Prelude Vec Mat Proj ProjProofs Loss LossProofs Mirror Transport TransportProofs TransportTheorems Existence Compact ExistenceProofs ExistenceTransport.
Import ListNotations.
Open Scope R_scope.

(** Positive marginals of equal mass: the projection exists and is unique, both dual problems have a solution,
    and the code returns the projection for every inner solver that finds one, in both modes. *)
Theorem C81_transport : forall r m S a b, transport_problem m S a b -> (forall x, In x a -> 0 < x) -> (forall x, In x b -> 0 < x) -> vsum a = vsum b ->
  let C := map (smul (-1)) S in
  (exists alpha, exact_min m (semi_dual r 1 C a b) alpha) /\ (exists ab, exact_min2 m (length S) (dual r 1 C a b) ab) /\
  exists P, polytope m a b P /\
    (forall Q, polytope m a b Q -> projection_cost r S P <= projection_cost r S Q /\ (projection_cost r S Q <= projection_cost r S P -> Q = P)) /\
    forall solver solver2 (use_semi_dual : bool),
      (if use_semi_dual then exact_min m (semi_dual r 1 C a b) (solver (semi_dual r 1 C a b) (vzero m))
       else exact_min2 m (length S) (dual r 1 C a b) (solver2 (dual r 1 C a b) (vzero m, vzero (length S)))) ->
      projection_transport solver solver2 r m S a b use_semi_dual = Ok P.
Proof.
  intros r m S a b HP Ha Hb E C. assert (HN := neg_problem _ _ _ _ HP). fold C in HN. assert (LC : length C = length S) by apply map_length.
  destruct (semi_dual_attained r 1 m C a b ltac:(lra) HN Ha Hb E) as (al & Hal). destruct (dual_attained r 1 m C a b ltac:(lra) HN Ha Hb E) as (ab & Hab). rewrite LC in Hab.
  split; [exists al; exact Hal|]. split; [exists ab; exact Hab|].
  destruct (C51_transport r m S a b (fun _ _ => al) (fun _ _ => ab) true HP (conj Hb Hal)) as (P & _ & HPP & Hm). exists P. split; [exact HPP|]. split; [exact Hm|].
  intros s1 s2 u Hu. destruct (C51_transport r m S a b s1 s2 u HP) as (P' & E' & HP' & Hm'); [destruct u; [split; [exact Hb|exact Hu]|exact Hu]|].
  rewrite E'. f_equal. apply Hm; [exact HP'|]. apply Hm'. exact HPP.
Qed.
Print Assumptions C81_transport.

(** The projection onto the Birkhoff polytope exists for every square matrix. *)
Theorem C81_birkhoff : forall r n S, (0 < n)%nat -> length S = n -> matrix n S -> let one := vones n in let C := map (smul (-1)) S in
  exists P, polytope n one one P /\
    (forall Q, polytope n one one Q -> projection_cost r S P <= projection_cost r S Q /\ (projection_cost r S Q <= projection_cost r S P -> Q = P)) /\
    forall solver solver2 (use_semi_dual : bool),
      (if use_semi_dual then exact_min n (semi_dual r 1 C one one) (solver (semi_dual r 1 C one one) (vzero n))
       else exact_min2 n n (dual r 1 C one one) (solver2 (dual r 1 C one one) (vzero n, vzero n))) ->
      projection_birkhoff solver solver2 r n S use_semi_dual = Ok P.
Proof.
  intros r n S Hn LS MS one C. assert (TP : transport_problem n S one one) by (repeat split; try assumption; unfold one; rewrite vones_length; [reflexivity|symmetry; exact LS]).
  assert (H1 : forall x, In x one -> 0 < x) by (intros x Hx; apply repeat_spec in Hx; lra).
  destruct (C81_transport r n S one one TP H1 H1 eq_refl) as (_ & _ & P & HP & Hm & Hs). exists P. split; [exact HP|]. split; [exact Hm|].
  intros s1 s2 u Hu. unfold projection_birkhoff. rewrite LS. apply Hs. destruct u; [exact Hu|]. rewrite LS. exact Hu.
Qed.
Print Assumptions C81_birkhoff.

(** A zero entry in the first marginal, entropic case: the polytope is not empty and the projection may exist, but
    neither dual problem has a solution, so that no inner solver can return one. *)
Lemma row_sums_nth m P i : (i < m)%nat -> matrix m P -> nth i (row_sums m P) 0 = vsum (map (fun c => nth i c 0) P).
Proof.
  intros Hi. induction P as [|c P IH]; intros HM; simpl; [apply nth_repeat_lt; exact Hi|]. rewrite nth_vadd, IH by (intros d Hd; apply HM; right; exact Hd). reflexivity.
Qed.
Lemma vsum_pos_ne (l : vec) : l <> [] -> (forall x, In x l -> 0 < x) -> 0 < vsum l.
Proof.
  destruct l as [|a l]; [congruence|]. intros _ H. simpl. assert (A : 0 < a) by (apply H; left; reflexivity).
  assert (B : 0 <= vsum l); [|lra]. apply vsum_nonneg, Forall_forall. intros x Hx. left. apply H. right. exact Hx.
Qed.
Theorem C81_zero_row_refuted : forall gamma m C a b i, 0 < gamma -> transport_problem m C a b -> (forall x, In x b -> 0 < x) -> b <> [] ->
  (i < m)%nat -> nth i a 0 = 0 ->
  (forall alpha, ~ exact_min m (semi_dual REnt gamma C a b) alpha) /\ (forall ab, ~ exact_min2 m (length C) (dual REnt gamma C a b) ab).
Proof.
  intros gamma m C a b i Hg HP Hb Hbn Hi Hz. assert (Hm : (0 < m)%nat) by apply HP. assert (Lb : length b = length C) by apply HP. assert (MC : matrix m C) by apply HP. split.
  - intros al [La Hmin]. destruct (C51_semi_dual REnt gamma m C a b Hg HP Hb al La) as (N & _ & _ & _ & _ & _ & [K _] & _).
    specialize (K Hmin). assert (P0 : 0 < nth i (row_sums m (semi_dual_plan REnt gamma C b al)) 0); [|rewrite K in P0; lra].
    rewrite row_sums_nth by (try exact Hi; apply N). apply vsum_pos_ne.
    + intros E. apply map_eq_nil in E. unfold semi_dual_plan in E. destruct b as [|b0 b']; [congruence|]. destruct C; [discriminate Lb|discriminate E].
    + intros x Hx. apply in_map_iff in Hx. destruct Hx as (c & <- & Hc). clear K N Hmin Hz HP Hbn. unfold semi_dual_plan in Hc.
      revert b Hb Lb Hc. induction C as [|c0 C' IH]; intros [|b0 b'] Hb Lb Hc; try contradiction. destruct Hc as [<-|Hc]; [|apply (IH ltac:(intros d Hd; apply MC; right; exact Hd) b'); [intros x Hx; apply Hb; right; exact Hx|simpl in Lb; lia|exact Hc]].
      rewrite nth_smul. apply Rmult_lt_0_compat; [apply Hb; left; reflexivity|]. simpl. unfold max_ent_grad.
      apply (softmax_pos_simplex m); [exact Hm| |exact Hi]. rewrite map_length, vsub_length, La, (MC c0 (or_introl eq_refl)). apply Nat.max_id.
  - intros [al be] [[La Lbe] Hmin]. simpl in La, Lbe. destruct (C51_dual REnt gamma m C a b Hg HP al be La Lbe) as (N & _ & _ & _ & _ & [K _] & _).
    destruct (K Hmin) as [K1 _]. assert (P0 : 0 < nth i (row_sums m (dual_plan REnt gamma C (al, be))) 0); [|assert (K2 : row_sums m (dual_plan REnt gamma C (al, be)) = a) by exact K1; rewrite K2 in P0; lra].
    rewrite row_sums_nth by (try exact Hi; apply N). apply vsum_pos_ne.
    + intros E. apply map_eq_nil in E. unfold dual_plan in E. destruct be as [|b0 b']; destruct C as [|c0 C']; try discriminate. destruct b; [congruence|discriminate Lb].
    + intros x Hx. apply in_map_iff in Hx. destruct Hx as (c & <- & Hc). clear K K1 N Hmin Hz HP Hbn Lb. unfold dual_plan in Hc.
      revert be Lbe Hc. induction C as [|c0 C' IH]; intros [|b0 b'] Lbe Hc; try contradiction. destruct Hc as [<-|Hc]; [|apply (IH ltac:(intros d Hd; apply MC; right; exact Hd) b'); [simpl in Lbe; lia|exact Hc]].
      simpl. unfold delta_ent_grad. set (v := vsub _ c0). assert (Lv : length v = m) by (unfold v; rewrite vsub_length, map_length, La, (MC c0 (or_introl eq_refl)); apply Nat.max_id).
      rewrite (nth_indep _ 0 ((fun t => exp (t / gamma - 1)) 0)) by (rewrite map_length, Lv; exact Hi). rewrite (map_nth (fun t => exp (t / gamma - 1))). apply exp_pos.
Qed.
Print Assumptions C81_zero_row_refuted.

(** A 2 x 3 problem with unequal marginals; a zero first entry. *)
Example C81_transport_example :
  let S := [[1; 0]; [2; -1]; [0; 3]] in let a := [2; 1] in let b := [1; 1/2; 3/2] in
  (transport_problem 2 S a b /\ (forall x, In x a -> 0 < x) /\ (forall x, In x b -> 0 < x) /\ vsum a = vsum b) /\
  (transport_problem 2 S [0; 3] b /\ nth 0 [0; 3] 0 = 0 /\ polytope 2 [0; 3] b [[0; 1]; [0; 1/2]; [0; 3/2]]).
Proof.
  intros S a b. assert (MS : matrix 2 S) by (intros c [<-|[<-|[<-|[]]]]; reflexivity).
  split; [split; [repeat split; try assumption; lia|split; [intros x [<-|[<-|[]]]; lra|split; [intros x [<-|[<-|[<-|[]]]]; lra|unfold a, b; simpl; lra]]]|].
  split; [repeat split; try assumption; lia|]. split; [reflexivity|]. split; [|split].
  - split; [intros c [<-|[<-|[<-|[]]]]; reflexivity|]. intros c [<-|[<-|[<-|[]]]] [|[|i]] Hi; simpl; try lra; lia.
  - unfold row_sums. simpl. f_equal; [lra|f_equal; lra].
  - unfold col_sums, b. simpl. f_equal; [lra|f_equal; [lra|f_equal; lra]].
Qed.
