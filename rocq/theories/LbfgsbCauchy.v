(** The generalised Cauchy point of lbfgsb.py:79-175. *)
From Coq Require Import String Reals List Bool Arith Lra Lia Permutation Sorted.
From Verif Require Import Prelude Base Vec Mat XArith LinAlg Loss LossProofs QuasiNewton QuasiNewtonProofs Lbfgsb LbfgsbHess.
Import ListNotations.
Open Scope R_scope.

(** ** Sorting *)
Section Sort.
Variable A : Type.
Variable le : A -> A -> bool.
Variable dom : A -> Prop.
Hypothesis total : forall a b, dom a -> dom b -> le a b = false -> le b a = true.
Hypothesis trans : forall a b c, dom a -> dom b -> dom c -> le a b = true -> le b c = true -> le a c = true.
Lemma insert_by_perm a l : Permutation (insert_by le a l) (a :: l).
Proof.
  induction l as [|b l IH]; [reflexivity|]. cbn [insert_by]. destruct (le a b); [reflexivity|].
  rewrite perm_swap. apply perm_skip. exact IH.
Qed.
Lemma insert_by_sorted a l : dom a -> Forall dom l -> StronglySorted (fun u v => le u v = true) l -> StronglySorted (fun u v => le u v = true) (insert_by le a l).
Proof.
  intros Da Dl S. induction S as [|b l S IH F].
  - repeat constructor.
  - inversion Dl as [|? ? Db Dl']; subst. cbn [insert_by]. destruct (le a b) eqn:E.
    + constructor; [constructor; assumption|]. constructor; [exact E|].
      apply Forall_forall. intros c Hc. rewrite Forall_forall in F, Dl'. apply (trans a b c); auto.
    + constructor; [apply IH; exact Dl'|]. apply (Permutation_Forall (Permutation_sym (insert_by_perm a l))).
      constructor; [apply total; assumption|exact F].
Qed.
Lemma sort_perm l : Permutation (fold_right (insert_by le) [] l) l.
Proof. induction l as [|a l IH]; [reflexivity|]. cbn [fold_right]. rewrite insert_by_perm. apply perm_skip. exact IH. Qed.
Lemma sort_sorted l : Forall dom l -> StronglySorted (fun u v => le u v = true) (fold_right (insert_by le) [] l).
Proof.
  induction 1 as [|a l Da Dl IH]; [constructor|]. cbn [fold_right]. apply insert_by_sorted; [exact Da| |exact IH].
  apply (Permutation_Forall (Permutation_sym (sort_perm l))). exact Dl.
Qed.
Lemma sorted_nth (P : A -> A -> Prop) l d : StronglySorted P l -> forall i j, (i < j)%nat -> (j < length l)%nat -> P (nth i l d) (nth j l d).
Proof.
  induction 1 as [|a l S IH F]; intros i j Hij Hj; [cbn in Hj; lia|]. cbn in Hj. destruct j; [lia|]. destruct i.
  - cbn [nth]. rewrite Forall_forall in F. apply F. apply nth_In. lia.
  - cbn [nth]. apply IH; lia.
Qed.
End Sort.

Lemma index_of_in k l : In k l -> (index_of k l < length l)%nat /\ nth (index_of k l) l 0%nat = k.
Proof.
  induction l as [|j l IH]; intros H; [destruct H|]. cbn [index_of]. destruct (Nat.eqb_spec k j) as [->|N]; [cbn; split; [lia|reflexivity]|].
  destruct H as [H|H]; [congruence|]. destruct (IH H). cbn. split; [lia|assumption].
Qed.
Lemma index_of_nth l i : NoDup l -> (i < length l)%nat -> index_of (nth i l 0%nat) l = i.
Proof.
  intros ND. revert i. induction ND as [|j l NI ND IH]; intros i Hi; [cbn in Hi; lia|]. destruct i; cbn [nth index_of]; [rewrite Nat.eqb_refl; reflexivity|].
  cbn in Hi. destruct (Nat.eqb_spec (nth i l 0%nat) j) as [E|N]; [|f_equal; apply IH; lia].
  exfalso. apply NI. rewrite <- E. apply nth_In. lia.
Qed.

(** ** Breakpoints: non-negative numbers or +inf *)
Definition pinf (a : xnum) : Prop := a = PInf \/ exists r, a = Fin r /\ 0 <= r.
Lemma pinf_total a b : pinf a -> pinf b -> xle a b = false -> xle b a = true.
Proof.
  intros [->|(r & -> & _)] [->|(r' & -> & _)]; cbn; try discriminate; try reflexivity.
  destruct (Rle_dec r r'); [discriminate|]. intros _. destruct (Rle_dec r' r); [reflexivity|lra].
Qed.
Lemma pinf_trans a b c : pinf a -> pinf b -> pinf c -> xle a b = true -> xle b c = true -> xle a c = true.
Proof.
  intros [->|(r & -> & _)] [->|(r' & -> & _)] [->|(r'' & -> & _)]; cbn; try discriminate; try reflexivity.
  destruct (Rle_dec r r'); [|discriminate]. destruct (Rle_dec r' r''); [|discriminate]. intros _ _. destruct (Rle_dec r r''); [reflexivity|lra].
Qed.
Lemma xle_fin a b : xle (Fin a) (Fin b) = true <-> a <= b.
Proof. cbn. destruct (Rle_dec a b); split; auto; discriminate. Qed.
Lemma xltb_fin a b : xltb (Fin a) (Fin b) = true <-> a < b.
Proof. cbn. destruct (Rlt_dec a b); split; auto; discriminate. Qed.
(** min t b *)
Definition tmin (t : R) (b : xnum) : R := match b with Fin r => Rmin t r | _ => t end.
Lemma tmin_le t b : pinf b -> xle (Fin t) b = true -> tmin t b = t.
Proof. intros [->|(r & -> & _)] H; [reflexivity|]. apply xle_fin in H. cbn. apply Rmin_left. exact H. Qed.
Lemma tmin_ge t r : r <= t -> tmin t (Fin r) = r.
Proof. intros H. cbn. apply Rmin_right. exact H. Qed.

Section CP.
Variables (eps : R) (x g : vec) (lower upper : xbounds) (theta : R) (w m : mat).
Let n := length x.
Hypothesis Heps : 0 < eps.
Hypothesis Hlg : length g = n.
Hypothesis Hbox : in_bounds lower upper x.
Hypothesis Hg : forall i, (i < n)%nat -> nth i g 0 = 0 \/ eps <= Rabs (nth i g 0).
Let t := cp_t eps x g lower upper.
Let tk i := nth i t NaN.
Let d := cp_d eps x g lower upper.
Let dk i := nth i d 0.
Let xb i := nth i (cp_bound eps x g lower upper) NaN.

Lemma lo_cases i : (i < n)%nat -> lo lower i = NInf \/ exists l, lo lower i = Fin l /\ l <= nth i x 0.
Proof.
  intros Hi. destruct (Hbox i Hi) as [H _]. destruct (lo lower i) as [l| | |]; try discriminate H; [right; exists l; split; [reflexivity|apply xle_fin; exact H]|left; reflexivity].
Qed.
Lemma up_cases i : (i < n)%nat -> up upper i = PInf \/ exists u, up upper i = Fin u /\ nth i x 0 <= u.
Proof.
  intros Hi. destruct (Hbox i Hi) as [_ H]. destruct (up upper i) as [u| | |]; try discriminate H; [right; exists u; split; [reflexivity|apply xle_fin; exact H]|left; reflexivity].
Qed.
Lemma tk_cases i : (i < n)%nat ->
  (tk i = PInf /\ (nth i g 0 = 0 \/ (nth i g 0 < 0 /\ up upper i = PInf) \/ (0 < nth i g 0 /\ lo lower i = NInf))) \/
  (exists r, tk i = Fin r /\ 0 <= r /\ hits x g lower upper i r).
Proof.
  intros Hi. unfold tk, t, cp_t. fold n. rewrite nth_tab by exact Hi. cbv zeta.
  destruct (Rlt_dec (Rabs (nth i g 0)) eps) as [A|A].
  - left. split; [reflexivity|]. left. destruct (Hg i Hi) as [E|E]; [exact E|lra].
  - assert (N : nth i g 0 <> 0) by (intros E; rewrite E, Rabs_R0 in A; lra).
    destruct (Rlt_dec (nth i g 0) 0) as [B|B].
    + destruct (up_cases i Hi) as [E|(u & E & Hu)]; rewrite E.
      * left. split; [|right; left; split; [exact B|reflexivity]]. cbn. destruct (Rlt_dec (nth i g 0) 0); [reflexivity|lra].
      * right. exists ((nth i x 0 - u) / nth i g 0). cbn. destruct (Req_EM_T (nth i g 0) 0) as [Z|Z]; [contradiction|].
        split; [reflexivity|]. split.
        -- replace ((nth i x 0 - u) / nth i g 0) with ((u - nth i x 0) / - nth i g 0) by (field; exact Z). apply Rmult_le_pos; [lra|]. left. apply Rinv_0_lt_compat. lra.
        -- left. split; [exact B|]. rewrite E. f_equal. field. exact Z.
    + destruct (lo_cases i Hi) as [E|(l & E & Hl)]; rewrite E.
      * left. split; [|right; right; split; [lra|reflexivity]]. cbn. destruct (Rlt_dec (nth i g 0) 0); [lra|reflexivity].
      * right. exists ((nth i x 0 - l) / nth i g 0). cbn. destruct (Req_EM_T (nth i g 0) 0) as [Z|Z]; [contradiction|].
        split; [reflexivity|]. split; [apply Rmult_le_pos; [lra|]; left; apply Rinv_0_lt_compat; lra|].
        right. split; [lra|]. rewrite E. f_equal. field. exact Z.
Qed.
Lemma tk_pinf i : (i < n)%nat -> pinf (tk i).
Proof. intros Hi. destruct (tk_cases i Hi) as [[E _]|(r & E & P & _)]; [left; exact E|right; exists r; auto]. Qed.
Lemma dk_eq i : (i < n)%nat -> dk i = if xltb (tk i) (Fin eps) then 0 else - nth i g 0.
Proof. intros Hi. unfold dk, d, cp_d. fold n. rewrite nth_tab by exact Hi. reflexivity. Qed.
Lemma d_length : length d = n. Proof. apply tab_length. Qed.
Lemma t_length : length t = n. Proof. apply tab_length. Qed.
Lemma xb_eq i : (i < n)%nat -> xb i = if Rlt_dec 0 (dk i) then up upper i else if Rlt_dec (dk i) 0 then lo lower i else Fin (nth i x 0).
Proof. intros Hi. unfold xb, cp_bound. fold n. rewrite nth_tab by exact Hi. reflexivity. Qed.
(** moving along d up to the breakpoint *)
Lemma move_box i s : (i < n)%nat -> 0 <= s -> xle (Fin s) (tk i) = true \/ dk i = 0 ->
  xle (lo lower i) (Fin (nth i x 0 + s * dk i)) = true /\ xle (Fin (nth i x 0 + s * dk i)) (up upper i) = true.
Proof.
  intros Hi Hs C. assert (Z : dk i = 0 -> xle (lo lower i) (Fin (nth i x 0 + s * dk i)) = true /\ xle (Fin (nth i x 0 + s * dk i)) (up upper i) = true).
  { intros ->. rewrite Rmult_0_r, Rplus_0_r. apply (Hbox i Hi). }
  destruct C as [C|C]; [|auto]. destruct (Req_dec (dk i) 0) as [E0|E0]; [auto|]. clear Z. rewrite dk_eq in * by exact Hi.
  destruct (xltb (tk i) (Fin eps)); [contradiction|].
  destruct (tk_cases i Hi) as [[E K]|(r & E & Hr & [[Hn Hu]|[Hp Hl]])]; rewrite E in C.
  - destruct K as [K|[[K1 K2]|[K1 K2]]]; [rewrite K in E0; lra| |].
    + rewrite K2. split; [|reflexivity]. destruct (lo_cases i Hi) as [->|(l & -> & L)]; [reflexivity|]. apply xle_fin. nra.
    + rewrite K2. split; [reflexivity|]. destruct (up_cases i Hi) as [->|(u & -> & U)]; [reflexivity|]. apply xle_fin. nra.
  - apply xle_fin in C. rewrite Hu. split; [|apply xle_fin; nra]. destruct (lo_cases i Hi) as [->|(l & -> & L)]; [reflexivity|]. apply xle_fin. nra.
  - apply xle_fin in C. rewrite Hl. split; [apply xle_fin; nra|]. destruct (up_cases i Hi) as [->|(u & -> & U)]; [reflexivity|]. apply xle_fin. nra.
Qed.
(** the bound reached *)
Lemma xb_move i : (i < n)%nat -> (exists r, tk i = Fin r /\ xb i = Fin (nth i x 0 + r * dk i)) \/ (dk i = 0 /\ xb i = Fin (nth i x 0)) \/ (tk i = PInf /\ dk i <> 0).
Proof.
  intros Hi. rewrite xb_eq by exact Hi. destruct (Req_dec (dk i) 0) as [E0|E0].
  - right. left. split; [exact E0|]. destruct (Rlt_dec 0 (dk i)); [lra|]. destruct (Rlt_dec (dk i) 0); [lra|reflexivity].
  - destruct (tk_cases i Hi) as [[E K]|(r & E & Hr & H)]; [right; right; auto|]. left. exists r. split; [exact E|].
    rewrite (dk_eq i Hi) in *. destruct (xltb (tk i) (Fin eps)); [contradiction|].
    destruct H as [[Hn Hu]|[Hp Hl]].
    + destruct (Rlt_dec 0 (- nth i g 0)); [|lra]. rewrite Hu. f_equal. ring.
    + destruct (Rlt_dec 0 (- nth i g 0)); [lra|]. destruct (Rlt_dec (- nth i g 0) 0); [|lra]. rewrite Hl. f_equal. ring.
Qed.

(** ** The order of the breakpoints *)
Let ind := t_ind eps x g lower upper.
Let pos k := index_of k ind.
Let tsp p := nth p (t_sorted eps x g lower upper) NaN.
Lemma ind_perm : Permutation ind (seq 0 n).
Proof. unfold ind, t_ind, argsort. fold t. rewrite t_length. apply sort_perm. Qed.
Lemma ind_length : length ind = n. Proof. rewrite (Permutation_length ind_perm). apply seq_length. Qed.
Lemma ind_nodup : NoDup ind. Proof. apply (Permutation_NoDup (Permutation_sym ind_perm)). apply seq_NoDup. Qed.
Lemma ind_lt p : (p < n)%nat -> (nth p ind 0 < n)%nat.
Proof. intros H. assert (I : In (nth p ind 0%nat) ind) by (apply nth_In; rewrite ind_length; exact H). apply (Permutation_in _ ind_perm) in I. apply in_seq in I. lia. Qed.
Lemma pos_lt k : (k < n)%nat -> (pos k < n)%nat /\ nth (pos k) ind 0%nat = k.
Proof.
  intros H. rewrite <- ind_length at 1. apply index_of_in. apply (Permutation_in _ (Permutation_sym ind_perm)). apply in_seq. lia.
Qed.
Lemma pos_ind p : (p < n)%nat -> pos (nth p ind 0%nat) = p.
Proof. intros H. apply index_of_nth; [apply ind_nodup|rewrite ind_length; exact H]. Qed.
Lemma tsp_ind p : (p < n)%nat -> tsp p = tk (nth p ind 0%nat).
Proof.
  intros H. unfold tsp, t_sorted. fold ind t. rewrite (nth_indep _ NaN (nth 0 t NaN)) by (rewrite map_length, ind_length; exact H).
  rewrite (map_nth (fun i => nth i t NaN)). reflexivity.
Qed.
Lemma tsp_pos k : (k < n)%nat -> tsp (pos k) = tk k.
Proof. intros H. destruct (pos_lt k H) as [P E]. rewrite tsp_ind by exact P. rewrite E. reflexivity. Qed.
Lemma tsp_pinf p : (p < n)%nat -> pinf (tsp p).
Proof. intros H. rewrite tsp_ind by exact H. apply tk_pinf. apply ind_lt. exact H. Qed.
Lemma pinf_refl a : pinf a -> xle a a = true.
Proof. intros [->|(r & -> & _)]; [reflexivity|]. apply xle_fin. lra. Qed.
Lemma tsp_sorted p q : (p <= q)%nat -> (q < n)%nat -> xle (tsp p) (tsp q) = true.
Proof.
  intros Hpq Hq. destruct (Nat.eq_dec p q) as [->|N]; [apply pinf_refl; apply tsp_pinf; exact Hq|].
  assert (S : StronglySorted (fun u v => xle (nth u t NaN) (nth v t NaN) = true) ind).
  { unfold ind, t_ind, argsort. fold t. apply (sort_sorted nat (fun i j => xle (nth i t NaN) (nth j t NaN)) (fun i => (i < n)%nat)).
    - intros a b Ha Hb. apply pinf_total; apply tk_pinf; assumption.
    - intros a b c Ha Hb Hc. apply pinf_trans; apply tk_pinf; assumption.
    - apply Forall_forall. intros i Hi. apply in_seq in Hi. rewrite t_length in Hi. lia. }
  rewrite !tsp_ind by lia. apply (sorted_nth nat (fun u v => xle (nth u t NaN) (nth v t NaN) = true) ind 0%nat S); [lia|rewrite ind_length; exact Hq].
Qed.
Let act p := nth p (active_sorted eps x g lower upper) false.
Lemma act_eq p : (p < n)%nat -> act p = xltb (Fin eps) (tsp p).
Proof.
  intros H. unfold act, active_sorted, tsp. assert (L : length (t_sorted eps x g lower upper) = n) by (unfold t_sorted; rewrite map_length; apply ind_length).
  rewrite (nth_indep _ false (xltb (Fin eps) NaN)) by (rewrite map_length, L; exact H). apply map_nth.
Qed.
Lemma act_length : length (active_sorted eps x g lower upper) = n.
Proof. unfold active_sorted, t_sorted. rewrite !map_length. apply ind_length. Qed.
Let start := start_ind eps x g lower upper.
Lemma first_true_spec l : (first_true l <= length l)%nat /\ (forall i, (i < first_true l)%nat -> nth i l false = false) /\ ((first_true l < length l)%nat -> nth (first_true l) l false = true).
Proof.
  induction l as [|b l (IH1 & IH2 & IH3)]; cbn; [repeat split; intros; lia|]. destruct b; cbn; [repeat split; intros; try lia; reflexivity|].
  repeat split; [lia| |].
  - intros [|i] H; [reflexivity|]. apply IH2. lia.
  - intros H. apply IH3. lia.
Qed.
Lemma start_le : (start <= n)%nat.
Proof. destruct (first_true_spec (active_sorted eps x g lower upper)) as (H & _). rewrite act_length in H. exact H. Qed.
Lemma before_start p : (p < start)%nat -> exists r, tsp p = Fin r /\ 0 <= r <= eps.
Proof.
  intros H. assert (Hn := start_le). destruct (first_true_spec (active_sorted eps x g lower upper)) as (_ & H2 & _). specialize (H2 p H).
  change (act p = false) in H2. rewrite act_eq in H2 by lia. destruct (tsp_pinf p ltac:(lia)) as [E|(r & E & P)]; rewrite E in H2; [discriminate|].
  exists r. split; [exact E|]. cbn in H2. destruct (Rlt_dec eps r); [discriminate|]. lra.
Qed.
Lemma xltb_xle_trans a b c : pinf b -> pinf c -> xltb (Fin a) b = true -> xle b c = true -> xltb (Fin a) c = true.
Proof.
  intros [->|(r & -> & _)] [->|(r' & -> & _)]; cbn; try discriminate; auto. destruct (Rlt_dec a r); [|discriminate]. destruct (Rle_dec r r'); [|discriminate].
  intros _ _. destruct (Rlt_dec a r'); [reflexivity|lra].
Qed.
Lemma after_start p : (start <= p)%nat -> (p < n)%nat -> xltb (Fin eps) (tsp p) = true.
Proof.
  intros H Hp. assert (Hs : (start < n)%nat) by lia. destruct (first_true_spec (active_sorted eps x g lower upper)) as (_ & _ & H3). rewrite act_length in H3. specialize (H3 Hs).
  change (act start = true) in H3. rewrite act_eq in H3 by exact Hs. apply (xltb_xle_trans eps (tsp start)); try apply tsp_pinf; try assumption. apply tsp_sorted; assumption.
Qed.
(** the time at which the loop stands with index i *)
Let T i := xreal (t_prev eps x g lower upper i).
Definition tfin i := t_prev eps x g lower upper i = Fin (T i) /\ 0 <= T i.
Lemma t_prev_S i : t_prev eps x g lower upper (S i) = tsp i. Proof. reflexivity. Qed.
Lemma tfin_start : tfin start.
Proof.
  unfold tfin, T. destruct start as [|s] eqn:E; [cbn; split; [reflexivity|lra]|]. rewrite t_prev_S.
  destruct (before_start s ltac:(lia)) as (r & -> & P & _). cbn. split; [reflexivity|exact P].
Qed.
Lemma dt_eq i : (i < n)%nat -> nth i (cp_dt eps x g lower upper) NaN = xsub (tsp i) (t_prev eps x g lower upper i).
Proof. intros H. unfold cp_dt. fold n. rewrite nth_tab by exact H. reflexivity. Qed.
Lemma T_le i : (i < n)%nat -> tfin i -> xle (Fin (T i)) (tsp i) = true.
Proof.
  intros H [E P]. destruct i as [|i].
  - cbn in *. destruct (tsp_pinf 0 H) as [->|(r & -> & Q)]; [reflexivity|]. apply xle_fin. unfold T. cbn. exact Q.
  - rewrite t_prev_S in E. rewrite <- E. apply tsp_sorted; lia.
Qed.
(** ** The loop *)
Let cond := cp_cond eps x g lower upper.
Let body := cp_body eps x g lower upper theta w m.
Let init := cp_init eps x g lower upper theta w m.
Let fuel_while := cp_while eps x g lower upper theta w m.
Let final := cp_final eps x g lower upper theta w m.
Lemma while_inv (P : cp_state -> Prop) : (forall s, P s -> cond s = true -> P (body s)) -> forall k s, P s -> P (fuel_while k s).
Proof.
  intros H k. induction k as [|k IH]; intros s Ps; [exact Ps|]. cbn [cp_while fuel_while]. unfold fuel_while in *. cbn [cp_while].
  destruct (cp_cond eps x g lower upper s) eqn:E; [|exact Ps]. apply IH. apply H; assumption.
Qed.
Lemma cond_lt s : cond s = true -> (cp_i s < n)%nat.
Proof. intros H. apply andb_prop in H. destruct H as [_ H]. apply Nat.ltb_lt in H. exact H. Qed.
Lemma while_done k : forall s, (n - cp_i s <= k)%nat -> cond (fuel_while k s) = false.
Proof.
  unfold fuel_while. induction k as [|k IH]; intros s H.
  - cbn [cp_while]. unfold cond, cp_cond. fold n. replace (Nat.ltb (cp_i s) n) with false by (symmetry; apply Nat.ltb_ge; lia). apply andb_false_r.
  - cbn [cp_while]. destruct (cp_cond eps x g lower upper s) eqn:E; [|exact E]. apply IH. cbn [cp_body cp_i]. apply cond_lt in E. lia.
Qed.
Lemma final_done : cond final = false. Proof. apply while_done. fold n. lia. Qed.

(** Structural invariant. [D0]: the direction is zero, or the initial curvature is positive. *)
Definition nzd := d <> vzero n.
Hypothesis D0 : nzd -> 0 < cp_ddf init.
Record sinv (s : cp_state) : Prop := {
  si_ge : (start <= cp_i s <= n)%nat;
  si_fin : tfin (cp_i s);
  si_mask : forall p, (p < n)%nat -> nth p (cp_mask s) false = Nat.leb (cp_i s) p;
  si_len : length (cp_mask s) = n;
  si_ddf : nzd -> 0 < cp_ddf s;
  si_zero : ~ nzd -> s = init
}.
Lemma sinv_init : sinv init.
Proof.
  constructor; cbn [init cp_init cp_i cp_mask]; fold start.
  - split; [lia|apply start_le].
  - apply tfin_start.
  - intros p Hp. change (act p = Nat.leb start p). rewrite act_eq by exact Hp. destruct (Nat.leb_spec start p).
    + apply after_start; assumption.
    + destruct (before_start p ltac:(lia)) as (r & -> & _ & Q). cbn. destruct (Rlt_dec eps r); [lra|reflexivity].
  - apply act_length.
  - exact D0.
  - reflexivity.
Qed.
Lemma d_zero_dec : {nzd} + {~ nzd}.
Proof. unfold nzd. destruct (list_eq_dec Req_EM_T d (vzero n)) as [E|E]; [right; auto|left; exact E]. Qed.
Lemma init_df : cp_df init = - dot d d. Proof. reflexivity. Qed.
Lemma tvec_vzero_dot k M a u : dot (tvec k M (vzero a)) u = 0.
Proof. rewrite dot_tvec. apply dot_vzero_l. Qed.
Lemma init_ddf_zero : ~ nzd -> cp_df init = 0 /\ cp_ddf init = 0.
Proof.
  intros H. assert (E : d = vzero n) by (unfold nzd in H; destruct (list_eq_dec Req_EM_T d (vzero n)); [assumption|contradiction]).
  assert (A : cp_df init = 0) by (rewrite init_df, E, dot_vzero_l; ring). split; [exact A|].
  cbn [init cp_init cp_ddf]. fold d. rewrite E, dot_vzero_l. rewrite dot_comm, tvec_vzero_dot. ring.
Qed.
Lemma zero_cond s : ~ nzd -> sinv s -> cond s = false.
Proof.
  intros Z S. rewrite (si_zero s S Z). destruct (init_ddf_zero Z) as [A B]. unfold cond, cp_cond. rewrite A, B. cbn.
  destruct (Req_EM_T 0 0); [|lra]. unfold xinf_times. destruct (Rlt_dec 0 (- 0)); [lra|]. destruct (Rlt_dec (- 0) 0); [lra|].
  destruct (nth _ _ _); reflexivity.
Qed.
Lemma cond_true s : sinv s -> cond s = true -> (cp_i s < n)%nat /\ nzd /\ exists r, tsp (cp_i s) = Fin r /\ T (cp_i s) <= r /\ nth (cp_i s) (cp_dt eps x g lower upper) NaN = Fin (r - T (cp_i s)) /\
   cp_df s + (r - T (cp_i s)) * cp_ddf s <= 0.
Proof.
  intros S C. assert (Hi := cond_lt s C). destruct d_zero_dec as [NZ|Z]; [|rewrite (zero_cond s Z S) in C; discriminate]. split; [exact Hi|]. split; [exact NZ|].
  assert (P := si_ddf s S NZ). unfold cond, cp_cond in C. apply andb_prop in C. destruct C as [C _]. fold n in C.
  rewrite Nat.min_l in C by lia. destruct (si_fin s S) as [F F0]. assert (D := dt_eq (cp_i s) Hi). rewrite F in D. rewrite D in C |- *.
  assert (L := T_le (cp_i s) Hi (conj F F0)).
  destruct (tsp_pinf (cp_i s) Hi) as [E|(r & E & _)]; rewrite E in *.
  - exfalso. cbn in C. destruct (Req_EM_T (cp_ddf s) 0); [lra|discriminate].
  - exists r. apply xle_fin in L. split; [reflexivity|]. split; [exact L|]. split; [reflexivity|]. cbn in C. destruct (Req_EM_T (cp_ddf s) 0); [lra|].
    destruct (Rle_dec (r - T (cp_i s)) (- cp_df s / cp_ddf s)) as [Q|]; [|discriminate].
    assert (Q' : (r - T (cp_i s)) * cp_ddf s <= - cp_df s / cp_ddf s * cp_ddf s) by (apply Rmult_le_compat_r; lra).
    replace (- cp_df s / cp_ddf s * cp_ddf s) with (- cp_df s) in Q' by (field; lra). lra.
Qed.
Lemma T_S i r : (i < n)%nat -> tsp i = Fin r -> T (i + 1) = r.
Proof. intros H E. rewrite Nat.add_1_r. unfold T. rewrite t_prev_S, E. reflexivity. Qed.
Lemma sinv_body s : sinv s -> cond s = true -> sinv (body s).
Proof.
  intros S C. destruct (cond_true s S C) as (Hi & NZ & r & E & L & _). destruct (si_fin s S) as [F F0].
  constructor; cbn [body cp_body cp_i cp_mask cp_ddf].
  - destruct (si_ge s S). lia.
  - unfold tfin. rewrite (T_S _ r Hi E), Nat.add_1_r, t_prev_S, E. split; [reflexivity|lra].
  - intros p Hp. rewrite nth_set_nth, (si_len s S). destruct (Nat.eq_dec (cp_i s) p) as [<-|N].
    + replace (Nat.ltb (cp_i s) n) with true by (symmetry; apply Nat.ltb_lt; exact Hi). symmetry. apply Nat.leb_gt. lia.
    + rewrite (si_mask s S) by exact Hp. destruct (Nat.leb_spec (cp_i s) p), (Nat.leb_spec (cp_i s + 1) p); try reflexivity; lia.
  - rewrite set_nth_length. apply (si_len s S).
  - intros _. assert (Q := Rmax_l eps (cp_ddf s - theta * nth (nth (cp_i s) (t_ind eps x g lower upper) 0%nat) g 0 ^ 2 - 2 * nth (nth (cp_i s) (t_ind eps x g lower upper) 0%nat) g 0 * dot (nth (nth (cp_i s) (t_ind eps x g lower upper) 0%nat) w []) (mvec m (cp_p s)) - nth (nth (cp_i s) (t_ind eps x g lower upper) 0%nat) g 0 ^ 2 * dot (nth (nth (cp_i s) (t_ind eps x g lower upper) 0%nat) w []) (mvec m (nth (nth (cp_i s) (t_ind eps x g lower upper) 0%nat) w [])))). lra.
  - intros Z. contradiction.
Qed.
Lemma sinv_final : sinv final.
Proof. apply (while_inv sinv); [exact sinv_body|exact sinv_init]. Qed.

(** the step after the loop *)
Definition dm : R := xreal (dt_min eps x g lower upper theta w m).
Let iF := cp_i final.
Lemma dm_spec : dt_min eps x g lower upper theta w m = Fin dm /\ 0 <= dm /\
  (nzd -> dm = Rmax (- cp_df final / cp_ddf final) 0) /\ (~ nzd -> dm = 0) /\
  ((iF < n)%nat -> xle (Fin (T iF + dm)) (tsp iF) = true).
Proof.
  assert (S := sinv_final). assert (C := final_done). unfold dm, dt_min. fold final. destruct (si_fin final S) as [F F0].
  destruct d_zero_dec as [NZ|Z].
  - assert (P := si_ddf final S NZ). cbn. destruct (Req_EM_T (cp_ddf final) 0); [lra|]. cbn. split; [reflexivity|]. split; [apply Rmax_r|]. split; [reflexivity|].
    split; [intros Q; contradiction|]. intros Hi. unfold cond, cp_cond in C. fold n iF in C. rewrite Nat.min_l in C by lia.
    replace (Nat.ltb iF n) with true in C by (symmetry; apply Nat.ltb_lt; exact Hi). rewrite andb_true_r in C. rewrite dt_eq in C by exact Hi.
    unfold iF in C at 2. rewrite F in C. fold iF in C, F, F0 |- *. assert (L := T_le iF Hi (conj F F0)).
    destruct (tsp_pinf iF Hi) as [E|(r & E & Q)]; rewrite E in *; [reflexivity|]. apply xle_fin in L. apply xle_fin. cbn in C.
    destruct (Req_EM_T (cp_ddf final) 0); [lra|]. cbn in C. destruct (Rle_dec (r - T iF) (- cp_df final / cp_ddf final)); [discriminate|].
    unfold Rmax. destruct (Rle_dec (- cp_df final / cp_ddf final) 0); lra.
  - rewrite (si_zero final S Z). destruct (init_ddf_zero Z) as [A B]. rewrite A, B. cbn. destruct (Req_EM_T 0 0); [|lra].
    unfold xinf_times. destruct (Rlt_dec 0 (- 0)); [lra|]. destruct (Rlt_dec (- 0) 0); [lra|]. cbn. split; [reflexivity|]. split; [lra|]. split; [intros; contradiction|]. split; [reflexivity|].
    intros Hi. rewrite Rplus_0_r. apply (T_le iF Hi (conj F F0)).
Qed.
Definition ts : R := if Nat.ltb iF n then T iF + dm else T iF.
Lemma ts_nonneg : 0 <= ts.
Proof. destruct (si_fin final sinv_final) as [_ F0]. destruct dm_spec as (_ & P & _). fold iF in F0. unfold ts. destruct (Nat.ltb iF n); lra. Qed.
Lemma mask_pos k : (k < n)%nat -> nth k (active_set_mask eps x g lower upper theta w m) false = Nat.leb iF (pos k).
Proof.
  intros Hk. unfold active_set_mask. fold n. rewrite nth_tab by exact Hk. fold ind (pos k) final. apply (si_mask final sinv_final). apply pos_lt. exact Hk.
Qed.
Definition zc : vec := tab n (fun k => tmin ts (tk k) * dk k).
(** coordinate k of the Cauchy point *)
Lemma xc_coord k : (k < n)%nat -> nth k (x_cauchy eps x g lower upper theta w m) NaN = Fin (nth k x 0 + tmin ts (tk k) * dk k) /\
  (nth k (active_set_mask eps x g lower upper theta w m) false = true -> (iF < n)%nat /\ tmin ts (tk k) = ts) /\
  (nth k (active_set_mask eps x g lower upper theta w m) false = false -> exists r, tk k = Fin r /\ r <= T iF /\ tmin ts (tk k) = r).
Proof.
  intros Hk. unfold x_cauchy. fold n. rewrite nth_tab by exact Hk. rewrite mask_pos by exact Hk.
  destruct (pos_lt k Hk) as [Pk _]. destruct (si_fin final sinv_final) as [F F0]. fold iF in F, F0. destruct dm_spec as (DM & DP & _ & _ & DL).
  destruct (Nat.leb_spec iF (pos k)) as [L|L].
  - assert (Hi : (iF < n)%nat) by lia. assert (E : tmin ts (tk k) = ts).
    { apply tmin_le; [apply tk_pinf; exact Hk|]. unfold ts. replace (Nat.ltb iF n) with true by (symmetry; apply Nat.ltb_lt; exact Hi).
      rewrite <- tsp_pos by exact Hk. assert (Q := DL Hi). assert (Q2 := tsp_sorted iF (pos k) L Pk). destruct (tsp_pinf iF Hi) as [E|(r & E & _)]; rewrite E in *.
      - destruct (tsp_pinf (pos k) Pk) as [->|(r' & E' & _)]; [reflexivity|]. rewrite E' in Q2. discriminate.
      - apply xle_fin in Q. destruct (tsp_pinf (pos k) Pk) as [->|(r' & E' & _)]; [reflexivity|]. rewrite E' in *. apply xle_fin in Q2. apply xle_fin. lra. }
    split; [|split; [intros _; split; [exact Hi|exact E]|discriminate]].
    unfold t_old. fold final iF. rewrite F, DM. cbn. rewrite E. unfold ts. replace (Nat.ltb iF n) with true by (symmetry; apply Nat.ltb_lt; exact Hi). reflexivity.
  - assert (X : exists r, tk k = Fin r /\ r <= T iF).
    { destruct iF as [|i] eqn:Ei; [lia|]. rewrite t_prev_S in F. assert (Hi : (i < n)%nat) by (destruct (si_ge final sinv_final) as [_ Q]; fold iF in Q; lia).
      assert (Q := tsp_sorted (pos k) i ltac:(lia) Hi). rewrite tsp_pos in Q by exact Hk. rewrite F in Q. destruct (tk_pinf k Hk) as [E|(r & E & _)]; rewrite E in Q; [discriminate|].
      exists r. split; [exact E|]. apply xle_fin in Q. exact Q. }
    destruct X as (r & E & Lr).
    assert (Em : tmin ts (tk k) = r). { rewrite E. apply tmin_ge. unfold ts. destruct (Nat.ltb iF n); lra. }
    split; [|split; [discriminate|intros _; exists r; auto]]. rewrite Em. fold (xb k). destruct (xb_move k Hk) as [(r' & E' & ->)|[(Z & ->)|(E' & _)]].
    + rewrite E in E'. injection E' as <-. reflexivity.
    + rewrite Z. f_equal. ring.
    + rewrite E in E'. discriminate.
Qed.
Lemma x_cauchy_eq : x_cauchy eps x g lower upper theta w m = map Fin (vadd x zc).
Proof.
  assert (L : length (vadd x zc) = n) by (apply vadd_length_eq; [reflexivity|apply tab_length]).
  assert (G : forall l1 l2 : list xnum, length l1 = n -> length l2 = n -> (forall k, (k < n)%nat -> nth k l1 NaN = nth k l2 NaN) -> l1 = l2).
  { intros l1 l2 H1 H2 H. apply (nth_ext _ _ NaN NaN); [congruence|]. intros k Hk. apply H. congruence. }
  apply G; [apply tab_length|rewrite map_length; exact L|]. intros k Hk. destruct (xc_coord k Hk) as [-> _].
  rewrite (nth_indep _ NaN (Fin 0)) by (rewrite map_length, L; exact Hk). rewrite (map_nth Fin), nth_vadd. unfold zc. rewrite nth_tab by exact Hk. reflexivity.
Qed.
Lemma xc_box : in_bounds lower upper (vadd x zc).
Proof.
  intros k Hk. rewrite vadd_length in Hk. unfold zc in Hk. rewrite tab_length in Hk. fold n in Hk. rewrite Nat.max_id in Hk.
  rewrite nth_vadd. unfold zc. rewrite nth_tab by exact Hk. apply move_box; [exact Hk| |].
  - destruct (tk_pinf k Hk) as [->|(r & -> & P)]; [apply ts_nonneg|]. cbn. apply Rmin_glb; [apply ts_nonneg|exact P].
  - left. destruct (tk_pinf k Hk) as [->|(r & -> & P)]; [reflexivity|]. apply xle_fin. apply Rmin_r.
Qed.

(** ** The quadratic model along the path *)
Let K := length m.
Hypothesis Hw : mat_shape n K w.
Hypothesis Hm : mat_shape K K m.
Hypothesis Msym : forall u v, length u = K -> length v = K -> dot (mvec m u) v = dot u (mvec m v).
Hypothesis BP : forall i r, (i < n)%nat -> hits x g lower upper i r -> r = 0 \/ eps < r.
Lemma tk_bp i : (i < n)%nat -> tk i = PInf \/ tk i = Fin 0 \/ exists r, tk i = Fin r /\ eps < r.
Proof.
  intros Hi. destruct (tk_cases i Hi) as [[E _]|(r & E & _ & H)]; [left; exact E|]. right.
  destruct (BP i r Hi H) as [->|Q]; [left; exact E|right; exists r; auto].
Qed.
Lemma dk_zero i : (i < n)%nat -> tk i = Fin 0 -> dk i = 0.
Proof. intros Hi E. rewrite dk_eq, E by exact Hi. cbn. destruct (Rlt_dec 0 eps); [reflexivity|lra]. Qed.
Lemma dk_pos i : (i < n)%nat -> xltb (Fin eps) (tk i) = true -> dk i = - nth i g 0.
Proof.
  intros Hi E. rewrite dk_eq by exact Hi. destruct (tk_pinf i Hi) as [->|(r & Er & _)]; [reflexivity|]. rewrite Er in *. apply xltb_fin in E.
  cbn. destruct (Rlt_dec r eps); [lra|reflexivity].
Qed.
Definition Zt (s : R) : vec := tab n (fun k => tmin s (tk k) * dk k).
Definition Dv (i : nat) : vec := tab n (fun k => if Nat.leb i (pos k) then dk k else 0).
Lemma Zt_len s : length (Zt s) = n. Proof. apply tab_length. Qed.
Lemma Dv_len i : length (Dv i) = n. Proof. apply tab_length. Qed.
Lemma passed i k : (i <= n)%nat -> tfin i -> (k < n)%nat -> (pos k < i)%nat -> exists r, tk k = Fin r /\ r <= T i.
Proof.
  intros Hi [F _] Hk L. destruct i as [|i]; [lia|]. rewrite t_prev_S in F. assert (Q := tsp_sorted (pos k) i ltac:(lia) ltac:(lia)). rewrite tsp_pos, F in Q by exact Hk.
  destruct (tk_pinf k Hk) as [E|(r & E & _)]; rewrite E in Q; [discriminate|]. exists r. split; [exact E|]. apply xle_fin in Q. exact Q.
Qed.
Lemma ahead i k s : (k < n)%nat -> (i <= pos k)%nat -> xle (Fin s) (tsp i) = true -> tmin s (tk k) = s.
Proof.
  intros Hk L Q. destruct (pos_lt k Hk) as [P _]. apply tmin_le; [apply tk_pinf; exact Hk|]. rewrite <- tsp_pos by exact Hk.
  assert (Q2 := tsp_sorted i (pos k) L P). destruct (tsp_pinf i ltac:(lia)) as [E|(r & E & _)]; rewrite E in *.
  - destruct (tsp_pinf (pos k) P) as [->|(r' & E' & _)]; [reflexivity|]. rewrite E' in Q2. discriminate.
  - apply xle_fin in Q. destruct (tsp_pinf (pos k) P) as [->|(r' & E' & _)]; [reflexivity|]. rewrite E' in *. apply xle_fin in Q2. apply xle_fin. lra.
Qed.
Lemma Zt_seg i s : (i <= n)%nat -> tfin i -> T i <= s -> ((i < n)%nat -> xle (Fin s) (tsp i) = true) -> Zt s = vadd (Zt (T i)) (smul (s - T i) (Dv i)).
Proof.
  intros Hi F L Q. apply vec_ext; [rewrite Zt_len, vadd_length, smul_length, Zt_len, Dv_len; lia|]. intros k Hk. rewrite Zt_len in Hk.
  rewrite nth_vadd, nth_smul. unfold Zt, Dv. rewrite !nth_tab by exact Hk. destruct (pos_lt k Hk) as [P _]. destruct (Nat.leb_spec i (pos k)) as [C|C].
  - assert (Hin : (i < n)%nat) by lia. rewrite (ahead i k s Hk C (Q Hin)), (ahead i k (T i) Hk C (T_le i Hin F)). ring.
  - destruct (passed i k Hi F Hk C) as (r & -> & Lr). rewrite !tmin_ge by lra. ring.
Qed.
Lemma Dv_end : Dv n = vzero n.
Proof.
  apply vec_ext; [rewrite Dv_len, vzero_length; reflexivity|]. intros k Hk. rewrite Dv_len in Hk. unfold Dv. rewrite nth_tab by exact Hk. rewrite nth_vzero.
  destruct (pos_lt k Hk) as [P _]. replace (Nat.leb n (pos k)) with false by (symmetry; apply Nat.leb_gt; exact P). reflexivity.
Qed.
Lemma Dv_start : Dv start = d.
Proof.
  apply vec_ext; [rewrite Dv_len, d_length; reflexivity|]. intros k Hk. rewrite Dv_len in Hk. unfold Dv. rewrite nth_tab by exact Hk. destruct (Nat.leb_spec start (pos k)) as [C|C]; [reflexivity|].
  destruct (before_start (pos k) C) as (r & E & R0 & R1). rewrite tsp_pos in E by exact Hk. symmetry. apply dk_zero; [exact Hk|].
  destruct (tk_bp k Hk) as [E'|[E'|(r' & E' & L)]]; rewrite E in E'; [discriminate|rewrite E; exact E'|]. injection E' as ->. lra.
Qed.
Lemma T_start : T start = 0.
Proof.
  unfold T. destruct start as [|p] eqn:Es; [reflexivity|]. rewrite t_prev_S. assert (Hn := start_le). destruct (before_start p ltac:(lia)) as (r & E & R0 & R1). rewrite E. cbn.
  rewrite tsp_ind in E by lia. destruct (tk_bp (nth p ind 0%nat) (ind_lt p ltac:(lia))) as [E'|[E'|(r' & E' & L)]]; rewrite E in E'; [discriminate|injection E' as ->; reflexivity|]. injection E' as ->. lra.
Qed.
Lemma Zt_0 : Zt 0 = vzero n.
Proof.
  apply vec_ext; [rewrite Zt_len, vzero_length; reflexivity|]. intros k Hk. rewrite Zt_len in Hk. unfold Zt. rewrite nth_tab by exact Hk. rewrite nth_vzero.
  replace (tmin 0 (tk k)) with 0; [ring|]. symmetry. apply tmin_le; [apply tk_pinf; exact Hk|]. destruct (tk_pinf k Hk) as [->|(r & -> & P)]; [reflexivity|]. apply xle_fin. exact P.
Qed.
Lemma pos_inj i k : (i < n)%nat -> (k < n)%nat -> pos k = i -> k = nth i ind 0%nat.
Proof. intros Hi Hk E. destruct (pos_lt k Hk) as [_ Q]. rewrite E in Q. congruence. Qed.
Lemma dk_ind i : (start <= i)%nat -> (i < n)%nat -> dk (nth i ind 0%nat) = - nth (nth i ind 0%nat) g 0.
Proof. intros Hs Hi. apply dk_pos; [apply ind_lt; exact Hi|]. rewrite <- tsp_ind by exact Hi. apply after_start; assumption. Qed.
Lemma Dv_S i : (start <= i)%nat -> (i < n)%nat -> let j := nth i ind 0%nat in Dv (i + 1) = vadd (Dv i) (smul (nth j g 0) (unit_vec n j)).
Proof.
  intros Hs Hi j. apply vec_ext; [rewrite Dv_len, vadd_length, smul_length, unit_vec_length, Dv_len; lia|]. intros k Hk. rewrite Dv_len in Hk.
  rewrite nth_vadd, nth_smul, nth_unit_vec by exact Hk. unfold Dv. rewrite !nth_tab by exact Hk. destruct (Nat.eq_dec j k) as [<-|N].
  - unfold j. rewrite pos_ind by exact Hi. rewrite Nat.leb_refl. replace (Nat.leb (i + 1) i) with false by (symmetry; apply Nat.leb_gt; lia).
    rewrite dk_ind by assumption. ring.
  - assert (pos k <> i) by (intros E; apply N; symmetry; apply pos_inj; assumption).
    destruct (Nat.leb_spec (i + 1) (pos k)), (Nat.leb_spec i (pos k)); try lia; ring.
Qed.
Let b := bform theta w m.
Lemma tvec_unit j : (j < n)%nat -> tvec K w (unit_vec n j) = nth j w [].
Proof.
  intros Hj. apply vec_eq_dot; [rewrite (tvec_length n) by exact Hw; symmetry; apply (row_length n K); assumption|].
  intros u. rewrite dot_tvec, dot_unit_vec by (try exact Hj; rewrite mvec_length; apply Hw). apply nth_mvec.
Qed.
Lemma wl u : length (tvec K w u) = K. Proof. apply (tvec_length n). exact Hw. Qed.
Lemma b_add_l u v z : b (vadd u v) z = b u z + b v z.
Proof. unfold b, bform. fold K. rewrite (tvec_vadd n) by exact Hw. rewrite !dot_vadd_l. ring. Qed.
Lemma b_smul_l a u z : b (smul a u) z = a * b u z.
Proof. unfold b, bform. fold K. rewrite (tvec_smul n) by exact Hw. rewrite !dot_smul_l. ring. Qed.
Lemma b_sym u v : b u v = b v u.
Proof. unfold b, bform. fold K. rewrite <- Msym by apply wl. rewrite (dot_comm u v), (dot_comm (mvec m _)). reflexivity. Qed.
Lemma b_unit j v : (j < n)%nat -> length v = n -> b (unit_vec n j) v = theta * nth j v 0 - dot (nth j w []) (mvec m (tvec K w v)).
Proof. intros Hj Hv. unfold b, bform. fold K. rewrite tvec_unit, dot_unit_vec by assumption. reflexivity. Qed.
Let q (s : R) := qmodel theta w m g (Zt s).
Lemma q_seg i s : (i <= n)%nat -> tfin i -> T i <= s -> ((i < n)%nat -> xle (Fin s) (tsp i) = true) ->
  q s = q (T i) + (s - T i) * (dot g (Dv i) + b (Dv i) (Zt (T i))) + / 2 * (s - T i) ^ 2 * b (Dv i) (Dv i).
Proof.
  intros Hi F L Q. unfold q, qmodel. fold b. rewrite (Zt_seg i s Hi F L Q) at 1 2 3. rewrite dot_vadd_r, dot_smul_r, b_add_l, b_smul_l.
  rewrite !(b_sym _ (vadd _ _)), !b_add_l, !b_smul_l. rewrite (b_sym (Zt (T i)) (Dv i)). field.
Qed.
Definition decr (tau : R) := forall a a', 0 <= a -> a < a' -> a' <= tau -> q a' < q a.
Lemma seg_decr i df ddf len : (i <= n)%nat -> tfin i -> 0 <= len -> ((i < n)%nat -> xle (Fin (T i + len)) (tsp i) = true) ->
  dot g (Dv i) + b (Dv i) (Zt (T i)) <= df -> b (Dv i) (Dv i) <= ddf -> 0 < ddf -> df + len * ddf <= 0 -> decr (T i) -> decr (T i + len).
Proof.
  intros Hi F L Q H1 H2 H3 H4 DT.
  assert (X : forall a a', T i <= a -> a < a' -> a' <= T i + len -> q a' < q a).
  { intros a a' A1 A2 A3. assert (LE : forall s, s <= T i + len -> (i < n)%nat -> xle (Fin s) (tsp i) = true).
    { intros s Hs Hin. specialize (Q Hin). destruct (tsp_pinf i Hin) as [->|(r & E & _)]; [reflexivity|]. rewrite E in *. apply xle_fin in Q. apply xle_fin. lra. }
    rewrite (q_seg i a'), (q_seg i a) by (try assumption; try lra; intros; apply LE; try assumption; lra).
    set (u := a - T i). set (v := a' - T i). assert (0 <= u) by (unfold u; lra). assert (u < v) by (unfold u, v; lra). assert (v <= len) by (unfold v; lra).
    set (A := dot g (Dv i) + b (Dv i) (Zt (T i))) in *. set (B := b (Dv i) (Dv i)) in *.
    assert (Y : A + / 2 * (u + v) * B < 0).
    { assert (/ 2 * (u + v) * B <= / 2 * (u + v) * ddf) by (apply Rmult_le_compat_l; lra).
      assert (/ 2 * (u + v) * ddf < len * ddf) by (apply Rmult_lt_compat_r; lra). lra. }
    assert (Z : (v - u) * (A + / 2 * (u + v) * B) < 0) by (apply Ropp_lt_cancel; rewrite Ropp_0, <- Ropp_mult_distr_r_reverse; apply Rmult_lt_0_compat; lra).
    replace ((v - u) * (A + / 2 * (u + v) * B)) with (v * A - u * A + / 2 * v ^ 2 * B - / 2 * u ^ 2 * B) in Z by field. lra. }
  intros a a' A1 A2 A3. destruct (Rle_dec (T i) a) as [C|C]; [apply X; assumption|]. destruct (Rle_dec a' (T i)) as [C'|C']; [apply DT; assumption|].
  apply Rlt_trans with (q (T i)); [apply X; lra|apply DT; lra].
Qed.
Record ainv (s : cp_state) : Prop := {
  ai_s : sinv s;
  ai_c : cp_c s = tvec K w (Zt (T (cp_i s)));
  ai_p : cp_p s = tvec K w (Dv (cp_i s));
  ai_df : dot g (Dv (cp_i s)) + b (Dv (cp_i s)) (Zt (T (cp_i s))) <= cp_df s;
  ai_ddf : b (Dv (cp_i s)) (Dv (cp_i s)) <= cp_ddf s;
  ai_decr : decr (T (cp_i s))
}.
Lemma d_dot_g : dot g d = - dot d d.
Proof.
  rewrite !(dot_sumn n) by (try apply d_length; exact Hlg). replace (- sumn n (fun i => nth i d 0 * nth i d 0)) with (sumn n (fun i => -1 * (nth i d 0 * nth i d 0))) by (rewrite sumn_scal; ring).
  apply sumn_ext. intros k Hk. fold (dk k). rewrite dk_eq by exact Hk. destruct (xltb (tk k) (Fin eps)); ring.
Qed.
Lemma init_exact : cp_df init = dot g (Dv start) + b (Dv start) (Zt (T start)) /\ cp_ddf init = b (Dv start) (Dv start).
Proof.
  rewrite Dv_start, T_start, Zt_0, init_df, d_dot_g. split.
  - unfold b, bform. fold K. rewrite dot_vzero_r, tvec_vzero by apply Hw. rewrite mvec_vzero, dot_vzero_r. ring.
  - cbn [init cp_init cp_ddf]. fold d K. unfold b, bform. fold K. rewrite (dot_comm (mvec m _)). ring.
Qed.
Lemma ainv_init : ainv init.
Proof.
  destruct init_exact as [E1 E2]. constructor; [exact sinv_init| | | | |]; cbn [init cp_init cp_i cp_c cp_p]; fold start.
  - rewrite T_start, Zt_0. fold K. symmetry. apply tvec_vzero. apply Hw.
  - rewrite Dv_start. reflexivity.
  - rewrite <- E1. right. reflexivity.
  - rewrite <- E2. right. reflexivity.
  - rewrite T_start. intros a a' A1 A2 A3. lra.
Qed.
(** the updates of c, p, df and ddf *)
Lemma body_eq s : sinv s -> cond s = true -> cp_c s = tvec K w (Zt (T (cp_i s))) -> cp_p s = tvec K w (Dv (cp_i s)) ->
  exists r, tsp (cp_i s) = Fin r /\ T (cp_i s) <= r /\ T (cp_i s + 1) = r /\ cp_df s + (r - T (cp_i s)) * cp_ddf s <= 0 /\
  Zt r = vadd (Zt (T (cp_i s))) (smul (r - T (cp_i s)) (Dv (cp_i s))) /\
  cp_c (body s) = tvec K w (Zt r) /\ cp_p (body s) = tvec K w (Dv (cp_i s + 1)) /\
  dot g (Dv (cp_i s + 1)) + b (Dv (cp_i s + 1)) (Zt r) = (dot g (Dv (cp_i s)) + b (Dv (cp_i s)) (Zt (T (cp_i s)))) + (r - T (cp_i s)) * b (Dv (cp_i s)) (Dv (cp_i s)) + (cp_df (body s) - cp_df s - (r - T (cp_i s)) * cp_ddf s) /\
  exists e, cp_ddf (body s) = Rmax eps (cp_ddf s + e) /\ b (Dv (cp_i s + 1)) (Dv (cp_i s + 1)) = b (Dv (cp_i s)) (Dv (cp_i s)) + e.
Proof.
  intros S C Ec Ep. destruct (cond_true s S C) as (Hi & NZ & r & E & L & Edt & H0). destruct (si_ge s S) as [Hs _]. exists r.
  set (i := cp_i s) in *. set (j := nth i ind 0%nat). assert (Hj : (j < n)%nat) by (apply ind_lt; exact Hi).
  assert (ET : T (i + 1) = r) by (apply T_S; assumption).
  assert (EZ : Zt r = vadd (Zt (T i)) (smul (r - T i) (Dv i))).
  { apply Zt_seg; [lia|apply (si_fin s S)|exact L|]. intros _. rewrite E. apply xle_fin. lra. }
  assert (ED : Dv (i + 1) = vadd (Dv i) (smul (nth j g 0) (unit_vec n j))) by (apply Dv_S; assumption).
  assert (Ecn : vadd (cp_c s) (smul (r - T i) (cp_p s)) = tvec K w (Zt r)).
  { rewrite EZ, (tvec_vadd n), (tvec_smul n), Ec, Ep by exact Hw. reflexivity. }
  assert (Dj : nth j (Dv i) 0 = - nth j g 0).
  { unfold Dv. rewrite nth_tab by exact Hj. unfold j. rewrite pos_ind, Nat.leb_refl by exact Hi. apply dk_ind; assumption. }
  assert (Zj : nth j (Zt r) 0 = xreal (xb j) - nth j x 0).
  { unfold Zt. rewrite nth_tab by exact Hj. assert (Etk : tk j = Fin r) by (unfold j; rewrite <- tsp_ind by exact Hi; exact E). rewrite Etk, tmin_ge by lra.
    destruct (xb_move j Hj) as [(r' & E' & ->)|[(Z & ->)|(E' & _)]].
    - rewrite Etk in E'. injection E' as <-. cbn. ring.
    - rewrite Z. cbn. ring.
    - rewrite Etk in E'. discriminate. }
  split; [exact E|]. split; [exact L|]. split; [exact ET|]. split; [exact H0|]. split; [exact EZ|].
  cbn [body cp_body cp_c cp_p cp_df cp_ddf]. fold i ind j. rewrite Edt. cbn [xreal]. fold (xb j).
  split; [exact Ecn|]. split.
  { rewrite ED, (tvec_vadd n), (tvec_smul n), tvec_unit, Ep by assumption. reflexivity. }
  rewrite Ecn, ED. split.
  - rewrite dot_vadd_r, dot_smul_r, b_add_l, b_smul_l, b_unit by (try exact Hj; apply Zt_len). rewrite Zj.
    rewrite (dot_comm g (unit_vec n j)), dot_unit_vec by (try exact Hj; exact Hlg). rewrite EZ at 1. rewrite (b_sym (Dv i) (vadd _ _)), b_add_l, b_smul_l, (b_sym (Zt (T i)) (Dv i)). ring.
  - exists (- theta * nth j g 0 ^ 2 - 2 * nth j g 0 * dot (nth j w []) (mvec m (cp_p s)) - nth j g 0 ^ 2 * dot (nth j w []) (mvec m (nth j w []))). split; [f_equal; ring|].
    rewrite b_add_l, b_smul_l, (b_sym (Dv i) (vadd _ _)), (b_sym (unit_vec n j) (vadd _ _)), !b_add_l, !b_smul_l, (b_sym (Dv i) (unit_vec n j)).
    rewrite !b_unit by (try exact Hj; try apply Dv_len; apply unit_vec_length). rewrite tvec_unit, <- Ep, Dj by exact Hj. rewrite nth_unit_vec by exact Hj.
    destruct (Nat.eq_dec j j); [|congruence]. ring.
Qed.
Lemma ainv_body s : ainv s -> cond s = true -> ainv (body s).
Proof.
  intros A C. assert (S := ai_s s A). assert (S' := sinv_body s S C). destruct (body_eq s S C (ai_c s A) (ai_p s A)) as (r & E & L & ET & H0 & EZ & Ec & Ep & Edf & e & Eddf & Eb).
  destruct (cond_true s S C) as (Hi & NZ & _). assert (P := si_ddf s S NZ). assert (A1 := ai_df s A). assert (A2 := ai_ddf s A).
  assert (Ei : cp_i (body s) = (cp_i s + 1)%nat) by reflexivity.
  constructor; rewrite ?Ei; try assumption.
  - rewrite ET. exact Ec.
  - rewrite ET. rewrite Edf. assert ((r - T (cp_i s)) * b (Dv (cp_i s)) (Dv (cp_i s)) <= (r - T (cp_i s)) * cp_ddf s) by (apply Rmult_le_compat_l; lra). lra.
  - rewrite Eddf, Eb. eapply Rle_trans; [|apply Rmax_r]. lra.
  - rewrite ET. replace r with (T (cp_i s) + (r - T (cp_i s))) by ring.
    apply (seg_decr (cp_i s) (cp_df s) (cp_ddf s)); try assumption; [lia|apply (si_fin s S)|lra| |apply (ai_decr s A)].
    intros _. rewrite E. apply xle_fin. lra.
Qed.
Lemma ainv_final : ainv final.
Proof. apply (while_inv ainv); [exact ainv_body|exact ainv_init]. Qed.
Lemma final_len : (iF < n)%nat -> nzd -> dm = 0 \/ cp_df final + dm * cp_ddf final = 0.
Proof.
  intros Hi NZ. destruct dm_spec as (_ & _ & E & _). rewrite (E NZ). assert (P := si_ddf final sinv_final NZ). unfold Rmax. destruct (Rle_dec (- cp_df final / cp_ddf final) 0); [left; reflexivity|right; field; lra].
Qed.
Lemma decr_ts : decr ts.
Proof.
  assert (A := ainv_final). assert (S := ai_s final A). unfold ts. destruct (Nat.ltb_spec iF n) as [Hi|Hi]; [|apply (ai_decr final A)].
  destruct dm_spec as (_ & DP & _ & DZ & DL). destruct d_zero_dec as [NZ|Z]; [|rewrite (DZ Z), Rplus_0_r; apply (ai_decr final A)].
  destruct (final_len Hi NZ) as [E|E]; [rewrite E, Rplus_0_r; apply (ai_decr final A)|].
  assert (F := si_fin final S). assert (P := si_ddf final S NZ). assert (H1 := ai_df final A). assert (H2 := ai_ddf final A). assert (H3 := ai_decr final A). fold iF in F, H1, H2, H3.
  apply (seg_decr iF (cp_df final) (cp_ddf final) dm); try assumption; [lia|lra].
Qed.
Lemma zc_Zt : zc = Zt ts. Proof. reflexivity. Qed.
Lemma Zt_ts : Zt ts = vadd (Zt (T iF)) (smul dm (Dv iF)).
Proof.
  assert (S := sinv_final). destruct (si_ge final S) as [_ Hn]. fold iF in Hn. destruct dm_spec as (_ & DP & _ & _ & DL). unfold ts. destruct (Nat.ltb_spec iF n) as [Hi|Hi].
  - rewrite (Zt_seg iF (T iF + dm)) by (try exact Hn; try exact DL; try apply (si_fin final S); lra). f_equal. f_equal. ring.
  - replace iF with n at 3 by lia. rewrite Dv_end. apply vec_ext; [rewrite vadd_length, smul_length, Zt_len, vzero_length; lia|]. intros k _. rewrite nth_vadd, nth_smul, nth_vzero. ring.
Qed.
Lemma cauchy_c_eq : cauchy_c eps x g lower upper theta w m = tvec K w zc.
Proof.
  assert (A := ainv_final). unfold cauchy_c. fold final dm. rewrite (ai_c final A), (ai_p final A), zc_Zt, Zt_ts, (tvec_vadd n), (tvec_smul n) by exact Hw. reflexivity.
Qed.
Lemma nzd_start : nzd -> (start < n)%nat.
Proof.
  intros NZ. assert (H := start_le). destruct (Nat.eq_dec start n) as [E|]; [|lia]. exfalso. apply NZ. rewrite <- Dv_start, E. apply Dv_end.
Qed.
Lemma dd_pos : nzd -> 0 < dot d d.
Proof. intros NZ. destruct (dot_self_nonneg d) as [P|P]; [exact P|]. exfalso. apply NZ. symmetry in P. apply dot_self_zero in P. rewrite d_length in P. exact P. Qed.
Definition sinv2 (s : cp_state) : Prop := sinv s /\ (s = init \/ (start < cp_i s)%nat).
Lemma final2 : final = init \/ (start < iF)%nat.
Proof.
  assert (H : sinv2 final). { apply (while_inv sinv2); [|split; [exact sinv_init|left; reflexivity]]. intros s [S _] C. split; [apply sinv_body; assumption|]. right. cbn [body cp_body cp_i]. destruct (si_ge s S). lia. }
  apply H.
Qed.
Lemma ts_pos : nzd -> 0 < ts.
Proof.
  intros NZ. destruct dm_spec as (_ & DP & E & _ & _). assert (Hs := nzd_start NZ). destruct final2 as [F|F].
  - unfold ts. assert (Ei : iF = start) by (unfold iF; rewrite F; reflexivity). rewrite Ei. replace (Nat.ltb start n) with true by (symmetry; apply Nat.ltb_lt; exact Hs).
    rewrite T_start, (E NZ), F. assert (P := D0 NZ). rewrite init_df. assert (Q := dd_pos NZ).
    assert (0 < - - dot d d / cp_ddf init) by (apply Rmult_lt_0_compat; [lra|apply Rinv_0_lt_compat; exact P]). assert (M := Rmax_l (- - dot d d / cp_ddf init) 0). lra.
  - assert (S := sinv_final). destruct (si_ge final S) as [_ Hn]. fold iF in Hn. destruct (si_fin final S) as [Ft _]. fold iF in Ft. assert (0 < T iF).
    { destruct iF as [|i]; [lia|]. rewrite t_prev_S in Ft. assert (Q := after_start i ltac:(lia) ltac:(lia)). rewrite Ft in Q. apply xltb_fin in Q. lra. }
    unfold ts. destruct (Nat.ltb iF n); lra.
Qed.
(** ** Exactness: with enough curvature on every face the slopes are exact *)
Hypothesis CURV : forall v, length v = n -> (forall k, (k < n)%nat -> nth k v 0 = 0 \/ nth k v 0 = - nth k g 0) -> v <> vzero n -> eps <= b v v.
Lemma Dv_face i k : (k < n)%nat -> nth k (Dv i) 0 = 0 \/ nth k (Dv i) 0 = - nth k g 0.
Proof.
  intros Hk. unfold Dv. rewrite nth_tab by exact Hk. destruct (Nat.leb i (pos k)); [|left; reflexivity]. rewrite dk_eq by exact Hk. destruct (xltb (tk k) (Fin eps)); auto.
Qed.
Record einv (s : cp_state) : Prop := {
  ei_a : ainv s;
  ei_df : cp_df s = dot g (Dv (cp_i s)) + b (Dv (cp_i s)) (Zt (T (cp_i s)));
  ei_ddf : cp_ddf s = b (Dv (cp_i s)) (Dv (cp_i s)) \/ Dv (cp_i s) = vzero n
}.
Lemma einv_body s : einv s -> cond s = true -> einv (body s).
Proof.
  intros X C. assert (A := ei_a s X). assert (S := ai_s s A). destruct (body_eq s S C (ai_c s A) (ai_p s A)) as (r & E & L & ET & H0 & EZ & Ec & Ep & Edf & e & Eddf & Eb).
  destruct (cond_true s S C) as (Hi & NZ & _). destruct (si_ge s S) as [Hs _]. assert (Ei : cp_i (body s) = (cp_i s + 1)%nat) by reflexivity.
  assert (Eb0 : cp_ddf s = b (Dv (cp_i s)) (Dv (cp_i s))).
  { destruct (ei_ddf s X) as [Q|Q]; [exact Q|]. exfalso. set (j := nth (cp_i s) ind 0%nat). assert (Hj : (j < n)%nat) by (apply ind_lt; exact Hi).
    assert (Dj : nth j (Dv (cp_i s)) 0 = - nth j g 0). { unfold Dv. rewrite nth_tab by exact Hj. unfold j. rewrite pos_ind, Nat.leb_refl by exact Hi. apply dk_ind; assumption. }
    rewrite Q, nth_vzero in Dj. rewrite tsp_ind in E by exact Hi. fold j in E. destruct (tk_cases j Hj) as [[E' _]|(r' & _ & _ & [[H _]|[H _]])]; [rewrite E in E'; discriminate|lra|lra]. }
  constructor; [apply ainv_body; assumption| |]; rewrite ?Ei.
  - rewrite ET, Edf, <- Eb0. assert (Q := ei_df s X). lra.
  - destruct (list_eq_dec Req_EM_T (Dv (cp_i s + 1)) (vzero n)) as [Z|N]; [right; exact Z|left]. rewrite Eddf, Eb0, <- Eb. apply Rmax_right. apply CURV; [apply Dv_len|apply Dv_face|exact N].
Qed.
Lemma einv_final : einv final.
Proof.
  apply (while_inv einv); [exact einv_body|]. destruct init_exact as [E1 E2]. constructor; [exact ainv_init|exact E1|left; exact E2].
Qed.
Hypothesis TIES : forall i j r, (i < n)%nat -> (j < n)%nat -> hits x g lower upper i r -> hits x g lower upper j r -> i = j \/ r = 0.
Lemma tk_hits i r : (i < n)%nat -> tk i = Fin r -> hits x g lower upper i r.
Proof. intros Hi E. destruct (tk_cases i Hi) as [[E' _]|(r' & E' & _ & H)]; rewrite E in E'; [discriminate|]. injection E' as ->. exact H. Qed.
(** beyond the last useful breakpoint, or before the next one, the model does not decrease *)
Lemma local_min : exists del, 0 < del /\ forall s, ts <= s -> s <= ts + del -> q ts <= q s.
Proof.
  assert (X := einv_final). assert (A := ei_a final X). assert (S := ai_s final A). destruct (si_ge final S) as [Hs Hn]. fold iF in Hs, Hn.
  assert (F := si_fin final S). fold iF in F. destruct dm_spec as (_ & DP & DE & DZ & DL).
  assert (CONST : Dv iF = vzero n -> forall s, T iF <= s -> Zt s = Zt (T iF)).
  { intros Z s Hs'. apply vec_ext; [rewrite !Zt_len; reflexivity|]. intros k Hk. rewrite Zt_len in Hk. unfold Zt. rewrite !nth_tab by exact Hk.
    destruct (Nat.leb_spec iF (pos k)) as [C|C].
    - assert (Q : dk k = 0). { assert (Q := nth_vzero n k). rewrite <- Z in Q. unfold Dv in Q. rewrite nth_tab in Q by exact Hk. replace (Nat.leb iF (pos k)) with true in Q by (symmetry; apply Nat.leb_le; exact C). exact Q. }
      rewrite Q. ring.
    - destruct (passed iF k Hn F Hk C) as (r & -> & Lr). rewrite !tmin_ge by lra. reflexivity. }
  assert (ZERO : Dv iF = vzero n -> exists del, 0 < del /\ forall s, ts <= s -> s <= ts + del -> q ts <= q s).
  { intros Z. exists 1. split; [lra|]. intros s H1 _. assert (T iF <= ts) by (unfold ts; destruct (Nat.ltb iF n); lra).
    right. unfold q. rewrite (CONST Z s), (CONST Z ts) by lra. reflexivity. }
  destruct (list_eq_dec Req_EM_T (Dv iF) (vzero n)) as [Z|NZ']; [auto|].
  destruct (ei_ddf final X) as [Eb|Z]; [|auto]. fold iF in Eb.
  assert (Hi : (iF < n)%nat). { destruct (Nat.eq_dec iF n) as [E|]; [|lia]. exfalso. apply NZ'. rewrite E. apply Dv_end. }
  assert (NZ : nzd). { destruct d_zero_dec as [N|Z]; [exact N|]. exfalso. apply NZ'. assert (Ei : iF = start) by (unfold iF; rewrite (si_zero final S Z); reflexivity). rewrite Ei, Dv_start.
    unfold nzd in Z. destruct (list_eq_dec Req_EM_T d (vzero n)); [assumption|contradiction]. }
  assert (P := si_ddf final S NZ). assert (Ets : ts = T iF + dm) by (unfold ts; replace (Nat.ltb iF n) with true by (symmetry; apply Nat.ltb_lt; exact Hi); reflexivity).
  (* strictly before the next breakpoint *)
  assert (NEXT : exists del, 0 < del /\ xle (Fin (T iF + dm + del)) (tsp iF) = true).
  { destruct (tsp_pinf iF Hi) as [E|(r & E & R0)]; [exists 1; rewrite E; split; [lra|reflexivity]|]. 
    assert (Lt : T iF + dm < r).
    { assert (C := final_done). unfold cond, cp_cond in C. fold n iF in C. rewrite Nat.min_l in C by lia.
      replace (Nat.ltb iF n) with true in C by (symmetry; apply Nat.ltb_lt; exact Hi). rewrite andb_true_r, dt_eq in C by exact Hi. destruct F as [F F0]. rewrite F, E in C. cbn in C.
      destruct (Req_EM_T (cp_ddf final) 0); [lra|]. cbn in C. destruct (Rle_dec (r - T iF) (- cp_df final / cp_ddf final)) as [|NL]; [discriminate|].
      assert (Lr : T iF < r).
      { assert (AS := after_start iF Hs Hi). rewrite E in AS. apply xltb_fin in AS. destruct iF as [|i] eqn:Ei; [unfold T; cbn; lra|]. rewrite t_prev_S in F.
        assert (SO := tsp_sorted i (Datatypes.S i) ltac:(lia) Hi). rewrite F, E in SO. apply xle_fin in SO. destruct SO as [SO|SO]; [exact SO|]. exfalso.
        assert (H1 := F). rewrite tsp_ind in H1 by lia. assert (H2 := E). rewrite tsp_ind in H2 by exact Hi. rewrite SO in H1.
        destruct (TIES _ _ r (ind_lt i ltac:(lia)) (ind_lt (Datatypes.S i) Hi) (tk_hits _ _ (ind_lt i ltac:(lia)) H1) (tk_hits _ _ (ind_lt _ Hi) H2)) as [Q|Q]; [|lra].
        assert (Q1 := pos_ind i ltac:(lia)). rewrite Q, pos_ind in Q1 by exact Hi. lia. }
      rewrite (DE NZ). unfold Rmax. destruct (Rle_dec (- cp_df final / cp_ddf final) 0); lra. }
    exists (r - (T iF + dm)). split; [lra|]. rewrite E. apply xle_fin. lra. }
  destruct NEXT as (del & Dp & NX). exists del. split; [exact Dp|]. intros s H1 H2.
  assert (LE : forall v, v <= T iF + dm + del -> (iF < n)%nat -> xle (Fin v) (tsp iF) = true).
  { intros v Hv _. destruct (tsp_pinf iF Hi) as [->|(r & E & _)]; [reflexivity|]. rewrite E in *. apply xle_fin in NX. apply xle_fin. lra. }
  rewrite (q_seg iF s), (q_seg iF ts) by (try assumption; try lra; intros; apply LE; try assumption; lra).
  assert (Edf := ei_df final X). fold iF in Edf. rewrite <- Edf, <- Eb.
  set (u := ts - T iF). set (v := s - T iF). assert (Eu : u = dm) by (unfold u; lra). assert (u <= v) by (unfold u, v; lra).
  assert (Y : 0 <= cp_df final + u * cp_ddf final).
  { rewrite Eu, (DE NZ). assert (M := Rmax_l (- cp_df final / cp_ddf final) 0).
    assert (M2 : - cp_df final / cp_ddf final * cp_ddf final <= Rmax (- cp_df final / cp_ddf final) 0 * cp_ddf final) by (apply Rmult_le_compat_r; lra).
    replace (- cp_df final / cp_ddf final * cp_ddf final) with (- cp_df final) in M2 by (field; lra). lra. }
  assert (Y2 : 0 <= (v - u) * (cp_df final + u * cp_ddf final)) by (apply Rmult_le_pos; lra).
  assert (Y3 : 0 <= / 2 * (v - u) ^ 2 * cp_ddf final) by (apply Rmult_le_pos; [apply Rmult_le_pos; [lra|apply pow2_ge_0]|lra]).
  replace (q (T iF) + v * cp_df final + / 2 * v ^ 2 * cp_ddf final) with (q (T iF) + u * cp_df final + / 2 * u ^ 2 * cp_ddf final + (v - u) * (cp_df final + u * cp_ddf final) + / 2 * (v - u) ^ 2 * cp_ddf final) by field. lra.
Qed.
End CP.
