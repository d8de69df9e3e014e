(** C15: isotonic regression. *)
From Coq Require Import Reals List Lra Lia ZArith.
From Verif Require Import Prelude Vec Proj Isotonic IsotonicProofs.
Import ListNotations.
Open Scope R_scope.

(** C15, floating-point inputs: the loops end within 2n+1 steps and the result is
    the unique nearest monotone vector within the bounds. *)
Theorem C15_isotonic : forall y y_min y_max increasing fuel,
  valid_bounds y_min y_max -> (2 * length y + 1 <= fuel)%nat ->
  exists v, isotonic_l2_pav fuel astype_float y y_min y_max increasing = Some v /\
    is_projection (isotonic_set (length y) y_min y_max increasing) y v.
Proof. exact isotonic_projection. Qed.
Print Assumptions C15_isotonic.

(** Finding: with an integer input the block means are truncated to integers
    ([sol.astype(y.dtype)]), and the result is not optimal: [0; 1], decreasing. *)
Theorem C15_integer_input_refuted :
  exists y v v' fuel, Forall (fun a => exists z, a = IZR z) y /\ (2 * length y + 1 <= fuel)%nat /\
    isotonic_l2_pav fuel astype_int y NInf PInf false = Some v /\
    isotonic_set (length y) NInf PInf false v' /\ dist2 y v' < dist2 y v.
Proof.
  exists [0; 1], [0; 0], [/2; /2], 5%nat.
  split; [constructor; [exists 0%Z; reflexivity|constructor; [exists 1%Z; reflexivity|constructor]]|].
  split; [simpl; lia|]. split.
  - unfold isotonic_l2_pav, pav. cbn -[Rlt_dec Rplus Rmult Rdiv astype_int IZR].
    destruct (Rlt_dec (1 * 1) (1 * 0)); [lra|]. cbn -[Rlt_dec Rplus Rmult Rdiv astype_int IZR].
    assert (E : astype_int ((1 * 0 + 1 * 1) / (1 + 1)) = 0).
    { unfold astype_int. destruct (Rlt_dec _ 0); [lra|].
      assert (H : Int_part ((1 * 0 + 1 * 1) / (1 + 1)) = 0%Z).
      { unfold Int_part. rewrite <- (tech_up _ 1%Z) by lra. reflexivity. }
      rewrite H. reflexivity. }
    unfold upd. simpl Nat.eqb. cbv iota. rewrite E. f_equal. f_equal; [ring|f_equal; ring].
  - split.
    + split; [reflexivity|]. split; [intros [|[|i]] Hi; simpl in *; try lra; lia|].
      repeat constructor.
    + unfold dist2, sqnorm; simpl. lra.
Qed.
Print Assumptions C15_integer_input_refuted.

Example C15_example : valid_bounds (Fin 0) PInf /\ isotonic_set 3 (Fin 0) PInf true [0; 3/2; 3/2] /\
  ~ isotonic_set 3 NInf PInf true [0; 2; 1].
Proof.
  split; [exact I|]. split.
  - split; [reflexivity|]. split; [intros [|[|i]] Hi; simpl in *; try lra; lia|].
    repeat constructor; simpl; lra.
  - intros (_ & H & _). specialize (H 1%nat ltac:(simpl; lia)). simpl in H. lra.
Qed.
