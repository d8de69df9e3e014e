(** Lower semi-continuous functions attain their minimum on closed bounded sets of vectors. *)
From Coq Require Import Reals List Lra Lia Classical.
From Verif Require Import Prelude Vec Existence.
Import ListNotations.
Open Scope R_scope.

(** Families of "large" sets: closed under supersets, a union of two sets is large only if one of
    them is, and a large set has large bounded part. *)
Record grill (G : (vec -> Prop) -> Prop) (n : nat) (B : R) : Prop := {
  gr_mono : forall P Q : vec -> Prop, (forall x, P x -> Q x) -> G P -> G Q;
  gr_split : forall P Q : vec -> Prop, G (fun x => P x \/ Q x) -> G P \/ G Q;
  gr_empty : ~ G (fun _ => False);
  gr_bound : forall P, G P -> G (fun x => P x /\ forall i, (i < n)%nat -> Rabs (nth i x 0) <= B) }.

Lemma abs_bounds a b : Rabs a <= b -> - b <= a <= b.
Proof. intros H. pose proof (Rle_abs a). pose proof (Rle_abs (- a)). rewrite Rabs_Ropp in *. lra. Qed.
Lemma coordinate_cluster G n B j : grill G n B -> G (fun _ => True) -> (j < n)%nat ->
  exists s, forall eps, 0 < eps -> G (fun x => Rabs (nth j x 0 - s) < eps).
Proof.
  intros HG HT Hj.
  set (E := fun t => t <= B /\ ~ G (fun x => nth j x 0 <= t)).
  assert (HB : G (fun x => nth j x 0 <= B)).
  { apply (gr_mono G n B HG) with (2 := gr_bound G n B HG _ HT). intros x [_ Hx]. specialize (Hx j Hj). apply abs_bounds in Hx. lra. }
  assert (Hne : exists t, E t).
  { exists (Rmin B (- B - 1)). split; [apply Rmin_l|]. intros C. apply (gr_empty G n B HG). apply (gr_mono G n B HG) with (2 := gr_bound G n B HG _ C). intros x [Hx1 Hx2]. specialize (Hx2 j Hj). apply abs_bounds in Hx2.
    pose proof (Rmin_r B (- B - 1)). lra. }
  destruct (completeness E) as (s & Hub & Hlub); [exists B; intros t Ht; apply Ht|exact Hne|]. exists s. intros eps He.
  assert (H1 : G (fun x => nth j x 0 <= s + eps / 2)).
  { destruct (Rle_or_lt (s + eps / 2) B) as [Hle|Hgt].
    - apply NNPP. intros C. assert (E (s + eps / 2)) by (split; assumption). specialize (Hub _ H). lra.
    - apply (gr_mono G n B HG) with (2 := HB). intros x Hx. lra. }
  assert (H2 : ~ G (fun x => nth j x 0 <= s - eps / 2)).
  { intros C. assert (Hs : s <= s - eps / 2); [|lra]. apply Hlub. intros t [Ht1 Ht2]. destruct (Rle_or_lt t (s - eps / 2)) as [Hle|Hgt]; [exact Hle|exfalso].
    apply Ht2. apply (gr_mono G n B HG) with (2 := C). intros x Hx. lra. }
  destruct (gr_split G n B HG (fun x => nth j x 0 <= s - eps / 2) (fun x => Rabs (nth j x 0 - s) < eps)) as [C|C]; [|contradiction|exact C].
  apply (gr_mono G n B HG) with (2 := H1). intros x Hx. destruct (Rle_or_lt (nth j x 0) (s - eps / 2)) as [Hle|Hgt]; [left; exact Hle|right].
  apply Rabs_def1; lra.
Qed.
Lemma grill_restrict G n B j s : grill G n B -> 
  grill (fun P => forall eps, 0 < eps -> G (fun x => P x /\ Rabs (nth j x 0 - s) < eps)) n B.
Proof.
  intros HG. constructor.
  - intros P Q HPQ H eps He. apply (gr_mono G n B HG) with (2 := H eps He). intros x [H1 H2]. split; auto.
  - intros P Q H. apply NNPP. intros C. apply not_or_and in C. destruct C as [C1 C2].
    apply not_all_ex_not in C1. destruct C1 as (e1 & C1). apply imply_to_and in C1. destruct C1 as [E1 C1].
    apply not_all_ex_not in C2. destruct C2 as (e2 & C2). apply imply_to_and in C2. destruct C2 as [E2 C2].
    specialize (H (Rmin e1 e2) ltac:(apply Rmin_glb_lt; assumption)). pose proof (Rmin_l e1 e2). pose proof (Rmin_r e1 e2).
    destruct (gr_split G n B HG (fun x => P x /\ Rabs (nth j x 0 - s) < Rmin e1 e2) (fun x => Q x /\ Rabs (nth j x 0 - s) < Rmin e1 e2)) as [D|D].
    + apply (gr_mono G n B HG) with (2 := H). intros x [[Hx|Hx] Hx2]; [left|right]; split; assumption.
    + apply C1. apply (gr_mono G n B HG) with (2 := D). intros x [Hx1 Hx2]. split; [exact Hx1|lra].
    + apply C2. apply (gr_mono G n B HG) with (2 := D). intros x [Hx1 Hx2]. split; [exact Hx1|lra].
  - intros H. specialize (H 1 ltac:(lra)). apply (gr_empty G n B HG). apply (gr_mono G n B HG) with (2 := H). intros x [Hx _]. exact Hx.
  - intros P H eps He. apply (gr_mono G n B HG) with (2 := gr_bound G n B HG _ (H eps He)). intros x [[H1 H2] H3]. split; [split|]; assumption.
Qed.
Lemma cluster_point n B j G : (j <= n)%nat -> grill G n B -> G (fun _ => True) ->
  exists c, length c = j /\ forall eps, 0 < eps -> G (near j eps c).
Proof.
  revert G. induction j as [|j IH]; intros G Hj HG HT.
  - exists []. split; [reflexivity|]. intros eps _. apply (gr_mono G n B HG) with (2 := HT). intros x _ i Hi. lia.
  - destruct (coordinate_cluster G n B j HG HT ltac:(lia)) as (s & Hs).
    destruct (IH _ ltac:(lia) (grill_restrict G n B j s HG)) as (c & Hc & Hn).
    { intros eps He. apply (gr_mono G n B HG) with (2 := Hs eps He). intros x Hx. split; [exact I|exact Hx]. }
    exists (c ++ [s]). split; [rewrite app_length; simpl; lia|]. intros eps He.
    apply (gr_mono G n B HG) with (2 := Hn eps He eps He). intros x [H1 H2] i Hi.
    destruct (Nat.eq_dec i j) as [->|Hne].
    + rewrite app_nth2 by lia. rewrite Hc, Nat.sub_diag. exact H2.
    + rewrite app_nth1 by lia. apply H1. lia.
Qed.

(** A lower semi-continuous function has a minimiser on every non-empty closed bounded set. *)
Theorem attains_minimum n K f : (exists x, K x) -> bounded_set n K -> closed_set n K -> lsc_on n K f ->
  exists c, K c /\ forall x, K x -> f c <= f x.
Proof.
  intros (x0 & Hx0) (B & HB) Hcl Hf.
  set (G := fun P : vec -> Prop => forall y, K y -> exists x, K x /\ P x /\ f x <= f y).
  assert (HG : grill G n B).
  { constructor.
    - intros P Q HPQ H y Hy. destruct (H y Hy) as (x & H1 & H2 & H3). exists x. auto.
    - intros P Q H. apply NNPP. intros C. apply not_or_and in C. destruct C as [C1 C2].
      apply not_all_ex_not in C1. destruct C1 as (y1 & C1). apply imply_to_and in C1. destruct C1 as [K1 C1].
      apply not_all_ex_not in C2. destruct C2 as (y2 & C2). apply imply_to_and in C2. destruct C2 as [K2 C2].
      destruct (Rle_or_lt (f y1) (f y2)) as [Hle|Hlt].
      + destruct (H y1 K1) as (x & X1 & [X2|X2] & X3); [apply C1; exists x; auto|apply C2; exists x; split; [exact X1|split; [exact X2|lra]]].
      + destruct (H y2 K2) as (x & X1 & [X2|X2] & X3); [apply C1; exists x; split; [exact X1|split; [exact X2|lra]]|apply C2; exists x; auto].
    - intros H. destruct (H x0 Hx0) as (x & _ & [] & _).
    - intros P H y Hy. destruct (H y Hy) as (x & H1 & H2 & H3). exists x. split; [exact H1|]. split; [split; [exact H2|apply (HB x H1)]|exact H3]. }
  destruct (cluster_point n B n G (le_n n) HG) as (c & Hc & Hn).
  { intros y Hy. exists y. split; [exact Hy|]. split; [exact I|lra]. }
  assert (HKc : K c).
  { apply Hcl; [exact Hc|]. intros eps He. destruct (Hn eps He x0 Hx0) as (x & H1 & H2 & _). exists x. auto. }
  exists c. split; [exact HKc|]. intros y Hy. apply Rnot_lt_le. intros Hlt.
  destruct (Hf c HKc (f c - f y) ltac:(lra)) as (d & Hd & Hl). destruct (Hn d Hd y Hy) as (x & H1 & H2 & H3). specialize (Hl x H1 H2). lra.
Qed.
