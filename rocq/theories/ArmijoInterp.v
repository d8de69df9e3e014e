(** Specification for C74: ArmijoSGD on batches that share a minimiser.  The program is StochGrad.v
    ([armijo_update], [armijo_iterate]); this file only states the problem. *)
From Coq Require Import Reals List Lra Lia Bool Arith.
From Verif Require Import Prelude Vec Run StochGrad.
Import ListNotations.
Open Scope R_scope.

(** "interpolation property" (armijo_sgd.py:142-146): xs minimises every batch objective *)
Definition interpolates (n : nat) (fs : nat -> vec -> R) (xs : vec) : Prop := length xs = n /\ forall j y, length y = n -> fs j xs <= fs j y.
(** strong convexity in first-order form; mu = 0 is convexity *)
Definition grad_strong (n : nat) (mu : R) (f : vec -> R) (gradf : vec -> vec) : Prop :=
  forall x y, length x = n -> length y = n -> f x + dot (gradf x) (vsub y x) + mu / 2 * dist2 y x <= f y.
(** The setting: no momentum, "increase" or "conservative" resets, a line search long enough to reach
    a step of 2 * aggressiveness / L, and mu-strongly convex, L-smooth batch objectives that share the
    minimiser xs. *)
Definition interp_setting (cfg : armijo_config) (n : nat) (mu L : R) (fs : nat -> vec -> R) (gs : nat -> vec -> vec) (xs x0 : vec) : Prop :=
  reset cfg <> Goldstein /\ ar_momentum cfg = 0 /\ 0 < decrease_factor cfg <= 1 /\ 1 <= increase_factor cfg /\
  0 < ar_max_stepsize cfg /\ 0 <= ar_eps cfg /\ 0 < aggressiveness cfg < 1 /\ 0 < L /\ 0 <= mu /\
  ar_max_stepsize cfg * decrease_factor cfg ^ ar_maxls cfg * L <= 2 * aggressiveness cfg /\
  length x0 = n /\ interpolates n fs xs /\
  (forall j, grad_strong n mu (fs j) (gs j) /\ grad_smooth n L (fs j) (gs j) /\ grad_shape n (gs j)).
(** a step that the line search cannot undercut *)
Definition armijo_floor (cfg : armijo_config) (L : R) : R := Rmin (ar_max_stepsize cfg) (2 * aggressiveness cfg * decrease_factor cfg / L).
(** sum of the losses of the first k iterates, each on its own batch *)
Fixpoint total_loss (fs : nat -> vec -> R) (xs : vec) (it : nat -> vec) (k : nat) : R :=
  match k with O => 0 | S j => total_loss fs xs it j + (fs j (it j) - fs j xs) end.
(** the default options (armijo_sgd.py:215-231), with any machine precision eps *)
Definition armijo_default (eps : R) : armijo_config :=
  {| aggressiveness := 9 / 10; decrease_factor := 8 / 10; increase_factor := 3 / 2; reset := Increase;
     ar_momentum := 0; ar_max_stepsize := 1; ar_maxls := 15; ar_eps := eps |}.
(** two convex batch objectives of one variable with minimiser 0: 2x^2 on one side, x^2/200 on the
    other; the batches alternate *)
Definition side_f (right : bool) (x : vec) : R :=
  let a := if right then nth 0 x 0 else - nth 0 x 0 in if Rlt_dec 0 a then 2 * a * a else a * a / 200.
Definition side_g (right : bool) (x : vec) : vec :=
  let a := if right then nth 0 x 0 else - nth 0 x 0 in let d := if Rlt_dec 0 a then 4 * a else a / 100 in [if right then d else - d].
Definition alt_fs (j : nat) : vec -> R := side_f (Nat.even j).
Definition alt_gs (j : nat) : vec -> vec := side_g (Nat.even j).
