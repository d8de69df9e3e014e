(** Specification for C77: Anderson acceleration on affine contractions.  The programs are Anderson.v
    (AndersonAcceleration, AndersonWrapper); [contraction] is in FixedPoint.v. *)
From Coq Require Import Reals List Lra Lia Bool Arith.
From Verif Require Import Prelude Vec Mat LinAlg Run Anderson FixedPoint.
Import ListNotations.
Open Scope R_scope.

(** the factor of one mixing step with damping beta of a q-contraction; 1 - beta (1 - q) for 0 <= beta <= 1 *)
Definition mixing_rate (beta q : R) : R := Rabs (1 - beta) + Rabs beta * q.
(** F(x) - x *)
Definition residual_at (F : vec -> vec) (x : vec) : vec := vsub (F x) x.
(** rounded up k / m *)
Definition ceil_div (k m : nat) : nat := ((k + (m - 1)) / m)%nat.

(** A contraction of the line that is not affine, at scale s: -x/5 on [-5s, 5s], slope 3/4 outside. *)
Definition bent (s a : R) : R :=
  if Rle_dec (Rabs a) (5 * s) then - (a / 5) else if Rle_dec 0 a then 3 / 4 * a - 19 / 4 * s else 3 / 4 * a + 19 / 4 * s.
Definition bent_map (s : R) (x : vec) : vec * unit := ([bent s (nth 0 x 0)], tt).
(** a history of two and mixing at every second update, with beta = 1 (the default) *)
Definition bent_cfg (ridge tol : R) (maxiter : nat) : anderson_config :=
  {| an_history_size := 2; an_mixing_frequency := 2; an_beta := 1; an_maxiter := maxiter; an_tol := tol; an_ridge := ridge |}.
