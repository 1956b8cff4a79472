(** What is written in a number. *)
From Coq Require Import String ZArith QArith List Bool.
From Verif Require Import Base.
Import ListNotations.
Open Scope Z_scope.

(** The digits 0-9, a-f and A-F. *)
Inductive digit : Z -> Z -> Prop :=
| dg_dec : forall d, 0 <= d < 10 -> digit (48 + d) d
| dg_low : forall d, 10 <= d < 16 -> digit (97 + (d - 10)) d
| dg_up : forall d, 10 <= d < 16 -> digit (65 + (d - 10)) d.
(** [number b s v]: s is the number v in base b; its last digit has weight 1 and the others b times their weight without it. *)
Inductive number (b : Z) : text -> Z -> Prop :=
| nb_one : forall c d, digit c d -> d < b -> number b [c] d
| nb_more : forall s v c d, number b s v -> digit c d -> d < b -> number b (s ++ [c]) (b * v + d).
(** The sign. *)
Definition sign (neg : bool) : text := if neg then [45] else [].
Definition with_sign (neg : bool) (q : Q) : Q := if neg then (- q)%Q else q.
(** w/10^(the length of f), the meaning of the digits f behind the point. *)
Definition fraction (f : text) (w : Z) : Q := (inject_Z w / inject_Z (10 ^ Z.of_nat (length f)))%Q.
(** Numerator and denominator have no common divisor. *)
Definition lowest_terms (q : Q) : Prop := Z.gcd (Qnum q) (QDen q) = 1.
