(** What is written in a string. *)
From Coq Require Import ZArith List Bool.
From Verif Require Import Base SpecNumber.
Import ListNotations.
Open Scope Z_scope.

(** Escape sequences of SMT-LIB: \u with four hexadecimal digits and \u{...}, with one to five of them and a code point below 0x30000. *)
Inductive escape : text -> Z -> Prop :=
| es_four : forall ds v, number 16 ds v -> length ds = 4%nat -> escape (92 :: 117 :: ds) v
| es_brace : forall ds v, number 16 ds v -> (length ds <= 5)%nat -> v < 196608 -> escape (92 :: 117 :: 123 :: ds ++ [125]) v.
(** The code points of a string: escape sequences give theirs, the characters 32..127 themselves, a backslash too where no escape
    sequence starts; control characters do not count. *)
Inductive characters : text -> list Z -> Prop :=
| ch_nil : characters [] []
| ch_escape : forall e v s l, escape e v -> characters s l -> characters (e ++ s) (v :: l)
| ch_char : forall c s l, 32 <= c <= 127 -> (c = 92 -> forall e v r, escape e v -> c :: s <> e ++ r) ->
    characters s l -> characters (c :: s) (c :: l)
| ch_control : forall c s l, c < 32 \/ 127 < c -> characters s l -> characters (c :: s) l.
