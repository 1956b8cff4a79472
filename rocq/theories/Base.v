(** Outcomes, machine words and text. *)
From Coq Require Import ZArith List Bool.
Import ListNotations.
Open Scope Z_scope.

(** Outcome of a modelled C++ function.
    - [Ok x]: normal return;
    - [Err]: EO_FATAL / a C++ exception, i.e. the process stops with an error
      (src/base/check.h 44-131, src/base/check.cpp 27-46);
    - [UB]: undefined behaviour (out-of-bounds index, use after free, ...);
    - [Fuel]: the recursion bound of the model was exhausted; it is not a
      behaviour of the program. *)
Inductive res (A : Type) : Type :=
| Ok : A -> res A
| Err : res A
| UB : res A
| Fuel : res A.
Arguments Ok {A} _.
Arguments Err {A}.
Arguments UB {A}.
Arguments Fuel {A}.

(** Sequencing of outcomes: a C++ statement followed by the next one. *)
Definition bind {A B : Type} (x : res A) (f : A -> res B) : res B :=
  match x with
  | Ok a => f a
  | Err => Err
  | UB => UB
  | Fuel => Fuel
  end.
Notation "'let*' x ':=' e 'in' f" := (bind e (fun x => f))
  (at level 61, x pattern, e at next level, right associativity).

Definition res_map {A B : Type} (f : A -> B) (x : res A) : res B :=
  bind x (fun a => Ok (f a)).

(** Indexing of a std::vector with operator[]: out of range is undefined
    behaviour. *)
Definition vec_at {A : Type} (v : list A) (i : nat) : res A :=
  match nth_error v i with
  | Some a => Ok a
  | None => UB
  end.

(** Narrowing to uint32_t / unsigned int (C++ conversion modulo 2^32). *)
Definition u32 (z : Z) : Z := z mod 2 ^ 32.

(** std::string and source text: a list of byte values. *)
Definition text := list Z.

Fixpoint text_eqb (a b : text) : bool :=
  match a, b with
  | [], [] => true
  | x :: a', y :: b' => (x =? y) && text_eqb a' b'
  | _, _ => false
  end.

Lemma text_eqb_eq : forall a b, text_eqb a b = true <-> a = b.
Proof.
  induction a as [|x a IH]; intros [|y b]; simpl; split; intros H; try congruence.
  - apply andb_true_iff in H; destruct H as [H1 H2].
    apply Z.eqb_eq in H1; apply IH in H2; subst; reflexivity.
  - injection H as -> ->. apply andb_true_iff; split; [apply Z.eqb_refl|].
    apply IH; reflexivity.
Qed.
