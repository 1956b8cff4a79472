(** Lists of an operator whose nil terminator does not depend on the list. *)
From Coq Require Import ZArith List Bool.
From Verif Require Import Base Kind Literal Term Match Typing SpecTerm SpecEval SpecList ListProofs2 SpecDerived.
Import ListNotations.
Open Scope Z_scope.

(** A right associative operator with the nil terminator nl. *)
Definition list_operator (E : env) (n : nat) (op nl : term) : Prop :=
  value op /\ (exists i, op = Sym K_CONST i) /\ value nl /\ curried op nl /\ not_app2 op nl /\ forall l, list_op E n false op op l nl.
(** The values that can be elements: the operator has one argument at a time in them. *)
Definition elements (op : term) (xs : list term) : Prop := Forall value xs /\ Forall (curried op) xs.
