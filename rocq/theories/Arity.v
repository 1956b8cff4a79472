(** Arity check of the type checker. *)
From Coq Require Import List Bool Arith.
From Verif Require Import Base Kind.

(** TypeChecker::checkArity: src/type_checker.cpp 147-220.  The diagnostic
    output is omitted. *)
Definition checkArity (k : kind) (nargs : nat) : bool :=
  match k with
  | K_EVAL_IS_EQ | K_EVAL_VAR | K_EVAL_EQ | K_EVAL_INT_DIV | K_EVAL_INT_MOD
  | K_EVAL_RAT_DIV | K_EVAL_TO_BIN | K_EVAL_FIND | K_EVAL_COMPARE | K_EVAL_GT
  | K_EVAL_LIST_LENGTH | K_EVAL_LIST_REV | K_EVAL_LIST_SETOF
  | K_EVAL_LIST_SINGLETON_ELIM | K_EVAL_NIL => Nat.eqb nargs 2
  | K_EVAL_LIST_CONCAT => Nat.eqb nargs 3
  | K_PROOF | K_EVAL_IS_OK | K_EVAL_TYPE_OF | K_EVAL_NAME_OF | K_EVAL_HASH
  | K_EVAL_NOT | K_EVAL_NEG | K_EVAL_IS_NEG | K_EVAL_LENGTH | K_EVAL_TO_INT
  | K_EVAL_TO_RAT | K_EVAL_TO_STRING | K_EVAL_IS_Z | K_EVAL_IS_Q | K_EVAL_IS_BIN
  | K_EVAL_IS_STR | K_EVAL_IS_BOOL | K_EVAL_IS_VAR | K_EVAL_DT_CONSTRUCTORS
  | K_EVAL_DT_SELECTORS => Nat.eqb nargs 1
  | K_EVAL_REQUIRES | K_EVAL_IF_THEN_ELSE | K_EVAL_CONS | K_EVAL_LIST_FIND
  | K_EVAL_LIST_ERASE | K_EVAL_LIST_ERASE_ALL | K_EVAL_LIST_NTH
  | K_EVAL_LIST_MINCLUDE | K_EVAL_LIST_MEQ | K_EVAL_LIST_DIFF
  | K_EVAL_LIST_INTER => Nat.eqb nargs 3
  | K_EVAL_EXTRACT => Nat.eqb nargs 3 || Nat.eqb nargs 2
  | _ => if isNaryLiteralOp k then Nat.eqb nargs 2 else false
  end.
