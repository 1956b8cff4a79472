(** Terms with as many children as their kinds need. *)
From Coq Require Import ZArith List Bool.
From Verif Require Import Base Kind Literal Term Match Typing SpecTerm SpecEval SpecType.
Import ListNotations.

(** The least number of children: applications have a function and an argument; operators have
    the arguments that the manual gives them (two bounds for eo::extract), operators that can
    have any number of arguments and built-in constants need none. *)
Definition needs (k : kind) : nat :=
  match k with
  | K_QUOTE_TYPE | K_PROOF | K_APPLY_OPAQUE => 1
  | K_APPLY | K_LAMBDA | K_PARAMETERIZED => 2
  | K_EVAL_IS_OK | K_EVAL_TYPE_OF | K_EVAL_NAME_OF | K_EVAL_HASH | K_EVAL_NOT | K_EVAL_NEG
  | K_EVAL_IS_NEG | K_EVAL_LENGTH | K_EVAL_TO_INT | K_EVAL_TO_RAT | K_EVAL_TO_STRING
  | K_EVAL_IS_Z | K_EVAL_IS_Q | K_EVAL_IS_BIN | K_EVAL_IS_STR | K_EVAL_IS_BOOL | K_EVAL_IS_VAR
  | K_EVAL_DT_CONSTRUCTORS | K_EVAL_DT_SELECTORS => 1
  | K_EVAL_IS_EQ | K_EVAL_EQ | K_EVAL_VAR | K_EVAL_COMPARE | K_EVAL_GT | K_EVAL_INT_DIV
  | K_EVAL_INT_MOD | K_EVAL_RAT_DIV | K_EVAL_TO_BIN | K_EVAL_FIND | K_EVAL_LIST_LENGTH
  | K_EVAL_LIST_REV | K_EVAL_LIST_SETOF | K_EVAL_LIST_SINGLETON_ELIM | K_EVAL_NIL => 2
  | K_EVAL_REQUIRES | K_EVAL_IF_THEN_ELSE | K_EVAL_EXTRACT | K_EVAL_CONS | K_EVAL_LIST_CONCAT
  | K_EVAL_LIST_NTH | K_EVAL_LIST_FIND | K_EVAL_LIST_ERASE | K_EVAL_LIST_ERASE_ALL
  | K_EVAL_LIST_MINCLUDE | K_EVAL_LIST_MEQ | K_EVAL_LIST_DIFF | K_EVAL_LIST_INTER => 3
  | _ => 0
  end.

(** Everywhere in a term. *)
Definition complete (t : term) : Prop :=
  forall k cs, occurs (Node k cs) t -> (needs k <= length cs)%nat.

(** In everything that belongs to a symbol or to a kind of literals; variables have complete
    types. *)
Record complete_env (E : env) : Prop := {
  ce_type : forall k i T, sym_kind k = true -> e_symtype E (Sym k i) = Some T -> complete T;
  ce_term : forall t ai c, e_info E t = Some ai -> ai_cterm ai = Some c -> complete c;
  ce_literal : forall k T, e_littype E k = Some T -> complete T;
  ce_variable : forall n T, twf T -> complete T -> complete (e_bvar E n T);
  ce_list : complete (e_listType E) /\ complete (e_listCons E) /\ complete (e_listNil E);
  ce_proof : complete (e_proofType E) }.
