(** Kinds and attributes. *)
From Coq Require Import NArith Bool List.
Import ListNotations.

(** Kind: src/kind.h 19-126 (enum class Kind), constructor for constructor. *)
Inductive kind : Type :=
| K_NONE
| K_TYPE
| K_FUNCTION_TYPE
| K_PROGRAM_TYPE
| K_BOOL_TYPE
| K_QUOTE_TYPE
| K_APPLY
| K_LAMBDA
| K_TUPLE
| K_PROGRAM
| K_AS
| K_AS_RETURN
| K_PARAMETERIZED
| K_APPLY_OPAQUE
| K_ANY
| K_PROOF
| K_PARAM
| K_CONST
| K_BUILTIN_CONST
| K_PROGRAM_CONST
| K_PROOF_RULE
| K_VARIABLE
| K_BOOLEAN
| K_NUMERAL
| K_DECIMAL
| K_RATIONAL
| K_HEXADECIMAL
| K_BINARY
| K_STRING
| K_EVAL_IS_OK
| K_EVAL_IS_EQ
| K_EVAL_IF_THEN_ELSE
| K_EVAL_REQUIRES
| K_EVAL_HASH
| K_EVAL_VAR
| K_EVAL_TYPE_OF
| K_EVAL_NAME_OF
| K_EVAL_COMPARE
| K_EVAL_IS_Z
| K_EVAL_IS_Q
| K_EVAL_IS_BIN
| K_EVAL_IS_STR
| K_EVAL_IS_BOOL
| K_EVAL_IS_VAR
| K_EVAL_EQ
| K_EVAL_NIL
| K_EVAL_CONS
| K_EVAL_LIST_LENGTH
| K_EVAL_LIST_CONCAT
| K_EVAL_LIST_NTH
| K_EVAL_LIST_FIND
| K_EVAL_LIST_ERASE
| K_EVAL_LIST_ERASE_ALL
| K_EVAL_LIST_REV
| K_EVAL_LIST_SETOF
| K_EVAL_LIST_MINCLUDE
| K_EVAL_LIST_MEQ
| K_EVAL_LIST_DIFF
| K_EVAL_LIST_INTER
| K_EVAL_LIST_SINGLETON_ELIM
| K_EVAL_NOT
| K_EVAL_AND
| K_EVAL_OR
| K_EVAL_XOR
| K_EVAL_ADD
| K_EVAL_NEG
| K_EVAL_MUL
| K_EVAL_INT_DIV
| K_EVAL_INT_MOD
| K_EVAL_RAT_DIV
| K_EVAL_IS_NEG
| K_EVAL_GT
| K_EVAL_LENGTH
| K_EVAL_CONCAT
| K_EVAL_EXTRACT
| K_EVAL_FIND
| K_EVAL_TO_INT
| K_EVAL_TO_RAT
| K_EVAL_TO_BIN
| K_EVAL_TO_STRING
| K_EVAL_DT_CONSTRUCTORS
| K_EVAL_DT_SELECTORS.

(** Position of a kind in the enumeration, src/kind.h 19-126.  Used only to
    decide equality of kinds. *)
Definition kind_num (k : kind) : N :=
  match k with
  | K_NONE => 0%N
  | K_TYPE => 1%N
  | K_FUNCTION_TYPE => 2%N
  | K_PROGRAM_TYPE => 3%N
  | K_BOOL_TYPE => 4%N
  | K_QUOTE_TYPE => 5%N
  | K_APPLY => 6%N
  | K_LAMBDA => 7%N
  | K_TUPLE => 8%N
  | K_PROGRAM => 9%N
  | K_AS => 10%N
  | K_AS_RETURN => 11%N
  | K_PARAMETERIZED => 12%N
  | K_APPLY_OPAQUE => 13%N
  | K_ANY => 14%N
  | K_PROOF => 15%N
  | K_PARAM => 16%N
  | K_CONST => 17%N
  | K_BUILTIN_CONST => 18%N
  | K_PROGRAM_CONST => 19%N
  | K_PROOF_RULE => 20%N
  | K_VARIABLE => 21%N
  | K_BOOLEAN => 22%N
  | K_NUMERAL => 23%N
  | K_DECIMAL => 24%N
  | K_RATIONAL => 25%N
  | K_HEXADECIMAL => 26%N
  | K_BINARY => 27%N
  | K_STRING => 28%N
  | K_EVAL_IS_OK => 29%N
  | K_EVAL_IS_EQ => 30%N
  | K_EVAL_IF_THEN_ELSE => 31%N
  | K_EVAL_REQUIRES => 32%N
  | K_EVAL_HASH => 33%N
  | K_EVAL_VAR => 34%N
  | K_EVAL_TYPE_OF => 35%N
  | K_EVAL_NAME_OF => 36%N
  | K_EVAL_COMPARE => 37%N
  | K_EVAL_IS_Z => 38%N
  | K_EVAL_IS_Q => 39%N
  | K_EVAL_IS_BIN => 40%N
  | K_EVAL_IS_STR => 41%N
  | K_EVAL_IS_BOOL => 42%N
  | K_EVAL_IS_VAR => 43%N
  | K_EVAL_EQ => 44%N
  | K_EVAL_NIL => 45%N
  | K_EVAL_CONS => 46%N
  | K_EVAL_LIST_LENGTH => 47%N
  | K_EVAL_LIST_CONCAT => 48%N
  | K_EVAL_LIST_NTH => 49%N
  | K_EVAL_LIST_FIND => 50%N
  | K_EVAL_LIST_ERASE => 51%N
  | K_EVAL_LIST_ERASE_ALL => 52%N
  | K_EVAL_LIST_REV => 53%N
  | K_EVAL_LIST_SETOF => 54%N
  | K_EVAL_LIST_MINCLUDE => 55%N
  | K_EVAL_LIST_MEQ => 56%N
  | K_EVAL_LIST_DIFF => 57%N
  | K_EVAL_LIST_INTER => 58%N
  | K_EVAL_LIST_SINGLETON_ELIM => 59%N
  | K_EVAL_NOT => 60%N
  | K_EVAL_AND => 61%N
  | K_EVAL_OR => 62%N
  | K_EVAL_XOR => 63%N
  | K_EVAL_ADD => 64%N
  | K_EVAL_NEG => 65%N
  | K_EVAL_MUL => 66%N
  | K_EVAL_INT_DIV => 67%N
  | K_EVAL_INT_MOD => 68%N
  | K_EVAL_RAT_DIV => 69%N
  | K_EVAL_IS_NEG => 70%N
  | K_EVAL_GT => 71%N
  | K_EVAL_LENGTH => 72%N
  | K_EVAL_CONCAT => 73%N
  | K_EVAL_EXTRACT => 74%N
  | K_EVAL_FIND => 75%N
  | K_EVAL_TO_INT => 76%N
  | K_EVAL_TO_RAT => 77%N
  | K_EVAL_TO_BIN => 78%N
  | K_EVAL_TO_STRING => 79%N
  | K_EVAL_DT_CONSTRUCTORS => 80%N
  | K_EVAL_DT_SELECTORS => 81%N
  end.

(** The list of kinds in the order of src/kind.h 19-126. *)
Definition all_kinds : list kind :=
  [K_NONE; K_TYPE; K_FUNCTION_TYPE; K_PROGRAM_TYPE; K_BOOL_TYPE; K_QUOTE_TYPE; K_APPLY; K_LAMBDA; K_TUPLE; K_PROGRAM; K_AS; K_AS_RETURN; K_PARAMETERIZED; K_APPLY_OPAQUE; K_ANY; K_PROOF; K_PARAM; K_CONST; K_BUILTIN_CONST; K_PROGRAM_CONST; K_PROOF_RULE; K_VARIABLE; K_BOOLEAN; K_NUMERAL; K_DECIMAL; K_RATIONAL; K_HEXADECIMAL; K_BINARY; K_STRING; K_EVAL_IS_OK; K_EVAL_IS_EQ; K_EVAL_IF_THEN_ELSE; K_EVAL_REQUIRES; K_EVAL_HASH; K_EVAL_VAR; K_EVAL_TYPE_OF; K_EVAL_NAME_OF; K_EVAL_COMPARE; K_EVAL_IS_Z; K_EVAL_IS_Q; K_EVAL_IS_BIN; K_EVAL_IS_STR; K_EVAL_IS_BOOL; K_EVAL_IS_VAR; K_EVAL_EQ; K_EVAL_NIL; K_EVAL_CONS; K_EVAL_LIST_LENGTH; K_EVAL_LIST_CONCAT; K_EVAL_LIST_NTH; K_EVAL_LIST_FIND; K_EVAL_LIST_ERASE; K_EVAL_LIST_ERASE_ALL; K_EVAL_LIST_REV; K_EVAL_LIST_SETOF; K_EVAL_LIST_MINCLUDE; K_EVAL_LIST_MEQ; K_EVAL_LIST_DIFF; K_EVAL_LIST_INTER; K_EVAL_LIST_SINGLETON_ELIM; K_EVAL_NOT; K_EVAL_AND; K_EVAL_OR; K_EVAL_XOR; K_EVAL_ADD; K_EVAL_NEG; K_EVAL_MUL; K_EVAL_INT_DIV; K_EVAL_INT_MOD; K_EVAL_RAT_DIV; K_EVAL_IS_NEG; K_EVAL_GT; K_EVAL_LENGTH; K_EVAL_CONCAT; K_EVAL_EXTRACT; K_EVAL_FIND; K_EVAL_TO_INT; K_EVAL_TO_RAT; K_EVAL_TO_BIN; K_EVAL_TO_STRING; K_EVAL_DT_CONSTRUCTORS; K_EVAL_DT_SELECTORS].

(** Comparison of two kinds ([==] on the enumeration, src/kind.h 19). *)
Definition kind_eqb (a b : kind) : bool := N.eqb (kind_num a) (kind_num b).

Lemma kind_of_num : forall k, nth (N.to_nat (kind_num k)) all_kinds K_NONE = k.
Proof. destruct k; reflexivity. Qed.

Lemma kind_eqb_eq : forall a b, kind_eqb a b = true <-> a = b.
Proof.
  intros a b; unfold kind_eqb; rewrite N.eqb_eq; split; intros H.
  - rewrite <- (kind_of_num a), <- (kind_of_num b), H; reflexivity.
  - subst; reflexivity.
Qed.

Lemma kind_eqb_refl : forall a, kind_eqb a a = true.
Proof. intros; apply kind_eqb_eq; reflexivity. Qed.

Lemma kind_eqb_neq : forall a b, kind_eqb a b = false <-> a <> b.
Proof.
  intros a b; rewrite <- kind_eqb_eq; destruct (kind_eqb a b); intuition congruence.
Qed.

Definition kind_eq_dec (a b : kind) : {a = b} + {a <> b}.
Proof.
  destruct (kind_eqb a b) eqn:E.
  - left; apply kind_eqb_eq; exact E.
  - right; apply kind_eqb_neq; exact E.
Defined.

(** isSymbol: src/kind.cpp 218-230. *)
Definition isSymbol (k : kind) : bool :=
  match k with
  | K_PARAM | K_CONST | K_PROGRAM_CONST | K_PROOF_RULE | K_VARIABLE => true
  | _ => false
  end.

(** isLiteral: src/kind.cpp 231-245. *)
Definition isLiteral (k : kind) : bool :=
  match k with
  | K_BOOLEAN | K_NUMERAL | K_DECIMAL | K_RATIONAL | K_HEXADECIMAL | K_BINARY | K_STRING => true
  | _ => false
  end.

(** isLiteralOp: src/kind.cpp 246-313. *)
Definition isLiteralOp (k : kind) : bool :=
  match k with
  | K_EVAL_IS_OK | K_EVAL_IS_EQ | K_EVAL_IF_THEN_ELSE | K_EVAL_REQUIRES | K_EVAL_HASH | K_EVAL_VAR | K_EVAL_TYPE_OF | K_EVAL_NAME_OF | K_EVAL_COMPARE | K_EVAL_IS_Z | K_EVAL_IS_Q | K_EVAL_IS_BIN | K_EVAL_IS_STR | K_EVAL_IS_BOOL | K_EVAL_IS_VAR | K_EVAL_EQ | K_EVAL_NIL | K_EVAL_CONS | K_EVAL_LIST_LENGTH | K_EVAL_LIST_CONCAT | K_EVAL_LIST_NTH | K_EVAL_LIST_FIND | K_EVAL_LIST_ERASE | K_EVAL_LIST_ERASE_ALL | K_EVAL_LIST_REV | K_EVAL_LIST_SETOF | K_EVAL_LIST_MINCLUDE | K_EVAL_LIST_MEQ | K_EVAL_LIST_DIFF | K_EVAL_LIST_INTER | K_EVAL_LIST_SINGLETON_ELIM | K_EVAL_NOT | K_EVAL_AND | K_EVAL_OR | K_EVAL_XOR | K_EVAL_ADD | K_EVAL_NEG | K_EVAL_MUL | K_EVAL_INT_DIV | K_EVAL_INT_MOD | K_EVAL_RAT_DIV | K_EVAL_IS_NEG | K_EVAL_GT | K_EVAL_LENGTH | K_EVAL_CONCAT | K_EVAL_EXTRACT | K_EVAL_FIND | K_EVAL_TO_INT | K_EVAL_TO_RAT | K_EVAL_TO_BIN | K_EVAL_TO_STRING | K_EVAL_DT_CONSTRUCTORS | K_EVAL_DT_SELECTORS => true
  | _ => false
  end.

(** isNaryLiteralOp: src/kind.cpp 315-328. *)
Definition isNaryLiteralOp (k : kind) : bool :=
  match k with
  | K_EVAL_ADD | K_EVAL_MUL | K_EVAL_AND | K_EVAL_OR | K_EVAL_XOR | K_EVAL_CONCAT => true
  | _ => false
  end.

(** isListLiteralOp: src/kind.cpp 330-353. *)
Definition isListLiteralOp (k : kind) : bool :=
  match k with
  | K_EVAL_NIL | K_EVAL_CONS | K_EVAL_LIST_LENGTH | K_EVAL_LIST_CONCAT | K_EVAL_LIST_NTH | K_EVAL_LIST_FIND | K_EVAL_LIST_ERASE | K_EVAL_LIST_ERASE_ALL | K_EVAL_LIST_REV | K_EVAL_LIST_SETOF | K_EVAL_LIST_MINCLUDE | K_EVAL_LIST_MEQ | K_EVAL_LIST_DIFF | K_EVAL_LIST_INTER | K_EVAL_LIST_SINGLETON_ELIM => true
  | _ => false
  end.

(** Attr: src/attr.h 19-64 (enum class Attr). *)
Inductive attr : Type :=
| A_NONE
| A_IMPLICIT
| A_TYPE
| A_SORRY
| A_LIST
| A_PROGRAM
| A_BINDER
| A_LET_BINDER
| A_OPAQUE
| A_SYNTAX
| A_RESTRICT
| A_PROOF_RULE
| A_RIGHT_ASSOC
| A_LEFT_ASSOC
| A_RIGHT_ASSOC_NIL
| A_LEFT_ASSOC_NIL
| A_RIGHT_ASSOC_NS_NIL
| A_LEFT_ASSOC_NS_NIL
| A_CHAINABLE
| A_PAIRWISE
| A_ARG_LIST
| A_AMB
| A_DATATYPE
| A_DATATYPE_CONSTRUCTOR
| A_AMB_DATATYPE_CONSTRUCTOR.

(** Position in the enumeration, src/attr.h 19-64; used to decide equality. *)
Definition attr_num (k : attr) : N :=
  match k with
  | A_NONE => 0%N
  | A_IMPLICIT => 1%N
  | A_TYPE => 2%N
  | A_SORRY => 3%N
  | A_LIST => 4%N
  | A_PROGRAM => 5%N
  | A_BINDER => 6%N
  | A_LET_BINDER => 7%N
  | A_OPAQUE => 8%N
  | A_SYNTAX => 9%N
  | A_RESTRICT => 10%N
  | A_PROOF_RULE => 11%N
  | A_RIGHT_ASSOC => 12%N
  | A_LEFT_ASSOC => 13%N
  | A_RIGHT_ASSOC_NIL => 14%N
  | A_LEFT_ASSOC_NIL => 15%N
  | A_RIGHT_ASSOC_NS_NIL => 16%N
  | A_LEFT_ASSOC_NS_NIL => 17%N
  | A_CHAINABLE => 18%N
  | A_PAIRWISE => 19%N
  | A_ARG_LIST => 20%N
  | A_AMB => 21%N
  | A_DATATYPE => 22%N
  | A_DATATYPE_CONSTRUCTOR => 23%N
  | A_AMB_DATATYPE_CONSTRUCTOR => 24%N
  end.

(** The list of attributes in the order of src/attr.h 19-64. *)
Definition all_attrs : list attr :=
  [A_NONE; A_IMPLICIT; A_TYPE; A_SORRY; A_LIST; A_PROGRAM; A_BINDER; A_LET_BINDER; A_OPAQUE; A_SYNTAX; A_RESTRICT; A_PROOF_RULE; A_RIGHT_ASSOC; A_LEFT_ASSOC; A_RIGHT_ASSOC_NIL; A_LEFT_ASSOC_NIL; A_RIGHT_ASSOC_NS_NIL; A_LEFT_ASSOC_NS_NIL; A_CHAINABLE; A_PAIRWISE; A_ARG_LIST; A_AMB; A_DATATYPE; A_DATATYPE_CONSTRUCTOR; A_AMB_DATATYPE_CONSTRUCTOR].

(** Comparison of two attributes, src/attr.h 19. *)
Definition attr_eqb (a b : attr) : bool := N.eqb (attr_num a) (attr_num b).

Lemma attr_of_num : forall k, nth (N.to_nat (attr_num k)) all_attrs A_NONE = k.
Proof. destruct k; reflexivity. Qed.

Lemma attr_eqb_eq : forall a b, attr_eqb a b = true <-> a = b.
Proof.
  intros a b; unfold attr_eqb; rewrite N.eqb_eq; split; intros H.
  - rewrite <- (attr_of_num a), <- (attr_of_num b), H; reflexivity.
  - subst; reflexivity.
Qed.

Lemma attr_eqb_refl : forall a, attr_eqb a a = true.
Proof. intros; apply attr_eqb_eq; reflexivity. Qed.

(** isNAryAttr: src/attr.cpp 47-64. *)
Definition isNAryAttr (k : attr) : bool :=
  match k with
  | A_LEFT_ASSOC | A_RIGHT_ASSOC | A_LEFT_ASSOC_NIL | A_RIGHT_ASSOC_NIL | A_RIGHT_ASSOC_NS_NIL | A_LEFT_ASSOC_NS_NIL | A_CHAINABLE | A_PAIRWISE | A_ARG_LIST => true
  | _ => false
  end.

(** isListNilAttr: src/attr.cpp 66-77. *)
Definition isListNilAttr (k : attr) : bool :=
  match k with
  | A_LEFT_ASSOC_NIL | A_RIGHT_ASSOC_NIL | A_RIGHT_ASSOC_NS_NIL | A_LEFT_ASSOC_NS_NIL => true
  | _ => false
  end.

(** isConstructorKindAttr: src/attr.cpp 79-82. *)
Definition isConstructorKindAttr (a : attr) : bool :=
  isNAryAttr a || attr_eqb a A_BINDER || attr_eqb a A_LET_BINDER || attr_eqb a A_LIST.
