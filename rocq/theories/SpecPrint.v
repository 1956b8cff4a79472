(** How terms are printed: the recursive account. *)
From Coq Require Import String ZArith List Bool.
From Verif Require Import Base Kind Ints Str Literal Arity Term Match Eval ListOps Typing Lexer SpecLex.
Import ListNotations.
Open Scope Z_scope.

(** ** Texts as trees *)
(** A word, or a list in parentheses whose elements are separated by one space. *)
Inductive px : Type := PA (s : text) | PL (xs : list px).
Fixpoint spaced (ss : list text) : text :=
  match ss with
  | [] => []
  | [s] => s
  | s :: ss' => s ++ [32] ++ spaced ss'
  end.
Fixpoint render (x : px) : text :=
  match x with
  | PA s => s
  | PL xs => [40] ++ spaced (map render xs) ++ [41]
  end.
Definition word (s : string) : px := PA (txt s).

(** ** Names *)
(** Simple symbols of SMT-LIB. *)
Definition simple_char (c : Z) : Prop := In c letters \/ In c digits \/ In c (txt "~!@$%^&*_-+=<>.?/").
Definition simple (n : text) : Prop :=
  match n with [] => False | c :: _ => ~ In c digits /\ Forall simple_char n end.
(** Bars and backslashes cannot be written between bars. *)
Definition barred (c d : Z) : Prop := if (c =? 124) || (c =? 92) then d = 95 else d = c.
Inductive written_name : text -> text -> Prop :=
| wn_eo : forall n, written_name (txt "eo::" ++ n) (txt "eo::" ++ n)
| wn_simple : forall n, simple n -> written_name n n
| wn_stripped : forall n m, Forall2 barred n m -> written_name (124 :: n ++ [124]) (124 :: m ++ [124])
| wn_quoted : forall n m, ~ simple n -> (forall r, n <> txt "eo::" ++ r) -> (forall r, n <> 124 :: r ++ [124]) ->
    Forall2 barred n m -> written_name n (124 :: m ++ [124]).

(** The names whose printed words are read as these names. *)
Inductive readable (ll lt : bool) : text -> Prop :=
| rn_simple : forall n, simple n -> (forall t, ~ negative n t) -> (forall t, ~ reserved ll lt n t) -> readable ll lt n
| rn_eo : forall r, Forall sym_char r -> r <> txt "define" -> readable ll lt (txt "eo::" ++ r)
| rn_quoted : forall n, ~ simple n -> (forall r, n <> txt "eo::" ++ r) -> ~ In 124 n -> ~ In 92 n -> readable ll lt n.
(** What follows a word. *)
Definition delimited (rest : text) : Prop := match rest with [] => True | c :: _ => In c (32 :: 40 :: 41 :: spaces) end.

(** ** The words of kinds *)
Definition operator_names : list (kind * string) :=
  [(K_EVAL_IS_OK, "is_ok"); (K_EVAL_IS_EQ, "is_eq"); (K_EVAL_IF_THEN_ELSE, "ite"); (K_EVAL_REQUIRES, "requires");
   (K_EVAL_HASH, "hash"); (K_EVAL_VAR, "var"); (K_EVAL_TYPE_OF, "typeof"); (K_EVAL_NAME_OF, "nameof");
   (K_EVAL_COMPARE, "cmp"); (K_EVAL_IS_Z, "is_z"); (K_EVAL_IS_Q, "is_q"); (K_EVAL_IS_BIN, "is_bin");
   (K_EVAL_IS_STR, "is_str"); (K_EVAL_IS_BOOL, "is_bool"); (K_EVAL_IS_VAR, "is_var"); (K_EVAL_EQ, "eq");
   (K_EVAL_NIL, "nil"); (K_EVAL_CONS, "cons"); (K_EVAL_LIST_LENGTH, "list_len"); (K_EVAL_LIST_CONCAT, "list_concat");
   (K_EVAL_LIST_NTH, "list_nth"); (K_EVAL_LIST_FIND, "list_find"); (K_EVAL_LIST_ERASE, "list_erase");
   (K_EVAL_LIST_ERASE_ALL, "list_erase_all"); (K_EVAL_LIST_REV, "list_rev"); (K_EVAL_LIST_SETOF, "list_setof");
   (K_EVAL_LIST_MINCLUDE, "list_minclude"); (K_EVAL_LIST_MEQ, "list_meq"); (K_EVAL_LIST_DIFF, "list_diff");
   (K_EVAL_LIST_INTER, "list_inter"); (K_EVAL_LIST_SINGLETON_ELIM, "list_singleton_elim"); (K_EVAL_NOT, "not");
   (K_EVAL_AND, "and"); (K_EVAL_OR, "or"); (K_EVAL_XOR, "xor"); (K_EVAL_ADD, "add"); (K_EVAL_NEG, "neg");
   (K_EVAL_MUL, "mul"); (K_EVAL_INT_DIV, "zdiv"); (K_EVAL_INT_MOD, "zmod"); (K_EVAL_RAT_DIV, "qdiv");
   (K_EVAL_IS_NEG, "is_neg"); (K_EVAL_GT, "gt"); (K_EVAL_LENGTH, "len"); (K_EVAL_CONCAT, "concat");
   (K_EVAL_EXTRACT, "extract"); (K_EVAL_FIND, "find"); (K_EVAL_TO_INT, "to_z"); (K_EVAL_TO_RAT, "to_q");
   (K_EVAL_TO_BIN, "to_bin"); (K_EVAL_TO_STRING, "to_str"); (K_EVAL_DT_CONSTRUCTORS, "dt_constructors");
   (K_EVAL_DT_SELECTORS, "dt_selectors")]%string.
Definition other_names : list (kind * string) :=
  [(K_TYPE, "Type"); (K_BOOL_TYPE, "Bool"); (K_FUNCTION_TYPE, "->"); (K_PROGRAM_TYPE, "eo::arrow");
   (K_QUOTE_TYPE, "eo::quote"); (K_TUPLE, "eo::tuple"); (K_APPLY, "_"); (K_APPLY_OPAQUE, "_"); (K_ANY, "eo::?");
   (K_LAMBDA, "lambda"); (K_PROGRAM, "program"); (K_AS, "eo::as"); (K_AS_RETURN, "as");
   (K_PARAMETERIZED, "eo::_"); (K_PROOF, "eo::pf"); (K_NONE, "[NONE]");
   (K_PARAM, "[PARAM]"); (K_CONST, "[CONST]"); (K_BUILTIN_CONST, "[BUILTIN_CONST]"); (K_PROGRAM_CONST, "[PROGRAM_CONST]");
   (K_PROOF_RULE, "[PROOF_RULE]"); (K_VARIABLE, "[VARIABLE]"); (K_BOOLEAN, "[BOOLEAN]"); (K_NUMERAL, "[NUMERAL]");
   (K_DECIMAL, "[DECIMAL]"); (K_RATIONAL, "[RATIONAL]"); (K_HEXADECIMAL, "[HEXADECIMAL]"); (K_BINARY, "[BINARY]");
   (K_STRING, "[STRING]")]%string.
Inductive kind_word : kind -> text -> Prop :=
| kw_operator : forall k s, In (k, s) operator_names -> kind_word k (txt "eo::" ++ txt s)
| kw_other : forall k s, In (k, s) other_names -> kind_word k (txt s).

(** ** Terms *)
Section Written.
Variable E : env.

(** The terms printed inside of a term: for a variable, its type. *)
Inductive parts : term -> list term -> Prop :=
| pt_var : forall i T, e_symtype E (Sym K_VARIABLE i) = Some T -> parts (Sym K_VARIABLE i) [T]
| pt_sym : forall k i, k <> K_VARIABLE -> parts (Sym k i) []
| pt_lit : forall l, parts (Lit l) []
| pt_node : forall k cs, k <> K_VARIABLE -> parts (Node k cs) cs.

(** Terms without parts. *)
Inductive written_leaf : term -> px -> Prop :=
| wl_sym : forall k i w, isSymbol k = true -> k <> K_VARIABLE -> written_name (e_name E (Sym k i)) w ->
    written_leaf (Sym k i) (PA w)
| wl_builtin : forall k i, isSymbol k = false -> written_leaf (Sym k i) (PA (e_name E (Sym k i)))
| wl_bool : forall b, written_leaf (Lit (LBool b)) (word (if b then "true" else "false")%string)
| wl_num : forall z, written_leaf (Lit (LNum z)) (PA (lit_toString (LNum z)))
| wl_rat : forall q, written_leaf (Lit (LRat q)) (PA (lit_toString (LRat q)))
| wl_dec : forall q, written_leaf (Lit (LDec q)) (PL [word "!"; PA (lit_toString (LDec q)); word ":decimal"])
| wl_hex : forall b, written_leaf (Lit (LHex b)) (PA (txt "#x" ++ lit_toString (LHex b)))
| wl_bin : forall b, bv_size b <> 0 -> written_leaf (Lit (LBin b)) (PA (txt "#b" ++ lit_toString (LBin b)))
| wl_empty_bin : forall b, bv_size b = 0 -> written_leaf (Lit (LBin b)) (PL [word "eo::to_bin"; word "0"; word "0"])
| wl_str : forall s, written_leaf (Lit (LStr s)) (PA ([34] ++ lit_toString (LStr s) ++ [34]))
| wl_kind : forall k w, kind_word k w -> written_leaf (Node k []) (PA w).

(** The word before the parts of an application. *)
Inductive head_word : kind -> term -> list px -> Prop :=
| hw_apply : forall f, tchildren f = [] -> head_word K_APPLY f []
| hw_apply2 : forall f, tchildren f <> [] -> head_word K_APPLY f [word "_"]
| hw_opaque : forall f, getConstructorKind E f <> A_AMB -> getConstructorKind E f <> A_AMB_DATATYPE_CONSTRUCTOR ->
    head_word K_APPLY_OPAQUE f []
| hw_as : forall f, getConstructorKind E f = A_AMB \/ getConstructorKind E f = A_AMB_DATATYPE_CONSTRUCTOR ->
    head_word K_APPLY_OPAQUE f [word "as"]
| hw_kind : forall k f w, k <> K_APPLY -> k <> K_APPLY_OPAQUE -> kind_word k w -> head_word k f [PA w].

(** [written lb t x us]: where some terms are abbreviated by words, [t] is written [x], and
    [us] are the compound terms that are written out in it. *)
Section Abbreviated.
Variable lb : term -> option text.
Inductive written : term -> px -> list term -> Prop :=
| wr_word : forall t w, lb t = Some w -> written t (PA w) []
| wr_leaf : forall t x, lb t = None -> parts t [] -> written_leaf t x -> written t x []
| wr_var : forall i T x us, lb (Sym K_VARIABLE i) = None -> e_symtype E (Sym K_VARIABLE i) = Some T -> written T x us ->
    written (Sym K_VARIABLE i) (PL [word "eo::var"; PA ([34] ++ e_name E (Sym K_VARIABLE i) ++ [34]); x])
      (Sym K_VARIABLE i :: us)
| wr_node : forall k c cs h xs us, lb (Node k (c :: cs)) = None -> parts (Node k (c :: cs)) (c :: cs) ->
    head_word k c h -> written_list (c :: cs) xs us -> written (Node k (c :: cs)) (PL (h ++ xs)) (Node k (c :: cs) :: us)
with written_list : list term -> list px -> list term -> Prop :=
| wr_nil : written_list [] [] []
| wr_cons : forall t x us ts xs vs, written t x us -> written_list ts xs vs -> written_list (t :: ts) (x :: xs) (us ++ vs).
End Abbreviated.
(** Without abbreviations. *)
Definition plainly (t : term) (x : px) : Prop := exists us, written (fun _ => None) t x us.

(** Compound terms in a term. *)
Definition compound (t : term) : Prop := exists c cs, parts t (c :: cs).
Inductive within : term -> term -> Prop :=
| wi_refl : forall t, within t t
| wi_part : forall t cs c u, parts t cs -> In c cs -> within u c -> within u t.
End Written.

(** ** Definitions of shared terms *)
(** (eo::define ((v x)) ... b): later definitions and the body see the earlier names. *)
Fixpoint defining (ds : list (text * px)) (b : px) : px :=
  match ds with
  | [] => b
  | (v, x) :: ds' => PL [word "eo::define"; PL [PL [PA v; x]]; defining ds' b]
  end.
(** Replacing words, and the text that definitions stand for. *)
Fixpoint assoc {A : Type} (r : list (text * A)) (s : text) : option A :=
  match r with
  | [] => None
  | (v, x) :: r' => if text_eqb v s then Some x else assoc r' s
  end.
Fixpoint replaced (r : list (text * px)) (x : px) : px :=
  match x with
  | PA s => match assoc r s with Some y => y | None => PA s end
  | PL xs => PL (map (replaced r) xs)
  end.
Fixpoint expanded (r : list (text * px)) (ds : list (text * px)) (b : px) : px :=
  match ds with
  | [] => replaced r b
  | (v, x) :: ds' => expanded ((v, replaced r x) :: r) ds' b
  end.
Fixpoint px_words (x : px) : list text :=
  match x with PA s => [s] | PL xs => flat_map px_words xs end.
(** The i-th name. *)
Definition let_name (i : nat) : text := txt "_v" ++ int_toString 10 (Z.of_nat i).
(** The terms of a list are abbreviated by the names from the i-th on. *)
Fixpoint naming (i : nat) (ls : list term) (t : term) : option text :=
  match ls with
  | [] => None
  | l :: ls' => if term_eqb l t then Some (let_name i) else naming (S i) ls' t
  end.
(** [defined E pre ls ds us]: after the terms [pre] the terms [ls] are named, [ds] are their
    definitions, in which the terms before are abbreviated, and [us] are the compound terms
    that are written out in these. *)
Inductive defined (E : env) : list term -> list term -> list (text * px) -> list term -> Prop :=
| de_nil : forall pre, defined E pre [] [] []
| de_cons : forall pre l ls x us ds vs, written E (naming 0 pre) l x us -> defined E (pre ++ [l]) ls ds vs ->
    defined E pre (l :: ls) ((let_name (length pre), x) :: ds) (us ++ vs).
(** [t] is written with definitions of [ls]; [us] is what is written out. *)
Definition written_shared (E : env) (t : term) (ls : list term) (ds : list (text * px)) (b : px) (us : list term) : Prop :=
  exists us1 us2, defined E [] ls ds us1 /\ written E (naming 0 ls) t b us2 /\ us = us1 ++ us2.
