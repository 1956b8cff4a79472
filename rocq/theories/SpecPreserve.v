(** Terms whose evaluation keeps their type. *)
From Coq Require Import ZArith List Bool.
From Verif Require Import Base Kind Literal Term SpecTerm SpecEval Typing SpecType.
Import ListNotations.

(** The declared types of literals do not mention the literal (eo::self). *)
Definition fixed_literals (E : env) : Prop := forall k tp, e_littype E k = Some tp -> closed tp.

(** Operators that compute literals: the type of an application is that of the first argument, Bool, or that of a category of
    literals. *)
Definition literal_op (k : kind) : Prop :=
  In k [K_EVAL_NOT; K_EVAL_AND; K_EVAL_OR; K_EVAL_XOR; K_EVAL_ADD; K_EVAL_NEG; K_EVAL_MUL; K_EVAL_CONCAT; K_EVAL_EXTRACT] \/
  exists ns o, op_signature k = Some (ns, o) /\ (o = OBool \/ exists c, o = OLit c).

(** A constant (not a parameter, not a program) with any number of arguments. *)
Inductive head : term -> Prop :=
| hd_symbol : forall k i, k <> K_PARAM -> k <> K_PROGRAM_CONST -> head (Sym k i)
| hd_apply : forall f xs, head f -> head (Node K_APPLY (f :: xs)).

(** Types without parameters and without anything to compute, and not asking for a quoted argument. *)
Definition simple_type (T : term) : Prop := twf T /\ closed T /\ inert T /\ tkind T <> K_QUOTE_TYPE.

Section Preserve.
Variable E : env.
Variable progs : term -> option (list pcase).
(** The programs that may be called. *)
Variable good : term -> Prop.

(** Parameters have values of their types. *)
Definition suits (s : sub) : Prop :=
  forall i v, s (Sym K_PARAM i) = Some v -> forall T, typed E progs (Sym K_PARAM i) T -> typed E progs v T.

(** Constants, parameters and literals; applications of constants that do not ask for a quoted argument; calls; function
    types; operators that compute literals, where division of bit-vectors is excluded; eo::ite with branches of the same
    types; eo::requires. *)
Inductive keeps (s : sub) : term -> Prop :=
| kp_leaf : forall t, tchildren t = [] -> keeps s t
| kp_apply : forall f xs, head f -> keeps s f -> Forall (keeps s) xs ->
    (forall fk hts ret, typed E progs f (Node fk (hts ++ [ret])) -> Forall (fun h => tkind h <> K_QUOTE_TYPE) hts) ->
    keeps s (Node K_APPLY (f :: xs))
| kp_call : forall i xs, good (Sym K_PROGRAM_CONST i) -> Forall (keeps s) xs -> keeps s (Node K_APPLY (Sym K_PROGRAM_CONST i :: xs))
| kp_arrow : forall cs, Forall (keeps s) cs -> keeps s (Node K_FUNCTION_TYPE cs)
| kp_op : forall k cs, literal_op k -> Forall (keeps s) cs ->
    (k = K_EVAL_INT_DIV \/ k = K_EVAL_INT_MOD -> forall a rest l, cs = a :: rest -> evaluates E progs s a (Lit l) -> lit_kind l = K_NUMERAL) ->
    keeps s (Node k cs)
| kp_ite : forall c a b, keeps s c -> keeps s a -> keeps s b -> (forall T, typed E progs a T <-> typed E progs b T) ->
    keeps s (Node K_EVAL_IF_THEN_ELSE [c; a; b])
| kp_requires : forall a b c, keeps s a -> keeps s b -> keeps s c -> keeps s (Node K_EVAL_REQUIRES [a; b; c]).

(** Patterns: [shape t T] is a constant applied to patterns, of type T; [arg t T] is a pattern for arguments of type T: a
    parameter declared with that type, a literal or a shape. *)
Inductive shape : term -> term -> Prop :=
| sh_const : forall k i T, k <> K_PARAM -> e_symtype E (Sym k i) = Some T -> shape (Sym k i) T
| sh_apply : forall f xs As R, shape f (Node K_FUNCTION_TYPE (As ++ [R])) -> args xs As -> Forall simple_type As -> simple_type R ->
    shape (Node K_APPLY (f :: xs)) R
with arg : term -> term -> Prop :=
| ar_param : forall i T, e_symtype E (Sym K_PARAM i) = Some T -> arg (Sym K_PARAM i) T
| ar_literal : forall l T, arg (Lit l) T
| ar_shape : forall t T, shape t T -> arg t T
with args : list term -> list term -> Prop :=
| as_nil : args [] []
| as_cons : forall t ts T Ts, arg t T -> args ts Ts -> args (t :: ts) (T :: Ts).

(** A program from simple types to a simple type: in every case the patterns are patterns for arguments of these types and the
    right-hand side has the result type and keeps its types. *)
Definition typed_program (hd : term) : Prop :=
  exists As R, e_symtype E hd = Some (Node K_PROGRAM_TYPE (As ++ [R])) /\ Forall simple_type As /\ simple_type R /\
  forall cases, progs hd = Some cases ->
    Forall (fun pc => args (fst pc) As /\ typed E progs (snd pc) R /\ forall s, suits s -> keeps s (snd pc)) cases.
End Preserve.
