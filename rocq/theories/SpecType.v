(** Specification of the type system: typing rules as an inductive relation,
    without order of traversal, matching context, caches or bounds. *)
From Coq Require Import ZArith List Bool.
From Verif Require Import Base Kind Literal Term Match SpecTerm SpecEval Typing.
Import ListNotations.

Definition ty_type : term := Node K_TYPE [].
Definition ty_bool : term := Node K_BOOL_TYPE [].
Definition ty_any : term := Node K_ANY [].
(** (-> t1 ... tn r), one argument at a time. *)
Fixpoint arrows (ts : list term) (r : term) : term :=
  match ts with [] => r | t :: ts' => Node K_FUNCTION_TYPE [t; arrows ts' r] end.

(** What the type of an application of an eo:: operator is: Type, Bool,
    eo::List, an argument, the type of an argument, or the type of the literals
    of a category (user_manual.md 900-1200). *)
Inductive optype := OType | OBool | OList | OArg (i : nat) | OArgType (i : nat) | OLit (k : kind).
(** The admissible numbers of arguments and the result. *)
Definition op_signature (k : kind) : option (list nat * optype) :=
  match k with
  | K_EVAL_IS_OK => Some ([1]%nat, OBool)
  | K_EVAL_IS_EQ => Some ([2]%nat, OBool)
  | K_EVAL_IF_THEN_ELSE => Some ([3]%nat, OArgType 1%nat)
  | K_EVAL_REQUIRES => Some ([3]%nat, OArgType 2%nat)
  | K_EVAL_HASH => Some ([1]%nat, OLit K_NUMERAL)
  | K_EVAL_VAR => Some ([2]%nat, OArg 1%nat)
  | K_EVAL_TYPE_OF => Some ([1]%nat, OType)
  | K_EVAL_NAME_OF => Some ([1]%nat, OLit K_STRING)
  | K_EVAL_COMPARE => Some ([2]%nat, OBool)
  | K_EVAL_IS_Z => Some ([1]%nat, OBool)
  | K_EVAL_IS_Q => Some ([1]%nat, OBool)
  | K_EVAL_IS_BIN => Some ([1]%nat, OBool)
  | K_EVAL_IS_STR => Some ([1]%nat, OBool)
  | K_EVAL_IS_BOOL => Some ([1]%nat, OBool)
  | K_EVAL_IS_VAR => Some ([1]%nat, OBool)
  | K_EVAL_EQ => Some ([2]%nat, OBool)
  | K_EVAL_NIL => Some ([2]%nat, OArg 1%nat)
  | K_EVAL_CONS => Some ([3]%nat, OArgType 1%nat)
  | K_EVAL_LIST_LENGTH => Some ([2]%nat, OLit K_NUMERAL)
  | K_EVAL_LIST_CONCAT => Some ([3]%nat, OArgType 1%nat)
  | K_EVAL_LIST_NTH => Some ([3]%nat, OArgType 1%nat)
  | K_EVAL_LIST_FIND => Some ([3]%nat, OLit K_NUMERAL)
  | K_EVAL_LIST_ERASE => Some ([3]%nat, OArgType 1%nat)
  | K_EVAL_LIST_ERASE_ALL => Some ([3]%nat, OArgType 1%nat)
  | K_EVAL_LIST_REV => Some ([2]%nat, OArgType 1%nat)
  | K_EVAL_LIST_SETOF => Some ([2]%nat, OArgType 1%nat)
  | K_EVAL_LIST_MINCLUDE => Some ([3]%nat, OBool)
  | K_EVAL_LIST_MEQ => Some ([3]%nat, OBool)
  | K_EVAL_LIST_DIFF => Some ([3]%nat, OArgType 1%nat)
  | K_EVAL_LIST_INTER => Some ([3]%nat, OArgType 1%nat)
  | K_EVAL_LIST_SINGLETON_ELIM => Some ([2]%nat, OArgType 1%nat)
  | K_EVAL_NOT => Some ([1]%nat, OArgType 0%nat)
  | K_EVAL_AND => Some ([2]%nat, OArgType 0%nat)
  | K_EVAL_OR => Some ([2]%nat, OArgType 0%nat)
  | K_EVAL_XOR => Some ([2]%nat, OArgType 0%nat)
  | K_EVAL_ADD => Some ([2]%nat, OArgType 0%nat)
  | K_EVAL_NEG => Some ([1]%nat, OArgType 0%nat)
  | K_EVAL_MUL => Some ([2]%nat, OArgType 0%nat)
  | K_EVAL_INT_DIV => Some ([2]%nat, OLit K_NUMERAL)
  | K_EVAL_INT_MOD => Some ([2]%nat, OLit K_NUMERAL)
  | K_EVAL_RAT_DIV => Some ([2]%nat, OLit K_RATIONAL)
  | K_EVAL_IS_NEG => Some ([1]%nat, OBool)
  | K_EVAL_GT => Some ([2]%nat, OBool)
  | K_EVAL_LENGTH => Some ([1]%nat, OLit K_NUMERAL)
  | K_EVAL_CONCAT => Some ([2]%nat, OArgType 0%nat)
  | K_EVAL_EXTRACT => Some ([2; 3]%nat, OArgType 0%nat)
  | K_EVAL_FIND => Some ([2]%nat, OLit K_NUMERAL)
  | K_EVAL_TO_INT => Some ([1]%nat, OLit K_NUMERAL)
  | K_EVAL_TO_RAT => Some ([1]%nat, OLit K_RATIONAL)
  | K_EVAL_TO_BIN => Some ([2]%nat, OLit K_BINARY)
  | K_EVAL_TO_STRING => Some ([1]%nat, OLit K_STRING)
  | K_EVAL_DT_CONSTRUCTORS => Some ([1]%nat, OList)
  | K_EVAL_DT_SELECTORS => Some ([1]%nat, OList)
  | _ => None
  end.

(** A type must not be stuck: without parameters there is nothing left to
    compute in it. *)
Definition settled (T : term) : Prop := closed T -> inert T.

Section SpecType.
(** The declared types of symbols and literals, the parameter that stands for the
    literal in the latter, and the types of proofs and of lists. *)
Variable symtype : term -> option term.
Variable littype : kind -> option term.
Variables self proofType listType : term.
(** Evaluation: [EV s t r]. *)
Variable EV : sub -> term -> term -> Prop.

(** The type of a literal of category [k]; [x] is the literal. *)
Definition literal_type (k : kind) (x T : term) : Prop :=
  match littype k with
  | None => T = ty_any
  | Some tp => (closed tp /\ T = tp) \/
      (~ closed tp /\ EV (fun p => if term_eqb self p then Some x else None) tp T)
  end.

(** [t] instantiates the pattern [p]. *)
Definition fits (s : sub) (p t : term) : Prop :=
  no_any p /\ tsubst s p = t /\ forall q, is_param q -> occurs q p -> s q <> None.

(** What an argument is compared with: a quoted term, or else the type. *)
Definition pattern (h : term) : term :=
  match h with Node K_QUOTE_TYPE (q :: _) => q | _ => h end.
(** [s] gives values only to parameters in [hts]. *)
Definition only (s : sub) (hts : list term) : Prop :=
  forall p, s p <> None -> is_param p /\ exists h, In h hts /\ occurs p (pattern h).

Definition op_result (o : optype) (cs ts : list term) (T : term) : Prop :=
  match o with
  | OType => T = ty_type
  | OBool => T = ty_bool
  | OList => T = listType
  | OArg i => nth_error cs i = Some T
  | OArgType i => nth_error ts i = Some T
  | OLit k => literal_type k ty_any T
  end.

Inductive has_type : term -> term -> Prop :=
| ht_symbol : forall k i T, symtype (Sym k i) = Some T -> has_type (Sym k i) T
| ht_boolean : forall b, has_type (Lit (LBool b)) ty_bool
| ht_literal : forall l T, lit_kind l <> K_BOOLEAN -> literal_type (lit_kind l) (Lit l) T ->
    settled T -> has_type (Lit l) T
(* An application: the types of the arguments fit the argument types of the
   head; where the head asks for a quoted term, the argument itself does. *)
| ht_apply : forall k f xs fk hts ret ts s T, k = K_APPLY \/ k = K_APPLY_OPAQUE ->
    has_types (f :: xs) (Node fk (hts ++ [ret]) :: ts) -> fk = K_FUNCTION_TYPE \/ fk = K_PROGRAM_TYPE ->
    fit_args s hts xs ts -> only s hts -> EV s ret T -> settled T -> has_type (Node k (f :: xs)) T
| ht_lambda : forall vs body rest tv tb ts vts, has_types (vs :: body :: rest) (tv :: tb :: ts) ->
    has_types (tchildren vs) vts -> settled (arrows vts tb) ->
    has_type (Node K_LAMBDA (vs :: body :: rest)) (arrows vts tb)
| ht_type : forall k cs ts, In k [K_TYPE; K_BOOL_TYPE; K_FUNCTION_TYPE; K_PROGRAM_TYPE; K_ANY] ->
    has_types cs ts -> has_type (Node k cs) ty_type
| ht_proof : forall F cs tF ts, has_types (F :: cs) (tF :: ts) -> tkind tF = K_BOOL_TYPE -> settled proofType ->
    has_type (Node K_PROOF (F :: cs)) proofType
| ht_untyped : forall k cs ts, In k [K_QUOTE_TYPE; K_TUPLE] -> has_types cs ts -> has_type (Node k cs) ty_any
| ht_parameterized : forall cs ts T, has_types cs ts -> nth_error ts 1%nat = Some T -> settled T ->
    has_type (Node K_PARAMETERIZED cs) T
| ht_op : forall k cs ts ns o T, has_types cs ts -> op_signature k = Some (ns, o) -> In (length cs) ns ->
    op_result o cs ts T -> settled T -> has_type (Node k cs) T
with has_types : list term -> list term -> Prop :=
| hts_nil : has_types [] []
| hts_cons : forall t ts T Ts, has_type t T -> has_types ts Ts -> has_types (t :: ts) (T :: Ts)
with fit_args : sub -> list term -> list term -> list term -> Prop :=
| fa_nil : forall s, fit_args s [] [] []
| fa_quote : forall s q qs hts x xs tx ts, has_type q tx -> fits s q x -> fit_args s hts xs ts ->
    fit_args s (Node K_QUOTE_TYPE (q :: qs) :: hts) (x :: xs) (tx :: ts)
| fa_plain : forall s h hts x xs tx ts, tkind h <> K_QUOTE_TYPE -> fits s h tx -> fit_args s hts xs ts ->
    fit_args s (h :: hts) (x :: xs) (tx :: ts).
End SpecType.

Scheme has_type_ind3 := Minimality for has_type Sort Prop
  with has_types_ind3 := Minimality for has_types Sort Prop
  with fit_args_ind3 := Minimality for fit_args Sort Prop.
Combined Scheme typing_ind from has_type_ind3, has_types_ind3, fit_args_ind3.

(** Evaluation with the operators of an environment, with any number of nested
    calls. *)
Definition evaluates (E : env) (progs : term -> option (list pcase)) (s : sub) (t r : term) : Prop :=
  exists n, ev (tc_lop (tc E n)) progs shortcut s t r.
Definition typed (E : env) (progs : term -> option (list pcase)) : term -> term -> Prop :=
  has_type (e_symtype E) (e_littype E) (e_self E) (e_proofType E) (e_listType E) (evaluates E progs).

(** Environments that hold only well-formed terms. *)
Definition node_kind (k : kind) : bool := negb (isSymbol k) && negb (isLiteral k) && negb (kind_eqb k K_PROOF).
Record env_wf (E : env) : Prop := mkEnvWf {
  ew_symtype : forall k i T, sym_kind k = true -> e_symtype E (Sym k i) = Some T -> twf T;
  ew_cterm : forall t ai c, e_info E t = Some ai -> ai_cterm ai = Some c -> twf c;
  ew_kind : forall t ai, e_info E t = Some ai -> node_kind (ai_kind ai) = true;
  ew_over : forall t ai ov, e_info E t = Some ai -> ai_over ai = Some ov -> Forall twf ov;
  ew_lit : forall k T, e_littype E k = Some T -> twf T;
  ew_bvar : forall n T, twf T -> twf (e_bvar E n T);
  ew_list : twf (e_listType E) /\ twf (e_listCons E) /\ twf (e_listNil E);
  ew_proof : twf (e_proofType E) }.
(** [progs] are the programs of an environment, and they are well-formed. *)
Definition programs_of (E : env) (progs : term -> option (list pcase)) : Prop :=
  progs_wf progs /\ forall hd, getProgram E hd = option_map (program_term hd) (progs hd).
