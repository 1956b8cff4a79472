(** What the commands of a file do: a grammar of commands over S-expressions (SpecRead.v) and
    the change of the state that each of them makes. *)
From Coq Require Import String ZArith List Bool.
From Verif Require Import Base Kind Ints Str Literal Arity Term Match Eval ListOps Typing Build Scope Lexer Parse Check SpecRead.
Import ListNotations.
Open Scope Z_scope.

(** ** Words *)
Definition named (x : sx) (n : text) : Prop := exists k w, x = XT k w /\ name_of k w = Some n.
(** A keyword, without its colon. *)
Definition keyed (x : sx) (key : string) : Prop := exists w, x = XT T_KEYWORD w /\ tl w = txt key.
Definition quoted (x : sx) (s : text) : Prop := exists w, x = XT T_STRING w /\ unescapeString w = Ok s.
(** Numbers are read into 32 bits: larger ones are cut off, negative ones wrap around. *)
Fixpoint leading (v : Z) (w : text) : Z :=
  match w with
  | [] => v
  | c :: w' => if (48 <=? c mod 256) && (c mod 256 <=? 57) then leading (10 * v + (c - 48)) w' else v
  end.
Inductive unsigned : text -> Z -> Prop :=
| un_pos : forall w, hd 0 w <> 45 -> (hd 0 w = 48 -> length w = 1%nat) -> unsigned w (Z.min (leading 0 w) (2 ^ 32 - 1))
| un_neg : forall w, leading 0 w < 2 ^ 32 -> unsigned (45 :: w) ((- leading 0 w) mod 2 ^ 32)
| un_low : forall w, 2 ^ 32 <= leading 0 w -> unsigned (45 :: w) (2 ^ 32 - 1).
Definition number (x : sx) (n : Z) : Prop := exists w, x = XT T_INTEGER w /\ unsigned w n.

(** ** Tables *)
Definition literal_classes : list (text * kind) :=
  [(txt "<boolean>", K_BOOLEAN); (txt "<numeral>", K_NUMERAL); (txt "<decimal>", K_DECIMAL); (txt "<rational>", K_RATIONAL);
   (txt "<hexadecimal>", K_HEXADECIMAL); (txt "<binary>", K_BINARY); (txt "<string>", K_STRING)].
Definition attribute_words : list (text * attr) :=
  [(txt ":implicit", A_IMPLICIT); (txt ":type", A_TYPE); (txt ":list", A_LIST); (txt ":left-assoc", A_LEFT_ASSOC);
   (txt ":right-assoc", A_RIGHT_ASSOC); (txt ":left-assoc-nil", A_LEFT_ASSOC_NIL); (txt ":right-assoc-nil", A_RIGHT_ASSOC_NIL);
   (txt ":left-assoc-non-singleton-nil", A_LEFT_ASSOC_NS_NIL); (txt ":right-assoc-non-singleton-nil", A_RIGHT_ASSOC_NS_NIL);
   (txt ":chainable", A_CHAINABLE); (txt ":pairwise", A_PAIRWISE); (txt ":binder", A_BINDER); (txt ":let-binder", A_LET_BINDER);
   (txt ":arg-list", A_ARG_LIST); (txt ":opaque", A_OPAQUE); (txt ":syntax", A_SYNTAX); (txt ":restrict", A_RESTRICT); (txt ":sorry", A_SORRY)].
(** Commands of all files, of reference files, and of the other files. *)
Definition command_words (reference : bool) : list (text * command) :=
  [(txt "declare-const", C_DECLARE_CONST); (txt "declare-datatype", C_DECLARE_DATATYPE);
   (txt "declare-datatypes", C_DECLARE_DATATYPES); (txt "declare-sort", C_DECLARE_SORT); (txt "echo", C_ECHO); (txt "exit", C_EXIT);
   (txt "set-option", C_SET_OPTION); (txt "pop", C_POP); (txt "push", C_PUSH); (txt "reset", C_RESET)] ++
  if reference then
    [(txt "assert", C_ASSERT); (txt "declare-fun", C_DECLARE_FUN); (txt "define-const", C_DEFINE_CONST); (txt "define-fun", C_DEFINE_FUN);
     (txt "define-sort", C_DEFINE_SORT); (txt "check-sat", C_CHECK_SAT); (txt "check-sat-assuming", C_CHECK_SAT_ASSUMING);
     (txt "set-logic", C_SET_LOGIC); (txt "set-info", C_SET_INFO)]
  else
    [(txt "assume", C_ASSUME); (txt "assume-push", C_ASSUME_PUSH); (txt "declare-consts", C_DECLARE_CONSTS);
     (txt "declare-parameterized-const", C_DECLARE_PARAMETERIZED_CONST); (txt "declare-rule", C_DECLARE_RULE); (txt "define", C_DEFINE);
     (txt "include", C_INCLUDE); (txt "program", C_PROGRAM); (txt "reference", C_REFERENCE); (txt "step", C_STEP); (txt "step-pop", C_STEP_POP)].

Notation attrs := (list (attr * option term)).

(** What follows an attribute of a parameter, of a constant, of a definition or of a rule;
    the parameters are those of a declaration of kind [of]. *)
Inductive argform : Type := NoArg | TermArg | PairArg | SyntaxArg | TypeArg | ListMark | SorryMark.
Definition attr_form (k of : kind) (a : attr) : option argform :=
  match k, a with
  | K_PARAM, A_LIST => Some ListMark
  | K_PARAM, (A_IMPLICIT | A_OPAQUE) => match of with K_CONST | K_LAMBDA => Some NoArg | _ => None end
  | K_PARAM, A_RESTRICT => match of with K_CONST | K_LAMBDA => Some TermArg | _ => None end
  | K_PARAM, A_SYNTAX => match of with K_CONST | K_LAMBDA => Some SyntaxArg | _ => None end
  | K_CONST, (A_LEFT_ASSOC | A_RIGHT_ASSOC) => Some NoArg
  | K_CONST, (A_LEFT_ASSOC_NIL | A_RIGHT_ASSOC_NIL | A_LEFT_ASSOC_NS_NIL | A_RIGHT_ASSOC_NS_NIL
             | A_CHAINABLE | A_PAIRWISE | A_BINDER | A_ARG_LIST) => Some TermArg
  | K_CONST, A_LET_BINDER => Some PairArg
  | K_LAMBDA, A_TYPE => Some TypeArg
  | K_PROOF_RULE, A_SORRY => Some SorryMark
  | _, _ => None
  end.

(** No term was given (or it has no value). *)
Definition absent (t : term) : bool := kind_eqb (tkind t) K_NONE.

(** ** Changes of the state *)
Definition logged (e : event) (s : st) : st := set_log ((length (s_asmctx s), e) :: s_log s) s.
(** A symbol that did not exist before: it has this name and type, and no attribute. *)
Definition with_symbol (k : kind) (n : text) (ty : option term) (s : st) : st :=
  let v := Sym k (s_next s) in
  logged (EvSymbol v ty)
    (set_next (s_next s + 1)
      (set_names (fun t => if term_eqb v t then n else s_names s t)
        (set_types (fun t => if term_eqb v t then ty else s_types s t)
          (set_marks (fun t => if term_eqb v t then None else s_marks s t)
            (set_scope (forget v (s_scope s)) s))))).
Inductive new (k : kind) (n : text) (ty : option term) (s : st) : term -> st -> Prop :=
| new_at : new k n ty s (Sym k (s_next s)) (with_symbol k n ty s).
(** The attribute of a symbol is the one it gets first. *)
Definition with_mark (v : term) (a : attr) (ct : option term) (s : st) : st :=
  logged (EvMark v a ct) (set_marks (fun t => if term_eqb v t then Some (a, ct) else s_marks s t) s).
Inductive marked (v : term) (a : attr) (ct : option term) (s : st) : st -> Prop :=
| md_first : s_marks s v = None -> marked v a ct s (with_mark v a ct s)
| md_again : forall x, s_marks s v = Some x -> marked v a ct s s.
Definition bound (s : st) (n : text) (e : term) (s' : st) : Prop :=
  exists c, bind_sym (o_ruleSymTable (s_opts s)) (s_scope s) n e = Some c /\ s' = set_scope c s.
Definition arrow (a r : term) : term := Node K_FUNCTION_TYPE [a; r].
Definition arrows (args : list term) (r : term) : term := fold_right arrow r args.

(** One after the other. *)
Inductive each {A B : Type} (R : st -> A -> B -> st -> Prop) : st -> list A -> list B -> st -> Prop :=
| ea_nil : forall s, each R s [] [] s
| ea_cons : forall s x a s1 xs l s2, R s x a s1 -> each R s1 xs l s2 -> each R s (x :: xs) (a :: l) s2.
Inductive every {A : Type} (R : st -> A -> st -> Prop) : st -> list A -> st -> Prop :=
| ev_nil : forall s, every R s [] s
| ev_cons : forall s x s1 xs s2, R s x s1 -> every R s1 xs s2 -> every R s (x :: xs) s2.

(** Options. *)
Inductive option_set (o : options) (key : text) (b : bool) : options -> Prop :=
| os_let : key = txt "parse-let" -> option_set o key b (mkOptions b (o_ruleSymTable o) (o_normDec o) (o_normHex o) (o_normNum o))
| os_rules : key = txt "rule-sym-table" -> option_set o key b (mkOptions (o_parseLet o) b (o_normDec o) (o_normHex o) (o_normNum o))
| os_dec : key = txt "normalize-dec" -> option_set o key b (mkOptions (o_parseLet o) (o_ruleSymTable o) b (o_normHex o) (o_normNum o))
| os_hex : key = txt "normalize-hex" -> option_set o key b (mkOptions (o_parseLet o) (o_ruleSymTable o) (o_normDec o) b (o_normNum o))
| os_num : key = txt "normalize-num" -> option_set o key b (mkOptions (o_parseLet o) (o_ruleSymTable o) (o_normDec o) (o_normHex o) b)
| os_other : ~ In key [txt "parse-let"; txt "rule-sym-table"; txt "normalize-dec"; txt "normalize-hex"; txt "normalize-num"] ->
    option_set o key b o.


(** One, or as many times as said. *)
Inductive count : list sx -> Z -> Prop :=
| ct_one : count [] 1
| ct_num : forall x k, number x k -> count [x] k.

Section Cmd.
Variable G : config.
Variable sig : bool.         (* the file is a signature *)
Variable reference : bool.   (* the file is a reference *)
Notation reads := (SpecRead.reads G sig).
Notation applied := (SpecRead.applied G).
Notation of_type := (SpecRead.of_type G).

(** ** Parts of commands *)
(** A type; one that has to be evaluated only with parameters and where this is allowed. *)
Definition type_in (eval : bool) (s : st) (x : sx) (ty : term) (s1 : st) : Prop :=
  reads s x ty s1 /\ of_type s1 ty t_Type /\ (isEvaluatable ty = true -> isGround ty = false /\ eval = true).
Definition formula_in (s : st) (x : sx) (f : term) (s1 : st) : Prop := reads s x f s1 /\ of_type s1 f t_Bool.
(** (t t) *)
Inductive pair_in (s : st) : sx -> term * term -> st -> Prop :=
| pa_pair : forall x a s1 y b s2, reads s x a s1 -> reads s1 y b s2 -> pair_in s (XL [x; y]) (a, b) s2.
(** The type of an argument of a program, or (eo::quote p). *)
Definition quote_form (x : sx) : bool :=
  match x with XL (XT T_SYMBOL w :: _) => text_eqb w (txt "eo::quote") | _ => false end.
Inductive arg_type (s : st) : sx -> term -> st -> Prop :=
| gt_type : forall x ty s1, quote_form x = false -> type_in false s x ty s1 -> arg_type s x ty s1
| gt_quote : forall x p s1, reads s x p s1 -> tkind p = K_PARAM ->
    arg_type s (XL [XT T_SYMBOL (txt "eo::quote"); x]) (Node K_QUOTE_TYPE [p]) s1.

(** Attributes and their values; keywords that are not known have at most one value, which
    is not looked at. *)
Inductive attrs_in (k of : kind) (e : term) : st -> list sx -> attrs -> st -> Prop :=
| ai_nil : forall s, attrs_in k of e s [] [] s
| ai_key : forall s w xs m s1, ~ In w (map fst attribute_words) -> match xs with [] => True | x :: _ => is_keyword x = true end ->
    attrs_in k of e s xs m s1 -> attrs_in k of e s (XT T_KEYWORD w :: xs) ((A_NONE, None) :: m) s1
| ai_skip : forall s w x xs m s1, ~ In w (map fst attribute_words) -> is_keyword x = false ->
    attrs_in k of e s xs m s1 -> attrs_in k of e s (XT T_KEYWORD w :: x :: xs) ((A_NONE, None) :: m) s1
| ai_list : forall s w a s1 xs m s2, In (w, a) attribute_words -> attr_form k of a = Some ListMark ->
    marked e A_LIST None s s1 -> attrs_in k of e s1 xs m s2 -> attrs_in k of e s (XT T_KEYWORD w :: xs) m s2
| ai_none : forall s w a xs m s1, In (w, a) attribute_words -> attr_form k of a = Some NoArg ->
    attrs_in k of e s xs m s1 -> attrs_in k of e s (XT T_KEYWORD w :: xs) ((a, None) :: m) s1
| ai_term : forall s w a x v s1 xs m s2, In (w, a) attribute_words -> attr_form k of a = Some TermArg -> reads s x v s1 ->
    attrs_in k of e s1 xs m s2 -> attrs_in k of e s (XT T_KEYWORD w :: x :: xs) ((a, Some v) :: m) s2
| ai_pair : forall s w a x v1 v2 s1 xs m s2, In (w, a) attribute_words -> attr_form k of a = Some PairArg -> pair_in s x (v1, v2) s1 ->
    attrs_in k of e s1 xs m s2 -> attrs_in k of e s (XT T_KEYWORD w :: x :: xs) ((a, Some (Node K_TUPLE [v1; v2])) :: m) s2
| ai_syntax : forall s w a x n c xs m s1, In (w, a) attribute_words -> attr_form k of a = Some SyntaxArg ->
    named x n -> In (n, c) literal_classes ->
    attrs_in k of e s xs m s1 -> attrs_in k of e s (XT T_KEYWORD w :: x :: xs) ((a, None) :: m) s1
| ai_type : forall s w a x v s1 xs m s2, In (w, a) attribute_words -> attr_form k of a = Some TypeArg -> reads s x v s1 -> of_type s1 e v ->
    attrs_in k of e s1 xs m s2 -> attrs_in k of e s (XT T_KEYWORD w :: x :: xs) ((a, Some v) :: m) s2
| ai_sorry : forall s w a xs m s1, In (w, a) attribute_words -> attr_form k of a = Some SorryMark ->
    attrs_in k of e (logged (EvSorry e) (set_sorry (e :: s_sorry s) s)) xs m s1 ->
    attrs_in k of e s (XT T_KEYWORD w :: xs) ((a, None) :: m) s1.

(** How a constant is used: the first of these attributes in their fixed order, with its
    first value, over the parameters in it. *)
Inductive closed_over : option term -> option term -> Prop :=
| co_none : closed_over None None
| co_ground : forall t, isGround t = true -> closed_over (Some t) (Some t)
| co_params : forall t ps, isGround t = false -> getVariables [t] = Ok ps ->
    closed_over (Some t) (Some (Node K_PARAMETERIZED [Node K_TUPLE ps; t])).
Definition kind_attrs : list attr :=
  [A_LIST; A_BINDER; A_LET_BINDER; A_RIGHT_ASSOC; A_LEFT_ASSOC; A_RIGHT_ASSOC_NIL; A_LEFT_ASSOC_NIL; A_RIGHT_ASSOC_NS_NIL;
   A_LEFT_ASSOC_NS_NIL; A_CHAINABLE; A_PAIRWISE; A_ARG_LIST].
Inductive usage (m : attrs) : option (attr * option term) -> Prop :=
| us_none : (forall a v, In (a, v) m -> ~ In a kind_attrs) -> usage m None
| us_some : forall before a after m1 v m2 ct, kind_attrs = before ++ a :: after ->
    (forall b w, In (b, w) m -> ~ In b before) -> m = m1 ++ (a, v) :: m2 -> (forall w, ~ In (a, w) m1) ->
    closed_over v ct -> usage m (Some (a, ct)).
Definition with_usage (v : term) (u : option (attr * option term)) (s : st) : st :=
  match u with Some (a, ct) => with_mark v a ct s | None => s end.

(** Parameters (x T :attribute ...), each with its name and attributes; they are bound one
    after the other. *)
Inductive param_in (of : kind) (s : st) : sx -> text * term * attrs -> st -> Prop :=
| ps_at : forall y n x ty s1 v s2 s3 as_ m s4, named y n -> type_in false s x ty s1 ->
    new K_PARAM n (Some ty) s1 v s2 -> bound s2 n v s3 -> attrs_in K_PARAM of v s3 as_ m s4 ->
    param_in of s (XL (y :: x :: as_)) (n, v, m) s4.
Definition params_in (of : kind) : st -> list sx -> list (text * term * attrs) -> st -> Prop := each (param_in of).
Definition is_implicit (p : text * term * attrs) : bool := existsb (fun a => attr_eqb (fst a) A_IMPLICIT) (snd p).
Definition is_opaque (p : text * term * attrs) : bool := existsb (fun a => attr_eqb (fst a) A_OPAQUE) (snd p).
Definition explicit (ps : list (text * term * attrs)) : list (text * term * attrs) := filter (fun p => negb (is_implicit p)) ps.
Definition terms_of (ps : list (text * term * attrs)) : list term := map (fun p => snd (fst p)) ps.

(** The type of a constant with parameters: the parameters that occur to the right are
    quoted, their own types have no parameters then; opaque ones come first. *)
Inductive param_type (s : st) (p t : term) : term -> Prop :=
| pt_quoted : forall ty, hasVariable t [p] = Ok true -> tc_type (tc (env_of G s) (g_n G)) p = Ok ty -> isGround (or_null ty) = true ->
    param_type s p t (Node K_QUOTE_TYPE [p])
| pt_plain : forall ty, hasVariable t [p] = Ok false -> tc_type (tc (env_of G s) (g_n G)) p = Ok ty -> param_type s p t (or_null ty).
Inductive param_arrows (s : st) : list (text * term * attrs) -> term -> term -> list term -> Prop :=
| pw_nil : forall t, param_arrows s [] t t []
| pw_arg : forall p ps t t1 q, is_opaque p = false -> param_arrows s ps t t1 [] -> param_type s (snd (fst p)) t1 q ->
    param_arrows s (p :: ps) t (arrow q t1) []
| pw_opaque : forall p ps t t1 o q, is_opaque p = true -> param_arrows s ps t t1 o -> param_type s (snd (fst p)) t1 q ->
    param_arrows s (p :: ps) t t1 (q :: o).
(** A parameter of the return type occurs in no argument type. *)
Definition loose (ret : term) (args : list term) (b : bool) : Prop :=
  exists ps r, getVariables args = Ok ps /\ findFreeVar sym_self ret ps = Ok r /\ b = match r with Some _ => true | None => false end.
(** The type of an ambiguous function: its return type is an argument, from which a program
    makes the type of the function. *)
Inductive disambiguated (s : st) (pat ty : term) (n : text) : term -> st -> Prop :=
| dis_at : forall p s1 tp tv s2 app,
    new K_PROGRAM_CONST (txt "$eo_disamb_type_" ++ n) (Some (Node K_PROGRAM_TYPE [t_Type; t_Type])) s p s1 ->
    applied s1 [p; pat] tp ->
    new K_PARAM (txt "$eo_disamb_type_" ++ n ++ txt "_var") (Some t_Type)
      (with_mark p A_PROGRAM (Some (Node K_PROGRAM [Node K_TUPLE [tp; ty]])) s1) tv s2 ->
    applied s2 [p; tv] app ->
    disambiguated s pat ty n (arrow (Node K_QUOTE_TYPE [tv]) app) s2.
(** The declared type and use. *)
Inductive param_const (s : st) (n : text) (ps : list (text * term * attrs)) (ret : term) (u : option (attr * option term)) :
  term -> option (attr * option term) -> st -> Prop :=
| pc_plain : forall ty args r, param_arrows s ps ret ty [] -> getFunctionType ty = Ok (args, r) -> loose r args false ->
    param_const s n ps ret u ty u s
| pc_opaque : forall ty o args r, o <> [] -> param_arrows s ps ret ty o -> getFunctionType ty = Ok (args, r) -> loose r (args ++ o) false ->
    u = None -> param_const s n ps ret u (arrows o ty) (Some (A_OPAQUE, Some (Lit (LNum (Z.of_nat (length o)))))) s
| pc_amb : forall ty args r t2 s1, param_arrows s ps ret ty [] -> getFunctionType ty = Ok (args, r) -> loose r args true ->
    u = None -> disambiguated s r ty n t2 s1 -> param_const s n ps ret u t2 (Some (A_AMB, None)) s1.

(** ** Datatypes *)
Definition type_constant (s : st) (n : text) (arity : nat) (t : term) (s' : st) : Prop :=
  new K_CONST n (Some (arrows (repeat t_Type arity) t_Type)) s t s'.
(** Selectors (n T): result type, selector, updater. *)
Inductive selector (dt : term) (s : st) : sx -> text * term * term * term -> st -> Prop :=
| se_at : forall y n x ty s1 sel s2 upd s3, named y n -> type_in true s x ty s1 ->
    new K_CONST n (Some (arrow dt ty)) s1 sel s2 -> new K_CONST (txt "update-" ++ n) (Some (arrow dt (arrow ty dt))) s2 upd s3 ->
    selector dt s (XL [y; x]) (n, ty, sel, upd) s3.
Definition sel_type (x : text * term * term * term) : term := snd (fst (fst x)).
Definition sel_term (x : text * term * term * term) : term := snd (fst x).
Definition sel_names (x : text * term * term * term) : list (text * term) :=
  let '(n, _, sel, upd) := x in [(n, sel); (txt "update-" ++ n, upd)].
(** Constructors (n selector ...): the constructor, its selectors, whether it is ambiguous, and
    the names that come with it. *)
Inductive constructor (dt : term) (ps : list term) (s : st) : sx -> (term * list term * bool) * list (text * term) -> st -> Prop :=
| cn_at : forall y n xs sels s1 amb ty s2 c s3 t s4, named y n -> each (selector dt) s xs sels s1 ->
    (ps = [] /\ amb = false \/ ps <> [] /\ loose dt (map sel_type sels) amb) ->
    (if amb then disambiguated s1 dt (arrows (map sel_type sels) dt) n ty s2 else ty = arrows (map sel_type sels) dt /\ s2 = s1) ->
    new K_CONST n (Some ty) s2 c s3 -> new K_CONST (txt "is-" ++ n) (Some (arrow dt t_Bool)) s3 t s4 ->
    constructor dt ps s (XL (y :: xs)) ((c, map sel_term sels, amb), flat_map sel_names sels ++ [(n, c); (txt "is-" ++ n, t)]) s4.
(** A definition: (constructor ...) or (par (X ...) (constructor ...)). *)
Definition type_param (s : st) (n : text) (v : term) (s' : st) : Prop :=
  exists s1, new K_PARAM n (Some t_Type) s v s1 /\ bound s1 n v s'.
Definition par_form (x : sx) : bool := match x with XL (XT T_PAR _ :: _) => true | _ => false end.
Inductive dt_head (s : st) : sx -> bool -> list term -> list sx -> st -> Prop :=
| dh_plain : forall xs, par_form (XL xs) = false -> dt_head s (XL xs) false [] xs s
| dh_par : forall w ys xs names ps s1, ys <> [] -> Forall2 named ys names -> each type_param (entered s) names ps s1 ->
    dt_head s (XL [XT T_PAR w; XL ys; XL xs]) true ps xs s1.
Definition dt_instance (s : st) (dt : term) (ps : list term) (t : term) : Prop :=
  match ps with [] => t = dt | _ => applied s (dt :: ps) t end.
(** The constructors, the end of the scope of the parameters, and the new names. *)
Inductive dt_rest (dt : term) (par : bool) (ps : list term) (s : st) (xs : list sx) : list (term * list term * bool) -> st -> Prop :=
| dr_at : forall t cs s1 s2 s3, dt_instance s dt ps t -> each (constructor t ps) s xs cs s1 ->
    (if par then left_scope s1 s2 else s2 = s1) -> named_in s2 (flat_map snd cs) s3 ->
    dt_rest dt par ps s xs (map fst cs) s3.
Definition dt_def (s : st) (d : term * nat * sx) (r : term * list (term * list term * bool)) (s' : st) : Prop :=
  let '(dt, arity, x) := d in
  exists par ps xs s1, dt_head s x par ps xs s1 /\ length ps = arity /\ dt_rest dt par ps s1 xs (snd r) s' /\ fst r = dt.
(** The attributes: a datatype has its constructors, a constructor its selectors. *)
Definition listed (s : st) (ts : list term) (t : term) : Prop :=
  match ts with [] => t = sym_nil | _ => applied s (sym_cons :: ts) t end.
Definition dt_mark (s : st) (d : term * list (term * list term * bool)) (s' : st) : Prop :=
  exists t, listed s (map (fun c => fst (fst c)) (snd d)) t /\ marked (fst d) A_DATATYPE (Some t) s s'.
Definition con_mark (s : st) (c : term * list term * bool) (s' : st) : Prop :=
  exists t, listed s (snd (fst c)) t /\
    marked (fst (fst c)) (if snd c then A_AMB_DATATYPE_CONSTRUCTOR else A_DATATYPE_CONSTRUCTOR) (Some t) s s'.
Definition dt_marks (s : st) (ds : list (term * list (term * list term * bool))) (s' : st) : Prop :=
  exists s1, every dt_mark s ds s1 /\ every con_mark s1 (flat_map snd ds) s'.

(** ** Assumptions, steps, rules *)
(** What a formula is compared as. *)
Definition normal_form (s : st) (f f' : term) : Prop :=
  if absent (s_refNf s) then f' = f else applied s [s_refNf s; f] f'.
Definition asserts (s : st) (f : term) (s' : st) : Prop :=
  exists f', normal_form s f f' /\ s' = logged (EvAssert f) (set_refs (f' :: s_refs s) s).
Definition with_level (s : st) : st := set_asmctx (length (s_asm s) :: s_asmctx s) (entered s).
(** Outside of assumption scopes the assumptions are among the assertions of the reference. *)
Definition permitted (s : st) (f : term) : Prop :=
  s_hasRef s = true -> s_asmctx s = [] -> exists f', normal_form s f f' /\ In f' (s_refs s).
Definition closes_level (s s' : st) : Prop :=
  exists n ctx, s_asmctx s = n :: ctx /\ left_scope (set_asmctx ctx (set_asm (firstn n (s_asm s)) s)) s'.

(** The parts of a step after the name of the rule: unknown keywords at the end are passed over. *)
Inductive step_parts (s : st) : list sx -> list term -> list term -> st -> Prop :=
| sp_none : step_parts s [] [] [] s
| sp_other : forall w, ~ keyed (XT T_KEYWORD w) "premises" -> ~ keyed (XT T_KEYWORD w) "args" ->
    step_parts s [XT T_KEYWORD w] [] [] s
| sp_args : forall k xs args s1, keyed k "args" -> each reads s xs args s1 -> step_parts s [k; XL xs] [] args s1
| sp_premises : forall k xs ps s1, keyed k "premises" -> each reads s xs ps s1 -> step_parts s [k; XL xs] ps [] s1
| sp_premises_other : forall k xs ps s1 w, keyed k "premises" -> each reads s xs ps s1 -> ~ keyed (XT T_KEYWORD w) "args" ->
    step_parts s [k; XL xs; XT T_KEYWORD w] ps [] s1
| sp_both : forall k xs ps s1 k2 ys args s2, keyed k "premises" -> each reads s xs ps s1 -> keyed k2 "args" -> each reads s1 ys args s2 ->
    step_parts s [k; XL xs; k2; XL ys] ps args s2.

(** The parts of a rule. *)
Inductive part {A : Type} (key : string) (R : st -> sx -> A -> st -> Prop) (absent : A) (s : st) : list sx -> A -> st -> list sx -> Prop :=
| pr_here : forall k x a s1 xs, keyed k key -> R s x a s1 -> part key R absent s (k :: x :: xs) a s1 xs
| pr_absent : forall k xs, is_keyword k = true -> ~ keyed k key -> part key R absent s (k :: xs) absent s (k :: xs).
Definition list_in {A : Type} (R : st -> sx -> A -> st -> Prop) (s : st) (x : sx) (l : list A) (s1 : st) : Prop :=
  exists xs, x = XL xs /\ each R s xs l s1.
(** The premises, and the operator that collects them (or null). *)
Inductive premises_in (s : st) : list sx -> list term -> term -> st -> list sx -> Prop :=
| pi_list : forall k xs ps s1 rest, keyed k "premises" -> each reads s xs ps s1 ->
    premises_in s (k :: XL xs :: rest) ps null_term s1 rest
| pi_collect : forall k x p s1 y c s2 rest, keyed k "premise-list" -> reads s x p s1 -> reads s1 y c s2 ->
    premises_in s (k :: x :: y :: rest) [p] c s2 rest
| pi_absent : forall k rest, is_keyword k = true -> ~ keyed k "premises" -> ~ keyed k "premise-list" ->
    premises_in s (k :: rest) [] null_term s (k :: rest).
Inductive requires (s : st) : list (term * term) -> term -> term -> Prop :=
| rq_nil : forall t, requires s [] t t
| rq_cons : forall a b l t r r', requires s l t r -> mkExpr (env_of G s) (g_n G) (g_mk G) K_EVAL_REQUIRES [a; b; r] = Ok r' ->
    requires s ((a, b) :: l) t r'.
(** The program of a rule: its arguments are matched against these patterns. *)
Definition rule_arg_type (s : st) (a ty : term) (s' : st) : Prop :=
  if kind_eqb (tkind a) K_PROOF then ty = sym_Proof /\ s' = s else new K_PARAM (txt "$eo_arg_") (Some t_Type) s ty s'.
Inductive rule_program (s : st) (n : text) : list term -> term -> term -> st -> Prop :=
| rp_none : forall r, isGround r = true -> isEvaluatable r = false -> rule_program s n [] r r s
| rp_args : forall args r tys s1 p s2 pat, args <> [] -> each rule_arg_type s args tys s1 ->
    new K_PROGRAM_CONST (txt "$eo_prog_" ++ n) (Some (Node K_PROGRAM_TYPE (tys ++ [t_Bool]))) s1 p s2 ->
    applied s2 (p :: args) pat -> typeCheckProgramPair sym_self pat r = Ok tt ->
    rule_program s n args r p (with_mark p A_PROGRAM (Some (Node K_PROGRAM [Node K_TUPLE [pat; r]])) s2).

(** Programs: a new symbol, or one that was declared without cases. *)
Definition is_program (s : st) (p : term) : Prop := exists t, s_marks s p = Some (A_PROGRAM, Some t).
Inductive program_symbol (s : st) (n : text) (ty : term) : term -> bool -> st -> Prop :=
| py_new : forall p s1 s2, getVar (s_scope s) n = None -> new K_PROGRAM_CONST n (Some ty) s p s1 -> bound s1 n p s2 ->
    program_symbol s n ty p true s2
| py_again : forall p, getVar (s_scope s) n = Some p -> tkind p = K_PROGRAM_CONST -> ~ is_program s p -> of_type s p ty ->
    program_symbol s n ty p false s.
Definition case_ok (p : term) (arity : nat) (c : term * term) : Prop :=
  exists args, fst c = Node K_APPLY (p :: args) /\ length args = arity /\ typeCheckProgramPair sym_self (fst c) (snd c) = Ok tt.
Definition tuple (c : term * term) : term := Node K_TUPLE [fst c; snd c].
Inductive cases_in (s : st) (p : term) (arity : nat) : list sx -> option term -> st -> Prop :=
| cs_none : cases_in s p arity [] None s
| cs_some : forall xs cs s1, xs <> [] -> each pair_in s xs cs s1 -> Forall (case_ok p arity) cs ->
    cases_in s p arity [XL xs] (Some (Node K_PROGRAM (map tuple cs))) s1.

(** Definitions: implicit parameters are not visible. *)
Inductive visible (s : st) (ps : list (text * term * attrs)) : st -> Prop :=
| vi_all : Forall (fun p => is_implicit p = false) ps -> visible s ps s
| vi_some : forall s1 s2, Exists (fun p => is_implicit p = true) ps -> left_scope s s1 ->
    named_in (entered s1) (map fst (explicit ps)) s2 -> visible s ps s2.
(** The definition and the type of a function. *)
Inductive definition (s : st) : list term -> term -> term -> term -> term -> Prop :=
| df_const : forall e ty, definition s [] e ty e ty
| df_fun : forall vs e ret lam ct vl r tys, vs <> [] -> getVar (s_scope s) (txt "lambda") = Some lam -> constructor_of G s lam ct ->
    applied s (ct :: vs) vl -> applied s [lam; vl; e] r -> Forall2 (of_type s) vs tys -> definition s vs e ret r (arrows tys ret).

(** The conclusion of a step, and the assumption that it discharges (State::notifyStep, C43 and C64). *)
Definition concludes (s : st) (rule proven : term) (prem args : list term) (pop : bool) (conc : term) (asm : option term) : Prop :=
  exists l, notifyStep G rule proven prem args pop (l, s) = Ok (Some (conc, asm), (l, s)).
Inductive claim (s : st) : list sx -> term -> st -> list sx -> Prop :=
| cl_none : forall k xs, is_keyword k = true -> claim s (k :: xs) null_term s (k :: xs)
| cl_formula : forall x f s1 xs, is_keyword x = false -> formula_in s x f s1 -> claim s (x :: xs) f s1 xs.
Inductive step_in (pop : bool) (s : st) : list sx -> st -> Prop :=
| st_at : forall y n xs f s1 k z rn rule parts prem args s2 conc asm ty s3 s4, named y n -> claim s xs f s1 (k :: z :: parts) ->
    keyed k "rule" -> named z rn -> getProofRule (o_ruleSymTable (s_opts s1)) (s_scope s1) rn = Some rule -> tkind rule = K_PROOF_RULE ->
    step_parts (set_used (rule :: s_used s1) s1) parts prem args s2 -> concludes s2 rule f prem args pop conc asm ->
    of_type s2 conc ty -> tkind ty = K_BOOL_TYPE -> (absent f = false -> conc = f) ->
    (if pop then closes_level s2 s3 else s3 = s2) ->
    bound (logged (EvStep n rule f prem args asm conc) s3) n (Node K_PROOF [conc]) s4 ->
    step_in pop s (y :: xs) s4.

(** Options are true or false; other values, and options in a reference, are passed over. *)
Definition truth (x : sx) (b : bool) : Prop := x = XT T_SYMBOL (txt (if b then "true" else "false")).
Inductive option_in (w : text) (x : sx) (o : options) : options -> Prop :=
| oi_set : forall b o', reference = false -> truth x b -> option_set o (tl w) b o' -> option_in w x o o'
| oi_other : (forall b, ~ truth x b) \/ reference = true -> option_in w x o o.

(** ** Commands *)
(** [included f sign refr nf s s']: the file [f] is read in state [s], as a signature or as a reference. *)
Variable included : text -> bool -> bool -> term -> st -> st -> Prop.

Inductive does (s : st) : command -> list sx -> st -> Prop :=
(* (assume n F), (assume-push n F) *)
| do_assume : forall y n x f s1 s2 s3, named y n -> formula_in s x f s1 -> bound s1 n (Node K_PROOF [f]) s2 ->
    s3 = logged (EvAssume n f false) s2 -> permitted (set_asm (s_asm s3 ++ [f]) s3) f ->
    does s C_ASSUME [y; x] (set_asm (s_asm s3 ++ [f]) s3)
| do_assume_push : forall y n x f s1 s2 s3, named y n -> formula_in s x f s1 -> bound (with_level s1) n (Node K_PROOF [f]) s2 ->
    s3 = logged (EvAssume n f true) s2 -> does s C_ASSUME_PUSH [y; x] (set_asm (s_asm s3 ++ [f]) s3)
(* (declare-const n T :attribute ...) *)
| do_const : forall y n x ty s1 as_ m s2 u v s3 s4, named y n -> type_in true s x ty s1 -> attrs_in K_CONST K_NONE null_term s1 as_ m s2 ->
    usage m u -> new K_CONST n (Some ty) s2 v s3 -> bound (with_usage v u s3) n v s4 ->
    does s C_DECLARE_CONST (y :: x :: as_) s4
(* (declare-fun n (T ...) T) *)
| do_fun : forall y n xs tys s1 x ty s2 v s3 s4, named y n -> each (type_in false) s xs tys s1 -> type_in true s1 x ty s2 ->
    new K_CONST n (Some (arrows tys ty)) s2 v s3 -> bound s3 n v s4 -> does s C_DECLARE_FUN [y; XL xs; x] s4
(* (declare-parameterized-const n (parameter ...) T :attribute ...) *)
| do_param_const : forall y n xs ps s1 x ret s2 as_ m s3 u ty u2 s4 v s5 s6 s7, named y n -> params_in K_CONST (entered s) xs ps s1 ->
    type_in true s1 x ret s2 -> attrs_in K_CONST K_NONE null_term s2 as_ m s3 -> usage m u ->
    param_const s3 n (explicit ps) ret u ty u2 s4 -> new K_CONST n (Some ty) s4 v s5 ->
    left_scope (with_usage v u2 s5) s6 -> bound s6 n v s7 ->
    does s C_DECLARE_PARAMETERIZED_CONST (y :: XL xs :: x :: as_) s7
(* (declare-datatype n definition) *)
| do_datatype : forall y n x par ps xs s1 dt s2 s3 cs s4 s5, named y n -> dt_head s x par ps xs s1 ->
    type_constant s1 n (length ps) dt s2 -> bound s2 n dt s3 -> dt_rest dt par ps s3 xs cs s4 -> dt_marks s4 [(dt, cs)] s5 ->
    does s C_DECLARE_DATATYPE [y; x] s5
(* (declare-datatypes ((n k) ...) (definition ...)); the last ones may lack a definition *)
| do_datatypes : forall hs heads dts s1 xs ds s2 s3, hs <> [] ->
    Forall2 (fun h r => exists y z k, h = XL [y; z] /\ named y (fst r) /\ number z k /\ snd r = Z.to_nat k) hs heads ->
    each (fun s h t s' => exists s1, type_constant s (fst h) (snd h) t s1 /\ bound s1 (fst h) t s') s heads dts s1 ->
    (length xs <= length hs)%nat ->
    each dt_def s1 (combine (combine dts (map snd heads)) xs) ds s2 -> dt_marks s2 ds s3 ->
    does s C_DECLARE_DATATYPES [XL hs; XL xs] s3
(* (declare-consts <class> T) *)
| do_literals : forall y n k x s1 ty s2 s3, named y n -> In (n, k) literal_classes -> bound (entered s) (txt "eo::self") sym_self s1 ->
    type_in true s1 x ty s2 -> s_lits s2 k = None \/ s_lits s2 k = Some ty ->
    left_scope (logged (EvLiteral k ty) (set_lits (fun k' => if kind_eqb k k' then Some ty else s_lits s2 k') s2)) s3 ->
    does s C_DECLARE_CONSTS [y; x] s3
(* (declare-rule n (parameter ...) :assumption A :premises (F ...) :args (t ...) :requires ((t t) ...) :conclusion F :attribute ...) *)
| do_rule : forall y n xs ps s1 l1 asm s2 l2 prem pl s3 l3 args s4 l4 reqs s5 k x conc s6 as_ ex ret s7 rule s8 prog s9 s10 m s11,
    s_asmctx s = [] -> named y n -> params_in K_PROOF_RULE (entered s) xs ps s1 ->
    part "assumption" reads null_term s1 l1 asm s2 l2 -> premises_in s2 l2 prem pl s3 l3 ->
    part "args" (list_in reads) [] s3 l3 args s4 l4 -> part "requires" (list_in pair_in) [] s4 l4 reqs s5 (k :: x :: as_) ->
    (keyed k "conclusion" /\ ex = false \/ keyed k "conclusion-explicit" /\ ex = true) -> reads s5 x conc s6 ->
    requires s6 reqs conc ret -> left_scope s6 s7 -> new K_PROOF_RULE n (Some t_Bool) s7 rule s8 ->
    rule_program s8 n (args ++ (if ex then [conc] else []) ++ (if absent asm then [] else [asm]) ++ map (fun e => Node K_PROOF [e]) prem)
      ret prog s9 ->
    bound s9 n rule s10 ->
    attrs_in K_PROOF_RULE K_NONE rule
      (with_mark rule A_PROOF_RULE
         (Some (Node K_TUPLE [if absent pl then t_Any else pl; Lit (LBool (negb (absent asm))); Lit (LBool ex); prog]))
         (logged (EvRule rule asm pl prem args (map (fun r => Node K_TUPLE [fst r; snd r]) reqs) conc ex) s10)) as_ m s11 ->
    does s C_DECLARE_RULE (y :: XL xs :: l1) s11
(* (declare-sort n k) *)
| do_sort : forall y n z k t s1 s2, named y n -> number z k -> type_constant s n (Z.to_nat k) t s1 -> bound s1 n t s2 ->
    does s C_DECLARE_SORT [y; z] s2
(* (define-const n T t) *)
| do_define_const : forall y n x ty s1 z e s2 s3, named y n -> type_in true s x ty s1 -> reads s1 z e s2 -> of_type s2 e ty ->
    bound s2 n e s3 -> does s C_DEFINE_CONST [y; x; z] s3
(* (define n (parameter ...) t :attribute ...); implicit parameters are not visible in t *)
| do_define : forall y n xs ps s1 s2 x e s3 r as_ m s4 s5 s6, named y n -> params_in K_LAMBDA (entered s) xs ps s1 ->
    visible s1 ps s2 -> reads s2 x e s3 ->
    r = match terms_of (explicit ps) with [] => e | vs => Node K_LAMBDA [Node K_TUPLE vs; e] end ->
    attrs_in K_LAMBDA K_NONE r s3 as_ m s4 -> left_scope s4 s5 -> bound s5 n r s6 ->
    does s C_DEFINE (y :: XL xs :: x :: as_) s6
(* (define-fun n (parameter ...) T t): a constant, and the assertion that it equals the definition *)
| do_define_fun : forall y n xs ps s1 s2 x ret s3 z e s4 eq rhs ty v s5 a s6 s7 s8, named y n -> params_in K_LAMBDA (entered s) xs ps s1 ->
    visible s1 ps s2 -> type_in true s2 x ret s3 -> reads s3 z e s4 -> (absent ret = false -> of_type s4 e ret) -> getVar (s_scope s4) (txt "=") = Some eq ->
    definition s4 (terms_of (explicit ps)) e ret rhs ty ->
    new K_CONST n (Some ty) s4 v s5 -> applied s5 [eq; v; rhs] a -> asserts s5 a s6 -> left_scope s6 s7 -> bound s7 n v s8 ->
    does s C_DEFINE_FUN [y; XL xs; x; z] s8
(* (define-sort n (X ...) T) *)
| do_define_sort : forall y n x ty s1 s2, named y n -> type_in true s x ty s1 -> bound s1 n ty s2 -> does s C_DEFINE_SORT [y; XL []; x] s2
| do_define_sort_params : forall y n ys names ps s1 x ty s2 s3 s4, named y n -> ys <> [] -> Forall2 named ys names ->
    each type_param (entered s) names ps s1 ->
    type_in true s1 x ty s2 -> left_scope s2 s3 -> bound s3 n (Node K_LAMBDA [Node K_TUPLE ps; ty]) s4 ->
    does s C_DEFINE_SORT [y; XL ys; x] s4
(* (echo), (echo "text") *)
| do_echo : does s C_ECHO [] (logged (EvEcho []) s)
| do_echo_text : forall x t, quoted x t -> does s C_ECHO [x] (logged (EvEcho t) s)
| do_exit : does s C_EXIT [] s
(* (include "file"), (reference "file"), (reference "file" normalizer) *)
| do_include : forall x f s1, s_asmctx s = [] -> quoted x f -> included f true false null_term s s1 -> does s C_INCLUDE [x] s1
| do_reference : forall x f s1, s_asmctx s = [] -> s_hasRef s = false -> quoted x f -> included f false true null_term s s1 ->
    does s C_REFERENCE [x] s1
| do_reference_nf : forall x f y nf s1 s2, s_asmctx s = [] -> s_hasRef s = false -> quoted x f -> reads s y nf s1 ->
    included f false true nf s1 s2 -> does s C_REFERENCE [x; y] s2
(* (program n (parameter ...) :signature (T ...) T (case ...)) *)
| do_program : forall y n xs ps s1 k ts tys s2 x ret s3 p fresh s4 more def s5 s6 s7 s8, named y n -> params_in K_PROGRAM (entered s) xs ps s1 ->
    keyed k "signature" -> ts <> [] -> each arg_type s1 ts tys s2 -> type_in true s2 x ret s3 ->
    program_symbol s3 n (Node K_PROGRAM_TYPE (tys ++ [ret])) p fresh s4 -> cases_in s4 p (length tys) more def s5 -> left_scope s5 s6 ->
    match def with Some d => marked p A_PROGRAM (Some d) s6 s7 | None => s7 = s6 end ->
    (if fresh then bound s7 n p s8 else s8 = s7) ->
    does s C_PROGRAM (y :: XL xs :: k :: XL ts :: x :: more) s8
| do_reset : does s C_RESET [] (logged EvReset (set_asmctx [] (set_asm [] (set_scope (resetScope (s_scope s)) s))))
(* (step n F :rule r :premises (t ...) :args (t ...)), (step-pop ...) *)
| do_step : forall xs s1, step_in false s xs s1 -> does s C_STEP xs s1
| do_step_pop : forall xs s1, s_asmctx s <> [] -> step_in true s xs s1 -> does s C_STEP_POP xs s1
(* (assert F), (check-sat), (check-sat-assuming (t ...)), (set-logic n) *)
| do_assert : forall x f s1 s2, formula_in s x f s1 -> asserts s1 f s2 -> does s C_ASSERT [x] s2
| do_check : does s C_CHECK_SAT [] s
| do_check_assuming : forall xs ts s1, each reads s xs ts s1 -> does s C_CHECK_SAT_ASSUMING [XL xs] s1
| do_logic : forall x n, named x n -> does s C_SET_LOGIC [x] s
(* (push), (push k), (pop), (pop k) *)
| do_push : forall xs k s1, count xs k -> every (fun s _ s' => s' = logged EvPush (entered s)) s (repeat tt (Z.to_nat k)) s1 ->
    does s C_PUSH xs s1
| do_pop : forall xs k s1, count xs k ->
    every (fun s _ s' => exists s1, left_scope s s1 /\ s' = logged EvPop s1) s (repeat tt (Z.to_nat k)) s1 -> does s C_POP xs s1
(* (set-info :key value), (set-option :key value) *)
| do_info : forall k x, is_keyword k = true -> does s C_SET_INFO [k; x] s
| do_option : forall w x o, option_in w x (s_opts s) o -> does s C_SET_OPTION [XT T_KEYWORD w; x] (set_opts o s).
End Cmd.
