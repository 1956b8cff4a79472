(** The expression parser (src/expr_parser.cpp) and the parts of State that it
    changes (src/state.cpp). *)
From Coq Require Import String ZArith List Bool.
From Verif Require Import Base Kind Ints Str Literal Arity Term Match Eval ListOps Typing Build Scope Lexer.
Import ListNotations.
Open Scope Z_scope.

(** Options: state.h 32-69, without those that only concern printing. *)
Record options : Type := mkOptions {
  o_parseLet : bool; o_ruleSymTable : bool;
  o_normDec : bool; o_normHex : bool; o_normNum : bool }.
(** Options::Options: state.cpp 20-31. *)
Definition options_init : options := mkOptions true true true true false.
(** Options::setOption: state.cpp 33-82; [None]: the option is unknown. *)
Definition setOption (o : options) (key : text) (val : bool) : option options :=
  if text_eqb key (txt "parse-let") then Some (mkOptions val (o_ruleSymTable o) (o_normDec o) (o_normHex o) (o_normNum o))
  else if text_eqb key (txt "print-dag") || text_eqb key (txt "stats") || text_eqb key (txt "stats-all")
       || text_eqb key (txt "stats-compact") then Some o
  else if text_eqb key (txt "rule-sym-table") then Some (mkOptions (o_parseLet o) val (o_normDec o) (o_normHex o) (o_normNum o))
  else if text_eqb key (txt "normalize-dec") then Some (mkOptions (o_parseLet o) (o_ruleSymTable o) val (o_normHex o) (o_normNum o))
  else if text_eqb key (txt "normalize-num") then Some (mkOptions (o_parseLet o) (o_ruleSymTable o) (o_normDec o) (o_normHex o) val)
  else if text_eqb key (txt "normalize-hex") then Some (mkOptions (o_parseLet o) (o_ruleSymTable o) (o_normDec o) val (o_normNum o))
  else None.

(** What happens during a run, as a plugin is told: plugin.h 30-160 (symbols with
    their types are added: state.cpp 604-627; assertions: state.cpp 471-481). *)
Inductive event : Type :=
| EvSymbol (v : term) (ty : option term)                      (* mkSymbolInternal *)
| EvMark (v : term) (a : attr) (ct : option term)             (* markConstructorKind, defineProgram *)
| EvLiteral (k : kind) (t : term)                             (* setLiteralTypeRule *)
| EvInclude (file : text) (isReference : bool) (nf : term)    (* includeFile; nf is null if there is none *)
| EvAssume (name : text) (proven : term) (isPush : bool)      (* notifyAssume *)
| EvStep (name : text) (rule proven : term) (premises args : list term)
    (assumption : option term) (conclusion : term)            (* notifyStep *)
| EvRule (rule assume plCons : term) (premises args reqs : list term)
    (conc : term) (explicit : bool)                           (* declare-rule, as it was read *)
| EvAssert (a : term)                                         (* addReferenceAssert *)
| EvPush | EvPop | EvReset                                    (* the commands push, pop and reset *)
| EvSorry (rule : term)                                       (* :sorry, expr_parser.cpp 995-1003 *)
| EvEcho (s : text).                                          (* echo *)

(** State: state.h 340-461, and d_rstats of Stats.
    - [s_scope]: the tables of names (Scope.v); [s_marks]: d_attrCons and
      d_attrConsTerm of d_appData; [s_types]: d_typeCache for symbols;
      [s_names]: the texts of symbols; [s_lits]: d_literalTypeRules;
    - [s_next]: the next symbol, [Sym k s_next], instead of its address;
    - [s_asm]: d_assumptions in order; [s_asmctx]: d_assumptionsSizeCtx, the last first;
    - [s_hasRef], [s_refNf], [s_refs]: d_hasReference, d_referenceNf (null:
      [null_term]), d_referenceAsserts;
    - [s_incl]: d_includes; [s_input]: d_inputFile;
    - [s_sorry]: d_pfrSorry; [s_used]: the keys of d_rstats;
    - [s_log]: not in the program: what happened so far, the last first, each
      with the assumption level at that time. *)
Record st : Type := mkSt {
  s_scope : scope;
  s_marks : cmarks;
  s_types : term -> option term;
  s_names : term -> text;
  s_lits : lrules;
  s_next : Z;
  s_opts : options;
  s_asm : list term;
  s_asmctx : list nat;
  s_hasRef : bool;
  s_refNf : term;
  s_refs : list term;
  s_incl : list text;
  s_input : text;
  s_sorry : list term;
  s_used : list term;
  s_log : list (nat * event) }.
(** Assignments to the members of State (state.h 340-461). *)
Definition set_scope (x : scope) (s : st) : st :=
  mkSt x (s_marks s) (s_types s) (s_names s) (s_lits s) (s_next s) (s_opts s) (s_asm s) (s_asmctx s) (s_hasRef s) (s_refNf s) (s_refs s) (s_incl s) (s_input s) (s_sorry s) (s_used s) (s_log s).
Definition set_marks (x : cmarks) (s : st) : st :=
  mkSt (s_scope s) x (s_types s) (s_names s) (s_lits s) (s_next s) (s_opts s) (s_asm s) (s_asmctx s) (s_hasRef s) (s_refNf s) (s_refs s) (s_incl s) (s_input s) (s_sorry s) (s_used s) (s_log s).
Definition set_types (x : term -> option term) (s : st) : st :=
  mkSt (s_scope s) (s_marks s) x (s_names s) (s_lits s) (s_next s) (s_opts s) (s_asm s) (s_asmctx s) (s_hasRef s) (s_refNf s) (s_refs s) (s_incl s) (s_input s) (s_sorry s) (s_used s) (s_log s).
Definition set_names (x : term -> text) (s : st) : st :=
  mkSt (s_scope s) (s_marks s) (s_types s) x (s_lits s) (s_next s) (s_opts s) (s_asm s) (s_asmctx s) (s_hasRef s) (s_refNf s) (s_refs s) (s_incl s) (s_input s) (s_sorry s) (s_used s) (s_log s).
Definition set_lits (x : lrules) (s : st) : st :=
  mkSt (s_scope s) (s_marks s) (s_types s) (s_names s) x (s_next s) (s_opts s) (s_asm s) (s_asmctx s) (s_hasRef s) (s_refNf s) (s_refs s) (s_incl s) (s_input s) (s_sorry s) (s_used s) (s_log s).
Definition set_next (x : Z) (s : st) : st :=
  mkSt (s_scope s) (s_marks s) (s_types s) (s_names s) (s_lits s) x (s_opts s) (s_asm s) (s_asmctx s) (s_hasRef s) (s_refNf s) (s_refs s) (s_incl s) (s_input s) (s_sorry s) (s_used s) (s_log s).
Definition set_opts (x : options) (s : st) : st :=
  mkSt (s_scope s) (s_marks s) (s_types s) (s_names s) (s_lits s) (s_next s) x (s_asm s) (s_asmctx s) (s_hasRef s) (s_refNf s) (s_refs s) (s_incl s) (s_input s) (s_sorry s) (s_used s) (s_log s).
Definition set_asm (x : list term) (s : st) : st :=
  mkSt (s_scope s) (s_marks s) (s_types s) (s_names s) (s_lits s) (s_next s) (s_opts s) x (s_asmctx s) (s_hasRef s) (s_refNf s) (s_refs s) (s_incl s) (s_input s) (s_sorry s) (s_used s) (s_log s).
Definition set_asmctx (x : list nat) (s : st) : st :=
  mkSt (s_scope s) (s_marks s) (s_types s) (s_names s) (s_lits s) (s_next s) (s_opts s) (s_asm s) x (s_hasRef s) (s_refNf s) (s_refs s) (s_incl s) (s_input s) (s_sorry s) (s_used s) (s_log s).
Definition set_hasRef (x : bool) (s : st) : st :=
  mkSt (s_scope s) (s_marks s) (s_types s) (s_names s) (s_lits s) (s_next s) (s_opts s) (s_asm s) (s_asmctx s) x (s_refNf s) (s_refs s) (s_incl s) (s_input s) (s_sorry s) (s_used s) (s_log s).
Definition set_refNf (x : term) (s : st) : st :=
  mkSt (s_scope s) (s_marks s) (s_types s) (s_names s) (s_lits s) (s_next s) (s_opts s) (s_asm s) (s_asmctx s) (s_hasRef s) x (s_refs s) (s_incl s) (s_input s) (s_sorry s) (s_used s) (s_log s).
Definition set_refs (x : list term) (s : st) : st :=
  mkSt (s_scope s) (s_marks s) (s_types s) (s_names s) (s_lits s) (s_next s) (s_opts s) (s_asm s) (s_asmctx s) (s_hasRef s) (s_refNf s) x (s_incl s) (s_input s) (s_sorry s) (s_used s) (s_log s).
Definition set_incl (x : list text) (s : st) : st :=
  mkSt (s_scope s) (s_marks s) (s_types s) (s_names s) (s_lits s) (s_next s) (s_opts s) (s_asm s) (s_asmctx s) (s_hasRef s) (s_refNf s) (s_refs s) x (s_input s) (s_sorry s) (s_used s) (s_log s).
Definition set_input (x : text) (s : st) : st :=
  mkSt (s_scope s) (s_marks s) (s_types s) (s_names s) (s_lits s) (s_next s) (s_opts s) (s_asm s) (s_asmctx s) (s_hasRef s) (s_refNf s) (s_refs s) (s_incl s) x (s_sorry s) (s_used s) (s_log s).
Definition set_sorry (x : list term) (s : st) : st :=
  mkSt (s_scope s) (s_marks s) (s_types s) (s_names s) (s_lits s) (s_next s) (s_opts s) (s_asm s) (s_asmctx s) (s_hasRef s) (s_refNf s) (s_refs s) (s_incl s) (s_input s) x (s_used s) (s_log s).
Definition set_used (x : list term) (s : st) : st :=
  mkSt (s_scope s) (s_marks s) (s_types s) (s_names s) (s_lits s) (s_next s) (s_opts s) (s_asm s) (s_asmctx s) (s_hasRef s) (s_refNf s) (s_refs s) (s_incl s) (s_input s) (s_sorry s) x (s_log s).
Definition set_log (x : list (nat * event)) (s : st) : st :=
  mkSt (s_scope s) (s_marks s) (s_types s) (s_names s) (s_lits s) (s_next s) (s_opts s) (s_asm s) (s_asmctx s) (s_hasRef s) (s_refNf s) (s_refs s) (s_incl s) (s_input s) (s_sorry s) (s_used s) x.

(** What the model of a run depends on besides the texts.
    - [g_hash], [g_bvar], [g_varinfo]: the numbers given by State::getHash, the
      symbol for a variable of a name and a type (State::getBoundVar), and its
      name and type; as in Typing.v they are chosen beforehand;
    - [g_path]: the canonical path for the current file and a path in an include;
      [g_files]: the bytes of a file, if it exists;
    - [g_n], [g_mk], [g_fuel]: recursion bounds of the model. *)
Record config : Type := mkConfig {
  g_hash : term -> Z; g_bvar : text -> term -> Z; g_varinfo : Z -> option (text * term);
  g_path : text -> text -> text; g_files : text -> option text;
  g_n : nat; g_mk : nat; g_fuel : nat }.

(* ------------------------------------------------------------------ *)
(** * The initial state *)

(** The names bound by State::State: state.cpp 99-165. *)
Definition builtins : list (text * kind) :=
  map (fun p => (txt (fst p), snd p))
  [("->"%string, K_FUNCTION_TYPE); ("_"%string, K_APPLY);
   ("eo::is_ok"%string, K_EVAL_IS_OK); ("eo::is_eq"%string, K_EVAL_IS_EQ); ("eo::eq"%string, K_EVAL_EQ);
   ("eo::ite"%string, K_EVAL_IF_THEN_ELSE); ("eo::requires"%string, K_EVAL_REQUIRES); ("eo::hash"%string, K_EVAL_HASH);
   ("eo::nameof"%string, K_EVAL_NAME_OF); ("eo::typeof"%string, K_EVAL_TYPE_OF); ("eo::var"%string, K_EVAL_VAR);
   ("eo::cmp"%string, K_EVAL_COMPARE); ("eo::is_z"%string, K_EVAL_IS_Z); ("eo::is_q"%string, K_EVAL_IS_Q);
   ("eo::is_bin"%string, K_EVAL_IS_BIN); ("eo::is_str"%string, K_EVAL_IS_STR); ("eo::is_bool"%string, K_EVAL_IS_BOOL);
   ("eo::is_var"%string, K_EVAL_IS_VAR);
   ("eo::nil"%string, K_EVAL_NIL); ("eo::cons"%string, K_EVAL_CONS); ("eo::list_len"%string, K_EVAL_LIST_LENGTH);
   ("eo::list_concat"%string, K_EVAL_LIST_CONCAT); ("eo::list_nth"%string, K_EVAL_LIST_NTH); ("eo::list_find"%string, K_EVAL_LIST_FIND);
   ("eo::list_erase"%string, K_EVAL_LIST_ERASE); ("eo::list_erase_all"%string, K_EVAL_LIST_ERASE_ALL);
   ("eo::list_rev"%string, K_EVAL_LIST_REV); ("eo::list_setof"%string, K_EVAL_LIST_SETOF);
   ("eo::list_minclude"%string, K_EVAL_LIST_MINCLUDE); ("eo::list_meq"%string, K_EVAL_LIST_MEQ);
   ("eo::list_diff"%string, K_EVAL_LIST_DIFF); ("eo::list_inter"%string, K_EVAL_LIST_INTER);
   ("eo::list_singleton_elim"%string, K_EVAL_LIST_SINGLETON_ELIM);
   ("eo::not"%string, K_EVAL_NOT); ("eo::and"%string, K_EVAL_AND); ("eo::or"%string, K_EVAL_OR); ("eo::xor"%string, K_EVAL_XOR);
   ("eo::add"%string, K_EVAL_ADD); ("eo::neg"%string, K_EVAL_NEG); ("eo::mul"%string, K_EVAL_MUL);
   ("eo::zdiv"%string, K_EVAL_INT_DIV); ("eo::zmod"%string, K_EVAL_INT_MOD); ("eo::qdiv"%string, K_EVAL_RAT_DIV);
   ("eo::is_neg"%string, K_EVAL_IS_NEG); ("eo::to_z"%string, K_EVAL_TO_INT); ("eo::to_q"%string, K_EVAL_TO_RAT);
   ("eo::to_bin"%string, K_EVAL_TO_BIN); ("eo::to_str"%string, K_EVAL_TO_STRING); ("eo::gt"%string, K_EVAL_GT);
   ("eo::len"%string, K_EVAL_LENGTH); ("eo::concat"%string, K_EVAL_CONCAT); ("eo::extract"%string, K_EVAL_EXTRACT);
   ("eo::find"%string, K_EVAL_FIND);
   ("eo::dt_constructors"%string, K_EVAL_DT_CONSTRUCTORS); ("eo::dt_selectors"%string, K_EVAL_DT_SELECTORS);
   ("as"%string, K_AS_RETURN); ("eo::as"%string, K_AS)].
(** d_kind of d_appData: set by State::bindBuiltin only, state.cpp 1693-1715.  The
    i-th builtin is [Sym K_BUILTIN_CONST i]. *)
Definition builtin_kind (t : term) : kind :=
  match t with
  | Sym K_BUILTIN_CONST i => if 0 <=? i then snd (nth (Z.to_nat i) builtins ([], K_NONE)) else K_NONE
  | _ => K_NONE
  end.

(** The symbols made at state.cpp 175-194. *)
Definition n_builtins : Z := Z.of_nat (length builtins).
Definition sym_List : term := Sym K_CONST n_builtins.
Definition sym_nil : term := Sym K_CONST (n_builtins + 1).
Definition sym_T : term := Sym K_PARAM (n_builtins + 2).
Definition sym_cons : term := Sym K_CONST (n_builtins + 3).
Definition sym_self : term := Sym K_PARAM (n_builtins + 4).
Definition sym_Proof : term := Sym K_CONST (n_builtins + 5).
Definition type_cons : term := mkFunctionType [sym_T; sym_List] sym_List.

(** The names bound at state.cpp 99-186, in order. *)
Definition initial_names : list (text * term) :=
  map (fun p => (fst (snd p), Sym K_BUILTIN_CONST (Z.of_nat (fst p)))) (combine (seq 0 (length builtins)) builtins)
  ++ [(txt "true", Lit (LBool true)); (txt "false", Lit (LBool false)); (txt "eo::List", sym_List);
      (txt "eo::List::nil", sym_nil); (txt "eo::List::cons", sym_cons)].
Fixpoint bind_all (rt : bool) (l : list (text * term)) (s : scope) : scope :=
  match l with
  | [] => s
  | (n, e) :: l' => match bind_sym rt s n e with Some s' => bind_all rt l' s' | None => s end
  end.

(** The types and texts of these symbols.  The type of a builtin is null: d_any
    is not yet made at state.cpp 99-165. *)
Definition initial_types (t : term) : option term :=
  if term_eqb t sym_List then Some t_Type
  else if term_eqb t sym_nil then Some sym_List
  else if term_eqb t sym_T then Some t_Type
  else if term_eqb t sym_cons then Some type_cons
  else if term_eqb t sym_self then Some t_Any
  else if term_eqb t sym_Proof then Some t_Type
  else None.
Definition initial_texts (t : term) : text :=
  match t with
  | Sym K_BUILTIN_CONST i => fst (nth (Z.to_nat i) builtins ([], K_NONE))
  | _ => if term_eqb t sym_List then txt "eo::List" else if term_eqb t sym_nil then txt "eo::List::nil"
         else if term_eqb t sym_T then txt "T" else if term_eqb t sym_cons then txt "eo::List::cons"
         else if term_eqb t sym_self then txt "eo::self" else if term_eqb t sym_Proof then txt "eo::Proof" else []
  end.

(** State::State: state.cpp 84-195. *)
Definition st_init (o : options) : st :=
  mkSt (bind_all (o_ruleSymTable o) initial_names scope_empty)
    (fst (markConstructorKind (fun _ => None) sym_cons A_RIGHT_ASSOC_NIL (Some sym_nil)))
    initial_types initial_texts lrules_init (n_builtins + 6) o [] [] false null_term [] [] [] [] [] [].

(* ------------------------------------------------------------------ *)
(** * Commands on lexer and state *)

(** The lexer of the current file and the state. *)
Definition pst : Type := (lexer * st)%type.
(** A method of a parser: reads tokens, changes the state and gives a result. *)
Definition M (A : Type) : Type := pst -> res (A * pst).
Definition mret {A : Type} (a : A) : M A := fun p => Ok (a, p).
Definition mbind {A B : Type} (m : M A) (f : A -> M B) : M B :=
  fun p => let* r := m p in f (fst r) (snd r).
Definition mlift {A : Type} (r : res A) : M A := fun p => let* a := r in Ok (a, p).
(** d_lex.parseError, EO_FATAL. *)
Definition merr {A : Type} : M A := fun _ => Err.
Definition mget : M st := fun p => Ok (snd p, p).
Definition mupd (f : st -> st) : M unit := fun p => Ok (tt, (fst p, f (snd p))).
Definition mlex {A : Type} (f : lexer -> res (A * lexer)) : M A :=
  fun p => let* r := f (fst p) in Ok (fst r, (snd r, snd p)).
Notation "'let!' x ':=' e 'in' f" := (mbind e (fun x => f))
  (at level 61, x pattern, e at next level, right associativity).
Notation "e ';;' f" := (mbind e (fun _ => f)) (at level 61, right associativity).

(** A loop: [inl] to go on, [inr] to leave. *)
Fixpoint mloop {S A : Type} (fuel : nat) (body : S -> M (S + A)) (s : S) : M A :=
  match fuel with
  | O => fun _ => Fuel
  | Datatypes.S n =>
      let! r := body s in
      match r with
      | inl s' => mloop n body s'
      | inr a => mret a
      end
  end.
(** for (x : l). *)
Fixpoint mfor {A : Type} (l : list A) (f : A -> M unit) : M unit :=
  match l with
  | [] => mret tt
  | x :: l' => f x ;; mfor l' f
  end.
Fixpoint mmap {A B : Type} (l : list A) (f : A -> M B) : M (list B) :=
  match l with
  | [] => mret []
  | x :: l' => let! b := f x in let! bs := mmap l' f in mret (b :: bs)
  end.

(** The methods of the lexer (Lexer.v). *)
Definition next : M token := mlex nextToken.
Definition peek : M token := mlex peekToken.
Definition reinsert (t : token) : M unit := mlex (fun l => Ok (tt, reinsertToken t l)).
Definition eat (t : token) : M unit := mlex (fun l => let* l' := eatToken t l in Ok (tt, l')).
Definition eatChoice (t f : token) : M bool := mlex (eatTokenChoice t f).
Definition tokText : M text := mlex (fun l => Ok (tokenStr l, l)).
Definition tokSymbol (t : token) : M text := mlex (fun l => let* s := tokenStrToSymbol t l in Ok (s, l)).

(** Records what happens. *)
Definition logEvent (e : event) : M unit :=
  mupd (fun s => set_log ((length (s_asmctx s), e) :: s_log s) s).

Section Parse.
Variable G : config.

(** The state as the type checker sees it. *)
Definition env_of (s : st) : env :=
  mkEnv
    (fun t =>
       match builtin_kind t, s_marks s t, overloads_of (s_scope s) t with
       | K_NONE, None, None => None
       | k, m, o => Some (mkInfo (match m with Some (a, _) => a | None => A_NONE end)
                                 (match m with Some (_, c) => c | None => None end) k o)
       end)
    (g_hash G)
    (fun n t => Sym K_VARIABLE (g_bvar G n t))
    (fun t => match t with
              | Sym K_VARIABLE i => match g_varinfo G i with Some (n, _) => n | None => [] end
              | _ => s_names s t
              end)
    (fun t => match t with
              | Sym K_VARIABLE i => option_map snd (g_varinfo G i)
              | _ => s_types s t
              end)
    (s_lits s) sym_self sym_List sym_cons sym_nil sym_Proof.

(** State::mkExpr and the type checker, in the current state. *)
Definition mkE (k : kind) (children : list term) : M term :=
  let! s := mget in mlift (mkExpr (env_of s) (g_n G) (g_mk G) k children).
Definition typeOf (e : term) : M (option term) :=
  let! s := mget in mlift (tc_type (tc (env_of s) (g_n G)) e).
(** State::mkLiteral, as a term. *)
Definition mkLit (k : kind) (s : text) : M term := let! l := mlift (mkLiteral k s) in mret (Lit l).

(** State::mkSymbolInternal: state.cpp 604-627.  A new object has no entry in d_appData:
    those of deleted symbols are erased (state.cpp 408-418). *)
Definition mkSymbol (k : kind) (name : text) (ty : option term) : M term :=
  let! s := mget in
  let v := Sym k (s_next s) in
  mupd (fun s => set_next (s_next s + 1)
                   (set_names (fun t => if term_eqb v t then name else s_names s t)
                     (set_types (fun t => if term_eqb v t then ty else s_types s t)
                       (set_marks (fun t => if term_eqb v t then None else s_marks s t)
                         (set_scope (forget v (s_scope s)) s))))) ;;
  logEvent (EvSymbol v ty) ;; mret v.

(** State::markConstructorKind: state.cpp 1751-1770. *)
Definition markM (v : term) (a : attr) (ct : option term) : M bool :=
  let! s := mget in
  let '(m, b) := markConstructorKind (s_marks s) v a ct in
  if b then mupd (set_marks m) ;; logEvent (EvMark v a ct) ;; mret true else mret false.

(** State::bind: state.cpp 1251-1300; ExprParser::bind: expr_parser.cpp 1171-1180. *)
Definition bindState (name : text) (e : term) : M bool :=
  let! s := mget in
  match bind_sym (o_ruleSymTable (s_opts s)) (s_scope s) name e with
  | Some c => mupd (set_scope c) ;; mret true
  | None => mret false
  end.
Definition bindM (name : text) (e : term) : M unit :=
  let! ok := bindState name e in if ok then mret tt else merr.
(** State::pushScope, State::popScope: state.cpp 212-262. *)
Definition pushM : M unit := mupd (fun s => set_scope (pushScope (s_scope s)) s).
Definition popM : M unit :=
  let! s := mget in let! c := mlift (popScope (s_scope s)) in mupd (set_scope c).
Fixpoint popN (n : nat) : M unit := match n with O => mret tt | S m => popM ;; popN m end.

(** ExprParser::getVar: expr_parser.cpp 1141-1151. *)
Definition getVarM (name : text) : M term :=
  let! s := mget in
  match getVar (s_scope s) name with Some v => mret v | None => merr end.
(** ExprParser::getProofRule: expr_parser.cpp 1153-1169. *)
Definition getProofRuleM (name : text) : M term :=
  let! s := mget in
  match getProofRule (o_ruleSymTable (s_opts s)) (s_scope s) name with
  | Some v => if kind_eqb (tkind v) K_PROOF_RULE then mret v else merr
  | None => merr
  end.

(** ExprParser::typeCheck: expr_parser.cpp 1182-1214. *)
Definition typeCheck (e : term) : M term :=
  let! t := typeOf e in match t with Some t => mret t | None => merr end.
Definition typeCheckAs (e expected : term) : M unit :=
  let! t := typeCheck e in if term_eqb t expected then mret tt else merr.
(** ExprParser::typeCheckProgramPair: expr_parser.cpp 1216-1233. *)
Definition checkPair (pat ret : term) : M unit := mlift (typeCheckProgramPair sym_self pat ret).

(** State::getBoundVar: state.cpp 1354-1372. *)
Definition getBoundVar (name : text) (ty : term) : M term :=
  if isGround ty then mret (Sym K_VARIABLE (g_bvar G name ty))
  else let! l := mkLit K_STRING name in mkE K_EVAL_VAR [l; ty].

(** The constructor term of a symbol, null if there is none; d_appData is
    dereferenced without a check at state.cpp 1308 and 1319. *)
Definition consTermOf (v : term) : M term :=
  let! s := mget in
  match e_info (env_of s) v with
  | Some ai => mret (or_null (ai_cterm ai))
  | None => mlift UB
  end.
(** State::mkBinderList: state.cpp 1302-1311. *)
Definition mkBinderList (v : term) (vs : list term) : M term :=
  let! ct := consTermOf v in mkE K_APPLY (ct :: vs).
(** State::mkLetBinderList: state.cpp 1313-1331. *)
Definition mkLetBinderList (v : term) (lls : list (term * term)) : M term :=
  let! ct := consTermOf v in
  let! pairCons := mlift (vec_at (tchildren ct) 0) in
  let! listCons := mlift (vec_at (tchildren ct) 1) in
  let! vs := mmap lls (fun ll => mkE K_APPLY [pairCons; fst ll; snd ll]) in
  mkE K_APPLY (listCons :: vs).

(* ------------------------------------------------------------------ *)
(** * Attributes *)

(** ExprParser::ExprParser: expr_parser.cpp 63-92. *)
Definition strToAttr : list (text * attr) :=
  map (fun p => (txt (fst p), snd p))
  [(":implicit"%string, A_IMPLICIT); (":type"%string, A_TYPE); (":list"%string, A_LIST);
   (":left-assoc"%string, A_LEFT_ASSOC); (":right-assoc"%string, A_RIGHT_ASSOC);
   (":left-assoc-nil"%string, A_LEFT_ASSOC_NIL); (":right-assoc-nil"%string, A_RIGHT_ASSOC_NIL);
   (":left-assoc-non-singleton-nil"%string, A_LEFT_ASSOC_NS_NIL);
   (":right-assoc-non-singleton-nil"%string, A_RIGHT_ASSOC_NS_NIL);
   (":chainable"%string, A_CHAINABLE); (":pairwise"%string, A_PAIRWISE); (":binder"%string, A_BINDER);
   (":let-binder"%string, A_LET_BINDER); (":arg-list"%string, A_ARG_LIST); (":opaque"%string, A_OPAQUE);
   (":syntax"%string, A_SYNTAX); (":restrict"%string, A_RESTRICT); (":sorry"%string, A_SORRY)].
Definition strToLiteralKind : list (text * kind) :=
  map (fun p => (txt (fst p), snd p))
  [("<boolean>"%string, K_BOOLEAN); ("<numeral>"%string, K_NUMERAL); ("<decimal>"%string, K_DECIMAL);
   ("<rational>"%string, K_RATIONAL); ("<hexadecimal>"%string, K_HEXADECIMAL); ("<binary>"%string, K_BINARY);
   ("<string>"%string, K_STRING)].
Fixpoint table_find {A : Type} (l : list (text * A)) (s : text) : option A :=
  match l with
  | [] => None
  | (n, a) :: l' => if text_eqb n s then Some a else table_find l' s
  end.

(** AttrMap: attr.h 100: the values of each attribute, as one list of entries in
    the order in which they are read; the null Expr is [None]. *)
Notation attrmap := (list (attr * option term)).
Definition attr_values (m : attrmap) (a : attr) : list (option term) :=
  map snd (filter (fun p => attr_eqb (fst p) a) m).
Definition attr_mem (m : attrmap) (a : attr) : bool := existsb (fun p => attr_eqb (fst p) a) m.
Definition attr_erase (m : attrmap) (a : attr) : attrmap := filter (fun p => negb (attr_eqb (fst p) a)) m.

(** ExprParser::processAttributeMap: expr_parser.cpp 1283-1322.  The map is read
    in the order of the enumeration; warnings are not modelled.  State::mkExpr
    makes plain terms of TUPLE and PARAMETERIZED (state.cpp 826-838). *)
Definition processAttributeMap (m : attrmap) : res (option (attr * option term)) :=
  let entries := flat_map (fun a => map (fun v => (a, v)) (attr_values m a)) all_attrs in
  match find (fun p => isConstructorKindAttr (fst p)) entries with
  | None => Ok None
  | Some (a, Some av) =>
      if isGround av then Ok (Some (a, Some av))
      else
        let* params := getVariables [av] in
        Ok (Some (a, Some (Node K_PARAMETERIZED [Node K_TUPLE params; av])))
  | Some (a, None) => Ok (Some (a, None))
  end.
(** ExprParser::processAttributeMaps: expr_parser.cpp 1267-1281. *)
Definition processAttributeMaps (m : list (term * attrmap)) : M unit :=
  mfor m (fun p =>
    let! r := mlift (processAttributeMap (snd p)) in
    match r with
    | Some (a, ct) => let! _ := markM (fst p) a ct in mret tt
    | None => mret tt
    end).

(* ------------------------------------------------------------------ *)
(** * Tokens *)

(** ExprParser::parseSymbol: expr_parser.cpp 691-695. *)
Definition parseSymbol : M text := let! t := next in tokSymbol t.
(** ExprParser::parseSymbolList: expr_parser.cpp 697-710. *)
Definition parseSymbolList : M (list text) :=
  eat T_LPAREN ;;
  mloop (g_fuel G) (fun acc =>
    let! tok := next in
    if token_eqb tok T_RPAREN then mret (inr (rev acc))
    else reinsert tok ;; let! s := parseSymbol in mret (inl (s :: acc))) [].
(** ExprParser::parseKeyword: expr_parser.cpp 905-911. *)
Definition parseKeyword : M text := eat T_KEYWORD ;; let! s := tokText in mret (tl s).
(** ExprParser::parseIntegerNumeral: expr_parser.cpp 913-917. *)
Definition parseIntegerNumeral : M Z :=
  eat T_INTEGER ;; mlex (fun l => let* v := tokenStrToUnsigned l in Ok (v, l)).
(** ExprParser::parseStr with unescaping: expr_parser.cpp 956-965. *)
Definition parseStr : M text := eat T_STRING ;; let! s := tokText in mlift (unescapeString s).
(** ExprParser::parseLiteralKind: expr_parser.cpp 1101-1112. *)
Definition parseLiteralKind : M kind :=
  let! s := parseSymbol in
  match table_find strToLiteralKind s with Some k => mret k | None => merr end.
(** ExprParser::parseSymbolicExpr: expr_parser.cpp 574-596; nparen is a size_t, so
    that a closing parenthesis at 0 wraps around, and the next opening one back to 0. *)
Definition parseSymbolicExpr : M unit :=
  mloop (g_fuel G) (fun nparen =>
    let! tok := next in
    let! n := match tok with
              | T_LPAREN => mret ((nparen + 1) mod 2 ^ 64)
              | T_RPAREN => mret ((nparen - 1) mod 2 ^ 64)
              | T_EOF => merr
              | _ => mret nparen
              end in
    if n =? 0 then mret (inr tt) else mret (inl n)) 0.

(* ------------------------------------------------------------------ *)
(** * Methods that read terms *)
(** They are written with the method [pe] that reads a term. *)
Section Terms.
Variable sig : bool.         (* d_isSignature *)
Variable pe : M term.

(** ExprParser::parseType: expr_parser.cpp 469-523. *)
Definition parseTypeBody (allowEval : bool) : M term :=
  let! e := pe in
  typeCheckAs e t_Type ;;
  if isEvaluatable e && (isGround e || negb allowEval) then merr else mret e.
Definition parseType (allowQuoteArg allowEval : bool) : M term :=
  if allowQuoteArg then
    let! tok := next in
    if token_eqb tok T_LPAREN then
      let! tok2 := next in
      let! s := tokText in
      if token_eqb tok2 T_SYMBOL && text_eqb s (txt "eo::quote") then
        let! t := pe in
        if kind_eqb (tkind t) K_PARAM then eat T_RPAREN ;; mret (Node K_QUOTE_TYPE [t]) else merr
      else reinsert tok2 ;; reinsert T_LPAREN ;; parseTypeBody allowEval
    else reinsert tok ;; parseTypeBody allowEval
  else parseTypeBody allowEval.
(** ExprParser::parseFormula: expr_parser.cpp 525-532. *)
Definition parseFormula : M term := let! e := pe in typeCheckAs e t_Bool ;; mret e.
(** ExprParser::parseExprList: expr_parser.cpp 534-547; ExprParser::parseTypeList:
    expr_parser.cpp 549-563. *)
Definition parseListOf (item : M term) : M (list term) :=
  eat T_LPAREN ;;
  mloop (g_fuel G) (fun acc =>
    let! tok := next in
    if token_eqb tok T_RPAREN then mret (inr (rev acc))
    else reinsert tok ;; let! t := item in mret (inl (t :: acc))) [].
Definition parseExprList : M (list term) := parseListOf pe.
Definition parseTypeList (allowQuoteArg : bool) : M (list term) := parseListOf (parseType allowQuoteArg false).
(** ExprParser::parseExprPair: expr_parser.cpp 565-572. *)
Definition parseExprPair : M term :=
  eat T_LPAREN ;; let! t1 := pe in let! t2 := pe in eat T_RPAREN ;; mret (Node K_TUPLE [t1; t2]).
(** ExprParser::parseExprPairList: expr_parser.cpp 598-611. *)
Definition parseExprPairList : M (list term) :=
  eat T_LPAREN ;;
  mloop (g_fuel G) (fun acc =>
    let! more := eatChoice T_LPAREN T_RPAREN in
    if more then
      let! t1 := pe in let! t2 := pe in eat T_RPAREN ;; mret (inl (Node K_TUPLE [t1; t2] :: acc))
    else mret (inr (rev acc))) [].

(** ExprParser::parseAttributeList: expr_parser.cpp 967-1099.  [None]: the
    attribute is not handled there. *)
Definition parseAttrValue (k : kind) (e : term) (plk : kind) (a : attr) : M (option (option term)) :=
  match k with
  | K_PROOF_RULE =>
      match a with
      | A_SORRY => mupd (fun s => set_sorry (e :: s_sorry s) s) ;; logEvent (EvSorry e) ;; mret (Some None)
      | _ => mret None
      end
  | K_PARAM =>
      match plk with
      | K_CONST | K_LAMBDA =>
          match a with
          | A_IMPLICIT | A_OPAQUE => mret (Some None)
          | A_RESTRICT => let! v := pe in mret (Some (Some v))
          | A_SYNTAX => let! _ := parseLiteralKind in mret (Some None)
          | _ => mret None
          end
      | _ => mret None
      end
  | K_CONST =>
      match a with
      | A_RIGHT_ASSOC | A_LEFT_ASSOC => mret (Some None)
      | A_RIGHT_ASSOC_NIL | A_LEFT_ASSOC_NIL | A_RIGHT_ASSOC_NS_NIL | A_LEFT_ASSOC_NS_NIL
      | A_CHAINABLE | A_PAIRWISE | A_BINDER | A_ARG_LIST => let! v := pe in mret (Some (Some v))
      | A_LET_BINDER => let! v := parseExprPair in mret (Some (Some v))
      | _ => mret None
      end
  | K_LAMBDA =>
      match a with
      | A_TYPE => let! v := pe in typeCheckAs e v ;; mret (Some (Some v))
      | _ => mret None
      end
  | _ => mret None
  end.
Definition parseAttributeList (k : kind) (e : term) (plk : kind) : M attrmap :=
  let! attrs :=
    mloop (g_fuel G) (fun acc =>
      let! more := eatChoice T_KEYWORD T_RPAREN in
      if more then
        let! key := tokText in
        match table_find strToAttr key with
        | None =>
            let! tok := peek in
            (if token_eqb tok T_KEYWORD || token_eqb tok T_RPAREN then mret tt else parseSymbolicExpr) ;;
            mret (inl ((A_NONE, None) :: acc))
        | Some a =>
            if kind_eqb k K_PARAM && attr_eqb a A_LIST then
              let! _ := markM e a None in mret (inl acc)
            else
              let! v := parseAttrValue k e plk a in
              match v with
              | Some v => mret (inl ((a, v) :: acc))
              | None => merr
              end
        end
      else mret (inr (rev acc))) [] in
  reinsert T_RPAREN ;; mret attrs.

(** ExprParser::parseAndBindSortedVarList: expr_parser.cpp 621-665.  The map amap
    is a list, the parameters being made anew. *)
Definition parseVarListMap (k : kind) : M (list term * list (term * attrmap)) :=
  eat T_LPAREN ;;
  mloop (g_fuel G) (fun acc =>
    let '(vars, amap) := acc in
    let! more := eatChoice T_LPAREN T_RPAREN in
    if more then
      let! name := parseSymbol in
      let! t := parseType false false in
      match k with
      | K_NONE =>
          let! v := getBoundVar name t in
          bindM name v ;; eat T_RPAREN ;; mret (inl (v :: vars, amap))
      | _ =>
          let! v := mkSymbol K_PARAM name (Some t) in
          bindM name v ;;
          let! attrs := parseAttributeList K_PARAM v k in
          eat T_RPAREN ;;
          if attr_mem attrs A_IMPLICIT then mret (inl (vars, (v, attr_erase attrs A_IMPLICIT) :: amap))
          else mret (inl (v :: vars, (v, attrs) :: amap))
      end
    else mret (inr (rev vars, rev amap))) ([], []).
(** expr_parser.cpp 613-619. *)
Definition parseVarList (k : kind) : M (list term) :=
  let! (vars, amap) := parseVarListMap k in
  processAttributeMaps amap ;; mret vars.

(** ExprParser::parseAndBindLetList: expr_parser.cpp 667-689.  The name of the
    variable is read off it; a variable that is an unevaluated eo::var has none
    (Expr::getSymbol of a term that is not a literal: undefined). *)
Definition parseLetList : M (list (term * term)) :=
  eat T_LPAREN ;;
  let! lls := mloop (g_fuel G) (fun acc =>
    let! more := eatChoice T_LPAREN T_RPAREN in
    if more then
      let! name := parseSymbol in
      let! t := pe in
      eat T_RPAREN ;;
      let! ty := typeCheck t in
      let! v := getBoundVar name ty in
      mret (inl ((v, t) :: acc))
    else mret (inr (rev acc))) [] in
  mfor lls (fun ll =>
    match fst ll with
    | Sym _ _ => let! s := mget in bindM (e_name (env_of s) (fst ll)) (fst ll)
    | _ => mlift UB
    end) ;;
  mret lls.

(** State::defineProgram: state.cpp 1717-1728. *)
Definition defineProgram (v prog : term) : M unit := let! _ := markM v A_PROGRAM (Some prog) in mret tt.
(** State::mkDisambiguatedType: state.cpp 889-920. *)
Definition mkDisambiguatedType (pat ret : term) (name : text) : M term :=
  let! tprog := mkSymbol K_PROGRAM_CONST (txt "$eo_disamb_type_" ++ name) (Some (Node K_PROGRAM_TYPE [t_Type; t_Type])) in
  let! tpat := mkE K_APPLY [tprog; pat] in
  let! prog := mkE K_PROGRAM [Node K_TUPLE [tpat; ret]] in
  defineProgram tprog prog ;;
  let! tv := mkSymbol K_PARAM (txt "$eo_disamb_type_" ++ name ++ txt "_var") (Some t_Type) in
  let! fapp := mkE K_APPLY [tprog; tv] in
  mret (mkFunctionType [Node K_QUOTE_TYPE [tv]] fapp).

(** ExprParser::parseConstructorDefinitionList: expr_parser.cpp 837-903.  Results:
    the constructors with their selectors and whether they are ambiguous, and
    the names to bind in order. *)
Notation dtcon := (term * list term * bool)%type.
Definition parseSelectors (dt : term) (tobind : list (text * term))
  : M (list term * list term * list (text * term)) :=
  mloop (g_fuel G) (fun acc =>
    let '(types, sels, tb) := acc in
    let! more := eatChoice T_LPAREN T_RPAREN in
    if more then
      let! id := parseSymbol in
      let! t := parseType false true in
      let! sel := mkSymbol K_CONST id (Some (mkFunctionType [dt] t)) in
      let! upd := mkSymbol K_CONST (txt "update-" ++ id) (Some (mkFunctionType [dt; t] dt)) in
      eat T_RPAREN ;;
      mret (inl (types ++ [t], sels ++ [sel], tb ++ [(id, sel); (txt "update-" ++ id, upd)]))
    else mret (inr (types, sels, tb))) ([], [], tobind).
Definition parseConstructors (dt : term) (params : list term) : M (list dtcon * list (text * term)) :=
  eat T_LPAREN ;;
  mloop (g_fuel G) (fun acc =>
    let '(dcs, tb) := acc in
    let! more := eatChoice T_LPAREN T_RPAREN in
    if more then
      let! name := parseSymbol in
      let! (types, sels, tb1) := parseSelectors dt tb in
      let ctype0 := mkFunctionType types dt in
      let! fv := match params with
                 | [] => mret None
                 | _ => mlift (let* pargs := getVariables types in findFreeVar sym_self dt pargs)
                 end in
      let! ctype := match fv with
                    | Some _ => mkDisambiguatedType dt ctype0 name
                    | None => mret ctype0
                    end in
      let! con := mkSymbol K_CONST name (Some ctype) in
      let! tester := mkSymbol K_CONST (txt "is-" ++ name) (Some (mkFunctionType [dt] t_Bool)) in
      mret (inl (dcs ++ [(con, sels, match fv with Some _ => true | None => false end)],
                 tb1 ++ [(name, con); (txt "is-" ++ name, tester)]))
    else mret (inr (dcs, tb))) ([], []).

(** State::mkTypeConstant: state.cpp 497-514. *)
Definition mkTypeConstant (name : text) (arity : nat) : M term :=
  mkSymbol K_CONST name (Some (mkFunctionType (repeat t_Type arity) t_Type)).
(** ExprParser::parseDatatypesDef: expr_parser.cpp 712-835.  A bind that fails:
    parseDatatypesDef returns false, which is a parse error (cmd_parser.cpp 328-331). *)
Definition parseDatatypesDef (dnames : list text) (arities : list nat) : M (list (term * list dtcon)) :=
  let! dts0 := mmap (combine dnames arities) (fun p =>
    let! t := mkTypeConstant (fst p) (snd p) in bindM (fst p) t ;; mret t) in
  let! tok := next in
  mloop (g_fuel G) (fun acc =>
    let '(tok, i, dtlist, out) := acc in
    if negb (token_eqb tok T_LPAREN) then
      if Nat.eqb (length dtlist) (length dnames) then reinsert tok ;; mret (inr (rev out)) else merr
    else
      match nth_error dnames i with
      | None => merr
      | Some dname =>
          let! tok2 := next in
          let pushed := token_eqb tok2 T_PAR in
          let! params :=
            if pushed then
              pushM ;;
              let! syms := parseSymbolList in
              match syms with
              | [] => merr
              | _ => mmap syms (fun sym =>
                       let! t := mkSymbol K_PARAM sym (Some t_Type) in bindM sym t ;; mret t)
              end
            else reinsert tok2 ;; reinsert T_LPAREN ;; mret [] in
          let! dtlist1 :=
            match nth_error arities i with
            | None => let! t := mkTypeConstant dname (length params) in bindM dname t ;; mret (dtlist ++ [t])
            | Some a => if Nat.eqb (length params) a then mret dtlist else merr
            end in
          let! dt := mlift (vec_at dtlist1 i) in
          let! dti := match params with
                      | [] => mret dt
                      | _ => mkE K_APPLY (dt :: params)
                      end in
          let! (dcs, tobind) := parseConstructors dti params in
          (if pushed then eat T_RPAREN ;; popM else mret tt) ;;
          mfor tobind (fun b => bindM (fst b) (snd b)) ;;
          let! tok3 := next in
          mret (inl (tok3, S i, dtlist1, (dt, dcs) :: out))
      end) (tok, O, dts0, []).

(* ------------------------------------------------------------------ *)
(** * Terms *)

(** ParseCtx, StackFrame: expr_parser.cpp 19-112. *)
Inductive pctx : Type := CNextArg | CLetNextBind | CLetBody | CAnnotate.
Record pframe : Type := mkPFrame { pf_ctx : pctx; pf_nscopes : nat; pf_args : list term }.

(** The literals of expr_parser.cpp 273-360. *)
Definition parseLiteral (tok : token) : M term :=
  let! s := mget in
  let! str := tokText in
  match tok with
  | T_INTEGER =>
      if negb sig && o_normNum (s_opts s) then
        let! r := mlift (rat_ofString str) in mkLit K_RATIONAL (rat_toString r)
      else mkLit K_NUMERAL str
  | T_DECIMAL =>
      if negb sig && o_normDec (s_opts s) then
        let! r := mlift (rat_fromDecimal str) in mkLit K_RATIONAL (rat_toString r)
      else mkLit K_DECIMAL str
  | T_RATIONAL =>
      let fix den s := match s with [] => None | c :: s' => if c =? 47 then Some s' else den s' end in
      match den str with
      | Some d => if forallb (fun c => c =? 48) d then merr else mkLit K_RATIONAL str
      | None => mkLit K_RATIONAL str
      end
  | T_HEX =>
      let hex := skipn 2 str in
      if negb sig && o_normHex (s_opts s) then
        let! b := mlift (bv_ofString 16 hex) in mkLit K_BINARY (bv_toString 2 b)
      else mkLit K_HEXADECIMAL hex
  | T_BINARY => mkLit K_BINARY (skipn 2 str)
  | T_STRING =>
      let! u := mlift (unescapeString str) in
      mkLit K_STRING (str_toText (str_ofText true u))
  | T_TYPE => mret t_Type
  | T_BOOL_TYPE => mret t_Bool
  | _ => merr
  end.

(** The head of an application: expr_parser.cpp 170-235. *)
Definition parseHead (tok : token) : M pframe :=
  let! name := tokSymbol tok in
  let! v := getVarM name in
  let! s := mget in
  match getConstructorKind (env_of s) v with
  | (A_BINDER | A_LET_BINDER) as ck =>
      let! tok1 := next in
      if token_eqb tok1 T_LPAREN then
        let! tok2 := peek in
        reinsert T_LPAREN ;;
        if token_eqb tok2 T_LPAREN then
          pushM ;;
          let! vl :=
            match ck with
            | A_BINDER =>
                let! vs := parseVarList K_NONE in
                match vs with [] => merr | _ => mkBinderList v vs end
            | _ =>
                let! lls := parseLetList in
                match lls with [] => merr | _ => mkLetBinderList v lls end
            end in
          mret (mkPFrame CNextArg 1 [v; vl])
        else mret (mkPFrame CNextArg 0 [v])
      else reinsert tok1 ;; mret (mkPFrame CNextArg 0 [v])
  | _ => mret (mkPFrame CNextArg 0 [v])
  end.

(** The variables of the loop of parseExpr: ret (null: [null_term]), pstack and
    letBinders, both with the last element first. *)
Notation lets := (list (list (text * term))).

(** The loop at expr_parser.cpp 384-463, with needsUpdateCtx false.  The frame
    stays unless it is a body that has been read. *)
Definition letNext (fr : pframe) (rest : list pframe) (lb : lets) : M (list pframe * lets) :=
  let! more := eatChoice T_LPAREN T_RPAREN in
  match lb with
  | [] => mlift UB
  | bs :: lb' =>
      if more then
        let! name := parseSymbol in
        mret (fr :: rest, (bs ++ [(name, null_term)]) :: lb')
      else
        pushM ;;
        mfor bs (fun b => bindM (fst b) (snd b)) ;;
        mret (mkPFrame CLetBody (S (pf_nscopes fr)) (pf_args fr) :: rest, lb')
  end.
Fixpoint updateCtx (ret : term) (pstack : list pframe) (lb : lets) : M (term * list pframe * lets) :=
  match pstack with
  | [] => mret (ret, [], lb)
  | fr :: rest =>
      if kind_eqb (tkind ret) K_NONE then mret (ret, pstack, lb)
      else
        match pf_ctx fr with
        | CNextArg => mret (null_term, mkPFrame CNextArg (pf_nscopes fr) (pf_args fr ++ [ret]) :: rest, lb)
        | CLetNextBind =>
            match lb with
            | [] => mlift UB
            | bs :: lb' =>
                match rev bs with
                | [] => mlift UB
                | (n, _) :: before =>
                    eat T_RPAREN ;;
                    let! (ps, lb2) := letNext fr rest (rev ((n, ret) :: before) :: lb') in
                    mret (null_term, ps, lb2)
                end
            end
        | CLetBody => eat T_RPAREN ;; popN (pf_nscopes fr) ;; updateCtx ret rest lb
        | CAnnotate =>
            let! _ := parseAttributeList K_NONE ret K_NONE in
            eat T_RPAREN ;; popN (pf_nscopes fr) ;; updateCtx ret rest lb
        end
  end.

(** ExprParser::parseExpr: expr_parser.cpp 114-467; one pass of the outer loop.
    pstack.back() of an empty vector at line 258 is undefined. *)
Definition parseStep (st : list pframe * lets) : M ((list pframe * lets) + term) :=
  let '(pstack, lb) := st in
  let! tok := next in
  let! (ret, ps, lb1) :=
    match tok with
    | T_LPAREN =>
        let! tok1 := next in
        match tok1 with
        | T_LET | T_EVAL_DEFINE =>
            eat T_LPAREN ;;
            let! (ps, lb1) := letNext (mkPFrame CLetNextBind 0 []) pstack ([] :: lb) in
            mret (null_term, ps, lb1)
        | T_ATTRIBUTE => mret (null_term, mkPFrame CAnnotate 0 [] :: pstack, lb)
        | T_LPAREN =>
            let! tok2 := next in
            let! name := tokSymbol tok2 in
            if text_eqb name (txt "_") || text_eqb name (txt "as") then
              let! fr := parseHead tok2 in
              mret (null_term, fr :: mkPFrame CNextArg 0 [] :: pstack, lb)
            else merr
        | T_SYMBOL | T_QUOTED_SYMBOL =>
            let! fr := parseHead tok1 in
            mret (null_term, fr :: pstack, lb)
        | _ => merr
        end
    | T_RPAREN =>
        match pstack with
        | [] => mlift UB
        | fr :: rest =>
            match pf_ctx fr with
            | CNextArg =>
                let! r := mkE K_APPLY (pf_args fr) in
                popN (pf_nscopes fr) ;; mret (r, rest, lb)
            | _ => merr
            end
        end
    | T_SYMBOL | T_QUOTED_SYMBOL =>
        let! name := tokSymbol tok in
        let! v := getVarM name in
        if kind_eqb (tkind v) K_BUILTIN_CONST then merr else mret (v, pstack, lb)
    | _ => let! r := parseLiteral tok in mret (r, pstack, lb)
    end in
  let! (ret2, ps2, lb2) := updateCtx ret ps lb1 in
  match ps2 with
  | [] => mret (inr ret2)
  | _ => mret (inl (ps2, lb2))
  end.
End Terms.

(** ExprParser::parseExpr: expr_parser.cpp 114-467. *)
Fixpoint parseExpr (sig : bool) (fuel : nat) : M term :=
  match fuel with
  | O => fun _ => Fuel
  | S n => mloop (g_fuel G) (parseStep sig (parseExpr sig n)) ([], [])
  end.
End Parse.
