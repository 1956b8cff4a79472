(** Symbol tables, overloads and scopes (src/state.cpp). *)
From Coq Require Import ZArith List Bool.
From Verif Require Import Base Kind Ints Str Literal Arity Term.
Import ListNotations.
Open Scope Z_scope.

(** The part of State for names: state.h 340-411.
    - [c_sym]: d_symTable; [c_rules]: d_ruleSymTable;
    - [c_over]: d_overloads, with no entry and an empty entry alike (they are
      told apart nowhere: state.cpp 245, 671, 820, 1279 use operator[]);
    - [c_mark]: d_isOverloaded and d_overloadName of d_appData (expr_info.h 41-48);
    - [c_ovd]: d_overloadedDecls, [c_decls]: d_decls, [c_ctx]: d_declsSizeCtx, each
      with the last element first. *)
Record scope : Type := mkScope {
  c_sym : text -> option term; c_rules : text -> option term;
  c_over : text -> list term; c_mark : term -> option text;
  c_ovd : list text; c_decls : list text; c_ctx : list nat }.

(** Assignment in a table. *)
Definition tset {A : Type} (m : text -> A) (n : text) (a : A) : text -> A :=
  fun n' => if text_eqb n n' then a else m n'.

(** Without any name: the state after State::reset of a fresh state. *)
Definition scope_empty : scope := mkScope (fun _ => None) (fun _ => None) (fun _ => []) (fun _ => None) [] [] [].

(** State::bind: state.cpp 1251-1300; [ruleTable] is the option rule-sym-table.
    [None]: the result false.  The assertion at line 1262 is not checked. *)
Definition bind_sym (ruleTable : bool) (s : scope) (name : text) (e : term) : option scope :=
  if ruleTable && kind_eqb (tkind e) K_PROOF_RULE then
    match c_rules s name with
    | Some _ => None
    | None => Some (mkScope (c_sym s) (tset (c_rules s) name (Some e)) (c_over s) (c_mark s) (c_ovd s) (c_decls s) (c_ctx s))
    end
  else
    let scoped := match c_ctx s with [] => false | _ => true end in
    let '(over, mark, ovd) :=
      match c_sym s name with
      | Some old =>
          let ov := match c_over s name with [] => [old] | ov => ov end in
          (tset (c_over s) name (ov ++ [e]),
           fun t => if term_eqb e t then Some name else c_mark s t,
           if scoped then name :: c_ovd s else c_ovd s)
      | None => (c_over s, c_mark s, c_ovd s)
      end in
    Some (mkScope (tset (c_sym s) name (Some e)) (c_rules s) over mark ovd
            (if scoped then name :: c_decls s else c_decls s) (c_ctx s)).

(** A new object is not marked as overloaded: the entry of an object in d_appData is
    erased when it is deleted, state.cpp 408-418. *)
Definition forget (v : term) (s : scope) : scope :=
  mkScope (c_sym s) (c_rules s) (c_over s) (fun t => if term_eqb v t then None else c_mark s t)
    (c_ovd s) (c_decls s) (c_ctx s).

(** State::pushScope: state.cpp 212-219. *)
Definition pushScope (s : scope) : scope :=
  mkScope (c_sym s) (c_rules s) (c_over s) (c_mark s) (c_ovd s) (c_decls s) (length (c_decls s) :: c_ctx s).

(** One pass of the loop of State::popScope: state.cpp 235-258.  An iterator that
    is end() is dereferenced at line 251; pop_back or back of an empty vector. *)
Definition undo (s : scope) (name : text) : res scope :=
  match c_ovd s with
  | o :: ovd' =>
      if text_eqb o name then
        match c_sym s name, rev (c_over s name) with
        | Some _, _ :: prev :: rest =>
            Ok (mkScope (tset (c_sym s) name (Some prev)) (c_rules s)
                  (tset (c_over s) name (match rest with [] => [] | _ => rev (prev :: rest) end))
                  (c_mark s) ovd' (c_decls s) (c_ctx s))
        | _, _ => UB
        end
      else Ok (mkScope (tset (c_sym s) name None) (c_rules s) (c_over s) (c_mark s) (c_ovd s) (c_decls s) (c_ctx s))
  | [] => Ok (mkScope (tset (c_sym s) name None) (c_rules s) (c_over s) (c_mark s) (c_ovd s) (c_decls s) (c_ctx s))
  end.
Fixpoint undo_list (s : scope) (names : list text) : res scope :=
  match names with
  | [] => Ok s
  | n :: names' => let* s' := undo s n in undo_list s' names'
  end.

(** State::popScope: state.cpp 221-262.  d_decls.resize adds empty strings if
    there are too few. *)
Definition popScope (s : scope) : res scope :=
  match c_ctx s with
  | [] => Err
  | lastSize :: ctx' =>
      let len := length (c_decls s) in
      let* s' := undo_list s (firstn (len - lastSize) (c_decls s)) in
      Ok (mkScope (c_sym s') (c_rules s') (c_over s') (c_mark s') (c_ovd s')
            (repeat [] (lastSize - len) ++ skipn (len - lastSize) (c_decls s)) ctx')
  end.

(** State::reset: state.cpp 199-210, for the tables of names. *)
Definition resetScope (s : scope) : scope :=
  mkScope (fun _ => None) (c_rules s) (c_over s) (c_mark s) (c_ovd s) [] [].

(** State::getVar: state.cpp 1344-1352; State::getProofRule: state.cpp 1374-1383. *)
Definition getVar (s : scope) (name : text) : option term := c_sym s name.
Definition getProofRule (ruleTable : bool) (s : scope) (name : text) : option term :=
  if ruleTable then c_rules s name else c_sym s name.
(** The alternatives for an application of [t]: state.cpp 668-671, 817-820. *)
Definition overloads_of (s : scope) (t : term) : option (list term) :=
  option_map (c_over s) (c_mark s t).

(** Commands that concern names.  A bind that returns false is a parse error:
    expr_parser.cpp 1171-1180. *)
Inductive scmd : Type :=
| SBind (name : text) (e : term)
| SPush
| SPop
| SReset.
Definition sexec1 (ruleTable : bool) (s : scope) (c : scmd) : res scope :=
  match c with
  | SBind n e => match bind_sym ruleTable s n e with Some s' => Ok s' | None => Err end
  | SPush => Ok (pushScope s)
  | SPop => popScope s
  | SReset => Ok (resetScope s)
  end.
Fixpoint sexec (ruleTable : bool) (s : scope) (cs : list scmd) : res scope :=
  match cs with
  | [] => Ok s
  | c :: cs' => let* s' := sexec1 ruleTable s c in sexec ruleTable s' cs'
  end.

(** * Settings made once *)
(** d_literalTypeRules (type_checker.cpp 28-31): the kinds of literals. *)
Definition literalKinds : list kind :=
  [K_BOOLEAN; K_NUMERAL; K_RATIONAL; K_BINARY; K_STRING; K_DECIMAL; K_HEXADECIMAL].

(** d_literalTypeRules: type_checker.h; [None] is the null Expr. *)
Definition lrules := kind -> option term.
Definition lrules_init : lrules := fun _ => None.
(** State::mkBuiltinType: state.cpp 586-590. *)
Definition any_term : term := Node K_ANY [].
(** TypeChecker::setLiteralTypeRule: type_checker.cpp 39-58. *)
Definition setLiteralTypeRule (m : lrules) (k : kind) (t : term) : res lrules :=
  if existsb (kind_eqb k) literalKinds then
    let m' := fun k' => if kind_eqb k k' then Some t else m k' in
    match m k with
    | Some t' => if term_eqb t' t then Ok m' else Err
    | None => Ok m'
    end
  else Err.
(** TypeChecker::getOrSetLiteralTypeRule: type_checker.cpp 60-80, before the
    parameter eo::self is replaced. *)
Definition getOrSetLiteralTypeRule (m : lrules) (k : kind) : res (lrules * term) :=
  if existsb (kind_eqb k) literalKinds then
    match m k with
    | Some t => Ok (m, t)
    | None => Ok (fun k' => if kind_eqb k k' then Some any_term else m k', any_term)
    end
  else Err.

(** d_attrCons and d_attrConsTerm of d_appData (expr_info.h 33-37); [None] is
    Attr::NONE. *)
Definition cmarks := term -> option (attr * option term).
(** State::markConstructorKind: state.cpp 1751-1770; no caller passes Attr::NONE. *)
Definition markConstructorKind (m : cmarks) (v : term) (a : attr) (ct : option term) : cmarks * bool :=
  match m v with
  | Some _ => (m, false)
  | None => (fun t => if term_eqb v t then Some (a, ct) else m t, true)
  end.

(** Requests about these settings, in any order. *)
Inductive aop : Type :=
| ASetRule (k : kind) (t : term)
| AGetRule (k : kind)
| AMark (v : term) (a : attr) (ct : option term)
| AAttr (v : term).                       (* State::getConstructorKind: state.cpp 1333-1341 *)
Inductive aout : Type := ADone | ATerm (t : term) | AAccepted (b : bool) | AAttrIs (r : option (attr * option term)).
Definition arun1 (s : lrules * cmarks) (o : aop) : res ((lrules * cmarks) * aout) :=
  let '(m, c) := s in
  match o with
  | ASetRule k t => let* m' := setLiteralTypeRule m k t in Ok ((m', c), ADone)
  | AGetRule k => let* (m', t) := getOrSetLiteralTypeRule m k in Ok ((m', c), ATerm t)
  | AMark v a ct => let '(c', b) := markConstructorKind c v a ct in Ok ((m, c'), AAccepted b)
  | AAttr v => Ok ((m, c), AAttrIs (c v))
  end.
Fixpoint arun (s : lrules * cmarks) (os : list aop) : res ((lrules * cmarks) * list aout) :=
  match os with
  | [] => Ok (s, [])
  | o :: os' =>
      let* (s1, r) := arun1 s o in
      let* (s2, rs) := arun s1 os' in
      Ok (s2, r :: rs)
  end.
