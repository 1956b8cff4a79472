(** The built-in type of lists: user_manual.md 1348-1361. *)
From Coq Require Import ZArith List Bool.
From Verif Require Import Base Kind Ints Str Literal Arity Term Match Eval ListOps Typing Build Scope Lexer Parse.
Import ListNotations.
Open Scope Z_scope.

(** (declare-const eo::List Type)
    (declare-const eo::List::nil eo::List)
    (declare-parameterized-const eo::List::cons ((T Type :implicit)) (-> T eo::List eo::List) :right-assoc-nil eo::List::nil) *)
Record built_in_lists (E : env) : Prop := mkBuiltInLists {
  bl_list : exists i, e_listType E = Sym K_CONST i /\ e_symtype E (e_listType E) = Some (Node K_TYPE []);
  bl_nil : exists i, e_listNil E = Sym K_CONST i /\ e_symtype E (e_listNil E) = Some (e_listType E);
  bl_cons : exists i j, e_listCons E = Sym K_CONST i /\ e_symtype E (Sym K_PARAM j) = Some (Node K_TYPE []) /\
    e_symtype E (e_listCons E) =
      Some (Node K_FUNCTION_TYPE [Sym K_PARAM j; Node K_FUNCTION_TYPE [e_listType E; e_listType E]]);
  bl_attr : exists ai, e_info E (e_listCons E) = Some ai /\ ai_kind ai = K_NONE /\
    ai_cons ai = A_RIGHT_ASSOC_NIL /\ ai_cterm ai = Some (e_listNil E) }.
(** The name is bound to this symbol and nothing else was declared with it. *)
Definition stands_for (s : st) (n : text) (v : term) : Prop :=
  getVar (s_scope s) n = Some v /\ overloads_of (s_scope s) v = None.
(** The list of some terms. *)
Definition list_of (E : env) (ts : list term) : term :=
  fold_right (fun t l => Node K_APPLY [Node K_APPLY [e_listCons E; t]; l]) (e_listNil E) ts.
