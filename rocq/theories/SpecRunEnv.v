(** What the type checker of a run works with. *)
From Coq Require Import ZArith List Bool.
From Verif Require Import Base Kind Ints Literal Term Match SpecTerm Eval ListOps Typing Build Scope Lexer Parse.
Import ListNotations.
Open Scope Z_scope.

(** The types of variables are well-formed.  (The code makes a variable in getBoundVar only,
    from a type that the parser has read: state.cpp 586-602.) *)
Definition variables_wf (G : config) : Prop := forall i n t, g_varinfo G i = Some (n, t) -> twf t.
(** The cases that a program was declared with. *)
Definition case_of (c : term) : pcase :=
  match c with Node _ [Node _ (_ :: ps); r] => (ps, r) | _ => ([], c) end.
Definition programs_in (s : st) (hd : term) : option (list pcase) :=
  match s_marks s hd with
  | Some (A_PROGRAM, Some (Node _ cs)) => Some (map case_of cs)
  | _ => None
  end.
