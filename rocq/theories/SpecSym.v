(** What is known about a symbol does not change. *)
From Coq Require Import ZArith List Bool.
From Verif Require Import Base Kind Term Typing Parse Check.
Import ListNotations.
Open Scope Z_scope.

(** The term is not a symbol that is still to be made. *)
Definition old (s : st) (t : term) : Prop := match t with Sym _ i => i < s_next s | _ => True end.
(** Names and types of the symbols of [s] are the same in [s'], and so are the attributes that
    they have in [s]. *)
Definition symbols_kept (s s' : st) : Prop :=
  forall t, old s t -> old s' t /\ s_names s' t = s_names s t /\ s_types s' t = s_types s t /\
    forall m, s_marks s t = Some m -> s_marks s' t = Some m.
(** How often a symbol was made. *)
Definition made (v : term) (e : event) : bool := match e with EvSymbol u _ => term_eqb u v | _ => false end.
