(** What the cache of types is for: answers as if it were not there. *)
From Coq Require Import ZArith List Bool.
From Verif Require Import Base Kind Ints Str Literal Arity Term Match Eval ListOps Typing SpecTerm Cache.
Import ListNotations.

Section Answers.
Variable E : env.
(** The type of a term, computed anew from the declarations. *)
Definition has_answer (t : term) (r : option term) : Prop := exists n, tc_type (tc E n) t = Ok r.
(** What may be in the cache: types of compound terms and, with a term, its parts. *)
Record good (c : cache) : Prop := {
  gd_right : forall t ty, In (t, ty) c -> has_answer t (Some ty);
  gd_closed : forall t ty, In (t, ty) c -> forall u, In u (tchildren t) -> find E c u <> None }.
(** Calls of getType while evaluating leave a good cache. *)
Definition good_nested (nested : cache -> term -> cache) : Prop :=
  forall c t, good c -> good (nested c t) /\ incl c (nested c t).
(** The caches that arise without a change of the declarations: types are asked
    for, and entries disappear with the terms (which are no parts of others then). *)
Inductive arises : cache -> Prop :=
| ar_none : arises []
| ar_asked : forall c nested n m t r c', arises c -> good_nested nested ->
    getTypeCached E (tc_eval (tc E n)) nested m c t = Ok (r, c') -> arises c'
| ar_deleted : forall c c', arises c -> incl c' c ->
    (forall t ty, In (t, ty) c' -> forall u, In u (tchildren t) -> find E c u <> None -> find E c' u <> None) -> arises c'.
(** The quoted terms in the types of the parts of a term are symbols. *)
Definition quotes_symbols (t : term) : Prop :=
  forall u ty q qs, occurs u t -> has_answer u (Some ty) -> In (Node K_QUOTE_TYPE (q :: qs)) (tchildren ty) ->
    exists k i, q = Sym k i.
End Answers.
