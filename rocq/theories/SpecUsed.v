(** Terms made of the symbols of a state. *)
From Coq Require Import ZArith.
From Verif Require Import Base Kind Term Match Parse SpecMade.
Open Scope Z_scope.

(** The symbols that have been made so far: those with a smaller number than the next one (numbers below 0 are those of the
    placeholders that eo::nil and `as` use, Typing.v and Build.v). *)
Definition exists_in (s : st) (k : kind) (i : Z) : Prop := i < s_next s.
Definition over (G : config) (s : st) : term -> Prop := made_of (exists_in s) (g_varinfo G).

(** A step from [s] to [s'] leaves the symbols of [s] alone: the classes of literals have the types they had, and according to
    the events of the step no term made of the symbols of [s] got an attribute, and what was made are symbols (not variables,
    which getBoundVar makes, nor other terms). *)
Definition leaves (G : config) (s s' : st) : Prop :=
  (forall k, s_lits s' k = s_lits s k) /\
  exists l, s_log s' = (l ++ s_log s)%list /\ forall j e, List.In (j, e) l ->
    match e with
    | EvMark t _ _ => ~ over G s t
    | EvSymbol (Sym k _) _ => k <> K_VARIABLE
    | EvSymbol _ _ => False
    | _ => True
    end.
