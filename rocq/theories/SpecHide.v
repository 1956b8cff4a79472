(** Names that are bound inside a term: what the words of the body stand for. *)
From Coq Require Import String ZArith List Bool.
From Verif Require Import Base Kind Ints Str Literal Arity Term Match Eval ListOps Typing Build Scope Lexer Parse SpecRead.
Import ListNotations.

(** A word, where the name [n] stands for [f] and every other name for what it stands for
    in [s]. *)
Inductive word_where (sig : bool) (s : st) (n : text) (f : term) : sx -> term -> Prop :=
| ww_this : forall k w, name_of k w = Some n -> word_where sig s n f (XT k w) f
| ww_other : forall k w m v, name_of k w = Some m -> m <> n -> getVar (s_scope s) m = Some v -> tkind v <> K_BUILTIN_CONST ->
    ~ skipped v -> word_where sig s n f (XT k w) v
| ww_word : forall k w v, word_term sig (s_opts s) k w v -> ~ skipped v -> word_where sig s n f (XT k w) v.
(** A term that stands for itself only: not built in, without attribute, without
    alternatives, and not a lambda term, a program or a rule. *)
Record plain_function (s : st) (f : term) : Prop := {
  pf_builtin : builtin_kind f = K_NONE; pf_mark : s_marks s f = None; pf_over : overloads_of (s_scope s) f = None;
  pf_kind : ~ In (tkind f) [K_LAMBDA; K_PROGRAM_CONST; K_PROOF_RULE; K_BUILTIN_CONST; K_NONE] }.
(** Application to one argument after the other. *)
Definition curried (f : term) (ts : list term) : term := fold_left (fun g x => Node K_APPLY [g; x]) ts f.
