(** What names mean: a stack of declaration lists. *)
From Coq Require Import ZArith List Bool.
From Verif Require Import Base Kind Ints Str Literal Arity Term Scope.
Import ListNotations.
Open Scope Z_scope.

Notation decl := (text * term)%type (only parsing).
(** The declarations of the open scopes, innermost first, and the global ones; in
    each list the latest declaration first. *)
Definition frames := (list (list decl) * list decl)%type.
Definition visible (F : frames) : list decl := concat (fst F) ++ snd F.
(** The visible declarations of a name, latest first. *)
Definition named (n : text) (ds : list decl) : list term :=
  map snd (filter (fun d => text_eqb (fst d) n) ds).
Definition declare (F : frames) (d : decl) : frames :=
  match F with
  | ([], g) => ([], d :: g)
  | (f :: fs, g) => ((d :: f) :: fs, g)
  end.

(** With separate tables, rules are not names of terms. *)
Definition is_rule (ruleTable : bool) (e : term) : bool := ruleTable && kind_eqb (tkind e) K_PROOF_RULE.

(** The scopes after a command sequence without reset. *)
Inductive scopes (ruleTable : bool) : frames -> list scmd -> frames -> Prop :=
| sc_nil : forall F, scopes ruleTable F [] F
| sc_bind : forall F n e cs F',
    is_rule ruleTable e = false -> scopes ruleTable (declare F (n, e)) cs F' ->
    scopes ruleTable F (SBind n e :: cs) F'
| sc_rule : forall F n e cs F',
    is_rule ruleTable e = true -> scopes ruleTable F cs F' ->
    scopes ruleTable F (SBind n e :: cs) F'
| sc_push : forall fs g cs F',
    scopes ruleTable ([] :: fs, g) cs F' -> scopes ruleTable (fs, g) (SPush :: cs) F'
| sc_pop : forall f fs g cs F',
    scopes ruleTable (fs, g) cs F' -> scopes ruleTable (f :: fs, g) (SPop :: cs) F'.

(** Alternatives: only a name with several declarations has any. *)
Definition alternatives (ts : list term) : list term :=
  match ts with
  | [] | [_] => []
  | _ => rev ts
  end.

(** A block that closes every scope it opens, and no other. *)
Inductive balanced : list scmd -> Prop :=
| bal_nil : balanced []
| bal_bind : forall n e b, balanced b -> balanced (SBind n e :: b)
| bal_scope : forall a b, balanced a -> balanced b -> balanced (SPush :: a ++ SPop :: b).

Definition no_reset (cs : list scmd) : Prop := ~ In SReset cs.
Definition bound_to (cs : list scmd) (n : text) (e : term) : Prop := In (SBind n e) cs.
(** No term is declared under two names. *)
Definition one_name_each (cs : list scmd) : Prop :=
  forall n n' e, bound_to cs n e -> bound_to cs n' e -> n = n'.

(** The type rule that a request establishes or reports for a kind of literals. *)
Definition says (o : aop) (r : aout) (k : kind) (t : term) : Prop :=
  (o = ASetRule k t /\ r = ADone) \/ (o = AGetRule k /\ r = ATerm t).
(** The attribute that a request establishes or reports for a symbol. *)
Definition says_attr (o : aop) (r : aout) (v : term) (a : attr) (ct : option term) : Prop :=
  (o = AMark v a ct /\ r = AAccepted true) \/ (o = AAttr v /\ r = AAttrIs (Some (a, ct))).
Definition settings (os : list aop) (rs : list aout) : Prop :=
  exists s, arun (lrules_init, fun _ => None) os = Ok (s, rs).
Definition answered (os : list aop) (rs : list aout) (i : nat) (o : aop) (r : aout) : Prop :=
  nth_error os i = Some o /\ nth_error rs i = Some r.
