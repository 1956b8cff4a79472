(** What a run of the checker means, in terms of what happened in it (the log of
    events, see Parse.v) and of its verdict. *)
From Coq Require Import String ZArith List Bool.
From Verif Require Import Base Kind Ints Str Literal Arity Term Match Eval ListOps Typing Build Scope Lexer Parse Check SpecTerm SpecEval.
Import ListNotations.
Open Scope Z_scope.

(** The events of a run, the last first. *)
Definition events (s : st) : list event := map snd (s_log s).

(** ** Assumptions *)
(** The formulas of the open assume-push commands, the innermost first. *)
Fixpoint opened (l : list event) : list term :=
  match l with
  | [] => []
  | EvAssume _ F true :: l' => F :: opened l'
  | EvStep _ _ _ _ _ (Some _) _ :: l' => tl (opened l')
  | EvReset :: _ => []
  | _ :: l' => opened l'
  end.
(** The formulas of the executed assume commands. *)
Definition assumed (l : list event) : list term :=
  flat_map (fun e => match e with EvAssume _ F false => [F] | _ => [] end) l.
(** The formulas asserted in reference files. *)
Definition asserted (l : list event) : list term :=
  flat_map (fun e => match e with EvAssert F => [F] | _ => [] end) l.

(** ** Declarations *)
(** The constructor kinds, types and types of literals that have been set. *)
Fixpoint marks_of (l : list event) (t : term) : option (attr * option term) :=
  match l with
  | [] => if term_eqb sym_cons t then Some (A_RIGHT_ASSOC_NIL, Some sym_nil) else None
  | EvMark v a ct :: l' => if term_eqb v t then Some (a, ct) else marks_of l' t
  | EvSymbol v _ :: l' => if term_eqb v t then None else marks_of l' t
  | _ :: l' => marks_of l' t
  end.
Fixpoint types_of (l : list event) (t : term) : option term :=
  match l with
  | [] => initial_types t
  | EvSymbol v ty :: l' => if term_eqb v t then ty else types_of l' t
  | _ :: l' => types_of l' t
  end.
Fixpoint lits_of (l : list event) (k : kind) : option term :=
  match l with
  | [] => None
  | EvLiteral k' t :: l' => if kind_eqb k' k then Some t else lits_of l' k
  | _ :: l' => lits_of l' k
  end.
(** A state in which the events [l] have happened: it holds what they have set and nothing else. *)
Definition state_at (l : list (nat * event)) (s : st) : Prop :=
  s_log s = l /\ (forall t, s_marks s t = marks_of (map snd l) t) /\ (forall t, s_types s t = types_of (map snd l) t) /\
  (forall k, s_lits s k = lits_of (map snd l) k).

(** ** Files *)
Definition processed (l : list event) : list (text * bool * term) :=
  flat_map (fun e => match e with EvInclude f r nf => [(f, r, nf)] | _ => [] end) l.
(** The file that was begun last is a reference. *)
Definition in_reference (l : list event) : Prop :=
  exists f nf rest, processed l = (f, true, nf) :: rest.

(** The function that is applied to formulas before they are compared: that of the file begun
    last, if it has one. *)
Definition normalizer (l : list event) : term :=
  match processed l with [] => null_term | (_, _, nf) :: _ => nf end.
(** What a formula is compared as, when the events [l] have happened. *)
Definition compared_as (G : config) (l : list (nat * event)) (F F' : term) : Prop :=
  if is_null (normalizer (map snd l)) then F' = F
  else exists s, state_at l s /\ forall lx, mkE G K_APPLY [normalizer (map snd l); F] (lx, s) = Ok (F', (lx, s)).

(** A formula that is compared as [F'] has been asserted. *)
Definition asserted_as (G : config) (l : list (nat * event)) (F' : term) : Prop :=
  exists l1 lv A l2, l = l1 ++ (lv, EvAssert A) :: l2 /\ compared_as G l2 A F'.

(** ** Rules *)
Definition uses (l : list event) (rule : term) : Prop :=
  exists name proven prem args asm conc, In (EvStep name rule proven prem args asm conc) l.
Definition trusted (l : list event) (rule : term) : Prop := In (EvSorry rule) l.

(** ** Soundness *)
(** The formulas that the proofs inside a term prove; a proof is not looked into. *)
Fixpoint proofs_in (t : term) : list term :=
  match t with
  | Node K_PROOF [F] => [F]
  | Node _ cs => flat_map proofs_in cs
  | _ => []
  end.
Section Sound.
(** Any notion of truth: interpretations and the formulas that hold in them. *)
Variable W : Type.
Variable holds : W -> term -> Prop.
Definition entails (A : list term) (F : term) : Prop :=
  forall w, (forall a, In a A -> holds w a) -> holds w F.
(** A step is a valid inference: from what its premises and arguments prove,
    under the assumption that it discharges, its conclusion follows. *)
Definition valid_step (e : event) : Prop :=
  match e with
  | EvStep _ _ _ prem args asm conc =>
      forall A, (forall f, In f (flat_map proofs_in (prem ++ args)) ->
                   entails (match asm with Some a => [a] | None => [] end ++ A) f) ->
                entails A conc
  | _ => True
  end.
End Sound.
(** The conclusions of the steps outside of every assume-push. *)
Definition concluded (l : list (nat * event)) (F : term) : Prop :=
  exists name rule proven prem args asm, In (O, EvStep name rule proven prem args asm F) l.
(** No push, pop or reset. *)
Definition plain (l : list event) : Prop := ~ In EvPush l /\ ~ In EvPop l /\ ~ In EvReset l.

(** The scopes that are open, the innermost first: with its formula if it is one of assume-push,
    without if it is one of push. *)
Fixpoint open_scopes (l : list event) : list (option term) :=
  match l with
  | [] => []
  | EvPush :: l' => None :: open_scopes l'
  | EvAssume _ F true :: l' => Some F :: open_scopes l'
  | EvPop :: l' | EvStep _ _ _ _ _ (Some _) _ :: l' => tl (open_scopes l')
  | EvReset :: _ => []
  | _ :: l' => open_scopes l'
  end.
(** Every pop ends a scope of push and every step-pop one of assume-push; no reset. *)
Fixpoint well_nested (l : list event) : Prop :=
  match l with
  | [] => True
  | EvPop :: l' => hd_error (open_scopes l') = Some None /\ well_nested l'
  | EvStep _ _ _ _ _ (Some _) _ :: l' => (exists F, hd_error (open_scopes l') = Some (Some F)) /\ well_nested l'
  | EvReset :: _ => False
  | _ :: l' => well_nested l'
  end.

(** The number of a variable is that of its name and its type (see Parse.v). *)
Definition coherent (G : config) : Prop :=
  forall name t p, g_varinfo G (g_bvar G name t) = Some p -> p = (name, t).

(** A proof occurs in a term, or in the type of one of its variables. *)
Inductive has_proof (vinfo : Z -> option (text * term)) : term -> Prop :=
| hp_here : forall cs, has_proof vinfo (Node K_PROOF cs)
| hp_child : forall k cs c, In c cs -> has_proof vinfo c -> has_proof vinfo (Node k cs)
| hp_type : forall i n t, vinfo i = Some (n, t) -> has_proof vinfo t -> has_proof vinfo (Sym K_VARIABLE i).
(** What the event stores for good has no proof in it: the type of a symbol, the attribute of a
    symbol, the right hand sides of a program, the type of a class of literals. *)
Definition proof_free (vinfo : Z -> option (text * term)) (e : event) : Prop :=
  match e with
  | EvSymbol _ (Some ty) => ~ has_proof vinfo ty
  | EvMark _ A_PROGRAM (Some p) =>
      forall c lhs rhs rest, In c (tchildren p) -> tchildren c = lhs :: rhs :: rest -> ~ has_proof vinfo rhs
  | EvMark _ _ (Some t) => ~ has_proof vinfo t
  | EvLiteral _ t => ~ has_proof vinfo t
  | _ => True
  end.
(** The formulas that become known have nothing left to match or to compute; the derived ones
    do not mention proofs. *)
Definition settled (vinfo : Z -> option (text * term)) (e : event) : Prop :=
  match e with
  | EvAssume _ F _ => isGround F = true /\ isEvaluatable F = false
  | EvStep _ _ _ _ _ _ F => isGround F = true /\ isEvaluatable F = false /\ ~ has_proof vinfo F
  | _ => True
  end.

(** ** Programs *)
(** The programs defined so far. *)
Definition defined (l : list event) (progs : term -> option (list pcase)) : Prop :=
  forall hd cases, progs hd = Some cases <-> marks_of l hd = Some (A_PROGRAM, Some (program_term hd cases)).
(** The types of variables are terms. *)
Definition typed_variables (G : config) : Prop := forall i n t, g_varinfo G i = Some (n, t) -> twf t.
(** The formula that stands for the list of the premises of a rule with :premise-list. *)
Definition gathered (G : config) (s : st) (op : term) (prem : list term) (F : term) : Prop :=
  exists fs, Forall2 (fun p f => exists r, p = Node K_PROOF (f :: r)) prem fs /\
    (fs <> [] -> forall l, mkE G K_APPLY (op :: fs) (l, s) = Ok (F, (l, s))) /\
    (fs = [] -> exists a ct, s_marks s op = Some (a, ct) /\ isListNilAttr a = true /\ F = or_null ct).

(** ** Rules as declared *)
(** What a rule wants: its arguments, its conclusion if that is to be stated, its assumption and its
    premises. *)
Definition rule_patterns (assume : term) (premises args : list term) (conc : term) (explicit : bool) : list term :=
  args ++ (if explicit then [conc] else []) ++ (if is_null assume then [] else [assume]) ++ map (fun e => Node K_PROOF [e]) premises.
(** Both sides of a requirement have the same value. *)
Definition meets (lop : kind -> list term -> res (option term)) (progs : term -> option (list pcase)) (f : sub) (req : term) : Prop :=
  exists a b u, req = Node K_TUPLE [a; b] /\ ev lop progs shortcut f a u /\ ev lop progs shortcut f b u /\ closed u /\ inert u.
