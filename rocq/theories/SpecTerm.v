(** Specification of terms: subterms, parameters, substitution. *)
From Coq Require Import ZArith List Bool.
From Verif Require Import Base Kind Literal Term.
Import ListNotations.

(** Symbols have symbol kinds (or are names of built-in operators) and everything
    else has not; leaves other than symbols and literals are built-in constants. *)
Definition sym_kind (k : kind) : bool := isSymbol k || kind_eqb k K_BUILTIN_CONST.
Inductive twf : term -> Prop :=
| twf_sym : forall k i, sym_kind k = true -> twf (Sym k i)
| twf_lit : forall l, twf (Lit l)
| twf_node : forall k cs, isSymbol k = false -> isLiteral k = false ->
    Forall twf cs -> twf (Node k cs).

(** [occurs s t]: [s] is a subterm of [t]. *)
Inductive occurs (s : term) : term -> Prop :=
| occ_here : occurs s s
| occ_child : forall k cs c, In c cs -> occurs s c -> occurs s (Node k cs).

(** [p] is a parameter. *)
Definition is_param (p : term) : Prop := exists i, p = Sym K_PARAM i.

(** The wildcard type. *)
Definition is_any (t : term) : Prop := t = Node K_ANY [].

(** A term contains a computation: an unevaluated operator application, a
    program, or the wildcard. *)
Definition computes (s : term) : Prop :=
  (exists i, s = Sym K_PROGRAM_CONST i) \/ is_any s \/
  (exists k cs, s = Node k cs /\ cs <> [] /\ isLiteralOp k = true).

(** Simultaneous substitution for parameters. *)
Fixpoint tsubst (f : term -> option term) (t : term) : term :=
  match t with
  | Sym K_PARAM i => match f t with Some u => u | None => t end
  | Sym _ _ => t
  | Lit _ => t
  | Node k cs => Node k (map (tsubst f) cs)
  end.

(** [f] instantiates the patterns [ps] to [xs] and gives every parameter of
    [ps] a value. *)
Definition instance (f : term -> option term) (ps xs : list term) : Prop :=
  map (tsubst f) ps = xs /\
  forall q p, In q ps -> is_param p -> occurs p q -> f p <> None.

(** No wildcard inside. *)
Definition no_any (t : term) : Prop := forall s, occurs s t -> ~ is_any s.

(** A program case as written by the user: patterns and right hand side, and
    the term that stores it. *)
Definition pcase := (list term * term)%type.
Definition case_term (hd : term) (pc : pcase) : term :=
  Node K_TUPLE [Node K_APPLY (hd :: fst pc); snd pc].
Definition program_term (hd : term) (cases : list pcase) : term :=
  Node K_PROGRAM (map (case_term hd) cases).

(** [f] is the instantiation of the patterns [ps] to [xs], and has no other
    entries. *)
Definition exact_instance (f : term -> option term) (ps xs : list term) : Prop :=
  instance f ps xs /\
  forall p, f p <> None -> is_param p /\ exists q, In q ps /\ occurs p q.
