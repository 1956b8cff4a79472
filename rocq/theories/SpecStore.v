(** Histories of requests to the term store. *)
From Coq Require Import ZArith List Bool.
From Verif Require Import Base Kind Ints Str Literal Term Store.
Import ListNotations.
Open Scope Z_scope.

(** Symbols have symbol kinds, applications do not. *)
Definition wf_op (o : op) : Prop :=
  match o with
  | OSym k => isSymbol k = true
  | OApp k _ => isSymbol k = false
  | _ => True
  end.

(** A run of the program: requests, their answers and the final state. *)
Definition history (ops : list op) (rs : list out) (s : store) : Prop :=
  Forall wf_op ops /\ run store_init ops = Ok (s, rs).
(** The [i]-th request and its answer. *)
Definition asked (ops : list op) (rs : list out) (i : nat) (o : op) (r : out) : Prop :=
  nth_error ops i = Some o /\ nth_error rs i = Some r.
(** The term that an address stands for. *)
Definition term_at (s : store) (a : nat) : term := nth a (terms_of (s_nodes s)) (Node K_NONE []).

(** How often an address was handed out, and how often it was dropped. *)
Definition is_addr (a : nat) (r : out) : bool := match r with RAddr b => Nat.eqb a b | _ => false end.
Definition is_drop (a : nat) (o : op) : bool := match o with ODrop b => Nat.eqb a b | _ => false end.
Definition given (a : nat) (rs : list out) : nat := length (filter (is_addr a) rs).
Definition dropped (a : nat) (ops : list op) : nat := length (filter (is_drop a) ops).

(** [part s a b]: a is b or a subterm of b. *)
Inductive part (s : store) (a : nat) : nat -> Prop :=
| part_self : part s a a
| part_child : forall b k cs c, nth_error (s_nodes s) b = Some (NApp k cs) -> In c cs -> part s a c -> part s a b.

(** The node at the end of a path. *)
Fixpoint node_at (t : trie) (p : list nat) : option trie :=
  match p with
  | [] => Some t
  | e :: p' => match ch_find (t_ch t) e with Some t' => node_at t' p' | None => None end
  end.
Definition prefix (p q : list nat) : Prop := exists r, q = p ++ r.
