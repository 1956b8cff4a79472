(** The term store: sharing of terms, reference counts, hashes and bound
    variables (src/expr_trie.h, src/state.cpp, src/expr.cpp). *)
From Coq Require Import ZArith List Bool.
From Verif Require Import Base Kind Ints Str Literal Term.
Import ListNotations.
Open Scope Z_scope.

(** ExprTrie: expr_trie.h 21-27.  Addresses are numbers; d_children
    (a std::map) is an association list without repeated keys. *)
Inductive trie : Type := TN (d : option nat) (ch : list (nat * trie)).
Definition t_data (t : trie) : option nat := let 'TN d _ := t in d.
Definition t_ch (t : trie) : list (nat * trie) := let 'TN _ ch := t in ch.
Definition t_empty : trie := TN None [].

(** std::map::find on d_children. *)
Fixpoint ch_find (ch : list (nat * trie)) (e : nat) : option trie :=
  match ch with
  | [] => None
  | (e', t) :: ch' => if Nat.eqb e' e then Some t else ch_find ch' e
  end.
(** Assignment through std::map::operator[]. *)
Fixpoint ch_set (ch : list (nat * trie)) (e : nat) (t : trie) : list (nat * trie) :=
  match ch with
  | [] => [(e, t)]
  | (e', t') :: ch' => if Nat.eqb e' e then (e', t) :: ch' else (e', t') :: ch_set ch' e t
  end.
(** std::map::erase. *)
Definition ch_erase (ch : list (nat * trie)) (e : nat) : list (nat * trie) :=
  filter (fun p => negb (Nat.eqb (fst p) e)) ch.

(** d_data of the node at the end of the path: [None] also if there is no such
    node, because ExprTrie::get (expr_trie.h 29-37) creates missing nodes
    without data. *)
Fixpoint trie_lookup (t : trie) (path : list nat) : option nat :=
  match path with
  | [] => t_data t
  | e :: p =>
      match ch_find (t_ch t) e with
      | Some t' => trie_lookup t' p
      | None => None
      end
  end.

(** ExprTrie::get (expr_trie.h 29-37) and an assignment to d_data of the node
    it returns (state.cpp 1247). *)
Fixpoint trie_set (t : trie) (path : list nat) (d : option nat) : trie :=
  match path with
  | [] => TN d (t_ch t)
  | e :: p =>
      let t' := match ch_find (t_ch t) e with Some t' => t' | None => t_empty end in
      TN (t_data t) (ch_set (t_ch t) e (trie_set t' p d))
  end.

(** The loop of ExprTrie::remove: expr_trie.h 45-60.  [etd]: the depth of the
    node etd on the path.  An iterator that is end() is dereferenced at line 59. *)
Fixpoint remove_walk (t : trie) (path : list nat) (depth : nat) (etd : option nat) : res (option nat) :=
  match path with
  | [] => Ok etd
  | e :: p =>
      match ch_find (t_ch t) e with
      | None => UB
      | Some t' =>
          let etd1 := match etd with None => Some depth | Some _ => etd end in
          let etd2 := if (1 <? length (t_ch t))%nat then None else etd1 in
          remove_walk t' p (S depth) etd2
      end
  end.
(** etd->d_children.erase(itetd): expr_trie.h 64, where etd is at the given
    depth on the path. *)
Fixpoint trie_cut (t : trie) (path : list nat) (depth : nat) : trie :=
  match path with
  | [] => t
  | e :: p =>
      match depth with
      | O => TN (t_data t) (ch_erase (t_ch t) e)
      | S d =>
          match ch_find (t_ch t) e with
          | Some t' => TN (t_data t) (ch_set (t_ch t) e (trie_cut t' p d))
          | None => t
          end
      end
  end.
(** ExprTrie::remove: expr_trie.h 39-67.  The result says whether the assignment
    at line 66 wrote to a node that line 64 has erased, which is undefined
    behaviour; the trie returned with it is the one left behind if the write goes
    unnoticed. *)
Definition trie_remove (t : trie) (path : list nat) : res (trie * bool) :=
  let* etd := remove_walk t path O None in
  match etd with
  | Some d => Ok (trie_cut t path d, true)
  | None => Ok (trie_set t path None, false)
  end.

(** ExprValue and Literal (expr.h 30-118, literal.h): what an address holds. *)
Inductive node : Type :=
| NSym (k : kind)
| NLit (l : literal)
| NApp (k : kind) (cs : list nat).
Definition node_kind (n : node) : kind :=
  match n with NSym k => k | NLit l => lit_kind l | NApp k _ => k end.
Definition node_children (n : node) : list nat :=
  match n with NApp _ cs => cs | _ => [] end.

(** The part of State that owns terms (state.h 340-411).
    - [s_nodes]: all objects ever allocated, by address; simplified: an address
      is not used again after free();
    - [s_rc]: ExprValue::d_rc, without wrapping around at 2^32;
    - [s_dead]: addresses that were given to free();
    - [s_trie]: d_trie; [s_lits]: d_litIntMap, d_litRatMap, d_litBvMap,
      d_litStrMap, d_true and d_false;
    - [s_hash], [s_count]: d_hashMap, d_hashCounter; [s_vars]: d_boundVars;
    - [s_held]: the Expr handles of the rest of the program;
    - [s_bad]: whether erased memory was written.
    Simplified: without d_typeCache and d_appData, which keep types and
    constructor terms alive. *)
Record store : Type := mkStore {
  s_nodes : list node; s_rc : list Z; s_dead : list nat;
  s_trie : kind -> trie; s_lits : list (literal * nat);
  s_hash : list (nat * Z); s_count : Z;
  s_vars : list (text * nat * nat); s_held : list nat; s_bad : bool }.

(** The terms at the addresses: an application refers to older addresses. *)
Definition node_term (ts : list term) (n : node) : term :=
  match n with
  | NSym k => Sym k (Z.of_nat (length ts))
  | NLit l => Lit l
  | NApp k cs => Node k (map (fun a => nth a ts (Node K_NONE [])) cs)
  end.
Definition terms_of (ns : list node) : list term :=
  fold_left (fun ts n => ts ++ [node_term ts n]) ns [].

(** State::State: state.cpp 167-194, of which only d_true and d_false. *)
Definition store_init : store :=
  mkStore [NLit (LBool true); NLit (LBool false)] [1; 1] [] (fun _ => t_empty)
    [(LBool true, 0%nat); (LBool false, 1%nat)] [] 0 [] [] false.

(** Changing one element of a list. *)
Fixpoint upd {A : Type} (l : list A) (i : nat) (f : A -> A) : list A :=
  match l, i with
  | [], _ => []
  | x :: l', O => f x :: l'
  | x :: l', S j => x :: upd l' j f
  end.

(** ExprValue::inc: expr.h 106. *)
Definition inc (a : nat) (rc : list Z) : list Z := upd rc a (fun z => z + 1).

(** State::mkExprInternal: state.cpp 1234-1249; the constructor counts the
    references to the children: expr.cpp 24-31. *)
Definition mkExprInternal (s : store) (k : kind) (cs : list nat) : store * nat :=
  match trie_lookup (s_trie s k) cs with
  | Some a => (s, a)
  | None =>
      let a := length (s_nodes s) in
      (mkStore (s_nodes s ++ [NApp k cs]) (fold_left (fun rc c => inc c rc) cs (s_rc s) ++ [0]) (s_dead s)
         (fun k' => if kind_eqb k' k then trie_set (s_trie s k) cs (Some a) else s_trie s k')
         (s_lits s) (s_hash s) (s_count s) (s_vars s) (s_held s) (s_bad s), a)
  end.

(** std::unordered_map::find on the tables of literals. *)
Fixpoint lits_find (m : list (literal * nat)) (l : literal) : option nat :=
  match m with
  | [] => None
  | (l', a) :: m' => if lit_eqb l' l then Some a else lits_find m' l
  end.
(** State::mkLiteralInternal: state.cpp 922-988.  The table holds a reference. *)
Definition mkLiteralInternal (s : store) (l : literal) : store * nat :=
  match lits_find (s_lits s) l with
  | Some a => (s, a)
  | None =>
      let a := length (s_nodes s) in
      (mkStore (s_nodes s ++ [NLit l]) (s_rc s ++ [1]) (s_dead s) (s_trie s)
         ((l, a) :: s_lits s) (s_hash s) (s_count s) (s_vars s) (s_held s) (s_bad s), a)
  end.

(** State::mkSymbolInternal: state.cpp 603-627. *)
Definition mkSymbolInternal (s : store) (k : kind) : store * nat :=
  let a := length (s_nodes s) in
  (mkStore (s_nodes s ++ [NSym k]) (s_rc s ++ [0]) (s_dead s) (s_trie s)
     (s_lits s) (s_hash s) (s_count s) (s_vars s) (s_held s) (s_bad s), a).

(** Expr::Expr(const ExprValue * ): expr.cpp 126-138. *)
Definition handle (s : store) (a : nat) : store :=
  mkStore (s_nodes s) (inc a (s_rc s)) (s_dead s) (s_trie s)
    (s_lits s) (s_hash s) (s_count s) (s_vars s) (a :: s_held s) (s_bad s).

(** std::map::find on d_hashMap and d_boundVars. *)
Fixpoint hash_find (m : list (nat * Z)) (a : nat) : option Z :=
  match m with
  | [] => None
  | (a', h) :: m' => if Nat.eqb a' a then Some h else hash_find m' a
  end.
Fixpoint vars_find (m : list (text * nat * nat)) (name : text) (ty : nat) : option nat :=
  match m with
  | [] => None
  | (name', ty', a) :: m' =>
      if text_eqb name' name && Nat.eqb ty' ty then Some a else vars_find m' name ty
  end.

(** State::getHash: state.cpp 1606-1617. *)
Definition getHash (s : store) (a : nat) : store * Z :=
  match hash_find (s_hash s) a with
  | Some h => (s, h)
  | None =>
      let h := s_count s + 1 in
      (mkStore (s_nodes s) (s_rc s) (s_dead s) (s_trie s) (s_lits s)
         ((a, h) :: s_hash s) h (s_vars s) (s_held s) (s_bad s), h)
  end.

(** State::getBoundVar: state.cpp 1354-1372.  The key holds the address of the
    type; the table holds a reference to the variable.  For a type that is not
    ground: mkExpr of EVAL_VAR, which cannot be evaluated. *)
Definition getBoundVar (s : store) (name : text) (ty : nat) : store * nat :=
  if isGround (nth ty (terms_of (s_nodes s)) (Node K_NONE [])) then
    match vars_find (s_vars s) name ty with
    | Some a => (s, a)
    | None =>
        let '(s1, a) := mkSymbolInternal s K_VARIABLE in
        (mkStore (s_nodes s1) (inc a (s_rc s1)) (s_dead s1) (s_trie s1) (s_lits s1)
           (s_hash s1) (s_count s1) ((name, ty, a) :: s_vars s1) (s_held s1) (s_bad s1), a)
    end
  else
    let '(s1, n) := mkLiteralInternal s (LStr (str_ofText true name)) in
    mkExprInternal s1 K_EVAL_VAR [n; ty].

(** State::markDeleted: state.cpp 359-450, for one term.  free() at line 438 does
    not run the destructor, so the counts of the children stay. *)
Definition markDeleted (s : store) (a : nat) : res store :=
  let* n := vec_at (s_nodes s) a in
  let lits' := match n with
               | NLit (LBool _) => s_lits s
               | NLit l => filter (fun p => negb (lit_eqb (fst p) l)) (s_lits s)
               | _ => s_lits s
               end in
  let hash' := filter (fun p => negb (Nat.eqb (fst p) a)) (s_hash s) in
  let k := node_kind n in
  let* (t', bad) := trie_remove (s_trie s k) (node_children n) in
  Ok (mkStore (s_nodes s) (s_rc s) (a :: s_dead s)
        (fun k' => if kind_eqb k' k then t' else s_trie s k')
        lits' hash' (s_count s) (s_vars s) (s_held s) (s_bad s || bad)).

(** ExprValue::dec: expr.cpp 116-124. *)
Definition dec (s : store) (a : nat) : res store :=
  let rc' := upd (s_rc s) a (fun z => z - 1) in
  let s' := mkStore (s_nodes s) rc' (s_dead s) (s_trie s) (s_lits s) (s_hash s)
              (s_count s) (s_vars s) (s_held s) (s_bad s) in
  let* z := vec_at rc' a in
  if z =? 0 then markDeleted s' a else Ok s'.

(** Removing one occurrence. *)
Fixpoint remove_one (a : nat) (l : list nat) : list nat :=
  match l with
  | [] => []
  | x :: l' => if Nat.eqb x a then l' else x :: remove_one a l'
  end.

(** What the rest of the program asks of the store.  The result of a construction
    is an Expr, which counts as a reference until it is dropped. *)
Inductive op : Type :=
| OSym (k : kind)                   (* mkSymbol *)
| OLit (l : literal)                (* mkLiteralInternal *)
| OApp (k : kind) (cs : list nat)   (* mkExprInternal *)
| OVar (name : text) (ty : nat)     (* getBoundVar; type_checker.cpp 1217-1218 *)
| OHash (a : nat)                   (* EVAL_HASH: type_checker.cpp 1142-1144 *)
| OCmp (a b : nat)                  (* EVAL_COMPARE: type_checker.cpp 1153-1156 *)
| ODrop (a : nat).                  (* Expr::~Expr: expr.cpp 148-156 *)
Inductive out : Type := RAddr (a : nat) | RNum (z : Z) | RBool (b : bool) | RNone.

(** A pointer that may be followed. *)
Definition live (s : store) (a : nat) : bool :=
  (a <? length (s_nodes s))%nat && negb (existsb (Nat.eqb a) (s_dead s)).

(** One request.  The caller must pass valid pointers and only drop its own
    handles. *)
Definition step (s : store) (o : op) : res (store * out) :=
  match o with
  | OSym k => let '(s1, a) := mkSymbolInternal s k in Ok (handle s1 a, RAddr a)
  | OLit l => let '(s1, a) := mkLiteralInternal s l in Ok (handle s1 a, RAddr a)
  | OApp k cs =>
      if forallb (live s) cs
      then let '(s1, a) := mkExprInternal s k cs in Ok (handle s1 a, RAddr a)
      else UB
  | OVar name ty =>
      if live s ty then let '(s1, a) := getBoundVar s name ty in Ok (handle s1 a, RAddr a) else UB
  | OHash a =>
      if live s a then let '(s1, h) := getHash s a in Ok (s1, RNum (u32 h)) else UB
  | OCmp a b =>
      if live s a && live s b then
        let '(s1, h1) := getHash s a in
        let '(s2, h2) := getHash s1 b in
        Ok (s2, RBool (h2 <? h1))
      else UB
  | ODrop a =>
      if existsb (Nat.eqb a) (s_held s) then
        let s1 := mkStore (s_nodes s) (s_rc s) (s_dead s) (s_trie s) (s_lits s) (s_hash s)
                    (s_count s) (s_vars s) (remove_one a (s_held s)) (s_bad s) in
        let* s2 := dec s1 a in Ok (s2, RNone)
      else UB
  end.

Fixpoint run (s : store) (ops : list op) : res (store * list out) :=
  match ops with
  | [] => Ok (s, [])
  | o :: ops' =>
      let* (s1, r) := step s o in
      let* (s2, rs) := run s1 ops' in
      Ok (s2, r :: rs)
  end.
