(** Terms (src/expr.h, src/expr.cpp), their flags and their parameters. *)
From Coq Require Import ZArith QArith List Bool.
From Verif Require Import Base Kind Ints Str Literal.
Import ListNotations.
Open Scope Z_scope.

(** ExprValue: expr.h 30-118.  A term is
    - a symbol (class Literal with a symbol kind, literal.h 52): [id] stands for
      its address;
    - a literal;
    - a kind applied to children.
    Simplified: reference counts are in [Store.v]; because equal applications
    and equal literals are shared (State::mkExprInternal, mkLiteralInternal,
    property C32), equality of addresses is equality of this type. *)
Inductive term : Type :=
| Sym (k : kind) (id : Z)
| Lit (l : literal)
| Node (k : kind) (cs : list term).

(** ExprValue::getKind, getChildren, getNumChildren: expr.cpp 42-49. *)
Definition tkind (t : term) : kind :=
  match t with Sym k _ => k | Lit l => lit_kind l | Node k _ => k end.
Definition tchildren (t : term) : list term :=
  match t with Node _ cs => cs | _ => [] end.

(** Expr::operator==: expr.cpp 506 (comparison of addresses). *)
Fixpoint term_eqb (a b : term) {struct a} : bool :=
  match a, b with
  | Sym k i, Sym k' j => kind_eqb k k' && (i =? j)
  | Lit x, Lit y => lit_eqb x y
  | Node k cs, Node k' ds =>
      kind_eqb k k' &&
      (fix go (xs ys : list term) {struct xs} : bool :=
         match xs, ys with
         | [], [] => true
         | x :: xs', y :: ys' => term_eqb x y && go xs' ys'
         | _, _ => false
         end) cs ds
  | _, _ => false
  end.

(** Number of nodes; used only to bound loops. *)
Fixpoint tsize (t : term) : nat :=
  match t with
  | Node _ cs => S (fold_right (fun c n => (tsize c + n)%nat) O cs)
  | _ => 1%nat
  end.

(** The kind tests of ExprValue::computeFlags on a leaf: expr.cpp 70-71. *)
Definition leaf_eval (k : kind) : bool := kind_eqb k K_PROGRAM_CONST || kind_eqb k K_ANY.
Definition leaf_nonground (k : kind) : bool := kind_eqb k K_PARAM || kind_eqb k K_ANY.

(** ExprValue::isEvaluatable and isGround (expr.cpp 102-112) as recursive
    functions.  That the flag computation with its cache (expr.cpp 52-101,
    modelled by [computeFlags] below) gives these answers is property C17. *)
Fixpoint isEvaluatable (t : term) : bool :=
  match t with
  | Sym k _ => leaf_eval k
  | Lit l => leaf_eval (lit_kind l)
  | Node k [] => leaf_eval k
  | Node k cs => isLiteralOp k || existsb isEvaluatable cs
  end.
Fixpoint nonGround (t : term) : bool :=
  match t with
  | Sym k _ => leaf_nonground k
  | Lit l => leaf_nonground (lit_kind l)
  | Node k [] => leaf_nonground k
  | Node k cs => existsb nonGround cs
  end.
Definition isGround (t : term) : bool := negb (nonGround t).

(* ------------------------------------------------------------------ *)
(** * Flags *)

(** d_flags: expr.h 60-79, the three bits of a term. *)
Record flags : Type := mkFlags { f_computed : bool; f_eval : bool; f_nonground : bool }.

(** The flags of all terms in memory; a term not in the list has flags 0. *)
Definition flag_store := list (term * flags).
Fixpoint get_flags (s : flag_store) (t : term) : flags :=
  match s with
  | [] => mkFlags false false false
  | (u, f) :: s' => if term_eqb u t then f else get_flags s' t
  end.
Definition set_flags (s : flag_store) (t : term) (f : flags) : flag_store := (t, f) :: s.

(** Bitwise or of the flag bytes: expr.cpp 95. *)
Definition or_flags (a b : flags) : flags :=
  mkFlags (f_computed a || f_computed b) (f_eval a || f_eval b)
          (f_nonground a || f_nonground b).

Fixpoint mem_term (t : term) (l : list term) : bool :=
  match l with [] => false | u :: l' => term_eqb u t || mem_term t l' end.

(** The loop of ExprValue::computeFlags: expr.cpp 61-100.  [visit] is the
    stack, its top first; the children are pushed in order, so the last child
    ends up on top. *)
Fixpoint computeFlags_loop (fuel : nat) (visit visited : list term) (s : flag_store)
  : res flag_store :=
  match fuel with
  | O => Fuel
  | S n =>
      match visit with
      | [] => Ok s
      | cur :: rest =>
          let f0 := get_flags s cur in
          let f := mkFlags true (f_eval f0) (f_nonground f0) in
          match tchildren cur with
          | [] =>
              let k := tkind cur in
              computeFlags_loop n rest visited
                (set_flags s cur (mkFlags true (leaf_eval k) (leaf_nonground k)))
          | cs =>
              let s1 := set_flags s cur f in
              if negb (mem_term cur visited) then
                computeFlags_loop n
                  (rev (filter (fun c => negb (f_computed (get_flags s1 c))) cs) ++ visit)
                  (cur :: visited) s1
              else
                let f1 := if isLiteralOp (tkind cur) then mkFlags true true (f_nonground f) else f in
                let f2 := fold_left (fun f c => or_flags f (get_flags s1 c)) cs f1 in
                computeFlags_loop n rest visited (set_flags s1 cur f2)
          end
      end
  end.

(** ExprValue::computeFlags: expr.cpp 52-101. *)
Definition computeFlags (fuel : nat) (t : term) (s : flag_store) : res flag_store :=
  if f_computed (get_flags s t) then Ok s
  else computeFlags_loop fuel [t] [] s.

(** A history of flag queries (calls of isEvaluatable or isGround, expr.cpp
    102-112) on the terms [ts]. *)
Fixpoint computeFlags_all (fuel : nat) (ts : list term) (s : flag_store) : res flag_store :=
  match ts with
  | [] => Ok s
  | t :: ts' => let* s' := computeFlags fuel t s in computeFlags_all fuel ts' s'
  end.

(* ------------------------------------------------------------------ *)
(** * Parameters *)

(** The loop of Expr::getVariables: expr.cpp 459-485.  Children are pushed in
    order, the last one is visited first.  The result is in the order of
    discovery. *)
Fixpoint getVariables_loop (fuel : nat) (toVisit visited ret : list term) : res (list term) :=
  match fuel with
  | O => Fuel
  | S n =>
      match toVisit with
      | [] => Ok ret
      | cur :: rest =>
          if isGround cur then getVariables_loop n rest visited ret
          else if mem_term cur visited then getVariables_loop n rest visited ret
          else if kind_eqb (tkind cur) K_PARAM then
            getVariables_loop n rest (cur :: visited) (ret ++ [cur])
          else getVariables_loop n (rev (tchildren cur) ++ rest) (cur :: visited) ret
      end
  end.

(** Enough iterations for a stack of terms: every iteration removes a node. *)
Definition stack_fuel (l : list term) : nat :=
  S (fold_right (fun c n => (tsize c + n)%nat) O l).

(** Expr::getVariables: expr.cpp 453-485; [toVisit = es] makes the last
    element of [es] the first to be visited. *)
Definition getVariables (es : list term) : res (list term) :=
  getVariables_loop (stack_fuel (rev es)) (rev es) [] [].

(** The loop of Expr::hasVariable: expr.cpp 525-549.  The test
    [e.isGround()] (line 529) looks at the argument [e], not at [cur]; when it
    holds the loop only empties the stack. *)
Fixpoint hasVariable_loop (fuel : nat) (eGround : bool) (vars : list term)
  (toVisit visited : list term) : res bool :=
  match fuel with
  | O => Fuel
  | S n =>
      match toVisit with
      | [] => Ok false
      | cur :: rest =>
          if eGround then hasVariable_loop n eGround vars rest visited
          else if mem_term cur visited then hasVariable_loop n eGround vars rest visited
          else if kind_eqb (tkind cur) K_PARAM && mem_term cur vars then Ok true
          else hasVariable_loop n eGround vars (rev (tchildren cur) ++ rest) (cur :: visited)
      end
  end.

(** Expr::hasVariable: expr.cpp 513-551; [vars] is a set of terms. *)
Definition hasVariable (e : term) (vars : list term) : res bool :=
  match vars with
  | [] => Ok false
  | _ => hasVariable_loop (stack_fuel [e]) (isGround e) vars [e] []
  end.
