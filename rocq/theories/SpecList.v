(** Specification of f-lists and of what the list operators do with the
    sequence of elements (user_manual.md, "List computations"). *)
From Coq Require Import ZArith List Bool Permutation.
From Verif Require Import Base Kind Literal Term SpecTerm.
Import ListNotations.

(** (f x y), curried. *)
Definition app2 (f x y : term) : term := Node K_APPLY [Node K_APPLY [f; x]; y].

(** The f-list with the elements [xs]: (f x1 (f x2 ... nil)) for a
    right-associative and (f (f (f nil x1) x2) ...) for a left-associative f. *)
Fixpoint rlist (f nl : term) (xs : list term) : term :=
  match xs with
  | [] => nl
  | x :: xs' => app2 f x (rlist f nl xs')
  end.
Fixpoint llist (f nl : term) (xs : list term) : term :=
  match xs with
  | [] => nl
  | x :: xs' => llist f (app2 f nl x) xs'
  end.
Definition flist (left : bool) := if left then llist else rlist.

(** [t] is not itself an application of [f] to two arguments. *)
Definition not_app2 (f t : term) : Prop := forall x y, t <> app2 f x y.

(** Applications of [f] inside [t] have one argument at a time. *)
Definition curried (f t : term) : Prop := forall cs, occurs (Node K_APPLY cs) t ->
  exists h rest, cs = h :: rest /\
    (h = f \/ (exists ds, h = Node K_APPLY (f :: ds)) -> length rest = 1%nat).

(** First occurrence of [x] removed. *)
Definition erased (x : term) (xs ys : list term) : Prop :=
  (~ In x xs /\ ys = xs) \/
  (exists a b, xs = a ++ x :: b /\ ~ In x a /\ ys = a ++ b).

(** All occurrences of [x] removed. *)
Inductive erased_all (x : term) : list term -> list term -> Prop :=
| ea_nil : erased_all x [] []
| ea_drop : forall xs ys, erased_all x xs ys -> erased_all x (x :: xs) ys
| ea_keep : forall z xs ys, z <> x -> erased_all x xs ys -> erased_all x (z :: xs) (z :: ys).

(** Only first occurrences kept; [seen]: the elements before. *)
Inductive firsts (seen : list term) : list term -> list term -> Prop :=
| fi_nil : firsts seen [] []
| fi_drop : forall z xs ys, In z seen -> firsts seen xs ys -> firsts seen (z :: xs) ys
| fi_keep : forall z xs ys, ~ In z seen -> firsts (z :: seen) xs ys ->
    firsts seen (z :: xs) (z :: ys).

(** Multiset difference and intersection in the order of the first list: an
    element that occurs in the second list uses up one copy there. *)
Inductive difference : list term -> list term -> list term -> Prop :=
| di_nil : forall ys, difference [] ys []
| di_drop : forall z xs a b r, difference xs (a ++ b) r -> difference (z :: xs) (a ++ z :: b) r
| di_keep : forall z xs ys r, ~ In z ys -> difference xs ys r ->
    difference (z :: xs) ys (z :: r).
Inductive intersection : list term -> list term -> list term -> Prop :=
| in_nil : forall ys, intersection [] ys []
| in_keep : forall z xs a b r, intersection xs (a ++ b) r ->
    intersection (z :: xs) (a ++ z :: b) (z :: r)
| in_drop : forall z xs ys r, ~ In z ys -> intersection xs ys r ->
    intersection (z :: xs) ys r.

(** Multiset inclusion. *)
Definition included (xs ys : list term) : Prop := exists rest, Permutation (xs ++ rest) ys.

(** [i] is the least position of [x], or there is none and [i] is -1. *)
Definition position (x : term) (xs : list term) (i : Z) : Prop :=
  (exists a b, xs = a ++ x :: b /\ ~ In x a /\ i = Z.of_nat (length a)) \/
  (~ In x xs /\ i = (-1)%Z).

(** [a0] names the operator [op] in a list computation: the operator itself or
    an instance of it with explicit parameters. *)
Definition names_op (a0 op : term) : Prop :=
  (exists k i, op = Sym k i) /\ (a0 = op \/ exists ps, a0 = Node K_PARAMETERIZED [ps; op]).
