(** Specification of the definitions of tests/eo-definitions.eo (user_manual.md
    2178-2240): the programs and macros that define built-in operators in the
    language itself.  A program is given by the number of its symbol; its cases
    are those of the file for some distinct parameters. *)
From Coq Require Import String ZArith List Bool.
From Verif Require Import Base Kind Str Literal Term SpecTerm SpecEval SpecList.
Import ListNotations. Open Scope Z_scope.

Definition par (i : Z) : term := Sym K_PARAM i.
Definition prog (i : Z) : term := Sym K_PROGRAM_CONST i.
Definition call (p : Z) (args : list term) : term := Node K_APPLY (prog p :: args).
Definition num (z : Z) : term := Lit (LNum z).
Definition boolean (b : bool) : term := Lit (LBool b).
Definition ite (c a b : term) : term := Node K_EVAL_IF_THEN_ELSE [c; a; b].
Definition required (c r : term) : term := Node K_EVAL_REQUIRES [c; boolean true; r].
Definition plus (a b : term) : term := Node K_EVAL_ADD [a; b].

(** Where the programs are: the symbols of $eo_nil, $eo_eq, ... *)
Record library := mkLibrary {
  l_nil : Z; l_eq : Z; l_is_list : Z; l_len : Z; l_concat : Z; l_nth : Z; l_find : Z;
  l_rev : Z; l_erase : Z; l_erase_all : Z; l_setof : Z; l_diff : Z; l_inter : Z; l_single : Z }.

Section Library.
Variable L : library.

(** The macros (tests/eo-definitions.eo, each at its define). *)
Definition d_is_eq (t s : term) : term :=
  ite (Node K_EVAL_AND [Node K_EVAL_IS_OK [t]; Node K_EVAL_IS_OK [s]]) (call (l_eq L) [s; t]) (boolean false).
Definition d_is_z (x : term) : term := d_is_eq (Node K_EVAL_TO_INT [x]) x.
Definition d_is_q (x : term) : term := d_is_eq (Node K_EVAL_TO_RAT [x]) x.
Definition d_is_bin (x : term) : term := d_is_eq (Node K_EVAL_TO_BIN [Node K_EVAL_LENGTH [x]; x]) x.
Definition d_is_str (x : term) : term := d_is_eq (Node K_EVAL_TO_STRING [x]) x.
Definition d_is_bool (x : term) : term := ite (d_is_eq x (boolean true)) (boolean true) (d_is_eq x (boolean false)).
Definition d_gt (x y : term) : term := Node K_EVAL_IS_NEG [plus (Node K_EVAL_NEG [x]) y].
Definition d_cmp (a b : term) : term :=
  Node K_EVAL_IS_NEG [plus (Node K_EVAL_HASH [b]) (Node K_EVAL_NEG [Node K_EVAL_HASH [a]])].

Definition d_nil (f a : term) : term := call (l_nil L) [f; Node K_EVAL_TYPE_OF [a]].
Definition d_is_list (f a : term) : term := call (l_is_list L) [f; d_nil f a; a].
Definition d_cons (f e a : term) : term := required (d_is_list f a) (app2 f e a).
Definition d_len (f a : term) : term := required (d_is_list f a) (call (l_len L) [f; a]).
Definition d_concat (f a b : term) : term :=
  required (d_is_list f a) (required (d_is_list f b) (call (l_concat L) [f; a; b])).
Definition d_nth (f a n : term) : term := required (d_is_list f a) (call (l_nth L) [f; a; n]).
Definition d_find (f a e : term) : term := required (d_is_list f a) (call (l_find L) [f; a; e; num 0]).
Definition d_rev (f a : term) : term := required (d_is_list f a) (call (l_rev L) [f; a; d_nil f a]).
Definition d_erase (f a e : term) : term := required (d_is_list f a) (call (l_erase L) [f; a; e]).
Definition d_erase_all (f a e : term) : term := required (d_is_list f a) (call (l_erase_all L) [f; a; e]).
Definition d_setof (f a : term) : term := required (d_is_list f a) (call (l_setof L) [f; a]).
Definition d_diff (f a b : term) : term :=
  required (d_is_list f a) (required (d_is_list f b) (call (l_diff L) [f; a; b])).
Definition d_inter (f a b : term) : term :=
  required (d_is_list f a) (required (d_is_list f b) (call (l_inter L) [f; a; b])).
Definition d_single (f a : term) : term :=
  required (d_is_list f a) (call (l_single L) [f; d_nil f a; a]).

(** The programs, with the parameters f x y z n nil of the file. *)
Definition c_eq (t s : term) : list pcase := [([t; t], boolean true); ([t; s], boolean false)].
Definition c_is_list (f x y z nl : term) : list pcase :=
  [([f; nl; app2 f x y], call (l_is_list L) [f; nl; y]); ([f; nl; z], call (l_eq L) [nl; z])].
Definition c_len (f x y nl : term) : list pcase :=
  [([f; app2 f x y], plus (num 1) (call (l_len L) [f; y])); ([f; nl], num 0)].
Definition c_concat (f x y z nl : term) : list pcase :=
  [([f; app2 f x y; z], app2 f x (call (l_concat L) [f; y; z])); ([f; nl; z], z)].
Definition c_nth (f x y n : term) : list pcase :=
  [([f; app2 f x y; num 0], x);
   ([f; app2 f x y; n], call (l_nth L) [f; y; plus n (num (-1))])].
Definition c_find (f x y z n nl : term) : list pcase :=
  [([f; app2 f x y; z; n],
    ite (call (l_eq L) [x; z]) n (call (l_find L) [f; y; z; plus n (num 1)]));
   ([f; nl; z; n], num (-1))].
Definition c_rev (f x y z nl : term) : list pcase :=
  [([f; app2 f x y; z], call (l_rev L) [f; y; app2 f x z]); ([f; nl; z], z)].
Definition c_erase (f x y z nl : term) : list pcase :=
  [([f; app2 f x y; z], ite (call (l_eq L) [z; x]) y (app2 f x (call (l_erase L) [f; y; z])));
   ([f; nl; z], nl)].
Definition c_erase_all (f x y z nl : term) : list pcase :=
  let res := call (l_erase_all L) [f; y; z] in
  [([f; app2 f x y; z], ite (call (l_eq L) [z; x]) res (app2 f x res)); ([f; nl; z], nl)].
Definition c_setof (f x y nl : term) : list pcase :=
  [([f; app2 f x y], app2 f x (call (l_setof L) [f; d_erase_all f y x])); ([f; nl], nl)].
Definition c_diff (f x y z nl : term) : list pcase :=
  let res := d_erase f z x in
  [([f; app2 f x y; z],
    ite (call (l_eq L) [res; z]) (app2 f x (call (l_diff L) [f; y; res])) (call (l_diff L) [f; y; res]));
   ([f; nl; z], nl)].
Definition c_inter (f x y z nl : term) : list pcase :=
  let res := d_erase f z x in
  [([f; app2 f x y; z],
    ite (call (l_eq L) [res; z]) (call (l_inter L) [f; y; res]) (app2 f x (call (l_inter L) [f; y; res])));
   ([f; nl; z], nl)].
Definition c_single (f x z nl : term) : list pcase :=
  [([f; nl; app2 f x nl], x); ([f; nl; z], z)].

(** The programs are defined as in the file. *)
Definition derived (progs : term -> option (list pcase)) : Prop :=
  (exists t s, NoDup [t; s] /\ progs (prog (l_eq L)) = Some (c_eq (par t) (par s))) /\
  (exists f x y z nl, NoDup [f; x; y; z; nl] /\
    progs (prog (l_is_list L)) = Some (c_is_list (par f) (par x) (par y) (par z) (par nl))) /\
  (exists f x y nl, NoDup [f; x; y; nl] /\
    progs (prog (l_len L)) = Some (c_len (par f) (par x) (par y) (par nl))) /\
  (exists f x y z nl, NoDup [f; x; y; z; nl] /\
    progs (prog (l_concat L)) = Some (c_concat (par f) (par x) (par y) (par z) (par nl))) /\
  (exists f x y n, NoDup [f; x; y; n] /\
    progs (prog (l_nth L)) = Some (c_nth (par f) (par x) (par y) (par n))) /\
  (exists f x y z n nl, NoDup [f; x; y; z; n; nl] /\
    progs (prog (l_find L)) = Some (c_find (par f) (par x) (par y) (par z) (par n) (par nl))) /\
  (exists f x y z nl, NoDup [f; x; y; z; nl] /\
    progs (prog (l_rev L)) = Some (c_rev (par f) (par x) (par y) (par z) (par nl))) /\
  (exists f x y z nl, NoDup [f; x; y; z; nl] /\
    progs (prog (l_erase L)) = Some (c_erase (par f) (par x) (par y) (par z) (par nl))) /\
  (exists f x y z nl, NoDup [f; x; y; z; nl] /\
    progs (prog (l_erase_all L)) = Some (c_erase_all (par f) (par x) (par y) (par z) (par nl))) /\
  (exists f x y nl, NoDup [f; x; y; nl] /\
    progs (prog (l_setof L)) = Some (c_setof (par f) (par x) (par y) (par nl))) /\
  (exists f x y z nl, NoDup [f; x; y; z; nl] /\
    progs (prog (l_diff L)) = Some (c_diff (par f) (par x) (par y) (par z) (par nl))) /\
  (exists f x y z nl, NoDup [f; x; y; z; nl] /\
    progs (prog (l_inter L)) = Some (c_inter (par f) (par x) (par y) (par z) (par nl))) /\
  (exists f x z nl, NoDup [f; x; z; nl] /\
    progs (prog (l_single L)) = Some (c_single (par f) (par x) (par z) (par nl))).
End Library.

(** A value: nothing to compute and no parameter inside. *)
Definition value (t : term) : Prop := twf t /\ closed t /\ inert t.

Section Agree.
Variable lop : kind -> list term -> res (option term).
Variable progs : term -> option (list pcase).
(** Both terms evaluate to the same value. *)
Definition both (s : sub) (t u : term) : Prop :=
  exists r, value r /\ ev lop progs shortcut s t r /\ ev lop progs shortcut s u r.
(** Neither term evaluates to a value. *)
Definition neither (s : sub) (t u : term) : Prop :=
  (exists r, ev lop progs shortcut s t r /\ ~ inert r) /\ (exists r, ev lop progs shortcut s u r /\ ~ inert r).

(** $eo_nil has a case for [op] and the type [T] (user_manual.md 2210-2216). *)
Definition nil_program (L : library) (op nl T : term) : Prop :=
  exists cases g, progs (prog (l_nil L)) = Some cases /\ selects [op; T] cases (Some (nl, g)).
(** Lists made of at most as many of these elements have the type [T]. *)
Definition lists_typed (op nl T : term) (xs : list term) : Prop := forall ys, incl ys xs ->
  (length ys <= length xs)%nat -> lop K_EVAL_TYPE_OF [rlist op nl ys] = Ok (Some T).
End Agree.
