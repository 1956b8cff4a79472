(** Specification of $eo_list_minclude and $eo_list_meq of tests/eo-definitions.eo (lines 141-170 and 350-388), which go through
    the lists of the file, and of $eo_is_var (lines 66-72). *)
From Coq Require Import String ZArith List Bool.
From Verif Require Import Base Kind Str Literal Term SpecTerm SpecEval SpecList SpecDerived.
Import ListNotations. Open Scope Z_scope.

Definition const (i : Z) : term := Sym K_CONST i.

Section Library2.
Variable L : library.
(** The symbols of $eo_get_elements_rec, $eo_list_minclude_rec, eo_List_cons and eo_List_nil. *)
Variable p q lc ln : Z.

(** The macros. *)
Definition d_elements (f a : term) : term := required (d_is_list L f a) (call p [f; d_nil L f a; a]).
Definition d_minclude (f a b : term) : term :=
  required (d_is_list L f a) (required (d_is_list L f b) (call q [d_elements f a; d_elements f b])).
Definition d_meq (f a b : term) : term := Node K_EVAL_AND [d_minclude f a b; d_minclude f b a].

Definition d_is_var (x : term) : term := d_is_eq L (Node K_EVAL_VAR [Node K_EVAL_NAME_OF [x]; Node K_EVAL_TYPE_OF [x]]) x.

(** The programs. *)
Definition c_elements (f x y nl : term) : list pcase :=
  [([f; nl; app2 f x y], Node K_EVAL_CONS [const lc; x; call p [f; nl; y]]); ([f; nl; nl], const ln)].
Definition c_minclude (x y z : term) : list pcase :=
  let res := d_erase L (const lc) z x in
  [([app2 (const lc) x y; z], ite (call (l_eq L) [res; z]) (boolean false) (call q [y; res])); ([const ln; z], boolean true)].
Definition derived_inclusion (progs : term -> option (list pcase)) : Prop :=
  (exists f x y nl, NoDup [f; x; y; nl] /\ progs (prog p) = Some (c_elements (par f) (par x) (par y) (par nl))) /\
  (exists x y z, NoDup [x; y; z] /\ progs (prog q) = Some (c_minclude (par x) (par y) (par z))).
End Library2.
