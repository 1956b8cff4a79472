(** What a declaration of datatypes declares. *)
From Coq Require Import String ZArith List Bool.
From Verif Require Import Base Kind Term Scope Lexer Parse Check SpecRead SpecList.
Import ListNotations.
Open Scope Z_scope.

(** The name at the head of a list. *)
Definition first (x : sx) : text :=
  match x with XL (XT k w :: _) => match name_of k w with Some n => n | None => [] end | _ => [] end.
(** A definition is a list of constructors, or (par (X ...) (constructor ...)); a constructor is (name selector ...), a
    selector is (name type). *)
Definition constructors_of (x : sx) : list sx :=
  match x with
  | XL [XT T_PAR _; _; XL cs] => cs
  | XL cs => cs
  | _ => []
  end.
Definition selectors_of (x : sx) : list sx := match x with XL (_ :: l) => l | _ => [] end.
(** All names that come with a constructor: selectors, updaters, the constructor and its tester. *)
Definition names_con (x : sx) : list text :=
  flat_map (fun y => [first y; txt "update-" ++ first y]) (selectors_of x) ++ [first x; txt "is-" ++ first x].
Definition names_def (x : sx) : list text := flat_map names_con (constructors_of x).
Definition sole (all : list text) (n : text) : Prop := exists l1 l2, all = l1 ++ n :: l2 /\ ~ In n l1 /\ ~ In n l2.

(** A list of terms as a term: (eo::List::cons t (... eo::List::nil)). *)
Definition eo_list (ts : list term) : term := rlist sym_cons sym_nil ts.
(** A term with this name; the name stands for it if it is declared once among [all]. *)
Definition goes_by (s : st) (all : list text) (n : text) (t : term) : Prop :=
  s_names s t = n /\ (sole all n -> getVar (s_scope s) n = Some t).
(** A constructor with its selectors. *)
Definition con_ok (s : st) (all : list text) (x : sx) (c : term) : Prop :=
  goes_by s all (first x) c /\ exists a sels, In a [A_DATATYPE_CONSTRUCTOR; A_AMB_DATATYPE_CONSTRUCTOR] /\
    s_marks s c = Some (a, Some (eo_list sels)) /\ Forall2 (fun y t => goes_by s all (first y) t) (selectors_of x) sels.
(** A datatype with its constructors: [n] its name, [x] its definition. *)
Definition data_ok (s : st) (all : list text) (n : text) (x : sx) (dt : term) : Prop :=
  goes_by s all n dt /\ exists cs, s_marks s dt = Some (A_DATATYPE, Some (eo_list cs)) /\ Forall2 (con_ok s all) (constructors_of x) cs.
