(** Model of the storage of a Literal: src/literal.h 24-35 (anonymous union). *)
From Coq Require Import ZArith QArith List Bool.
From Verif Require Import Base Kind Ints Str Literal.
Import ListNotations.
Open Scope Z_scope.

(** The active member of the union, literal.h 27-35. *)
Inductive storage : Type :=
| St_bool (b : bool)
| St_int (z : Z)
| St_rat (q : Q)
| St_bv (b : bitvec)
| St_str (s : str).

(** A Literal object: its kind tag and its active union member. *)
Record ulit : Type := mkU { u_kind : kind; u_store : storage }.

(** The storage chosen by the constructors Literal(bool), Literal(Integer),
    Literal(Kind, Rational), Literal(Kind, BitVector), Literal(String):
    literal.h 39-43. *)
Definition u_canonical (l : literal) : ulit :=
  match l with
  | LBool b => mkU K_BOOLEAN (St_bool b)
  | LNum z => mkU K_NUMERAL (St_int z)
  | LDec q => mkU K_DECIMAL (St_rat q)
  | LRat q => mkU K_RATIONAL (St_rat q)
  | LHex b => mkU K_HEXADECIMAL (St_bv b)
  | LBin b => mkU K_BINARY (St_bv b)
  | LStr s => mkU K_STRING (St_str s)
  end.

(** The Literal object returned by Literal::evaluate.  The n-ary numeral case
    ends in [return Literal(ka, res)] with [res] an Integer (literal.cpp 202).
    The only viable two-argument constructor is
    Literal(Kind, const Rational&) through the implicit conversion
    Rational(const Integer&) (rational.h 67), so the active member is d_rat
    although the kind is NUMERAL.  All other returns use the constructor of the
    value they hold. *)
Definition u_evaluate (k : kind) (args : list literal) : res (option ulit) :=
  let* o := evaluate k args in
  match o with
  | None => Ok None
  | Some l =>
      match l with
      | LNum z =>
          if isNaryLiteralOp k then Ok (Some (mkU K_NUMERAL (St_rat (rat_ofInt z))))
          else Ok (Some (u_canonical l))
      | _ => Ok (Some (u_canonical l))
      end
  end.

(** State::mkLiteralInternal, state.cpp 922-988: which union member is read to
    intern the literal.  Reading a member that is not active is undefined
    behaviour. *)
Definition u_intern (u : ulit) : res literal :=
  match u_kind u, u_store u with
  | K_BOOLEAN, St_bool b => Ok (LBool b)
  | K_NUMERAL, St_int z => Ok (LNum z)
  | K_DECIMAL, St_rat q => Ok (LDec q)
  | K_RATIONAL, St_rat q => Ok (LRat q)
  | K_HEXADECIMAL, St_bv b => Ok (LHex b)
  | K_BINARY, St_bv b => Ok (LBin b)
  | K_STRING, St_str s => Ok (LStr s)
  | _, _ => UB
  end.

(** Evaluation followed by interning: type_checker.cpp 1317-1330. *)
Definition u_evaluate_and_intern (k : kind) (args : list literal) : res (option literal) :=
  let* o := u_evaluate k args in
  match o with
  | None => Ok None
  | Some u => let* l := u_intern u in Ok (Some l)
  end.
