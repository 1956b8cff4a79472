(** Specification of literals and literal operators, independent of the model
    of the evaluator: only the data types are shared. *)
From Coq Require Import ZArith QArith List Bool.
From Verif Require Import Base Kind Ints Str Literal.
Import ListNotations.
Open Scope Z_scope.

(** Euclidean division in the sense of Boute. *)
Definition is_euclid (x y q r : Z) : Prop := x = y * q + r /\ 0 <= r < Z.abs y.

(** [q] is the quotient rounded down: y*q is on the near side of x. *)
Definition is_floor_quotient (x y q : Z) : Prop :=
  (0 < y /\ y * q <= x < y * (q + 1)) \/ (y < 0 /\ y * (q + 1) < x <= y * q).

(** A well-formed bit-vector value. *)
Definition bv_wf (b : bitvec) : Prop :=
  0 <= bv_size b < 2 ^ 32 /\ 0 <= bv_val b < 2 ^ bv_size b.

(** A well-formed code point sequence. *)
Definition str_wf (s : str) : Prop := Forall (fun c => 0 <= c < 196608) s.

(** A fraction in lowest terms (the denominator is positive by typing). *)
Definition rat_wf (q : Q) : Prop := Z.gcd (Qnum q) (QDen q) = 1.

(** A well-formed literal. *)
Definition lit_wf (l : literal) : Prop :=
  match l with
  | LBool _ | LNum _ => True
  | LDec q | LRat q => rat_wf q
  | LHex b | LBin b => bv_wf b
  | LStr s => str_wf s
  end.

(** The two bit-vector categories. *)
Definition bv_cat (mk : bitvec -> literal) : Prop := mk = LHex \/ mk = LBin.

(** The two rational categories. *)
Definition rat_cat (mk : Q -> literal) : Prop := mk = LDec \/ mk = LRat.

(** [t] occurs in [s] at position [i]. *)
Definition occurs_at (s t : list Z) (i : Z) : Prop :=
  exists pre post, s = pre ++ t ++ post /\ Z.of_nat (length pre) = i.

(** The characters of [s] at positions i, i+1, ..., j. *)
Definition is_slice (s : list Z) (i j : Z) (r : list Z) : Prop :=
  Z.of_nat (length r) = Z.max 0 (Z.min j (Z.of_nat (length s) - 1) - i + 1) /\
  forall k, (k < length r)%nat -> nth_error r k = nth_error s (Z.to_nat i + k)%nat.

(** Category of the result of an operator applied to literals whose first
    one has category [ka]; [None] when the operator never evaluates there.
    (user_manual.md, sections on arithmetic, string and conversion
    operators.) *)
Definition result_category (k ka : kind) : option kind :=
  match k with
  | K_EVAL_NOT =>
      match ka with K_BOOLEAN | K_HEXADECIMAL | K_BINARY => Some ka | _ => None end
  | K_EVAL_AND | K_EVAL_OR | K_EVAL_XOR | K_EVAL_ADD | K_EVAL_MUL =>
      match ka with K_STRING => None | _ => Some ka end
  | K_EVAL_CONCAT => Some ka
  | K_EVAL_NEG =>
      match ka with
      | K_NUMERAL | K_DECIMAL | K_RATIONAL | K_HEXADECIMAL | K_BINARY => Some ka
      | _ => None
      end
  | K_EVAL_INT_DIV | K_EVAL_INT_MOD =>
      match ka with K_NUMERAL | K_HEXADECIMAL | K_BINARY => Some ka | _ => None end
  | K_EVAL_RAT_DIV =>
      match ka with K_NUMERAL | K_DECIMAL | K_RATIONAL => Some K_RATIONAL | _ => None end
  | K_EVAL_IS_NEG =>
      match ka with K_NUMERAL | K_DECIMAL | K_RATIONAL => Some K_BOOLEAN | _ => None end
  | K_EVAL_LENGTH =>
      match ka with K_BINARY | K_STRING => Some K_NUMERAL | _ => None end
  | K_EVAL_EXTRACT =>
      match ka with K_HEXADECIMAL | K_BINARY | K_STRING => Some ka | _ => None end
  | K_EVAL_TO_INT =>
      match ka with
      | K_NUMERAL | K_DECIMAL | K_RATIONAL | K_BINARY | K_STRING => Some K_NUMERAL
      | _ => None
      end
  | K_EVAL_TO_RAT =>
      match ka with K_NUMERAL | K_DECIMAL | K_RATIONAL => Some K_RATIONAL | _ => None end
  | K_EVAL_TO_BIN => match ka with K_NUMERAL => Some K_BINARY | _ => None end
  | K_EVAL_TO_STRING =>
      match ka with
      | K_NUMERAL | K_DECIMAL | K_RATIONAL | K_HEXADECIMAL | K_BINARY | K_STRING =>
          Some K_STRING
      | _ => None
      end
  | K_EVAL_GT =>
      match ka with
      | K_NUMERAL | K_DECIMAL | K_RATIONAL | K_HEXADECIMAL | K_BINARY => Some K_BOOLEAN
      | _ => None
      end
  | K_EVAL_FIND => match ka with K_STRING => Some K_NUMERAL | _ => None end
  | _ => None
  end.

(** Operators whose arguments may have different categories. *)
Definition mixed_ok (k : kind) : Prop := k = K_EVAL_EXTRACT \/ k = K_EVAL_TO_BIN.

(** Both arguments are bit-vectors of the same category and width. *)
Definition same_width (a b : literal) : Prop :=
  match a, b with
  | LHex x, LHex y | LBin x, LBin y => bv_size x = bv_size y
  | _, _ => False
  end.

(** On which arguments an operator has a value (user manual, section on
    computation, plus the hexadecimal cases). *)
Definition has_value (k : kind) (args : list literal) : Prop :=
  match k, args with
  | K_EVAL_NOT, [a] => match a with LBool _ | LHex _ | LBin _ => True | _ => False end
  | (K_EVAL_AND | K_EVAL_OR | K_EVAL_XOR), [a; b] =>
      match a, b with LBool _, LBool _ => True | _, _ => same_width a b end
  | (K_EVAL_ADD | K_EVAL_MUL), [a; b] =>
      match a, b with
      | LNum _, LNum _ | LDec _, LDec _ | LRat _, LRat _ => True
      | _, _ => same_width a b
      end
  | K_EVAL_CONCAT, [a; b] =>
      match a, b with
      | LStr _, LStr _ | LHex _, LHex _ | LBin _, LBin _ => True
      | _, _ => False
      end
  | K_EVAL_NEG, [a] => match a with LBool _ | LStr _ => False | _ => True end
  | (K_EVAL_INT_DIV | K_EVAL_INT_MOD), [a; b] =>
      match a, b with LNum _, LNum d => d <> 0 | _, _ => same_width a b end
  | K_EVAL_RAT_DIV, [a; b] =>
      match a, b with
      | LNum _, LNum d => d <> 0
      | LDec _, LDec d | LRat _, LRat d => ~ (d == 0)%Q
      | _, _ => False
      end
  | K_EVAL_IS_NEG, [a] => match a with LNum _ | LDec _ | LRat _ => True | _ => False end
  | K_EVAL_LENGTH, [a] => match a with LBin _ | LStr _ => True | _ => False end
  | K_EVAL_EXTRACT, [a; LNum _; LNum _] =>
      match a with LHex _ | LBin _ | LStr _ => True | _ => False end
  | K_EVAL_TO_INT, [a] =>
      match a with
      | LNum _ | LDec _ | LRat _ | LBin _ => True
      | LStr s => length s = 1%nat
      | _ => False
      end
  | K_EVAL_TO_RAT, [a] => match a with LNum _ | LDec _ | LRat _ => True | _ => False end
  | K_EVAL_TO_BIN, [LNum w; b] =>
      0 <= w < 2 ^ 32 /\ match b with LNum _ | LHex _ | LBin _ => True | _ => False end
  | K_EVAL_TO_STRING, [a] => match a with LBool _ => False | _ => True end
  | K_EVAL_GT, [a; b] =>
      match a, b with
      | LNum _, LNum _ | LDec _, LDec _ | LRat _, LRat _ | LHex _, LHex _ | LBin _, LBin _ => True
      | _, _ => False
      end
  | K_EVAL_FIND, [LStr _; LStr _] => True
  | _, _ => False
  end.
