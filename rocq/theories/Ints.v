(** Model of src/util/integer.{h,cpp}, src/util/rational.{h,cpp} and
    src/util/bitvector.{h,cpp}.  GMP itself is trusted: mpz_class is [Z] and a
    canonical mpq_class is a reduced [Q]. *)
From Coq Require Import ZArith QArith Qreduction Qround List Bool.
From Verif Require Import Base.
Import ListNotations.
Open Scope Z_scope.

(* ------------------------------------------------------------------ *)
(** * Integer *)

(** Integer::Integer(unsigned int): integer.h 42.  A size_t argument is first
    converted to unsigned int. *)
Definition int_of_uint (z : Z) : Z := u32 z.

(** Integer::bitwiseNot: integer.cpp 73-78 (mpz_com). *)
Definition bitwiseNot (z : Z) : Z := Z.lnot z.

(** Integer::multiplyByPow2: integer.cpp 80-85. *)
Definition multiplyByPow2 (z pow : Z) : Z := z * 2 ^ pow.

(** Integer::oneExtend: integer.cpp 87-99.  The loop runs [i] over the
    unsigned interval [size, size + amount) where the end wraps modulo 2^32, so
    it runs [u32 (size + amount) - size] times when that is positive. *)
Definition oneExtend (z size amount : Z) : Z :=
  let last := u32 (size + amount) in
  snd (Z.iter (last - size) (fun ir => (fst ir + 1, Z.setbit (snd ir) (fst ir)))
              (size, z)).

(** Integer::fitsUnsignedInt: integer.cpp 101. *)
Definition fitsUnsignedInt (z : Z) : bool := (0 <=? z) && (z <? 2 ^ 32).

(** Integer::toUnsignedInt: integer.cpp 103-106.  mpz_get_ui gives the low
    64 bits of the absolute value, then narrowed to uint32_t. *)
Definition toUnsignedInt (z : Z) : Z := u32 (Z.abs z mod 2 ^ 64).

(** Integer::extractBitRange: integer.cpp 108-118; [high] and [high + 1] are
    computed in uint32_t. *)
Definition extractBitRange (z bitCount low : Z) : Z :=
  let high := u32 (low + bitCount - 1) in
  let rem := z mod 2 ^ (u32 (high + 1)) in
  rem / 2 ^ low.

(** Integer::floorDivideQuotient / floorDivideRemainder: integer.cpp 120-132.
    GMP aborts on a zero divisor; callers test for it. *)
Definition floorDivideQuotient (x y : Z) : Z := x / y.
Definition floorDivideRemainder (x y : Z) : Z := x mod y.

(** Integer::euclidianQR: integer.cpp 134-169, including its inner test of the
    sign of [r] (integer.cpp 152), which is always false at that point. *)
Definition euclidianQR (x y : Z) : Z * Z :=
  let q := x / y in
  let r := x mod y in
  if Z.sgn r <? 0 then
    if Z.sgn r >=? 0 then (q + (- 1), r + y)
    else (q + 1, r + (- y))
  else (q, r).

(** Integer::euclidianDivideQuotient / Remainder: integer.cpp 171-183. *)
Definition euclidianDivideQuotient (x y : Z) : Z := fst (euclidianQR x y).
Definition euclidianDivideRemainder (x y : Z) : Z := snd (euclidianQR x y).

(** Integer::modByPow2: integer.cpp 185-190. *)
Definition modByPow2 (z exp : Z) : Z := z mod 2 ^ exp.

(** The character of a digit below 16 as printed by mpz_get_str. *)
Definition dchar (d : Z) : Z := if d <? 10 then 48 + d else 87 + d.

(** Digits of a non-negative number, most significant first (mpz_get_str).
    [n] bounds the number of digits. *)
Fixpoint digs (n : nat) (base z : Z) (acc : text) : text :=
  match n with
  | O => acc
  | S n' =>
      if z <? base then dchar z :: acc
      else digs n' base (z / base) (dchar (z mod base) :: acc)
  end.

(** Integer::toString: integer.cpp 201 (mpz_class::get_str).  The number of
    digits in any base >= 2 is at most log2 z + 1. *)
Definition int_toString (base z : Z) : text :=
  if z <? 0 then 45 :: digs (S (Z.to_nat (Z.log2 (- z)))) base (- z) []
  else digs (S (Z.to_nat (Z.log2 z))) base z [].

(** Value of a digit character in mpz_set_str, [None] if not a digit of a
    base <= 16. *)
Definition dval (c : Z) : option Z :=
  if (48 <=? c) && (c <=? 57) then Some (c - 48)
  else if (97 <=? c) && (c <=? 102) then Some (c - 87)
  else if (65 <=? c) && (c <=? 70) then Some (c - 55)
  else None.

Fixpoint read_digs (base : Z) (s : text) (acc : Z) : option Z :=
  match s with
  | [] => Some acc
  | c :: s' =>
      match dval c with
      | Some d => if d <? base then read_digs base s' (acc * base + d) else None
      | None => None
      end
  end.

(** Integer::Integer(const std::string&, base): integer.cpp 20-22, via
    mpz_set_str.  [None] stands for the std::invalid_argument exception.
    Simplified: GMP also skips white space, which never occurs in a number
    token. *)
Definition int_ofString (base : Z) (s : text) : option Z :=
  match s with
  | [] => None
  | 45 :: [] => None
  | 45 :: s' => option_map Z.opp (read_digs base s' 0)
  | _ => read_digs base s 0
  end.

(* ------------------------------------------------------------------ *)
(** * Rational *)

(** Rational::Rational(n, d): rational.h 62-66 with canonicalize.  [d] must be
    non-zero (GMP divides by zero otherwise). *)
Definition rat_make (n d : Z) : Q := Qred (Qmake (Z.sgn d * n) (Z.to_pos (Z.abs d))).

(** Rational::Rational(n): rational.h 67. *)
Definition rat_ofInt (n : Z) : Q := Qmake n 1.

(** operators of rational.h 85-106; results of mpq arithmetic are canonical. *)
Definition rat_add (a b : Q) : Q := Qred (a + b).
Definition rat_mul (a b : Q) : Q := Qred (a * b).
Definition rat_neg (a : Q) : Q := Qred (- a).
Definition rat_div (a b : Q) : Q := Qred (a / b).
Definition rat_gt (a b : Q) : bool := (Qnum b * QDen a <? Qnum a * QDen b).
Definition rat_sgn (a : Q) : Z := Z.sgn (Qnum a).

(** Rational::floor: rational.h 72-77 (mpz_fdiv_q of numerator and
    denominator). *)
Definition rat_floor (a : Q) : Z := Qnum a / QDen a.

(** Rational::isIntegral: rational.cpp 45. *)
Definition rat_isIntegral (a : Q) : bool := (QDen a =? 1).

(** Rational::toString: rational.cpp 47 (mpq_class::get_str prints the
    denominator only when it is not 1). *)
Definition rat_toString (a : Q) : text :=
  if QDen a =? 1 then int_toString 10 (Qnum a)
  else int_toString 10 (Qnum a) ++ [47] ++ int_toString 10 (QDen a).

(** Position of the first occurrence of a character in a text
    (std::string::find). *)
Fixpoint index_of (c : Z) (s : text) : option nat :=
  match s with
  | [] => None
  | x :: s' => if x =? c then Some O else option_map S (index_of c s')
  end.

(** Rational::Rational(const std::string&): rational.h 51-54 (mpq_set_str
    "n/d" or "n"; then canonicalize).  A zero denominator makes canonicalize
    divide by zero: [UB].  [Err] stands for the std::invalid_argument
    exception. *)
Definition rat_ofString (s : text) : res Q :=
  match index_of 47 s with
  | None =>
      match int_ofString 10 s with
      | Some n => Ok (rat_ofInt n)
      | None => Err
      end
  | Some i =>
      match int_ofString 10 (firstn i s), int_ofString 10 (skipn (S i) s) with
      | Some n, Some d => if d =? 0 then UB else Ok (rat_make n d)
      | _, _ => Err
      end
  end.

(** Rational::fromDecimal: rational.cpp 26-43. *)
Definition rat_fromDecimal (s : text) : res Q :=
  match index_of 46 s with
  | Some i =>
      match int_ofString 10 (firstn i s ++ skipn (S i) s) with
      | Some n =>
          let decPlaces := Z.of_nat (length s) - (Z.of_nat i + 1) in
          Ok (rat_make n (10 ^ decPlaces))
      | None => Err
      end
  | None => rat_ofString s
  end.

(* ------------------------------------------------------------------ *)
(** * BitVector *)

(** BitVector: bitvector.h 19-136, the two data members. *)
Record bitvec : Type := mkBV { bv_size : Z; bv_val : Z }.

(** BitVector::BitVector(unsigned, const Integer&): bitvector.h 22-25. *)
Definition bv_make (size val : Z) : bitvec := mkBV (u32 size) (modByPow2 val (u32 size)).

(** BitVector::BitVector(const std::string&, base): bitvector.cpp 15-28 for
    bases 2 and 16 (base 10 is never used).  [Err] is the invalid_argument
    exception. *)
Definition bv_ofString (base : Z) (s : text) : res bitvec :=
  match int_ofString base s with
  | Some v =>
      let n := Z.of_nat (length s) in
      Ok (mkBV (u32 (if base =? 16 then n * 4 else n)) v)
  | None => Err
  end.

(** BitVector::toString: bitvector.cpp 36-54. *)
Definition bv_toString (base : Z) (b : bitvec) : text :=
  let str := int_toString base (bv_val b) in
  let n := Z.of_nat (length str) in
  if (base =? 2) && (n <? bv_size b) then
    repeat 48 (Z.to_nat (bv_size b - n)) ++ str
  else if bv_size b =? 0 then []
  else str.

(** BitVector::concat: bitvector.cpp 67-71. *)
Definition bv_concat (a b : bitvec) : bitvec :=
  bv_make (bv_size a + bv_size b) (multiplyByPow2 (bv_val a) (bv_size b) + bv_val b).

(** BitVector::extract: bitvector.cpp 73-79; the Asserts are compiled out. *)
Definition bv_extract (a : bitvec) (high low : Z) : bitvec :=
  let n := u32 (high - low + 1) in
  bv_make n (extractBitRange (bv_val a) n low).

(** operator==: bitvector.cpp 83-87. *)
Definition bv_eqb (a b : bitvec) : bool :=
  if negb (bv_size a =? bv_size b) then false else bv_val a =? bv_val b.

(** operators ^ | & ~ + - *: bitvector.cpp 91-134. *)
Definition bv_xor (a b : bitvec) : bitvec := bv_make (bv_size a) (Z.lxor (bv_val a) (bv_val b)).
Definition bv_or (a b : bitvec) : bitvec := bv_make (bv_size a) (Z.lor (bv_val a) (bv_val b)).
Definition bv_and (a b : bitvec) : bitvec := bv_make (bv_size a) (Z.land (bv_val a) (bv_val b)).
Definition bv_not (a : bitvec) : bitvec := bv_make (bv_size a) (bitwiseNot (bv_val a)).
Definition bv_add (a b : bitvec) : bitvec := bv_make (bv_size a) (bv_val a + bv_val b).
Definition bv_neg (a : bitvec) : bitvec :=
  bv_add (bv_not a) (bv_make (bv_size a) 1).
Definition bv_mul (a b : bitvec) : bitvec := bv_make (bv_size a) (bv_val a * bv_val b).

(** BitVector::unsignedDivTotal: bitvector.cpp 136-147.  [d_size - 1] is
    computed in uint32_t. *)
Definition bv_udiv (a b : bitvec) : bitvec :=
  if Z.sgn (bv_val b) =? 0 then
    bv_make (bv_size a) (oneExtend 1 1 (u32 (bv_size a - 1)))
  else bv_make (bv_size a) (floorDivideQuotient (bv_val a) (bv_val b)).

(** BitVector::unsignedRemTotal: bitvector.cpp 149-159. *)
Definition bv_urem (a b : bitvec) : bitvec :=
  if Z.sgn (bv_val b) =? 0 then bv_make (bv_size a) (bv_val a)
  else bv_make (bv_size a) (floorDivideRemainder (bv_val a) (bv_val b)).
