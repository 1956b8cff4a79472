(** Model of src/literal.{h,cpp}. *)
From Coq Require Import ZArith QArith List Bool.
From Verif Require Import Base Kind Ints Str.
Import ListNotations.
Open Scope Z_scope.

(** Literal: literal.h 22-62.  One constructor per literal kind.
    Simplified: the C++ class stores the value in a union.  The sum of two
    numerals is built by [Literal(ka, res)] (literal.cpp 203), which selects
    the Rational constructor, so that the value is stored in d_rat and later
    read from d_int; the model gives such a literal the numerator (the two
    members have the same first word in memory).  See [Union.v] for a model of
    the union itself. *)
Inductive literal : Type :=
| LBool (b : bool)
| LNum (z : Z)
| LDec (q : Q)
| LRat (q : Q)
| LHex (b : bitvec)
| LBin (b : bitvec)
| LStr (s : str).

(** ExprValue::getKind on a literal. *)
Definition lit_kind (l : literal) : kind :=
  match l with
  | LBool _ => K_BOOLEAN
  | LNum _ => K_NUMERAL
  | LDec _ => K_DECIMAL
  | LRat _ => K_RATIONAL
  | LHex _ => K_HEXADECIMAL
  | LBin _ => K_BINARY
  | LStr _ => K_STRING
  end.

(** Equality of literals as decided by the maps of State::mkLiteralInternal
    (state.cpp 922-988): the same kind and an equal value, using operator== of
    Integer, Rational, BitVector and String. *)
Definition lit_eqb (a b : literal) : bool :=
  match a, b with
  | LBool x, LBool y => Bool.eqb x y
  | LNum x, LNum y => x =? y
  | LDec x, LDec y | LRat x, LRat y =>
      (Qnum x =? Qnum y) && (QDen x =? QDen y)
  | LHex x, LHex y | LBin x, LBin y => bv_eqb x y
  | LStr x, LStr y => str_eqb x y
  | _, _ => false
  end.

(** "true" and "false". *)
Definition t_true : text := [116; 114; 117; 101].
Definition t_false : text := [102; 97; 108; 115; 101].

(** Literal::toString: literal.cpp 88-112. *)
Definition lit_toString (l : literal) : text :=
  match l with
  | LBool b => if b then t_true else t_false
  | LDec q => rat_toString q
  | LRat q => if rat_isIntegral q then rat_toString q ++ [47; 49] else rat_toString q
  | LNum z => int_toString 10 z
  | LHex b => bv_toString 16 b
  | LBin b => bv_toString 2 b
  | LStr s => str_toText s
  end.

(** allSameKind: literal.cpp 114-125; [args[0]] on an empty vector is undefined
    behaviour. *)
Definition allSameKind (args : list literal) : res kind :=
  match args with
  | [] => UB
  | a :: rest =>
      Ok (if forallb (fun b => kind_eqb (lit_kind b) (lit_kind a)) rest
          then lit_kind a else K_NONE)
  end.

(** The bit-vector of a literal ([d_bv]); only read when the kind is
    HEXADECIMAL or BINARY. *)
Definition lit_bv (l : literal) : bitvec :=
  match l with LHex b | LBin b => b | _ => mkBV 0 0 end.

(** allSameBitWidth: literal.cpp 127-138. *)
Definition allSameBitWidth (args : list literal) : bool :=
  match args with
  | [] => true
  | a :: rest => forallb (fun b => bv_size (lit_bv b) =? bv_size (lit_bv a)) rest
  end.

(** The loops "for (i = 1; i < nargs; i++) switch (k)" of literal.cpp 164-262:
    [None] is the early return of the null literal. *)
Fixpoint fold_opt {A B : Type} (f : A -> B -> option A) (acc : A) (l : list B) : option A :=
  match l with
  | [] => Some acc
  | b :: l' => match f acc b with Some a => fold_opt f a l' | None => None end
  end.

(** The n-ary operators AND, OR, XOR, ADD, MUL, CONCAT: literal.cpp 164-262.
    All arguments have the kind of the first one. *)
Definition bool_op (k : kind) (x : bool) (l : literal) : option bool :=
  match l, k with
  | LBool y, K_EVAL_AND => Some (x && y)
  | LBool y, K_EVAL_OR => Some (x || y)
  | LBool y, K_EVAL_XOR => Some (negb (Bool.eqb x y))
  | _, _ => None
  end.
Definition num_op (k : kind) (x : Z) (l : literal) : option Z :=
  match l, k with
  | LNum y, K_EVAL_ADD => Some (x + y)
  | LNum y, K_EVAL_MUL => Some (x * y)
  | _, _ => None
  end.
Definition rat_op (k : kind) (x : Q) (l : literal) : option Q :=
  match l, k with
  | LDec y, K_EVAL_ADD | LRat y, K_EVAL_ADD => Some (rat_add x y)
  | LDec y, K_EVAL_MUL | LRat y, K_EVAL_MUL => Some (rat_mul x y)
  | _, _ => None
  end.
Definition bv_op (k : kind) (x : bitvec) (l : literal) : option bitvec :=
  match l with
  | LHex y | LBin y =>
      match k with
      | K_EVAL_AND => Some (bv_and x y)
      | K_EVAL_OR => Some (bv_or x y)
      | K_EVAL_XOR => Some (bv_xor x y)
      | K_EVAL_ADD => Some (bv_add x y)
      | K_EVAL_MUL => Some (bv_mul x y)
      | K_EVAL_CONCAT => Some (bv_concat x y)
      | _ => None
      end
  | _ => None
  end.
Definition str_op (k : kind) (x : str) (l : literal) : option str :=
  match l, k with
  | LStr y, K_EVAL_CONCAT => Some (str_concat x y)
  | _, _ => None
  end.
Definition eval_nary (k : kind) (args : list literal) : option literal :=
  match args with
  | [] => None
  | LBool b :: rest => option_map LBool (fold_opt (bool_op k) b rest)
  | LNum z :: rest => option_map LNum (fold_opt (num_op k) z rest)
  | LDec q :: rest => option_map LDec (fold_opt (rat_op k) q rest)
  | LRat q :: rest => option_map LRat (fold_opt (rat_op k) q rest)
  | LHex b :: rest =>
      if negb (kind_eqb k K_EVAL_CONCAT) && negb (allSameBitWidth args) then None
      else option_map LHex (fold_opt (bv_op k) b rest)
  | LBin b :: rest =>
      if negb (kind_eqb k K_EVAL_CONCAT) && negb (allSameBitWidth args) then None
      else option_map LBin (fold_opt (bv_op k) b rest)
  | LStr s :: rest =>
      if kind_eqb k K_EVAL_CONCAT then option_map LStr (fold_opt (str_op k) s rest)
      else None
  end.

(** EVAL_NOT: literal.cpp 155-163. *)
Definition eval_not (a : literal) : option literal :=
  match a with
  | LBool b => Some (LBool (negb b))
  | LHex b => Some (LHex (bv_not b))
  | LBin b => Some (LBin (bv_not b))
  | _ => None
  end.

(** EVAL_NEG: literal.cpp 263-273. *)
Definition eval_neg (a : literal) : option literal :=
  match a with
  | LNum z => Some (LNum (- z))
  | LDec q => Some (LDec (rat_neg q))
  | LRat q => Some (LRat (rat_neg q))
  | LHex b => Some (LHex (bv_neg b))
  | LBin b => Some (LBin (bv_neg b))
  | _ => None
  end.

(** EVAL_INT_DIV / EVAL_INT_MOD: literal.cpp 274-302.  [args[1]] is read only
    for the kinds NUMERAL, HEXADECIMAL and BINARY. *)
Definition eval_divmod (isDiv : bool) (args : list literal) : res (option literal) :=
  let* a := vec_at args 0 in
  match a with
  | LNum x =>
      let* b := vec_at args 1 in
      match b with
      | LNum d =>
          if Z.sgn d =? 0 then Ok None
          else Ok (Some (LNum (if isDiv then euclidianDivideQuotient x d
                               else euclidianDivideRemainder x d)))
      | _ => Ok None
      end
  | LHex x =>
      if negb (allSameBitWidth args) then Ok None
      else
        let* b := vec_at args 1 in
        Ok (Some (LHex (if isDiv then bv_udiv x (lit_bv b) else bv_urem x (lit_bv b))))
  | LBin x =>
      if negb (allSameBitWidth args) then Ok None
      else
        let* b := vec_at args 1 in
        Ok (Some (LBin (if isDiv then bv_udiv x (lit_bv b) else bv_urem x (lit_bv b))))
  | _ => Ok None
  end.

(** EVAL_RAT_DIV: literal.cpp 303-327. *)
Definition eval_ratdiv (args : list literal) : res (option literal) :=
  let* a := vec_at args 0 in
  match a with
  | LNum x =>
      let* b := vec_at args 1 in
      match b with
      | LNum d => Ok (if Z.sgn d =? 0 then None else Some (LRat (rat_make x d)))
      | _ => Ok None
      end
  | LDec x | LRat x =>
      let* b := vec_at args 1 in
      match b with
      | LDec d | LRat d => Ok (if rat_sgn d =? 0 then None else Some (LRat (rat_div x d)))
      | _ => Ok None
      end
  | _ => Ok None
  end.

(** EVAL_IS_NEG: literal.cpp 328-336. *)
Definition eval_isneg (a : literal) : option literal :=
  match a with
  | LNum z => Some (LBool (Z.sgn z =? -1))
  | LDec q | LRat q => Some (LBool (rat_sgn q =? -1))
  | _ => None
  end.

(** EVAL_LENGTH: literal.cpp 338-345. *)
Definition eval_length (a : literal) : option literal :=
  match a with
  | LBin b => Some (LNum (int_of_uint (bv_size b)))
  | LStr s => Some (LNum (int_of_uint (Z.of_nat (length s))))
  | _ => None
  end.

(** EVAL_EXTRACT on a bit-vector: literal.cpp 354-371. *)
Definition extract_bv (b : bitvec) (i1 i2 : Z) : bitvec :=
  let dsize := int_of_uint (bv_size b) in
  if (Z.sgn i1 <? 0) || (Z.sgn i2 <? 0) || (i1 >? dsize) || (Z.sgn dsize =? 0)
  then mkBV 0 0
  else
    let v1 := toUnsignedInt i1 in
    let vs := toUnsignedInt dsize in
    let v2 := if i2 >? dsize then u32 (vs - 1) else toUnsignedInt i2 in
    if v1 >? v2 then mkBV 0 0 else bv_extract b v2 v1.

(** EVAL_EXTRACT on a string: literal.cpp 372-386. *)
Definition extract_str (s : str) (i1 i2 : Z) : res str :=
  let dsize := int_of_uint (Z.of_nat (length s)) in
  if (Z.sgn i1 <? 0) || (Z.sgn i2 <? 0) || (i1 >? dsize) || (Z.sgn dsize =? 0)
  then Ok []
  else
    let v1 := toUnsignedInt i1 in
    let vs := toUnsignedInt dsize in
    let v2 := if i2 >=? dsize then u32 (vs - 1) else toUnsignedInt i2 in
    let esize := if v2 >=? v1 then u32 (u32 (v2 + 1) - v1) else 0 in
    str_substr s v1 esize.

(** EVAL_EXTRACT: literal.cpp 346-392; [args[1]] and then, only if that is a
    numeral, [args[2]] are read. *)
Definition eval_extract (args : list literal) : res (option literal) :=
  let* b := vec_at args 1 in
  match b with
  | LNum i1 =>
      let* c := vec_at args 2 in
      match c with
      | LNum i2 =>
          let* a := vec_at args 0 in
          match a with
          | LHex v => Ok (Some (LHex (extract_bv v i1 i2)))
          | LBin v => Ok (Some (LBin (extract_bv v i1 i2)))
          | LStr s => let* r := extract_str s i1 i2 in Ok (Some (LStr r))
          | _ => Ok None
          end
      | _ => Ok None
      end
  | _ => Ok None
  end.

(** EVAL_TO_INT: literal.cpp 394-413. *)
Definition eval_toint (a : literal) : option literal :=
  match a with
  | LDec q | LRat q => Some (LNum (rat_floor q))
  | LNum z => Some (LNum z)
  | LBin b => Some (LNum (bv_val b))
  | LStr [c] => Some (LNum (int_of_uint c))
  | _ => None
  end.

(** EVAL_TO_RAT: literal.cpp 414-422. *)
Definition eval_torat (a : literal) : option literal :=
  match a with
  | LRat q => Some (LRat q)
  | LDec q => Some (LRat q)
  | LNum z => Some (LRat (rat_ofInt z))
  | _ => None
  end.

(** EVAL_TO_BIN: literal.cpp 423-435; the arguments need not have equal
    kinds. *)
Definition eval_tobin (args : list literal) : res (option literal) :=
  let* a := vec_at args 0 in
  match a with
  | LNum n =>
      if fitsUnsignedInt n then
        let size := toUnsignedInt n in
        let* b := vec_at args 1 in
        match b with
        | LNum v => Ok (Some (LBin (bv_make size v)))
        | LHex v | LBin v => Ok (Some (LBin (bv_make size (bv_val v))))
        | _ => Ok None
        end
      else Ok None
  | _ => Ok None
  end.

(** EVAL_TO_STRING: literal.cpp 436-460, including the fall-through from
    NUMERAL to RATIONAL when the numeral is not a code point. *)
Definition eval_tostr (a : literal) : option literal :=
  match a with
  | LDec q => Some (LStr (str_ofText false (rat_toString q)))
  | LNum z =>
      if fitsUnsignedInt z && (toUnsignedInt z <? num_codes)
      then Some (LStr [toUnsignedInt z])
      else Some (LStr (str_ofText false (lit_toString a)))
  | LRat _ => Some (LStr (str_ofText false (lit_toString a)))
  | LHex _ => Some (LStr (str_ofText false ([35; 120] ++ lit_toString a)))
  | LBin _ => Some (LStr (str_ofText false ([35; 98] ++ lit_toString a)))
  | LStr s => Some (LStr s)
  | _ => None
  end.

(** EVAL_GT: literal.cpp 461-474. *)
Definition eval_gt (args : list literal) : res (option literal) :=
  let* a := vec_at args 0 in
  match a with
  | LNum x =>
      let* b := vec_at args 1 in
      match b with LNum y => Ok (Some (LBool (x >? y))) | _ => Ok None end
  | LDec x | LRat x =>
      let* b := vec_at args 1 in
      match b with LDec y | LRat y => Ok (Some (LBool (rat_gt x y))) | _ => Ok None end
  | LHex x | LBin x =>
      let* b := vec_at args 1 in
      Ok (Some (LBool (bv_val x >? bv_val (lit_bv b))))
  | _ => Ok None
  end.

(** EVAL_FIND: literal.cpp 475-490; the position is narrowed to unsigned int. *)
Definition eval_find (args : list literal) : res (option literal) :=
  let* a := vec_at args 0 in
  match a with
  | LStr x =>
      let* b := vec_at args 1 in
      match b with
      | LStr y =>
          match str_find x y with
          | None => Ok (Some (LNum (-1)))
          | Some i => Ok (Some (LNum (int_of_uint i)))
          end
      | _ => Ok None
      end
  | _ => Ok None
  end.

(** The switch on the operator, literal.cpp 151-492, after the kind check. *)
Definition evaluate_switch (k : kind) (args : list literal) : res (option literal) :=
  match k with
  | K_EVAL_NOT => let* a := vec_at args 0 in Ok (eval_not a)
  | K_EVAL_AND | K_EVAL_OR | K_EVAL_XOR | K_EVAL_ADD | K_EVAL_MUL | K_EVAL_CONCAT =>
      Ok (eval_nary k args)
  | K_EVAL_NEG => let* a := vec_at args 0 in Ok (eval_neg a)
  | K_EVAL_INT_DIV => eval_divmod true args
  | K_EVAL_INT_MOD => eval_divmod false args
  | K_EVAL_RAT_DIV => eval_ratdiv args
  | K_EVAL_IS_NEG => let* a := vec_at args 0 in Ok (eval_isneg a)
  | K_EVAL_LENGTH => let* a := vec_at args 0 in Ok (eval_length a)
  | K_EVAL_EXTRACT => eval_extract args
  | K_EVAL_TO_INT => let* a := vec_at args 0 in Ok (eval_toint a)
  | K_EVAL_TO_RAT => let* a := vec_at args 0 in Ok (eval_torat a)
  | K_EVAL_TO_BIN => eval_tobin args
  | K_EVAL_TO_STRING => let* a := vec_at args 0 in Ok (eval_tostr a)
  | K_EVAL_GT => eval_gt args
  | K_EVAL_FIND => eval_find args
  | _ => Ok None
  end.

(** Literal::evaluate: literal.cpp 140-494.  [Ok None] is the null literal
    (the operator does not evaluate). *)
Definition evaluate (k : kind) (args : list literal) : res (option literal) :=
  if negb (kind_eqb k K_EVAL_EXTRACT) && negb (kind_eqb k K_EVAL_TO_BIN) then
    let* ka := allSameKind args in
    if kind_eqb ka K_NONE then Ok None else evaluate_switch k args
  else evaluate_switch k args.

(** State::mkLiteral: state.cpp 849-870 (conversion of the text of a token of
    the given kind).  [Err]: fatal error or exception. *)
Definition mkLiteral (k : kind) (s : text) : res literal :=
  match k with
  | K_BOOLEAN => Ok (LBool (text_eqb s t_true))
  | K_NUMERAL => match int_ofString 10 s with Some z => Ok (LNum z) | None => Err end
  | K_DECIMAL => let* q := rat_fromDecimal s in Ok (LDec q)
  | K_RATIONAL => let* q := rat_ofString s in Ok (LRat q)
  | K_HEXADECIMAL => let* b := bv_ofString 16 s in Ok (LHex b)
  | K_BINARY => let* b := bv_ofString 2 s in Ok (LBin b)
  | K_STRING => Ok (LStr (str_ofText true s))
  | _ => Err
  end.
