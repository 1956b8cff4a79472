(** Model of src/util/string.{h,cpp}: strings are lists of code points. *)
From Coq Require Import ZArith List Bool.
From Verif Require Import Base Ints.
Import ListNotations.
Open Scope Z_scope.

(** String: string.h 24-30, d_str is a vector of code points. *)
Definition str := list Z.

(** String::num_codes: string.h 37. *)
Definition num_codes : Z := 196608.

(** String::isDigit / isHexDigit / isPrintable: string.cpp 320-337. *)
Definition isDigit (c : Z) : bool := (48 <=? c) && (c <=? 57).
Definition isHexDigit (c : Z) : bool :=
  isDigit c || ((65 <=? c) && (c <=? 70)) || ((97 <=? c) && (c <=? 102)).
Definition isPrintable (c : Z) : bool := (32 <=? c) && (c <=? 126).

(** String::addCharToInternal: string.cpp 55-69.  A character outside 32..127
    is silently skipped (the exception is commented out, line 63).  Here the
    result is the list of pushed characters. *)
Definition addChar (ch : Z) : str :=
  if (127 <? ch) || (ch <? 32) then [] else [ch].

(** Inner loop of String::toInternal: string.cpp 108-154.  [hex] is the content
    of hexString, [cache] of nonEscCache (both in order).  Result:
    (isEscapeSequence, isEnd, hex, cache, number of characters consumed). *)
Fixpoint esc_loop (s : text) (isStart hasBrace : bool) (hex cache : text) (n : nat)
  : bool * bool * text * str * nat :=
  match s with
  | [] => (true, false, hex, cache, n)
  | si :: s' =>
      if isStart && (si =? 123) then
        esc_loop s' false true hex (cache ++ addChar si) (S n)
      else if negb isStart && (si =? 125) then
        (hasBrace && negb (Nat.eqb (length hex) 0), true, hex, cache ++ addChar si, S n)
      else if negb (isHexDigit si) then
        (false, false, hex, cache, n)
      else
        let hex' := hex ++ [si] in
        let cache' := cache ++ addChar si in
        if negb hasBrace && Nat.eqb (length hex') 4 then
          (true, true, hex', cache', S n)
        else if hasBrace && Nat.ltb 5 (length hex') then
          (false, false, hex', cache', S n)
        else esc_loop s' false hasBrace hex' cache' (S n)
  end.

(** Body of the outer loop of String::toInternal for a backslash:
    string.cpp 86-186.  [s] is the text after the backslash; the result is the
    list of pushed characters and the number of characters of [s] consumed.
    [hexString >> std::hex >> val] (line 168) is [read_digs 16]. *)
Definition esc_step (s : text) : str * nat :=
  let cache0 := addChar 92 in
  match s with
  | c :: s' =>
      if c =? 117 then
        let '(isEsc, isEnd, hex, cache, n) :=
          esc_loop s' true false [] (cache0 ++ addChar c) 1 in
        if isEsc && isEnd then
          match read_digs 16 hex 0 with
          | Some val => if val >=? num_codes then (cache, n) else ([val], n)
          | None => (cache, n)
          end
        else (cache, n)
      else (cache0, O)
  | [] => (cache0, O)
  end.

(** String::toInternal: string.cpp 71-195.  [skip] is the number of characters
    already consumed by an escape sequence, so that the outer loop is
    structural in the text. *)
Fixpoint toInternal (useEsc : bool) (s : text) (skip : nat) : str :=
  match s with
  | [] => []
  | si :: s' =>
      match skip with
      | S k => toInternal useEsc s' k
      | O =>
          if negb (si =? 92) || negb useEsc then addChar si ++ toInternal useEsc s' O
          else
            let '(out, n) := esc_step s' in
            out ++ toInternal useEsc s' n
      end
  end.

(** String::String(const std::string&, useEscSequences): string.h 58-61. *)
Definition str_ofText (useEsc : bool) (s : text) : str := toInternal useEsc s O.

(** String::toString with useEscSequences = false (the only use, literal.cpp
    104, expr_parser.cpp 345): string.cpp 197-215. *)
Definition char_toText (c : Z) : text :=
  if isPrintable c && negb (c =? 92) then [c]
  else [92; 117; 123] ++ int_toString 16 c ++ [125].
Definition str_toText (s : str) : text := flat_map char_toText s.

(** String::operator== / cmp: string.cpp 34-46. *)
Fixpoint str_cmp_codes (a b : str) : Z :=
  match a, b with
  | x :: a', y :: b' => if x =? y then str_cmp_codes a' b' else if x <? y then -1 else 1
  | _, _ => 0
  end.
Definition str_cmp (a b : str) : Z :=
  if negb (Nat.eqb (length a) (length b)) then
    if Nat.ltb (length a) (length b) then -1 else 1
  else str_cmp_codes a b.
Definition str_eqb (a b : str) : bool := str_cmp a b =? 0.

(** String::concat: string.cpp 48-53. *)
Definition str_concat (a b : str) : str := a ++ b.

(** Does [y] occur in [x] at the front? *)
Fixpoint str_prefix (y x : str) : bool :=
  match y, x with
  | [], _ => true
  | c :: y', d :: x' => (c =? d) && str_prefix y' x'
  | _ :: _, [] => false
  end.

(** std::search on code points: the first position of [y] in [x], if any. *)
Fixpoint str_search (x y : str) (i : Z) : option Z :=
  if str_prefix y x then Some i
  else match x with
       | [] => None
       | _ :: x' => str_search x' y (i + 1)
       end.

(** String::find with start = 0: string.cpp 239-250. *)
Definition str_find (x y : str) : option Z :=
  if Nat.ltb (length x) (length y) then None
  else if Nat.eqb (length y) 0 then Some 0
  else if Nat.eqb (length x) 0 then None
  else str_search x y 0.

(** String::substr: string.cpp 299-305; iterators past the end are undefined
    behaviour (the Assert is compiled out). *)
Definition str_substr (s : str) (i j : Z) : res str :=
  if (0 <=? i) && (0 <=? j) && (i + j <=? Z.of_nat (length s)) then
    Ok (firstn (Z.to_nat j) (skipn (Z.to_nat i) s))
  else UB.
