(** The lexer (src/lexer.h, src/lexer.cpp, src/input.cpp). *)
From Coq Require Import ZArith List Bool Ascii String.
From Verif Require Import Base.
Import ListNotations.
Open Scope Z_scope.

(** Notation for a C++ string constant. *)
Definition txt (s : string) : text :=
  map (fun c => Z.of_N (N_of_ascii c)) (list_ascii_of_string s).

(** EOF of <cstdio>. *)
Definition c_eof : Z := -1.

(* ------------------------------------------------------------------ *)
(** * Characters *)

(** The conversion of a [char] to [int32_t] (lexer.h 95, 113).  [char] is signed
    in the build that is modelled (implementation-defined; x86-64). *)
Definition char_to_int (b : Z) : Z := if b <? 128 then b else b - 256.

(** The input side of the lexer: lexer.h 178-193.  [r_buf]: the bytes of
    d_buffer from d_bufferPos to d_bufferEnd; [r_stream]: the bytes that
    d_istream has not delivered yet; [r_inter]: d_isInteractive (true for
    standard input, input.cpp 36-46). *)
Record reader : Type := mkReader { r_inter : bool; r_buf : list Z; r_stream : list Z }.

(** INPUT_BUFFER_SIZE: lexer.h 42. *)
Definition buffer_size : nat := Z.to_nat 32768.

(** Lexer::readNextChar: lexer.h 91-118, for a buffer of [size] bytes. *)
Definition readNextChar (size : nat) (r : reader) : Z * reader :=
  match r_buf r with
  | b :: buf => (char_to_int b, mkReader (r_inter r) buf (r_stream r))
  | [] =>
      if r_inter r then
        match r_stream r with
        | [] => (c_eof, r)
        | b :: s => (b, mkReader true [] s)      (* istream::get gives 0..255 *)
        end
      else
        match firstn size (r_stream r) with
        | [] => (c_eof, mkReader false [] [])
        | b :: buf => (char_to_int b, mkReader false buf (skipn size (r_stream r)))
        end
  end.

(** The characters delivered by the next [n] calls. *)
Fixpoint readMany (size : nat) (n : nat) (r : reader) : list Z :=
  match n with
  | O => []
  | S m => let '(c, r') := readNextChar size r in c :: readMany size m r'
  end.

(** What the lexer has left to read: the characters in the order in which
    readNextChar delivers them, followed by EOF for ever.  nextChar and saveChar
    (lexer.h 120-149) take from and put back to the front of this list.  That
    readNextChar delivers exactly this list is property C45.  Putting EOF back at
    the end of the input changes nothing, since the next read gives EOF again. *)
Definition chars := list Z.
Definition chars_of (inter : bool) (bytes : text) : chars :=
  if inter then bytes else map char_to_int bytes.
Definition nextChar (cs : chars) : Z * chars :=
  match cs with [] => (c_eof, []) | c :: r => (c, r) end.
Definition saveChar (c : Z) (cs : chars) : chars :=
  match cs with
  | [] => if c =? c_eof then [] else [c]
  | _ => c :: cs
  end.

(** Lexer::CharacterClass: lexer.h 211-220. *)
Inductive cclass : Type := CWhitespace | CDigit | CHex | CBit | CSymStart | CSym.

Definition in_range (lo hi c : Z) : bool := (lo <=? c) && (c <=? hi).
Definition is_alpha (c : Z) : bool := in_range 97 122 c || in_range 65 90 c.
(** s_extraSymbolChars: lexer.h 222. *)
Definition extra_chars : text := txt "+-/*=%?!.$_~&^<>@".

(** Lexer::isCharacterClass (lexer.h 232-235) with the table filled by the
    constructor of Lexer (lexer.cpp 37-75). *)
Definition isClass (cc : cclass) (ch : Z) : bool :=
  let c := ch mod 256 in
  match cc with
  | CWhitespace => (c =? 32) || (c =? 9) || (c =? 13) || (c =? 10)
  | CDigit => in_range 48 57 c
  | CHex => in_range 48 57 c || in_range 97 102 c || in_range 65 70 c
  | CBit => (c =? 48) || (c =? 49)
  | CSymStart => is_alpha c || existsb (Z.eqb c) extra_chars
  | CSym => is_alpha c || in_range 48 57 c || existsb (Z.eqb c) extra_chars || (c =? 58)
  end.

(* ------------------------------------------------------------------ *)
(** * Tokens *)

(** Token: tokens.h 19-78.  The tokens of commands, which only
    CmdParser::nextCommandToken makes, are in Check.v; NONE is never returned. *)
Inductive token : Type :=
| T_EOF | T_ATTRIBUTE | T_BOOL_TYPE | T_BINARY | T_DECIMAL | T_EVAL_DEFINE | T_HEX
| T_INTEGER | T_KEYWORD | T_LET | T_LPAREN | T_PAR | T_QUOTED_SYMBOL | T_RATIONAL
| T_RPAREN | T_STRING | T_SYMBOL | T_TYPE | T_UNTERMINATED_QUOTED | T_UNTERMINATED_STRING.
(** The number of a token of the enumeration, tokens.h 19. *)
Definition token_num (t : token) : Z :=
  match t with
  | T_EOF => 0 | T_ATTRIBUTE => 1 | T_BOOL_TYPE => 2 | T_BINARY => 3 | T_DECIMAL => 4
  | T_EVAL_DEFINE => 5 | T_HEX => 6 | T_INTEGER => 7 | T_KEYWORD => 8 | T_LET => 9
  | T_LPAREN => 10 | T_PAR => 11 | T_QUOTED_SYMBOL => 12 | T_RATIONAL => 13
  | T_RPAREN => 14 | T_STRING => 15 | T_SYMBOL => 16 | T_TYPE => 17
  | T_UNTERMINATED_QUOTED => 18 | T_UNTERMINATED_STRING => 19
  end.
(** Comparison of tokens, tokens.h 19. *)
Definition token_eqb (a b : token) : bool := token_num a =? token_num b.

(** pushToToken: lexer.h 204-209; the text of the token so far is kept in order. *)
Definition pushChar (tok : text) (ch : Z) : text := tok ++ [ch mod 256].

(** Lexer::parseCharList: lexer.cpp 375-389. *)
Fixpoint parseCharList (cc : cclass) (tok : text) (cs : chars) : text * chars :=
  match cs with
  | [] => (tok, [])
  | c :: r => if isClass cc c then parseCharList cc (pushChar tok c) r else (tok, saveChar c r)
  end.

(** Lexer::parseNonEmptyCharList: lexer.cpp 361-373; on failure the character
    that was read is gone. *)
Definition parseNonEmptyCharList (cc : cclass) (tok : text) (cs : chars) : bool * text * chars :=
  let '(c, r) := nextChar cs in
  if isClass cc c then
    let '(tok', r') := parseCharList cc (pushChar tok c) r in (true, tok', r')
  else (false, tok, r).

(** The skipping of white space and comments: lexer.cpp 202-223.  The first
    character of a token, or EOF, with the rest. *)
Fixpoint skipSpace (comment : bool) (cs : chars) : Z * chars :=
  match cs with
  | [] => (c_eof, [])
  | c :: r =>
      if c =? c_eof then (c_eof, r)
      else if comment then skipSpace (negb (c =? 10)) r
      else if isClass CWhitespace c then skipSpace false r
      else if c =? 59 then skipSpace true r
      else (c, r)
  end.

(** The loop for quoted symbols: lexer.cpp 231-240.  The result is [false] if
    the symbol is not terminated. *)
Fixpoint scanQuoted (tok : text) (cs : chars) : bool * text * chars :=
  match cs with
  | [] => (false, tok, [])
  | c :: r =>
      if c =? c_eof then (false, tok, r)
      else if c =? 124 then (true, pushChar tok c, r)
      else scanQuoted (pushChar tok c) r
  end.

(** The loop for string literals: lexer.cpp 268-287. *)
Fixpoint scanString (tok : text) (cs : chars) : bool * text * chars :=
  match cs with
  | [] => (false, tok, [])
  | c :: r =>
      if c =? c_eof then (false, tok, r)
      else if c =? 34 then
        match r with
        | [] => (true, pushChar tok c, [])
        | d :: r' =>
            if d =? 34 then scanString (pushChar (pushChar tok c) d) r'
            else (true, pushChar tok c, saveChar d r')
        end
      else scanString (pushChar tok c) r
  end.

(** The loop over a symbol that starts with a minus sign: lexer.cpp 404-430.
    [t]: the characters after those seen; [ret]: the token so far. *)
Fixpoint negative_number (t : text) (ret : token) : token :=
  match t with
  | [] => ret
  | c :: r =>
      if isClass CDigit c then negative_number r ret
      else
        match r, ret with
        | _ :: _, T_INTEGER =>
            if c =? 46 then negative_number r T_DECIMAL
            else if c =? 47 then negative_number r T_RATIONAL
            else T_SYMBOL
        | _, _ => T_SYMBOL
        end
  end.

(** Lexer::tokenizeCurrentSymbol: lexer.cpp 391-475. *)
Definition tokenizeCurrentSymbol (lexLet lexType : bool) (tok : text) : token :=
  match tok with
  | 45 :: ((_ :: _) as r) => negative_number r T_INTEGER
  | _ =>
      if text_eqb tok (txt "!") then T_ATTRIBUTE
      else if text_eqb tok (txt "eo::define") then T_EVAL_DEFINE
      else if text_eqb tok (txt "par") then T_PAR
      else if lexLet && text_eqb tok (txt "let") then T_LET
      else if text_eqb tok (txt "Bool") then T_BOOL_TYPE
      else if lexType && text_eqb tok (txt "Type") then T_TYPE
      else T_SYMBOL
  end.

(** Lexer::computeNextToken: lexer.cpp 197-335.  [Err] is parseError.  Source
    locations (d_span) are not modelled. *)
Definition computeNextToken (lexLet lexType : bool) (cs : chars) : res (token * text * chars) :=
  let '(ch, r) := skipSpace false cs in
  if ch =? c_eof then Ok (T_EOF, [], r)
  else
    let tok := pushChar [] ch in
    if ch =? 40 then Ok (T_LPAREN, tok, r)
    else if ch =? 41 then Ok (T_RPAREN, tok, r)
    else if ch =? 124 then
      let '(ok, tok', r') := scanQuoted tok r in
      Ok (if ok : bool then T_QUOTED_SYMBOL else T_UNTERMINATED_QUOTED, tok', r')
    else if ch =? 35 then
      let '(c, r1) := nextChar r in
      if c =? 98 then
        let '(ok, tok', r') := parseNonEmptyCharList CBit (pushChar tok c) r1 in
        if ok : bool then Ok (T_BINARY, tok', r') else Err
      else if c =? 120 then
        let '(ok, tok', r') := parseNonEmptyCharList CHex (pushChar tok c) r1 in
        if ok : bool then Ok (T_HEX, tok', r') else Err
      else Err
    else if ch =? 34 then
      let '(ok, tok', r') := scanString tok r in
      Ok (if ok : bool then T_STRING else T_UNTERMINATED_STRING, tok', r')
    else if ch =? 58 then
      let '(c, r1) := nextChar r in
      if isClass CSymStart c then
        (* the result of parseNonEmptyCharList is not used: line 295 *)
        let '(_, tok', r') := parseNonEmptyCharList CSym (pushChar tok c) r1 in
        Ok (T_KEYWORD, tok', r')
      else Err
    else if isClass CDigit ch then
      let '(tok1, r1) := parseCharList CDigit tok r in
      let '(c, r2) := nextChar r1 in
      if (c =? 46) || (c =? 47) then
        let '(ok, tok', r') := parseNonEmptyCharList CDigit (pushChar tok1 c) r2 in
        if ok : bool then Ok (if c =? 46 then T_DECIMAL else T_RATIONAL, tok', r') else Err
      else Ok (T_INTEGER, tok1, saveChar c r2)
    else if isClass CSymStart ch then
      let '(tok', r') := parseCharList CSym tok r in
      Ok (tokenizeCurrentSymbol lexLet lexType tok', tok', r')
    else Err.

(* ------------------------------------------------------------------ *)
(** * The token stream *)

(** Lexer: lexer.h 166-263.  [l_peeked]: d_peeked, its back first; [l_tok]:
    d_token without the terminating 0. *)
Record lexer : Type := mkLexer {
  l_let : bool; l_type : bool; l_chars : chars; l_peeked : list token; l_tok : text }.

(** Lexer::initialize: lexer.cpp 104-116. *)
Definition lexer_init (lexLet lexType : bool) (cs : chars) : lexer := mkLexer lexLet lexType cs [] [].

(** Lexer::nextTokenInternal: lexer.cpp 188-195. *)
Definition nextTokenInternal (l : lexer) : res (token * lexer) :=
  let* (t, s, r) := computeNextToken (l_let l) (l_type l) (l_chars l) in
  Ok (t, mkLexer (l_let l) (l_type l) r (l_peeked l) s).
(** Lexer::nextToken: lexer.cpp 118-127. *)
Definition nextToken (l : lexer) : res (token * lexer) :=
  match l_peeked l with
  | [] => nextTokenInternal l
  | t :: ps => Ok (t, mkLexer (l_let l) (l_type l) (l_chars l) ps (l_tok l))
  end.
(** Lexer::reinsertToken: lexer.cpp 142. *)
Definition reinsertToken (t : token) (l : lexer) : lexer :=
  mkLexer (l_let l) (l_type l) (l_chars l) (t :: l_peeked l) (l_tok l).
(** Lexer::peekToken: lexer.cpp 129-140; the assertion that nothing has been
    peeked yet is not checked. *)
Definition peekToken (l : lexer) : res (token * lexer) :=
  let* (t, l') := nextTokenInternal l in Ok (t, reinsertToken t l').

(** std::string(tokenStr()): lexer.cpp 182-186; the text up to the first 0. *)
Fixpoint cstr (s : text) : text :=
  match s with
  | [] => []
  | c :: s' => if c =? 0 then [] else c :: cstr s'
  end.
Definition tokenStr (l : lexer) : text := cstr (l_tok l).

(** Lexer::eatToken: lexer.cpp 154-163. *)
Definition eatToken (t : token) (l : lexer) : res lexer :=
  let* (u, l') := nextToken l in if token_eqb t u then Ok l' else Err.
(** Lexer::eatTokenChoice: lexer.cpp 165-179. *)
Definition eatTokenChoice (t f : token) (l : lexer) : res (bool * lexer) :=
  let* (u, l') := nextToken l in
  if token_eqb u t then Ok (true, l') else if token_eqb u f then Ok (false, l') else Err.

(* ------------------------------------------------------------------ *)
(** * The texts of tokens *)

(** s.erase(0, 1); s.erase(s.size() - 1, 1): the second call throws
    std::out_of_range if the string is empty by then. *)
Definition stripQuotes (s : text) : res text :=
  match tl s with
  | [] => Err
  | s' => Ok (removelast s')
  end.

(** ExprParser::tokenStrToSymbol: expr_parser.cpp 934-954. *)
Definition tokenStrToSymbol (t : token) (l : lexer) : res text :=
  match t with
  | T_SYMBOL => Ok (tokenStr l)
  | T_QUOTED_SYMBOL => stripQuotes (tokenStr l)
  | _ => Err
  end.

(** ExprParser::tokenStrToUnsigned: expr_parser.cpp 919-932.  Extraction of a
    uint32_t from a stream ([strtoull] semantics): a value out of range gives
    2^32-1, a negative value is reduced modulo 2^32. *)
Fixpoint digits_val (s : text) (acc : Z) : Z :=
  match s with
  | [] => acc
  | c :: s' => if isClass CDigit c then digits_val s' (acc * 10 + (c - 48)) else acc
  end.
Definition tokenStrToUnsigned (l : lexer) : res Z :=
  let s := tokenStr l in
  let clip v := if 2 ^ 32 <=? v then 2 ^ 32 - 1 else v in
  match s with
  | 48 :: _ :: _ => Err
  | 45 :: r =>
      let v := digits_val r 0 in
      if 2 ^ 32 <=? v then Ok (2 ^ 32 - 1) else Ok (u32 (- v))
  | _ => Ok (clip (digits_val s 0))
  end.

(** The second loop of ExprParser::unescapeString: expr_parser.cpp 1128-1138. *)
Fixpoint unescapeLoop (s : text) : text :=
  match s with
  | [] => []
  | c :: s' =>
      c :: (if c =? 34 then match s' with [] => [] | _ :: s'' => unescapeLoop s'' end
            else unescapeLoop s')
  end.
(** ExprParser::unescapeString: expr_parser.cpp 1114-1139.  isprint is called
    with a negative argument for bytes above 127; glibc answers 0 for them in
    the "C" locale, so that they are rejected. *)
Definition unescapeString (s : text) : res text :=
  let* s' := stripQuotes s in
  if existsb (fun c => 127 <? c) s' then Err else Ok (unescapeLoop s').
