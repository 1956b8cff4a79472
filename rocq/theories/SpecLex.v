(** The lexical grammar, independent of the scanner. *)
From Coq Require Import ZArith List Bool String.
From Verif Require Import Base Lexer.
Import ListNotations.
Open Scope Z_scope.

(** Character sets. *)
Definition digits : text := txt "0123456789".
Definition hex_digits : text := txt "0123456789abcdefABCDEF".
Definition letters : text :=
  txt "abcdefghijklmnopqrstuvwxyzABCDEFGHIJKLMNOPQRSTUVWXYZ".
Definition punct : text := txt "+-/*=%?!.$_~&^<>@".
Definition spaces : text := [32; 9; 13; 10].
Definition start_char (c : Z) : Prop := In c letters \/ In c punct.
Definition sym_char (c : Z) : Prop := start_char c \/ In c digits \/ c = 58.

(** White space and comments. *)
Inductive layout : text -> Prop :=
| lay_nil : layout []
| lay_space : forall c s, In c spaces -> layout s -> layout (c :: s)
| lay_comment : forall b s, ~ In 10 b -> layout s -> layout (59 :: b ++ 10 :: s).

(** Layout up to the end of the input; the last comment need not be terminated. *)
Inductive final_layout : text -> Prop :=
| fl_layout : forall s, layout s -> final_layout s
| fl_comment : forall s b, layout s -> ~ In 10 b -> final_layout (s ++ 59 :: b).

(** The rest of the input does not start with a character of the set. *)
Definition stops (P : Z -> Prop) (rest : text) : Prop :=
  match rest with [] => True | c :: _ => ~ P c end.

(** Doubling of quotes, as SMT-LIB writes string values. *)
Fixpoint double_quotes (s : text) : text :=
  match s with
  | [] => []
  | c :: s' => if c =? 34 then 34 :: 34 :: double_quotes s' else c :: double_quotes s'
  end.

(** Words of the symbol alphabet that are not symbols. *)
Inductive negative : text -> token -> Prop :=
| neg_int : forall d, d <> [] -> Forall (fun c => In c digits) d -> negative (45 :: d) T_INTEGER
| neg_dec : forall d e, e <> [] -> Forall (fun c => In c digits) d ->
    Forall (fun c => In c digits) e -> negative (45 :: d ++ 46 :: e) T_DECIMAL
| neg_rat : forall d e, e <> [] -> Forall (fun c => In c digits) d ->
    Forall (fun c => In c digits) e -> negative (45 :: d ++ 47 :: e) T_RATIONAL.
Inductive reserved (lexLet lexType : bool) : text -> token -> Prop :=
| res_attr : reserved lexLet lexType (txt "!") T_ATTRIBUTE
| res_define : reserved lexLet lexType (txt "eo::define") T_EVAL_DEFINE
| res_par : reserved lexLet lexType (txt "par") T_PAR
| res_let : lexLet = true -> reserved lexLet lexType (txt "let") T_LET
| res_bool : reserved lexLet lexType (txt "Bool") T_BOOL_TYPE
| res_type : lexType = true -> reserved lexLet lexType (txt "Type") T_TYPE.

(** [lexeme t s rest]: at the start of a token, the input [s ++ rest] begins
    with the token [t] written as [s]. *)
Inductive lexeme (lexLet lexType : bool) : token -> text -> text -> Prop :=
| lx_lparen : forall rest, lexeme lexLet lexType T_LPAREN (txt "(") rest
| lx_rparen : forall rest, lexeme lexLet lexType T_RPAREN (txt ")") rest
| lx_quoted : forall b rest, ~ In 124 b ->
    lexeme lexLet lexType T_QUOTED_SYMBOL (124 :: b ++ [124]) rest
| lx_quoted_open : forall b, ~ In 124 b ->
    lexeme lexLet lexType T_UNTERMINATED_QUOTED (124 :: b) []
| lx_string : forall b rest, stops (eq 34) rest ->
    lexeme lexLet lexType T_STRING (34 :: double_quotes b ++ [34]) rest
| lx_string_open : forall b,
    lexeme lexLet lexType T_UNTERMINATED_STRING (34 :: double_quotes b) []
| lx_binary : forall d rest, d <> [] -> Forall (fun c => c = 48 \/ c = 49) d ->
    stops (fun c => c = 48 \/ c = 49) rest ->
    lexeme lexLet lexType T_BINARY (txt "#b" ++ d) rest
| lx_hex : forall d rest, d <> [] -> Forall (fun c => In c hex_digits) d ->
    stops (fun c => In c hex_digits) rest ->
    lexeme lexLet lexType T_HEX (txt "#x" ++ d) rest
| lx_keyword : forall c k rest, k <> [] -> start_char c -> Forall sym_char k ->
    stops sym_char rest -> lexeme lexLet lexType T_KEYWORD (58 :: c :: k) rest
| lx_integer : forall d rest, d <> [] -> Forall (fun c => In c digits) d ->
    stops (fun c => In c digits \/ c = 46 \/ c = 47) rest ->
    lexeme lexLet lexType T_INTEGER d rest
| lx_decimal : forall d e rest, d <> [] -> e <> [] ->
    Forall (fun c => In c digits) d -> Forall (fun c => In c digits) e ->
    stops (fun c => In c digits) rest ->
    lexeme lexLet lexType T_DECIMAL (d ++ 46 :: e) rest
| lx_rational : forall d e rest, d <> [] -> e <> [] ->
    Forall (fun c => In c digits) d -> Forall (fun c => In c digits) e ->
    stops (fun c => In c digits) rest ->
    lexeme lexLet lexType T_RATIONAL (d ++ 47 :: e) rest
| lx_negative : forall s t rest, negative s t -> Forall sym_char s -> stops sym_char rest ->
    lexeme lexLet lexType t s rest
| lx_reserved : forall s t rest, reserved lexLet lexType s t -> stops sym_char rest ->
    lexeme lexLet lexType t s rest
| lx_symbol : forall c s rest, start_char c -> Forall sym_char s -> stops sym_char rest ->
    (forall t, ~ negative (c :: s) t) -> (forall t, ~ reserved lexLet lexType (c :: s) t) ->
    lexeme lexLet lexType T_SYMBOL (c :: s) rest.

(** Bytes of a text without the byte 0xFF. *)
Definition plain (s : text) : Prop := Forall (fun b => 0 <= b < 255) s.
Definition bytes (s : text) : Prop := Forall (fun b => 0 <= b < 256) s.

(** The results of the first [n] calls of the scanner. *)
Fixpoint scan (lexLet lexType : bool) (n : nat) (cs : chars) : list (res (token * text)) :=
  match n with
  | O => []
  | S m =>
      match computeNextToken lexLet lexType cs with
      | Ok (t, s, r) => Ok (t, s) :: scan lexLet lexType m r
      | Err => [Err]
      | UB => [UB]
      | Fuel => [Fuel]
      end
  end.

(** The input [bs] starts with layout and the token [t], written [s], and
    continues with [rest]. *)
Definition token_at (ll lt : bool) (bs : text) (t : token) (s rest : text) : Prop :=
  (t = T_EOF /\ s = [] /\ rest = [] /\ final_layout bs) \/
  (exists l, layout l /\ bs = l ++ s ++ rest /\ lexeme ll lt t s rest).

(** The defect of one-letter keywords: the character after them is lost. *)
Definition short_keyword (bs : text) (t : token) (s rest : text) : Prop :=
  t = T_KEYWORD /\ exists l c, layout l /\ start_char c /\ s = [58; c] /\
    (bs = l ++ [58; c] /\ rest = [] \/ exists d, ~ sym_char d /\ bs = l ++ [58; c] ++ d :: rest).
