(** The lexer: C44, C45, C46. *)
From Coq Require Import ZArith List Bool String Lia.
From Verif Require Import Base Lexer SpecLex LexProofs LexProofs2.
Import ListNotations.
Open Scope Z_scope.

(* ------------------------------------------------------------------ *)
(** * C44  Every byte of the input file is read *)

(** Full statement: whenever the lexer reports the end of the input, what it was
    given is white space and comments only.  True of files without the byte
    0xFF (and of every standard input, see C44_stdin): *)
Theorem C44_partial : forall i ll lt bs s rest, plain bs ->
  computeNextToken ll lt (chars_of i bs) = Ok (T_EOF, s, rest) -> final_layout bs.
Proof. exact eof_layout. Qed.
Print Assumptions C44_partial.

Example C44_example :
  computeNextToken true true (chars_of false (txt "  ; done")) = Ok (T_EOF, [], []) /\
  plain (txt "  ; done").
Proof.
  split; [vm_compute; reflexivity|].
  unfold plain, txt; cbn [list_ascii_of_string map]; repeat (apply Forall_cons; [vm_compute; split; congruence|]).
  apply Forall_nil.
Qed.

Theorem C44_stdin : forall ll lt bs s rest, bytes bs ->
  computeNextToken ll lt (chars_of true bs) = Ok (T_EOF, s, rest) -> final_layout bs.
Proof. exact eof_layout_stdin. Qed.
Print Assumptions C44_stdin.

(** In a file, the byte 0xFF is taken for the end of the file: the command
    [(exit)] after it is not seen. *)
Theorem C44_refuted : exists bs s rest, bytes bs /\ ~ final_layout bs /\
  computeNextToken true true (chars_of false bs) = Ok (T_EOF, s, rest) /\ rest <> [].
Proof.
  exists (255 :: txt "(exit)"), [], (txt "(exit)").
  split.
  { unfold bytes, txt; cbn [list_ascii_of_string map];
    repeat (apply Forall_cons; [vm_compute; split; congruence|]). apply Forall_nil. }
  split; [|split; [vm_compute; reflexivity|discriminate]].
  intros F. inversion F as [s L E|s b L Hb E].
  - subst s. inversion L as [|c s' Hc L' E'|]. cbn in Hc. intuition discriminate.
  - destruct s as [|c s]; [discriminate E|]. cbn in E. injection E as -> E.
    inversion L as [|c s' Hc L' E'|]. cbn in Hc. intuition discriminate.
Qed.
Print Assumptions C44_refuted.

(* ------------------------------------------------------------------ *)
(** * C45  Buffering is invisible *)

(** However the remaining input is divided between the buffer and the stream,
    and whatever the size of the buffer, the characters that the lexer gets are
    those of the input, followed by EOF. *)
Theorem C45_characters : forall size n buf str, (0 < size)%nat ->
  readMany size n (mkReader false buf str) =
  firstn n (chars_of false (buf ++ str) ++ repeat c_eof n).
Proof.
  intros size n buf str H. rewrite readMany_spec by exact H. unfold pending, chars_of.
  cbn [r_buf r_inter r_stream]. rewrite map_app. reflexivity.
Qed.
Print Assumptions C45_characters.

Theorem C45_stdin : forall size n str, (0 < size)%nat ->
  readMany size n (mkReader true [] str) = firstn n (str ++ repeat c_eof n).
Proof. intros size n str H. exact (readMany_spec size n (mkReader true [] str) H). Qed.
Print Assumptions C45_stdin.

(** The tokens of a text without the byte 0xFF are the same in a file and on the
    standard input. *)
Theorem C45_file_or_stdin : forall ll lt n bs, plain bs ->
  scan ll lt n (chars_of false bs) = scan ll lt n (chars_of true bs).
Proof. exact scan_interactive. Qed.
Print Assumptions C45_file_or_stdin.

Example C45_example :
  readMany 3 7 (mkReader false [40] (txt "ab) c")) = 40 :: txt "ab) c" ++ [-1] /\
  scan true true 4 (chars_of false [40; 97; 200; 41]) =
    [Ok (T_LPAREN, [40]); Ok (T_SYMBOL, [97]); Err] /\
  scan true true 4 (chars_of true [40; 97; 200; 41]) =
    [Ok (T_LPAREN, [40]); Ok (T_SYMBOL, [97]); Err] /\
  plain [40; 97; 200; 41].
Proof.
  repeat (split; [vm_compute; reflexivity|]).
  repeat (apply Forall_cons; [vm_compute; split; congruence|]). apply Forall_nil.
Qed.

(* ------------------------------------------------------------------ *)
(** * C46  Symbols and string literals survive lexing *)

(** The scanner accepts exactly the lexical grammar of SpecLex.v and cuts the
    input where the grammar says, except for keywords of one letter. *)
Theorem C46_tokens : forall i ll lt bs t s rest, plain bs ->
  (computeNextToken ll lt (chars_of i bs) = Ok (t, s, chars_of i rest) /\ plain rest <->
   token_at ll lt bs t s rest \/ short_keyword bs t s rest).
Proof. exact token_of_bytes. Qed.
Print Assumptions C46_tokens.

Theorem C46_layout_ignored : forall i ll lt l bs, plain l -> plain bs -> layout l ->
  computeNextToken ll lt (chars_of i (l ++ bs)) = computeNextToken ll lt (chars_of i bs).
Proof. exact layout_ignored. Qed.
Print Assumptions C46_layout_ignored.

(** Symbols, and the same symbols between bars. *)
Theorem C46_symbol : forall i ll lt l c s rest, plain l -> plain rest -> layout l ->
  start_char c -> Forall sym_char s -> stops sym_char rest ->
  (forall t, ~ negative (c :: s) t) -> (forall t, ~ reserved ll lt (c :: s) t) ->
  computeNextToken ll lt (chars_of i (l ++ (c :: s) ++ rest)) = Ok (T_SYMBOL, c :: s, chars_of i rest) /\
  computeNextToken ll lt (chars_of i (l ++ (124 :: (c :: s) ++ [124]) ++ rest)) =
    Ok (T_QUOTED_SYMBOL, 124 :: (c :: s) ++ [124], chars_of i rest).
Proof. exact symbol_token. Qed.
Print Assumptions C46_symbol.

(** The name that the parser takes from such a token. *)
Theorem C46_symbol_name : forall l s, ~ In 0 s ->
  tokenStrToSymbol T_SYMBOL (mkLexer (l_let l) (l_type l) (l_chars l) (l_peeked l) s) = Ok s /\
  tokenStrToSymbol T_QUOTED_SYMBOL
    (mkLexer (l_let l) (l_type l) (l_chars l) (l_peeked l) (124 :: s ++ [124])) = Ok s.
Proof.
  intros l s H. unfold tokenStrToSymbol, tokenStr. cbn [l_tok]. split.
  - rewrite cstr_id by exact H. reflexivity.
  - rewrite cstr_id.
    + apply strip_app.
    + intros [X | X]; [discriminate X|]. apply in_app_iff in X.
      destruct X as [X | [X | []]]; [exact (H X)|discriminate X].
Qed.
Print Assumptions C46_symbol_name.

(** String literals: the value read is the value written. *)
Theorem C46_string : forall i ll lt l s rest, plain l -> plain rest -> layout l ->
  stops (eq 34) rest -> Forall (fun c => 0 < c < 128) s ->
  exists tok, computeNextToken ll lt (chars_of i (l ++ 34 :: double_quotes s ++ 34 :: rest))
      = Ok (T_STRING, tok, chars_of i rest) /\
    unescapeString (cstr tok) = Ok s.
Proof. exact string_token. Qed.
Print Assumptions C46_string.

Ltac plain_tac := unfold plain, txt; cbn [list_ascii_of_string map];
  repeat (apply Forall_cons; [vm_compute; split; congruence|]); apply Forall_nil.

Example C46_example :
  computeNextToken true true (chars_of false (txt " ;c
 let1)")) = Ok (T_SYMBOL, txt "let1", txt ")") /\
  computeNextToken true true (chars_of false (txt "-1.5 ")) = Ok (T_DECIMAL, txt "-1.5", txt " ") /\
  layout (txt "  ") /\ plain (txt " )") /\ start_char 120 /\ Forall sym_char (txt "1:") /\
  stops sym_char (txt ")") /\ (forall t, ~ negative (txt "x1:") t) /\
  (forall t, ~ reserved true true (txt "x1:") t) /\
  double_quotes (txt "a""b") = txt "a""""b" /\ Forall (fun c => 0 < c < 128) (txt "a""b").
Proof.
  split; [vm_compute; reflexivity|]. split; [vm_compute; reflexivity|].
  split; [repeat (apply lay_space; [vm_compute; tauto|]); apply lay_nil|].
  split; [plain_tac|]. split; [left; apply memb_in; vm_compute; reflexivity|].
  split; [apply memb_forall; vm_compute; reflexivity|].
  split; [cbn; unfold sym_char, start_char; rewrite <- !memb_in; vm_compute; intuition discriminate|].
  split; [intros t N; inversion N|]. split; [intros t N; inversion N|].
  split; [vm_compute; reflexivity|]. 
  unfold txt; cbn [list_ascii_of_string map].
  repeat (apply Forall_cons; [vm_compute; split; congruence|]). apply Forall_nil.
Qed.

(** Full statement: white space between tokens does not change the tokens.  It is
    false after a keyword of one letter: the character after it is lost, here
    the closing parenthesis. *)
Theorem C46_keyword_refuted : exists a b, plain (a ++ b) /\
  scan true true 3 (chars_of false (a ++ [32] ++ b)) =
    [Ok (T_KEYWORD, a); Ok (T_RPAREN, b); Ok (T_EOF, [])] /\
  scan true true 3 (chars_of false (a ++ b)) =
    [Ok (T_KEYWORD, a); Ok (T_EOF, []); Ok (T_EOF, [])].
Proof.
  exists (txt ":a"), (txt ")"). split; [plain_tac|]. split; vm_compute; reflexivity.
Qed.
Print Assumptions C46_keyword_refuted.

(** Full statement: different quoted symbols are different names.  The byte 0
    ends the name, and the last character before it is lost. *)
Theorem C46_nul_refuted : exists l1 l2 n, l_tok l1 <> l_tok l2 /\
  scan true true 1 (chars_of false (l_tok l1)) = [Ok (T_QUOTED_SYMBOL, l_tok l1)] /\
  scan true true 1 (chars_of false (l_tok l2)) = [Ok (T_QUOTED_SYMBOL, l_tok l2)] /\
  tokenStrToSymbol T_QUOTED_SYMBOL l1 = Ok n /\ tokenStrToSymbol T_QUOTED_SYMBOL l2 = Ok n.
Proof.
  exists (mkLexer true true [] [] [124; 97; 98; 0; 124]), (mkLexer true true [] [] [124; 97; 124]), [97].
  split; [discriminate|]. repeat (split; [vm_compute; reflexivity|]). vm_compute; reflexivity.
Qed.
Print Assumptions C46_nul_refuted.
