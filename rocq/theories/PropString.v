(** Property C88 for strings. *)
From Coq Require Import String ZArith List Bool Lia.
From Verif Require Import Base Kind Ints Str Literal Term Lexer Parse SpecLit SpecLex SpecRead SpecNumber SpecString StrProofs LexProofs2 LiteralProofs2
  NumberProofs StringProofs.
Import ListNotations.
Open Scope Z_scope.

(** C88 (strings).  The text s between quotes, with each quote in it doubled, is read as the string with the characters of s, where
    escape sequences stand for their code points. *)
Theorem C88_string : forall sig o s t, Forall (fun c => 0 < c < 128) s ->
  word_term sig o T_STRING (34 :: double_quotes s ++ [34]) t <-> exists l, characters s l /\ t = Lit (LStr l).
Proof.
  intros sig o s t F.
  assert (U : unescapeString (34 :: double_quotes s ++ [34]) = Ok s).
  { pose proof (unescape_value s F) as U. rewrite cstr_id in U; [exact U|]. intros [X|X]; [discriminate X|].
    apply in_app_iff in X as [X|[X|[]]]; [|discriminate X]. rewrite Forall_forall in F. apply double_in in X. apply F in X. lia. }
  assert (P : lit K_STRING (str_toText (str_ofText true s)) = Ok (Lit (LStr (str_ofText true s)))).
  { unfold lit. cbn [mkLiteral bind]. rewrite str_roundtrip by apply str_ofText_wf. reflexivity. }
  split.
  - intro X. exists (str_ofText true s). split; [now apply characters_iff|].
    inversion X as [| | | | | | | |? u ? E L| |]; subst. rewrite U in E. injection E as <-. rewrite P in L. congruence.
  - intros (l & C & ->). apply characters_iff in C. subst l. eapply wt_str; [exact U|exact P].
Qed.
Print Assumptions C88_string.

(** The escape sequences for A, for a backslash and for the last code point; one that is too large and one that is not closed stay as
    they are, as does a doubled quote. *)
Example C88_string_example :
  (exists l, characters (txt "\u0041\u{5C}\u{2ffff}") l /\ l = [65; 92; 196607]) /\
  characters (txt "\u{30000}\u{41") (txt "\u{30000}\u{41") /\
  word_term true options_init T_STRING (txt """a""""\u{62}""") (Lit (LStr (txt "a""b"))).
Proof.
  split; [|split].
  - eexists. split; [apply characters_iff; reflexivity|vm_compute; reflexivity].
  - apply characters_iff. vm_compute. reflexivity.
  - apply (C88_string true options_init (txt "a""\u{62}")).
    + unfold txt. cbn [String.list_ascii_of_string map]. repeat (apply Forall_cons; [vm_compute; split; congruence|]). apply Forall_nil.
    + exists (txt "a""b"). split; [apply characters_iff; vm_compute; reflexivity|reflexivity].
Qed.
