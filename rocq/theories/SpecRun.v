(** What a run of the checker does: files are sequences of commands (SpecCmd.v). *)
From Coq Require Import String ZArith List Bool.
From Verif Require Import Base Kind Ints Str Literal Arity Term Match Eval ListOps Typing Build Scope Lexer Parse Check SpecRead SpecCmd.
Import ListNotations.
Open Scope Z_scope.

(** ** Texts *)
(** A command that is given a value where it needs one (see C71_one_list_refuted). *)
Definition valued (x : sx) : Prop :=
  forall w y, x = XL [XT T_SYMBOL w; y] -> w <> txt "set-info" /\ w <> txt "set-option".
Definition well_formed (x : sx) : Prop := proper x /\ valued x.
(** The words of a text are those of a list of S-expressions. *)
Definition contents (l : lexer) (xs : list sx) : Prop :=
  Forall well_formed xs /\ exists l1 l2, shows l (flat_map words xs) l1 /\ nextToken l1 = Ok (T_EOF, l2).

Section Run.
Variable G : config.

(** ** Files *)
(** The commands one after the other, up to the end or to (exit). *)
Inductive script (sig reference : bool) (included : text -> bool -> bool -> term -> st -> st -> Prop) : st -> list sx -> st -> Prop :=
| sc_end : forall s, script sig reference included s [] s
| sc_exit : forall s w xs s1, In (w, C_EXIT) (command_words reference) -> does G sig reference included s C_EXIT [] s1 ->
    script sig reference included s (XL [XT T_SYMBOL w] :: xs) s1
| sc_next : forall s w c ys s1 xs s2, In (w, c) (command_words reference) -> c <> C_EXIT -> does G sig reference included s c ys s1 ->
    script sig reference included s1 xs s2 -> script sig reference included s (XL (XT T_SYMBOL w :: ys) :: xs) s2.

(** The text of a file: (let ...) is read in proofs only, as the option says; <...> in signatures only. *)
Definition text_of (s : st) (sig : bool) (bytes : text) : lexer := lexer_init (negb sig && o_parseLet (s_opts s)) sig (chars_of false bytes).
(** The file [f] is read as a signature or a reference; files are included at most [n] deep, and a file is read
    once only.  A file may not leave an assumption open. *)
Definition opened (path : text) (reference : bool) (nf : term) (s : st) : st :=
  logged (EvInclude path reference nf) (set_input path (set_refNf nf (set_hasRef reference (set_incl (path :: s_incl s) s)))).
Fixpoint included_in (n : nat) (f : text) (sig reference : bool) (nf : term) (s s' : st) : Prop :=
  match n with
  | O => False
  | S m =>
      let path := g_path G (s_input s) f in
      exists bytes, g_files G path = Some bytes /\
        (In path (s_incl s) /\ s' = s \/
         ~ In path (s_incl s) /\
         exists xs s1, contents (text_of s sig bytes) xs /\
           script sig reference (included_in m) (opened path reference nf s) xs s1 /\
           s' = set_input (s_input s) s1 /\ s_asmctx s' = [])
  end.
(** Every file consists of S-expressions. *)
Definition files_formed : Prop := forall path bytes s sig, g_files G path = Some bytes ->
  exists xs, contents (text_of s sig bytes) xs.

(** ** The run *)
Inductive includes_in : list (text * bool) -> st -> st -> Prop :=
| ii_nil : forall s, includes_in [] s s
| ii_cons : forall f (include : bool) fs s s1 s2, included_in (g_fuel G) f include (negb include) null_term s s1 ->
    includes_in fs s1 s2 -> includes_in ((f, include) :: fs) s s2.
Inductive runs (o : options) (fs : list (text * bool)) : input -> st -> Prop :=
(* a file called *.eo is a signature *)
| rn_file : forall s f (sig : bool) s1, includes_in fs (st_init o) s -> (sig = true <-> exists p, f = p ++ [46; 101; 111]) ->
    included_in (g_fuel G) f sig false null_term s s1 -> runs o fs (InFile f) s1
| rn_stdin : forall s bytes xs s1, includes_in fs (st_init o) s ->
    contents (lexer_init (o_parseLet (s_opts s)) false (chars_of true bytes)) xs ->
    script false false (included_in (g_fuel G)) s xs s1 -> runs o fs (InStdin bytes) s1.
(** The answer is "incomplete" iff a rule that a step used is marked :sorry. *)
Definition answered (s : st) (v : verdict) : Prop := v = Incomplete <-> exists r, In r (s_used s) /\ In r (s_sorry s).
End Run.
