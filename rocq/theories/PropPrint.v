(** Properties C73 to C75: how terms are printed. *)
From Coq Require Import String ZArith List Bool Lia.
From Verif Require Import Base Kind Ints Str Literal Arity Term TermProofs Match Eval ListOps Typing Build Scope Lexer SpecLex LexProofs LexProofs2 Parse Check
  SpecRead Encode PropRead Print SpecPrint PrintProofs PrintProofs2 PrintProofs3 PrintProofs4 PrintProofs5.
Import ListNotations.
Open Scope Z_scope.

(* ------------------------------------------------------------------ *)
(** * C73  The words for names *)

(** A name is printed as it is if it is a simple symbol of SMT-LIB or starts with eo::, and
    between bars otherwise. *)
Theorem C73_names : forall n w, quoteSymbol n = w <-> written_name n w.
Proof. exact quoteSymbol_spec. Qed.
Print Assumptions C73_names.

(** The words for kinds. *)
Theorem C73_kinds : forall k w, kindToTerm k = w <-> kind_word k w.
Proof. exact kind_word_spec. Qed.
Print Assumptions C73_kinds.

(** Which names are read back from their words: the scanner finds exactly the printed word
    and the parser takes the name from it. *)
Theorem C73_read_back : forall i ll lt n rest, Forall (fun c => 0 < c < 255) n -> plain rest -> delimited rest ->
  (readable ll lt n <->
   exists t, computeNextToken ll lt (chars_of i (quoteSymbol n ++ rest)) = Ok (t, quoteSymbol n, chars_of i rest) /\
     name_of t (quoteSymbol n) = Some n).
Proof. exact name_back. Qed.
Print Assumptions C73_read_back.

(** These names are told apart by their words. *)
Theorem C73_distinct : forall ll lt n m, Forall (fun c => 0 < c < 255) n -> Forall (fun c => 0 < c < 255) m ->
  readable ll lt n -> readable ll lt m -> quoteSymbol n = quoteSymbol m -> n = m.
Proof.
  intros ll lt n m Fn Fm Rn Rm Q.
  destruct (proj1 (name_back false ll lt n [] Fn (Forall_nil _) I) Rn) as (t & C & N).
  destruct (proj1 (name_back false ll lt m [] Fm (Forall_nil _) I) Rm) as (u & D & M).
  rewrite Q in C, N. rewrite D in C. congruence.
Qed.
Print Assumptions C73_distinct.

(** The word printed for an operator of the language is bound to that operator when the
    checker starts, for every operator that has a name. *)
Theorem C73_operators : forall o n k, In (n, k) builtins -> kindToTerm k = n /\
  exists v, getVar (s_scope (st_init o)) n = Some v /\ builtin_kind v = k.
Proof. exact operators_bound. Qed.
Print Assumptions C73_operators.
(** Every operation on literals is such an operator. *)
Theorem C73_every_operator : forall k, isLiteralOp k = true -> exists n, In (n, k) builtins.
Proof. exact operators_all. Qed.
Print Assumptions C73_every_operator.

Lemma simple_check n c r : n = c :: r -> existsb (Z.eqb c) digits = false -> forallb (fun c => existsb (Z.eqb c) simple_chars) n = true -> simple n.
Proof.
  intros -> D F. split; [now apply not_in_check|]. apply Forall_forall. intros d I. rewrite forallb_forall in F.
  apply simple_chars_In, existsb_In. now apply F.
Qed.
Example C73_example :
  quoteSymbol (txt "x1@a") = txt "x1@a" /\ quoteSymbol (txt "a b") = txt "|a b|" /\ quoteSymbol (txt "1a") = txt "|1a|" /\
  quoteSymbol [] = txt "||" /\ quoteSymbol (txt "eo::List") = txt "eo::List" /\
  kindToTerm K_EVAL_LIST_SETOF = txt "eo::list_setof" /\ In (txt "eo::list_setof", K_EVAL_LIST_SETOF) builtins /\
  readable true true (txt "x1@a") /\ readable true true (txt "1a") /\ readable true true (txt "eo::List") /\
  Forall (fun c => 0 < c < 255) (txt "1a") /\ plain (txt ") b") /\ delimited (txt ") b").
Proof.
  repeat (split; [vm_compute; reflexivity|]).
  split; [vm_compute; tauto|].
  split; [apply rn_simple; [eapply simple_check; vm_compute; reflexivity|intros t H; inversion H|intros t H; inversion H]|].
  split.
  { apply rn_quoted; [intros [H _]; apply H; now right; left| | |].
    - intros r H. discriminate H.
    - vm_compute. intuition discriminate.
    - vm_compute. intuition discriminate. }
  split.
  { apply (rn_eo _ _ (txt "List")); [|discriminate]. repeat (apply Forall_cons; [apply sym_char_iff; vm_compute; reflexivity|]). constructor. }
  split; [repeat (apply Forall_cons; [vm_compute; split; congruence|]); constructor|].
  split; [repeat (apply Forall_cons; [vm_compute; split; congruence|]); constructor|].
  vm_compute. tauto.
Qed.

(** Full statement: the name of every symbol is read back.  It is false: |-5| is printed
    -5, a number; |let| is printed let; a\b is printed as if it was a_b; and |eo::a b| is
    printed as two words. *)
Theorem C73_every_name_refuted : exists n1 n2 n3 n4 r4,
  computeNextToken true true (chars_of false (quoteSymbol n1)) = Ok (T_INTEGER, n1, []) /\
  computeNextToken true true (chars_of false (quoteSymbol n2)) = Ok (T_LET, n2, []) /\
  computeNextToken true true (chars_of false (quoteSymbol n3)) = Ok (T_QUOTED_SYMBOL, txt "|a_b|", []) /\
  computeNextToken true true (chars_of false (quoteSymbol n4)) = Ok (T_SYMBOL, txt "eo::a", chars_of false r4) /\ r4 <> [] /\
  (forall n, In n [n1; n2; n3; n4] ->
     computeNextToken true true (chars_of false (124 :: n ++ [124])) = Ok (T_QUOTED_SYMBOL, 124 :: n ++ [124], []) /\ n <> txt "a_b").
Proof.
  exists (txt "-5"), (txt "let"), (txt "a\b"), (txt "eo::a b"), (txt " b"). repeat (split; [vm_compute; reflexivity|]).
  split; [discriminate|]. intros n [<-|[<-|[<-|[<-|[]]]]]; (split; [vm_compute; reflexivity|discriminate]).
Qed.
Print Assumptions C73_every_name_refuted.
(** Different names can have the same word. *)
Theorem C73_every_name_distinct_refuted : exists n m, n <> m /\ quoteSymbol n = quoteSymbol m /\
  (forall k, In k [n; m] -> computeNextToken true true (chars_of false (124 :: k ++ [124])) = Ok (T_QUOTED_SYMBOL, 124 :: k ++ [124], [])).
Proof.
  exists (txt "a \b"), (txt "a _b"). split; [discriminate|]. split; [vm_compute; reflexivity|].
  intros k [<-|[<-|[]]]; vm_compute; reflexivity.
Qed.
Print Assumptions C73_every_name_distinct_refuted.

(* ------------------------------------------------------------------ *)
(** * C74  Terms are printed as they are built *)

(** Without sharing: the text is that of the recursive account. *)
Theorem C74_text : forall E t x, plainly E t x ->
  (forall n s, printDebug E false n t = Ok s -> s = render x) /\
  (exists n, forall m, (n <= m)%nat -> printDebug E false m t = Ok (render x)).
Proof. intros E t x P. split; [intros n s; now apply plain_print|]. destruct (plain_prints E t x P) as [N H]. now exists N. Qed.
Print Assumptions C74_text.

(** Whatever is printed is the text of the recursive account. *)
Theorem C74_only : forall E t n s, (forall cs, ~ within E (Node K_VARIABLE cs) t) -> printDebug E false n t = Ok s ->
  exists x, plainly E t x /\ s = render x.
Proof. exact plain_written. Qed.
Print Assumptions C74_only.

(** A term has one text. *)
Theorem C74_one_text : forall E t x y, plainly E t x -> plainly E t y -> x = y.
Proof. exact plainly_det. Qed.
Print Assumptions C74_one_text.

(** ** Examples *)
Ltac name_tac := apply quoteSymbol_spec; vm_compute; reflexivity.
Ltac leaf_tac :=
  first [ apply wl_sym; [reflexivity|discriminate|name_tac] | apply wl_builtin; reflexivity | apply wl_bool | apply wl_num | apply wl_rat
        | apply wl_dec | apply wl_hex | apply wl_empty_bin; reflexivity | apply wl_bin; vm_compute; discriminate | apply wl_str
        | apply wl_kind; apply kind_word_spec; vm_compute; reflexivity ].
Ltac head_tac :=
  first [ apply hw_apply; reflexivity | apply hw_apply2; discriminate | apply hw_as; vm_compute; tauto
        | apply hw_opaque; vm_compute; discriminate
        | apply hw_kind; [discriminate|discriminate|apply kind_word_spec; vm_compute; reflexivity] ].
Ltac wr_tac :=
  first [ apply wr_word; vm_compute; reflexivity
        | apply wr_leaf; [vm_compute; reflexivity | first [apply pt_lit | apply pt_sym; discriminate | apply pt_node; discriminate] | leaf_tac ]
        | eapply wr_var; [vm_compute; reflexivity | vm_compute; reflexivity | wr_tac]
        | eapply wr_node; [vm_compute; reflexivity | apply pt_node; discriminate | head_tac | wrs_tac] ]
with wrs_tac :=
  first [ apply wr_nil | eapply wr_cons; [wr_tac | wrs_tac] ].
(** The quantified formula of C66. *)
Definition E74 : env := env_of vcfg s66.
Definition x74 : px := Eval vm_compute in
  let var n := PL [word "eo::var"; PA (34 :: txt n ++ [34]); word "Int"] in
  let P n := PL [word "P"; var n] in
  let ap a b := PL [word "_"; a; b] in
  let and_ a b := ap (PL [word "and"; a]) b in
  let cons a b := ap (PL [word "eo::List::cons"; a]) b in
  ap (PL [word "forall"; cons (var "x"%string) (cons (var "y"%string) (word "eo::List::nil"))])
     (and_ (P "x"%string) (and_ (P "y"%string) (and_ (P "x"%string) (word "true")))).
Example C74_example : plainly E74 v66 x74 /\ printDebug E74 false 200 v66 = Ok (render x74) /\
  render x74 = txt "(_ (forall (_ (eo::List::cons (eo::var ""x"" Int)) (_ (eo::List::cons (eo::var ""y"" Int)) eo::List::nil))) (_ (and (P (eo::var ""x"" Int))) (_ (and (P (eo::var ""y"" Int))) (_ (and (P (eo::var ""x"" Int))) true))))".
Proof.
  split; [|split; vm_compute; reflexivity].
  assert (H : exists x us, written E74 (fun _ => None) v66 x us /\ x = x74).
  { eexists. eexists. split; [unfold v66, and66, P66, c66; wr_tac|]. vm_compute. reflexivity. }
  destruct H as (x & us & H & ->). now exists us.
Qed.

(* ------------------------------------------------------------------ *)
(** * C75  Shared terms are printed once *)

(** The text with definitions: every compound term inside is written out exactly once; those
    that are a part at least twice are named, and only those; and the definitions stand for
    the text without sharing, unless a word of that is one of the names. *)
Theorem C75_shared : forall E t x, plainly E t x -> exists ls ds b us css,
  (forall n s, printDebug E true n t = Ok s -> s = render (defining ds b)) /\
  (exists n, forall m, (n <= m)%nat -> printDebug E true m t = Ok (render (defining ds b))) /\
  written_shared E t ls ds b us /\
  NoDup us /\ (forall u, In u us <-> compound E u /\ within E u t) /\
  NoDup ls /\ Forall2 (parts E) us css /\
  (forall u, In u ls <-> compound E u /\ (2 <= count_occ term_eq_dec (t :: concat css) u)%nat) /\
  ((forall i, ~ In (let_name i) (px_words x)) -> expanded [] ds b = x).
Proof.
  intros E t x P. pose proof P as (us0 & W). pose proof (proj1 (written_fin E) _ _ _ W) as F.
  destruct (shared_print E t F) as (N & ls & ds & b & us & R & WS & ND & IN & LS & LW & NL).
  exists ls, ds, b, us, (map (kids E) us). split; [|split; [|split; [exact WS|split; [exact ND|split; [exact IN|split; [exact NL|split; [|split]]]]]]].
  - intros n s H. apply (printDebug_same E true n N t s); [exact H|]. now apply R.
  - now exists N.
  - assert (H : forall u, In u us -> parts E u (kids E u)).
    { intros u I. apply fin_parts. apply IN in I as [_ I]. exact (within_fin E _ _ F I). }
    clear - H. induction us as [|u us IH]; [constructor|]. constructor; [apply H; now left|]. apply IH. intros v I. apply H. now right.
  - intros u. rewrite LS. rewrite flat_map_concat_map. reflexivity.
  - intros FR. destruct WS as (us1 & us2 & D & Wb & _). apply (expanded_plain E t x P FR [] ls ds us1 D [] b us2); auto.
    split; [intros u w H; discriminate H|]. intros w H. now cbn in H.
Qed.
Print Assumptions C75_shared.

Definition ds75 : list (text * px) := Eval vm_compute in
  [(txt "_v0", PL [word "eo::var"; PA (34 :: txt "x" ++ [34]); word "Int"]);
   (txt "_v1", PL [word "and"; PL [word "P"; word "_v0"]]);
   (txt "_v2", PL [word "eo::var"; PA (34 :: txt "y" ++ [34]); word "Int"])].
Definition b75 : px := Eval vm_compute in
  let ap a b := PL [word "_"; a; b] in
  let cons a b := ap (PL [word "eo::List::cons"; a]) b in
  ap (PL [word "forall"; cons (word "_v0") (cons (word "_v2") (word "eo::List::nil"))])
     (ap (word "_v1") (ap (PL [word "and"; PL [word "P"; word "_v2"]]) (ap (word "_v1") (word "true")))).
Example C75_example : plainly E74 v66 x74 /\ printDebug E74 true 200 v66 = Ok (render (defining ds75 b75)) /\
  render (defining ds75 b75) = txt "(eo::define ((_v0 (eo::var ""x"" Int))) (eo::define ((_v1 (and (P _v0)))) (eo::define ((_v2 (eo::var ""y"" Int))) (_ (forall (_ (eo::List::cons _v0) (_ (eo::List::cons _v2) eo::List::nil))) (_ _v1 (_ (and (P _v2)) (_ _v1 true)))))))" /\
  (forall i, ~ In (let_name i) (px_words x74)) /\ expanded [] ds75 b75 = x74.
Proof.
  split; [exact (proj1 C74_example)|]. split; [vm_compute; reflexivity|]. split; [vm_compute; reflexivity|].
  split; [|vm_compute; reflexivity]. intros i I.
  assert (H : forallb (fun w => negb (text_eqb (firstn 2 w) (txt "_v"))) (px_words x74) = true) by (vm_compute; reflexivity).
  rewrite forallb_forall in H. specialize (H _ I). discriminate H.
Qed.

(** Full statement: the definitions always stand for the text without sharing.  It is false
    if a symbol is called _v0. *)
Definition cfg75 : config :=
  mkConfig (fun _ => 0) var_num num_var (fun _ p => p) (fun _ => Some (txt (sig66 ++ " (declare-const _v0 Bool)"))) 60 60 400.
Definition s75 : st := match Check.run cfg75 options_init [] (InFile (txt "a.eo")) with Ok (_, s) => s | _ => st_init options_init end.
Definition E75 : env := env_of cfg75 s75.
Definition p75 : term := Node K_APPLY [c66 64; c66 63].
Definition t75 : term := Node K_APPLY [Node K_APPLY [c66 65; c66 67]; Node K_APPLY [Node K_APPLY [c66 65; p75]; p75]].
Theorem C75_expansion_refuted : exists t x n ls ds b us, plainly E75 t x /\ printDebug E75 true n t = Ok (render (defining ds b)) /\
  written_shared E75 t ls ds b us /\ expanded [] ds b <> x.
Proof.
  set (p := PL [word "P"; word "Int"]).
  exists t75, (PL [word "_"; PL [word "and"; word "_v0"]; PL [word "_"; PL [word "and"; p]; p]]), 100%nat, [p75],
    [(let_name 0, p)], (PL [word "_"; PL [word "and"; word "_v0"]; PL [word "_"; PL [word "and"; word "_v0"]; word "_v0"]]).
  assert (D : exists us, defined E75 [] [p75] [(let_name 0, p)] us).
  { assert (H : exists x us, written E75 (naming 0 []) p75 x us /\ x = p).
    { eexists. eexists. split; [unfold p75, c66; wr_tac|]. vm_compute. reflexivity. }
    destruct H as (y & us & H & ->). eexists. apply (de_cons E75 [] p75); [exact H|apply de_nil]. }
  assert (B : exists us, written E75 (naming 0 [p75]) t75 (PL [word "_"; PL [word "and"; word "_v0"]; PL [word "_"; PL [word "and"; word "_v0"]; word "_v0"]]) us).
  { assert (H : exists x us, written E75 (naming 0 [p75]) t75 x us /\ x = PL [word "_"; PL [word "and"; word "_v0"]; PL [word "_"; PL [word "and"; word "_v0"]; word "_v0"]]).
    { eexists. eexists. split; [unfold t75, p75, c66; wr_tac|]. vm_compute. reflexivity. }
    destruct H as (y & us & H & ->). eauto. }
  destruct D as [us1 D]. destruct B as [us2 B]. exists (us1 ++ us2). split; [|split; [|split]].
  - assert (H : exists x us, written E75 (fun _ => None) t75 x us /\ x = PL [word "_"; PL [word "and"; word "_v0"]; PL [word "_"; PL [word "and"; p]; p]]).
    { eexists. eexists. split; [unfold t75, p75, c66; wr_tac|]. vm_compute. reflexivity. }
    destruct H as (y & us & H & ->). now exists us.
  - vm_compute. reflexivity.
  - exists us1, us2. auto.
  - vm_compute. discriminate.
Qed.
Print Assumptions C75_expansion_refuted.
