(** C76: printed terms are read back. *)
From Coq Require Import String ZArith List Bool Lia.
From Verif Require Import Base Kind Ints Str Literal SpecLit Arity Term Match Eval ListOps Typing Build Scope Lexer SpecLex
  LexProofs TermProofs Parse Check SpecRead SpecLocal Print SpecPrint Encode PropRead PropLocal PropPrint SpecBack BackProofs BackProofs2 BackProofs3.
Import ListNotations.
Open Scope Z_scope.

(** Printing an ordinary term ends, and reading what was printed gives the term again, up to
    the last byte that was printed, and changes nothing.  With sharing the names _v0, _v1, ...
    must be free. *)
Theorem C76_read_back : forall G sig ll lt s t, faithful G -> reached G s -> (0 < g_mk G)%nat -> ordinary G sig ll lt s t ->
  forall dag, (dag = true -> forall i, getVar (s_scope s) (let_name i) = None) ->
  (exists N out, forall n, (N <= n)%nat -> printDebug (env_of G s) dag n t = Ok out) /\
  (forall n out i rest m, printDebug (env_of G s) dag n t = Ok out -> Z.of_nat (length out) < 2 ^ 64 -> plain rest -> delimited rest ->
   parseExpr G sig m (lexer_init ll lt (chars_of i (out ++ rest)), s) = Fuel \/
   exists l' s1, parseExpr G sig m (lexer_init ll lt (chars_of i (out ++ rest)), s) = Ok (t, (l', s1)) /\ unchanged s s1 /\
     l_chars l' = chars_of i rest /\ l_peeked l' = []).
Proof.
  intros G sig ll lt s t HF R MK O dag NB. split; [exact (ordinary_prints G HF sig ll lt s t dag O)|].
  intros n out i rest m H L P D. destruct (printed_back G HF MK sig ll lt s dag n t out NB O H) as (x & y & -> & S & M).
  destruct (proj1 (spells_shows ll lt) _ _ S false i (lexer_init ll lt (chars_of i (render x ++ rest))) rest) as (l' & W & (_ & _ & A & B)); auto.
  { repeat split. }
  destruct (C67_static G sig m s y t (lexer_init ll lt (chars_of i (render x ++ rest))) l') as [F|(s1 & X & U)]; auto.
  - exact (proj1 (spells_proper ll lt) _ _ S L).
  - now left.
  - right. exists l', s1. auto.
Qed.
Print Assumptions C76_read_back.

Definition sig76 : string :=
"(declare-const Int Type) (declare-const a Int) (declare-const f (-> Int Int Int)) (declare-const |is 0| (-> Int Bool))
(declare-const and (-> Bool Bool Bool) :right-assoc-nil true) (declare-const h (-> Int Bool Bool))
(declare-parameterized-const g ((i Int :opaque) (j Int :opaque)) Int)".
Definition G76 : config := cfg67 sig76.
Definition s76 : st := s67 sig76.
Definition txt76 : string := "(h (eo::add a 1) (|is 0| (f a (f (eo::add a 1) (eo::var ""x"" Int)))))".
Definition add76 : term := Node K_EVAL_ADD [c66 64; Lit (LNum 1)].
Definition app2 (f a b : term) : term := Node K_APPLY [Node K_APPLY [f; a]; b].
Definition t76 : term :=
  app2 (c66 68) add76 (Node K_APPLY [c66 66; app2 (c66 65) (c66 64) (app2 (c66 65) add76 (Sym K_VARIABLE (var_num (txt "x") (c66 63))))]).
Lemma readable76 ll lt n : Forall (fun c => 0 < c < 255) n ->
  (exists t, computeNextToken ll lt (chars_of false (quoteSymbol n ++ [])) = Ok (t, quoteSymbol n, chars_of false []) /\ name_of t (quoteSymbol n) = Some n) ->
  readable ll lt n.
Proof. intros F H. apply (C73_read_back false ll lt n [] F); [constructor|exact I|exact H]. Qed.
Ltac bytes76 := repeat (constructor; [vm_compute; split; reflexivity|]); constructor.
Lemma named76 i n : e_name (env_of G76 s76) (Sym K_CONST i) = n -> Forall (fun c => 0 < c < 255) n ->
  (exists t, computeNextToken true true (chars_of false (quoteSymbol n ++ [])) = Ok (t, quoteSymbol n, chars_of false []) /\ name_of t (quoteSymbol n) = Some n) ->
  getVar (s_scope s76) n = Some (Sym K_CONST i) -> named_symbol G76 true true s76 (c66 i).
Proof. intros <- F H V. apply ns_sym; [reflexivity|discriminate|now apply readable76|exact F|exact V]. Qed.
Ltac sym76 := eapply named76; [vm_compute; reflexivity | bytes76 | eexists; split; vm_compute; reflexivity | vm_compute; reflexivity].
Ltac ord76 :=
  first [ apply or_sym; sym76
        | assumption
        | apply or_app; [sym76 | vm_compute; reflexivity | ord76]
        | eapply or_app2; [split; [vm_compute; reflexivity | vm_compute; reflexivity] | discriminate | ord76 | ord76] ].
Example C76_example : faithful G76 /\ reached G76 s76 /\ (0 < g_mk G76)%nat /\ (forall i, getVar (s_scope s76) (let_name i) = None) /\
  term_of sig76 txt76 = Some t76 /\ ordinary G76 false true true s76 t76 /\
  printDebug (env_of G76 s76) false 300 t76 = Ok (txt "(_ (h (eo::add a 1)) (|is 0| (_ (f a) (_ (f (eo::add a 1)) (eo::var ""x"" Int)))))") /\
  printDebug (env_of G76 s76) true 300 t76 = Ok (txt "(eo::define ((_v0 (eo::add a 1))) (_ (h _v0) (|is 0| (_ (f a) (_ (f _v0) (eo::var ""x"" Int))))))").
Proof.
  split; [exact var_num_ok|]. split; [apply reached67; comp|]. split; [cbn; lia|]. split.
  { intros i. unfold let_name. generalize (int_toString 10 (Z.of_nat i)). intros r. vm_compute. reflexivity. }
  split; [comp|]. split.
  { assert (A : ordinary G76 false true true s76 add76).
    { eapply or_operator with (w := txt "eo::add"); [|split; vm_compute; reflexivity|discriminate| |comp].
      - assert (H : existsb (fun d => text_eqb (fst d) (txt "eo::add") && kind_eqb (snd d) K_EVAL_ADD) builtins = true) by (vm_compute; reflexivity).
        apply existsb_exists in H as ((x & k) & I & H). cbn [fst snd] in H. apply andb_prop in H as [H1 H2].
        apply text_eqb_eq in H1. apply kind_eqb_eq in H2. now subst x k.
      - constructor; [ord76|]. constructor; [apply or_lit, lw_num; comp|constructor]. }
    assert (X : ordinary G76 false true true s76 (Sym K_VARIABLE (var_num (txt "x") (c66 63)))).
    { eapply (or_var G76) with (n := txt "x"); [split; vm_compute; reflexivity| |ord76|comp].
      repeat (constructor; [repeat split; comp|]); constructor. }
    unfold t76, app2. ord76. }
  split; comp.
Qed.

(** Full statement: every term that is read and printed is read back.  It is false: the
    applications to one argument of which the term of an n-ary operator consists are read as
    terms with the neutral element; an applied variable and an application of a constant
    with two opaque arguments are no terms; quotes in a string are not doubled. *)
Definition read76 (o : text) : res term :=
  let* (t, _) := parseExpr G76 false 60 (lexer_init true true (chars_of false o), s76) in Ok t.
Definition back76 (x o : string) (r : term -> res term -> Prop) : Prop :=
  exists t, term_of sig76 x = Some t /\ printDebug (env_of G76 s76) false 300 t = Ok (txt o) /\ r t (read76 (txt o)).
Theorem C76_every_term_refuted : faithful G76 /\ reached G76 s76 /\ exists x1 x2 x3 x4 o1 o2 o3 o4,
  back76 x1 o1 (fun t r => exists u, r = Ok u /\ u <> t) /\ back76 x2 o2 (fun _ r => r = Err) /\ back76 x3 o3 (fun _ r => r = Err) /\
  back76 x4 o4 (fun t r => exists u, r = Ok u /\ u <> t) /\
  x1 = "(and (|is 0| a) true)"%string /\ o1 = "(_ (and (|is 0| a)) (_ (and true) true))"%string /\
  x2 = "(_ (eo::var ""k"" (-> Int Int)) a)"%string /\ o2 = "((eo::var ""k"" (-> Int Int)) a)"%string /\
  x3 = "(g a a)"%string /\ o3 = "((g a) a)"%string /\
  x4 = """a""""b"""%string /\ o4 = """a""b"""%string.
Proof.
  split; [exact var_num_ok|]. split; [apply reached67; comp|].
  exists "(and (|is 0| a) true)"%string, "(_ (eo::var ""k"" (-> Int Int)) a)"%string, "(g a a)"%string, """a""""b"""%string,
    "(_ (and (|is 0| a)) (_ (and true) true))"%string, "((eo::var ""k"" (-> Int Int)) a)"%string, "((g a) a)"%string, """a""b"""%string.
  split; [|split; [|split; [|split; [|repeat split]]]].
  - eexists. split; [comp|]. split; [comp|]. eexists. split; [comp|]. discriminate.
  - eexists. split; [comp|]. split; comp.
  - eexists. split; [comp|]. split; comp.
  - eexists. split; [comp|]. split; [comp|]. eexists. split; [comp|]. discriminate.
Qed.
Print Assumptions C76_every_term_refuted.
