(** Property C66: how terms are read. *)
From Coq Require Import String ZArith List Bool Lia.
From Verif Require Import Base Kind Ints Str Literal Arity Term TermProofs Match Eval ListOps Typing Build Scope Lexer Parse Check
  SpecRead Encode ReadProofs.
Import ListNotations.
Open Scope Z_scope.

(** A variable has the name and the type it was made with. *)
Definition faithful (G : config) : Prop := forall n t, g_varinfo G (g_bvar G n t) = Some (n, t).

(** The parser returns the term that an S-expression is by the recursive reading, in the
    state after it, and has consumed the words of the S-expression and no others. *)
Theorem C66_reads : forall G sig n s x t s1 l l', faithful G -> proper x -> ready l -> shows l (words x) l' ->
  reads G sig s x t s1 -> parseExpr G sig n (l, s) = Fuel \/ parseExpr G sig n (l, s) = Ok (t, (l', s1)).
Proof. intros G sig n s x t s1 l l' H P R S D. exact (parseExpr_reads G H sig n s x t s1 D l l' P R S). Qed.
Print Assumptions C66_reads.

(** It returns nothing else: what is not a term by the recursive reading is refused. *)
Theorem C66_exact : forall G sig n s x l l' t p, faithful G -> proper x -> ready l -> shows l (words x) l' ->
  parseExpr G sig n (l, s) = Ok (t, p) -> reads G sig s x t (snd p) /\ fst p = l'.
Proof. intros G sig n s x l l' t p H. exact (parseExpr_exact G H sig n s x l l' t p). Qed.
Print Assumptions C66_exact.

(** The words of a text. *)
Fixpoint take (n : nat) (l : lexer) : list (token * text) * lexer :=
  match n with
  | O => ([], l)
  | S m => match nextToken l with
           | Ok (t, l1) => let (ws, l') := take m l1 in ((t, if paren t then [] else tokenStr l1) :: ws, l')
           | _ => ([], l)
           end
  end.
Lemma take_shows n : forall l ws l', take n l = (ws, l') -> shows l ws l'.
Proof.
  induction n as [|n IH]; intros l ws l' H; cbn [take] in H; [injection H as <- <-; constructor|].
  destruct (nextToken l) as [[t l1]| | |] eqn:N; try (injection H as <- <-; constructor).
  destruct (take n l1) as [ws1 l2] eqn:T. injection H as <- <-. econstructor; [exact N | | now apply IH]. intros ->. reflexivity.
Qed.
Definition sig66 : string :=
"(declare-const Int Type) (declare-const P (-> Int Bool))
(declare-const and (-> Bool Bool Bool) :right-assoc-nil true)
(declare-const forall (-> eo::List Bool Bool) :binder eo::List::cons)".
Definition vcfg : config := mkConfig (fun _ => 0) var_num num_var (fun _ p => p) (fun _ => Some (txt sig66)) 60 60 400.
Lemma vcfg_faithful : faithful vcfg.
Proof. exact var_num_ok. Qed.
Definition s66 : st := match Check.run vcfg options_init [] (InFile (txt "a.eo")) with Ok (_, s) => s | _ => st_init options_init end.
(** Quantifiers, let, annotations and an operator with more than two arguments. *)
Definition t66 : string := "(forall ((x Int) (y Int)) (let ((z (P x))) (and z (! (P y) :named foo) z))) q".
Definition l66 : lexer := lexer_init true true (chars_of false (txt t66)).
Definition w (s : string) : sx := XT T_SYMBOL (txt s).
Definition x66 : sx :=
  XL [w "forall"; XL [XL [w "x"; w "Int"]; XL [w "y"; w "Int"]];
      XL [XT T_LET (txt "let"); XL [XL [w "z"; XL [w "P"; w "x"]]];
          XL [w "and"; w "z"; XL [XT T_ATTRIBUTE (txt "!"); XL [w "P"; w "y"]; XT T_KEYWORD (txt ":named"); w "foo"]; w "z"]]].
Definition c66 (i : Z) : term := Sym K_CONST i.
Definition P66 (n : string) : term := Node K_APPLY [c66 64; Sym K_VARIABLE (var_num (txt n) (c66 63))].
Definition and66 (a b : term) : term := Node K_APPLY [Node K_APPLY [c66 65; a]; b].
Definition v66 : term :=
  Node K_APPLY [Node K_APPLY [c66 66;
      Node K_APPLY [Node K_APPLY [c66 60; Sym K_VARIABLE (var_num (txt "x") (c66 63))];
        Node K_APPLY [Node K_APPLY [c66 60; Sym K_VARIABLE (var_num (txt "y") (c66 63))]; c66 58]]];
    and66 (P66 "x") (and66 (P66 "y") (and66 (P66 "x") (Lit (LBool true))))].
Lemma proper66 : proper x66.
Proof. repeat first [apply Forall_nil | apply Forall_cons | apply pr_list; [reflexivity|] | apply pr_word; [reflexivity | discriminate]]. Qed.
Example C66_example : exists l' s1, faithful vcfg /\ proper x66 /\ ready l66 /\ shows l66 (words x66) l' /\
  parseExpr vcfg false 60 (l66, s66) = Ok (v66, (l', s1)) /\ reads vcfg false s66 x66 v66 s1.
Proof.
  assert (H : exists l', take 39 l66 = (words x66, l')) by (eexists; vm_compute; reflexivity). destruct H as [l' H].
  pose proof (take_shows _ _ _ _ H) as S. assert (R : ready l66) by now left.
  assert (E : match parseExpr vcfg false 60 (l66, s66) with Ok (t, _) => Some t | _ => None end = Some v66) by (vm_compute; reflexivity).
  destruct (parseExpr vcfg false 60 (l66, s66)) as [[t [l1 s1]]| | |] eqn:X; try discriminate E. injection E as ->.
  destruct (C66_exact vcfg false 60 s66 x66 l66 l' v66 (l1, s1) vcfg_faithful proper66 R S X) as [D L]. cbn [fst snd] in D, L. subst l1.
  exists l', s1. repeat (split; [first [exact vcfg_faithful | exact proper66 | assumption | reflexivity]|]). exact D.
Qed.
