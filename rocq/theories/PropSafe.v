(** Property C87: no undefined behaviour. *)
From Coq Require Import String ZArith List Bool Lia.
From Verif Require Import Base Kind Ints Str Literal Arity Term Match Eval ListOps Typing SpecTerm SpecEval SpecType TermProofs TypeProofs
  Lexer Parse Check SpecCheck SpecSafe SafeProofs PropType PropPreserve PropLocal.
Import ListNotations.
Open Scope Z_scope.

(** C87.  Full statement: whatever the input is, the checker answers or refuses; it never runs into undefined behaviour.
    It is false: each of these inputs reads past the end of a vector, that of the children of a term with fewer children than the
    code that handles it takes for granted (type_checker.cpp 1124-1129 and the cases like it) or, for the parenthesis that closes
    nothing, that of the frames of the parser (expr_parser.cpp 236-251). *)
Definition unsafe_inputs : list string :=
  ["(define f ((x Bool)) (eo::eq x)) (define g () (f true))";
   "(program f ((x Bool)) :signature (Bool) Bool (((f x) (eo::eq x)))) (declare-const a Bool) (assume p (f true))";
   "(define g () (eo::extract ""ab"" 0))";
   "(declare-const c (->))";
   "(define f () )";
   "(define g () (as))"]%string.
Theorem C87_refuted : forall x, In x unsafe_inputs -> Check.run (cfg67 x) options_init [] (InFile (txt "a.eo")) = UB.
Proof.
  intros x H. repeat (destruct H as [<- | H]; [vm_compute; reflexivity|]). destruct H.
Qed.
Print Assumptions C87_refuted.

(** Where every term has at least the children that its kind needs ([complete], SpecSafe.v), neither computing the type of a term nor
    evaluating it, with arguments for its parameters, runs into undefined behaviour, for any number of nested calls.

    Missing: that the terms the parser makes have them, which is what the inputs above show to be false. *)
Theorem C87_safe_partial : forall E progs, env_wf E -> complete_env E -> programs_of E progs ->
  forall n t, twf t -> complete t ->
  tc_type (tc E n) t <> UB /\
  forall c, Forall (fun b => twf (snd b) /\ complete (snd b)) c -> tc_eval (tc E n) t c <> UB.
Proof. exact checker_safe. Qed.
Print Assumptions C87_safe_partial.
(** The same for an operator of the language and its arguments. *)
Theorem C87_operator_partial : forall E progs, env_wf E -> complete_env E -> programs_of E progs ->
  forall n k args, (needs k <= length args)%nat -> Forall (fun a => twf a /\ complete a) args -> tc_lop (tc E n) k args <> UB.
Proof. exact operator_safe. Qed.
Print Assumptions C87_operator_partial.

(** Example.  The environment of C83: (len (cons 7 (cons 8 l))) for l := nil is evaluated and typed.  And (eo::eq 7), which does not
    have the children that eo::eq needs, is not safe to evaluate. *)
Ltac cmp := apply complete_dec; vm_compute; reflexivity.
Lemma y_complete : complete_env y_E.
Proof.
  constructor.
  - intros k i T _ H. cbn in H. unfold y_symtype in H. ymatch H; injection H as <-; cmp.
  - intros t ai c H1 H2. cbn in H1. unfold y_progs in H1. ymatch H1; injection H1 as <-; cbn in H2; injection H2 as <-; cmp.
  - intros k T H. cbn in H. destruct k; try discriminate H; injection H as <-; cmp.
  - intros n T _ _. cmp.
  - repeat split; cmp.
  - cmp.
Qed.
Example C87_example :
  let t := zapp y_len (y_cons (y_num 7) (y_cons (y_num 8) y_l)) in
  env_wf y_E /\ complete_env y_E /\ programs_of y_E y_progs /\ twf t /\ complete t /\
  Forall (fun b => twf (snd b) /\ complete (snd b)) [(y_l, y_nil)] /\
  tc_type (tc y_E 20) t = Ok (Some y_int) /\ tc_eval (tc y_E 40) t [(y_l, y_nil)] = Ok (Some (y_num 2)) /\
  ~ complete (Node K_EVAL_EQ [y_num 7]) /\ tc_eval (tc y_E 40) (Node K_EVAL_EQ [y_num 7]) [] = UB /\
  tc_lop (tc y_E 40) K_EVAL_EXTRACT [Lit (LStr (txt "ab")); y_num 0] = UB /\
  tc_lop (tc y_E 40) K_EVAL_EXTRACT [Lit (LStr (txt "ab")); y_num 0; y_num 0] = Ok (Some (Lit (LStr (txt "a")))).
Proof.
  cbn zeta. split; [exact y_wf|]. split; [exact y_complete|]. split; [exact y_programs|]. split; [repeat constructor|]. split; [cmp|].
  split. { constructor; [|constructor]. split; [repeat constructor|cmp]. }
  split; [vm_compute; reflexivity|]. split; [vm_compute; reflexivity|].
  split. { intros H. specialize (H _ _ (occ_here _)). cbn in H. lia. }
  repeat split; vm_compute; reflexivity.
Qed.
