(** Property C43: what a step concludes. *)
From Coq Require Import String ZArith List Bool Lia.
From Verif Require Import Base Kind Ints Str Literal Arity Term TermProofs Match Eval ListOps Typing Build Scope Lexer Parse Check
  SpecTerm SpecEval SpecCheck EvalProofs EvalProofs2 ClosureProofs StepProofs PropCheck.
Import ListNotations.
Open Scope Z_scope.

(** The rule of a step is a proof rule, declared before. *)
Theorem C43_declared : forall G o incs i v s l1 lv name rule proven prem args asm conc l2,
  run G o incs i = Ok (v, s) -> coherent G -> ~ In EvReset (events s) ->
  s_log s = l1 ++ (lv, EvStep name rule proven prem args asm conc) :: l2 ->
  tkind rule = K_PROOF_RULE /\ exists a ct, In (EvMark rule a (Some ct)) (map snd l2).
Proof. exact step_declared. Qed.
Print Assumptions C43_declared.

(** The conclusion of a step is what the program of its rule computes: the inputs are the
    arguments, the conclusion if the rule wants it stated, the assumption that is discharged and
    the premises; they select a case of the program, the conclusion is the value of its right
    hand side, and nothing is left to compute in it. *)
Theorem C43_concludes : forall G o incs i v s l1 lv name rule proven prem args asm conc l2 op isAsm isExp prog,
  run G o incs i = Ok (v, s) -> coherent G -> typed_variables G -> ~ In EvReset (events s) ->
  s_log s = l1 ++ (lv, EvStep name rule proven prem args asm conc) :: l2 ->
  marks_of (map snd l2) rule = Some (A_PROOF_RULE, Some (Node K_TUPLE [op; Lit (LBool isAsm); Lit (LBool isExp); prog])) ->
  exists s1 progs premises, state_at l2 s1 /\ defined (map snd l2) progs /\
    (isAsm = true <-> asm <> None) /\ (isExp = true -> is_null proven = false) /\
    (op = t_Any -> premises = prem) /\ (op <> t_Any -> exists F, premises = [Node K_PROOF [F]] /\ gathered G s1 op prem F) /\
    let inputs := args ++ (if isExp then [proven] else []) ++ match asm with Some a => [a] | None => [] end ++ premises in
    (inputs = [] -> conc = prog) /\
    (inputs <> [] -> is_program prog -> exists body f, calls progs prog inputs (Some (body, f)) /\
       ev (tc_lop (tc (env_of G s1) (g_n G))) progs shortcut f body conc /\ inert conc).
Proof. exact step_concludes. Qed.
Print Assumptions C43_concludes.

Lemma cfg_typed files : typed_variables (cfg files).
Proof. intros i n t E. discriminate E. Qed.
(** The step-pop of [w43], and a step with gathered premises. *)
Definition p_scope : term := Sym K_PROGRAM_CONST 68.
Example C43_concludes_example : exists s l1 lv l2, check w43 = Ok (Correct, s) /\ ~ In EvReset (events s) /\
  s_log s = l1 ++ (lv, EvStep (txt "@s") r_scope (Node K_APPLY [Node K_APPLY [f_imp; t_false]; t_false])
                         [Node K_PROOF [t_false]] [] (Some t_false)
                         (Node K_APPLY [Node K_APPLY [f_imp; t_false]; t_false])) :: l2 /\
  marks_of (map snd l2) r_scope = Some (A_PROOF_RULE, Some (Node K_TUPLE [t_Any; Lit (LBool true); Lit (LBool false); p_scope])) /\
  is_program p_scope.
Proof.
  destruct (run_log (check w43) Correct) as (s & E & L); [vm_compute; reflexivity|].
  exists s, []. do 2 eexists. split; [exact E|]. unfold events. rewrite L.
  split; [vm_compute; intuition discriminate|].
  split; [vm_compute; reflexivity|].
  split; [vm_compute; reflexivity | eexists; reflexivity].
Qed.
Definition wlist : string := "(declare-const and (-> Bool Bool Bool) :right-assoc-nil true)
(declare-rule and_intro ((F Bool)) :premise-list F and :conclusion F)
(assume @a false) (assume @b true) (step @c :rule and_intro :premises (@a @b))".
Example C43_gathered_example : exists s l1 lv l2 conc, check wlist = Ok (Correct, s) /\ ~ In EvReset (events s) /\
  s_log s = l1 ++ (lv, EvStep (txt "@c") (Sym K_PROOF_RULE 65) null_term
                         [Node K_PROOF [t_false]; Node K_PROOF [Lit (LBool true)]] [] None conc) :: l2 /\
  marks_of (map snd l2) (Sym K_PROOF_RULE 65) = Some (A_PROOF_RULE,
       Some (Node K_TUPLE [f_imp; Lit (LBool false); Lit (LBool false); Sym K_PROGRAM_CONST 66])) /\
  is_program (Sym K_PROGRAM_CONST 66).
Proof.
  destruct (run_log (check wlist) Correct) as (s & E & L); [vm_compute; reflexivity|].
  exists s, []. do 3 eexists. split; [exact E|]. unfold events. rewrite L.
  split; [vm_compute; intuition discriminate|].
  split; [vm_compute; reflexivity|].
  split; [vm_compute; reflexivity | eexists; reflexivity].
Qed.
