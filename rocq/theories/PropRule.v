(** Properties C64 and C65: steps follow the declarations of their rules; formulas have type Bool. *)
From Coq Require Import String ZArith List Bool Lia.
From Verif Require Import Base Kind Ints Str Literal Arity Term TermProofs Match Eval ListOps Typing Build Scope Lexer Parse Check
  SpecTerm SpecEval SpecType SpecCheck EvalProofs EvalProofs2 ClosureProofs StepProofs RuleProofs BoolProofs PropCheck PropStep.
Import ListNotations.
Open Scope Z_scope.

(** C64.  [EvRule rule assume plCons premises args reqs conc explicit]: a declare-rule command with these
    parts, as read.  [prem] and [args] are the premises and arguments of a step, [proven] its stated formula,
    [asm] the assumption it discharges and [conc] what it concludes. *)
Theorem C64_follows_declaration : forall G o incs i v s l1 lv name rule proven prem args asm conc l2,
  run G o incs i = Ok (v, s) -> coherent G -> typed_variables G -> ~ In EvReset (events s) ->
  s_log s = l1 ++ (lv, EvStep name rule proven prem args asm conc) :: l2 ->
  exists dasm dpl dprem dargs dreqs dconc dex s1 progs premises,
    In (EvRule rule dasm dpl dprem dargs dreqs dconc dex) (map snd l2) /\ state_at l2 s1 /\ defined (map snd l2) progs /\
    (is_null dasm = false <-> asm <> None) /\ (dex = true -> is_null proven = false) /\ (is_null proven = false -> conc = proven) /\
    (is_null dpl = true \/ dpl = t_Any -> premises = prem) /\
    (is_null dpl = false -> dpl <> t_Any -> exists F, premises = [Node K_PROOF [F]] /\ gathered G s1 dpl prem F) /\
    let patterns := rule_patterns dasm dprem dargs dconc dex in
    let inputs := args ++ (if dex then [proven] else []) ++ match asm with Some a => [a] | None => [] end ++ premises in
    (patterns <> [] \/ inputs = [] -> exists f, exact_instance f patterns inputs /\
       Forall (meets (tc_lop (tc (env_of G s1) (g_n G))) progs f) dreqs /\
       ev (tc_lop (tc (env_of G s1) (g_n G))) progs shortcut f dconc conc /\ inert conc).
Proof. exact step_rule. Qed.
Print Assumptions C64_follows_declaration.

(** A rule with a premise, an argument and a requirement. *)
Definition w64 : string := "(declare-const P (-> Bool Bool))
(declare-rule r ((F Bool) (H Bool)) :premises (F) :args (H) :requires ((F H)) :conclusion (P F))
(assume @a false)
(step @s :rule r :premises (@a) :args (false))".
Definition r64 : term := Sym K_PROOF_RULE 66.
Example C64_example : exists s l1 lv l2, check w64 = Ok (Correct, s) /\ coherent (cfg [(txt "a.eo", txt w64)]) /\
  typed_variables (cfg [(txt "a.eo", txt w64)]) /\ ~ In EvReset (events s) /\
  s_log s = l1 ++ (lv, EvStep (txt "@s") r64 null_term [Node K_PROOF [t_false]] [t_false] None (Node K_APPLY [Sym K_CONST 63; t_false])) :: l2 /\
  In (EvRule r64 null_term null_term [Sym K_PARAM 64] [Sym K_PARAM 65] [Node K_TUPLE [Sym K_PARAM 64; Sym K_PARAM 65]]
        (Node K_APPLY [Sym K_CONST 63; Sym K_PARAM 64]) false) (map snd l2).
Proof.
  destruct (run_log (check w64) Correct) as (s & E & L); [vm_compute; reflexivity|].
  exists s, []. do 2 eexists. split; [exact E|]. split; [apply cfg_coherent|]. split; [apply cfg_typed|]. unfold events. rewrite L.
  split; [vm_compute; intuition discriminate|].
  split; [vm_compute; reflexivity|]. in_log.
Qed.
(** If the requirement fails the step is refused. *)
Definition w64no : string := "(declare-const P (-> Bool Bool))
(declare-rule r ((F Bool) (H Bool)) :premises (F) :args (H) :requires ((F H)) :conclusion (P F))
(assume @a false)
(step @s :rule r :premises (@a) :args (true))".
Example C64_requirement_fails : check w64no = Err.
Proof. vm_compute. reflexivity. Qed.

(** The same without the condition on the inputs is false: a rule that wants nothing, used with arguments,
    applies its conclusion to them. *)
Definition w64nil : string := "(declare-const P (-> Bool Bool))
(declare-rule r () :conclusion P)
(step @s :rule r :args (false))".
Theorem C64_nullary_refuted : exists G o incs i s l1 lv name rule proven prem args asm conc l2,
  run G o incs i = Ok (Correct, s) /\ coherent G /\ typed_variables G /\ ~ In EvReset (events s) /\
  s_log s = l1 ++ (lv, EvStep name rule proven prem args asm conc) :: l2 /\
  forall dasm dpl dprem dargs dreqs dconc dex lop progs f,
    In (EvRule rule dasm dpl dprem dargs dreqs dconc dex) (map snd l2) -> ~ ev lop progs shortcut f dconc conc.
Proof.
  destruct (run_log (check w64nil) Correct) as (s & E & L); [vm_compute; reflexivity|].
  do 4 eexists. exists s, []. do 9 eexists. split; [exact E|]. split; [apply cfg_coherent|]. split; [apply cfg_typed|]. unfold events. rewrite L.
  split; [vm_compute; intuition discriminate|].
  split; [vm_compute; reflexivity|].
  intros dasm dpl dprem dargs dreqs dconc dex lop progs f I. cbn [map snd In] in I.
  repeat match type of I with (_ = _) \/ _ => destruct I as [I | I]; [try discriminate I|] end; [|destruct I].
  injection I as <- <- <- <- <- <- <-. intros V. inversion V.
Qed.
Print Assumptions C64_nullary_refuted.

(** C65.  What is assumed has type Bool, in the state in which it was read; [typed] are the typing rules of
    SpecType.v. *)
Theorem C65_assumed : forall G, coherent G -> typed_variables G -> forall o incs i v s l1 lv name F b l2,
  run G o incs i = Ok (v, s) -> ~ In EvReset (events s) ->
  s_log s = l1 ++ (lv, EvAssume name F b) :: l2 ->
  exists s1 progs, state_at l2 s1 /\ defined (map snd l2) progs /\ typed (env_of G s1) progs F t_Bool.
Proof. exact assumed_bool. Qed.
Print Assumptions C65_assumed.
(** And so has what is concluded. *)
Theorem C65_concluded : forall G, coherent G -> typed_variables G -> forall o incs i v s l1 lv name rule proven prem args asm conc l2,
  run G o incs i = Ok (v, s) -> ~ In EvReset (events s) ->
  s_log s = l1 ++ (lv, EvStep name rule proven prem args asm conc) :: l2 ->
  exists s1 progs ty, state_at l2 s1 /\ defined (map snd l2) progs /\ typed (env_of G s1) progs conc ty /\ tkind ty = K_BOOL_TYPE.
Proof. exact concluded_bool. Qed.
Print Assumptions C65_concluded.
(** [w64] again; and formulas that are not of type Bool are refused. *)
Example C65_example : exists s l1 l1' l2 l2', check w64 = Ok (Correct, s) /\ coherent (cfg [(txt "a.eo", txt w64)]) /\
  typed_variables (cfg [(txt "a.eo", txt w64)]) /\ ~ In EvReset (events s) /\
  s_log s = l1 ++ (0%nat, EvAssume (txt "@a") t_false false) :: l2 /\
  s_log s = l1' ++ (0%nat, EvStep (txt "@s") r64 null_term [Node K_PROOF [t_false]] [t_false] None (Node K_APPLY [Sym K_CONST 63; t_false])) :: l2'.
Proof.
  destruct (run_log (check w64) Correct) as (s & E & L); [vm_compute; reflexivity|].
  exists s, [hd (0%nat, EvPush) (log_of (check w64))], []. do 2 eexists. split; [exact E|]. split; [apply cfg_coherent|]. split; [apply cfg_typed|]. unfold events. rewrite L.
  split; [vm_compute; intuition discriminate|].
  split; [vm_compute; reflexivity|].
  vm_compute. reflexivity.
Qed.
Example C65_refused : check "(declare-const P (-> Bool Bool)) (assume @a P)" = Err /\
  check "(declare-const P (-> Bool Bool)) (declare-rule r ((x Bool)) :args (x) :conclusion P) (step @a :rule r :args (true))" = Err.
Proof. split; vm_compute; reflexivity. Qed.
