(** The formulas that are assumed and concluded have type Bool. *)
From Coq Require Import String ZArith List Bool Lia.
From Verif Require Import Base Kind Ints Str Literal Arity Term TermProofs Match Eval ListOps Typing Build Scope SpecScope ScopeProofs Lexer Parse Check
  SpecTerm SpecEval SpecType SpecCheck FrontProofs CheckProofs CheckProofs2 EvalProofs EvalProofs2 ClosureProofs TypeProofs InvProofs InvProofs2 StepProofs.
Import ListNotations.
Open Scope Z_scope.

Definition is_formula (e : event) : bool := match e with EvAssume _ _ _ => true | _ => false end.
Definition formula_of (e : event) : term := match e with EvAssume _ F _ => F | _ => null_term end.
Definition NA (s s' : st) : Prop := exists l, s_log s' = l ++ s_log s /\ forallb (fun e => negb (is_formula (snd e))) l = true.
Lemma NA_reading : reading NA.
Proof.
  constructor; try (intros; eexists [_]; split; reflexivity).
  - constructor.
    + intros s. exists []. auto.
    + intros s1 s2 s3 (l & L & A) (l' & L' & A'). exists (l' ++ l). rewrite L', L, app_assoc, forallb_app, A, A'. auto.
  - intros s c. exists []. auto.
Qed.
Lemma NA_po : preorder_st NA.
Proof. exact (rd_po _ NA_reading). Qed.
Lemma NA_log e : is_formula e = false -> pres NA (logEvent e).
Proof. intros A. apply pres_upd. intros s. exists [(length (s_asmctx s), e)]. cbn [forallb snd]. now rewrite A. Qed.
Lemma NA_upd f : (forall s, s_log (f s) = s_log s) -> pres NA (mupd f).
Proof. intros H. apply pres_upd. intros s. exists []. now rewrite H. Qed.
Lemma NA_split (l : list (nat * event)) : forall l0 l1 lv e l2, forallb (fun e => negb (is_formula (snd e))) l = true -> is_formula e = true ->
  l ++ l0 = l1 ++ (lv, e) :: l2 -> exists l1', l0 = l1' ++ (lv, e) :: l2.
Proof.
  induction l as [|x l IH]; intros l0 l1 lv e l2 H R E; [exists l1; exact E|].
  cbn [forallb] in H. apply andb_prop in H. destruct H as [H1 H2]. destruct l1 as [|x' l1]; cbn [app] in E; injection E as E1 E.
  - subst x. cbn [snd] in H1. rewrite R in H1. discriminate H1.
  - exact (IH _ _ _ _ _ H2 R E).
Qed.

Section Formulas.
Variable G : config.
Hypothesis HC : coherent G.
Hint Resolve NA_reading : core.
Lemma NA_pe sig : pres NA (parseExpr G sig (g_fuel G)).
Proof. apply pres_parseExpr. exact NA_reading. Qed.
Ltac na_cmd := lazymatch goal with
  | |- pres _ (cmdDeclare _ _ _) => apply pres_cmdDeclare; auto
  | |- pres _ (cmdDatatypes _ _ _) => apply pres_cmdDatatypes; auto
  | |- pres _ (cmdDeclareRule _ _) => apply pres_cmdDeclareRule; auto
  | |- pres _ cmdDeclareSort => apply pres_cmdDeclareSort; auto
  | |- pres _ (cmdDefineConst _ _) => apply pres_cmdDefineConst; auto
  | |- pres _ (cmdDefineSort _ _) => apply pres_cmdDefineSort; auto
  | |- pres _ (cmdProgram _ _) => apply pres_cmdProgram; auto
  | |- pres _ (normalForm _ _) => apply pres_normalForm; auto
  | |- pres _ (notifyStep _ _ _ _ _ _) => apply pres_notifyStep; auto
  | |- pres _ (mkSymbol _ _ _) => apply pres_symbol; auto
  | |- pres _ (bindM _ _) => apply pres_bindM; auto
  | |- pres _ (bindState _ _) => apply pres_bindState; auto
  | |- pres _ pushM => apply pres_push; auto
  | |- pres _ popM => apply pres_pop; auto
  | |- pres _ (popN _) => apply pres_popN; auto
  | |- pres _ (mkE _ _ _) => apply pres_mkE; auto
  | |- pres _ (typeOf _ _) => apply pres_typeOf; auto
  | |- pres _ (typeCheck _ _) => apply pres_typeCheck; auto
  | |- pres _ (typeCheckAs _ _ _) => apply pres_typeCheckAs; auto
  | |- pres _ (getVarM _) => apply pres_getVar; auto
  | |- pres _ (getProofRuleM _) => apply pres_getProofRule; auto
  | |- pres _ (consTermOf _ _) => apply pres_consTermOf; auto
  | |- pres _ (mkBinderList _ _ _) => apply pres_mkBinderList; auto
  | |- pres _ (processAttributeMaps _) => apply pres_processAttributeMaps; auto
  | |- pres _ parseSymbol => apply pres_parseSymbol; auto
  | |- pres _ parseKeyword => apply pres_parseKeyword; auto
  | |- pres _ parseIntegerNumeral => apply pres_parseIntegerNumeral; auto
  | |- pres _ parseStr => apply pres_parseStr; auto
  | |- pres _ parseLiteralKind => apply pres_parseLiteralKind; auto
  | |- pres _ (parseSymbolicExpr _) => apply pres_parseSymbolicExpr; auto
  | |- pres _ (parseType _ _ _ _) => apply pres_parseType; auto
  | |- pres _ (parseFormula _ _) => apply pres_parseFormula; auto
  | |- pres _ (parseExprList _ _) => apply pres_parseExprList; auto
  | |- pres _ (parseTypeList _ _ _) => apply pres_parseTypeList; auto
  | |- pres _ (parseAttributeList _ _ _ _ _) => apply pres_parseAttributeList; auto
  | |- pres _ (parseVarListMap _ _ _) => apply pres_parseVarListMap; auto
  | |- pres _ (parseVarList _ _ _) => apply pres_parseVarList; auto
  | |- pres _ (parseExpr _ _ _) => apply pres_parseExpr; auto
  end.
Ltac na := pose proof NA_po; repeat first [assumption | na_cmd | pres_step
  | apply NA_log; reflexivity | apply NA_upd; intros; first [reflexivity | destruct (setOption _ _ _); reflexivity]].
Definition is_formula_command (c : command) : bool := match c with C_ASSUME | C_ASSUME_PUSH => true | _ => false end.
Lemma NA_command sig r inc c : is_include c = false -> is_formula_command c = false -> pres NA (runCommand G sig r inc c).
Proof.
  intros N N'. pose proof (NA_pe sig) as K. destruct c; try discriminate N; try discriminate N'; cbn [runCommand];
    unfold cmdDefine, cmdReset, cmdPushPop, cmdStep, popAssumptionScope, addReferenceAssert, levelM, cmdEcho, cmdSetOption, cmdDeclareConsts; na.
Qed.

Notation QT := (Q (g_varinfo G) (fun _ => True)).
Definition formula (l2 : list (nat * event)) (F : term) : Prop :=
  exists s1, state_at l2 s1 /\ WT G s1 /\ agree s1 /\ QT F /\ tc_type (tc (env_of G s1) (g_n G)) F = Ok (Some t_Bool).
Definition JA (s : st) : Prop := JS G s /\
  forall l1 lv e l2, s_log s = l1 ++ (lv, e) :: l2 -> is_formula e = true -> formula l2 (formula_of e).
Lemma JA_keep s s' : NA s s' -> JS G s' -> JA s -> JA s'.
Proof.
  intros (l & L & N) J [_ H]. split; [exact J|]. intros l1 lv e l2 E F. rewrite L in E.
  destruct (NA_split _ _ _ _ _ _ N F E) as (l1' & E'). exact (H _ _ _ _ E' F).
Qed.
Lemma JA_event s s' lv e l2 : s_log s' = (lv, e) :: l2 -> s_log s = l2 -> formula l2 (formula_of e) -> JS G s' -> JA s -> JA s'.
Proof.
  intros L L' HF J [_ H]. split; [exact J|]. intros l1 lv' e' l2' E F. rewrite L in E. destruct l1 as [|x l1]; cbn [app] in E.
  - injection E as <- <- <-. exact HF.
  - injection E as _ E. rewrite <- L' in E. exact (H _ _ _ _ E F).
Qed.
(** Reading a formula. *)
Lemma parseFormula_formula sig p F p' : parseFormula G (parseExpr G sig (g_fuel G)) p = Ok (F, p') -> no_reset (s_log (snd p')) ->
  WT G (snd p) -> agree (snd p) -> recorded (snd p) -> formula (s_log (snd p')) F.
Proof.
  intros H O W A R. exists (snd p').
  assert (M : MR (snd p) (snd p')) by exact (pres_parseFormula MR MR_reading G _ (MR_pe G sig) _ _ _ H).
  assert (K : keepsW G no_reset (parseFormula G (parseExpr G sig (g_fuel G))) QT).
  { apply keepsW_T. intros d. apply (parseFormula_T G TT 0 no_reset (TT_log G no_reset no_reset_tail)).
    intros d'. apply (parseExpr_T G TT 0 no_reset HC TT_levels (TT_log G no_reset no_reset_tail)). }
  destruct (K _ _ _ H W O) as [W' QF]. destruct M as (_ & MA & MRR).
  split; [exact (MRR R)|]. split; [exact W'|]. split; [exact (MA A)|]. split; [exact QF|].
  unfold parseFormula in H. mstep H as e p1 E1. mstep H as u p2 E2. apply mret_ok in H. destruct H as [-> ->].
  unfold typeCheckAs in E2. mstep E2 as ty p3 E3. pose proof (typeCheck_type _ _ _ _ _ E3) as T.
  apply (typeCheck_pure G) in E3. destruct E3 as [-> _].
  destruct (term_eqb ty t_Bool) eqn:X; [|discriminate E2]. apply mret_ok in E2. destruct E2 as [_ ->].
  apply term_eqb_eq in X. now subst ty.
Qed.
Lemma JA_assume sig b p u p' : cmdAssume G sig b p = Ok (u, p') -> JS G (snd p') -> no_reset (s_log (snd p')) -> JA (snd p) -> JA (snd p').
Proof.
  intros H J' O J. pose proof H as H0. unfold cmdAssume in H. mstep H as name p1 E1. mstep H as F p2 E2. mstep H as x p3 E3. mstep H as y p4 E4.
  mstep H as z p5 E5. apply mupd_ok in E5. mstep H as ok p6 E6. destruct ok; [|discriminate H]. apply mret_ok in H. destruct H as [_ ->].
  assert (L3 : s_log (snd p3) = s_log (snd p2)).
  { unfold notifyAssume, pushAssumptionScope in E3. destruct b; [|apply mret_ok in E3; destruct E3 as [_ ->]; reflexivity].
    mstep E3 as x' q E. apply mupd_ok in E. apply mupd_ok in E3. subst p3 q. reflexivity. }
  assert (L4 : s_log (snd p4) = s_log (snd p3)).
  { unfold bindM, bindState in E4. mstep E4 as okb q E. mstep E as s q' E'. mstate E'. destruct (bind_sym _ _ _ _).
    - mstep E as w q2 E'. apply mupd_ok in E'. apply mret_ok in E. destruct E as [-> ->]. apply mret_ok in E4. destruct E4 as [_ ->]. subst q2. reflexivity.
    - apply mret_ok in E. destruct E as [-> ->]. discriminate E4. }
  assert (L6 : s_log (snd p6) = s_log (snd p5)).
  { unfold addAssumption in E6. mstep E6 as w q E. apply mupd_ok in E. subst q. mstep E6 as s q E. mstate E. cbn [fst snd set_asm s_hasRef s_asmctx] in E6.
    destruct (s_hasRef (snd p5)); [|apply mret_ok in E6; destruct E6 as [_ ->]; reflexivity].
    destruct (s_asmctx (snd p5)); [|apply mret_ok in E6; destruct E6 as [_ ->]; reflexivity].
    mstep E6 as aa q E. apply mret_ok in E6. destruct E6 as [_ ->].
    unfold normalForm in E. mstep E as s q' E'. mstate E'. destruct (is_null _); [apply mret_ok in E; destruct E as [_ ->]; reflexivity|].
    pose proof (same_mkE G _ _ _ _ _ E) as ->. reflexivity. }
  assert (L5 : s_log (snd p6) = (length (s_asmctx (snd p4)), EvAssume name F b) :: s_log (snd p2)).
  { rewrite L6, E5. cbn [snd set_log s_log]. now rewrite L4, L3. }
  assert (O2 : no_reset (s_log (snd p2))) by (rewrite L5 in O; exact (no_reset_tail [_] _ O)).
  assert (N1 : NA (snd p) (snd p1)) by exact (pres_parseSymbol NA NA_reading _ _ _ E1).
  assert (N2 : NA (snd p1) (snd p2)) by exact (pres_parseFormula NA NA_reading G _ (NA_pe sig) _ _ _ E2).
  destruct (po_trans _ NA_po _ _ _ N1 N2) as (l & L & N).
  pose proof (pres_parseSymbol MR MR_reading _ _ _ E1) as (_ & MA & MRR).
  assert (O1 : no_reset (s_log (snd p1))).
  { destruct N2 as (l' & L' & _). rewrite L' in O2. exact (no_reset_tail _ _ O2). }
  assert (W1 : WT G (snd p1)).
  { assert (K : keepsW G no_reset parseSymbol (fun _ => True)).
    { apply keepsW_T. intros d. apply (parseSymbol_T G TT 0 no_reset (TT_log G no_reset no_reset_tail)). }
    exact (proj1 (K _ _ _ E1 (proj1 (proj1 J)) O1)). }
  destruct (proj1 J) as (W & A & R & _).
  pose proof (parseFormula_formula sig _ _ _ E2 O2 W1 (MA A) (MRR R)) as FF.
  split; [exact J'|]. intros l1 lv e l2 E FE. rewrite L5 in E. destruct l1 as [|x0 l1]; cbn [app] in E.
  - injection E as <- <- <-. exact FF.
  - injection E as _ E. rewrite L in E. destruct (NA_split _ _ _ _ _ _ N FE E) as (l1' & E'). exact (proj2 J _ _ _ _ E' FE).
Qed.
Theorem run_JA o incs i v s : run G o incs i = Ok (v, s) -> no_reset (s_log s) -> JA s.
Proof.
  intros H O. apply (run_keeps G no_reset no_reset_tail JA) with (o := o) (incs := incs) (i := i) (v := v); auto.
  - intros sig r inc c p u p' IC HJ O1 E. pose proof (JS_command G HC _ _ _ _ _ _ _ IC (proj1 HJ) O1 E) as J'.
    destruct (is_formula_command c) eqn:FC; [|exact (JA_keep _ _ (NA_command sig r inc c IC FC _ _ _ E) J' HJ)].
    destruct c; try discriminate FC; cbn [runCommand] in E; exact (JA_assume _ _ _ _ _ E J' O1 HJ).
  - intros sig p t p' HJ O1 E. exact (JA_keep _ _ (NA_pe sig _ _ _ E) (JS_expr G HC _ _ _ _ (proj1 HJ) O1 E) HJ).
  - intros s0 path r nf incl inp HJ _ _. refine (JA_keep s0 _ _ (JS_include G _ _ _ _ _ _ (proj1 HJ)) HJ). eexists [_]. split; reflexivity.
  - intros s0 inp HJ. refine (JA_keep s0 _ _ (JS_input G _ _ (proj1 HJ)) HJ). exists []. auto.
  - split; [apply JS_init|]. intros l1 lv e l2 E. destruct l1; discriminate E.
Qed.

Hypothesis TV : typed_variables G.
Lemma has_type l2 s1 F ty n : state_at l2 s1 -> WT G s1 -> agree s1 -> QT F ->
  tc_type (tc (env_of G s1) n) F = Ok (Some ty) ->
  exists progs, defined (map snd l2) progs /\ typed (env_of G s1) progs F ty.
Proof.
  intros SA W A QF T. pose proof (proj1 SA) as SL. subst l2. change (map snd (s_log s1)) with (events s1) in *.
  assert (KN : known s1) by (destruct W as (d & I); exact (iv_known _ _ _ _ _ I)).
  exists (progs_of s1). split; [exact (progs_defined s1 KN SA)|].
  apply (typing_exact (env_of G s1) (progs_of s1) (env_ok_twf G s1 HC TV W)); [|exact (Q_twf _ _ _ QF) | exists n; exact T].
  split; [exact (progs_wf_of G s1 W) | exact (progs_env G s1 KN)].
Qed.
Theorem assumed_bool o incs i v s l1 lv name F b l2 : run G o incs i = Ok (v, s) -> ~ In EvReset (events s) ->
  s_log s = l1 ++ (lv, EvAssume name F b) :: l2 ->
  exists s1 progs, state_at l2 s1 /\ defined (map snd l2) progs /\ typed (env_of G s1) progs F t_Bool.
Proof.
  intros H NR L. destruct (proj2 (run_JA _ _ _ _ _ H NR) _ _ _ _ L eq_refl) as (s1 & SA & W & A & QF & T).
  destruct (has_type _ _ _ _ _ SA W A QF T) as (progs & D & X). exists s1, progs. auto.
Qed.
Theorem concluded_bool o incs i v s l1 lv name rule proven prem args asm conc l2 : run G o incs i = Ok (v, s) -> ~ In EvReset (events s) ->
  s_log s = l1 ++ (lv, EvStep name rule proven prem args asm conc) :: l2 ->
  exists s1 progs ty, state_at l2 s1 /\ defined (map snd l2) progs /\ typed (env_of G s1) progs conc ty /\ tkind ty = K_BOOL_TYPE.
Proof.
  intros H NR L. destruct (run_JS G HC _ _ _ _ _ H NR) as (_ & _ & _ & JS').
  destruct (JS' _ _ _ _ _ _ _ _ _ _ L) as (s1 & lx & isPop & SA & W & A & KR & _ & _ & _ & QC & (ty & T & KB) & _).
  destruct (has_type _ _ _ _ _ SA W A QC T) as (progs & D & X). exists s1, progs, ty. auto.
Qed.
End Formulas.
