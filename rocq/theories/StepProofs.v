(** The steps of a run: what they were checked against. *)
From Coq Require Import String ZArith List Bool Lia.
From Verif Require Import Base Kind Ints Str Literal Arity Term TermProofs Match Eval ListOps Typing Build Scope SpecScope ScopeProofs Lexer Parse Check
  SpecTerm SpecEval SpecCheck FrontProofs CheckProofs CheckProofs2 EvalProofs EvalProofs2 ClosureProofs InvProofs InvProofs2.
Import ListNotations.
Open Scope Z_scope.

(** ** The state holds what the log says *)
Definition recorded (s : st) : Prop := state_at (s_log s) s.
Definition is_fact (e : event) : bool := match e with EvMark _ _ _ | EvSymbol _ _ | EvLiteral _ _ => true | _ => false end.
Lemma recorded_same s s' l : s_log s' = l ++ s_log s -> forallb (fun e => negb (is_fact (snd e))) l = true ->
  s_marks s' = s_marks s -> s_types s' = s_types s -> s_lits s' = s_lits s -> recorded s -> recorded s'.
Proof.
  intros L F M T K (_ & A & B & C). unfold recorded, state_at. rewrite L, M, T, K. split; [reflexivity|]. clear L M T K s'.
  induction l as [|[n e] l IH]; [auto|]. cbn [forallb snd] in F. apply andb_prop in F. destruct F as [F1 F2].
  destruct (IH F2) as (A' & B' & C'). destruct e; try discriminate F1; auto.
Qed.
Lemma recorded_reading : reading (fun s s' => recorded s -> recorded s').
Proof.
  constructor.
  - constructor; auto.
  - intros s c. apply (recorded_same s _ []); reflexivity.
  - intros s k name ty (_ & A & B & C). split; [reflexivity|]. cbn [with_symbol set_log set_next set_names set_types s_log s_marks s_types s_lits map snd marks_of types_of lits_of].
    split; [intros t; cbn [set_marks s_marks]; now rewrite A|]. split; [|exact C]. intros t. cbn [set_types s_types]. now rewrite B.
  - intros s m v a ct MK (_ & A & B & C). unfold markConstructorKind in MK. destruct (s_marks s v); [discriminate MK|]. injection MK as <-.
    split; [reflexivity|]. cbn [with_event set_log set_marks s_log s_marks s_types s_lits map snd marks_of types_of lits_of].
    split; [|split; [exact B | exact C]]. intros t. now rewrite A.
  - intros s e. eapply (recorded_same s _ [_]); reflexivity.
  - intros s rule asm pl prem args reqs conc ex. eapply (recorded_same s _ [_]); reflexivity.
Qed.
Lemma recorded_init o : recorded (st_init o).
Proof. repeat split; reflexivity. Qed.
Lemma recorded_lits s m k t n : setLiteralTypeRule (s_lits s) k t = Ok m -> recorded s ->
  recorded (set_log ((n, EvLiteral k t) :: s_log s) (set_lits m s)).
Proof.
  intros E (_ & A & B & C). split; [reflexivity|]. split; [exact A|]. split; [exact B|]. intros k'.
  cbn [set_log set_lits s_lits s_log map snd lits_of]. unfold setLiteralTypeRule in E. destruct (existsb _ _); [|discriminate E].
  destruct (s_lits s k) as [t'|]; [destruct (term_eqb t' t); [|discriminate E]|]; injection E as <-; now rewrite C.
Qed.

(** ** Marks are those of the log *)
Definition agree (s : st) : Prop :=
  (forall v a ct, s_marks s v = Some (a, ct) -> a = A_PROGRAM -> In (EvMark v a ct) (events s)) /\
  (forall v a ct, s_marks s v = Some (a, ct) -> tkind v = K_PROOF_RULE -> In (EvMark v a ct) (events s)).
Definition is_step (e : event) : bool := match e with EvStep _ _ _ _ _ _ _ => true | _ => false end.
Definition MR (s s' : st) : Prop :=
  (exists l, s_log s' = l ++ s_log s /\ forallb (fun e => negb (is_step (snd e))) l = true) /\ (agree s -> agree s') /\
  (recorded s -> recorded s').
Definition is_mark (e : event) : bool := match e with EvMark _ _ _ => true | _ => false end.
Lemma MR_same : forall s s' l, s_log s' = l ++ s_log s -> forallb (fun e => negb (is_step (snd e))) l = true ->
  forallb (fun e => negb (is_mark (snd e))) l = true -> (forall t m, s_marks s' t = Some m -> s_marks s t = Some m) ->
  (recorded s -> recorded s') -> MR s s'.
Proof.
  intros s s' l L A B M RC. split; [exists l; auto|]. split; [|exact RC].
  assert (K : forall v a ct, In (EvMark v a ct) (events s') <-> In (EvMark v a ct) (events s)).
  { intros v a ct. unfold events. rewrite L, map_app, in_app_iff. split; [|auto]. intros [I | I]; [|exact I].
    apply in_map_iff in I. destruct I as (e & E & I). rewrite forallb_forall in B. specialize (B e I). rewrite E in B. discriminate B. }
  intros (H2 & H3). split; intros v a ct E; apply M in E; rewrite K; [exact (H2 _ _ _ E) | exact (H3 _ _ _ E)].
Qed.
Lemma MR_reading : reading MR.
Proof.
  constructor.
  - constructor.
    + intros s. apply (MR_same s s []); try reflexivity; auto.
    + intros s1 s2 s3 [(l & L & A) [B C]] [(l' & L' & A') [B' C']]. split; [|split; auto].
      exists (l' ++ l). rewrite L', L, app_assoc, forallb_app, A, A'. auto.
  - intros s c. apply (MR_same s _ []); try reflexivity; [auto | apply (rd_scope _ recorded_reading)].
  - intros s k name ty. eapply (MR_same s _ [_]); try reflexivity; [|apply (rd_symbol _ recorded_reading)].
    intros t m. cbn [with_symbol set_log set_next set_names set_types set_marks s_marks]. destruct (term_eqb _ t); [discriminate | auto].
  - intros s m v a ct MK. split; [eexists [_]; split; reflexivity|]. split; [|exact (rd_mark _ recorded_reading s m v a ct MK)]. unfold markConstructorKind in MK.
    destruct (s_marks s v) eqn:N; [discriminate MK|]. injection MK as <-.
    intros (H2 & H3). split; intros v' a' ct'; cbn [with_event set_log set_marks s_log s_marks events map snd In].
    + destruct (term_eqb v v') eqn:X; [|intros Y Z; right; exact (H2 _ _ _ Y Z)]. apply term_eqb_eq in X. subst v'.
      intros E _. injection E as <- <-. now left.
    + destruct (term_eqb v v') eqn:X; [|intros Y Z; right; exact (H3 _ _ _ Y Z)]. apply term_eqb_eq in X. subst v'.
      intros E _. injection E as <- <-. now left.
  - intros s e. eapply (MR_same s _ [_]); try reflexivity; [auto | apply (rd_sorry _ recorded_reading)].
  - intros. eapply (MR_same _ _ [_]); try reflexivity; [auto | apply (rd_rule _ recorded_reading)].
Qed.
Lemma MR_po : preorder_st MR.
Proof. exact (rd_po _ MR_reading). Qed.
Lemma MR_log e : is_step e = false -> is_mark e = false -> is_fact e = false -> pres MR (logEvent e).
Proof.
  intros A B C. apply pres_upd. intros s. apply (MR_same s _ [(length (s_asmctx s), e)]); try reflexivity; cbn [forallb snd];
    rewrite ?A, ?B; try reflexivity; [auto|]. apply (recorded_same s _ [(length (s_asmctx s), e)]); try reflexivity. cbn [forallb snd]. now rewrite C.
Qed.
Lemma MR_upd f : (forall s, s_log (f s) = s_log s /\ s_marks (f s) = s_marks s /\ s_types (f s) = s_types s /\ s_lits (f s) = s_lits s) ->
  pres MR (mupd f).
Proof.
  intros H. apply pres_upd. intros s. destruct (H s) as (A & B & C & D). apply (MR_same s _ []); auto; [now rewrite B|].
  apply (recorded_same s _ []); auto.
Qed.
Lemma MR_lits k t : pres MR (let! s := mget in let! m := mlift (setLiteralTypeRule (s_lits s) k t) in
  mupd (set_lits m) ;; logEvent (EvLiteral k t) ;; popM).
Proof.
  intros p u p' H. mstep H as s p1 E. mstate E. mstep H as m p2 E. apply mlift_ok in E. destruct E as [E ->].
  mstep H as x p3 E1. apply mupd_ok in E1. subst p3. mstep H as y p4 E1. apply mupd_ok in E1. subst p4.
  refine (po_trans _ MR_po _ _ _ _ (pres_pop MR MR_reading _ _ _ H)).
  eapply (MR_same _ _ [_]); try reflexivity; [auto|]. intros RC. exact (recorded_lits _ _ _ _ _ E RC).
Qed.
Lemma agree_init o : agree (st_init o).
Proof.
  split; intros v a ct E; cbn [st_init s_marks markConstructorKind fst] in E;
    (destruct (term_eqb _ v) eqn:X; [|discriminate E]); apply term_eqb_eq in X; subst v; injection E as <- <-; discriminate.
Qed.

Section Steps.
Variable G : config.
Hint Resolve MR_reading : core.
Lemma MR_pe sig : pres MR (parseExpr G sig (g_fuel G)).
Proof. apply pres_parseExpr. exact MR_reading. Qed.
Ltac mr_cmd := lazymatch goal with
  | |- pres _ (cmdDeclare _ _ _) => apply pres_cmdDeclare; auto
  | |- pres _ (cmdDatatypes _ _ _) => apply pres_cmdDatatypes; auto
  | |- pres _ (cmdDeclareRule _ _) => apply pres_cmdDeclareRule; auto
  | |- pres _ cmdDeclareSort => apply pres_cmdDeclareSort; auto
  | |- pres _ (cmdDefineConst _ _) => apply pres_cmdDefineConst; auto
  | |- pres _ (cmdDefineSort _ _) => apply pres_cmdDefineSort; auto
  | |- pres _ (cmdProgram _ _) => apply pres_cmdProgram; auto
  | |- pres _ (normalForm _ _) => apply pres_normalForm; auto
  | |- pres _ (notifyStep _ _ _ _ _ _) => apply pres_notifyStep; auto
  | |- pres _ (mkSymbol _ _ _) => apply pres_symbol; auto
  | |- pres _ (bindM _ _) => apply pres_bindM; auto
  | |- pres _ (bindState _ _) => apply pres_bindState; auto
  | |- pres _ pushM => apply pres_push; auto
  | |- pres _ popM => apply pres_pop; auto
  | |- pres _ (popN _) => apply pres_popN; auto
  | |- pres _ (mkE _ _ _) => apply pres_mkE; auto
  | |- pres _ (typeOf _ _) => apply pres_typeOf; auto
  | |- pres _ (typeCheck _ _) => apply pres_typeCheck; auto
  | |- pres _ (typeCheckAs _ _ _) => apply pres_typeCheckAs; auto
  | |- pres _ (getVarM _) => apply pres_getVar; auto
  | |- pres _ (getProofRuleM _) => apply pres_getProofRule; auto
  | |- pres _ (consTermOf _ _) => apply pres_consTermOf; auto
  | |- pres _ (mkBinderList _ _ _) => apply pres_mkBinderList; auto
  | |- pres _ (processAttributeMaps _) => apply pres_processAttributeMaps; auto
  | |- pres _ parseSymbol => apply pres_parseSymbol; auto
  | |- pres _ parseKeyword => apply pres_parseKeyword; auto
  | |- pres _ parseIntegerNumeral => apply pres_parseIntegerNumeral; auto
  | |- pres _ parseStr => apply pres_parseStr; auto
  | |- pres _ parseLiteralKind => apply pres_parseLiteralKind; auto
  | |- pres _ (parseSymbolicExpr _) => apply pres_parseSymbolicExpr; auto
  | |- pres _ (parseType _ _ _ _) => apply pres_parseType; auto
  | |- pres _ (parseFormula _ _) => apply pres_parseFormula; auto
  | |- pres _ (parseExprList _ _) => apply pres_parseExprList; auto
  | |- pres _ (parseTypeList _ _ _) => apply pres_parseTypeList; auto
  | |- pres _ (parseAttributeList _ _ _ _ _) => apply pres_parseAttributeList; auto
  | |- pres _ (parseVarListMap _ _ _) => apply pres_parseVarListMap; auto
  | |- pres _ (parseVarList _ _ _) => apply pres_parseVarList; auto
  | |- pres _ (parseExpr _ _ _) => apply pres_parseExpr; auto
  end.
Ltac mr := pose proof MR_po; repeat first [assumption | apply MR_lits | mr_cmd | pres_step
  | apply MR_log; reflexivity | apply MR_upd; intros; first [repeat split; reflexivity | destruct (setOption _ _ _); repeat split; reflexivity]].
Definition is_step_command (c : command) : bool := match c with C_STEP | C_STEP_POP => true | _ => false end.
Lemma MR_command sig r inc c : is_include c = false -> is_step_command c = false -> pres MR (runCommand G sig r inc c).
Proof.
  intros N N'. pose proof (MR_pe sig) as K. destruct c; try discriminate N; try discriminate N'; cbn [runCommand];
    unfold cmdDefine, cmdReset, cmdPushPop, cmdAssume, notifyAssume, pushAssumptionScope, popAssumptionScope,
      addAssumption, addReferenceAssert, levelM, cmdEcho, cmdSetOption, cmdDeclareConsts; mr.
Qed.
Lemma MR_step sig b : pres MR (readStep G sig b).
Proof. pose proof (MR_pe sig) as K. unfold readStep, levelM. mr. Qed.

(** ** What a step was checked against *)
Lemma typeCheck_type e p ty p' : typeCheck G e p = Ok (ty, p') -> tc_type (tc (env_of G (snd p)) (g_n G)) e = Ok (Some ty).
Proof.
  intros H. unfold typeCheck, typeOf in H. mstep H as t p1 E1. mstep E1 as s p2 E2. mstate E2.
  apply mlift_ok in E1. destruct E1 as [E1 ->]. destruct t; [|discriminate H]. apply mret_ok in H. destruct H as [-> _]. exact E1.
Qed.
Hypothesis HC : coherent G.
Notation QT := (Q (g_varinfo G) (fun _ => True)).
Definition checked (l2 : list (nat * event)) (rule proven : term) (prem args : list term) (asm : option term) (conc : term) : Prop :=
  exists s1 lx isPop, state_at l2 s1 /\ WT G s1 /\ agree s1 /\ tkind rule = K_PROOF_RULE /\ Forall QT prem /\ Forall QT args /\ QT proven /\ QT conc /\
    (exists ty, tc_type (tc (env_of G s1) (g_n G)) conc = Ok (Some ty) /\ tkind ty = K_BOOL_TYPE) /\ (is_null proven = false -> conc = proven) /\
    notifyStep G rule proven prem args isPop (lx, s1) = Ok (Some (conc, asm), (lx, s1)).
Definition JS (s : st) : Prop := WT G s /\ agree s /\ recorded s /\
  forall l1 lv name rule proven prem args asm conc l2,
    s_log s = l1 ++ (lv, EvStep name rule proven prem args asm conc) :: l2 -> checked l2 rule proven prem args asm conc.

Lemma nostep_split : forall (l : list (nat * event)) l0 l1 lv name rule proven prem args asm conc l2,
  forallb (fun e => negb (is_step (snd e))) l = true ->
  l ++ l0 = l1 ++ (lv, EvStep name rule proven prem args asm conc) :: l2 ->
  exists l1', l0 = l1' ++ (lv, EvStep name rule proven prem args asm conc) :: l2.
Proof.
  induction l as [|e l IH]; intros l0 l1 lv name rule proven prem args asm conc l2 H E; [exists l1; exact E|].
  cbn [forallb] in H. apply andb_prop in H. destruct H as [H1 H2]. destruct l1 as [|e' l1]; cbn [app] in E; injection E as E1 E.
  - subst e. discriminate H1.
  - exact (IH _ _ _ _ _ _ _ _ _ _ _ H2 E).
Qed.
Lemma JS_keep s s' : MR s s' -> WT G s' -> JS s -> JS s'.
Proof.
  intros [(l & L & N) [A RC]] HW (W & A' & RC' & H). split; [exact HW|]. split; [exact (A A')|]. split; [exact (RC RC')|].
  intros l1 lv name rule proven prem args asm conc l2 E. rewrite L in E.
  destruct (nostep_split _ _ _ _ _ _ _ _ _ _ _ _ N E) as (l1' & E'). exact (H _ _ _ _ _ _ _ _ _ _ E').
Qed.

Lemma step_JS (ok : list (nat * event) -> Prop) sig b p u p' : (forall a b, ok (a ++ b) -> ok b) -> (forall l, ok l -> no_reset l) ->
  cmdStep G sig b p = Ok (u, p') -> WT G (snd p') -> ok (s_log (snd p')) -> JS (snd p) -> JS (snd p').
Proof.
  intros OT ON H W' O (W & A & RC & HS). apply cmdStep_read in H.
  destruct H as (name & rule & proven & prem & args & q & conc & asm & q' & H1 & (H2 & HTY & HPRV) & H3).
  destruct (notifyStep_pure G _ _ _ _ _ _ _ _ H2) as [-> NS].
  pose proof (MR_step sig b _ _ _ H1) as M1.
  assert (X : s_log (snd p') = (length (s_asmctx (snd p')), EvStep name rule proven prem args asm conc) :: s_log (snd q) /\
              s_marks (snd p') = s_marks (snd q) /\ s_types (snd p') = s_types (snd q) /\ s_lits (snd p') = s_lits (snd q)).
  { mstep H3 as x q1 E1. mstep H3 as y q2 E2. apply mupd_ok in E2.
    assert (B : s_log (snd p') = s_log (snd q2) /\ s_marks (snd p') = s_marks (snd q2) /\ s_asmctx (snd p') = s_asmctx (snd q2) /\
      s_types (snd p') = s_types (snd q2) /\ s_lits (snd p') = s_lits (snd q2)).
    { clear - H3. unfold bindM, bindState in H3. mstep H3 as ok p16 E16. mstep E16 as s p17 E17. mstate E17.
      destruct (bind_sym _ _ _ _) as [c|].
      - mstep E16 as w p18 E18. apply mupd_ok in E18. apply mret_ok in E16. destruct E16 as [-> ->].
        apply mret_ok in H3. destruct H3 as [_ ->]. subst p18. cbn [snd set_scope s_log s_marks s_asmctx s_types s_lits]. auto.
      - apply mret_ok in E16. destruct E16 as [-> ->]. discriminate H3. }
    assert (C : s_log (snd q1) = s_log (snd q) /\ s_marks (snd q1) = s_marks (snd q) /\ s_types (snd q1) = s_types (snd q) /\ s_lits (snd q1) = s_lits (snd q)).
    { clear - E1. destruct b; [|apply mret_ok in E1; destruct E1 as [_ ->]; auto]. unfold popAssumptionScope in E1.
      mstep E1 as s p1 E2. mstate E2. destruct (s_asmctx (snd q)); [discriminate E1|].
      mstep E1 as u p2 E2. apply mupd_ok in E2. unfold popM in E1. mstep E1 as s p3 E3. mstate E3.
      mstep E1 as c p3 E3. apply mlift_ok in E3. destruct E3 as [_ ->]. apply mupd_ok in E1. subst p2 q1. cbn. auto. }
    destruct B as (B1 & B2 & B3 & B4 & B5), C as (C1 & C2 & C3 & C4). subst q2. cbn [snd set_log s_log s_marks s_asmctx s_types s_lits] in *.
    rewrite B1, B2, B3, B4, B5, C1, C2, C3, C4. auto. }
  destruct X as (XL & XM & XT & XK).
  assert (Oq : ok (s_log (snd q))) by (rewrite XL in O; exact (OT [_] _ O)).
  destruct (step_QT G ok OT HC _ _ _ _ _ _ _ _ _ _ _ H1 H2 W Oq) as (Wq & _ & HP & HA & HQC). specialize (HQC _ _ eq_refl).
  assert (HPV : tkind rule = K_PROOF_RULE /\ QT proven).
  { destruct W as [d I]. destruct (readStep_T G TT 0 ok HC TT_levels (TT_log G ok OT) sig d b _ _ _ I Oq H1) as (_ & B & C & _). auto. }
  destruct M1 as [(l & L & N) [AM RM]].
  assert (Aq : agree (snd q)) by (apply AM; exact A).
  assert (Rq : recorded (snd q)) by (apply RM; exact RC).
  split; [exact W'|]. split; [|split; [apply (recorded_same (snd q) _ [(length (s_asmctx (snd p')), EvStep name rule proven prem args asm conc)]); auto|]].
  - destruct Aq as (A2 & A3). unfold agree, events. rewrite XL, XM. cbn [map snd In]. split.
    + intros v a ct E1 E2. right. exact (A2 _ _ _ E1 E2).
    + intros v a ct E1 E2. right. exact (A3 _ _ _ E1 E2).
  - intros l1 lv name' rule' proven' prem' args' asm' conc' l2 E. rewrite XL in E. destruct l1 as [|e l1]; cbn [app] in E.
    + injection E as <- <- <- <- <- <- <- <- <-. exists (snd q), (fst q), b. split; [exact Rq|]. split; [exact Wq|]. split; [exact Aq|].
      split; [apply HPV|]. split; [exact HP|]. split; [exact HA|]. split; [apply HPV|]. split; [exact HQC|].
      split; [|split; [exact HPRV | apply NS]]. destruct HTY as (ty & HTY & KB). exists ty. split; [|exact KB].
      exact (typeCheck_type _ _ _ _ HTY).
    + injection E as _ E. rewrite L in E. destruct (nostep_split _ _ _ _ _ _ _ _ _ _ _ _ N E) as (l1' & E'). exact (HS _ _ _ _ _ _ _ _ _ _ E').
Qed.
Lemma JS_command sig r inc c p u p' : is_include c = false -> JS (snd p) -> no_reset (s_log (snd p')) ->
  runCommand G sig r inc c p = Ok (u, p') -> JS (snd p').
Proof.
  intros IC HJ O1 E.
  assert (W' : WT G (snd p')) by exact (proj1 (keepsW_command G no_reset no_reset_tail (fun _ h => h) HC sig r inc c IC p u p' E (proj1 HJ) O1)).
  destruct (is_step_command c) eqn:SC.
  - destruct c; try discriminate SC; cbn [runCommand] in E;
      exact (step_JS no_reset _ _ _ _ _ no_reset_tail (fun _ h => h) E W' O1 HJ).
  - exact (JS_keep _ _ (MR_command sig r inc c IC SC _ _ _ E) W' HJ).
Qed.
Lemma JS_expr sig p t p' : JS (snd p) -> no_reset (s_log (snd p')) -> parseExpr G sig (g_fuel G) p = Ok (t, p') -> JS (snd p').
Proof.
  intros HJ O1 E. refine (JS_keep _ _ (MR_pe sig _ _ _ E) _ HJ).
  assert (K : keepsW G no_reset (parseExpr G sig (g_fuel G)) QT).
  { apply keepsW_T. intros d. apply (parseExpr_T G TT 0 no_reset HC TT_levels (TT_log G no_reset no_reset_tail)). }
  exact (proj1 (K _ _ _ E (proj1 HJ) O1)).
Qed.
Lemma JS_include s0 path r nf incl inp : JS s0 ->
  JS (set_log ((0%nat, EvInclude path r nf) :: s_log s0) (set_input inp (set_refNf nf (set_hasRef r (set_incl incl s0))))).
Proof.
  intros HJ. refine (JS_keep s0 _ _ _ HJ).
  - eapply (MR_same s0 _ [_]); try reflexivity; [auto|]. eapply (recorded_same s0 _ [_]); reflexivity.
  - destruct (proj1 HJ) as [d I]. exists d. apply (InvT_upd G d s0); auto; try gro. exact (iv_asm _ _ _ _ _ I).
Qed.
Lemma JS_input s0 inp : JS s0 -> JS (set_input inp s0).
Proof.
  intros HJ. refine (JS_keep s0 _ _ _ HJ).
  - apply (MR_same s0 _ []); try reflexivity; [auto|]. apply (recorded_same s0 _ []); reflexivity.
  - destruct (proj1 HJ) as [d I]. exists d. apply (InvT_upd G d s0); auto; try gro. exact (iv_asm _ _ _ _ _ I).
Qed.
Lemma JS_init o : JS (st_init o).
Proof.
  split; [exists 0%nat; apply Inv_init|]. split; [apply agree_init|]. split; [apply recorded_init|].
  intros l1 lv name rule proven prem args asm conc l2 E. destruct l1; discriminate E.
Qed.
Theorem run_JS o incs i v s : run G o incs i = Ok (v, s) -> no_reset (s_log s) -> JS s.
Proof.
  intros H O. apply (run_keeps G no_reset no_reset_tail JS) with (o := o) (incs := incs) (i := i) (v := v); auto.
  - intros sig r inc c p u p' IC HJ O1 E. exact (JS_command _ _ _ _ _ _ _ IC HJ O1 E).
  - intros sig p t p' HJ O1 E. exact (JS_expr _ _ _ _ HJ O1 E).
  - intros s0 path r nf incl inp HJ _ _. now apply JS_include.
  - intros s0 inp HJ. now apply JS_input.
  - apply JS_init.
Qed.
End Steps.

(** ** The conclusion of a step *)
Lemma twf_Q t : twf t <-> Q (fun _ => None) (fun _ => True) t.
Proof.
  split; [|apply Q_twf]. intros H. induction t as [t IH] using size_ind. destruct H as [k i K | l | k cs K1 K2 C].
  - apply q_sym; [exact K|]. intros _ n t E. discriminate E.
  - apply q_lit.
  - apply q_node; [unfold nodek; now rewrite K1, K2 | | intros _; apply Forall_forall; auto].
    rewrite Forall_forall in *. intros c I. apply IH; [|exact (C c I)]. exact (tsize_child c (Node k cs) I).
Qed.
Lemma env_ok_twf G s : coherent G -> typed_variables G -> WT G s -> env_ok (fun _ => None) (fun _ => True) (env_of G s).
Proof.
  intros HC TV (d & I). pose proof (env_ok_of G TT 0 HC TT_levels d s I) as E.
  assert (W : forall t, Q (g_varinfo G) (fun _ => True) t -> Q (fun _ => None) (fun _ => True) t).
  { intros t H. apply twf_Q. exact (Q_twf _ _ _ H). }
  destruct E as [E1 E2 E3 E4 E5 E6 E7 E8 E9 E10 E11]. constructor; try assumption; try (apply W; assumption).
  - intros k i t H X. destruct (kind_eqb k K_VARIABLE) eqn:K.
    + apply kind_eqb_eq in K. subst k. cbn [env_of e_symtype] in X.
      destruct (g_varinfo G i) as [[m u]|] eqn:Y; [|discriminate X]. injection X as <-. apply twf_Q. exact (TV _ _ _ Y).
    + apply W. apply (E1 k i t); [|exact X]. inversion H; subst. apply q_sym; [assumption|]. intros ->. discriminate K.
  - intros t ai c A B C. apply W. exact (E2 t ai c A B C).
  - intros t ai c A B C. destruct (E3 t ai c A B C) as [X Y]. split.
    + revert X. apply Forall_impl. intros c' H r R. apply W. exact (H r R).
    + intros Z. apply W. apply Y. intros F. exact Logic.I.
  - intros t ai ov A B. generalize (E5 t ai ov A B). apply Forall_impl. exact W.
  - intros k t A. apply W. exact (E6 k t A).
  - intros n t H. apply q_sym; [reflexivity|]. intros _ m u X. discriminate X.
Qed.

Definition decode (p : term) : list pcase :=
  map (fun c => match tchildren c with l :: r :: _ => (tl (tchildren l), r) | _ => ([], null_term) end) (tchildren p).
Lemma decode_program v cases : decode (program_term v cases) = cases.
Proof.
  unfold decode, program_term. cbn [tchildren]. rewrite map_map. rewrite <- map_id. apply map_ext. intros [ps rhs]. reflexivity.
Qed.
Definition progs_of (s : st) (hd : term) : option (list pcase) :=
  match s_marks s hd with Some (A_PROGRAM, Some p) => Some (decode p) | _ => None end.
Lemma progs_defined s : known s -> recorded s -> defined (events s) (progs_of s).
Proof.
  intros [K _] (_ & R & _) hd cases. unfold progs_of, events. rewrite <- R. split.
  - destruct (s_marks s hd) as [[a ct]|] eqn:M; [|discriminate]. destruct a; try discriminate. destruct ct as [p|]; [|discriminate].
    intros E. injection E as E. destruct (K _ _ M) as (cases' & X). injection X as ->.
    rewrite decode_program in E. now subst cases'.
  - intros ->. now rewrite decode_program.
Qed.
Lemma progs_env G s : known s ->
  forall hd, getProgram (env_of G s) hd = option_map (program_term hd) (progs_of s hd).
Proof.
  intros [K _] hd. unfold getProgram, progs_of. cbn [env_of e_info].
  destruct (s_marks s hd) as [[a ct]|] eqn:M.
  - assert (X : forall k o, match ai_cons (mkInfo a ct k o) with A_PROGRAM => ai_cterm (mkInfo a ct k o) | _ => None end =
        option_map (program_term hd) match a with A_PROGRAM => match ct with Some p => Some (decode p) | None => None end | _ => None end).
    { intros k o. cbn [ai_cons ai_cterm]. destruct a; try reflexivity.
      destruct (K _ _ M) as (cases' & ->). cbn [option_map]. now rewrite decode_program. }
    destruct (builtin_kind hd); try exact (X _ _).
  - destruct (builtin_kind hd), (overloads_of (s_scope s) hd); reflexivity.
Qed.
Lemma progs_wf_of G s : WT G s -> progs_wf (progs_of s).
Proof.
  intros (d & I) hd cases E. unfold progs_of in E.
  destruct (s_marks s hd) as [[a ct]|] eqn:M; [|discriminate E]. destruct a; try discriminate E. destruct ct as [p|]; [|discriminate E].
  injection E as E. destruct (proj1 (iv_known _ _ _ _ _ I) _ _ M) as (cases' & X). injection X as ->. rewrite decode_program in E. subst cases'.
  destruct (proj2 (iv_marks _ _ _ _ _ I _ _ _ M) eq_refl) as [_ QP].
  assert (W : twf (program_term hd cases)) by (apply (Q_twf _ _ _ (QP (fun _ => Logic.I)))).
  unfold program_term in W. inversion W as [| |k cs _ _ WC]; subst. rewrite Forall_map in WC.
  rewrite Forall_forall in *. intros pc In_pc. specialize (WC pc In_pc). unfold case_term in WC.
  inversion WC as [| |k cs _ _ WT2]; subst. inversion WT2 as [|x y WL WR]; subst. inversion WR as [|x' y' WRR _]; subst.
  inversion WL as [| |k cs _ _ WA]; subst. inversion WA; subst. auto.
Qed.
Lemma premise_formulas_spec : forall prem fs, premise_formulas prem = Ok (Some fs) ->
  Forall2 (fun p f => exists r, p = Node K_PROOF (f :: r)) prem fs.
Proof.
  induction prem as [|e prem IH]; intros fs H; cbn [premise_formulas] in H; [injection H as <-; constructor|].
  destruct (kind_eqb (tkind e) K_PROOF) eqn:K; [|discriminate H]. apply kind_eqb_eq in K.
  destruct (vec_at (tchildren e) 0) as [f| | |] eqn:V; cbn [bind] in H; try discriminate H.
  destruct (premise_formulas prem) as [[r|]| | |]; cbn [bind option_map] in H; try discriminate H. injection H as <-.
  constructor; [|now apply IH]. apply vec_at_0 in V. destruct V as (l' & V). exists l'.
  destruct e as [k i | li | k cs]; cbn [tchildren] in V; try discriminate V. cbn [tkind] in K. now subst.
Qed.
Lemma collect_gathered G s l op prem F : collectPremises G op prem (l, s) = Ok (Some F, (l, s)) -> gathered G s op prem F.
Proof.
  intros H. unfold collectPremises in H. mstep H as fs p1 E1. apply mlift_ok in E1. destruct E1 as [E1 ->].
  destruct fs as [fs|]; [|apply mret_ok in H; destruct H as [H _]; discriminate H].
  exists fs. split; [now apply premise_formulas_spec|]. destruct fs as [|f fs].
  - split; [contradiction|]. intros _. mstep H as s0 p1 E2. mstate E2. cbn [snd] in H.
    destruct (e_info (env_of G s) op) as [ai|] eqn:AI; [|discriminate H].
    destruct (isListNilAttr (ai_cons ai)) eqn:LN; [|apply mret_ok in H; destruct H as [H _]; discriminate H].
    apply mret_ok in H. destruct H as [H _]. injection H as ->. apply info_spec in AI. destruct AI as (_ & _ & AI).
    destruct (s_marks s op) as [[a ct]|]; injection AI as X1 X2.
    + exists a, ct. rewrite <- X1, X2. auto.
    + rewrite X1 in LN. discriminate LN.
  - split; [|discriminate]. intros _ l0. mstep H as ap p1 E2. apply mret_ok in H. destruct H as [H _]. injection H as ->.
    pose proof (same_mkE G _ _ _ _ _ E2) as ->. unfold mkE in *. mstep E2 as s0 p2 E3. mstate E3. cbn [snd] in E2.
    apply mlift_ok in E2. destruct E2 as [E2 _]. cbv [mbind mget mlift bind fst snd]. rewrite E2. reflexivity.
Qed.

Theorem step_full : forall G o incs i v s l1 lv name rule proven prem args asm conc l2 op isAsm isExp prog,
  run G o incs i = Ok (v, s) -> coherent G -> typed_variables G -> ~ In EvReset (events s) ->
  s_log s = l1 ++ (lv, EvStep name rule proven prem args asm conc) :: l2 ->
  marks_of (map snd l2) rule = Some (A_PROOF_RULE, Some (Node K_TUPLE [op; Lit (LBool isAsm); Lit (LBool isExp); prog])) ->
  exists s1 progs premises, state_at l2 s1 /\ defined (map snd l2) progs /\
    (WT G s1 /\ known s1 /\ Forall twf args /\ lop_wf (tc_lop (tc (env_of G s1) (g_n G))) /\ progs_wf progs /\
     (exists ty, tc_type (tc (env_of G s1) (g_n G)) conc = Ok (Some ty) /\ tkind ty = K_BOOL_TYPE) /\ (is_null proven = false -> conc = proven)) /\
    (isAsm = true <-> asm <> None) /\ (isExp = true -> is_null proven = false) /\
    (op = t_Any -> premises = prem) /\ (op <> t_Any -> exists F, premises = [Node K_PROOF [F]] /\ gathered G s1 op prem F) /\
    let inputs := args ++ (if isExp then [proven] else []) ++ match asm with Some a => [a] | None => [] end ++ premises in
    (inputs = [] -> conc = prog) /\
    (inputs <> [] -> is_program prog -> exists body f, calls progs prog inputs (Some (body, f)) /\
       ev (tc_lop (tc (env_of G s1) (g_n G))) progs shortcut f body conc /\ inert conc /\ sub_wf f).
Proof.
  intros G o incs i v s l1 lv name rule proven prem args asm conc l2 op isAsm isExp prog H HC TV NR L RD.
  destruct (run_JS G HC _ _ _ _ _ H NR) as (_ & _ & _ & JS'). destruct (JS' _ _ _ _ _ _ _ _ _ _ L) as (s1 & lx & isPop & SA & W & A & KR & QP & QA & QV & QC & HTY & HPV & NS).
  pose proof (proj1 SA) as SL. subst l2.
  assert (NR1 : no_reset (s_log s1)).
  { unfold events in NR. rewrite L in NR. apply (no_reset_tail (l1 ++ [(lv, EvStep name rule proven prem args asm conc)])). rewrite <- app_assoc. exact NR. }
  clear JS' H. change (map snd (s_log s1)) with (events s1) in *.
  assert (KN : known s1) by (destruct W as (d & I); exact (iv_known _ _ _ _ _ I)).
  assert (RM : s_marks s1 rule = Some (A_PROOF_RULE, Some (Node K_TUPLE [op; Lit (LBool isAsm); Lit (LBool isExp); prog])))
    by (rewrite (proj1 (proj2 SA)); exact RD).
  exists s1, (progs_of s1).
  destruct (notifyStep_facts _ _ _ _ _ _ _ _ _ _ NS) as [(ai & t0 & t1 & t2 & prog' & rest & prem' & AI & T & POP & EXP & P1 & P2 & R) AS].
  destruct (env_mark G _ _ _ _ RM) as (ai' & AI' & _ & CT). rewrite AI in AI'. injection AI' as <-. rewrite CT in T. cbn in T.
  injection T as <- <- <- <- <-. exists prem'.
  split; [exact SA|]. split; [exact (progs_defined s1 KN SA)|].
  assert (LW : lop_wf (tc_lop (tc (env_of G s1) (g_n G)))).
  { intros k ds r' D E. apply twf_Q. refine (proj1 (proj2 (tc_Q (fun _ => None) (fun _ => True) (or_intror (fun _ => Logic.I)) _ (env_ok_twf G s1 HC TV W) (g_n G))) k ds r' _ E).
    revert D. apply Forall_impl. intros t. apply twf_Q. }
  split. { split; [exact W|]. split; [exact KN|]. split; [revert QA; apply Forall_impl; intros t; apply Q_twf|]. split; [exact LW|]. split; [exact (progs_wf_of G s1 W)|]. split; [exact HTY | exact HPV]. }
  assert (PQ : isPop = isAsm).
  { destruct isPop, isAsm; try reflexivity; destruct POP as [Q1 Q2];
      [specialize (Q2 eq_refl); discriminate Q2 | specialize (Q1 eq_refl); discriminate Q1]. }
  subst isPop.
  split. { destruct isAsm; [destruct AS as (a & -> & _); split; [discriminate | reflexivity] | subst asm; split; [discriminate | contradiction]]. }
  split. { intros ->. now apply EXP. }
  split; [exact P1|]. split. { intros N. destruct (P2 N) as (l & ap & X & Y). exists ap. split; [exact X|]. exact (collect_gathered _ _ _ _ _ _ Y). }
  intros inputs. assert (X : (if term_eqb (Lit (LBool isExp)) (Lit (LBool true)) then [proven] else []) = if isExp then [proven] else [])
    by (destruct isExp; reflexivity).
  rewrite X in R. fold inputs in R. split; [intros E; destruct R as [[_ R] | [R _]]; [exact R | contradiction]|].
  intros NE IP. destruct R as [[R _] | (_ & IE & r & R & ->)]; [contradiction|].
  assert (WI : Forall twf inputs).
  { assert (F : forall l, Forall (Q (g_varinfo G) (fun _ => True)) l -> Forall twf l).
    { intros l. apply Forall_impl. intros t. apply Q_twf. }
    unfold inputs. apply Forall_app. split; [now apply F|]. apply Forall_app. split; [destruct isExp; [constructor; [exact (Q_twf _ _ _ QV) | constructor] | constructor]|].
    destruct W as (d & I). apply Forall_app. split.
    - destruct isAsm; [|subst asm; constructor]. destruct AS as (a & -> & AS). constructor; [|constructor].
      pose proof (iv_asm _ _ _ _ _ I) as IA. apply F in IA. unfold currentAssumptions in AS. apply vec_at_0 in AS. destruct AS as (l' & AS).
      match type of AS with skipn ?n _ = _ => rewrite <- (firstn_skipn n (s_asm s1)), AS in IA end. apply Forall_app in IA. destruct IA as [_ IA]. now inversion IA.
    - destruct (term_eqb op t_Any) eqn:EA; [apply term_eqb_eq in EA; rewrite (P1 EA); now apply F|].
      destruct P2 as (l & ap & -> & CP); [intros ->; rewrite term_eqb_refl in EA; discriminate EA|].
      constructor; [|constructor]. apply twf_node; [reflexivity | reflexivity | constructor; [|constructor]].
      assert (QO : Q (g_varinfo G) (fun _ => True) op).
      { pose proof (proj1 (iv_marks _ _ _ _ _ I _ _ _ RM) ltac:(discriminate)) as X1.
        inversion X1 as [| |k cs _ C _]; subst. now inversion C. }
      apply (Q_twf (g_varinfo G) (fun _ => True)).
      refine (proj2 (collectPremises_T G TT 0 no_reset HC TT_levels (TT_log G no_reset no_reset_tail) d op prem QO QP (l, s1) (Some ap) (l, s1) I NR1 CP) ap eq_refl). }
  destruct (call_result _ _ _ LW (progs_wf_of G s1 W) (progs_env G s1 KN) _ _ _ _ IP WI R) as [[C ->] | (body & f & v' & C & E & -> & Wv)].
  - exfalso. cbn [or_null] in IE. destruct IP as (n & ->). vm_compute in IE. discriminate IE.
  - exists body, f. cbn [or_null] in *. split; [exact C|]. split; [exact E|]. split; [apply eval_inert; assumption|]. exact (proj2 (calls_wf _ (progs_wf_of G s1 W) _ _ _ _ WI C)).
Qed.
Theorem step_concludes : forall G o incs i v s l1 lv name rule proven prem args asm conc l2 op isAsm isExp prog,
  run G o incs i = Ok (v, s) -> coherent G -> typed_variables G -> ~ In EvReset (events s) ->
  s_log s = l1 ++ (lv, EvStep name rule proven prem args asm conc) :: l2 ->
  marks_of (map snd l2) rule = Some (A_PROOF_RULE, Some (Node K_TUPLE [op; Lit (LBool isAsm); Lit (LBool isExp); prog])) ->
  exists s1 progs premises, state_at l2 s1 /\ defined (map snd l2) progs /\
    (isAsm = true <-> asm <> None) /\ (isExp = true -> is_null proven = false) /\
    (op = t_Any -> premises = prem) /\ (op <> t_Any -> exists F, premises = [Node K_PROOF [F]] /\ gathered G s1 op prem F) /\
    let inputs := args ++ (if isExp then [proven] else []) ++ match asm with Some a => [a] | None => [] end ++ premises in
    (inputs = [] -> conc = prog) /\
    (inputs <> [] -> is_program prog -> exists body f, calls progs prog inputs (Some (body, f)) /\
       ev (tc_lop (tc (env_of G s1) (g_n G))) progs shortcut f body conc /\ inert conc).
Proof.
  intros G o incs i v s l1 lv name rule proven prem args asm conc l2 op isAsm isExp prog H HC TV NR L RD.
  destruct (step_full _ _ _ _ _ _ _ _ _ _ _ _ _ _ _ _ _ _ _ _ H HC TV NR L RD) as (s1 & progs & premises & SA & D & _ & H1 & H2 & H3 & H4 & H5 & H6).
  exists s1, progs, premises. split; [exact SA|]. split; [exact D|]. split; [exact H1|]. split; [exact H2|]. split; [exact H3|]. split; [exact H4|].
  split; [exact H5|]. intros N IP. destruct (H6 N IP) as (body & f & X & Y & Z & _). exists body, f. auto.
Qed.

(** The rule of a step was declared before it. *)
Theorem step_declared : forall G o incs i v s l1 lv name rule proven prem args asm conc l2,
  run G o incs i = Ok (v, s) -> coherent G -> ~ In EvReset (events s) ->
  s_log s = l1 ++ (lv, EvStep name rule proven prem args asm conc) :: l2 ->
  tkind rule = K_PROOF_RULE /\ exists a ct, In (EvMark rule a (Some ct)) (map snd l2).
Proof.
  intros G o incs i v s l1 lv name rule proven prem args asm conc l2 H HC NR L.
  destruct (run_JS G HC _ _ _ _ _ H NR) as (_ & _ & _ & JS'). destruct (JS' _ _ _ _ _ _ _ _ _ _ L) as (s1 & lx & isPop & SA & W & A & KR & _ & _ & _ & _ & _ & _ & NS).
  pose proof (proj1 SA) as SL. subst l2. split; [exact KR|].
  destruct (notifyStep_facts _ _ _ _ _ _ _ _ _ _ NS) as [(ai & t0 & t1 & t2 & prog' & rest & prem' & AI & T & _) _].
  apply info_spec in AI. destruct AI as (_ & _ & AI). destruct (s_marks s1 rule) as [[a ct]|] eqn:M; injection AI as _ X; rewrite X in T.
  - destruct ct as [ct|]; [|discriminate T]. exists a, ct. exact (proj2 A _ _ _ M KR).
  - discriminate T.
Qed.
