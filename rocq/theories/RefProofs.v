(** Reference assertions and the assumptions compared with them, for whole runs. *)
From Coq Require Import String ZArith List Bool Lia.
From Verif Require Import Base Kind Ints Str Literal Arity Term TermProofs Match Eval ListOps Typing Build Scope SpecScope ScopeProofs Lexer Parse Check
  SpecTerm SpecEval SpecCheck FrontProofs CheckProofs CheckProofs2 InvProofs InvProofs2 StepProofs.
Import ListNotations.
Open Scope Z_scope.

Section Ref.
Variable G : config.
Notation asserted_as := (asserted_as G).
Record JR (s : st) : Prop := {
  jr_rec : recorded s;
  jr_nf : match processed (events s) with
          | [] => s_hasRef s = false /\ s_refNf s = null_term
          | (_, r, nf) :: _ => s_hasRef s = r /\ s_refNf s = nf
          end;
  jr_refs : forall F', In F' (s_refs s) -> asserted_as (s_log s) F';
  jr_all : forall l1 lv A l2, s_log s = l1 ++ (lv, EvAssert A) :: l2 -> exists F', In F' (s_refs s) /\ compared_as G l2 A F';
  jr_asm : forall l1 name F l2, s_log s = l1 ++ (O, EvAssume name F false) :: l2 -> in_reference (map snd l2) ->
    exists F', compared_as G l2 F F' /\ asserted_as l2 F' }.
Definition JRR (s s' : st) : Prop := JR s -> JR s'.
Definition is_ref (e : event) : bool := match e with EvAssert _ | EvAssume _ _ _ | EvInclude _ _ _ => true | _ => false end.
Lemma asserted_as_app l l' F' : asserted_as l' F' -> asserted_as (l ++ l') F'.
Proof. intros (l1 & lv & A & l2 & -> & C). exists (l ++ l1), lv, A, l2. rewrite <- app_assoc. auto. Qed.
Lemma plain_split (l : list (nat * event)) : forall l0 l1 lv e l2, forallb (fun e => negb (is_ref (snd e))) l = true -> is_ref e = true ->
  l ++ l0 = l1 ++ (lv, e) :: l2 -> exists l1', l0 = l1' ++ (lv, e) :: l2.
Proof.
  induction l as [|x l IH]; intros l0 l1 lv e l2 H R E; [exists l1; exact E|].
  cbn [forallb] in H. apply andb_prop in H. destruct H as [H1 H2]. destruct l1 as [|x' l1]; cbn [app] in E; injection E as E1 E.
  - subst x. cbn [snd] in H1. rewrite R in H1. discriminate H1.
  - exact (IH _ _ _ _ _ H2 R E).
Qed.
Lemma JR_same s s' l : s_log s' = l ++ s_log s -> forallb (fun e => negb (is_ref (snd e))) l = true ->
  s_hasRef s' = s_hasRef s -> s_refNf s' = s_refNf s -> s_refs s' = s_refs s -> (recorded s -> recorded s') -> JRR s s'.
Proof.
  intros L N H1 H2 H3 RC [A B C D E].
  assert (P : processed (events s') = processed (events s)).
  { unfold events. rewrite L. clear - N. induction l as [|[n e] l IH]; [reflexivity|]. cbn [forallb snd] in N. apply andb_prop in N. destruct N as [N1 N2].
    destruct e; try discriminate N1; exact (IH N2). }
  constructor.
  - exact (RC A).
  - rewrite P, H1, H2. exact B.
  - intros F' I. rewrite H3 in I. rewrite L. apply asserted_as_app. exact (C _ I).
  - intros l1 lv A' l2 X. rewrite L in X. destruct (plain_split _ _ _ _ (EvAssert _) _ N eq_refl X) as (l1' & Y). rewrite H3. exact (D _ _ _ _ Y).
  - intros l1 name F l2 X. rewrite L in X. destruct (plain_split _ _ _ _ (EvAssume _ _ _) _ N eq_refl X) as (l1' & Y). exact (E _ _ _ _ Y).
Qed.
Lemma JR_reading : reading JRR.
Proof.
  constructor.
  - constructor; unfold JRR; auto.
  - intros s c. apply (JR_same s _ []); try reflexivity. apply (rd_scope _ recorded_reading).
  - intros s k name ty. eapply (JR_same s _ [_]); try reflexivity. apply (rd_symbol _ recorded_reading).
  - intros s m v a ct MK. eapply (JR_same s _ [_]); try reflexivity. apply (rd_mark _ recorded_reading). exact MK.
  - intros s e. eapply (JR_same s _ [_]); try reflexivity. apply (rd_sorry _ recorded_reading).
  - intros. eapply (JR_same _ _ [_]); try reflexivity. apply (rd_rule _ recorded_reading).
Qed.
Lemma JR_po : preorder_st JRR.
Proof. exact (rd_po _ JR_reading). Qed.
Lemma JR_log e : is_ref e = false -> is_fact e = false -> pres JRR (logEvent e).
Proof.
  intros A B. apply pres_upd. intros s. apply (JR_same s _ [(length (s_asmctx s), e)]); try reflexivity; cbn [forallb snd]; rewrite ?A; try reflexivity.
  apply (recorded_same s _ [(length (s_asmctx s), e)]); try reflexivity. cbn [forallb snd]. now rewrite B.
Qed.
Lemma JR_upd f : (forall s, (s_log (f s) = s_log s /\ s_marks (f s) = s_marks s /\ s_types (f s) = s_types s /\ s_lits (f s) = s_lits s) /\
    s_hasRef (f s) = s_hasRef s /\ s_refNf (f s) = s_refNf s /\ s_refs (f s) = s_refs s) -> pres JRR (mupd f).
Proof.
  intros H. apply pres_upd. intros s. destruct (H s) as ((A & B & C & D) & E & F & K). apply (JR_same s _ []); auto.
  apply (recorded_same s _ []); auto.
Qed.
Lemma JR_lits k t : pres JRR (let! s := mget in let! m := mlift (setLiteralTypeRule (s_lits s) k t) in
  mupd (set_lits m) ;; logEvent (EvLiteral k t) ;; popM).
Proof.
  intros p u p' H. mstep H as s p1 E. mstate E. mstep H as m p2 E. apply mlift_ok in E. destruct E as [E ->].
  mstep H as x p3 E1. apply mupd_ok in E1. subst p3. mstep H as y p4 E1. apply mupd_ok in E1. subst p4.
  refine (po_trans _ JR_po _ _ _ _ (pres_pop JRR JR_reading _ _ _ H)).
  eapply (JR_same _ _ [_]); try reflexivity. intros RC. exact (recorded_lits _ _ _ _ _ E RC).
Qed.
(** The normal form of a formula. *)
Lemma jr_normalizer s : JR s -> s_refNf s = normalizer (events s).
Proof. intros [_ B _ _ _]. unfold normalizer. destruct (processed (events s)) as [|[[f r] nf] rest]; apply B. Qed.
Lemma normalForm_compared F p F' p' l : normalForm G F p = Ok (F', p') -> state_at l (set_log l (snd p)) ->
  s_refNf (snd p) = normalizer (map snd l) -> p' = p /\ compared_as G l F F'.
Proof.
  intros H SA NF. destruct p as [l0 s0]. cbn [snd] in *. unfold normalForm in H. mstep H as s p1 E. mstate E. unfold compared_as. rewrite <- NF.
  cbn [snd] in H. destruct (is_null (s_refNf s0)).
  - apply mret_ok in H. destruct H as [-> ->]. auto.
  - unfold mkE in H. mstep H as s p1 E. mstate E. apply mlift_ok in H. destruct H as [E ->]. split; [reflexivity|].
    exists (set_log l s0). split; [exact SA|]. intros lx. cbv [mkE mbind mget mlift bind fst snd] in E |- *.
    change (env_of G (set_log l s0)) with (env_of G s0). now rewrite E.
Qed.
Lemma state_at_log s : recorded s -> forall l, l = s_log s -> forall s', s_marks s' = s_marks s -> s_types s' = s_types s -> s_lits s' = s_lits s ->
  state_at l (set_log l s').
Proof. intros (_ & A & B & C) l -> s' E1 E2 E3. split; [reflexivity|]. cbn [set_log s_marks s_types s_lits]. rewrite E1, E2, E3. auto. Qed.
Lemma JR_assert F : pres JRR (addReferenceAssert G F).
Proof.
  intros p u p' H J. unfold addReferenceAssert in H. mstep H as aa p1 E1.
  apply (normalForm_compared _ _ _ _ (s_log (snd p))) in E1; [| | exact (jr_normalizer _ J)].
  2:{ apply (state_at_log _ (jr_rec _ J)); reflexivity. }
  destruct E1 as [-> CA]. mstep H as x p2 E2. apply mupd_ok in E2. subst p2. apply mupd_ok in H. subst p'. cbn [snd].
  destruct J as [A B C D E]. constructor; cbn [set_log set_refs s_log s_refs s_hasRef s_refNf events map snd].
  - eapply (recorded_same (snd p) _ [_]); try reflexivity. exact A.
  - exact B.
  - intros F' [<- | I]; [|apply (asserted_as_app [_]); exact (C _ I)]. exists []. do 3 eexists. split; [reflexivity | exact CA].
  - intros l1 lv A' l2 X. destruct l1 as [|y l1]; cbn [app] in X; [injection X as X0 X1 X2 | injection X as X1 X2].
    + subst A' l2. exists aa. split; [now left | exact CA].
    + destruct (D _ _ _ _ X2) as (F' & I & K). exists F'. split; [now right | exact K].
  - intros l1 name F0 l2 X. destruct l1 as [|y l1]; cbn [app] in X; [discriminate X|]; injection X as X1 X2. exact (E _ _ _ _ X2).
Qed.
Lemma JR_pe sig : pres JRR (parseExpr G sig (g_fuel G)).
Proof. apply pres_parseExpr. exact JR_reading. Qed.
Hint Resolve JR_reading JR_pe : core.
Lemma JR_assume sig b : pres JRR (cmdAssume G sig b).
Proof.
  intros p u p' H. unfold cmdAssume in H. mstep H as name p1 E1. mstep H as F p2 E2. mstep H as x p3 E3. mstep H as y p4 E4.
  mstep H as z p5 E5. apply mupd_ok in E5. mstep H as ok p6 E6. destruct ok; [|discriminate H]. apply mret_ok in H. destruct H as [_ ->].
  refine (po_trans _ JR_po _ _ _ (pres_parseSymbol JRR JR_reading _ _ _ E1) _).
  refine (po_trans _ JR_po _ _ _ (pres_parseFormula JRR JR_reading G _ (JR_pe sig) _ _ _ E2) _).
  assert (K : JRR (snd p2) (snd p4)).
  { apply (po_trans _ JR_po) with (snd p3); [|exact (pres_bindM JRR JR_reading _ _ _ _ _ E4)].
    unfold notifyAssume, pushAssumptionScope in E3. destruct b; [|apply mret_ok in E3; destruct E3 as [_ ->]; apply JR_po].
    mstep E3 as x' q E. apply mupd_ok in E. apply mupd_ok in E3. subst p3 q. cbn [snd].
    apply (JR_same (snd p2) _ []); try reflexivity. apply (recorded_same (snd p2) _ []); reflexivity. }
  apply (po_trans _ JR_po) with (1 := K). clear p1 p2 p3 E1 E2 E3 E4 K. intros J.
  unfold addAssumption in E6. mstep E6 as w q E7. apply mupd_ok in E7. subst q p5. mstep E6 as s q E. mstate E. cbn [fst snd set_asm set_log s_hasRef s_asmctx] in E6.
  assert (X : exists lv, lv = length (s_asmctx (snd p4)) /\ snd p6 = set_asm (s_asm (snd p4) ++ [F]) (set_log ((lv, EvAssume name F b) :: s_log (snd p4)) (snd p4)) /\
     (lv = O -> s_hasRef (snd p4) = true -> exists F', compared_as G (s_log (snd p4)) F F' /\ In F' (s_refs (snd p4)))).
  { eexists. split; [reflexivity|]. destruct (s_hasRef (snd p4)) eqn:HR.
    - destruct (s_asmctx (snd p4)) as [|n c] eqn:CX.
      + mstep E6 as aa q E. apply (normalForm_compared _ _ _ _ (s_log (snd p4))) in E; [| | exact (jr_normalizer _ J)].
        2:{ apply (state_at_log _ (jr_rec _ J)); reflexivity. }
        destruct E as [-> CA]. apply mret_ok in E6. destruct E6 as [E6 ->]. cbn [snd set_asm set_log s_refs] in E6 |- *. split; [reflexivity|].
        intros _ _. exists aa. split; [exact CA|]. symmetry in E6. apply existsb_exists in E6. destruct E6 as (y' & I & Q).
        apply term_eqb_eq in Q. now subst y'.
      + apply mret_ok in E6. destruct E6 as [_ ->]. cbn [snd]. split; [reflexivity|]. discriminate.
    - apply mret_ok in E6. destruct E6 as [_ ->]. cbn [snd]. split; [reflexivity|]. discriminate. }
  destruct X as (lv & LV & -> & KEY). clear E6 LV. destruct J as [A B C D E].
  constructor; cbn [set_asm set_log s_log s_refs s_hasRef s_refNf events map snd].
  - eapply (recorded_same (snd p4) _ [_]); try reflexivity. exact A.
  - exact B.
  - intros F' I. apply (asserted_as_app [_]). exact (C _ I).
  - intros l1 lv' A' l2 X. destruct l1 as [|y' l1]; cbn [app] in X; [discriminate X | injection X as X1 X2; exact (D _ _ _ _ X2)].
  - intros l1 name' F0 l2 X IR. destruct l1 as [|y' l1]; cbn [app] in X; [injection X as X1 X2 X3 X4 X5 | injection X as X1 X2; exact (E _ _ _ _ X2 IR)].
    subst. destruct IR as (f & nf & rest & IR). unfold events in B. rewrite IR in B.
    destruct (KEY eq_refl (proj1 B)) as (F' & CA & I). exists F'. split; [exact CA | exact (C _ I)].
Qed.

Ltac jr_cmd := lazymatch goal with
  | |- pres _ (cmdAssume _ _ _) => apply JR_assume
  | |- pres _ (addReferenceAssert _ _) => apply JR_assert
  | |- pres _ (cmdDeclare _ _ _) => apply pres_cmdDeclare; auto
  | |- pres _ (cmdDatatypes _ _ _) => apply pres_cmdDatatypes; auto
  | |- pres _ (cmdDeclareRule _ _) => apply pres_cmdDeclareRule; auto
  | |- pres _ cmdDeclareSort => apply pres_cmdDeclareSort; auto
  | |- pres _ (cmdDefineConst _ _) => apply pres_cmdDefineConst; auto
  | |- pres _ (cmdDefineSort _ _) => apply pres_cmdDefineSort; auto
  | |- pres _ (cmdProgram _ _) => apply pres_cmdProgram; auto
  | |- pres _ (normalForm _ _) => apply pres_normalForm; auto
  | |- pres _ (notifyStep _ _ _ _ _ _) => apply pres_notifyStep; auto
  | |- pres _ (mkSymbol _ _ _) => apply pres_symbol; auto
  | |- pres _ (bindM _ _) => apply pres_bindM; auto
  | |- pres _ (bindState _ _) => apply pres_bindState; auto
  | |- pres _ pushM => apply pres_push; auto
  | |- pres _ popM => apply pres_pop; auto
  | |- pres _ (popN _) => apply pres_popN; auto
  | |- pres _ (mkE _ _ _) => apply pres_mkE; auto
  | |- pres _ (typeOf _ _) => apply pres_typeOf; auto
  | |- pres _ (typeCheck _ _) => apply pres_typeCheck; auto
  | |- pres _ (typeCheckAs _ _ _) => apply pres_typeCheckAs; auto
  | |- pres _ (getVarM _) => apply pres_getVar; auto
  | |- pres _ (getProofRuleM _) => apply pres_getProofRule; auto
  | |- pres _ (consTermOf _ _) => apply pres_consTermOf; auto
  | |- pres _ (mkBinderList _ _ _) => apply pres_mkBinderList; auto
  | |- pres _ (processAttributeMaps _) => apply pres_processAttributeMaps; auto
  | |- pres _ parseSymbol => apply pres_parseSymbol; auto
  | |- pres _ parseKeyword => apply pres_parseKeyword; auto
  | |- pres _ parseIntegerNumeral => apply pres_parseIntegerNumeral; auto
  | |- pres _ parseStr => apply pres_parseStr; auto
  | |- pres _ parseLiteralKind => apply pres_parseLiteralKind; auto
  | |- pres _ (parseSymbolicExpr _) => apply pres_parseSymbolicExpr; auto
  | |- pres _ (parseType _ _ _ _) => apply pres_parseType; auto
  | |- pres _ (parseFormula _ _) => apply pres_parseFormula; auto
  | |- pres _ (parseExprList _ _) => apply pres_parseExprList; auto
  | |- pres _ (parseTypeList _ _ _) => apply pres_parseTypeList; auto
  | |- pres _ (parseAttributeList _ _ _ _ _) => apply pres_parseAttributeList; auto
  | |- pres _ (parseVarListMap _ _ _) => apply pres_parseVarListMap; auto
  | |- pres _ (parseVarList _ _ _) => apply pres_parseVarList; auto
  | |- pres _ (parseExpr _ _ _) => apply pres_parseExpr; auto
  end.
Ltac jr := pose proof JR_po; repeat first [assumption | apply JR_lits | jr_cmd | pres_step
  | apply JR_log; reflexivity | apply JR_upd; intros; first [repeat split; reflexivity | destruct (setOption _ _ _); repeat split; reflexivity]].
Lemma JR_command sig r inc c : is_include c = false -> pres JRR (runCommand G sig r inc c).
Proof.
  intros N. pose proof (JR_pe sig) as K. destruct c; try discriminate N; cbn [runCommand];
    unfold cmdDefine, cmdReset, cmdPushPop, cmdStep, popAssumptionScope, levelM, cmdEcho, cmdSetOption, cmdDeclareConsts; jr.
Qed.
Theorem run_JR o incs i v s : run G o incs i = Ok (v, s) -> JR s.
Proof.
  intros H. apply (run_keeps G (fun _ => True) (fun _ _ _ => Logic.I) JR) with (o := o) (incs := incs) (i := i) (v := v); auto.
  - intros sig r inc c p u p' IC J _ E. exact (JR_command sig r inc c IC _ _ _ E J).
  - intros sig p t p' J _ E. exact (JR_pe sig _ _ _ E J).
  - intros s0 path r nf incl inp [A B C D E] _ _. constructor; cbn [set_log set_refNf set_hasRef set_incl set_input s_log s_refs s_hasRef s_refNf events map snd].
    + eapply (recorded_same s0 _ [_]); try reflexivity. exact A.
    + cbn [processed flat_map app]. auto.
    + intros F' I. apply (asserted_as_app [_]). exact (C _ I).
    + intros l1 lv A' l2 X. destruct l1 as [|y l1]; cbn [app] in X; [discriminate X | injection X as X1 X2; exact (D _ _ _ _ X2)].
    + intros l1 name F0 l2 X. destruct l1 as [|y l1]; cbn [app] in X; [discriminate X | injection X as X1 X2; exact (E _ _ _ _ X2)].
  - intros s0 inp J. revert J. apply (JR_same s0 _ []); try reflexivity. apply (recorded_same s0 _ []); reflexivity.
  - constructor; try (intros; destruct l1; discriminate).
    + apply recorded_init.
    + cbn. auto.
    + intros F' [].
Qed.
Theorem accepts_asserted o incs i v s l F : run G o incs i = Ok (v, s) -> s_asmctx s = [] -> in_reference (events s) ->
  (forall x, In x (processed (events s)) -> is_null (snd x) = true) ->
  exists b p', addAssumption G F (l, s) = Ok (b, p') /\ (b = true <-> In F (asserted (events s))).
Proof.
  intros H CX (f & nf & rest & IR) NN. pose proof (run_JR _ _ _ _ _ H) as J. pose proof (jr_nf _ J) as B. rewrite IR in B. destruct B as [B1 B2].
  assert (NU : is_null (s_refNf s) = true). { rewrite B2. apply (NN (f, true, nf)). rewrite IR. now left. }
  assert (CA : forall l1 e l2 A F', s_log s = l1 ++ e :: l2 -> compared_as G l2 A F' -> F' = A).
  { intros l1 e l2 A F' L C. unfold compared_as in C.
    assert (X : is_null (normalizer (map snd l2)) = true).
    { unfold normalizer. destruct (processed (map snd l2)) as [|[[f' r'] nf'] rest'] eqn:P; [reflexivity|]. apply (NN (f', r', nf')).
      unfold events, processed. rewrite L, map_app, flat_map_app. apply in_or_app. right. cbn [map flat_map]. apply in_or_app. right.
      unfold processed in P. rewrite P. now left. }
    rewrite X in C. exact C. }
  cbv [addAssumption mbind mupd mget bind fst snd]. cbn [set_asm s_hasRef s_asmctx s_refs s_refNf]. rewrite B1, CX.
  cbv [normalForm mbind mget bind fst snd]. cbn [set_asm s_hasRef s_asmctx s_refs s_refNf]. rewrite NU. cbv [mret].
  do 2 eexists. split; [reflexivity|]. rewrite existsb_exists. split.
  - intros (y & I & E). apply term_eqb_eq in E. subst y. destruct (jr_refs _ J _ I) as (l1 & lv & A & l2 & L & C).
    rewrite (CA _ _ _ _ _ L C). unfold events, asserted. rewrite L, map_app, flat_map_app. apply in_or_app. right. now left.
  - intros I. unfold asserted in I. apply in_flat_map in I. destruct I as (e & I & E).
    assert (X : e = EvAssert F).
    { destruct e; try (match type of E with In _ (if ?b then _ else _) => destruct b end); try destruct E as [<- | []]; try destruct E. reflexivity. }
    subst e. unfold events in I. apply in_map_iff in I. destruct I as ([lv e] & E1 & I). cbn [snd] in E1. subst e.
    destruct (in_split _ _ I) as (l1 & l2 & L). destruct (jr_all _ J _ _ _ _ L) as (F' & I' & C).
    rewrite (CA _ _ _ _ _ L C) in I'. exists F. split; [exact I' | apply term_eqb_refl].
Qed.
End Ref.
