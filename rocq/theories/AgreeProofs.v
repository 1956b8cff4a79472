(** Types and values depend on the symbols that terms are made of only: proofs. *)
From Coq Require Import ZArith List Bool Lia.
From Verif Require Import Base Kind Ints Str Literal Arity Term Match Eval ListOps Typing SpecEnv SpecMade TermProofs MadeProofs.
Import ListNotations.

Lemma bind_ok_same {A B} (e e' : res A) (f f' : A -> res B) : e' = e -> (forall x, e = Ok x -> f' x = f x) -> bind e' f' = bind e f.
Proof. intros -> H. destruct e; cbn; auto. Qed.

Section Agree.
Variable Sy : kind -> Z -> Prop.
Variable var : Z -> option (text * term).
Notation Q := (made_of Sy var).
Notation ctxQ := (values_made_of Sy var).

Section Ev.
Variables lop lop' : kind -> list term -> res (option term).
Variables prog prog' : term -> option term.
Hypothesis lopQ : forall k ds r, isLiteralOp k = true -> Forall Q ds -> lop k ds = Ok (Some r) -> Q r.
Hypothesis programQ : forall h p, Q h -> prog h = Some p -> Q p.
Hypothesis lopS : forall k ds, Forall Q ds -> lop' k ds = lop k ds.
Hypothesis progS : forall h, Q h -> prog' h = prog h.

Lemma programInternal_agree cs : Forall Q cs -> evaluateProgramInternal prog' cs = evaluateProgramInternal prog cs.
Proof.
  intros QC. unfold evaluateProgramInternal. destruct (negb _); [reflexivity|]. destruct (existsb _ _); [reflexivity|].
  apply bind_ok_same; [reflexivity|]. intros hd H. now rewrite (progS hd (Q_at _ _ _ _ _ QC H)).
Qed.
Lemma switch_agree tr k cs ccs : optsQ Sy var ccs -> eval_switch lop' prog' tr k cs ccs = eval_switch lop prog tr k cs ccs.
Proof.
  intros QC. unfold eval_switch. destruct k; try reflexivity; cbn [isLiteralOp];
    first [ (* applications *) apply bind_ok_same; [reflexivity|]; intros vs H; pose proof (all_present_Q _ _ _ _ QC H) as QV; apply bind_ok_same; [reflexivity|]; intros hd _;
        rewrite (programInternal_agree vs QV); reflexivity
      | apply bind_ok_same; [reflexivity|]; intros vs H; pose proof (all_present_Q _ _ _ _ QC H) as QV; rewrite (lopS _ vs QV); reflexivity ].
Qed.
Lemma step_agree st tr : Forall (frameQ Sy var) st -> ev_step lop' prog' st tr = ev_step lop prog st tr.
Proof.
  intros QS. unfold ev_step. destruct QS as [|fr below QF QB]; [reflexivity|]. destruct (fr_visit fr) as [|cur rest]; [reflexivity|].
  unfold inner_step. cbn zeta. destruct (negb _ && _); [reflexivity|]. destruct (kind_eqb _ _); [reflexivity|]. destruct (vfind _ _) as [[|]|]; try reflexivity.
  apply bind_ok_same; [reflexivity|]. intros ccs H. destruct QF as (_ & _ & QM & _). now rewrite (switch_agree tr _ _ ccs (collect_Q _ _ _ _ _ QM H)).
Qed.
Lemma run_agree n : forall st tr, Forall (frameQ Sy var) st -> trieQ Sy var tr -> ev_run lop' prog' n st tr = ev_run lop prog n st tr.
Proof.
  induction n as [|n IH]; intros st tr QS QT; [reflexivity|]. cbn [ev_run]. apply bind_ok_same; [now apply step_agree|]. intros o H.
  assert (O : outcomeQ Sy var o).
  { unfold ev_step in H. destruct st as [|fr below]; [injection H as <-; cbn; discriminate|]. inversion QS; subst. destruct (fr_visit fr) as [|cur rest] eqn:Ev.
    - eapply end_frame_Q; [| | |exact H]; assumption.
    - eapply inner_step_Q; [exact lopQ|exact programQ| |exact Ev| | |exact H]; assumption. }
  destruct o as [r|st' tr']; [reflexivity|]. destruct O. now apply IH.
Qed.
Lemma evaluate_agree n e c : Q e -> ctxQ c -> evaluate lop' prog' n e c = evaluate lop prog n e c.
Proof.
  intros QE QC. apply run_agree; [|constructor]. constructor; [|constructor]. repeat split; cbn; auto. constructor.
Qed.
End Ev.

Section Env.
Variables E E' : env.
Hypothesis HS : agree_on Sy var E E'.
Hypothesis EOK : closed_under Sy var E.
Lemma attribute_cases t : Q t -> (exists ai ai', e_info E t = Some ai /\ e_info E' t = Some ai' /\ ai_cons ai' = ai_cons ai /\ ai_cterm ai' = ai_cterm ai /\ ai_kind ai' = ai_kind ai) \/
  (e_info E t = None /\ e_info E' t = None) \/
  (exists ai, (e_info E t = Some ai /\ e_info E' t = None \/ e_info E t = None /\ e_info E' t = Some ai) /\ ai_cons ai = A_NONE /\ ai_cterm ai = None /\ ai_kind ai = K_NONE).
Proof.
  intros QT. pose proof (ao_attribute _ _ _ _ HS t QT) as H. unfold attribute in H. destruct (e_info E t) as [ai|], (e_info E' t) as [ai'|].
  - left. injection H as A B C. exists ai, ai'. auto.
  - right. right. injection H as A B C. exists ai. auto 8.
  - right. right. injection H as A B C. exists ai'. auto 8.
  - right. left. auto.
Qed.
Lemma consKind_agree t : Q t -> getConstructorKind E' t = getConstructorKind E t.
Proof. intros QT. unfold getConstructorKind. pose proof (ao_attribute _ _ _ _ HS t QT) as H. unfold attribute in H. destruct (e_info E t), (e_info E' t); congruence. Qed.
Lemma getProgram_agree t : Q t -> getProgram E' t = getProgram E t.
Proof.
  intros QT. unfold getProgram. destruct (attribute_cases t QT) as [(ai & ai' & -> & -> & -> & -> & _)|[(-> & ->)|(ai & [(-> & ->)|(-> & ->)] & -> & _)]]; reflexivity.
Qed.
Variables gt gt' : term -> res (option term).
Variables evl evl' : term -> ctx -> res (option term).
Hypothesis gtQ : forall t r, Q t -> gt t = Ok (Some r) -> Q r.
Hypothesis evlQ : forall t c r, Q t -> ctxQ c -> evl t c = Ok (Some r) -> Q r.
Hypothesis gtS : forall t, Q t -> gt' t = gt t.
Hypothesis evlS : forall t c, Q t -> ctxQ c -> evl' t c = evl t c.

Lemma types_agree cs : Forall Q cs -> types_of gt' cs = types_of gt cs.
Proof.
  induction 1 as [|c cs QC _ IH]; [reflexivity|]. cbn [types_of]. apply bind_ok_same; [exact IH|]. intros [ts|] _; [|reflexivity]. now rewrite (gtS c QC).
Qed.
Lemma args_agree hts : forall cs cts c v, Forall Q hts -> type_args gt' hts cs cts c v = type_args gt hts cs cts c v.
Proof.
  induction hts as [|h hts IH]; intros cs cts c v QH; [reflexivity|]. inversion QH as [|? ? Qh QH']; subst.
  assert (G : forall (x : term) cs ct cts, (let* (ok, c', v') := matchv h ct c v in if ok : bool then type_args gt' hts cs cts c' v' else Ok (false, c')) =
    (let* (ok, c', v') := matchv h ct c v in if ok : bool then type_args gt hts cs cts c' v' else Ok (false, c'))).
  { intros _ ds ct dts. apply bind_ok_same; [reflexivity|]. intros [[ok c'] v'] _. destruct ok; [now apply IH | reflexivity]. }
  destruct cs as [|x cs]; [destruct h as [|?|[] ?]; reflexivity|]. destruct cts as [|ct cts]; [destruct h as [|?|[] ?]; reflexivity|].
  destruct h as [k i|l|k qs]; [exact (G x cs ct cts)..|]. destruct k; try exact (G x cs ct cts). cbn [type_args].
  apply bind_ok_same; [reflexivity|]. intros q HQ. assert (Qq : Q q) by (apply (Q_at _ _ _ _ _ (Q_children _ _ _ Qh) HQ)).
  apply bind_ok_same; [now apply gtS|]. intros [te|] _; [|reflexivity]. destruct (term_eqb ct te); [|reflexivity].
  apply bind_ok_same; [reflexivity|]. intros [[ok c'] v'] _. destruct ok; [now apply IH | reflexivity].
Qed.
Lemma app_agree children ts : Forall Q children -> Forall Q ts -> getTypeAppInternal gt' evl' children ts = getTypeAppInternal gt evl children ts.
Proof.
  intros QC QT. unfold getTypeAppInternal. apply bind_ok_same; [reflexivity|]. intros h H. pose proof (Q_at _ _ _ _ _ QT H) as Qh. pose proof (Q_children _ _ _ Qh) as Qhs.
  destruct (tkind h); try reflexivity; cbn zeta; (destruct (negb _); [reflexivity|]);
    (apply bind_ok_same; [apply args_agree; revert Qhs; clear; induction 1 as [|a [|b l] Qa Ql IH]; cbn [removelast]; auto|]);
    intros [ok c] X; (destruct ok; [|reflexivity]);
    (assert (Qc : ctxQ c) by (eapply type_args_Q; [..|exact X]; [now apply Q_tl|now apply Q_tl|constructor]));
    pose proof (Q_last Sy var _ t_Any Qhs (Q_Any _ _)) as QL; destruct (tchildren h); try reflexivity; rewrite evlS by assumption; reflexivity.
Qed.
Lemma rule_agree k x : (forall t, x = Some t -> Q t) -> getLiteralTypeRule E' evl' k x = getLiteralTypeRule E evl k x.
Proof.
  intros QX. unfold getLiteralTypeRule. rewrite (ao_littype _ _ _ _ HS), (ao_self _ _ _ _ HS). cbn zeta. destruct (negb _); [|reflexivity]. apply evlS.
  - destruct (e_littype E k) eqn:L; [exact (cu_literal _ _ _ EOK _ _ L) | apply Q_Any].
  - constructor; [|constructor]. cbn. destruct x; [now apply QX | apply Q_Any].
Qed.
Lemma opType_agree k cs ts : getLiteralOpType E' evl' k cs ts = getLiteralOpType E evl k cs ts.
Proof.
  unfold getLiteralOpType. destruct (negb _); [reflexivity|]. destruct k; try reflexivity; try (apply rule_agree; discriminate); now rewrite ?(ao_listType _ _ _ _ HS).
Qed.
Lemma internal_agree t ts : Q t -> Forall Q ts -> getTypeInternal E' gt' evl' t ts = getTypeInternal E gt evl t ts.
Proof.
  intros QT QS. pose proof (Q_children _ _ _ QT) as QC. unfold getTypeInternal. cbn zeta.
  destruct (tkind t); try reflexivity; try apply opType_agree; try (apply rule_agree; now intros ? [= <-]);
    try (rewrite app_agree by assumption; reflexivity); rewrite ?(ao_proofType _ _ _ _ HS), ?(ao_listType _ _ _ _ HS); try reflexivity.
  apply bind_ok_same; [reflexivity|]. intros vs H. rewrite types_agree; [reflexivity|]. apply Q_children. exact (Q_at _ _ _ _ _ QC H).
Qed.
Lemma getType_agree t : Q t -> getType E' gt' evl' t = getType E gt evl t.
Proof.
  intros QT. unfold getType. pose proof (Q_children _ _ _ QT) as QC. destruct t as [k i|l|k cs].
  - now rewrite (ao_type _ _ _ _ HS).
  - apply bind_ok_same; [now apply types_agree|]. intros [ts|] H; [|reflexivity]. apply bind_ok_same; [|reflexivity]. apply internal_agree; [exact QT|].
    eapply types_of_Q; [exact gtQ | exact QC | exact H].
  - apply bind_ok_same; [now apply types_agree|]. intros [ts|] H; [|reflexivity]. apply bind_ok_same; [|reflexivity]. apply internal_agree; [exact QT|].
    eapply types_of_Q; [exact gtQ | exact QC | exact H].
Qed.
Lemma consTerm_agree ai ai' cs ty ty' : ai_cons ai' = ai_cons ai -> ai_cterm ai' = ai_cterm ai -> ty' = ty ->
  (forall c, ai_cterm ai = Some c -> Q c) -> Forall Q cs -> (forall t, ty = Ok (Some t) -> Q t) ->
  computeConstructorTerm gt' evl' ai' cs ty' = computeConstructorTerm gt evl ai cs ty.
Proof.
  intros H1 H2 -> QA QC QT. unfold computeConstructorTerm. rewrite H1, H2. destruct (ai_cterm ai) as [ct|]; [|reflexivity]. specialize (QA ct eq_refl).
  destruct (negb _); [reflexivity|]. destruct cs as [|h [|c1 cs]]; try reflexivity. inversion QC as [|? ? Qh QC']; subst. inversion QC' as [|? ? Q1 _]; subst.
  destruct (negb _); [reflexivity|]. apply bind_ok_same; [now apply gtS|]. intros [th|] HT; [|reflexivity]. apply bind_ok_same; [reflexivity|]. intros [t1|] HT1; [|reflexivity].
  assert (QQ : Forall Q [th; t1]) by (constructor; [exact (gtQ _ _ Qh HT)|]; constructor; [exact (QT _ HT1)|constructor]).
  assert (QH : Forall Q [h; c1]) by auto.
  apply bind_ok_same; [now apply app_agree|]. intros [r c] HA. destruct (typeApp_Q _ _ _ _ evlQ _ _ _ _ QH QQ HA) as [_ Qc].
  apply bind_ok_same; [reflexivity|]. intros ps HP. destruct (negb _); [reflexivity|]. apply bind_ok_same; [reflexivity|]. intros b HB.
  apply evlS; [|exact Qc]. exact (Q_at _ _ _ _ _ (Q_children _ _ _ QA) HB).
Qed.
Lemma cterm_Q t ai c : Q t -> e_info E t = Some ai -> ai_cterm ai = Some c -> Q c.
Proof. apply (cu_term _ _ _ EOK). Qed.
Lemma litTail_agree k args : Forall Q args -> evaluateLitTail E' gt' evl' k args = evaluateLitTail E gt evl k args.
Proof.
  intros QA. unfold evaluateLitTail. destruct (all_literals args); [reflexivity|]. destruct (negb _); [reflexivity|].
  apply bind_ok_same; [reflexivity|]. intros a0 H0. pose proof (Q_at _ _ _ _ _ QA H0) as Q0. apply bind_ok_same; [reflexivity|]. intros op HO.
  assert (Qop : Q op).
  { destruct a0 as [? ?|?|k0 cs]; try (injection HO as <-; exact Q0). pose proof (Q_children _ _ _ Q0) as QC. destruct k0; try (injection HO as <-; exact Q0). exact (Q_at _ _ _ _ _ QC HO). }
  pose proof (cterm_Q op) as CT.
  destruct (attribute_cases op Qop) as [(ai & ai' & EI & -> & CA & CC & _)|[(-> & ->)|(ai & [(-> & ->)|(-> & ->)] & -> & _)]]; try reflexivity. rewrite EI.
  rewrite CA. destruct (negb _); [reflexivity|]. cbn zeta. destruct (kind_eqb _ _).
  - apply bind_ok_same; [reflexivity|]. intros a1 H1. apply consTerm_agree; auto; [exact (fun c => CT ai c Qop EI)| |].
    + constructor; [exact Q0|]. constructor; [|constructor]. apply mo_symbol; [discriminate | exact (cu_tmp _ _ _ EOK)].
    + intros t [= <-]. exact (Q_at _ _ _ _ _ QA H1).
  - destruct args as [|x [|y args]]; try reflexivity. inversion QA as [|? ? _ QA']; subst. inversion QA' as [|? ? Qy _]; subst.
    apply bind_ok_same; [|reflexivity]. apply consTerm_agree; auto; [exact (fun c => CT ai c Qop EI)|]. intros t. now apply gtQ.
Qed.
Lemma selectors_agree args : Forall Q args -> evaluateDtSelectors E' args = evaluateDtSelectors E args.
Proof.
  intros QA. unfold evaluateDtSelectors. apply bind_ok_same; [reflexivity|]. intros a0 H0. pose proof (Q_at _ _ _ _ _ QA H0) as Q0.
  apply bind_ok_same; [reflexivity|]. intros op HO.
  assert (Qop : Q op).
  { destruct a0 as [? ?|?|k0 cs]; try (injection HO as <-; exact Q0). pose proof (Q_children _ _ _ Q0) as QC. destruct k0; try (injection HO as <-; exact Q0). exact (Q_at _ _ _ _ _ QC HO). }
  destruct (attribute_cases op Qop) as [(ai & ai' & -> & -> & -> & -> & _)|[(-> & ->)|(ai & [(-> & ->)|(-> & ->)] & -> & _)]]; reflexivity.
Qed.
Lemma constructors_agree args : Forall Q args -> evaluateDtConstructors E' gt' args = evaluateDtConstructors E gt args.
Proof.
  intros QA. unfold evaluateDtConstructors. apply bind_ok_same; [reflexivity|]. intros a0 H0. pose proof (Q_at _ _ _ _ _ QA H0) as Q0.
  apply bind_ok_same. { destruct (kind_eqb _ _); [|reflexivity]. now rewrite (gtS a0 Q0). }
  intros b _. apply bind_ok_same; [reflexivity|]. intros sym HO.
  assert (Qs : Q sym) by (destruct b; [exact (app_head_Q _ _ _ _ Q0 HO) | injection HO as <-; exact Q0]).
  pose proof (cterm_Q sym) as CT.
  destruct (attribute_cases sym Qs) as [(ai & ai' & EI & -> & -> & -> & _)|[(-> & ->)|(ai & [(-> & ->)|(-> & ->)] & -> & _)]]; try reflexivity. rewrite EI.
  destruct (ai_cons ai); try reflexivity. destruct b; [|reflexivity]. rewrite (ao_listNil _ _ _ _ HS). destruct (ai_cterm ai) as [l|] eqn:EC; [|reflexivity]. rewrite (ao_listCons _ _ _ _ HS).
  apply bind_ok_same; [reflexivity|]. intros [cs|] HN; [|reflexivity]. unfold mkList. rewrite (ao_listNil _ _ _ _ HS), (ao_listCons _ _ _ _ HS). do 3 f_equal.
  assert (QC : Forall Q cs) by (eapply getNAry_Q; [exact (CT ai l Qs EI EC) | exact HN]).
  revert QC. clear -HS. induction 1 as [|c cs Qc _ IH]; [reflexivity|]. cbn [map]. now rewrite IH, (consKind_agree c Qc).
Qed.
Lemma op_agree k args : Forall Q args -> evaluateLiteralOp E' gt' evl' k args = evaluateLiteralOp E gt evl k args.
Proof.
  intros QA. unfold evaluateLiteralOp.
  assert (At : forall i x, vec_at args i = Ok x -> Q x) by (intros; eapply Q_at; eauto).
  pose proof (litTail_agree k args QA) as LT.
  destruct k; try reflexivity; (destruct (negb _); [reflexivity|]); try reflexivity; try exact LT; try exact (selectors_agree args QA); try exact (constructors_agree args QA);
    rewrite ?(ao_hash _ _ _ _ HS), ?(ao_bvar _ _ _ _ HS); try reflexivity.
  - apply bind_ok_same; [reflexivity|]. intros [|[]|] H0; try exact LT. apply bind_ok_same; [reflexivity|]. intros a1 H1. destruct (isEvaluatable a1); [exact LT|].
    apply bind_ok_same; [apply gtS; eauto|]. intros [ty|] _; [|exact LT]. destruct (kind_eqb _ _); [reflexivity | exact LT].
  - apply bind_ok_same; [reflexivity|]. intros a0 H0. destruct (isEvaluatable a0); [exact LT|]. apply bind_ok_same; [apply gtS; eauto|].
    intros [ty|] _; [|reflexivity]. destruct (isGround ty); [reflexivity | exact LT].
  - apply bind_ok_same; [reflexivity|]. intros a0 H0. destruct (tkind a0); try exact LT; now rewrite (ao_name _ _ _ _ HS a0 (At _ _ H0)).
Qed.
End Env.

Theorem tc_agree E E' : agree_on Sy var E E' -> closed_under Sy var E -> forall n,
  (forall t, Q t -> tc_type (tc E' n) t = tc_type (tc E n) t) /\
  (forall k ds, Forall Q ds -> tc_lop (tc E' n) k ds = tc_lop (tc E n) k ds) /\
  (forall t c, Q t -> ctxQ c -> tc_eval (tc E' n) t c = tc_eval (tc E n) t c).
Proof.
  intros HS EOK n. induction n as [|n (I1 & I2 & I3)]; [repeat split; reflexivity|]. destruct (tc_Q _ _ E EOK n) as (C1 & C2 & C3). cbn [tc tc_type tc_lop tc_eval]. split; [|split].
  - intros t QT. now apply (getType_agree E E').
  - intros k ds QD. now apply (op_agree E E').
  - intros t c QT QC. apply evaluate_agree; auto.
    + intros k ds r _. apply C2.
    + intros h p. now apply program_Q.
    + intros h QH. now apply (getProgram_agree E E').
Qed.
End Agree.
