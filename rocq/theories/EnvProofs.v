(** Types and values do not depend on the alternatives of symbols: proofs. *)
From Coq Require Import ZArith List Bool Lia.
From Verif Require Import Base Kind Ints Str Literal Arity Term TermProofs Match Eval ListOps Typing Build MonoProofs SpecEnv.
Import ListNotations.

Lemma bind_same {A B} (e e' : res A) (f f' : A -> res B) : e = e' -> (forall x, f x = f' x) -> bind e f = bind e' f'.
Proof. intros <- H. destruct e; cbn; auto. Qed.
Lemma le_both {A} (a b : res A) : le a b -> le b a -> a = b.
Proof. intros [-> | ->] [H | H]; auto. Qed.

Section Evaluate.
Variable lop : kind -> list term -> res (option term).
Variables prog prog' : term -> option term.
Hypothesis HP : forall t, prog' t = prog t.

Lemma programInternal_same cs : evaluateProgramInternal prog' cs = evaluateProgramInternal prog cs.
Proof.
  unfold evaluateProgramInternal. destruct (negb _); [reflexivity|]. destruct (existsb _ _); [reflexivity|]. apply bind_same; [reflexivity|]. intros hd. now rewrite HP.
Qed.
Lemma eval_switch_same : forall tr k cs ccs, eval_switch lop prog' tr k cs ccs = eval_switch lop prog tr k cs ccs.
Proof.
  intros tr k cs ccs. unfold eval_switch. destruct k; try reflexivity; apply bind_same; try reflexivity; intros vs; apply bind_same; try reflexivity; intros hd;
    rewrite programInternal_same; reflexivity.
Qed.
Lemma ev_run_same n : forall st tr, ev_run lop prog' n st tr = ev_run lop prog n st tr.
Proof.
  induction n as [|n IH]; intros st tr; [reflexivity|]. cbn [ev_run]. apply bind_same; [|intros [r|st' tr']; auto].
  unfold ev_step. destruct st as [|fr below]; [reflexivity|]. destruct (fr_visit fr) as [|cur rest]; [reflexivity|]. unfold inner_step. cbn zeta.
  destruct (negb _ && _); [reflexivity|]. destruct (kind_eqb _ _); [reflexivity|]. destruct (vfind _ _) as [[|]|]; try reflexivity.
  apply bind_same; [reflexivity|]. intros ccs. now rewrite eval_switch_same.
Qed.
Lemma evaluate_same n e c : evaluate lop prog' n e c = evaluate lop prog n e c.
Proof. apply ev_run_same. Qed.
End Evaluate.

Section Env.
Variables E E' : env.
Hypothesis HS : same_but_over E E'.

Lemma info_cases t : (exists ai ai', e_info E t = Some ai /\ e_info E' t = Some ai' /\ ai_cons ai' = ai_cons ai /\ ai_cterm ai' = ai_cterm ai /\ ai_kind ai' = ai_kind ai) \/
  (e_info E t = None /\ e_info E' t = None) \/
  (exists ai, (e_info E t = Some ai /\ e_info E' t = None \/ e_info E t = None /\ e_info E' t = Some ai) /\ ai_cons ai = A_NONE /\ ai_cterm ai = None /\ ai_kind ai = K_NONE).
Proof.
  pose proof (sb_info _ _ HS t) as H. unfold attribute in H. destruct (e_info E t) as [ai|], (e_info E' t) as [ai'|].
  - left. injection H as A B C. exists ai, ai'. auto.
  - right. right. injection H as A B C. exists ai. auto 8.
  - right. right. injection H as A B C. exists ai'. auto 8.
  - right. left. auto.
Qed.
Lemma conskind_same t : getConstructorKind E' t = getConstructorKind E t.
Proof. unfold getConstructorKind. pose proof (sb_info _ _ HS t) as H. unfold attribute in H. destruct (e_info E t), (e_info E' t); congruence. Qed.
Lemma getProgram_same t : getProgram E' t = getProgram E t.
Proof.
  unfold getProgram. destruct (info_cases t) as [(ai & ai' & -> & -> & -> & -> & _)|[(-> & ->)|(ai & [(-> & ->)|(-> & ->)] & -> & _)]]; reflexivity.
Qed.
Variable gt : term -> res (option term).
Variable evl : term -> ctx -> res (option term).
Lemma consTerm_same ai ai' cs ty : ai_cons ai' = ai_cons ai -> ai_cterm ai' = ai_cterm ai -> computeConstructorTerm gt evl ai' cs ty = computeConstructorTerm gt evl ai cs ty.
Proof. intros H1 H2. unfold computeConstructorTerm. now rewrite H1, H2. Qed.
Lemma litTail_same k args : evaluateLitTail E' gt evl k args = evaluateLitTail E gt evl k args.
Proof.
  unfold evaluateLitTail. destruct (all_literals args); [reflexivity|]. destruct (negb _); [reflexivity|]. apply bind_same; [reflexivity|]. intros a0. apply bind_same; [reflexivity|]. intros op.
  destruct (info_cases op) as [(ai & ai' & -> & -> & CA & CT & _)|[(-> & ->)|(ai & [(-> & ->)|(-> & ->)] & -> & _)]]; try reflexivity.
  rewrite CA. destruct (negb _); [reflexivity|]. cbn zeta. destruct (kind_eqb _ _).
  - apply bind_same; [reflexivity|]. intros a1. now apply consTerm_same.
  - destruct args as [|x [|y args]]; try reflexivity. apply bind_same; [now apply consTerm_same | reflexivity].
Qed.
Lemma dtSels_same args : evaluateDtSelectors E' args = evaluateDtSelectors E args.
Proof.
  unfold evaluateDtSelectors. apply bind_same; [reflexivity|]. intros a0. apply bind_same; [reflexivity|]. intros sym.
  destruct (info_cases sym) as [(ai & ai' & -> & -> & -> & -> & _)|[(-> & ->)|(ai & [(-> & ->)|(-> & ->)] & -> & _)]]; reflexivity.
Qed.
Lemma mkList_same args : mkList E' args = mkList E args.
Proof. unfold mkList. now rewrite (sb_listCons _ _ HS), (sb_listNil _ _ HS). Qed.
Lemma dtCons_same args : evaluateDtConstructors E' gt args = evaluateDtConstructors E gt args.
Proof.
  unfold evaluateDtConstructors. apply bind_same; [reflexivity|]. intros a0. apply bind_same; [reflexivity|]. intros b. apply bind_same; [reflexivity|]. intros sym.
  destruct (info_cases sym) as [(ai & ai' & -> & -> & -> & -> & _)|[(-> & ->)|(ai & [(-> & ->)|(-> & ->)] & -> & _)]]; try reflexivity.
  destruct (ai_cons ai); try reflexivity. destruct b; [|reflexivity]. rewrite (sb_listNil _ _ HS). destruct (ai_cterm ai); [|reflexivity]. rewrite (sb_listCons _ _ HS).
  apply bind_same; [reflexivity|]. intros [cs|]; [|reflexivity]. rewrite mkList_same. do 3 f_equal. apply map_ext. intros c. now rewrite conskind_same.
Qed.
Lemma literalRule_same k s : getLiteralTypeRule E' evl k s = getLiteralTypeRule E evl k s.
Proof. unfold getLiteralTypeRule. now rewrite (sb_littype _ _ HS), (sb_self _ _ HS). Qed.
Lemma literalOp_same k args : evaluateLiteralOp E' gt evl k args = evaluateLiteralOp E gt evl k args.
Proof.
  unfold evaluateLiteralOp. destruct HS as [H1 H2 H3 H4 H5 H6 H7 H8 H9 H10 H11]. 
  destruct k; try reflexivity; (destruct (negb _); [reflexivity|]); try reflexivity; try apply litTail_same; try apply dtSels_same; try apply dtCons_same; rewrite ?H2, ?H3, ?H4; reflexivity.
Qed.
Lemma getType_same t : getType E' gt evl t = getType E gt evl t.
Proof.
  unfold getType. rewrite (sb_symtype _ _ HS).
  assert (I : forall t ts, getTypeInternal E' gt evl t ts = getTypeInternal E gt evl t ts).
  { intros u ts. unfold getTypeInternal. cbn zeta.
    assert (L : forall k cs ts, getLiteralOpType E' evl k cs ts = getLiteralOpType E evl k cs ts).
    { intros k cs us. unfold getLiteralOpType. destruct (negb _); [reflexivity|]. destruct k; try reflexivity; try apply literalRule_same; now rewrite ?(sb_listType _ _ HS). }
    destruct (tkind u); try reflexivity; try apply literalRule_same; try apply L; rewrite ?(sb_proofType _ _ HS), ?(sb_listType _ _ HS); reflexivity. }
  destruct t; try reflexivity; (apply bind_same; [reflexivity|]; intros [ts|]; [|reflexivity]; apply bind_same; [apply I | reflexivity]).
Qed.
End Env.

Lemma sb_sym E E' : same_but_over E E' -> same_but_over E' E.
Proof. intros []. constructor; intros; symmetry; auto. Qed.
Lemma tc_le E E' : same_but_over E E' -> forall n,
  (forall t, le (tc_type (tc E n) t) (tc_type (tc E' n) t)) /\ (forall k ds, le (tc_lop (tc E n) k ds) (tc_lop (tc E' n) k ds)) /\
  (forall t c, le (tc_eval (tc E n) t c) (tc_eval (tc E' n) t c)).
Proof.
  intros HS n. induction n as [|n (I1 & I2 & I3)]; [repeat split; intros; apply le_refl|]. cbn [tc tc_type tc_lop tc_eval]. split; [|split].
  - intros t. rewrite (getType_same E E' HS). now apply getType_mono.
  - intros k ds. rewrite (literalOp_same E E' HS). now apply literalOp_mono.
  - intros t c. rewrite (evaluate_same _ _ _ (getProgram_same E E' HS)). apply evaluate_mono; [exact I2 | lia].
Qed.
Theorem tc_same E E' : same_but_over E E' -> forall n,
  (forall t, tc_type (tc E' n) t = tc_type (tc E n) t) /\ (forall k ds, tc_lop (tc E' n) k ds = tc_lop (tc E n) k ds) /\
  (forall t c, tc_eval (tc E' n) t c = tc_eval (tc E n) t c).
Proof.
  intros HS n. destruct (tc_le E E' HS n) as (A1 & A2 & A3). destruct (tc_le E' E (sb_sym _ _ HS) n) as (B1 & B2 & B3). split; [|split]; intros; apply le_both; auto.
Qed.
