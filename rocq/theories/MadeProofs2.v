(** Building applications from terms over a set of symbols: proofs. *)
From Coq Require Import ZArith List Bool Lia.
From Verif Require Import Base Kind Ints Str Literal Arity Term Match Eval ListOps Typing Build SpecEnv SpecMade TermProofs MadeProofs.
Import ListNotations.

Section Build2.
Variable Sy : kind -> Z -> Prop.
Variable var : Z -> option (text * term).
Notation Q := (made_of Sy var).
Notation ctxQ := (ctxQ Sy var).

Let Q_children := Q_children Sy var.
Let Q_at := Q_at Sy var.
Let Q_last := Q_last Sy var.
Let Q_tl := Q_tl Sy var.
Lemma Q_null : Q null_term. Proof. apply okk_node. constructor. Qed.
Lemma Q_or_null o : (forall t, o = Some t -> Q t) -> Q (or_null o).
Proof. destruct o; cbn; intro H; [now apply H | apply Q_null]. Qed.
(** Building applications. *)
Lemma applyInternal_Q cs r : Forall Q cs -> mkApplyInternal cs = Ok r -> Q r.
Proof.
  intros Hc H. destruct Hc as [|h cs Hh Hc]; [discriminate H|]. cbn in H. injection H as <-.
  revert h Hh. induction Hc as [|c cs Hc' Hcs IH]; cbn; intros h Hh; [exact Hh|].
  apply IH. now apply Q_apply.
Qed.
Lemma applyChildren_Q cs r : Forall Q cs -> mkApplyChildren cs = Ok r -> Q r.
Proof.
  unfold mkApplyChildren. intros Hc H. destruct (Nat.ltb _ _).
  - eapply applyInternal_Q; eauto.
  - injection H as <-. now apply okk_node.
Qed.

Lemma strip_Q n : forall t r, Q t -> strip_requires n t = Ok r -> Q r.
Proof.
  induction n as [|n IH]; cbn; intros t r Ht H; [discriminate H|].
  assert (D : Ok t = Ok r -> Q r) by (intros [= <-]; exact Ht).
  destruct t as [| |k cs]; [exact (D H)..|]. pose proof (Q_children _ Ht) as Hc.
  destruct k; try exact (D H). ib H. eapply IH; [|exact H]. exact (Q_at _ _ _ Hc E).
Qed.

Lemma Q_removelast l : Forall Q l -> Forall Q (removelast l).
Proof.
  induction 1 as [|x l Hx Hl IH]; [constructor|]. cbn. destruct l; [constructor|].
  constructor; assumption.
Qed.

Lemma funType_Q n : forall t args ret, Q t -> getFunctionType_loop n t = Ok (args, ret) ->
  Forall Q args /\ Q ret.
Proof.
  induction n as [|n IH]; cbn [getFunctionType_loop]; intros t args ret Ht H; [discriminate H|].
  assert (D : Ok ([], t) = Ok (args, ret) -> Forall Q args /\ Q ret)
    by (intros [= <- <-]; split; [constructor|exact Ht]).
  destruct t as [| |k cs]; [exact (D H)..|]. pose proof (Q_children _ Ht) as Hc. cbn in Hc.
  destruct k; try exact (D H). destruct cs as [|c0 cs]; [discriminate H|].
  ib H. apply strip_Q in E; [|apply Q_last; [exact Hc|apply Q_null]].
  ib H. destruct x0 as [args' ret']. injection H as <- <-.
  apply IH in E0 as [A B]; [|exact E]. split; [|exact B].
  apply Forall_app. split; [|exact A]. exact (Q_removelast _ Hc).
Qed.

Record ready (E : env) : Prop := {
  rd_closed : closed_under Sy var E;
  rd_over : forall t ai ov, Q t -> e_info E t = Some ai -> ai_over ai = Some ov -> Forall Q ov;
  rd_dummy : forall i, (i < 0)%Z -> Sy K_CONST i }.
Lemma dummies_ok E ts : ready E -> Forall Q ts -> closed_under Sy var (with_dummies E ts).
Proof.
  intros [[O1 O2 O3 O4 O5 O6 O7 O8 O9] _ _] Ht. constructor; cbn; try assumption.
  intros k i t Hq H.
  assert (D : e_symtype E (Sym k i) = Some t -> Q t) by (apply O1; exact Hq).
  destruct k; try exact (D H). destruct (Z.leb i (-2)); [|exact (D H)].
  apply nth_error_In in H. rewrite Forall_forall in Ht. now apply Ht.
Qed.

Section BuildQ.
Variable E : env.
Hypothesis EOK : ready E.
Variable mk : kind -> list term -> res term.
Hypothesis mkQ : forall k cs r, Forall Q cs -> mk k cs = Ok r -> Q r.

Lemma assoc_fold_Q isLeft isNil hd xs : Q hd -> Forall Q xs -> forall s,
  Q (fst s) -> Q (fst (fold_left (assoc_step E isLeft isNil hd) xs s)).
Proof.
  intros Hh Hx. induction Hx as [|x xs H1 H2 IH]; intros [curr n] Hs; [exact Hs|].
  cbn [fold_left]. apply IH. unfold assoc_step. cbn in Hs.
  assert (Forall Q (if isLeft then [hd; curr; x] else [hd; x; curr]))
    by (destruct isLeft; auto).
  destruct (isNil && _); cbn [fst].
  - now apply okk_node.
  - destruct isLeft; now apply Q_apply2.
Qed.

Lemma applyAssoc_Q a hd args ct r : Q hd -> Forall Q args -> (forall c, ct = Some c -> Q c) ->
  mkApplyAssoc E mk a hd args ct = Ok (Some r) -> Q r.
Proof.
  intros Hh Ha Hc H. destruct args as [|a1 args']; [cbn in H; injection H as ->; now apply Hc|].
  unfold mkApplyAssoc in H. cbn zeta in H.
  set (isLeft := match a with A_LEFT_ASSOC | A_LEFT_ASSOC_NIL | A_LEFT_ASSOC_NS_NIL => true | _ => false end) in *.
  set (isNsNil := match a with A_RIGHT_ASSOC_NS_NIL | A_LEFT_ASSOC_NS_NIL => true | _ => false end) in *.
  assert (L : Forall Q (if isLeft then a1 :: args' else rev (a1 :: args'))).
  { destruct isLeft; [exact Ha|now apply Forall_rev]. }
  destruct (if isLeft then a1 :: args' else rev (a1 :: args')) as [|first others]; [discriminate H|].
  inversion L as [|? ? Hf Ho]; subst.
  set (nl := match ct with None => _ | Some c => c end) in H.
  assert (N : Q nl).
  { unfold nl. destruct ct; [now apply Hc|]. inversion Ha; subst.
    apply okk_node. constructor; [exact Hh|]. constructor; [|constructor].
    apply okk_node. auto. }
  set (b := _ && negb _) in H. 
  set (isNil := isNsNil || _) in *.
  assert (S : Q (fst (if b then fold_left (assoc_step E isLeft isNil hd) (first :: others) (nl, O)
            else fold_left (assoc_step E isLeft isNil hd) others (first, O)))).
  { destruct b; apply assoc_fold_Q; auto. }
  destruct (if b then _ else _) as [curr nlist]. cbn in S.
  destruct (isNsNil && _).
  - ib H. injection H as <-. eapply mkQ; [|exact E0]; auto.
  - injection H as <-. exact S.
Qed.

Lemma chain_Q hd args : Q hd -> Forall Q args -> Forall Q (chain hd args).
Proof.
  intros Hh Ha. induction Ha as [|x l Hx Hl IH]; [constructor|]. destruct l as [|y l]; [constructor|].
  cbn [chain]. constructor; [|exact IH]. inversion Hl; subst. now apply Q_apply2.
Qed.
Lemma pairwise_Q hd args : Q hd -> Forall Q args -> Forall Q (pairwise hd args).
Proof.
  intros Hh Ha. induction Ha as [|x l Hx Hl IH]; [constructor|]. cbn [pairwise].
  apply Forall_app. split; [|exact IH]. apply Forall_forall. intros y Hy.
  apply in_map_iff in Hy as (z & <- & Hz). rewrite Forall_forall in Hl.
  apply Q_apply2; auto.
Qed.
Lemma combine_apps_Q ct apps r : (forall c, ct = Some c -> Q c) -> Forall Q apps ->
  combine_apps mk ct apps = Ok (Some r) -> Q r.
Proof.
  intros Hc Ha H. unfold combine_apps in H.
  assert (G : (let* r := mk K_APPLY (or_null ct :: apps) in Ok (Some r)) = Ok (Some r) -> Q r).
  { clear H. intro H. ib H. injection H as <-. eapply mkQ; [|exact E0].
    constructor; [now apply Q_or_null|exact Ha]. }
  destruct apps as [|x [|y l]]; try exact (G H). injection H as <-. now inversion Ha.
Qed.

Lemma applyAttr_Q ai cs ct r : Forall Q cs ->
  (forall c, ct = Some c -> Q c) ->
  mkApplyAttr E mk ai cs ct = Ok (Some r) -> Q r.
Proof.
  intros Hcs Hc H. destruct Hcs as [|hd args Hh Ha]; [discriminate H|].
  unfold mkApplyAttr in H.
  destruct (ai_cons ai); try discriminate H; 
    try (eapply applyAssoc_Q; [..|exact H]; assumption).
  - destruct (ai_cterm ai) as [[|[]|]|]; try discriminate H. cbn zeta in H.
    destruct (Z.leb _ _); [discriminate H|].
    set (k := Z.to_nat _) in H. rewrite <- (firstn_skipn k args) in Ha.
    apply Forall_app in Ha as [A1 A2].
    assert (O : Q (fold_left (fun curr c => Node K_APPLY_OPAQUE [curr; c]) (firstn k args) hd)).
    { revert hd Hh H. induction A1 as [|y l Hy Hl IH]; cbn; intros hd Hh H; [exact Hh|].
      apply IH; [apply okk_node; auto|exact H]. }
    destruct (skipn k args); [injection H as <-; exact O|]. ib H. injection H as <-.
    eapply applyChildren_Q; [|exact E0]. auto.
  - eapply combine_apps_Q; [| |exact H]; [exact Hc|now apply chain_Q].
  - eapply combine_apps_Q; [| |exact H]; [exact Hc|now apply pairwise_Q].
  - ib H. injection H as <-.
    assert (G : mk K_APPLY (or_null ct :: args) = Ok x -> Q x).
    { intro X. eapply mkQ; [|exact X]. constructor; [now apply Q_or_null|exact Ha]. }
    apply Q_apply; [exact Hh|].
    destruct args as [|a [|b l]]; try exact (G E0). destruct (attr_eqb _ _); [|exact (G E0)].
    injection E0 as <-. now inversion Ha.
Qed.

Section T.
Variable T : tcfuns.
Hypothesis tyQ : forall t r, Q t -> tc_type T t = Ok (Some r) -> Q r.
Hypothesis lopQ : forall k ds r, Forall Q ds -> tc_lop T k ds = Ok (Some r) -> Q r.
Hypothesis evQ : forall t c r, Q t -> ctxQ c -> tc_eval T t c = Ok (Some r) -> Q r.

Lemma Q_nth i l d : Forall Q l -> Q d -> Q (nth i l d).
Proof.
  intros Hl Hd. revert i. induction Hl; intros [|i]; cbn; auto.
Qed.

Lemma try_overload_Q hd cs x ty : Q hd -> Forall Q cs ->
  try_overload E mk T hd cs = Ok (Some (x, ty)) -> Q x.
Proof.
  intros Hh Hc H. unfold try_overload in H. cbn zeta in H. ib H.
  assert (V : Forall Q (hd :: tl cs)) by (constructor; [exact Hh|now apply Q_tl]).
  assert (X : forall y, x0 = Some y -> Q y).
  { intros y ->. destruct (e_info E hd) as [ai|] eqn:Ei; [|discriminate E0]. ib E0.
    eapply applyAttr_Q; [exact V| |exact E0]. intros c ->.
    eapply consTerm_Q; [exact tyQ|exact evQ|..|exact E1].
    - intros c' Hc'. eapply (cu_term _ _ _ (rd_closed E EOK)); eauto.
    - exact Hc.
    - intros t Et. eapply tyQ; [|exact Et]. apply Q_nth; [exact Hc|apply Q_null]. }
  ib H. assert (Y : Q x1).
  { destruct x0; [injection E1 as <-; now apply X|]. eapply applyChildren_Q; eauto. }
  ib H. destruct x2; [|discriminate H]. cbn in H. injection H as <- _. exact Y.
Qed.

Lemma getOverload_Q ov : forall cs rt ra r, Forall Q ov -> Forall Q cs ->
  getOverload E mk T ov cs rt ra = Ok (Some r) -> Q r.
Proof.
  induction ov as [|hd ov IH]; cbn [getOverload]; intros cs rt ra r Ho Hc H; [discriminate H|].
  inversion Ho as [|? ? Hh Ho']; subst. ib H. destruct x as [[x ty]|].
  - apply try_overload_Q in E0; [|assumption..].
    destruct (match rt with None => true | Some rt0 => term_eqb rt0 ty end).
    + destruct ra; injection H as <-; assumption.
    + eapply IH; [exact Ho'|exact Hc|exact H].
  - eapply IH; [exact Ho'|exact Hc|exact H].
Qed.

Lemma ctxQ_combine vs args : Forall Q args -> ctxQ (rev (combine vs args)).
Proof. intro H. apply Forall_rev. now apply rightQ_combine. Qed.

Lemma mkExprPlain_Q cs r : Forall Q cs -> mkExprPlain E T cs = Ok r -> Q r.
Proof.
  intros Hcs H. unfold mkExprPlain in H. destruct Hcs as [|hd args Hh Ha]; [discriminate H|].
  cbn zeta in H.
  assert (Pl : match tkind hd with
        | K_PROGRAM_CONST | K_PROOF_RULE => Ok (Node K_APPLY (hd :: args))
        | _ => mkApplyChildren (hd :: args)
        end = Ok r -> Q r).
  { clear H. intro H.
    assert (A : Q (Node K_APPLY (hd :: args))) by (apply okk_node; auto).
    assert (B : mkApplyChildren (hd :: args) = Ok r -> Q r) by (apply applyChildren_Q; auto).
    destruct (tkind hd); first [exact (B H)|injection H as <-; exact A]. }
  destruct hd as [k i|l|k ds].
  - destruct k; try exact (Pl H).
    destruct (getConstructorKind E (Sym K_PROGRAM_CONST i)); try exact (Pl H);
    (ib H; destruct (Nat.eqb _ _); [|exact (Pl H)];
     ib H; destruct x0 as [[body c]|]; [|exact (Pl H)];
     eapply evaluateProgramInternal_Q in E1 as [B C];
       [|intros h p; now apply (program_Q Sy var E h p (rd_closed E EOK))|auto];
     ib H; injection H as <-; apply Q_or_null; intros t ->; eapply evQ; eauto).
  - exact (Pl H).
  - pose proof (Q_children _ Hh) as Hd. cbn in Hd.
    destruct k; try exact (Pl H). ib H.
    destruct (Nat.eqb _ _); [|exact (Pl H)]. ib H. ib H. injection H as <-.
    apply Q_or_null. intros t ->. eapply evQ; [| |exact E2].
    + exact (Q_at _ _ _ Hd E1).
    + now apply ctxQ_combine.
Qed.

Lemma mkExprApply_Q cs r : Forall Q cs -> mkExprApply E mk T cs = Ok r -> Q r.
Proof.
  intros Hcs H. pose proof Hcs as Hall. destruct Hcs as [|hd args Hh Ha]; [discriminate H|].
  unfold mkExprApply in H.
  destruct (e_info E hd) as [ai|] eqn:Ei; [|eapply mkExprPlain_Q; eauto].
  destruct (ai_kind ai);
    first [eapply mkQ; [|exact H]; exact Ha|idtac].
  - (* none *)
    ib H. assert (O : forall y, x = Some y -> Q y).
    { intros y ->. destruct (ai_over ai) as [ov|] eqn:Eo; [|discriminate E0].
      eapply getOverload_Q; [| |exact E0]; [|exact Hall]. apply Forall_rev.
      eapply (rd_over _ EOK); [|eauto|eauto]; assumption. }
    destruct x as [y|]; [injection H as <-; now apply O|].
    ib H. ib H. destruct x0 as [t|]; [|eapply mkExprPlain_Q; eauto]. injection H as <-.
    eapply applyAttr_Q; [exact Hall| |exact E2]. intros c ->.
    eapply consTerm_Q; [exact tyQ|exact evQ|..|exact E1].
    + intros c' Hc'. eapply (cu_term _ _ _ (rd_closed E EOK)); eauto.
    + exact Hall.
    + intros t' Et. eapply tyQ; [|exact Et]. apply Q_nth; [exact Ha|apply Q_null].
  - (* -> *)
    destruct args as [|a args]; [discriminate H|]. injection H as <-.
    apply Q_fun; [exact (Q_removelast _ Ha)|]. exact (Q_last (a :: args) _ Ha Q_null).
  - (* _ *)
    exact (applyChildren_Q _ _ Ha H).
Qed.

Lemma mkExprLitOp_Q k cs r : isLiteralOp k = true -> Forall Q cs ->
  mkExprLitOp mk T k cs = Ok r -> Q r.
Proof.
  intros Hk Hc H.
  assert (G : (if checkArity k (length cs) then
        let* r := tc_lop T k cs in
        Ok (match r with Some t => t | None => Node k cs end)
      else Ok (Node k cs)) = Ok r -> Q r).
  { clear H. intro H. destruct (checkArity _ _); [|injection H as <-; now apply okk_node].
    ib H. injection H as <-. destruct x; [eapply lopQ; eauto|now apply okk_node]. }
  unfold mkExprLitOp in H.
  destruct cs as [|c0 [|c1 [|c2 rest]]]; try exact (G H).
  destruct (isNaryLiteralOp k); [|exact (G H)].
  inversion Hc as [|? ? H0 Hc1]; subst. inversion Hc1 as [|? ? H1 Hc2]; subst.
  ib H. assert (X : Q x) by (eapply mkQ; [|exact E0]; auto).
  clear E0 Hc Hc1 G. revert x X H. induction Hc2 as [|c l Hx Hl IH]; cbn [fold_left]; intros x X H.
  - injection H as <-. exact X.
  - cbn [bind] in H. destruct (mk k [x; c]) as [y| | |] eqn:Ey.
    + eapply IH; [|exact H]. eapply mkQ; [|exact Ey]. auto.
    + exfalso. clear - H. induction l; cbn in H; [discriminate H|auto].
    + exfalso. clear - H. induction l; cbn in H; [discriminate H|auto].
    + exfalso. clear - H. induction l; cbn in H; [discriminate H|auto].
Qed.
End T.
End BuildQ.

Theorem mkExpr_Q E n : ready E -> forall fuel k cs r, Forall Q cs ->
  mkExpr E n fuel k cs = Ok r -> Q r.
Proof.
  intros EOK. induction fuel as [|m IH]; cbn [mkExpr]; intros k cs r Hc H; [discriminate H|].
  cbn zeta in H. destruct (tc_Q Sy var E (rd_closed E EOK) n) as (T1 & T2 & T3).
  assert (N : Ok (Node k cs) = Ok r -> Q r) by (intros [= <-]; now apply okk_node).
  assert (L : (if isLiteralOp k then mkExprLitOp (mkExpr E n m) (tc E n) k cs else Ok (Node k cs))
              = Ok r -> Q r).
  { clear H. intro H. destruct (isLiteralOp k) eqn:El; [|exact (N H)].
    eapply mkExprLitOp_Q; [exact IH| |exact El|exact Hc|exact H]. exact T2. }
  destruct k; try exact (L H).
  - (* apply *) eapply mkExprApply_Q; [exact EOK|exact IH|..|exact H]; assumption.
  - (* as *)
    destruct cs as [|c0 [|c1 [|c2 cs]]]; try exact (N H).
    ib H. destruct x as [args ret]. inversion Hc as [|? ? H0 Hc1]; subst. inversion Hc1; subst.
    unfold getFunctionType in E0. apply funType_Q in E0 as [A B]; [|assumption].
    pose proof (dummies_ok E args EOK A) as DOK. destruct (tc_Q Sy var _ DOK n) as (D1 & D2 & D3).
    cbn zeta in H. ib H. injection H as <-. destruct x as [t|]; [|now apply okk_node].
    assert (OV : Forall Q (match e_info E c0 with
                        | Some ai => match ai_over ai with Some ov => ov | None => [c0] end
                        | None => [c0]
                        end)).
    { destruct (e_info E c0) as [ai|] eqn:Ei; [|auto]. destruct (ai_over ai) as [ov|] eqn:Eo; [|auto].
      eapply (rd_over _ EOK); [|eauto|eauto]; assumption. }
    eapply getOverload_Q; [exact EOK|exact IH|exact D1|exact D3|..|exact E0].
    + now apply Forall_rev.
    + constructor; [assumption|]. apply Forall_forall. intros y Hy.
      apply in_map_iff in Hy as (i & <- & _). unfold dummy; apply mo_symbol; [discriminate|]; apply (rd_dummy E EOK); lia.
  - (* as return *)
    ib H. destruct (getConstructorKind E x); try exact (N H);
      (destruct (Nat.eqb _ _); [|exact (N H)]; injection H as <-; now apply okk_node).
Qed.
End Build2.
