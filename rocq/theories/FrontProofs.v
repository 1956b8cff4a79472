(** What reading terms leaves alone: proofs by composition. *)
From Coq Require Import String ZArith List Bool Lia.
From Verif Require Import Base Kind Ints Str Literal Arity Term Match Eval ListOps Typing Build Scope Lexer Parse.
Import ListNotations.
Open Scope Z_scope.

(** Each run of [m] relates the states before and after. *)
Definition pres {A : Type} (R : st -> st -> Prop) (m : M A) : Prop :=
  forall p a p', m p = Ok (a, p') -> R (snd p) (snd p').

Record preorder_st (R : st -> st -> Prop) : Prop := {
  po_refl : forall s, R s s;
  po_trans : forall s1 s2 s3, R s1 s2 -> R s2 s3 -> R s1 s3 }.

Lemma bind_ok : forall A B (r : res A) (f : A -> res B) b, bind r f = Ok b -> exists a, r = Ok a /\ f a = Ok b.
Proof. intros A B [a | | |] f b H; try discriminate. exists a. auto. Qed.

Section Pres.
Variable R : st -> st -> Prop.
Hypothesis PO : preorder_st R.

Lemma pres_bind : forall A B (m : M A) (f : A -> M B), pres R m -> (forall a, pres R (f a)) -> pres R (mbind m f).
Proof.
  intros A B m f Hm Hf p b p' H. unfold mbind in H. apply bind_ok in H. destruct H as ([a p1] & H1 & H2).
  cbn [fst snd] in H2. apply (po_trans _ PO) with (snd p1); [exact (Hm _ _ _ H1) | exact (Hf _ _ _ _ H2)].
Qed.
Lemma pres_ret : forall A (a : A), pres R (mret a).
Proof. intros A a p b p' H. injection H as _ <-. apply PO. Qed.
Lemma pres_err : forall A, pres R (@merr A).
Proof. intros A p a p' H. discriminate H. Qed.
Lemma pres_fuel : forall A, @pres A R (fun _ => Fuel).
Proof. intros A p a p' H. discriminate H. Qed.
Lemma pres_lift : forall A (r : res A), pres R (mlift r).
Proof. intros A r p a p' H. unfold mlift in H. apply bind_ok in H. destruct H as (b & _ & H). injection H as _ <-. apply PO. Qed.
Lemma pres_get : pres R mget.
Proof. intros p a p' H. injection H as _ <-. apply PO. Qed.
Lemma pres_lex : forall A (f : lexer -> res (A * lexer)), pres R (mlex f).
Proof. intros A f p a p' H. unfold mlex in H. apply bind_ok in H. destruct H as (b & _ & H). injection H as _ <-. apply PO. Qed.
Lemma pres_upd : forall f, (forall s, R s (f s)) -> pres R (mupd f).
Proof. intros f H p a p' E. injection E as _ <-. apply H. Qed.
Lemma pres_loop : forall S A (body : S -> M (S + A)), (forall s, pres R (body s)) ->
  forall fuel s, pres R (mloop fuel body s).
Proof.
  intros S A body H fuel. induction fuel as [|n IH]; intros s; cbn [mloop]; [apply pres_fuel|].
  apply pres_bind; [apply H | intros [s' | a]; [apply IH | apply pres_ret]].
Qed.
Lemma pres_for : forall A (f : A -> M unit), (forall a, pres R (f a)) -> forall l, pres R (mfor l f).
Proof.
  intros A f H l. induction l as [|x l IH]; cbn [mfor]; [apply pres_ret|].
  apply pres_bind; auto.
Qed.
Lemma pres_map : forall A B (f : A -> M B), (forall a, pres R (f a)) -> forall l, pres R (mmap l f).
Proof.
  intros A B f H l. induction l as [|x l IH]; cbn [mmap]; [apply pres_ret|].
  apply pres_bind; [apply H|intros b]. apply pres_bind; [apply IH | intros; apply pres_ret].
Qed.
End Pres.

Ltac pres_step :=
  match goal with
  | |- pres _ (mbind _ _) => apply pres_bind; [assumption | | intros ?]
  | |- pres _ (mret _) => apply pres_ret; assumption
  | |- pres _ merr => apply pres_err
  | |- pres _ (fun _ => Fuel) => apply pres_fuel
  | |- pres _ (mlift _) => apply pres_lift; assumption
  | |- pres _ (mlex _) => apply pres_lex; assumption
  | |- pres _ mget => apply pres_get; assumption
  | |- pres _ (mloop _ _ _) => apply pres_loop; [assumption | intros ?]
  | |- pres _ (mfor _ _) => apply pres_for; [assumption | intros ?]
  | |- pres _ (mmap _ _) => apply pres_map; [assumption | intros ?]
  | |- pres _ next => apply pres_lex; assumption
  | |- pres _ peek => apply pres_lex; assumption
  | |- pres _ (reinsert _) => apply pres_lex; assumption
  | |- pres _ (eat _) => apply pres_lex; assumption
  | |- pres _ (eatChoice _ _) => apply pres_lex; assumption
  | |- pres _ tokText => apply pres_lex; assumption
  | |- pres _ (tokSymbol _) => apply pres_lex; assumption
  | |- pres _ (match ?x with _ => _ end) => destruct x
  | |- pres _ (let _ := _ in _) => cbv zeta
  end.
Ltac pres_all := repeat (first [solve [auto with pres] | pres_step]).

(** The state after a symbol is made. *)
Definition with_symbol (k : kind) (name : text) (ty : option term) (s : st) : st :=
  let v := Sym k (s_next s) in
  let s' := set_next (s_next s + 1)
              (set_names (fun t => if term_eqb v t then name else s_names s t)
                (set_types (fun t => if term_eqb v t then ty else s_types s t)
                  (set_marks (fun t => if term_eqb v t then None else s_marks s t)
                    (set_scope (forget v (s_scope s)) s)))) in
  set_log ((length (s_asmctx s), EvSymbol v ty) :: s_log s) s'.
Definition with_event (e : event) (s : st) : st := set_log ((length (s_asmctx s), e) :: s_log s) s.

(** A relation that every change made while reading terms satisfies. *)
Record reading (R : st -> st -> Prop) : Prop := {
  rd_po : preorder_st R;
  rd_scope : forall s c, R s (set_scope c s);
  rd_symbol : forall s k name ty, R s (with_symbol k name ty s);
  rd_mark : forall s m v a ct, markConstructorKind (s_marks s) v a ct = (m, true) -> R s (with_event (EvMark v a ct) (set_marks m s));
  rd_sorry : forall s e, R s (with_event (EvSorry e) (set_sorry (e :: s_sorry s) s));
  rd_rule : forall s r a pl ps xs rs c b, R s (with_event (EvRule r a pl ps xs rs c b) s) }.

Section Reading.
Variable R : st -> st -> Prop.
Hypothesis RD : reading R.
Let PO : preorder_st R := rd_po R RD.
Variable G : config.

Lemma pres_symbol : forall k n ty, pres R (mkSymbol k n ty).
Proof.
  intros k n ty p a p' H. cbv [mkSymbol mbind mget mupd logEvent mret bind fst snd] in H. destruct p as [l s].
  injection H as _ <-. cbn [snd]. apply (rd_symbol R RD).
Qed.
Lemma pres_mark : forall v a ct, pres R (markM v a ct).
Proof.
  intros v a ct p b p' H. destruct p as [l s]. cbv [markM mbind mget bind fst snd] in H.
  destruct (markConstructorKind (s_marks s) v a ct) as [m c] eqn:MK. destruct c.
  - cbv [mbind mupd logEvent mret bind fst snd] in H. injection H as _ <-. apply (rd_mark R RD). exact MK.
  - injection H as _ <-. apply PO.
Qed.
Lemma pres_scope : forall f, pres R (mupd (fun s => set_scope (f s) s)).
Proof. intros f. apply pres_upd. intros s. apply (rd_scope R RD). Qed.
Lemma pres_set_scope : forall c, pres R (mupd (set_scope c)).
Proof. intros c. apply pres_upd. intros s. apply (rd_scope R RD). Qed.
Lemma pres_sorry : forall e, pres R (mupd (fun s => set_sorry (e :: s_sorry s) s) ;; logEvent (EvSorry e)).
Proof. intros e p a p' H. destruct p as [l s]. injection H as _ <-. apply (rd_sorry R RD). Qed.
Lemma pres_rule : forall r a pl ps xs rs c b, pres R (logEvent (EvRule r a pl ps xs rs c b)).
Proof. intros. apply pres_upd. intros s. apply (rd_rule R RD). Qed.
Hint Resolve pres_symbol pres_mark pres_scope pres_set_scope pres_rule : pres.

Lemma pres_bindState : forall n e, pres R (bindState n e).
Proof. intros. unfold bindState. pres_all. Qed.
Hint Resolve pres_bindState : pres.
Lemma pres_bindM : forall n e, pres R (bindM n e).
Proof. intros. unfold bindM. pres_all. Qed.
Lemma pres_push : pres R pushM.
Proof. unfold pushM. apply pres_scope. Qed.
Lemma pres_pop : pres R popM.
Proof. unfold popM. pres_all. Qed.
Hint Resolve pres_bindM pres_push pres_pop : pres.
Lemma pres_popN : forall n, pres R (popN n).
Proof. induction n as [|n IH]; cbn [popN]; pres_all. Qed.
Lemma pres_mkE : forall k cs, pres R (mkE G k cs).
Proof. intros. unfold mkE. pres_all. Qed.
Lemma pres_typeOf : forall e, pres R (typeOf G e).
Proof. intros. unfold typeOf. pres_all. Qed.
Lemma pres_mkLit : forall k s, pres R (mkLit k s).
Proof. intros. unfold mkLit. pres_all. Qed.
Hint Resolve pres_popN pres_mkE pres_typeOf pres_mkLit : pres.
Lemma pres_getVar : forall n, pres R (getVarM n).
Proof. intros. unfold getVarM. pres_all. Qed.
Lemma pres_getProofRule : forall n, pres R (getProofRuleM n).
Proof. intros. unfold getProofRuleM. pres_all. Qed.
Lemma pres_typeCheck : forall e, pres R (typeCheck G e).
Proof. intros. unfold typeCheck. pres_all. Qed.
Hint Resolve pres_getVar pres_getProofRule pres_typeCheck : pres.
Lemma pres_typeCheckAs : forall e t, pres R (typeCheckAs G e t).
Proof. intros. unfold typeCheckAs. pres_all. Qed.
Lemma pres_checkPair : forall e t, pres R (checkPair e t).
Proof. intros. unfold checkPair. pres_all. Qed.
Lemma pres_getBoundVar : forall n t, pres R (getBoundVar G n t).
Proof. intros. unfold getBoundVar. pres_all. Qed.
Lemma pres_consTermOf : forall v, pres R (consTermOf G v).
Proof. intros. unfold consTermOf. pres_all. Qed.
Hint Resolve pres_typeCheckAs pres_checkPair pres_getBoundVar pres_consTermOf : pres.
Lemma pres_mkBinderList : forall v vs, pres R (mkBinderList G v vs).
Proof. intros. unfold mkBinderList. pres_all. Qed.
Lemma pres_mkLetBinderList : forall v vs, pres R (mkLetBinderList G v vs).
Proof. intros. unfold mkLetBinderList. pres_all. Qed.
Lemma pres_processAttributeMaps : forall m, pres R (processAttributeMaps m).
Proof. intros. unfold processAttributeMaps. pres_all. Qed.
Lemma pres_parseSymbol : pres R parseSymbol.
Proof. unfold parseSymbol. pres_all. Qed.
Hint Resolve pres_mkBinderList pres_mkLetBinderList pres_processAttributeMaps pres_parseSymbol : pres.
Lemma pres_parseSymbolList : pres R (parseSymbolList G).
Proof. unfold parseSymbolList. pres_all. Qed.
Lemma pres_parseKeyword : pres R parseKeyword.
Proof. unfold parseKeyword. pres_all. Qed.
Lemma pres_parseIntegerNumeral : pres R parseIntegerNumeral.
Proof. unfold parseIntegerNumeral. pres_all. Qed.
Lemma pres_parseStr : pres R parseStr.
Proof. unfold parseStr. pres_all. Qed.
Lemma pres_parseLiteralKind : pres R parseLiteralKind.
Proof. unfold parseLiteralKind. pres_all. Qed.
Lemma pres_parseSymbolicExpr : pres R (parseSymbolicExpr G).
Proof. unfold parseSymbolicExpr. pres_all. Qed.
Hint Resolve pres_parseSymbolList pres_parseKeyword pres_parseIntegerNumeral pres_parseStr pres_parseLiteralKind
  pres_parseSymbolicExpr : pres.

Section WithTerms.
Variable sig : bool.
Variable pe : M term.
Hypothesis PE : pres R pe.
Hint Resolve PE : pres.
Lemma pres_parseTypeBody : forall b, pres R (parseTypeBody G pe b).
Proof. intros. unfold parseTypeBody. pres_all. Qed.
Hint Resolve pres_parseTypeBody : pres.
Lemma pres_parseType : forall a b, pres R (parseType G pe a b).
Proof. intros. unfold parseType. pres_all. Qed.
Lemma pres_parseFormula : pres R (parseFormula G pe).
Proof. unfold parseFormula. pres_all. Qed.
Hint Resolve pres_parseType pres_parseFormula : pres.
Lemma pres_parseListOf : forall i, pres R i -> pres R (parseListOf G i).
Proof. intros. unfold parseListOf. pres_all. Qed.
Hint Resolve pres_parseListOf : pres.
Lemma pres_parseExprList : pres R (parseExprList G pe).
Proof. unfold parseExprList. pres_all. Qed.
Lemma pres_parseTypeList : forall a, pres R (parseTypeList G pe a).
Proof. intros. unfold parseTypeList. pres_all. Qed.
Lemma pres_parseExprPair : pres R (parseExprPair pe).
Proof. unfold parseExprPair. pres_all. Qed.
Lemma pres_parseExprPairList : pres R (parseExprPairList G pe).
Proof. unfold parseExprPairList. pres_all. Qed.
Hint Resolve pres_parseExprList pres_parseTypeList pres_parseExprPair pres_parseExprPairList : pres.
Lemma pres_parseAttrValue : forall k e plk a, pres R (parseAttrValue G pe k e plk a).
Proof.
  intros. unfold parseAttrValue.
  assert (Q : forall A (x : A), pres R (mupd (fun s => set_sorry (e :: s_sorry s) s) ;; (logEvent (EvSorry e) ;; mret x))).
  { intros A x p b p' H. destruct p as [l s]. injection H as _ <-. apply (rd_sorry R RD). }
  destruct k; pres_all; destruct plk; pres_all.
Qed.
Hint Resolve pres_parseAttrValue : pres.
Lemma pres_parseAttributeList : forall k e plk, pres R (parseAttributeList G pe k e plk).
Proof. intros. unfold parseAttributeList. pres_all. Qed.
Hint Resolve pres_parseAttributeList : pres.
Lemma pres_parseVarListMap : forall k, pres R (parseVarListMap G pe k).
Proof. intros. unfold parseVarListMap. pres_all. Qed.
Hint Resolve pres_parseVarListMap : pres.
Lemma pres_parseVarList : forall k, pres R (parseVarList G pe k).
Proof. intros. unfold parseVarList. pres_all. Qed.
Lemma pres_parseLetList : pres R (parseLetList G pe).
Proof. unfold parseLetList. pres_all. Qed.
Lemma pres_defineProgram : forall v q, pres R (defineProgram v q).
Proof. intros. unfold defineProgram. pres_all. Qed.
Hint Resolve pres_parseVarList pres_parseLetList pres_defineProgram : pres.
Lemma pres_mkDisambiguatedType : forall a b c, pres R (mkDisambiguatedType G a b c).
Proof. intros. unfold mkDisambiguatedType. pres_all. Qed.
Lemma pres_parseSelectors : forall a b, pres R (parseSelectors G pe a b).
Proof. intros. unfold parseSelectors. pres_all. Qed.
Hint Resolve pres_mkDisambiguatedType pres_parseSelectors : pres.
Lemma pres_parseConstructors : forall a b, pres R (parseConstructors G pe a b).
Proof. intros. unfold parseConstructors. pres_all. Qed.
Lemma pres_mkTypeConstant : forall a b, pres R (mkTypeConstant a b).
Proof. intros. unfold mkTypeConstant. pres_all. Qed.
Hint Resolve pres_parseConstructors pres_mkTypeConstant : pres.
Lemma pres_parseDatatypesDef : forall a b, pres R (parseDatatypesDef G pe a b).
Proof. intros. unfold parseDatatypesDef. pres_all. Qed.
Lemma pres_parseLiteral : forall t, pres R (parseLiteral sig t).
Proof. intros. unfold parseLiteral. pres_all. Qed.
Lemma pres_parseHead : forall t, pres R (parseHead G pe t).
Proof. intros. unfold parseHead. pres_all. Qed.
Lemma pres_letNext : forall a b c, pres R (letNext a b c).
Proof. intros. unfold letNext. pres_all. Qed.
Hint Resolve pres_parseDatatypesDef pres_parseLiteral pres_parseHead pres_letNext : pres.
Lemma pres_updateCtx : forall ps r lb, pres R (updateCtx G pe r ps lb).
Proof. induction ps as [|fr ps IH]; intros r lb; cbn [updateCtx]; pres_all. Qed.
Hint Resolve pres_updateCtx : pres.
Lemma pres_parseStep : forall s, pres R (parseStep G sig pe s).
Proof. intros. unfold parseStep. pres_all. Qed.
End WithTerms.

Lemma pres_parseExpr : forall sig fuel, pres R (parseExpr G sig fuel).
Proof.
  intros sig fuel. induction fuel as [|n IH]; cbn [parseExpr]; [apply pres_fuel|].
  apply pres_loop; [exact PO|]. intros s. apply pres_parseStep. exact IH.
Qed.
End Reading.
