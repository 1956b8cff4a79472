(** Symbols do not change: proofs. *)
From Coq Require Import String ZArith List Bool Lia.
From Verif Require Import Base Kind Ints Str Literal Arity Term TermProofs Match Eval ListOps Typing Build Scope Lexer Parse Check
  SpecCheck FrontProofs CheckProofs SpecSym.
Import ListNotations.
Open Scope Z_scope.

Lemma kept_refl s : symbols_kept s s.
Proof. intros t H. auto. Qed.
Lemma kept_trans s1 s2 s3 : symbols_kept s1 s2 -> symbols_kept s2 s3 -> symbols_kept s1 s3.
Proof.
  intros A B t H. destruct (A t H) as (A1 & A2 & A3 & A4). destruct (B t A1) as (B1 & B2 & B3 & B4).
  split; [exact B1|]. split; [congruence|]. split; [congruence|]. auto.
Qed.
Lemma kept_same s s' : s_next s' = s_next s -> s_names s' = s_names s -> s_types s' = s_types s -> s_marks s' = s_marks s -> symbols_kept s s'.
Proof. intros A B C D t H. unfold old in *. rewrite A, B, C, D. auto. Qed.
Lemma fresh_neq s k t : old s t -> term_eqb (Sym k (s_next s)) t = false.
Proof.
  intros H. destruct (term_eqb (Sym k (s_next s)) t) eqn:X; [|reflexivity]. apply term_eqb_eq in X. subst t. cbn in H. lia.
Qed.
Lemma kept_reading : reading symbols_kept.
Proof.
  constructor.
  - constructor; [exact kept_refl | exact kept_trans].
  - intros s c. apply kept_same; reflexivity.
  - intros s k name ty t H. unfold with_symbol. cbn [set_log set_next set_names set_types set_marks set_scope s_names s_types s_marks].
    rewrite (fresh_neq s k t H). split; [|auto]. destruct t; cbn in *; auto. lia.
  - intros s m v a ct MK t H. unfold markConstructorKind in MK. destruct (s_marks s v) eqn:V; [discriminate MK|]. injection MK as <-.
    unfold with_event. cbn [set_log set_marks s_names s_types s_marks]. split; [destruct t; exact H|]. split; [reflexivity|]. split; [reflexivity|].
    intros m E. destruct (term_eqb v t) eqn:X; [|exact E]. apply term_eqb_eq in X. subst t. congruence.
  - intros s e. apply kept_same; reflexivity.
  - intros. apply kept_same; reflexivity.
Qed.

(** Relations that hold for whole runs: changes of the rest of the state do not matter. *)
Definition symbol_event (e : event) : bool := match e with EvSymbol _ _ => true | _ => false end.
Definition symbols_same (s s' : st) : Prop :=
  s_next s' = s_next s /\ s_names s' = s_names s /\ s_types s' = s_types s /\ s_marks s' = s_marks s /\
  exists l, s_log s' = l ++ s_log s /\ forallb (fun e => negb (symbol_event (snd e))) l = true.

Section Commands.
Variable G : config.
Variable R : st -> st -> Prop.
Hypothesis RD : reading R.
Hypothesis RS : forall s s', symbols_same s s' -> R s s'.
Let PO : preorder_st R := rd_po _ RD.
Lemma all_log e : symbol_event e = false -> pres R (logEvent e).
Proof. intros H. apply pres_upd. intros s. apply RS. repeat (split; [reflexivity|]). eexists [_]. split; [reflexivity|]. cbn. now rewrite H. Qed.
Lemma all_upd f : (forall s, s_next (f s) = s_next s /\ s_names (f s) = s_names s /\ s_types (f s) = s_types s /\ s_marks (f s) = s_marks s /\ s_log (f s) = s_log s) ->
  pres R (mupd f).
Proof. intros H. apply pres_upd. intros s. apply RS. destruct (H s) as (A & B & C & D & E). repeat (split; [assumption|]). exists []. auto. Qed.
Hint Resolve pres_symbol pres_mark pres_rule pres_scope pres_set_scope pres_bindState pres_bindM pres_push pres_pop
  pres_popN pres_mkE pres_typeOf pres_mkLit pres_getVar pres_getProofRule pres_typeCheck pres_typeCheckAs
  pres_checkPair pres_getBoundVar pres_consTermOf pres_mkBinderList pres_mkLetBinderList pres_processAttributeMaps
  pres_parseSymbol pres_parseSymbolList pres_parseKeyword pres_parseIntegerNumeral pres_parseStr
  pres_parseLiteralKind pres_parseSymbolicExpr pres_parseType pres_parseFormula pres_parseListOf
  pres_parseExprList pres_parseTypeList pres_parseExprPair pres_parseExprPairList pres_parseAttributeList
  pres_parseVarListMap pres_parseVarList pres_parseLetList pres_defineProgram pres_mkDisambiguatedType
  pres_mkTypeConstant pres_parseDatatypesDef pres_parseExpr pres_levelM pres_normalForm pres_collectPremises pres_notifyStep
  pres_cmdDeclare pres_cmdDatatypes pres_cmdDeclareRule pres_cmdDeclareSort pres_cmdDefineConst pres_cmdDefineSort pres_cmdProgram all_log : pres.
Ltac all := repeat (first [solve [auto with pres] | pres_step | apply all_upd; intros; cbn; auto 8]).
Section Inc.
Variable inc : text -> bool -> bool -> term -> M bool.
Hypothesis INC : forall f a b t, pres R (inc f a b t).
Lemma all_assert a : pres R (addReferenceAssert G a).
Proof. unfold addReferenceAssert. all. Qed.
Lemma all_pushA : pres R pushAssumptionScope.
Proof. unfold pushAssumptionScope. all. Qed.
Hint Resolve all_assert all_pushA : pres.
Lemma all_command sig r c : pres R (runCommand G sig r inc c).
Proof.
  destruct c; unfold runCommand, cmdAssume, notifyAssume, addAssumption, cmdDeclareConsts, cmdDefine, cmdEcho, cmdPushPop, cmdSetOption, cmdStep, cmdInclude, cmdReset, popAssumptionScope; all.
  destruct (setOption _ _ _); repeat split; reflexivity.
Qed.
Hint Resolve all_command : pres.
Lemma all_next sig r f : pres R (parseNextCommand G sig r inc f).
Proof. unfold parseNextCommand. all. Qed.
Hint Resolve all_next : pres.
Lemma all_commands sig r : pres R (parseCommands G sig r inc).
Proof. unfold parseCommands. all. Qed.
End Inc.
Lemma all_include n : forall f a b t s r s', includeFile G n f a b t s = Ok (r, s') -> R s s'.
Proof.
  induction n as [|n IH]; intros f a b t s r s' H; [discriminate H|].
  cbn [includeFile] in H. destruct (g_files G (g_path G (s_input s) f)) as [bytes|]; [|injection H as _ <-; apply (po_refl R PO)].
  destruct (existsb (text_eqb (g_path G (s_input s) f)) (s_incl s)) eqn:X; [injection H as _ <-; apply (po_refl R PO)|].
  apply bind_ok in H. destruct H as ([u q] & H1 & H2). cbn [snd] in H2. injection H2 as _ <-.
  mstep H1 as x1 q1 E1. mstep H1 as x2 q2 E2. apply mupd_ok in E2. subst q2. apply checkClosed_ok in H1.
  destruct H1 as [-> _]. cbn [snd]. eapply all_commands in E1.
  - cbn [snd] in E1. eapply (po_trans R PO); [|eapply (po_trans R PO); [exact E1|]]; apply RS; repeat (split; [reflexivity|]); first [exists []; split; reflexivity | eexists [_]; split; reflexivity].
  - clear - IH. intros f a b t p r p' H. apply bind_ok in H. destruct H as ([r' s'] & H & Q). injection Q as _ <-.
    cbn [fst snd]. exact (IH _ _ _ _ _ _ _ H).
Qed.
Lemma all_including n f a b t : pres R (fun p => let* r := includeFile G n f a b t (snd p) in Ok (fst r, (fst p, snd r))).
Proof. intros p r p' H. apply bind_ok in H. destruct H as ([r' s'] & H & Q). injection Q as _ <-. exact (all_include _ _ _ _ _ _ _ _ H). Qed.
Lemma all_includes l : forall s s', runIncludes G l s = Ok s' -> R s s'.
Proof.
  induction l as [|[f i] l IH]; intros s s' H; cbn [runIncludes] in H; [injection H as <-; apply (po_refl R PO)|].
  apply bind_ok in H. destruct H as ([ok s1] & H1 & H2). destruct ok; [|discriminate H2].
  exact (po_trans R PO _ _ _ (all_include _ _ _ _ _ _ _ _ H1) (IH _ _ H2)).
Qed.
Lemma all_run o incs i v s : Check.run G o incs i = Ok (v, s) -> R (st_init o) s.
Proof.
  intros H. unfold run in H. apply bind_ok in H. destruct H as (s1 & H1 & H).
  apply bind_ok in H. destruct H as (s2 & H2 & H). injection H as <- <-. apply all_includes in H1.
  apply (po_trans R PO _ s1); [exact H1|]. destruct i as [f|bytes].
  - apply bind_ok in H2. destruct H2 as ([ok s3] & H2 & H3). destruct ok; [|discriminate H3]. injection H3 as <-.
    exact (all_include _ _ _ _ _ _ _ _ H2).
  - apply bind_ok in H2. destruct H2 as ([u q] & H2 & H3). injection H3 as <-.
    apply all_commands in H2; [exact H2|]. intros. apply all_including.
Qed.
End Commands.

Lemma kept_symbols_same s s' : symbols_same s s' -> symbols_kept s s'.
Proof. intros (A & B & C & D & _). now apply kept_same. Qed.

(** Symbols in the log. *)
Definition count (v : term) (l : list event) : nat := length (filter (made v) l).
Definition log_ok (s : st) : Prop := forall v ty, In (EvSymbol v ty) (events s) ->
  (exists k i, v = Sym k i) /\ old s v /\ s_types s v = ty /\ count v (events s) = 1%nat.
Lemma count_app v l l' : count v (l ++ l') = (count v l + count v l')%nat.
Proof. unfold count. now rewrite filter_app, app_length. Qed.
Lemma count_none v l : forallb (fun e => negb (symbol_event e)) l = true -> count v l = 0%nat.
Proof.
  induction l as [|e l IH]; [reflexivity|]. cbn [forallb]. intros H. apply andb_prop in H. destruct H as [A B].
  unfold count. cbn [filter]. destruct e; try discriminate A; exact (IH B).
Qed.
Lemma log_ok_same s s' : symbols_same s s' -> log_ok s -> log_ok s'.
Proof.
  intros (A & B & C & D & l & L & F) H v ty I. unfold events in *. rewrite L, map_app in *. unfold old. rewrite A, C.
  assert (F' : forallb (fun e => negb (symbol_event e)) (map snd l) = true).
  { rewrite forallb_forall in *. intros e E. apply in_map_iff in E. destruct E as (x & <- & E). exact (F x E). }
  apply in_app_or in I. destruct I as [I | I].
  - rewrite forallb_forall in F'. specialize (F' _ I). discriminate F'.
  - destruct (H v ty I) as (H1 & H2 & H3 & H4). rewrite count_app, (count_none _ _ F'). auto.
Qed.
Lemma log_ok_reading : reading (fun s s' => log_ok s -> log_ok s').
Proof.
  constructor.
  - constructor; auto.
  - intros s c. apply log_ok_same. repeat (split; [reflexivity|]). exists []. split; reflexivity.
  - intros s k name ty H v ty' I. set (u := Sym k (s_next s)).
    assert (EV : events (with_symbol k name ty s) = EvSymbol u ty :: events s) by reflexivity. rewrite EV in *.
    assert (N : forall t, old s t -> old (with_symbol k name ty s) t) by (intros t; destruct t; cbn; [lia | auto | auto]).
    destruct I as [I | I].
    + injection I as <- <-. split; [now exists k, (s_next s)|]. split; [cbn; lia|]. split.
      * cbn. unfold u. now rewrite Z.eqb_refl, kind_eqb_refl.
      * unfold count. cbn [filter made]. rewrite term_eqb_refl. cbn [length]. f_equal.
        destruct (filter (made u) (events s)) as [|e l] eqn:X; [reflexivity|].
        assert (Y : In e (filter (made u) (events s))) by (rewrite X; now left). apply filter_In in Y. destruct Y as [Y1 Y2].
        destruct e; try discriminate Y2. cbn [made] in Y2. apply term_eqb_eq in Y2. subst v. destruct (H _ _ Y1) as (_ & O & _). cbn in O. lia.
    + destruct (H v ty' I) as (H1 & H2 & H3 & H4). split; [exact H1|]. split; [now apply N|].
      assert (NE : term_eqb u v = false) by now apply fresh_neq. split.
      * unfold with_symbol. cbn [set_log set_next set_names set_types set_marks set_scope s_types]. fold u. now rewrite NE.
      * unfold count. cbn [filter made]. rewrite NE. exact H4.
  - intros s m v a ct MK. intros H w ty I. destruct I as [I | I]; [discriminate I | exact (H w ty I)].
  - intros s e. apply log_ok_same. repeat (split; [reflexivity|]). eexists [_]. split; reflexivity.
  - intros s r a pl ps xs rs c b. apply log_ok_same. repeat (split; [reflexivity|]). eexists [_]. split; reflexivity.
Qed.
Lemma run_log_ok G o incs i v s : Check.run G o incs i = Ok (v, s) -> log_ok s.
Proof.
  intros H. apply (all_run G _ log_ok_reading log_ok_same) in H. apply H. intros u ty [].
Qed.
