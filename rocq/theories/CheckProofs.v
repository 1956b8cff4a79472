(** The commands as transitions of a few parts of the state. *)
From Coq Require Import String ZArith List Bool Lia.
From Verif Require Import Base Kind Ints Str Literal Arity Term TermProofs Match Eval ListOps Typing Build Scope Lexer Parse Check SpecCheck FrontProofs.
Import ListNotations.
Open Scope Z_scope.

(* ------------------------------------------------------------------ *)
(** * What reading changes *)
Definition reading_event (e : event) : bool :=
  match e with EvSymbol _ _ | EvMark _ _ _ | EvSorry _ | EvRule _ _ _ _ _ _ _ _ => true | _ => false end.
Definition sorries (l : list (nat * event)) : list term :=
  flat_map (fun e => match snd e with EvSorry r => [r] | _ => [] end) l.

Record reads (s s' : st) : Prop := {
  r_log : exists l, s_log s' = l ++ s_log s /\ forallb (fun e => reading_event (snd e)) l = true
            /\ s_sorry s' = sorries l ++ s_sorry s /\ Forall (fun e => fst e = length (s_asmctx s)) l;
  r_asm : s_asm s' = s_asm s; r_ctx : s_asmctx s' = s_asmctx s; r_hasRef : s_hasRef s' = s_hasRef s;
  r_refNf : s_refNf s' = s_refNf s; r_refs : s_refs s' = s_refs s; r_incl : s_incl s' = s_incl s;
  r_input : s_input s' = s_input s; r_used : s_used s' = s_used s; r_opts : s_opts s' = s_opts s;
  r_lits : s_lits s' = s_lits s }.

Lemma reads_reading : reading reads.
Proof.
  constructor.
  - constructor.
    + intros s. constructor; try reflexivity. exists []. repeat split; auto.
    + intros s1 s2 s3 [(l & L1 & L2 & L3 & L4)] [(l' & M1 & M2 & M3 & M4)]. constructor; try congruence.
      exists (l' ++ l). split; [rewrite M1, L1; apply app_assoc|]. split; [rewrite forallb_app, M2, L2; reflexivity|].
      split; [rewrite M3, L3; unfold sorries; rewrite flat_map_app; apply app_assoc|].
      apply Forall_app. split; [|exact L4]. revert M4. apply Forall_impl. intros e E. congruence.
  - intros s c. constructor; try reflexivity. exists []. repeat split; auto.
  - intros s k n ty. constructor; try reflexivity. eexists [_]. repeat split; repeat constructor.
  - intros s m v a ct _. constructor; try reflexivity. eexists [_]. repeat split; repeat constructor.
  - intros s e. constructor; try reflexivity. eexists [_]. repeat split; repeat constructor.
  - intros. constructor; try reflexivity. eexists [_]. repeat split; repeat constructor.
Qed.
Lemma reads_refl : forall s, reads s s.
Proof. apply reads_reading. Qed.
Lemma reads_trans : forall s1 s2 s3, reads s1 s2 -> reads s2 s3 -> reads s1 s3.
Proof. apply reads_reading. Qed.
Lemma reads_used : forall u s s', reads (set_used u s) s' -> reads s (set_used (s_used s) s').
Proof. intros u s s' [(l & L) ? ? ? ? ? ? ? ? ? ?]. constructor; try assumption; [|reflexivity]. exists l. exact L. Qed.

(* ------------------------------------------------------------------ *)
(** * Inversion *)
Lemma mbind_ok : forall A B (m : M A) (f : A -> M B) p b p', mbind m f p = Ok (b, p') ->
  exists a p1, m p = Ok (a, p1) /\ f a p1 = Ok (b, p').
Proof.
  intros A B m f p b p' H. unfold mbind in H. apply bind_ok in H. destruct H as ([a p1] & H1 & H2). exists a, p1. auto.
Qed.
Lemma mget_ok : forall p a p', mget p = Ok (a, p') -> a = snd p /\ p' = p.
Proof. intros p a p' H. injection H as <- <-. auto. Qed.
Lemma mret_ok : forall A (x : A) p a p', mret x p = Ok (a, p') -> a = x /\ p' = p.
Proof. intros A x p a p' H. injection H as <- <-. auto. Qed.
Lemma mupd_ok : forall f p a p', mupd f p = Ok (a, p') -> p' = (fst p, f (snd p)).
Proof. intros f p a p' H. injection H as _ <-. reflexivity. Qed.
Lemma mlift_ok : forall A (r : res A) p a p', mlift r p = Ok (a, p') -> r = Ok a /\ p' = p.
Proof. intros A r p a p' H. unfold mlift in H. apply bind_ok in H. destruct H as (b & -> & H). injection H as <- <-. auto. Qed.
Lemma mlex_ok : forall A (f : lexer -> res (A * lexer)) p a p', mlex f p = Ok (a, p') -> snd p' = snd p.
Proof. intros A f p a p' H. unfold mlex in H. apply bind_ok in H. destruct H as (b & _ & H). injection H as _ <-. reflexivity. Qed.

Ltac minv H :=
  match type of H with
  | mbind _ _ _ = Ok _ =>
      let a := fresh "a" in let p1 := fresh "p" in let E := fresh "E" in
      apply mbind_ok in H; destruct H as (a & p1 & E & H)
  end.

Tactic Notation "mstep" hyp(H) "as" ident(a) ident(p1) ident(E) :=
  apply mbind_ok in H; destruct H as (a & p1 & E & H).
Ltac mstate E := first [apply mget_ok in E; destruct E as [-> ->] | apply mupd_ok in E; subst].

Definition pure {A : Type} (m : M A) : Prop := forall p a p', m p = Ok (a, p') -> p' = p /\ forall l, m (l, snd p) = Ok (a, (l, snd p)).
Lemma pure_ret : forall A (a : A), pure (mret a).
Proof. intros A a p b p' H. apply mret_ok in H. destruct H as [-> ->]. split; reflexivity. Qed.
Lemma pure_err : forall A, pure (@merr A).
Proof. intros A p b p' H. discriminate H. Qed.
Lemma pure_lift : forall A (r : res A), pure (mlift r).
Proof. intros A r p b p' H. apply mlift_ok in H. destruct H as [-> ->]. split; reflexivity. Qed.
Lemma pure_get : pure mget.
Proof. intros p b p' H. apply mget_ok in H. destruct H as [-> ->]. split; reflexivity. Qed.
Lemma pure_bind : forall A B (m : M A) (f : A -> M B), pure m -> (forall a, pure (f a)) -> pure (mbind m f).
Proof.
  intros A B m f Hm Hf p b p' H. apply mbind_ok in H. destruct H as (a & p1 & H1 & H2).
  destruct (Hm _ _ _ H1) as [-> L1]. destruct (Hf _ _ _ _ H2) as [-> L2]. split; [reflexivity|].
  intros l. unfold mbind. rewrite L1. cbn [bind fst snd]. rewrite L2. reflexivity.
Qed.
Ltac pure_all := repeat match goal with
  | |- pure (mbind _ _) => apply pure_bind; [|intros ?]
  | |- pure (mret _) => apply pure_ret
  | |- pure merr => apply pure_err
  | |- pure (mlift _) => apply pure_lift
  | |- pure mget => apply pure_get
  | |- pure (match ?x with _ => _ end) => destruct x
  | |- pure (let _ := _ in _) => cbv zeta
  | |- pure (mkE _ _ _) => unfold mkE
  | |- pure (collectPremises _ _ _) => unfold collectPremises
  end.

(* ------------------------------------------------------------------ *)
(** * Transitions *)
Record view : Type := mkView {
  v_asm : list term; v_ctx : list nat; v_hasRef : bool; v_refNf : term; v_refs : list term;
  v_incl : list text; v_sorry : list term; v_used : list term; v_log : list (nat * event) }.
Definition view_of (s : st) : view :=
  mkView (s_asm s) (s_asmctx s) (s_hasRef s) (s_refNf s) (s_refs s) (s_incl s) (s_sorry s) (s_used s) (s_log s).
Definition other_event (e : event) : bool :=
  match e with EvSymbol _ _ | EvMark _ _ _ | EvLiteral _ _ | EvEcho _ | EvPush | EvPop | EvRule _ _ _ _ _ _ _ _ => true | _ => false end.

Section Transitions.
Variable G : config.
(** [cl]: files on the command line. *)
Variable cl : bool.

(** The step as checked in the state [s]. *)
Definition step_ok (s : st) (rule proven : term) (prem args : list term) (isPop : bool) (asm : option term) (conc : term)
  : Prop :=
  tkind rule = K_PROOF_RULE /\
  (exists l, notifyStep G rule proven prem args isPop (l, s) = Ok (Some (conc, asm), (l, s))) /\
  (exists ty, tc_type (tc (env_of G s) (g_n G)) conc = Ok (Some ty) /\ tkind ty = K_BOOL_TYPE) /\
  (is_null proven = true \/ conc = proven).

Inductive tstep : st -> st -> Prop :=
| ts_silent : forall s s', view_of s' = view_of s -> tstep s s'
| ts_event : forall s s' e, other_event e = true ->
    view_of s' = view_of (with_event e s) -> tstep s s'
| ts_sorry : forall s s' r, view_of s' = view_of (with_event (EvSorry r) (set_sorry (r :: s_sorry s) s)) -> tstep s s'
| ts_assume : forall s s' name F (push : bool),
    let ctx := if push then length (s_asm s) :: s_asmctx s else s_asmctx s in
    (s_hasRef s = true -> ctx = [] -> is_null (s_refNf s) = true -> In F (s_refs s)) ->
    view_of s' = view_of (set_log ((length ctx, EvAssume name F push) :: s_log s) (set_asmctx ctx (set_asm (s_asm s ++ [F]) s))) ->
    tstep s s'
| ts_step : forall s s' u name rule proven prem args asm conc,
    step_ok (set_used u s) rule proven prem args false asm conc ->
    view_of s' = view_of (with_event (EvStep name rule proven prem args asm conc) (set_used (rule :: s_used s) s)) ->
    tstep s s'
| ts_step_pop : forall s s' u name rule proven prem args asm conc n ctx,
    step_ok (set_used u s) rule proven prem args true asm conc ->
    s_asmctx s = n :: ctx ->
    view_of s' = view_of (with_event (EvStep name rule proven prem args asm conc)
                   (set_asmctx ctx (set_asm (firstn n (s_asm s)) (set_used (rule :: s_used s) s)))) ->
    tstep s s'
| ts_assert : forall s s' a aa, (is_null (s_refNf s) = true -> aa = a) ->
    view_of s' = view_of (with_event (EvAssert a) (set_refs (aa :: s_refs s) s)) -> tstep s s'
| ts_include : forall s s' path isRef nf, ~ In path (s_incl s) ->
    (isRef = true -> s_hasRef s = false \/ cl = true) -> s_asmctx s = [] ->
    view_of s' = view_of (with_event (EvInclude path isRef nf)
                   (set_refNf nf (set_hasRef isRef (set_incl (path :: s_incl s) s)))) ->
    tstep s s'
| ts_reset : forall s s', view_of s' = view_of (with_event EvReset (set_asmctx [] (set_asm [] s))) -> tstep s s'.

Inductive tsteps : st -> st -> Prop :=
| tss_nil : forall s, tsteps s s
| tss_snoc : forall s1 s2 s3, tsteps s1 s2 -> tstep s2 s3 -> tsteps s1 s3.
Lemma tsteps_one : forall s s', tstep s s' -> tsteps s s'.
Proof. intros s s' H. apply tss_snoc with s; [constructor | exact H]. Qed.
Lemma tsteps_trans : forall s1 s2 s3, tsteps s1 s2 -> tsteps s2 s3 -> tsteps s1 s3.
Proof.
  intros s1 s2 s3 H1 H2. revert H1. induction H2 as [s | a b c H IH T]; intros H1; [exact H1|].
  apply tss_snoc with b; auto.
Qed.
Lemma tsteps_po : preorder_st tsteps.
Proof. constructor; [apply tss_nil | apply tsteps_trans]. Qed.

(** Reading is a sequence of transitions. *)
Lemma tsteps_reading : reading tsteps.
Proof.
  constructor.
  - apply tsteps_po.
  - intros s c. apply tsteps_one, ts_silent. reflexivity.
  - intros s k n ty. apply tsteps_one. eapply (ts_event s _ (EvSymbol _ _)); reflexivity.
  - intros s m v a ct _. apply tsteps_one. apply (ts_event s _ (EvMark v a ct)); reflexivity.
  - intros s e. apply tsteps_one. apply (ts_sorry s _ e). reflexivity.
  - intros s r a pl ps xs rs c b. apply tsteps_one. apply (ts_event s _ (EvRule r a pl ps xs rs c b)); reflexivity.
Qed.
Lemma set_log_self : forall s, set_log (s_log s) s = s.
Proof. intros []. reflexivity. Qed.
Lemma reads_tsteps : forall s s', reads s s' -> tsteps s s'.
Proof.
  intros s s' [(l & L1 & L2 & L3 & L4) A C H N F I P U O T].
  assert (Q : forall l, forallb (fun e => reading_event (snd e)) l = true -> Forall (fun e => fst e = length (s_asmctx s)) l ->
            tsteps s (set_sorry (sorries l ++ s_sorry s) (set_log (l ++ s_log s) s))).
  { clear. intros l. induction l as [|[n e] l IH]; intros B L.
    - cbn [sorries flat_map app]. apply tsteps_one, ts_silent. destruct s; reflexivity.
    - cbn [forallb snd] in B. apply andb_prop in B. destruct B as [B1 B2]. inversion_clear L. cbn [fst] in H. subst n.
      apply tss_snoc with (1 := IH B2 H0). destruct e; try discriminate B1.
      + apply (ts_event _ _ (EvSymbol v ty)); reflexivity.
      + apply (ts_event _ _ (EvMark v a ct)); reflexivity.
      + apply (ts_event _ _ (EvRule rule assume plCons premises args reqs conc explicit)); reflexivity.
      + apply (ts_sorry _ _ rule). reflexivity. }
  apply tss_snoc with (1 := Q l L2 L4). apply ts_silent. unfold view_of.
  destruct s, s'. cbn in *. congruence.
Qed.

(* ------------------------------------------------------------------ *)
(** * Commands that only read *)
Section Cmds.
Variable R : st -> st -> Prop.
Hypothesis RD : reading R.
Let PO : preorder_st R := rd_po R RD.
Hint Resolve pres_symbol pres_mark pres_rule pres_scope pres_set_scope pres_bindState pres_bindM pres_push pres_pop
  pres_popN pres_mkE pres_typeOf pres_mkLit pres_getVar pres_getProofRule pres_typeCheck pres_typeCheckAs
  pres_checkPair pres_getBoundVar pres_consTermOf pres_mkBinderList pres_mkLetBinderList pres_processAttributeMaps
  pres_parseSymbol pres_parseSymbolList pres_parseKeyword pres_parseIntegerNumeral pres_parseStr
  pres_parseLiteralKind pres_parseSymbolicExpr pres_parseType pres_parseFormula pres_parseListOf
  pres_parseExprList pres_parseTypeList pres_parseExprPair pres_parseExprPairList pres_parseAttributeList
  pres_parseVarListMap pres_parseVarList pres_parseLetList pres_defineProgram pres_mkDisambiguatedType
  pres_mkTypeConstant pres_parseDatatypesDef pres_parseExpr : pres.
Variable sig isRef : bool.

Lemma pres_levelM : pres R levelM.
Proof. unfold levelM. pres_all. Qed.
Lemma pres_normalForm : forall a, pres R (normalForm G a).
Proof. intros. unfold normalForm. pres_all. Qed.
Lemma pres_collectPremises : forall a l, pres R (collectPremises G a l).
Proof. intros. unfold collectPremises. pres_all. Qed.
Hint Resolve pres_levelM pres_normalForm pres_collectPremises : pres.
Lemma pres_notifyStep : forall a b c d e, pres R (notifyStep G a b c d e).
Proof. intros. unfold notifyStep. pres_all. Qed.
Lemma pres_paramArrows : forall ps am t o, pres R (paramArrows G ps am t o).
Proof. induction ps as [|p ps IH]; intros am t o; cbn [paramArrows]; pres_all. Qed.
Hint Resolve pres_notifyStep pres_paramArrows : pres.
Lemma pres_cmdDeclare : forall c, pres R (cmdDeclare G sig c).
Proof. intros. unfold cmdDeclare. pres_all. Qed.
Lemma pres_mkListM : forall l, pres R (mkListM G l).
Proof. intros. unfold mkListM. pres_all. Qed.
Hint Resolve pres_cmdDeclare pres_mkListM : pres.
Lemma pres_cmdDatatypes : forall b, pres R (cmdDatatypes G sig b).
Proof. intros. unfold cmdDatatypes. pres_all. Qed.
Lemma pres_optPart : forall A k n (r : M A) d, pres R r -> pres R (optPart k n r d).
Proof. intros. unfold optPart. pres_all. Qed.
Lemma pres_mkRequiresM : forall reqs ret, pres R (mkRequiresM G reqs ret).
Proof.
  intros reqs. unfold mkRequiresM. induction (rev reqs) as [|r l IH]; intros ret; pres_all.
Qed.
Lemma pres_ruleProgram : forall n l r, pres R (ruleProgram G n l r).
Proof. intros. unfold ruleProgram. pres_all. Qed.
Hint Resolve pres_cmdDatatypes pres_optPart pres_mkRequiresM pres_ruleProgram : pres.
Lemma pres_cmdDeclareRule : pres R (cmdDeclareRule G sig).
Proof. unfold cmdDeclareRule. pres_all. Qed.
Lemma pres_cmdDeclareSort : pres R cmdDeclareSort.
Proof. unfold cmdDeclareSort. pres_all. Qed.
Lemma pres_cmdDefineConst : pres R (cmdDefineConst G sig).
Proof. unfold cmdDefineConst. pres_all. Qed.
Lemma pres_cmdDefineSort : pres R (cmdDefineSort G sig).
Proof. unfold cmdDefineSort. pres_all. Qed.
Lemma pres_checkCases : forall v n l, pres R (checkCases v n l).
Proof. intros v n l. induction l as [|x l IH]; cbn [checkCases]; pres_all. Qed.
Hint Resolve pres_checkCases : pres.
Lemma pres_cmdProgram : pres R (cmdProgram G sig).
Proof. unfold cmdProgram. pres_all. Qed.
End Cmds.

(* ------------------------------------------------------------------ *)
(** * The other commands *)
Lemma reads_pe : forall sig, pres reads (parseExpr G sig (g_fuel G)).
Proof. intros. apply pres_parseExpr, reads_reading. Qed.
Lemma bind_silent : forall n e p u p', bindM n e p = Ok (u, p') -> view_of (snd p') = view_of (snd p).
Proof.
  intros n e p u p' H. unfold bindM in H. minv H. unfold bindState in E. minv E.
  apply mget_ok in E0. destruct E0 as [-> ->].
  destruct (bind_sym _ _ _ _) as [c|]; [|apply mret_ok in E; destruct E as [-> ->]; discriminate H].
  minv E. apply mupd_ok in E0. subst. apply mret_ok in E. destruct E as [-> ->]. apply mret_ok in H. destruct H as [_ ->].
  reflexivity.
Qed.
Lemma pop_silent : forall p u p', popM p = Ok (u, p') -> view_of (snd p') = view_of (snd p).
Proof.
  intros p u p' H. unfold popM in H. minv H. apply mget_ok in E. destruct E as [-> ->]. minv H.
  apply mlift_ok in E. destruct E as [_ ->]. apply mupd_ok in H. subst. reflexivity.
Qed.
Lemma normalForm_same : forall F p aa p', normalForm G F p = Ok (aa, p') ->
  p' = p /\ (is_null (s_refNf (snd p)) = true -> aa = F).
Proof.
  intros F p aa p' H. unfold normalForm in H. minv H. apply mget_ok in E. destruct E as [-> ->].
  destruct (is_null (s_refNf (snd p))).
  - apply mret_ok in H. destruct H as [-> ->]. auto.
  - split; [|discriminate]. unfold mkE in H. minv H. apply mget_ok in E. destruct E as [-> ->].
    apply mlift_ok in H. apply H.
Qed.

Lemma cmdAssume_trans : forall sig b, pres tsteps (cmdAssume G sig b).
Proof.
  intros sig b p u p' H. unfold cmdAssume in H. minv H. minv H. minv H. minv H. minv H. minv H.
  assert (R1 : reads (snd p) (snd p1)).
  { eapply reads_trans.
    - exact (pres_parseSymbol _ reads_reading _ _ _ E).
    - exact (pres_parseFormula _ reads_reading G _ (reads_pe sig) _ _ _ E0). }
  apply tsteps_trans with (snd p1); [now apply reads_tsteps|].
  unfold bindM in E2. minv E2. unfold bindState in E5. minv E5. apply mget_ok in E6. destruct E6 as [-> ->].
  destruct (bind_sym _ _ _ _) as [c|]; [|apply mret_ok in E5; destruct E5 as [-> ->]; discriminate E2].
  minv E5. apply mupd_ok in E6. subst. apply mret_ok in E5. destruct E5 as [-> ->]. apply mret_ok in E2. destruct E2 as [_ ->].
  apply mupd_ok in E3. subst.
  assert (X : a4 = true /\ p' = p5).
  { destruct a4; [|discriminate H]. apply mret_ok in H. destruct H as [_ ->]. auto. }
  destruct X as [-> ->]. clear H.
  unfold addAssumption in E4. minv E4. apply mupd_ok in E2. subst. minv E4. apply mget_ok in E2. destruct E2 as [-> ->].
  cbn [fst snd] in E4.
  assert (X : exists ctx, ctx = (if b then length (s_asm (snd p1)) :: s_asmctx (snd p1) else s_asmctx (snd p1)) /\
             s_asmctx (snd p2) = ctx /\ view_of (snd p2) = view_of (set_asmctx ctx (snd p1))).
  { eexists. split; [reflexivity|]. unfold notifyAssume in E1. destruct b.
    - unfold pushAssumptionScope in E1. minv E1. apply mupd_ok in E2. subst. apply mupd_ok in E1. subst.
      split; reflexivity.
    - apply mret_ok in E1. destruct E1 as [_ ->]. split; [reflexivity|]. destruct (snd p1); reflexivity. }
  destruct X as (ctx & C1 & C2 & C3).
  destruct (snd p2) as [f1 f2 f3 f4 f5 f6 f7 f8 f9 f10 f11 f12 f13 f14 f15 f16 f17] eqn:P2. cbn in E4, C2, C3.
  injection C3 as -> -> -> -> -> -> -> -> ->.
  assert (V : view_of (snd p5) = view_of (set_log ((length ctx, EvAssume a a0 b) :: s_log (snd p1))
                (set_asmctx ctx (set_asm (s_asm (snd p1) ++ [a0]) (snd p1)))) /\
              (s_hasRef (snd p1) = true -> ctx = [] -> is_null (s_refNf (snd p1)) = true -> In a0 (s_refs (snd p1)))).
  { destruct (s_hasRef (snd p1)) eqn:HR.
    - destruct ctx as [|n ctx'].
      + minv E4. apply normalForm_same in E2. cbn in E2. destruct E2 as [-> NF]. apply mret_ok in E4. destruct E4 as [E4 ->].
        split; [unfold view_of; cbn; now rewrite HR|].
        intros _ _ NU. specialize (NF NU). rewrite NF in E4. symmetry in E4. apply existsb_exists in E4.
        destruct E4 as (y & I & Q). apply term_eqb_eq in Q. now subst y.
      + apply mret_ok in E4. destruct E4 as [_ ->]. split; [unfold view_of; cbn; now rewrite HR | discriminate].
    - apply mret_ok in E4. destruct E4 as [_ ->]. split; [unfold view_of; cbn; now rewrite HR | discriminate]. }
  destruct V as [V1 V2]. apply tsteps_one. subst ctx. eapply ts_assume; [exact V2 | exact V1].
Qed.

Lemma addReferenceAssert_trans : forall F, pres tsteps (addReferenceAssert G F).
Proof.
  intros F p u p' H. unfold addReferenceAssert in H. mstep H as aa p1 E1. apply normalForm_same in E1. destruct E1 as [-> NF].
  mstep H as x p2 E2. apply mupd_ok in E2. subst. apply mupd_ok in H. subst. apply tsteps_one.
  apply (ts_assert _ _ F aa); [exact NF | reflexivity].
Qed.
Lemma event_trans : forall e, other_event e = true -> pres tsteps (logEvent e).
Proof. intros e H p u p' E. apply mupd_ok in E. subst. apply tsteps_one. apply (ts_event _ _ e); [exact H | reflexivity]. Qed.

(** Both as transitions and as reading. *)
Ltac use_pres L := first [apply L; apply tsteps_reading | apply L; [apply tsteps_reading | ..]].
Let PO := tsteps_po.
Let RD := tsteps_reading.
Lemma cmdReset_trans : pres tsteps cmdReset.
Proof.
  intros p u p' H. unfold cmdReset in H. mstep H as x p1 E. apply mupd_ok in E. subst. apply mupd_ok in H. subst.
  apply tsteps_one. apply ts_reset. reflexivity.
Qed.
Hint Resolve pres_symbol pres_mark pres_rule pres_scope pres_set_scope pres_bindState pres_bindM pres_push pres_pop
  pres_popN pres_mkE pres_typeOf pres_mkLit pres_getVar pres_getProofRule pres_typeCheck pres_typeCheckAs
  pres_checkPair pres_getBoundVar pres_consTermOf pres_mkBinderList pres_mkLetBinderList pres_processAttributeMaps
  pres_parseSymbol pres_parseSymbolList pres_parseKeyword pres_parseIntegerNumeral pres_parseStr
  pres_parseLiteralKind pres_parseSymbolicExpr pres_parseType pres_parseFormula pres_parseListOf
  pres_parseExprList pres_parseTypeList pres_parseExprPair pres_parseExprPairList pres_parseAttributeList
  pres_parseVarListMap pres_parseVarList pres_parseLetList pres_defineProgram pres_mkDisambiguatedType
  pres_mkTypeConstant pres_parseDatatypesDef pres_parseExpr
  pres_levelM pres_cmdDeclare pres_cmdDatatypes pres_cmdDeclareRule pres_cmdDeclareSort pres_cmdDefineConst
  pres_cmdDefineSort pres_cmdProgram pres_mkListM addReferenceAssert_trans cmdAssume_trans cmdReset_trans : pres.
Hint Resolve tsteps_po tsteps_reading : pres.
Lemma upd_silent : forall f, (forall s, view_of (f s) = view_of s) -> pres tsteps (mupd f).
Proof. intros f H. apply pres_upd. intros s. apply tsteps_one, ts_silent, H. Qed.
Lemma cmdDeclareConsts_trans : forall sig, pres tsteps (cmdDeclareConsts G sig).
Proof.
  intros sig. unfold cmdDeclareConsts. pres_all.
  - apply upd_silent. reflexivity.
  - apply event_trans. reflexivity.
Qed.
Lemma cmdDefine_trans : forall sig b, pres tsteps (cmdDefine G sig b).
Proof. intros sig b. unfold cmdDefine. pres_all. Qed.
Lemma cmdEcho_trans : pres tsteps cmdEcho.
Proof. unfold cmdEcho. pres_all; apply event_trans; reflexivity. Qed.
Lemma cmdPushPop_trans : forall b, pres tsteps (cmdPushPop b).
Proof. intros b. unfold cmdPushPop. pres_all; apply event_trans; reflexivity. Qed.
Lemma cmdSetOption_trans : forall b, pres tsteps (cmdSetOption G b).
Proof.
  intros b. unfold cmdSetOption. pres_all. apply upd_silent. intros s. destruct (setOption _ _ _); reflexivity.
Qed.

(** Parts of the state that notifyStep reads. *)
Lemma same_mkE : forall k cs p t p', mkE G k cs p = Ok (t, p') -> p' = p.
Proof. intros k cs p t p' H. unfold mkE in H. mstep H as s p1 E. mstate E. apply mlift_ok in H. apply H. Qed.
Lemma notifyStep_pure : forall a b c d e, pure (notifyStep G a b c d e).
Proof. intros. unfold notifyStep. pure_all. Qed.
Lemma typeCheck_pure : forall e, pure (typeCheck G e).
Proof. intros. unfold typeCheck, typeOf. pure_all. Qed.

Lemma cmdStep_trans : forall sig b, pres tsteps (cmdStep G sig b).
Proof.
  intros sig b p u p' H. unfold cmdStep in H. mstep H as lvl p0 E0.
  assert (p0 = p /\ lvl = length (s_asmctx (snd p))) as [-> ->].
  { unfold levelM in E0. mstep E0 as s q E. mstate E. apply mret_ok in E0. destruct E0 as [-> ->]. auto. }
  destruct (b && Nat.eqb (length (s_asmctx (snd p))) 0) eqn:LV; [discriminate H|].
  mstep H as name p1 E1. mstep H as tok p2 E2. mstep H as proven p3 E3. mstep H as key0 p4 E4.
  destruct (text_eqb key0 (txt "rule")); [cbn [negb] in H | discriminate H].
  mstep H as rn p5 E5. mstep H as rule p6 E6.
  assert (R1 : reads (snd p) (snd p6)).
  { pose proof reads_reading as RR. pose proof (rd_po _ RR) as RP.
    repeat (eapply reads_trans; [match goal with E : _ = Ok (_, p1) |- _ => eapply (pres_parseSymbol _ RR); exact E end|]).
    eapply reads_trans; [eapply (pres_lex reads RP); exact E2|].
    eapply reads_trans.
    { assert (X : pres reads (if token_eqb tok T_KEYWORD then mret null_term else parseFormula G (parseExpr G sig (g_fuel G)))).
      { destruct (token_eqb tok T_KEYWORD); [now apply pres_ret | apply pres_parseFormula; [exact RR | apply reads_pe]]. }
      exact (X _ _ _ E3). }
    eapply reads_trans; [exact (pres_parseKeyword _ RR _ _ _ E4)|].
    eapply reads_trans; [exact (pres_parseSymbol _ RR _ _ _ E5)|].
    exact (pres_getProofRule _ RR _ _ _ _ E6). }
  assert (RK : tkind rule = K_PROOF_RULE).
  { unfold getProofRuleM in E6. mstep E6 as s q E. mstate E. destruct (getProofRule _ _ _) as [v|]; [|discriminate E6].
    destruct (kind_eqb (tkind v) K_PROOF_RULE) eqn:K; [|discriminate E6]. apply mret_ok in E6. destruct E6 as [-> _].
    now apply kind_eqb_eq in K. }
  apply tsteps_trans with (snd p6); [now apply reads_tsteps|]. clear R1 E0 E1 E2 E3 E4 E5 E6.
  mstep H as x p7 E7. apply mupd_ok in E7. subst p7.
  mstep H as t1 p8 E8. mstep H as key1 p9 E9. mstep H as pk p10 E10. destruct pk as [premises key2]. cbn beta iota in H.
  mstep H as args p11 E11.
  assert (R2 : reads (set_used (rule :: s_used (snd p6)) (snd p6)) (snd p11)).
  { pose proof reads_reading as RR. pose proof (rd_po _ RR) as RP.
    pose proof (pres_parseKeyword _ RR) as K1.
    pose proof (pres_parseExprList _ RR G _ (reads_pe sig)) as K2.
    eapply reads_trans; [exact (pres_lex reads RP _ _ _ _ _ E8)|].
    eapply reads_trans.
    { assert (X : pres reads (if token_eqb t1 T_KEYWORD then parseKeyword else mret key0)) by pres_all. exact (X _ _ _ E9). }
    eapply reads_trans.
    { match type of E10 with ?m _ = _ => assert (X : pres reads m) by pres_all end. exact (X _ _ _ E10). }
    match type of E11 with ?m _ = _ => assert (X : pres reads m) by pres_all end. exact (X _ _ _ E11). }
  clear E8 E9 E10 E11.
  assert (U : s_used (snd p11) = rule :: s_used (snd p6)) by exact (r_used _ _ R2).
  apply reads_used in R2. cbn [s_used set_used] in R2.
  apply tsteps_trans with (set_used (s_used (snd p6)) (snd p11)); [now apply reads_tsteps|]. clear R2.
  mstep H as r p12 E12. destruct (notifyStep_pure _ _ _ _ _ _ _ _ E12) as [-> N12].
  destruct r as [[conc asm]|]; [|discriminate H].
  mstep H as ty p13 E13. destruct (typeCheck_pure _ _ _ _ E13) as [-> _].
  destruct (kind_eqb (tkind ty) K_BOOL_TYPE) eqn:TB; [cbn [negb] in H | discriminate H].
  destruct (negb (is_null proven) && negb (term_eqb conc proven)) eqn:PV; [discriminate H|].
  apply kind_eqb_eq in TB.
  assert (OK : step_ok (set_used (rule :: s_used (snd p6)) (set_used (s_used (snd p6)) (snd p11)))
                 rule proven premises args b asm conc).
  { replace (set_used (rule :: s_used (snd p6)) (set_used (s_used (snd p6)) (snd p11))) with (snd p11)
      by (rewrite <- U; destruct (snd p11); reflexivity).
    split; [exact RK|]. split; [exists (fst p11); apply N12|]. split.
    - exists ty. split; [|exact TB]. unfold typeCheck, typeOf in E13. mstep E13 as o q E14. mstep E14 as s q2 E15. mstate E15.
      apply mlift_ok in E14. destruct E14 as [-> ->]. destruct o as [t|]; [|discriminate E13].
      apply mret_ok in E13. destruct E13 as [-> _]. reflexivity.
    - destruct (is_null proven); [now left|]. right. cbn [negb andb] in PV. apply negb_false_iff in PV.
      now apply term_eqb_eq. }
  mstep H as x1 p14 E14. mstep H as x2 p15 E15. apply mupd_ok in E15. subst p15.
  apply bind_silent in H. cbn [snd] in H.
  destruct b.
  - unfold popAssumptionScope in E14. mstep E14 as s q1 E15. mstate E15.
    destruct (s_asmctx (snd p11)) as [|n ctx] eqn:C; [discriminate E14|]. mstep E14 as y q2 E15. apply mupd_ok in E15. subst q2.
    apply pop_silent in E14. cbn [snd] in E14.
    apply tsteps_one. apply ts_step_pop with (1 := OK) (n := n) (ctx := ctx) (name := name); [exact C|].
    rewrite H. clear H OK N12 E12 E13. unfold view_of, with_event in *.
    destruct (snd p14). destruct (snd p11). cbn in *. injection E14 as -> -> -> -> -> -> -> -> ->. congruence.
  - apply mret_ok in E14. destruct E14 as [_ ->]. apply tsteps_one. apply ts_step with (1 := OK) (name := name).
    rewrite H. clear H OK N12 E12 E13. unfold view_of, with_event in *. destruct (snd p11). cbn in *. congruence.
Qed.

(* ------------------------------------------------------------------ *)
(** * Files *)
Section Inc.
Variable inc : text -> bool -> bool -> term -> M bool.
Hypothesis INC : forall f a b t p r p', inc f a b t p = Ok (r, p') -> s_asmctx (snd p) = [] ->
  (b = true -> s_hasRef (snd p) = false) -> tsteps (snd p) (snd p').
Lemma cmdInclude_trans : forall sig b, pres tsteps (cmdInclude G sig inc b).
Proof.
  intros sig b p u p' H. unfold cmdInclude in H. mstep H as s p0 E. mstate E.
  destruct (b && s_hasRef (snd p)) eqn:HR; [discriminate H|].
  destruct (Nat.eqb (length (s_asmctx (snd p))) 0) eqn:L; [cbn [negb] in H | discriminate H].
  apply Nat.eqb_eq, length_zero_iff_nil in L.
  mstep H as tok p1 E1. destruct (negb (token_eqb tok T_STRING)); [discriminate H|].
  mstep H as file p2 E2. mstep H as nf p3 E3. mstep H as ok p4 E4.
  assert (R : reads (snd p) (snd p3)).
  { pose proof reads_reading as RR. pose proof (rd_po _ RR) as RP. pose proof (reads_pe sig) as K1.
    eapply reads_trans; [exact (pres_lex reads RP _ _ _ _ _ E1)|].
    eapply reads_trans; [exact (pres_parseStr _ RR _ _ _ E2)|].
    match type of E3 with ?m _ = _ => assert (X : pres reads m) by pres_all end. exact (X _ _ _ E3). }
  apply tsteps_trans with (snd p3); [now apply reads_tsteps|].
  assert (p' = p4) as ->. { destruct ok; [|discriminate H]. apply mret_ok in H. apply H. }
  apply (INC _ _ _ _ _ _ _ E4).
  - now rewrite (r_ctx _ _ R).
  - intros ->. rewrite (r_hasRef _ _ R). exact HR.
Qed.
Hint Resolve cmdDeclareConsts_trans cmdDefine_trans cmdEcho_trans cmdPushPop_trans cmdSetOption_trans
  cmdStep_trans cmdInclude_trans : pres.
Lemma runCommand_trans : forall sig r c, pres tsteps (runCommand G sig r inc c).
Proof. intros sig r c. destruct c; unfold runCommand; pres_all. Qed.
Hint Resolve runCommand_trans : pres.
Lemma parseNextCommand_trans : forall sig r f, pres tsteps (parseNextCommand G sig r inc f).
Proof. intros sig r f. unfold parseNextCommand. pres_all. Qed.
Hint Resolve parseNextCommand_trans : pres.
Lemma parseCommands_trans : forall sig r, pres tsteps (parseCommands G sig r inc).
Proof. intros sig r. unfold parseCommands. pres_all. Qed.
End Inc.

Lemma checkClosed_ok : forall p u p', checkClosed p = Ok (u, p') -> p' = p /\ s_asmctx (snd p) = [].
Proof.
  intros p u p' H. unfold checkClosed in H. mstep H as s p0 E. mstate E.
  destruct (s_asmctx (snd p)) as [|n l]; [apply mret_ok in H; destruct H as [_ ->]; auto|].
  destruct (c_ctx (s_scope (snd p))) as [|m k]; [discriminate H|].
  destruct (Nat.ltb m (length (c_decls (s_scope (snd p))))); discriminate H.
Qed.

Lemma includeFile_trans : forall fuel f a b t s r s', includeFile G fuel f a b t s = Ok (r, s') -> s_asmctx s = [] ->
  (b = true -> s_hasRef s = false \/ cl = true) -> tsteps s s' /\ s_asmctx s' = [].
Proof.
  intros fuel. induction fuel as [|n IH]; intros f a b t s r s' H C B; [discriminate H|].
  cbn [includeFile] in H. destruct (g_files G (g_path G (s_input s) f)) as [bytes|]; [|injection H as _ <-; split; [constructor | exact C]].
  destruct (existsb (text_eqb (g_path G (s_input s) f)) (s_incl s)) eqn:X; [injection H as _ <-; split; [constructor | exact C]|].
  apply bind_ok in H. destruct H as ([u q] & H1 & H2). cbn [snd] in H2. injection H2 as _ <-.
  mstep H1 as x1 q1 E1. mstep H1 as x2 q2 E2. apply mupd_ok in E2. subst q2. apply checkClosed_ok in H1.
  destruct H1 as [-> C']. cbn [snd] in C' |- *. split; [|exact C'].
  eapply parseCommands_trans in E1.
  - cbn [snd] in E1.
    eapply tsteps_trans; [|apply tss_snoc with (1 := E1); apply ts_silent; reflexivity].
    apply tsteps_one. apply ts_include with (path := g_path G (s_input s) f) (isRef := b) (nf := t); try assumption.
    + intros I. apply not_true_iff_false in X. apply X. apply existsb_exists. exists (g_path G (s_input s) f).
      split; [exact I | now apply text_eqb_eq].
    + reflexivity.
  - clear - IH. intros f a b t p r p' H C B. apply bind_ok in H. destruct H as ([r' s'] & H & Q). injection Q as _ <-.
    cbn [fst snd]. apply (IH _ _ _ _ _ _ _ H C). auto.
Qed.
End Transitions.

Lemma runIncludes_trans : forall G l s s', runIncludes G l s = Ok s' -> s_asmctx s = [] ->
  tsteps G (match l with [] => false | _ => true end) s s' /\ s_asmctx s' = [].
Proof.
  intros G l. assert (Q : forall l s s', runIncludes G l s = Ok s' -> s_asmctx s = [] ->
    tsteps G true s s' /\ s_asmctx s' = []).
  { clear l. induction l as [|[f i] l IH]; intros s s' H C.
    - injection H as <-. split; [constructor | exact C].
    - cbn [runIncludes] in H. apply bind_ok in H. destruct H as ([ok s1] & H1 & H2). destruct ok; [|discriminate H2].
      apply includeFile_trans with (cl := true) in H1; auto. destruct H1 as [T1 C1].
      destruct (IH _ _ H2 C1) as [T2 C2]. split; [|exact C2]. now apply tsteps_trans with s1. }
  intros s s' H C. destruct l as [|x l]; [injection H as <-; split; [apply tss_nil | exact C] | exact (Q _ _ _ H C)].
Qed.

Definition closing (i : input) : Prop := match i with InFile _ => True | InStdin _ => False end.
Theorem run_trans : forall G o incs i v s, run G o incs i = Ok (v, s) ->
  tsteps G (match incs with [] => false | _ => true end) (st_init o) s /\ v = verdict_of s /\
  (closing i -> s_asmctx s = []).
Proof.
  intros G o incs i v s H. unfold run in H. apply bind_ok in H. destruct H as (s1 & H1 & H).
  apply bind_ok in H. destruct H as (s2 & H2 & H). injection H as <- <-.
  apply runIncludes_trans in H1; [|reflexivity]. destruct H1 as [T1 C1].
  set (cl := match incs with [] => false | _ => true end) in *.
  destruct i as [f|bytes].
  - apply bind_ok in H2. destruct H2 as ([ok s3] & H2 & H3). destruct ok; [|discriminate H3]. injection H3 as <-.
    apply includeFile_trans with (cl := cl) in H2; [|exact C1 | discriminate]. destruct H2 as [T2 C2].
    split; [now apply tsteps_trans with s1|]. auto.
  - apply bind_ok in H2. destruct H2 as ([u q] & H2 & H3). injection H3 as <-.
    split; [|split; [reflexivity | intros F; destruct F]].
    apply tsteps_trans with s1; [exact T1|].
    apply (parseCommands_trans G cl) in H2; [exact H2|].
    intros f a b t p r p' H C B. apply bind_ok in H. destruct H as ([r' s'] & H & Q). injection Q as _ <-.
    apply includeFile_trans with (cl := cl) in H; [apply H | exact C | auto].
Qed.
