(** Everything that can be named or looked up is made of symbols that exist: runs keep this. *)
From Coq Require Import String ZArith List Bool Lia.
From Verif Require Import Base Kind Ints Str Literal Arity Term TermProofs Match Eval ListOps Typing Build Scope SpecScope ScopeProofs Lexer Parse Check SpecTerm SpecCheck FrontProofs CheckProofs InvProofs InvProofs2 SpecEnv SpecMade MadeProofs MadeProofs2 UsedProofs.
Import ListNotations.
Open Scope Z_scope.

Section Runs.
Variable G : config.
Variable Sy : kind -> Z -> Prop.
Variable ok : list (nat * event) -> Prop.
Hypothesis OT : forall a b, ok (a ++ b) -> ok b.
Hypothesis ON : forall l, ok l -> no_reset l.
Hypothesis VF : forall n t, g_varinfo G (g_bvar G n t) = Some (n, t).
Hypothesis OS : forall j k i ty l, ok ((j, EvSymbol (Sym k i) ty) :: l) -> Sy k i.
Hypothesis SB : forall k i, i < n_builtins + 6 -> Sy k i.
Notation QT := (made_of Sy (g_varinfo G)).
Notation InvT := (UsedProofs.Inv G Sy).

Lemma initial_made : Forall (fun p => QT (snd p)) initial_names.
Proof.
  assert (N : 0 <= n_builtins) by (vm_compute; discriminate).
  unfold initial_names. apply Forall_app. split.
  - rewrite Forall_map. apply Forall_forall. intros [m x] I. cbn [snd fst]. apply mo_symbol; [discriminate|]. apply SB.
    apply in_combine_l in I. apply in_seq in I. unfold n_builtins. lia.
  - repeat (constructor; [first [apply mo_literal | apply mo_symbol; [discriminate | apply SB; reflexivity]]|]). constructor.
Qed.
Lemma InvT_init o : InvT 0 (st_init o).
Proof.
  assert (QS : forall k i, k <> K_VARIABLE -> (i <? n_builtins + 6) = true -> QT (Sym k i)).
  { intros k i A B. apply mo_symbol; [exact A|]. apply SB. now apply Z.ltb_lt. }
  constructor; cbn [st_init s_scope s_marks s_types s_lits s_asmctx s_asm].
  - destruct (bind_all_rel (o_ruleSymTable o) QT initial_names [] scope_empty initial_made) as (g & R & H).
    + constructor.
    + exact empty_rel.
    + exists ([], g). cbn [fst snd length]. split; [exact R|]. split; [reflexivity | exact H].
  - intros t ty E. unfold initial_types in E.
    repeat match type of E with (if ?b then _ else _) = _ => destruct b end; try discriminate E; injection E as <-.
    all: try exact (Q_Type _ _).
    all: try exact (Q_Any _ _).
    all: try (apply QS; [discriminate | reflexivity]).
    unfold type_cons. apply Q_fun; [apply Forall_cons; [|apply Forall_cons; [|apply Forall_nil]]|];
      (apply QS; [discriminate | reflexivity]).
  - intros t a c E. cbn [markConstructorKind fst] in E. destruct (term_eqb _ t); [|discriminate E].
    injection E as <- <-. apply QS; [discriminate | reflexivity].
  - intros k t E. discriminate E.
  - constructor.
Qed.
Lemma InvT_upd d s s' : InvT d s -> s_scope s' = s_scope s -> s_marks s' = s_marks s -> s_types s' = s_types s ->
  s_lits s' = s_lits s -> Forall QT (s_asm s') -> InvT d s'.
Proof. intros [A C D E F] H1 H2 H3 H4 H5. constructor; rewrite ?H1, ?H2, ?H3, ?H4; assumption. Qed.
Definition WT (s : st) : Prop := exists d, InvT d s.

Definition keepsW {A : Type} (m : M A) (post : A -> Prop) : Prop := forall p a p',
  m p = Ok (a, p') -> WT (snd p) -> ok (s_log (snd p')) -> WT (snd p') /\ post a.
Lemma keepsW_T A (m : M A) post : (forall d, T G Sy ok d m (fun _ => d) post) -> keepsW m post.
Proof. intros H p a p' E [d I] O. destruct (H d p a p' I O E) as [I' P]. split; [exists d; exact I' | exact P]. Qed.
Lemma keepsW_bind A B (m : M A) (f : A -> M B) post1 post : keepsW m post1 -> (forall a, pres grows (f a)) ->
  (forall a, post1 a -> keepsW (f a) post) -> keepsW (mbind m f) post.
Proof.
  intros Hm Hg Hf p b p' H HW O. apply mbind_ok in H. destruct H as (a & p1 & H1 & H2).
  assert (O1 : ok (s_log (snd p1))).
  { destruct (Hg a _ _ _ H2) as [l L]. rewrite L in O. exact (OT _ _ O). }
  destruct (Hm _ _ _ H1 HW O1) as [W1 P1]. exact (Hf a P1 _ _ _ H2 W1 O).
Qed.
Lemma keepsW_ret A (a : A) (post : A -> Prop) : post a -> keepsW (mret a) post.
Proof. intros H p b p' E HW _. apply mret_ok in E. destruct E as [-> ->]. auto. Qed.
Lemma keepsW_err A (post : A -> Prop) : keepsW merr post.
Proof. intros p b p' E. discriminate E. Qed.
Lemma keepsW_upd f (post : unit -> Prop) : post tt -> (forall d s, InvT d s -> InvT d (f s)) -> keepsW (mupd f) post.
Proof. intros H H1 p [] p' E [d I] _. apply mupd_ok in E. subst p'. split; [exists d; now apply H1 | exact H]. Qed.
Lemma keepsW_push : keepsW pushM (fun _ => True).
Proof. intros p a p' E [d I] O. destruct (pushM_T G Sy ok d p a p' I O E) as [I' P]. split; [eexists; exact I' | exact P]. Qed.
Lemma keepsW_pop : keepsW popM (fun _ => True).
Proof.
  intros p a p' E [d I] O. destruct d as [|d].
  - exfalso. destruct (iv_F _ _ _ _ I) as ([[|f fs] g] & R & L & _); [|discriminate L].
    unfold popM in E. mstep E as s q E1. mstate E1. mstep E as c q E1. apply mlift_ok in E1. destruct E1 as [E1 _].
    unfold popScope in E1. rewrite (re_ctx _ _ R) in E1. cbn [fst sizes] in E1. discriminate E1.
  - destruct (popM_T G Sy ok d p a p' I O E) as [I' P]. split; [eexists; exact I' | exact P].
Qed.
Lemma keepsW_log e : keepsW (logEvent e) (fun _ => True).
Proof. apply keepsW_T. intros d. apply logEvent_T. Qed.
Lemma keepsW_bindM name e : QT e -> keepsW (bindM name e) (fun _ => True).
Proof. intros H. apply keepsW_T. intros d. apply (bindM_T G Sy ok OT). exact H. Qed.

Ltac gk := pose proof grows_po; repeat first [assumption | gp_lem | pres_step | apply grows_log | apply grows_upd; intros; reflexivity
  | apply pres_normalForm; exact grows_reading].
Lemma keepsW_assume sig b : keepsW (cmdAssume G sig b) (fun _ => True).
Proof.
  intros p u p' H HW O. apply cmdAssume_read in H. destruct H as (name & F & q & H1 & H2).
  assert (GR : grows (snd q) (snd p')).
  { revert H2. match goal with |- ?m q = _ -> _ => assert (X : pres grows m) end; [|apply X].
    unfold notifyAssume, pushAssumptionScope, addAssumption. gk. }
  assert (Oq : ok (s_log (snd q))) by (destruct GR as [l L]; rewrite L in O; exact (OT _ _ O)).
  assert (K1 : keepsW (readAssume G sig) (fun r => QT (snd r))) by (apply keepsW_T; intros d; apply (readAssume_T G Sy ok VF OT OS SB)).
  destruct (K1 _ _ _ H1 HW Oq) as [Wq HF]. cbn [snd] in HF. revert H2 Wq O.
  match goal with |- ?m q = _ -> _ => assert (X : keepsW m (fun _ => True)) end; [|apply X].
  eapply (keepsW_bind _ _ _ _ (fun _ => True)); [| intros; unfold addAssumption; gk | intros ? _].
  { unfold notifyAssume. destruct b; [|now apply keepsW_ret]. unfold pushAssumptionScope.
    eapply keepsW_bind; [apply keepsW_push | intros ?; gk | intros ? _]. apply keepsW_upd; [exact Logic.I|].
    intros d s I. apply (InvT_upd d s); auto. exact (iv_asm _ _ _ _ I). }
  eapply keepsW_bind; [apply keepsW_bindM | intros; unfold addAssumption; gk | intros ? _].
  { apply okk_node. constructor; [exact HF | constructor]. }
  eapply keepsW_bind; [apply keepsW_log | intros; unfold addAssumption; gk | intros ? _].
  eapply (keepsW_bind _ _ _ _ (fun _ => True)); [| intros; gk | intros r _; destruct r; [now apply keepsW_ret | apply keepsW_err]].
  unfold addAssumption. eapply (keepsW_bind _ _ _ _ (fun _ => True)); [| intros ?; gk | intros ? _].
  { apply keepsW_upd; [exact Logic.I|]. intros d s I. apply (InvT_upd d s); auto. cbn [set_asm s_asm]. apply Forall_app.
    split; [exact (iv_asm _ _ _ _ I) | constructor; [exact HF | constructor]]. }
  intros q2 aa0 q3 H2 Wq O. split; [|exact Logic.I]. mstep H2 as s q4 E. mstate E.
  assert (snd q3 = snd q2) as ->; [|exact Wq].
  destruct (s_hasRef (snd q2)); [|apply mret_ok in H2; destruct H2 as [_ ->]; reflexivity].
  destruct (s_asmctx (snd q2)); [|apply mret_ok in H2; destruct H2 as [_ ->]; reflexivity].
  mstep H2 as aa q5 E. apply mret_ok in H2. destruct H2 as [_ ->]. apply normalForm_same in E. destruct E as [-> _]. reflexivity.
Qed.

Lemma step_QT sig isPop p name rule proven prem args q r q' : readStep G sig isPop p = Ok ((name, rule, proven, prem, args), q) ->
  notifyStep G rule proven prem args isPop q = Ok (r, q') -> WT (snd p) -> ok (s_log (snd q)) ->
  WT (snd q) /\ q' = q /\ Forall QT prem /\ Forall QT args /\ forall conc asm, r = Some (conc, asm) -> QT conc.
Proof.
  intros H1 H2 HW O. destruct (notifyStep_pure G _ _ _ _ _ _ _ _ H2) as [-> _].
  assert (K : keepsW (readStep G sig isPop) (fun r => let '(name, rule, proven, prem, args) := r in
            tkind rule = K_PROOF_RULE /\ QT proven /\ Forall QT prem /\ Forall QT args)).
  { apply keepsW_T. intros d. apply (readStep_T G Sy ok VF OT OS SB). }
  destruct (K _ _ _ H1 HW O) as (Wq & KR & Hp & Hpr & Ha). split; [exact Wq|]. split; [reflexivity|]. split; [exact Hpr|]. split; [exact Ha|].
  destruct Wq as [d I].
  exact (proj2 (notifyStep_T G Sy ok VF OT SB d rule proven prem args isPop KR Hp Hpr Ha _ _ _ I O H2)).
Qed.
Lemma keepsW_step sig b : keepsW (cmdStep G sig b) (fun _ => True).
Proof.
  intros p u p' H HW O. apply cmdStep_read in H. destruct H as (name & rule & proven & prem & args & q & conc & asm & q' & H1 & (H2 & HTY & HPRV) & H3).
  assert (E : q' = q) by (apply (notifyStep_pure G _ _ _ _ _ _ _ _ H2)). subst q'.
  assert (GR : grows (snd q) (snd p')).
  { revert H3. match goal with |- ?m q = _ -> _ => assert (X : pres grows m) end; [|apply X].
    unfold popAssumptionScope. gk. }
  assert (Oq : ok (s_log (snd q))) by (destruct GR as [l L]; rewrite L in O; exact (OT _ _ O)).
  destruct (step_QT _ _ _ _ _ _ _ _ _ _ _ H1 H2 HW Oq) as (Wq & _ & _ & _ & HC'). specialize (HC' _ _ eq_refl). revert H3 Wq O.
  match goal with |- ?m q = _ -> _ => assert (X : keepsW m (fun _ => True)) end; [|apply X].
  eapply (keepsW_bind _ _ _ _ (fun _ => True)); [| intros ?; gk | intros ? _].
  { destruct b; [|now apply keepsW_ret]. unfold popAssumptionScope.
    intros q1 aa q2 H3 W1 O2. mstep H3 as s q4 E. mstate E. destruct (s_asmctx (snd q1)) as [|sz ctx]; [discriminate H3|].
    revert H3 W1 O2. match goal with |- ?m q1 = _ -> _ => assert (X : keepsW m (fun _ => True)) end; [|apply X].
    eapply (keepsW_bind _ _ _ _ (fun _ => True)); [| intros; gk | intros ? _; apply keepsW_pop].
    apply keepsW_upd; [exact Logic.I|]. intros d s I. apply (InvT_upd d s); auto.
    cbn [set_asmctx set_asm s_asm]. pose proof (iv_asm _ _ _ _ I) as A. rewrite <- (firstn_skipn sz (s_asm s)) in A.
    apply Forall_app in A. apply A. }
  eapply keepsW_bind; [apply keepsW_log | intros ?; gk | intros ? _].
  apply keepsW_bindM. apply okk_node. constructor; [exact HC' | constructor].
Qed.
Lemma keepsW_for A (f : A -> M unit) : (forall a, pres grows (f a)) -> (forall a, keepsW (f a) (fun _ => True)) ->
  forall l, keepsW (mfor l f) (fun _ => True).
Proof.
  intros Hg Hf. induction l as [|a l IH]; cbn [mfor]; [now apply keepsW_ret|].
  eapply keepsW_bind; [apply Hf | intros; apply pres_for; [exact grows_po | exact Hg] | intros ? _; exact IH].
Qed.
Lemma keepsW_pushpop b : keepsW (cmdPushPop b) (fun _ => True).
Proof.
  unfold cmdPushPop. eapply (keepsW_bind _ _ _ _ (fun _ => True)); [apply keepsW_T; intros d; apply T_lex | intros; gk | intros tok _].
  eapply (keepsW_bind _ _ _ _ (fun _ => True)); [apply keepsW_T; intros d | intros; gk | intros num _].
  { destruct (token_eqb _ _); [apply parseIntegerNumeral_T; exact OT | now apply T_ret]. }
  apply keepsW_for; [intros; gk|]. intros a. destruct b.
  - eapply keepsW_bind; [apply keepsW_push | intros; gk | intros ? _; apply keepsW_log].
  - eapply keepsW_bind; [apply keepsW_pop | intros; gk | intros ? _; apply keepsW_log].
Qed.
Lemma keepsW_command sig r inc c : is_include c = false -> keepsW (runCommand G sig r inc c) (fun _ => True).
Proof.
  intros IC. destruct (level_command c) eqn:LC.
  - apply keepsW_T. intros d. now apply (runCommand_T G Sy ok VF OT OS SB).
  - destruct c; try discriminate IC; try discriminate LC; cbn [runCommand].
    all: first [apply keepsW_pushpop | apply keepsW_step | apply keepsW_assume | idtac].
    intros p u p' H _ O. exfalso. apply ON in O. apply O. unfold cmdReset in H. mstep H as x q E. mstate E.
    apply mupd_ok in H. subst p'. now left.
Qed.
Theorem run_made o incs i v s : run G o incs i = Ok (v, s) -> ok (s_log s) -> WT s.
Proof.
  intros H O. apply (run_keeps G ok OT WT) with (o := o) (incs := incs) (i := i) (v := v); auto.
  - intros sig r inc c p u p' IC W1 O1 E. exact (proj1 (keepsW_command sig r inc c IC p u p' E W1 O1)).
  - intros sig p t p' W1 O1 E. assert (K : keepsW (parseExpr G sig (g_fuel G)) QT).
    { apply keepsW_T. intros d. apply (parseExpr_T G Sy ok VF OT OS SB). }
    exact (proj1 (K _ _ _ E W1 O1)).
  - intros s0 path r nf incl inp [d I] _ _. exists d. apply (InvT_upd d s0); auto. exact (iv_asm _ _ _ _ I).
  - intros s0 inp [d I]. exists d. apply (InvT_upd d s0); auto. exact (iv_asm _ _ _ _ I).
  - exists 0%nat. apply InvT_init.
Qed.
End Runs.
