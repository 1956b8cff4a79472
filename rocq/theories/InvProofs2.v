(** The invariants of reading over a whole run. *)
From Coq Require Import String ZArith List Bool Lia.
From Verif Require Import Base Kind Ints Str Literal Arity Term TermProofs Match Eval ListOps Typing Build Scope SpecScope ScopeProofs Lexer Parse Check SpecTerm SpecCheck FrontProofs CheckProofs ClosureProofs InvProofs.
Import ListNotations.
Open Scope Z_scope.

(* ------------------------------------------------------------------ *)
(** * The initial state *)
Lemma bind_all_rel rt (P : term -> Prop) : forall l g s, Forall (fun p => P (snd p)) l -> Forall (fun d : decl => P (snd d)) g ->
  rel ([], g) s -> exists g', rel ([], g') (bind_all rt l s) /\ Forall (fun d : decl => P (snd d)) g'.
Proof.
  induction l as [|[m e] l IH]; intros g s H HG R; cbn [bind_all]; [eauto|].
  inversion H as [|x y A B]; subst. destruct (is_rule rt e) eqn:K.
  - destruct (bind_sym rt s m e) as [s'|] eqn:E; [|eauto]. apply rule_rel with (F := ([], g)) in E; [|exact R|exact K].
    exact (IH g s' B HG (proj1 E)).
  - destruct (bind_rel rt _ _ m e R K) as (s' & E & R' & _). rewrite E. cbn [declare] in R'.
    apply (IH ((m, e) :: g) s' B); [constructor; assumption | exact R'].
Qed.
Lemma initial_Q vinfo P : Forall (fun p => Q vinfo P (snd p)) initial_names.
Proof.
  unfold initial_names. apply Forall_app. split.
  - rewrite Forall_map. apply Forall_forall. intros x _. cbn [snd]. apply q_sym; [reflexivity | discriminate].
  - repeat (constructor; [first [apply q_lit | apply q_sym; [reflexivity | discriminate]]|]). constructor.
Qed.
Lemma Inv_init G Pf o : Inv G Pf 0 0 (st_init o).
Proof.
  assert (QS : forall k i, sym_kind k = true -> k <> K_VARIABLE -> Q (g_varinfo G) (Pf 0%nat) (Sym k i)).
  { intros k i A B. apply q_sym; [exact A|]. intros ->. contradiction. }
  constructor; cbn [st_init s_scope s_marks s_types s_lits s_asmctx s_asm].
  - destruct (bind_all_rel (o_ruleSymTable o) (Q (g_varinfo G) (Pf 0%nat)) initial_names [] scope_empty (initial_Q _ _)) as (g & R & H).
    + constructor.
    + exact empty_rel.
    + exists ([], g). cbn [fst snd fsok length]. auto.
  - lia.
  - intros t ty E. unfold initial_types in E.
    repeat match type of E with (if ?b then _ else _) = _ => destruct b end; try discriminate E; injection E as <-.
    all: try exact (Q_Type _ _).
    all: try exact (Q_Any _ _).
    all: try (apply QS; [reflexivity | discriminate]).
    unfold type_cons. apply Q_fun; [apply Forall_cons; [|apply Forall_cons; [|apply Forall_nil]]|];
      (apply QS; [reflexivity | discriminate]).
  - intros t a c E. cbn [markConstructorKind fst] in E. destruct (term_eqb _ t); [|discriminate E].
    injection E as <- <-. split; [intros _; apply QS; [reflexivity | discriminate] | discriminate].
  - intros t a c E. cbn [markConstructorKind fst] in E. destruct (term_eqb _ t) eqn:X; [|discriminate E].
    apply term_eqb_eq in X. subst t. injection E as <- <-. split; discriminate.
  - intros k t E. discriminate E.
  - right. auto.
  - constructor.
  - split; intros t; [intros c E | intros a c E K]; cbn [st_init s_marks markConstructorKind fst] in E;
      (destruct (term_eqb _ t) eqn:X; [|discriminate E]); injection E as E1 E2; [discriminate E1|].
    apply term_eqb_eq in X. subst t. discriminate K.
Qed.

(* ------------------------------------------------------------------ *)
(** * Invariants of a run *)
Definition is_include (c : command) : bool := match c with C_INCLUDE | C_REFERENCE => true | _ => false end.
Lemma grows_refl s : grows s s.
Proof. exact (po_refl _ grows_po s). Qed.
Lemma grows_trans s1 s2 s3 : grows s1 s2 -> grows s2 s3 -> grows s1 s3.
Proof. exact (po_trans _ grows_po s1 s2 s3). Qed.
Lemma reads_grows s s' : reads s s' -> grows s s'.
Proof. intros R. destruct (r_log _ _ R) as (l & E & _). exists l. exact E. Qed.

Section Run.
Variable G : config.
Lemma grows_pe sig : pres grows (parseExpr G sig (g_fuel G)).
Proof. apply pres_parseExpr. exact grows_reading. Qed.
Ltac gc_cmd := lazymatch goal with
  | |- pres _ (cmdDeclare _ _ _) => apply pres_cmdDeclare; exact grows_reading
  | |- pres _ (cmdDatatypes _ _ _) => apply pres_cmdDatatypes; exact grows_reading
  | |- pres _ (cmdDeclareRule _ _) => apply pres_cmdDeclareRule; exact grows_reading
  | |- pres _ cmdDeclareSort => apply pres_cmdDeclareSort; exact grows_reading
  | |- pres _ (cmdDefineConst _ _) => apply pres_cmdDefineConst; exact grows_reading
  | |- pres _ (cmdDefineSort _ _) => apply pres_cmdDefineSort; exact grows_reading
  | |- pres _ (cmdProgram _ _) => apply pres_cmdProgram; exact grows_reading
  | |- pres _ (normalForm _ _) => apply pres_normalForm; exact grows_reading
  | |- pres _ (notifyStep _ _ _ _ _ _) => apply pres_notifyStep; exact grows_reading
  | |- _ => gp_lem
  end.
Ltac gc := pose proof grows_po; repeat first [assumption | gc_cmd | pres_step
  | apply grows_log | apply grows_upd; intros; first [reflexivity | destruct (setOption _ _ _); reflexivity]].
Lemma grows_command sig r inc c : is_include c = false -> pres grows (runCommand G sig r inc c).
Proof.
  intros N. pose proof (grows_pe sig) as K. destruct c; try discriminate N; cbn [runCommand];
    unfold cmdDefine, cmdReset, cmdPushPop, cmdStep, cmdAssume, notifyAssume, pushAssumptionScope, popAssumptionScope,
      addAssumption, addReferenceAssert, levelM, cmdEcho, cmdSetOption, cmdDeclareConsts; gc.
Qed.

(** [J] holds at every command boundary of a run whose log, up to there, is [ok]. *)
Variable ok : list (nat * event) -> Prop.
Hypothesis OT : forall a b, ok (a ++ b) -> ok b.
Variable J : st -> Prop.
Hypothesis JC : forall sig r inc c p u p', is_include c = false -> J (snd p) -> ok (s_log (snd p')) ->
  runCommand G sig r inc c p = Ok (u, p') -> J (snd p').
Hypothesis JE : forall sig p t p', J (snd p) -> ok (s_log (snd p')) -> parseExpr G sig (g_fuel G) p = Ok (t, p') -> J (snd p').
Hypothesis JI : forall s path r nf incl inp, J s -> s_asmctx s = [] -> ok ((O, EvInclude path r nf) :: s_log s) ->
  J (set_log ((O, EvInclude path r nf) :: s_log s) (set_input inp (set_refNf nf (set_hasRef r (set_incl incl s))))).
Hypothesis JU : forall s inp, J s -> J (set_input inp s).

Lemma ok_tail s s' : grows s s' -> ok (s_log s') -> ok (s_log s).
Proof. intros [l L] H. rewrite L in H. exact (OT _ _ H). Qed.

Definition keepsJ {A : Type} (m : M A) : Prop := forall p a p', m p = Ok (a, p') ->
  grows (snd p) (snd p') /\ (J (snd p) -> ok (s_log (snd p')) -> J (snd p')).
Lemma keepsJ_bind A B (m : M A) (f : A -> M B) : keepsJ m -> (forall a, keepsJ (f a)) -> keepsJ (mbind m f).
Proof.
  intros Hm Hf p b p' H. apply mbind_ok in H. destruct H as (a & p1 & H1 & H2).
  destruct (Hm _ _ _ H1) as [G1 J1]. destruct (Hf _ _ _ _ H2) as [G2 J2].
  split; [exact (grows_trans _ _ _ G1 G2)|]. intros HJ O. apply J2; [|exact O]. apply J1; [exact HJ|]. exact (ok_tail _ _ G2 O).
Qed.
Lemma keepsJ_ret A (a : A) : keepsJ (mret a).
Proof. intros p b p' H. apply mret_ok in H. destruct H as [_ ->]. split; [apply grows_refl | auto]. Qed.
Lemma keepsJ_err A : keepsJ (@merr A).
Proof. intros p b p' H. discriminate H. Qed.
Lemma keepsJ_lex A (f : lexer -> res (A * lexer)) : keepsJ (mlex f).
Proof. intros p b p' H. apply mlex_ok in H. rewrite H. split; [apply grows_refl | auto]. Qed.
Lemma keepsJ_loop S A (body : S -> M (S + A)) : (forall s, keepsJ (body s)) -> forall fuel s, keepsJ (mloop fuel body s).
Proof.
  intros H fuel. induction fuel as [|m IH]; intros s; cbn [mloop]; [intros p b p' X; discriminate X|].
  apply keepsJ_bind; [apply H | intros [s' | a]; [apply IH | apply keepsJ_ret]].
Qed.
Ltac kj := repeat first [apply keepsJ_bind; [|intros] | apply keepsJ_ret | apply keepsJ_err | apply keepsJ_lex | assumption
  | match goal with |- keepsJ (match ?x with _ => _ end) => destruct x end].
Lemma keepsJ_next : keepsJ next.
Proof. unfold next. kj. Qed.
Lemma keepsJ_peek : keepsJ peek.
Proof. unfold peek. kj. Qed.
Lemma keepsJ_pe sig : keepsJ (parseExpr G sig (g_fuel G)).
Proof. intros p a p' H. split; [exact (grows_pe sig _ _ _ H)|]. intros HJ O. exact (JE _ _ _ _ HJ O H). Qed.

Section Inc.
Variable inc : text -> bool -> bool -> term -> M bool.
Hypothesis INC : forall f a b t p r p', inc f a b t p = Ok (r, p') -> s_asmctx (snd p) = [] ->
  grows (snd p) (snd p') /\ (J (snd p) -> ok (s_log (snd p')) -> J (snd p')).
Lemma keepsJ_include sig b : keepsJ (cmdInclude G sig inc b).
Proof.
  intros p u p' H. unfold cmdInclude in H. mstep H as s p0 E. mstate E.
  destruct (b && s_hasRef (snd p)) eqn:HR; [discriminate H|].
  destruct (Nat.eqb (length (s_asmctx (snd p))) 0) eqn:L; [cbn [negb] in H | discriminate H].
  apply Nat.eqb_eq, length_zero_iff_nil in L.
  mstep H as tok p1 E1. destruct (negb (token_eqb tok T_STRING)); [discriminate H|].
  mstep H as file p2 E2. mstep H as nf p3 E3. mstep H as okb p4 E4.
  assert (p' = p4) as ->. { destruct okb; [|discriminate H]. apply mret_ok in H. apply H. }
  assert (R : reads (snd p) (snd p3)).
  { pose proof reads_reading as RR. pose proof (rd_po _ RR) as RP. pose proof (reads_pe G sig) as K1.
    eapply reads_trans; [exact (pres_lex reads RP _ _ _ _ _ E1)|].
    eapply reads_trans; [exact (pres_parseStr _ RR _ _ _ E2)|].
    match type of E3 with ?m _ = _ => assert (X : pres reads m) by (repeat first [assumption | pres_step]) end. exact (X _ _ _ E3). }
  assert (K1 : snd p1 = snd p) by (unfold peek in E1; exact (mlex_ok _ _ _ _ _ E1)).
  assert (K2 : snd p2 = snd p1).
  { clear - E2. unfold parseStr in E2. mstep E2 as x q E. unfold eat in E. apply mlex_ok in E.
    mstep E2 as y q1 E1. unfold tokText in E1. apply mlex_ok in E1. apply mlift_ok in E2. destruct E2 as [_ ->]. congruence. }
  assert (K3 : keepsJ (if b then let! t := peek in if token_eqb t T_RPAREN then mret null_term else parseExpr G sig (g_fuel G)
                       else mret null_term)).
  { pose proof (keepsJ_pe sig). unfold peek. kj. }
  destruct (K3 _ _ _ E3) as [G3 J3]. rewrite K2, K1 in G3, J3.
  destruct (INC _ _ _ _ _ _ _ E4) as [G4 J4]; [now rewrite (r_ctx _ _ R)|].
  split; [exact (grows_trans _ _ _ G3 G4)|]. intros HJ O. apply J4; [|exact O]. apply J3; [exact HJ|]. exact (ok_tail _ _ G4 O).
Qed.
Lemma keepsJ_command sig r c : keepsJ (runCommand G sig r inc c).
Proof.
  destruct (is_include c) eqn:IC.
  - destruct c; try discriminate IC; cbn [runCommand]; apply keepsJ_include.
  - intros p u p' H. split; [exact (grows_command sig r inc c IC _ _ _ H)|]. intros HJ O. exact (JC _ _ _ _ _ _ _ IC HJ O H).
Qed.
Lemma keepsJ_commands sig r : keepsJ (parseCommands G sig r inc).
Proof.
  unfold parseCommands, parseNextCommand, eatChoice, next, tokText, eat. apply keepsJ_loop. intros f.
  pose proof (keepsJ_command sig r). kj; auto.
Qed.
End Inc.

Lemma keepsJ_file : forall fuel f a b t s r s', includeFile G fuel f a b t s = Ok (r, s') -> s_asmctx s = [] ->
  (grows s s' /\ (J s -> ok (s_log s') -> J s')) /\ s_asmctx s' = [].
Proof.
  intros fuel. induction fuel as [|m IH]; intros f a b t s r s' H C; [discriminate H|].
  assert (TR : (grows s s /\ (J s -> ok (s_log s) -> J s)) /\ s_asmctx s = []) by (split; [split; [apply grows_refl | auto] | exact C]).
  cbn [includeFile] in H. destruct (g_files G (g_path G (s_input s) f)) as [bytes|]; [|injection H as _ <-; exact TR].
  destruct (existsb (text_eqb (g_path G (s_input s) f)) (s_incl s)); [injection H as _ <-; exact TR|]. clear TR.
  apply bind_ok in H. destruct H as ([u q] & H1 & H2). cbn [snd] in H2. injection H2 as _ <-.
  mstep H1 as x1 q1 E1. mstep H1 as x2 q2 E2. apply mupd_ok in E2. subst q2. apply checkClosed_ok in H1.
  destruct H1 as [-> C']. cbn [snd] in C' |- *. split; [|exact C'].
  apply keepsJ_commands in E1.
  2:{ clear - IH. intros f a b t p r p' H C. apply bind_ok in H. destruct H as ([r' s'] & H & Q). injection Q as _ <-.
      cbn [fst snd]. exact (proj1 (IH _ _ _ _ _ _ _ H C)). }
  cbn [snd] in E1. destruct E1 as [G1 J1].
  assert (L1 : s_asmctx (set_input (g_path G (s_input s) f) (set_refNf t (set_hasRef b (set_incl (g_path G (s_input s) f :: s_incl s) s)))) = []) by exact C.
  rewrite L1 in G1, J1. cbn [length] in G1, J1.
  split.
  - destruct G1 as [l L]. exists (l ++ [(O, EvInclude (g_path G (s_input s) f) b t)]). cbn [set_input s_log] in *.
    rewrite L. rewrite <- app_assoc. reflexivity.
  - intros HJ O. apply JU. apply J1; [|exact O]. refine (JI s _ b t _ _ HJ C _).
    apply (ok_tail _ _ G1). exact O.
Qed.
Lemma keepsJ_includes : forall l s s', runIncludes G l s = Ok s' -> s_asmctx s = [] ->
  (grows s s' /\ (J s -> ok (s_log s') -> J s')) /\ s_asmctx s' = [].
Proof.
  induction l as [|[f i] l IH]; intros s s' H C; cbn [runIncludes] in H.
  - injection H as <-. split; [split; [apply grows_refl | auto] | exact C].
  - apply bind_ok in H. destruct H as ([okb s1] & H1 & H2). destruct okb; [|discriminate H2].
    apply keepsJ_file in H1; [|exact C]. destruct H1 as [[G1 J1] C1]. destruct (IH _ _ H2 C1) as [[G2 J2] C2].
    split; [|exact C2]. split; [exact (grows_trans _ _ _ G1 G2)|]. intros HJ O. apply J2; [|exact O]. apply J1; [exact HJ|].
    exact (ok_tail _ _ G2 O).
Qed.
Theorem run_keeps o incs i v s : run G o incs i = Ok (v, s) -> J (st_init o) -> ok (s_log s) -> J s.
Proof.
  intros H HJ O. unfold run in H. apply bind_ok in H. destruct H as (s1 & H1 & H).
  apply bind_ok in H. destruct H as (s2 & H2 & H). injection H as <- <-.
  apply keepsJ_includes in H1; [|reflexivity]. destruct H1 as [[G1 J1] C1].
  destruct i as [f|bytes].
  - apply bind_ok in H2. destruct H2 as ([okb s3] & H2 & H3). destruct okb; [|discriminate H3]. injection H3 as <-.
    apply keepsJ_file in H2; [|exact C1]. destruct H2 as [[G2 J2] _]. apply J2; [|exact O]. apply J1; [exact HJ|].
    exact (ok_tail _ _ G2 O).
  - apply bind_ok in H2. destruct H2 as ([u q] & H2 & H3). injection H3 as <-.
    apply keepsJ_commands in H2.
    + destruct H2 as [G2 J2]. apply J2; [|exact O]. apply J1; [exact HJ|]. exact (ok_tail _ _ G2 O).
    + intros f a b t p r p' H C. apply bind_ok in H. destruct H as ([r' s'] & H & Q). injection Q as _ <-.
      exact (proj1 (keepsJ_file _ _ _ _ _ _ _ _ H C)).
Qed.
End Run.

(* ------------------------------------------------------------------ *)
(** * Everything that can be named or looked up is well-formed *)
Definition TT (_ : nat) (_ : term) : Prop := True.
Definition no_reset (l : list (nat * event)) : Prop := ~ In EvReset (map snd l).
Lemma no_reset_tail a b : no_reset (a ++ b) -> no_reset b.
Proof. unfold no_reset. rewrite map_app. intros H I. apply H. apply in_or_app. now right. Qed.

Section Trivial.
Variable G : config.
Variable ok : list (nat * event) -> Prop.
Hypothesis OT : forall a b, ok (a ++ b) -> ok b.
Hypothesis ON : forall l, ok l -> no_reset l.
Hypothesis HC : coherent G.
Lemma TT_levels : levels TT.
Proof.
  split; [|split].
  - intros j. right. intros F. exact Logic.I.
  - intros i j F _ _. exact Logic.I.
  - intros i j _ F. exact Logic.I.
Qed.
Lemma TT_log : ok_log G TT 0 ok.
Proof. split; [exact OT | left; intros F; exact Logic.I]. Qed.
Let HL := TT_levels.
Let HO := TT_log.
Notation QT := (Q (g_varinfo G) (fun _ => True)).
Notation InvT := (Inv G TT 0).

Lemma InvT_upd d s s' : InvT d s -> s_scope s' = s_scope s -> s_marks s' = s_marks s -> s_types s' = s_types s ->
  s_lits s' = s_lits s -> Forall QT (s_asm s') -> s_next s' = s_next s -> grows s s' -> InvT d s'.
Proof.
  intros [A B C D K E F X KN] H1 H2 H3 H4 H5 H6 H7. constructor; rewrite ?H1, ?H2, ?H3, ?H4; try assumption.
  - left. intros Y. exact Logic.I.
  - apply (known_keep s); auto. lia.
Qed.
Definition WT (s : st) : Prop := exists d, InvT d s.

Definition keepsW {A : Type} (m : M A) (post : A -> Prop) : Prop := forall p a p',
  m p = Ok (a, p') -> WT (snd p) -> ok (s_log (snd p')) -> WT (snd p') /\ post a.
Lemma keepsW_T A (m : M A) post : (forall d, T G TT 0 ok d m (fun _ => d) post) -> keepsW m post.
Proof. intros H p a p' E [d I] O. destruct (H d p a p' I O E) as [I' P]. split; [exists d; exact I' | exact P]. Qed.
Lemma keepsW_bind A B (m : M A) (f : A -> M B) post1 post : keepsW m post1 -> (forall a, pres grows (f a)) ->
  (forall a, post1 a -> keepsW (f a) post) -> keepsW (mbind m f) post.
Proof.
  intros Hm Hg Hf p b p' H HW O. apply mbind_ok in H. destruct H as (a & p1 & H1 & H2).
  assert (O1 : ok (s_log (snd p1))).
  { destruct (Hg a _ _ _ H2) as [l L]. rewrite L in O. exact (OT _ _ O). }
  destruct (Hm _ _ _ H1 HW O1) as [W1 P1]. exact (Hf a P1 _ _ _ H2 W1 O).
Qed.
Lemma keepsW_ret A (a : A) (post : A -> Prop) : post a -> keepsW (mret a) post.
Proof. intros H p b p' E HW _. apply mret_ok in E. destruct E as [-> ->]. auto. Qed.
Lemma keepsW_err A (post : A -> Prop) : keepsW merr post.
Proof. intros p b p' E. discriminate E. Qed.
Lemma keepsW_upd f (post : unit -> Prop) : post tt -> (forall d s, InvT d s -> InvT d (f s)) -> keepsW (mupd f) post.
Proof. intros H H1 p [] p' E [d I] _. apply mupd_ok in E. subst p'. split; [exists d; now apply H1 | exact H]. Qed.
Lemma keepsW_push : keepsW pushM (fun _ => True).
Proof. intros p a p' E [d I] O. destruct (pushM_T G TT 0 ok d p a p' I O E) as [I' P]. split; [eexists; exact I' | exact P]. Qed.
Lemma keepsW_pop : keepsW popM (fun _ => True).
Proof.
  intros p a p' E [d I] O. destruct d as [|d].
  - exfalso. destruct (iv_F _ _ _ _ _ I) as ([[|f fs] g] & R & L & _); [|discriminate L].
    unfold popM in E. mstep E as s q E1. mstate E1. mstep E as c q E1. apply mlift_ok in E1. destruct E1 as [E1 _].
    unfold popScope in E1. rewrite (re_ctx _ _ R) in E1. cbn [fst sizes] in E1. discriminate E1.
  - destruct (popM_T G TT 0 ok d (Nat.le_0_l d) p a p' I O E) as [I' P]. split; [eexists; exact I' | exact P].
Qed.
Lemma keepsW_log e : keepsW (logEvent e) (fun _ => True).
Proof. apply keepsW_T. intros d. apply logEvent_T. Qed.
Lemma keepsW_bindM name e : QT e -> keepsW (bindM name e) (fun _ => True).
Proof. intros H. apply keepsW_T. intros d. apply (bindM_T G TT 0 ok HO). exact H. Qed.

Ltac gk := pose proof grows_po; repeat first [assumption | gp_lem | pres_step | apply grows_log | apply grows_upd; intros; reflexivity
  | apply pres_normalForm; exact grows_reading].
Lemma keepsW_assume sig b : keepsW (cmdAssume G sig b) (fun _ => True).
Proof.
  intros p u p' H HW O. apply cmdAssume_read in H. destruct H as (name & F & q & H1 & H2).
  assert (GR : grows (snd q) (snd p')).
  { revert H2. match goal with |- ?m q = _ -> _ => assert (X : pres grows m) end; [|apply X].
    unfold notifyAssume, pushAssumptionScope, addAssumption. gk. }
  assert (Oq : ok (s_log (snd q))) by (destruct GR as [l L]; rewrite L in O; exact (OT _ _ O)).
  assert (K1 : keepsW (readAssume G sig) (fun r => QT (snd r))) by (apply keepsW_T; intros d; apply (readAssume_T G TT 0 ok HC HL HO)).
  destruct (K1 _ _ _ H1 HW Oq) as [Wq HF]. cbn [snd] in HF. revert H2 Wq O.
  match goal with |- ?m q = _ -> _ => assert (X : keepsW m (fun _ => True)) end; [|apply X].
  eapply (keepsW_bind _ _ _ _ (fun _ => True)); [| intros; unfold addAssumption; gk | intros ? _].
  { unfold notifyAssume. destruct b; [|now apply keepsW_ret]. unfold pushAssumptionScope.
    eapply keepsW_bind; [apply keepsW_push | intros ?; gk | intros ? _]. apply keepsW_upd; [exact Logic.I|].
    intros d s I. apply (InvT_upd d s); auto; try gro. exact (iv_asm _ _ _ _ _ I). }
  eapply keepsW_bind; [apply keepsW_bindM | intros; unfold addAssumption; gk | intros ? _].
  { apply q_node; [reflexivity | constructor; [exact HF | constructor] | intros _; constructor; [exact Logic.I | constructor]]. }
  eapply keepsW_bind; [apply keepsW_log | intros; unfold addAssumption; gk | intros ? _].
  eapply (keepsW_bind _ _ _ _ (fun _ => True)); [| intros; gk | intros r _; destruct r; [now apply keepsW_ret | apply keepsW_err]].
  unfold addAssumption. eapply (keepsW_bind _ _ _ _ (fun _ => True)); [| intros ?; gk | intros ? _].
  { apply keepsW_upd; [exact Logic.I|]. intros d s I. apply (InvT_upd d s); auto; try gro. cbn [set_asm s_asm]. apply Forall_app.
    split; [exact (iv_asm _ _ _ _ _ I) | constructor; [exact HF | constructor]]. }
  intros q2 aa0 q3 H2 Wq O. split; [|exact Logic.I]. mstep H2 as s q4 E. mstate E.
  assert (snd q3 = snd q2) as ->; [|exact Wq].
  destruct (s_hasRef (snd q2)); [|apply mret_ok in H2; destruct H2 as [_ ->]; reflexivity].
  destruct (s_asmctx (snd q2)); [|apply mret_ok in H2; destruct H2 as [_ ->]; reflexivity].
  mstep H2 as aa q5 E. apply mret_ok in H2. destruct H2 as [_ ->]. apply normalForm_same in E. destruct E as [-> _]. reflexivity.
Qed.

Lemma step_QT sig isPop p name rule proven prem args q r q' : readStep G sig isPop p = Ok ((name, rule, proven, prem, args), q) ->
  notifyStep G rule proven prem args isPop q = Ok (r, q') -> WT (snd p) -> ok (s_log (snd q)) ->
  WT (snd q) /\ q' = q /\ Forall QT prem /\ Forall QT args /\ forall conc asm, r = Some (conc, asm) -> QT conc.
Proof.
  intros H1 H2 HW O. destruct (notifyStep_pure G _ _ _ _ _ _ _ _ H2) as [-> _].
  assert (K : keepsW (readStep G sig isPop) (fun r => let '(name, rule, proven, prem, args) := r in
            tkind rule = K_PROOF_RULE /\ QT proven /\ Forall QT prem /\ Forall QT args)).
  { apply keepsW_T. intros d. apply (readStep_T G TT 0 ok HC HL HO). }
  destruct (K _ _ _ H1 HW O) as (Wq & KR & Hp & Hpr & Ha). split; [exact Wq|]. split; [reflexivity|]. split; [exact Hpr|]. split; [exact Ha|].
  destruct Wq as [d I].
  exact (proj2 (notifyStep_T G TT 0 ok HC HL HO (fun _ => Logic.I) d rule proven prem args isPop KR Hp Hpr Ha _ _ _ I O H2)).
Qed.
Lemma keepsW_step sig b : keepsW (cmdStep G sig b) (fun _ => True).
Proof.
  intros p u p' H HW O. apply cmdStep_read in H. destruct H as (name & rule & proven & prem & args & q & conc & asm & q' & H1 & (H2 & HTY & HPRV) & H3).
  assert (E : q' = q) by (apply (notifyStep_pure G _ _ _ _ _ _ _ _ H2)). subst q'.
  assert (GR : grows (snd q) (snd p')).
  { revert H3. match goal with |- ?m q = _ -> _ => assert (X : pres grows m) end; [|apply X].
    unfold popAssumptionScope. gk. }
  assert (Oq : ok (s_log (snd q))) by (destruct GR as [l L]; rewrite L in O; exact (OT _ _ O)).
  destruct (step_QT _ _ _ _ _ _ _ _ _ _ _ H1 H2 HW Oq) as (Wq & _ & _ & _ & HC'). specialize (HC' _ _ eq_refl). revert H3 Wq O.
  match goal with |- ?m q = _ -> _ => assert (X : keepsW m (fun _ => True)) end; [|apply X].
  eapply (keepsW_bind _ _ _ _ (fun _ => True)); [| intros ?; gk | intros ? _].
  { destruct b; [|now apply keepsW_ret]. unfold popAssumptionScope.
    intros q1 aa q2 H3 W1 O2. mstep H3 as s q4 E. mstate E. destruct (s_asmctx (snd q1)) as [|sz ctx]; [discriminate H3|].
    revert H3 W1 O2. match goal with |- ?m q1 = _ -> _ => assert (X : keepsW m (fun _ => True)) end; [|apply X].
    eapply (keepsW_bind _ _ _ _ (fun _ => True)); [| intros; gk | intros ? _; apply keepsW_pop].
    apply keepsW_upd; [exact Logic.I|]. intros d s I. apply (InvT_upd d s); auto; try gro.
    cbn [set_asmctx set_asm s_asm]. pose proof (iv_asm _ _ _ _ _ I) as A. rewrite <- (firstn_skipn sz (s_asm s)) in A.
    apply Forall_app in A. apply A. }
  eapply keepsW_bind; [apply keepsW_log | intros ?; gk | intros ? _].
  apply keepsW_bindM. apply q_node; [reflexivity | constructor; [exact HC' | constructor] | intros _; constructor; [exact Logic.I | constructor]].
Qed.
Lemma keepsW_for A (f : A -> M unit) : (forall a, pres grows (f a)) -> (forall a, keepsW (f a) (fun _ => True)) ->
  forall l, keepsW (mfor l f) (fun _ => True).
Proof.
  intros Hg Hf. induction l as [|a l IH]; cbn [mfor]; [now apply keepsW_ret|].
  eapply keepsW_bind; [apply Hf | intros; apply pres_for; [exact grows_po | exact Hg] | intros ? _; exact IH].
Qed.
Lemma keepsW_pushpop b : keepsW (cmdPushPop b) (fun _ => True).
Proof.
  unfold cmdPushPop. eapply (keepsW_bind _ _ _ _ (fun _ => True)); [apply keepsW_T; intros d; apply T_lex | intros; gk | intros tok _].
  eapply (keepsW_bind _ _ _ _ (fun _ => True)); [apply keepsW_T; intros d | intros; gk | intros num _].
  { destruct (token_eqb _ _); [apply parseIntegerNumeral_T; exact HO | now apply T_ret]. }
  apply keepsW_for; [intros; gk|]. intros a. destruct b.
  - eapply keepsW_bind; [apply keepsW_push | intros; gk | intros ? _; apply keepsW_log].
  - eapply keepsW_bind; [apply keepsW_pop | intros; gk | intros ? _; apply keepsW_log].
Qed.
Lemma keepsW_command sig r inc c : is_include c = false -> keepsW (runCommand G sig r inc c) (fun _ => True).
Proof.
  intros IC. destruct (level_command c) eqn:LC.
  - apply keepsW_T. intros d. now apply (runCommand_T G TT 0 ok HC HL HO).
  - destruct c; try discriminate IC; try discriminate LC; cbn [runCommand].
    all: first [apply keepsW_pushpop | apply keepsW_step | apply keepsW_assume | idtac].
    intros p u p' H _ O. exfalso. apply ON in O. apply O. unfold cmdReset in H. mstep H as x q E. mstate E.
    apply mupd_ok in H. subst p'. now left.
Qed.
Theorem run_WT o incs i v s : run G o incs i = Ok (v, s) -> ok (s_log s) -> WT s.
Proof.
  intros H O. apply (run_keeps G ok OT WT) with (o := o) (incs := incs) (i := i) (v := v); auto.
  - intros sig r inc c p u p' IC W1 O1 E. exact (proj1 (keepsW_command sig r inc c IC p u p' E W1 O1)).
  - intros sig p t p' W1 O1 E. assert (K : keepsW (parseExpr G sig (g_fuel G)) QT).
    { apply keepsW_T. intros d. apply (parseExpr_T G TT 0 ok HC HL HO). }
    exact (proj1 (K _ _ _ E W1 O1)).
  - intros s0 path r nf incl inp [d I] _ _. exists d. apply (InvT_upd d s0); auto; try gro. exact (iv_asm _ _ _ _ _ I).
  - intros s0 inp [d I]. exists d. apply (InvT_upd d s0); auto; try gro. exact (iv_asm _ _ _ _ _ I).
  - exists 0%nat. apply Inv_init.
Qed.
End Trivial.
