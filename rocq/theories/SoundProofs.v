(** Soundness of runs: what is concluded follows from what is assumed. *)
From Coq Require Import String ZArith List Bool Lia.
From Verif Require Import Base Kind Ints Str Literal Arity Term TermProofs Match Eval ListOps Typing Build Scope SpecScope ScopeProofs Lexer Parse Check SpecTerm SpecCheck FrontProofs CheckProofs CheckProofs2 ClosureProofs InvProofs InvProofs2.
Import ListNotations.
Open Scope Z_scope.

(* ------------------------------------------------------------------ *)
(** * Terms without proofs *)
Lemma Q_free vinfo P P' t : Q vinfo P t -> ~ has_proof vinfo t -> Q vinfo P' t.
Proof.
  intros H. induction H as [k i K V | l | k cs K C IH PR] using Q_ind2; intros N.
  - apply q_sym; [exact K|]. intros E m t I. apply (proj2 (V E m t I)). intros X. apply N. subst k. exact (hp_type _ _ _ _ I X).
  - apply q_lit.
  - apply q_node; [exact K | |].
    + rewrite Forall_forall in *. intros c I. apply (IH c I). intros X. apply N. exact (hp_child _ _ _ _ I X).
    + intros ->. exfalso. apply N. constructor.
Qed.
Lemma Q_proofs vinfo P t : Q vinfo P t -> Forall P (proofs_in t).
Proof.
  intros H. induction H as [k i K V | l | k cs K C IH PR] using Q_ind2; [constructor | constructor |].
  assert (X : Forall P (flat_map proofs_in cs)).
  { clear - IH. induction IH; cbn [flat_map]; [constructor | apply Forall_app; auto]. }
  destruct k; try exact X. specialize (PR eq_refl). destruct cs as [|c [|c' cs]]; try exact X. exact PR.
Qed.
Lemma Q_proofs_all vinfo P l : Forall (Q vinfo P) l -> Forall P (flat_map proofs_in l).
Proof.
  intros H. induction H; cbn [flat_map]; [constructor|]. apply Forall_app. split; [now apply (Q_proofs vinfo) | assumption].
Qed.

(* ------------------------------------------------------------------ *)
(** * What is proved at a level *)
Section Sound.
Variable W : Type.
Variable holds : W -> term -> Prop.
Notation entails := (entails W holds).
(** The [j] outermost ones. *)
Definition outer {A : Type} (j : nat) (l : list A) : list A := skipn (length l - j) l.
(** The formulas of the scopes. *)
Definition formulas (l : list (option term)) : list term := flat_map (fun o => match o with Some F => [F] | None => [] end) l.
Definition PL (l : list event) (j : nat) (F : term) : Prop :=
  entails (assumed l ++ formulas (outer j (open_scopes l))) F /\ isGround F = true /\ isEvaluatable F = false.

Lemma entails_mono A B F : incl A B -> entails A F -> entails B F.
Proof. intros I H w HB. apply H. intros a X. apply HB. exact (I a X). Qed.
Lemma skipn_add A : forall b a (l : list A), skipn (b + a) l = skipn a (skipn b l).
Proof. induction b as [|b IH]; intros a l; [reflexivity|]. destruct l; cbn [skipn Nat.add]; [now rewrite skipn_nil | apply IH]. Qed.
Lemma outer_incl A i j (l : list A) : (i <= j)%nat -> incl (outer i l) (outer j l).
Proof.
  unfold outer. intros L a I. replace (length l - i)%nat with ((length l - j) + ((length l - i) - (length l - j)))%nat in I by lia.
  rewrite skipn_add in I.
  rewrite <- (firstn_skipn ((length l - i) - (length l - j)) (skipn (length l - j) l)). apply in_or_app. now right.
Qed.
Lemma formulas_incl a b : incl a b -> incl (formulas a) (formulas b).
Proof. intros H x I. apply in_flat_map in I. destruct I as (o & I & X). apply in_flat_map. exists o. auto. Qed.
Lemma PL_levels l : levels (PL l).
Proof.
  split; [|split].
  - intros j. left. intros F H. apply H.
  - intros i j F L (H1 & H2). split; [|exact H2]. revert H1. apply entails_mono. apply incl_app; [apply incl_appl, incl_refl|].
    apply incl_appr. now apply formulas_incl, outer_incl.
  - intros i j H. destruct (H (Sym K_PARAM 0)) as (_ & X & _). discriminate X.
Qed.
Lemma PL_nontriv l j : ~ forall F, PL l j F.
Proof. intros H. destruct (H (Sym K_PARAM 0)) as (_ & X & _). discriminate X. Qed.

Lemma PL_closed l j F : length (formulas (open_scopes l)) = 0%nat -> PL l j F -> PL l 0 F.
Proof.
  intros E (H & G). split; [|exact G]. revert H. apply entails_mono. apply incl_app; [apply incl_appl, incl_refl|].
  intros x I. exfalso. assert (X : In x (formulas (open_scopes l))).
  { revert I. apply formulas_incl. unfold outer. intros y Y. rewrite <- (firstn_skipn (length (open_scopes l) - j) (open_scopes l)).
    apply in_or_app. now right. }
  destruct (formulas (open_scopes l)); [destruct X | discriminate E].
Qed.
Lemma nested_opened : forall l, well_nested l -> opened l = formulas (open_scopes l).
Proof.
  induction l as [|e l IH]; [reflexivity|]. destruct e as [ | | | | n F [|] | n ru pr prem args [a|] conc | | | | | | | ];
    cbn [well_nested opened open_scopes]; intros H; try exact (IH H); try contradiction.
  - cbn [formulas flat_map app]. now rewrite (IH H).
  - destruct H as [(F & X) H]. rewrite (IH H). destruct (open_scopes l); [discriminate X|]. injection X as ->. reflexivity.
  - destruct H as [X H]. rewrite (IH H). destruct (open_scopes l); [discriminate X|]. injection X as ->. reflexivity.
Qed.

(** Events that change neither the assumptions nor the conclusions. *)
Definition quiet (e : event) : bool :=
  match e with EvAssume _ _ _ | EvStep _ _ _ _ _ _ _ | EvReset | EvPush | EvPop => false | _ => true end.
Lemma quiet_PL e l j F : quiet e = true -> PL (e :: l) j F <-> PL l j F.
Proof. intros H. unfold PL. destruct e; try discriminate H; reflexivity. Qed.
Lemma quiet_opened e l : quiet e = true -> open_scopes (e :: l) = open_scopes l.
Proof. intros H. destruct e; try discriminate H; reflexivity. Qed.
Lemma quiets_PL es l j F : forallb quiet es = true -> PL (es ++ l) j F <-> PL l j F.
Proof.
  induction es as [|e es IH]; cbn [app forallb]; [reflexivity|]. intros H. apply andb_prop in H. destruct H as [A B].
  rewrite (quiet_PL e _ _ _ A). exact (IH B).
Qed.
Lemma quiets_opened es l : forallb quiet es = true -> open_scopes (es ++ l) = open_scopes l.
Proof.
  induction es as [|e es IH]; cbn [app forallb]; [reflexivity|]. intros H. apply andb_prop in H. destruct H as [A B].
  rewrite (quiet_opened e _ A). exact (IH B).
Qed.

(** The log grows by such events only. *)
Definition growsN (s s' : st) : Prop :=
  exists l, s_log s' = l ++ s_log s /\ forallb quiet (map snd l) = true /\ s_asmctx s' = s_asmctx s.
Lemma growsN_reading : reading growsN.
Proof.
  constructor.
  - constructor.
    + intros s. exists []. auto.
    + intros s1 s2 s3 (l & L & A & B) (l' & L' & A' & B'). exists (l' ++ l).
      rewrite L', L, app_assoc, map_app, forallb_app, A, A', B', B. auto.
  - intros s c. exists []. auto.
  - intros s k name ty. eexists [_]. repeat split.
  - intros s m v a ct _. eexists [_]. repeat split.
  - intros s e. eexists [_]. repeat split.
  - intros. eexists [_]. repeat split.
Qed.
Lemma growsN_po : preorder_st growsN.
Proof. exact (rd_po _ growsN_reading). Qed.
Lemma growsN_log e : quiet e = true -> pres growsN (logEvent e).
Proof. intros H. apply pres_upd. intros s. exists [(length (s_asmctx s), e)]. cbn [map snd forallb]. rewrite H. repeat split. Qed.
Lemma growsN_upd f : (forall s, s_log (f s) = s_log s /\ s_asmctx (f s) = s_asmctx s) -> pres growsN (mupd f).
Proof. intros H. apply pres_upd. intros s. exists []. destruct (H s). auto. Qed.

Variable G : config.
Hypothesis HC : coherent G.
Notation vinfo := (g_varinfo G).
Hint Resolve growsN_reading : core.
Lemma growsN_pe sig : pres growsN (parseExpr G sig (g_fuel G)).
Proof. apply pres_parseExpr. exact growsN_reading. Qed.
Ltac gn_cmd := lazymatch goal with
  | |- pres _ (cmdDeclare _ _ _) => apply pres_cmdDeclare; auto
  | |- pres _ (cmdDatatypes _ _ _) => apply pres_cmdDatatypes; auto
  | |- pres _ (cmdDeclareRule _ _) => apply pres_cmdDeclareRule; auto
  | |- pres _ cmdDeclareSort => apply pres_cmdDeclareSort; auto
  | |- pres _ (cmdDefineConst _ _) => apply pres_cmdDefineConst; auto
  | |- pres _ (cmdDefineSort _ _) => apply pres_cmdDefineSort; auto
  | |- pres _ (cmdProgram _ _) => apply pres_cmdProgram; auto
  | |- pres _ (normalForm _ _) => apply pres_normalForm; auto
  | |- pres _ (notifyStep _ _ _ _ _ _) => apply pres_notifyStep; auto
  | |- pres _ (mkSymbol _ _ _) => apply pres_symbol; auto
  | |- pres _ (bindM _ _) => apply pres_bindM; auto
  | |- pres _ (bindState _ _) => apply pres_bindState; auto
  | |- pres _ pushM => apply pres_push; auto
  | |- pres _ popM => apply pres_pop; auto
  | |- pres _ (popN _) => apply pres_popN; auto
  | |- pres _ (mkE _ _ _) => apply pres_mkE; auto
  | |- pres _ (typeOf _ _) => apply pres_typeOf; auto
  | |- pres _ (typeCheck _ _) => apply pres_typeCheck; auto
  | |- pres _ (typeCheckAs _ _ _) => apply pres_typeCheckAs; auto
  | |- pres _ (getVarM _) => apply pres_getVar; auto
  | |- pres _ (getProofRuleM _) => apply pres_getProofRule; auto
  | |- pres _ (consTermOf _ _) => apply pres_consTermOf; auto
  | |- pres _ (mkBinderList _ _ _) => apply pres_mkBinderList; auto
  | |- pres _ (processAttributeMaps _) => apply pres_processAttributeMaps; auto
  | |- pres _ parseSymbol => apply pres_parseSymbol; auto
  | |- pres _ parseKeyword => apply pres_parseKeyword; auto
  | |- pres _ parseIntegerNumeral => apply pres_parseIntegerNumeral; auto
  | |- pres _ parseStr => apply pres_parseStr; auto
  | |- pres _ parseLiteralKind => apply pres_parseLiteralKind; auto
  | |- pres _ (parseSymbolicExpr _) => apply pres_parseSymbolicExpr; auto
  | |- pres _ (parseType _ _ _ _) => apply pres_parseType; auto
  | |- pres _ (parseFormula _ _) => apply pres_parseFormula; auto
  | |- pres _ (parseExprList _ _) => apply pres_parseExprList; auto
  | |- pres _ (parseTypeList _ _ _) => apply pres_parseTypeList; auto
  | |- pres _ (parseAttributeList _ _ _ _ _) => apply pres_parseAttributeList; auto
  | |- pres _ (parseVarListMap _ _ _) => apply pres_parseVarListMap; auto
  | |- pres _ (parseVarList _ _ _) => apply pres_parseVarList; auto
  | |- pres _ (parseExpr _ _ _) => apply pres_parseExpr; auto
  end.
Ltac gn := pose proof growsN_po; repeat first [assumption | gn_cmd | pres_step
  | apply growsN_log; reflexivity | apply growsN_upd; intros; first [split; reflexivity | destruct (setOption _ _ _); split; reflexivity]].
Lemma growsN_command sig r inc c : level_command c = true -> pres growsN (runCommand G sig r inc c).
Proof.
  intros N. pose proof (growsN_pe sig) as K. destruct c; try discriminate N; cbn [runCommand];
    unfold cmdDefine, addReferenceAssert, levelM, cmdEcho, cmdSetOption, cmdDeclareConsts; gn.
Qed.
Lemma growsN_step sig b : pres growsN (readStep G sig b).
Proof. pose proof (growsN_pe sig) as K. unfold readStep, levelM. gn. Qed.
Lemma growsN_assume sig : pres growsN (readAssume G sig).
Proof. pose proof (growsN_pe sig) as K. unfold readAssume. gn. Qed.

(* ------------------------------------------------------------------ *)
(** * Changing the set of proved formulas *)
Lemma fsok_lift (Pf Pf' : nat -> term -> Prop) n n' : forall fs,
  (forall i F, (i <= length fs)%nat -> Pf (Nat.min i n) F -> Pf' (Nat.min i n') F) ->
  fsok G Pf n fs -> fsok G Pf' n' fs.
Proof.
  induction fs as [|f fs IH]; intros H X; [exact Logic.I|]. cbn [fsok] in *. destruct X as [X1 X2]. split.
  - revert X1. apply Forall_impl. intros d. apply Q_mono. intros F. apply H. cbn [length]. lia.
  - apply IH; [|exact X2]. intros i F L. apply H. cbn [length]. lia.
Qed.
Lemma Inv_lift (Pf Pf' : nat -> term -> Prop) n n' d s s' : Inv G Pf n d s -> (forall F, Pf 0%nat F -> Pf' 0%nat F) ->
  (forall i F, (i <= d)%nat -> Pf (Nat.min i n) F -> Pf' (Nat.min i n') F) -> (~ forall F, Pf' 0%nat F) ->
  (n' <= d)%nat -> s_scope s' = s_scope s -> s_marks s' = s_marks s -> s_types s' = s_types s -> s_lits s' = s_lits s ->
  (length (s_asmctx s') = 0%nat -> forall F, Pf' n' F -> Pf' 0%nat F) -> Forall (Q vinfo (fun _ => True)) (s_asm s') ->
  s_next s' = s_next s -> grows s s' -> Inv G Pf' n' d s'.
Proof.
  intros [A B C D K E F X KN] H0 H1 NT LE E1 E2 E3 E4 E5 E6 E7 E8. constructor; rewrite ?E1, ?E2, ?E3, ?E4; auto;
    [..|apply (known_keep s); auto; lia].
  - destruct A as ((fs & g) & R & L & FS & GS). cbn [fst snd] in *. exists (fs, g). cbn [fst snd]. split; [exact R|]. split; [exact L|]. split.
    + apply (fsok_lift Pf Pf' n n'); [|exact FS]. rewrite L. exact H1.
    + revert GS. apply Forall_impl. intros x. now apply Q_mono.
  - intros t ty Y. apply (Q_mono _ _ _ H0). exact (C t ty Y).
  - intros t a c Y. destruct (D t a c Y) as [D1 D2]. split.
    + intros Z. apply (Q_mono _ _ _ H0). exact (D1 Z).
    + intros Z. refine (progQ_mono _ _ _ H0 _ _ (D2 Z)). intros Z2. contradiction.
  - intros k t Y. apply (Q_mono _ _ _ H0). exact (E k t Y).
Qed.
Lemma Inv_pop (Pf Pf' : nat -> term -> Prop) m s s' : Inv G Pf (S m) (S m) s -> popScope (s_scope s) = Ok (s_scope s') ->
  (forall i F, (i <= m)%nat -> Pf i F -> Pf' i F) -> (~ forall F, Pf' 0%nat F) ->
  s_marks s' = s_marks s -> s_types s' = s_types s -> s_lits s' = s_lits s ->
  (length (s_asmctx s') = 0%nat -> forall F, Pf' m F -> Pf' 0%nat F) -> Forall (Q vinfo (fun _ => True)) (s_asm s') ->
  s_next s' = s_next s -> grows s s' -> Inv G Pf' m m s'.
Proof.
  intros [A B C D K E F X KN] E1 H1 NT E2 E3 E4 E5 E6 E7 E8.
  assert (H0 : forall F, Pf 0%nat F -> Pf' 0%nat F) by (intros Z; apply H1; lia).
  constructor; rewrite ?E2, ?E3, ?E4; auto; [..|apply (known_keep s); auto; lia].
  - destruct A as (([|f fs] & g) & R & L & FS & GS); cbn [fst snd] in *; [discriminate L|].
    destruct (pop_rel _ _ _ _ R) as (c' & P' & R' & _). rewrite E1 in P'. injection P' as <-.
    exists (fs, g). cbn [fst snd length] in *. injection L as L. split; [exact R'|]. split; [exact L|]. split.
    + apply (fsok_lift Pf Pf' (S m) m); [|exact (proj2 FS)]. intros i Z LE. rewrite !Nat.min_l by lia. apply H1. lia.
    + revert GS. apply Forall_impl. intros x. now apply Q_mono.
  - intros t ty Y. apply (Q_mono _ _ _ H0). exact (C t ty Y).
  - intros t a c Y. destruct (D t a c Y) as [D1 D2]. split.
    + intros Z. apply (Q_mono _ _ _ H0). exact (D1 Z).
    + intros Z. refine (progQ_mono _ _ _ H0 _ _ (D2 Z)). intros Z2. contradiction.
  - intros k t Y. apply (Q_mono _ _ _ H0). exact (E k t Y).
Qed.

(* ------------------------------------------------------------------ *)
(** * A run *)
Variable L : list (nat * event).
Hypothesis HPl : well_nested (map snd L).
Hypothesis HS : forall e, In e (map snd L) -> valid_step W holds e.
Hypothesis HF : forall e, In e (map snd L) -> settled vinfo e.
Hypothesis HPr : forall j e, In (S j, e) L -> proof_free vinfo e.
Hypothesis HPop : forall l1 lv name rule proven prem args asm conc l2,
  L = l1 ++ (lv, EvStep name rule proven prem args (Some asm) conc) :: l2 -> hd_error (opened (map snd l2)) = Some asm.
Definition ok (l : list (nat * event)) : Prop := exists pre, L = pre ++ l.
Lemma ok_T a b : ok (a ++ b) -> ok b.
Proof. intros [pre H]. exists (pre ++ a). now rewrite <- app_assoc. Qed.
Lemma ok_in e l : ok (e :: l) -> In e L.
Proof. intros [pre H]. rewrite H. apply in_or_app. right. now left. Qed.
Lemma ok_in' e l : ok l -> In e (map snd l) -> In e (map snd L).
Proof. intros [pre H] I. rewrite H, map_app. apply in_or_app. now right. Qed.
Lemma ok_N l : ok l -> no_reset l.
Proof.
  intros O I. apply (ok_in' _ _ O) in I. clear - HPl I. induction (map snd L) as [|e l IH]; [destruct I|].
  destruct I as [-> | I]; [exact HPl|]. apply IH; [|exact I].
  destruct e as [ | | | | n F b | n ru pr prem args [a|] conc | | | | | | | ]; try exact HPl; try apply HPl. destruct HPl.
Qed.
Lemma ok_nested l : ok l -> well_nested (map snd l).
Proof.
  intros [pre E]. rewrite E, map_app in HPl. revert HPl. induction (map snd pre) as [|e es IH]; [auto|]. intros H. apply IH.
  destruct e as [ | | | | n F b | n ru pr prem args [a|] conc | | | | | | | ]; try exact H; try apply H. destruct H.
Qed.
Lemma PL_log l n : ok_log G (PL l) n ok.
Proof.
  split; [exact ok_T|]. right. split; [|split].
  - intros j v ty l' O H. apply ok_in, HPr in O. exact (Q_free _ _ _ _ H O).
  - intros j v a ct l' O. apply ok_in, HPr in O. split.
    + intros N H. apply (Q_free _ _ _ _ H). destruct a; first [exact O | contradiction].
    + intros -> [H1 H2]. split; [|intros Z; destruct (PL_nontriv _ _ Z)].
      rewrite Forall_forall in *. intros c I r E. apply (Q_free _ _ _ _ (H1 c I r E)).
      destruct (tchildren c) as [|x [|y cs]] eqn:EC; try discriminate E. cbn in E. injection E as ->.
      exact (O c x r cs I EC).
  - intros j k t l' O H. apply ok_in, HPr in O. exact (Q_free _ _ _ _ H O).
Qed.

Record CInv (s : st) : Prop := mkC {
  c_inv : Inv G (PL (events s)) (length (open_scopes (events s))) (length (open_scopes (events s))) s;
  c_open : length (formulas (open_scopes (events s))) = length (s_asmctx s);
  c_conc : forall F, concluded (s_log s) F -> entails (assumed (events s)) F }.
Lemma assumed_quiet es l : forallb quiet es = true -> assumed (es ++ l) = assumed l.
Proof.
  induction es as [|e es IH]; cbn [app forallb]; [reflexivity|]. intros H. apply andb_prop in H. destruct H as [A B].
  unfold assumed in *. cbn [flat_map]. rewrite (IH B). destruct e; try discriminate A; reflexivity.
Qed.
Lemma concluded_app a b F : concluded (a ++ b) F -> concluded a F \/ concluded b F.
Proof.
  intros (n1 & n2 & n3 & n4 & n5 & n6 & I). apply in_app_or in I. destruct I as [I | I]; [left | right]; repeat eexists; exact I.
Qed.
Lemma concluded_quiet l F : forallb quiet (map snd l) = true -> ~ concluded l F.
Proof.
  intros H (n1 & n2 & n3 & n4 & n5 & n6 & I). rewrite forallb_forall in H.
  specialize (H _ (in_map snd _ _ I)). discriminate H.
Qed.
Lemma CInv_quiet s s' : CInv s -> growsN s s' ->
  Inv G (PL (events s)) (length (open_scopes (events s))) (length (open_scopes (events s))) s' -> CInv s'.
Proof.
  intros [A B C] (l & E & Ql & X) I. assert (EV : events s' = map snd l ++ events s) by (unfold events; now rewrite E, map_app).
  constructor.
  - rewrite EV, (quiets_opened _ _ Ql). apply (Inv_lift (PL (events s)) _ (length (open_scopes (events s))) _ _ s' s' I); auto; try gro.
    + intros F. now apply quiets_PL.
    + intros i F _. now apply quiets_PL.
    + apply PL_nontriv.
    + rewrite X, <- B. intros Z F. apply PL_closed. now rewrite quiets_opened.
    + exact (iv_asm _ _ _ _ _ I).
  - rewrite EV, quiets_opened, X by exact Ql. exact B.
  - intros F H. rewrite EV, assumed_quiet by exact Ql. apply C. rewrite E in H. apply concluded_app in H.
    destruct H as [H | H]; [|exact H]. destruct (concluded_quiet _ _ Ql H).
Qed.
(** Reading keeps it, and what is read is as proved as the state. *)
Lemma read_C A (m : M A) (post : (nat -> term -> Prop) -> nat -> A -> Prop) :
  (forall Pf n d, levels Pf -> ok_log G Pf n ok -> T G Pf n ok d m (fun _ => d) (post Pf n)) -> pres growsN m ->
  forall p a p', m p = Ok (a, p') -> CInv (snd p) -> ok (s_log (snd p')) ->
  CInv (snd p') /\ post (PL (events (snd p))) (length (open_scopes (events (snd p')))) a /\
  (forall j F, PL (events (snd p)) j F <-> PL (events (snd p')) j F).
Proof.
  intros H GN p a p' E C O. pose proof (GN _ _ _ E) as GR.
  destruct (H _ _ _ (PL_levels (events (snd p))) (PL_log _ _) p a p' (c_inv _ C) O E) as [I PO].
  split; [exact (CInv_quiet _ _ C GR I)|]. destruct GR as (l & EL & Ql & X). split.
  - unfold events at 2. now rewrite EL, map_app, (quiets_opened _ _ Ql).
  - intros j F. unfold events. rewrite EL, map_app. symmetry. now apply quiets_PL.
Qed.

Lemma Q_PL_eq l l' n t : (forall j F, PL l j F <-> PL l' j F) -> Q vinfo (PL l n) t -> Q vinfo (PL l' n) t.
Proof. intros H. apply Q_mono. intros F. apply H. Qed.
Lemma QPL_T l n t : Q vinfo (PL l n) t -> Q vinfo (fun _ => True) t.
Proof. apply Q_mono. auto. Qed.
Lemma outer_cons A j (a : A) l : (j <= length l)%nat -> outer j (a :: l) = outer j l.
Proof. intros LE. unfold outer. cbn [length]. rewrite Nat.sub_succ_l by exact LE. reflexivity. Qed.
Lemma outer_all A j (l : list A) : (length l <= j)%nat -> outer j l = l.
Proof. intros LE. unfold outer. now replace (length l - j)%nat with 0%nat by lia. Qed.
Lemma outer_0 A (l : list A) : outer 0 l = [].
Proof. unfold outer. rewrite Nat.sub_0_r. apply skipn_all. Qed.

Lemma bindM_view name e p u p' : bindM name e p = Ok (u, p') ->
  s_log (snd p') = s_log (snd p) /\ s_asmctx (snd p') = s_asmctx (snd p) /\ s_asm (snd p') = s_asm (snd p).
Proof. intros H. apply bind_silent in H. unfold view_of in H. injection H. auto 10. Qed.

Lemma assume_C sig b p u p' : cmdAssume G sig b p = Ok (u, p') -> CInv (snd p) -> ok (s_log (snd p')) -> CInv (snd p').
Proof.
  intros H C O. apply cmdAssume_read in H. destruct H as (name & F & q & H1 & H2).
  (* the state after the last change of the log *)
  mstep H2 as x1 q1 E1. mstep H2 as x2 q2 E2. mstep H2 as x3 q3 E3. mstep H2 as okb q4 E4.
  destruct okb; [|discriminate H2]. apply mret_ok in H2. destruct H2 as [_ ->].
  apply mupd_ok in E3.
  assert (E4' : snd q4 = set_asm (s_asm (snd q3) ++ [F]) (snd q3)).
  { unfold addAssumption in E4. mstep E4 as y1 r1 F1. apply mupd_ok in F1. subst r1. mstep E4 as y2 r2 F2. mstate F2.
    cbn [snd] in E4. replace (s_asmctx (set_asm (s_asm (snd q3) ++ [F]) (snd q3))) with (s_asmctx (snd q3)) in E4 by reflexivity.
    destruct (s_hasRef (set_asm (s_asm (snd q3) ++ [F]) (snd q3))); [|apply mret_ok in E4; destruct E4 as [_ ->]; reflexivity].
    destruct (s_asmctx (snd q3)); [|apply mret_ok in E4; destruct E4 as [_ ->]; reflexivity].
    mstep E4 as aa r3 F3. apply mret_ok in E4. destruct E4 as [_ ->]. apply normalForm_same in F3. destruct F3 as [-> _]. reflexivity. }
  pose proof (bindM_view _ _ _ _ _ E2) as (V1 & V2 & V3).
  assert (S1 : s_log (snd q1) = s_log (snd q) /\ s_asm (snd q1) = s_asm (snd q) /\
               length (s_asmctx (snd q1)) = if b then S (length (s_asmctx (snd q))) else length (s_asmctx (snd q))).
  { unfold notifyAssume in E1. destruct b.
    - unfold pushAssumptionScope in E1. mstep E1 as y1 r1 F1. unfold pushM in F1. apply mupd_ok in F1. apply mupd_ok in E1. subst. auto.
    - apply mret_ok in E1. destruct E1 as [_ ->]. auto. }
  destruct S1 as (S1 & S2 & S3).
  set (n := length (open_scopes (events (snd q)))) in *. set (n' := if b then S n else n) in *.
  set (l' := EvAssume name F b :: events (snd q)). set (lv := length (s_asmctx (snd q1))) in *.
  assert (LG : s_log (snd q4) = (lv, EvAssume name F b) :: s_log (snd q)).
  { rewrite E4'. subst q3. cbn [snd s_log set_asm set_log]. rewrite V1, V2, S1. reflexivity. }
  rewrite LG in O. assert (Oq : ok (s_log (snd q))) by exact (ok_T [_] _ O).
  destruct (read_C _ (readAssume G sig) (fun Pf m r => Q vinfo (Pf m) (snd r))) with (p := p) (a := (name, F)) (p' := q) as (Cq & HQ & EQ); auto.
  { intros Pf m d X Y. apply (readAssume_T G Pf m ok HC X Y). }
  { apply growsN_assume. }
  cbn [snd] in HQ. fold n in HQ. apply (Q_PL_eq _ _ _ _ EQ) in HQ. clear EQ.
  assert (GF : isGround F = true /\ isEvaluatable F = false).
  { assert (IN : In (EvAssume name F b) (map snd L)) by (apply (ok_in' _ _ O); now left). exact (HF _ IN). }
  pose proof (c_open _ Cq) as CO.
  assert (CL : length (formulas (open_scopes l')) = lv).
  { rewrite S3. unfold l'. destruct b; cbn [open_scopes formulas flat_map app length]; [f_equal|]; exact CO. }
  assert (CZ : lv = 0%nat -> forall X, PL l' n' X -> PL l' 0 X).
  { intros Z X. apply PL_closed. now rewrite CL. }
  assert (M1 : forall i X, (i <= n)%nat -> PL (events (snd q)) i X -> PL l' i X).
  { intros i X LE (P1 & P2). split; [|exact P2]. revert P1. unfold l'. destruct b; cbn [open_scopes assumed flat_map app].
    - rewrite outer_cons by exact LE. exact (fun z => z).
    - apply entails_mono. apply incl_tl, incl_refl. }
  assert (M2 : forall i X, (i <= n')%nat -> PL (events (snd q)) (Nat.min i n) X -> PL l' (Nat.min i n') X).
  { intros i X LE P. apply M1 in P; [|lia]. apply (proj1 (proj2 (PL_levels l')) _ _ _) with (2 := P).
    unfold n'. destruct b; lia. }
  assert (PF : PL l' n' F).
  { split; [|exact GF]. intros w HW. apply HW. unfold l', n'. destruct b; cbn [open_scopes assumed flat_map app].
    - apply in_or_app. right. rewrite outer_all by (cbn [length]; unfold n; lia). now left.
    - now left. }
  assert (HQ' : Q vinfo (PL l' n') F).
  { revert HQ. apply Q_mono. intros X P. apply M1 in P; [|lia]. apply (proj1 (proj2 (PL_levels l')) _ _ _) with (2 := P).
    unfold n'. destruct b; lia. }
  (* the state in which the name is bound *)
  assert (I1 : Inv G (PL l') n' n' (snd q1)).
  { pose proof (c_inv _ Cq) as I. fold n in I. unfold notifyAssume in E1. subst n'. destruct b.
    - unfold pushAssumptionScope in E1. mstep E1 as y1 r1 F1.
      assert (G1 : s_log (snd r1) = s_log (snd q)) by (unfold pushM in F1; apply mupd_ok in F1; subst; reflexivity).
      destruct (pushM_T G (PL (events (snd q))) n ok n q y1 r1 I) as [I1 _]; [now rewrite G1 | exact F1 |].
      apply mupd_ok in E1. subst q1.
      apply (Inv_lift (PL (events (snd q))) (PL l') n (S n) (S n) (snd r1)); auto; try gro.
      + intros X. apply M1. lia.
      + apply PL_nontriv.
      + rewrite S2. exact (iv_asm _ _ _ _ _ I).
    - apply mret_ok in E1. destruct E1 as [_ ->].
      apply (Inv_lift (PL (events (snd q))) (PL l') n n n (snd q)); auto; try gro.
      + intros X. apply M1. lia.
      + apply PL_nontriv.
      + exact (iv_asm _ _ _ _ _ I). }
  destruct (bindM_T G (PL l') n' ok (PL_log _ _) n' name (Node K_PROOF [F])) with (p := q1) (a := x2) (p' := q2) as [I2 _]; auto.
  { apply q_node; [reflexivity | constructor; [exact HQ' | constructor] | intros _; constructor; [exact PF | constructor]]. }
  { rewrite V1, S1. exact Oq. }
  assert (EV : events (snd q4) = l') by (unfold events; rewrite LG; reflexivity).
  assert (AC : length (s_asmctx (snd q4)) = lv).
  { rewrite E4'. subst q3. cbn [snd s_asmctx set_asm set_log]. now rewrite V2. }
  assert (DE : length (open_scopes l') = n') by (unfold l', n'; destruct b; reflexivity).
  constructor.
  - rewrite EV, DE. apply (Inv_lift (PL l') (PL l') n' n' n' (snd q2)); auto.
    + apply PL_nontriv.
    + rewrite E4'. subst q3. reflexivity.
    + rewrite E4'. subst q3. reflexivity.
    + rewrite E4'. subst q3. reflexivity.
    + rewrite E4'. subst q3. reflexivity.
    + rewrite AC. exact CZ.
    + rewrite E4'. subst q3. cbn [snd s_asm set_asm set_log]. apply Forall_app. split; [exact (iv_asm _ _ _ _ _ I2)|].
      constructor; [exact (QPL_T _ _ _ HQ) | constructor].
    + rewrite E4'. subst q3. reflexivity.
    + rewrite E4'. subst q3. gro.
  - rewrite EV, AC. exact CL.
  - rewrite EV. intros X (n1 & n2 & n3 & n4 & n5 & n6 & I). rewrite LG in I. destruct I as [I | I]; [discriminate I|].
    assert (Y : entails (assumed (events (snd q))) X) by (apply (c_conc _ Cq); repeat eexists; exact I).
    revert Y. apply entails_mono. unfold l'. destruct b; cbn [assumed flat_map app]; [apply incl_refl | apply incl_tl, incl_refl].
Qed.

Lemma step_C sig b p u p' : cmdStep G sig b p = Ok (u, p') -> CInv (snd p) -> WT G (snd p) -> ok (s_log (snd p')) -> CInv (snd p').
Proof.
  intros H C HW O. apply cmdStep_read in H. destruct H as (name & rule & proven & prem & args & q & conc & asm & q' & H1 & (H2 & HTY & HPRV) & H3).
  assert (E : q' = q) by (apply (notifyStep_pure G _ _ _ _ _ _ _ _ H2)). subst q'.
  mstep H3 as x1 q1 E1. mstep H3 as x2 q2 E2. apply mupd_ok in E2.
  pose proof (bindM_view _ _ _ _ _ H3) as (V1 & V2 & V3).
  set (n := length (open_scopes (events (snd q)))) in *.
  assert (FA : if b then exists a, asm = Some a else asm = None).
  { destruct q as [lq sq]. pose proof (sf_asm _ _ _ _ _ _ _ _ _ (notifyStep_facts _ _ _ _ _ _ _ _ _ _ H2)) as X.
    destruct b; [destruct X as (a & -> & _); eauto | exact X]. }
  assert (S1 : s_log (snd q1) = s_log (snd q) /\ s_marks (snd q1) = s_marks (snd q) /\ s_types (snd q1) = s_types (snd q) /\
    s_lits (snd q1) = s_lits (snd q) /\ s_next (snd q1) = s_next (snd q) /\ (exists sz, s_asm (snd q1) = firstn sz (s_asm (snd q))) /\
    if b then length (s_asmctx (snd q)) = S (length (s_asmctx (snd q1))) /\ popScope (s_scope (snd q)) = Ok (s_scope (snd q1)) else snd q1 = snd q).
  { destruct b.
    - unfold popAssumptionScope in E1. mstep E1 as s0 r0 F0. mstate F0. destruct (s_asmctx (snd q)) as [|sz ctx]; [discriminate E1|].
      mstep E1 as y1 r1 F1. apply mupd_ok in F1. subst r1. unfold popM in E1. mstep E1 as s1 r1 F1. mstate F1.
      mstep E1 as c r2 F2. apply mlift_ok in F2. destruct F2 as [F2 ->]. apply mupd_ok in E1. subst q1. cbn [snd] in *.
      split; [reflexivity|]. split; [reflexivity|]. split; [reflexivity|]. split; [reflexivity|]. split; [reflexivity|]. split; [exists sz; reflexivity|].
      split; [reflexivity | exact F2].
    - apply mret_ok in E1. destruct E1 as [_ ->]. split; [reflexivity|]. split; [reflexivity|]. split; [reflexivity|]. split; [reflexivity|]. split; [reflexivity|].
      split; [exists (length (s_asm (snd q))); now rewrite firstn_all | reflexivity]. }
  destruct S1 as (S1 & S2 & S3 & S4 & SN & (sz & S5) & S6).
  set (ev := EvStep name rule proven prem args asm conc) in *. set (l' := ev :: events (snd q)).
  set (n' := length (open_scopes l')) in *. set (lv := length (s_asmctx (snd q1))) in *.
  assert (LG : s_log (snd p') = (lv, ev) :: s_log (snd q)).
  { rewrite V1. subst q2. cbn [snd s_log set_log]. now rewrite S1. }
  rewrite LG in O. assert (Oq : ok (s_log (snd q))) by exact (ok_T [_] _ O).
  assert (IN : In ev (map snd L)) by (apply (ok_in' _ _ O); now left).
  destruct (step_QT G ok ok_T HC sig b p name rule proven prem args q _ _ H1 H2 HW Oq) as (_ & _ & _ & _ & QC). specialize (QC _ _ eq_refl).
  destruct (read_C _ (readStep G sig b) (fun Pf m r => let '(name, rule, proven, prem, args) := r in
     tkind rule = K_PROOF_RULE /\ Q vinfo (Pf m) proven /\ Forall (Q vinfo (Pf m)) prem /\ Forall (Q vinfo (Pf m)) args))
     with (p := p) (a := (name, rule, proven, prem, args)) (p' := q) as (Cq & (_ & _ & QP & QA) & EQ); auto.
  { intros Pf m d X Y. apply (readStep_T G Pf m ok HC X Y). }
  { apply growsN_step. }
  fold n in QP, QA. pose proof (HS _ IN) as VS. pose proof (HF _ IN) as (GF & EF & NF).
  assert (PQ : forall f, In f (flat_map proofs_in (prem ++ args)) -> PL (events (snd q)) n f).
  { assert (X : Forall (PL (events (snd p)) n) (flat_map proofs_in (prem ++ args))).
    { apply (Q_proofs_all vinfo). apply Forall_app. split; [exact QP | exact QA]. }
    rewrite Forall_forall in X. intros f I. apply EQ. exact (X f I). }
  pose proof (c_open _ Cq) as CO. pose proof (ok_nested _ Oq) as NQ. pose proof (nested_opened _ NQ) as NO. fold (events (snd q)) in NO.
  assert (OP : length (formulas (open_scopes l')) = lv /\ (b = true -> n = S n') /\ (b = false -> n' = n) /\
    (forall i X, (i <= n')%nat -> PL (events (snd q)) i X -> PL l' i X) /\ PL l' n' conc).
  { assert (CN : entails (assumed (events (snd q)) ++ formulas (open_scopes l')) conc /\ length (formulas (open_scopes l')) = lv /\
      (b = true -> n = S n') /\ (b = false -> n' = n) /\
      (forall i, (i <= n')%nat -> outer i (open_scopes l') = outer i (open_scopes (events (snd q))))).
    { unfold n', l'. destruct b.
      - destruct FA as [a ->]. destruct S6 as [S6 _]. pose proof (ok_nested _ O) as NS. destruct O as [pre O]. apply HPop in O.
        fold (events (snd q)) in O. unfold ev in *. cbn [open_scopes map snd well_nested] in *. destruct NS as [(a2 & NS) _].
        fold (events (snd q)) in NS. rewrite NO in O.
        unfold n in *. destruct (open_scopes (events (snd q))) as [|a' rest] eqn:EO; [discriminate O|]. injection NS as ->.
        cbn [formulas flat_map app hd_error] in O. injection O as ->.
        cbn [tl formulas flat_map app length] in *. fold (formulas rest) in *. split; [|split; [lia | split; [reflexivity | split; [discriminate | intros i LE; rewrite outer_cons by lia; reflexivity]]]].
        cbn [valid_step] in VS. apply VS. intros f I. destruct (PQ f I) as (X & _).
        rewrite outer_all in X by (rewrite EO; cbn [length]; lia). rewrite EO in X. revert X. apply entails_mono.
        intros z Z. apply in_app_or in Z. cbn [app]. destruct Z as [Z | [Z | Z]].
        + right. apply in_or_app. now left.
        + now left.
        + right. apply in_or_app. now right.
      - subst asm. unfold ev. cbn [open_scopes].
        split; [|split; [unfold lv; rewrite S6; exact CO | split; [discriminate | split; reflexivity]]].
        unfold ev in VS. cbn [valid_step] in VS. apply VS. intros f I. destruct (PQ f I) as (X & _).
        rewrite outer_all in X by (unfold n; lia). exact X. }
    destruct CN as (C1 & C2 & C3 & C4 & C5). split; [exact C2|]. split; [exact C3|]. split; [exact C4|]. split.
    - intros i X LE (P1 & P2). split; [|exact P2]. rewrite (C5 i LE). exact P1.
    - split; [|auto]. rewrite outer_all by (unfold n'; lia). exact C1. }
  destruct OP as (CL & D1 & D2 & M1 & PC).
  assert (CZ : lv = 0%nat -> forall X, PL l' n' X -> PL l' 0 X).
  { intros Z X. apply PL_closed. now rewrite CL. }
  assert (I1 : Inv G (PL l') n' n' (snd q1)).
  { pose proof (c_inv _ Cq) as I. fold n in I.
    assert (AS : Forall (Q vinfo (fun _ => True)) (s_asm (snd q1))).
    { rewrite S5. pose proof (iv_asm _ _ _ _ _ I) as A. rewrite <- (firstn_skipn sz (s_asm (snd q))) in A. apply Forall_app in A. apply A. }
    destruct b.
    - destruct S6 as [S6 S7]. rewrite (D1 eq_refl) in I. apply (Inv_pop (PL (events (snd q))) (PL l') n' (snd q)); auto; [apply PL_nontriv | exists []; exact S1].
    - specialize (D2 eq_refl). rewrite <- D2 in I.
      apply (Inv_lift (PL (events (snd q))) (PL l') n' n' n' (snd q)); auto.
      + intros X. apply M1. lia.
      + intros i X LE. apply M1. lia.
      + apply PL_nontriv.
      + now rewrite S6.
      + exists []. exact S1. }
  assert (I2 : Inv G (PL l') n' n' (snd q2)).
  { apply (Inv_lift (PL l') (PL l') n' n' n' (snd q1)); subst q2; auto; try gro.
    - apply PL_nontriv.
    - exact (iv_asm _ _ _ _ _ I1). }
  destruct (bindM_T G (PL l') n' ok (PL_log _ _) n' name (Node K_PROOF [conc])) with (p := q2) (a := u) (p' := p') as [I3 _]; auto.
  { apply q_node; [reflexivity | constructor; [|constructor] | intros _; constructor; [exact PC | constructor]].
    apply (Q_free _ (fun _ => True)); assumption. }
  { rewrite LG. exact O. }
  assert (EV : events (snd p') = l') by (unfold events; rewrite LG; reflexivity).
  assert (AC : length (s_asmctx (snd p')) = lv) by (rewrite V2; subst q2; reflexivity).
  constructor.
  - rewrite EV. exact I3.
  - rewrite EV, AC. exact CL.
  - rewrite EV. intros X (n1 & n2 & n3 & n4 & n5 & n6 & I). rewrite LG in I. destruct I as [I | I].
    + unfold ev in I. injection I as I0 _ _ _ _ _ _ I. subst X. apply (CZ I0) in PC. destruct PC as (PC & _).
      rewrite outer_0 in PC. cbn [formulas flat_map] in PC. rewrite app_nil_r in PC. exact PC.
    + apply (c_conc _ Cq). repeat eexists. exact I.
Qed.

(** The commands push and pop. *)
Lemma push_C p u p' : (pushM ;; logEvent EvPush) p = Ok (u, p') -> CInv (snd p) -> ok (s_log (snd p')) -> CInv (snd p').
Proof.
  intros H C O. mstep H as y1 r1 F1. assert (G1 : s_log (snd r1) = s_log (snd p)) by (unfold pushM in F1; apply mupd_ok in F1; subst; reflexivity).
  assert (G2 : s_asmctx (snd r1) = s_asmctx (snd p)) by (unfold pushM in F1; apply mupd_ok in F1; subst; reflexivity).
  apply mupd_ok in H. subst p'. cbn [snd set_log s_log] in O. rewrite G1 in O. assert (Op : ok (s_log (snd p))) by exact (ok_T [_] _ O).
  set (n := length (open_scopes (events (snd p)))) in *. pose proof (c_inv _ C) as I. fold n in I.
  destruct (pushM_T G (PL (events (snd p))) n ok n p y1 r1 I) as [I1 _]; [now rewrite G1 | exact F1 |].
  pose proof (c_open _ C) as CO.
  set (l' := EvPush :: events (snd p)).
  assert (EV : events (set_log ((length (s_asmctx (snd r1)), EvPush) :: s_log (snd r1)) (snd r1)) = l').
  { unfold events, l'. cbn [set_log s_log map snd]. now rewrite G1. }
  assert (M1 : forall i X, (i <= n)%nat -> PL (events (snd p)) i X -> PL l' i X).
  { intros i X LE (P1 & P2). split; [|exact P2]. unfold l'. cbn [open_scopes assumed flat_map app]. rewrite outer_cons by exact LE. exact P1. }
  constructor.
  - cbn [snd]. rewrite EV. change (length (open_scopes l')) with (S n).
    apply (Inv_lift (PL (events (snd p))) (PL l') n (S n) (S n) (snd r1)); auto; try gro.
    + intros X. apply M1. lia.
    + intros i X LE P. apply M1 in P; [|lia]. apply (proj1 (proj2 (PL_levels l')) _ _ _) with (2 := P). lia.
    + apply PL_nontriv.
    + cbn [set_log s_asmctx]. rewrite G2, <- CO. intros Z X. apply PL_closed. exact Z.
    + exact (iv_asm _ _ _ _ _ I1).
  - cbn [snd]. rewrite EV. cbn [set_log s_asmctx]. rewrite G2. exact CO.
  - cbn [snd]. rewrite EV. intros X (n1 & n2 & n3 & n4 & n5 & n6 & IN). cbn [set_log s_log] in IN.
    destruct IN as [IN | IN]; [discriminate IN|]. rewrite G1 in IN. apply (c_conc _ C). repeat eexists. exact IN.
Qed.
Lemma pop_C p u p' : (popM ;; logEvent EvPop) p = Ok (u, p') -> CInv (snd p) -> ok (s_log (snd p')) -> CInv (snd p').
Proof.
  intros H C O. mstep H as y1 r1 F1. unfold popM in F1. mstep F1 as s1 r2 F2. mstate F2.
  mstep F1 as c r3 F3. apply mlift_ok in F3. destruct F3 as [F3 ->]. apply mupd_ok in F1. subst r1.
  apply mupd_ok in H. subst p'. cbn [snd set_log s_log set_scope s_asmctx] in *. pose proof (ok_nested _ O) as NS.
  cbn [map snd well_nested] in NS. fold (events (snd p)) in NS. destruct NS as [NS _].
  pose proof (c_inv _ C) as I. pose proof (c_open _ C) as CO. pose proof (c_conc _ C) as CC.
  set (l' := EvPop :: events (snd p)). assert (M1 : forall i X, (S i <= length (open_scopes (events (snd p))))%nat -> PL (events (snd p)) i X -> PL l' i X).
  { intros i X LE (P1 & P2). split; [|exact P2]. unfold l'. cbn [open_scopes assumed flat_map app].
    destruct (open_scopes (events (snd p))) as [|o sc]; [discriminate NS|]. cbn [tl length] in *. rewrite outer_cons in P1 by lia. exact P1. }
  assert (CL : length (formulas (open_scopes l')) = length (s_asmctx (snd p))).
  { rewrite <- CO. unfold l'. cbn [open_scopes]. destruct (open_scopes (events (snd p))) as [|o sc]; [discriminate NS|]. injection NS as ->. reflexivity. }
  assert (DE : length (open_scopes (events (snd p))) = S (length (open_scopes l'))).
  { unfold l'. cbn [open_scopes]. destruct (open_scopes (events (snd p))); [discriminate NS | reflexivity]. }
  constructor; unfold events; cbn [set_log set_scope s_log s_asmctx map snd]; fold (events (snd p)); fold l'.
  - rewrite DE in I. apply (Inv_pop (PL (events (snd p))) (PL l') (length (open_scopes l')) (snd p)); auto.
    + intros i X LE. apply M1. lia.
    + apply PL_nontriv.
    + cbn [set_log set_scope s_asmctx]. rewrite <- CL. intros Z X. apply PL_closed. exact Z.
    + exact (iv_asm _ _ _ _ _ I).
    + gro.
  - exact CL.
  - intros X (n1 & n2 & n3 & n4 & n5 & n6 & IN). destruct IN as [IN | IN]; [discriminate IN|]. apply CC. repeat eexists. exact IN.
Qed.
Lemma pushpop_C b p u p' : cmdPushPop b p = Ok (u, p') -> CInv (snd p) -> ok (s_log (snd p')) -> CInv (snd p').
Proof.
  intros H C O. unfold cmdPushPop in H. mstep H as tok q1 E1. unfold peek in E1. apply mlex_ok in E1.
  mstep H as num q2 E2.
  assert (E2' : snd q2 = snd q1).
  { destruct (token_eqb tok T_INTEGER).
    - unfold parseIntegerNumeral in E2. mstep E2 as y r1 F1. unfold eat in F1. apply mlex_ok in F1.
      apply mlex_ok in E2. congruence.
    - apply mret_ok in E2. destruct E2 as [_ ->]. reflexivity. }
  rewrite <- E1, <- E2' in C. clear E1 E2 E2'. revert q2 H C. induction (repeat tt (Z.to_nat num)) as [|x l IH]; intros q H C; cbn [mfor] in H.
  - apply mret_ok in H. destruct H as [_ ->]. exact C.
  - mstep H as y q3 E3. apply (IH _ H).
    assert (O3 : ok (s_log (snd q3))).
    { assert (X : pres grows (mfor l (fun _ => if b then pushM ;; logEvent EvPush else popM ;; logEvent EvPop))).
      { pose proof grows_po. pose proof grows_reading. destruct b; gn; apply pres_upd; intros s; eexists [_]; reflexivity. }
      destruct (X _ _ _ H) as [pre E]. rewrite E in O. exact (ok_T _ _ O). }
    destruct b; [exact (push_C _ _ _ E3 C O3) | exact (pop_C _ _ _ E3 C O3)].
Qed.
Definition JA (s : st) : Prop := CInv s /\ WT G s.
Lemma command_C sig r inc c p u p' : is_include c = false -> JA (snd p) -> ok (s_log (snd p')) ->
  runCommand G sig r inc c p = Ok (u, p') -> JA (snd p').
Proof.
  intros IC [C HW] O E. split; [|exact (proj1 (keepsW_command G ok ok_T ok_N HC sig r inc c IC p u p' E HW O))].
  destruct (level_command c) eqn:LC.
  - destruct (read_C _ (runCommand G sig r inc c) (fun _ _ _ => True)) with (p := p) (a := u) (p' := p') as (X & _); auto.
    + intros Pf m d X Y. exact (runCommand_T G Pf m ok HC X Y sig d r inc c LC).
    + now apply growsN_command.
  - assert (PP : forall b, cmdPushPop b p = Ok (u, p') -> CInv (snd p')).
    { intros b X. exact (pushpop_C b _ _ _ X C O). }
    destruct c; try discriminate IC; try discriminate LC; cbn [runCommand] in E.
    all: first [exact (step_C _ _ _ _ _ E C HW O) | exact (assume_C _ _ _ _ _ E C O) | exact (PP _ E) | idtac].
    exfalso. apply (ok_N _ O). unfold cmdReset in E. mstep E as x q F. mstate F. apply mupd_ok in E. subst p'. now left.
Qed.
Lemma CInv_init o : CInv (st_init o).
Proof.
  constructor; cbn [st_init s_asmctx length].
  - apply Inv_init.
  - reflexivity.
  - intros F (n1 & n2 & n3 & n4 & n5 & n6 & []).
Qed.
Lemma include_C s path r nf incl inp : CInv s -> s_asmctx s = [] ->
  CInv (set_log ((O, EvInclude path r nf) :: s_log s) (set_input inp (set_refNf nf (set_hasRef r (set_incl incl s))))).
Proof.
  intros C E. apply (CInv_quiet s); [exact C | |].
  - exists [(O, EvInclude path r nf)]. repeat split.
  - apply (Inv_eq G _ _ _ s); auto; try gro. exact (c_inv _ C).
Qed.
Theorem run_C o incs i v s : run G o incs i = Ok (v, s) -> ok (s_log s) -> CInv s.
Proof.
  intros H O. apply (run_keeps G ok ok_T JA) with (o := o) (incs := incs) (i := i) (v := v); auto.
  - intros sig r inc c p u p' IC J1 O1 E. exact (command_C _ _ _ _ _ _ _ IC J1 O1 E).
  - intros sig p t p' [C HW] O1 E. split.
    + destruct (read_C _ (parseExpr G sig (g_fuel G)) (fun Pf m t => Q vinfo (Pf m) t)) with (p := p) (a := t) (p' := p') as (X & _); auto.
      * intros Pf m d X Y. exact (parseExpr_T G Pf m ok HC X Y sig _ d).
      * apply growsN_pe.
    + destruct HW as [d I]. exists d. exact (proj1 (parseExpr_T G TT 0 ok HC TT_levels (TT_log G ok ok_T) sig _ d p t p' I O1 E)).
  - intros s0 path r nf incl inp [C [d I]] A _. split; [now apply include_C|].
    exists d. apply (InvT_upd G d s0); auto; try gro. exact (iv_asm _ _ _ _ _ I).
  - intros s0 inp [C [d I]]. split.
    + destruct C as [C1 C2 C3]. constructor; auto. apply (Inv_eq G _ _ _ s0); auto; try gro.
    + exists d. apply (InvT_upd G d s0); auto; try gro. exact (iv_asm _ _ _ _ _ I).
  - split; [apply CInv_init | exists 0%nat; apply Inv_init].
Qed.
End Sound.

Theorem run_sound W holds G o incs i v s : run G o incs i = Ok (v, s) -> coherent G -> well_nested (events s) ->
  (forall e, In e (events s) -> valid_step W holds e) -> (forall e, In e (events s) -> settled (g_varinfo G) e) ->
  (forall j e, In (S j, e) (s_log s) -> proof_free (g_varinfo G) e) ->
  forall F, concluded (s_log s) F -> entails W holds (assumed (events s)) F.
Proof.
  intros H HC H1 H2 H3 H4 F HF. destruct (run_inv _ _ _ _ _ _ H) as (IV & _).
  apply (c_conc W holds G s); [|exact HF]. apply (run_C W holds G HC (s_log s) H1 H2 H3 H4) with (o := o) (incs := incs) (i := i) (v := v); auto.
  - intros l1 lv name rule proven prem args asm conc l2 E. exact (i_pop _ _ IV _ _ _ _ _ _ _ _ _ _ E).
  - exists []. reflexivity.
Qed.
(** Without push, pop and reset everything is nested. *)
Lemma plain_nested (l : list (nat * event)) : plain (map snd l) ->
  (forall l1 lv name rule proven prem args asm conc l2, l = l1 ++ (lv, EvStep name rule proven prem args (Some asm) conc) :: l2 ->
    hd_error (opened (map snd l2)) = Some asm) -> well_nested (map snd l).
Proof.
  induction l as [|[lv e] l IH]; intros (P1 & P2 & P3) H; [exact I|]. cbn [map snd] in *.
  assert (IH' : well_nested (map snd l)).
  { apply IH; [repeat split; intros X; [apply P1 | apply P2 | apply P3]; now right|]. intros. apply (H ((lv, e) :: l1) lv0 name rule proven prem args asm conc). now subst. }
  destruct e as [ | | | | n F b | n ru pr prem args [a|] conc | | | | | | | ]; cbn [well_nested]; try exact IH'.
  - split; [|exact IH']. specialize (H [] _ _ _ _ _ _ _ _ _ eq_refl). rewrite (nested_opened _ IH') in H.
    assert (X : forall o, In o (open_scopes (map snd l)) -> o <> None).
    { assert (P1' : ~ In EvPush (map snd l)) by (intros X; apply P1; now right). clear - P1'. revert P1'.
      induction (map snd l) as [|e l' IH]; [intros _ o []|]. intros N. specialize (IH (fun X => N (or_intror X))).
      assert (T : forall o, In o (tl (open_scopes l')) -> o <> None) by (intros o Y; apply IH; destruct (open_scopes l'); [exact Y | now right]).
      destruct e as [ | | | | n F [|] | n ru pr prem args [a|] conc | | | | | | | ]; cbn [open_scopes]; try exact IH; try exact T.
      - intros o [<- | Y]; [discriminate | exact (IH o Y)].
      - destruct N. now left.
      - intros o []. }
    destruct (open_scopes (map snd l)) as [|[F|] sc]; [discriminate H | exists F; reflexivity | exfalso; apply (X None); [now left | reflexivity]].
  - destruct P2. now left.
  - destruct P3. now left.
Qed.
Theorem run_sound_plain W holds G o incs i v s : run G o incs i = Ok (v, s) -> coherent G -> plain (events s) ->
  (forall e, In e (events s) -> valid_step W holds e) -> (forall e, In e (events s) -> settled (g_varinfo G) e) ->
  (forall j e, In (S j, e) (s_log s) -> proof_free (g_varinfo G) e) ->
  forall F, concluded (s_log s) F -> entails W holds (assumed (events s)) F.
Proof.
  intros H HC H1. apply (run_sound W holds G o incs i v s H HC). apply plain_nested; [exact H1|]. destruct (run_inv _ _ _ _ _ _ H) as (IV & _).
  intros l1 lv name rule proven prem args asm conc l2 E. exact (i_pop _ _ IV _ _ _ _ _ _ _ _ _ _ E).
Qed.
