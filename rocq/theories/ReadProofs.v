(** The stack machine of the parser computes the recursive reading. *)
From Coq Require Import String ZArith List Bool Lia.
From Verif Require Import Base Kind Ints Str Literal Arity Term Match Eval ListOps Typing Build Scope Lexer Parse
  SpecRead TermProofs FrontProofs CheckProofs.
Import ListNotations.
Open Scope Z_scope.

(* ------------------------------------------------------------------ *)
(** * The lexer *)
Lemma token_eqb_eq a b : token_eqb a b = true <-> a = b.
Proof. split; [|intros ->; unfold token_eqb; apply Z.eqb_refl]. destruct a, b; intros H; try reflexivity; discriminate H. Qed.
Lemma token_eqb_refl a : token_eqb a a = true.
Proof. now apply token_eqb_eq. Qed.

Definition fresh (l : lexer) : Prop := l_peeked l = [].
Definition one (l : lexer) : Prop := fresh l \/ exists t, l_peeked l = [t].
Lemma fresh_one l : fresh l -> one l. Proof. now left. Qed.
Lemma one_ready l : one l -> ready l. Proof. intros [H|H]; [now left | right; now left]. Qed.
Lemma fresh_ready l : fresh l -> ready l. Proof. now left. Qed.
Lemma internal_peeked l t l1 : nextTokenInternal l = Ok (t, l1) -> l_peeked l1 = l_peeked l.
Proof. unfold nextTokenInternal. intros H. apply bind_ok in H. destruct H as ([[a b] c] & _ & H). injection H as <- <-. reflexivity. Qed.
Lemma fresh_next l t l1 : fresh l -> nextToken l = Ok (t, l1) -> fresh l1.
Proof. unfold fresh, nextToken. intros F H. rewrite F in H. rewrite <- F. eapply internal_peeked. exact H. Qed.
Lemma one_next l t l1 : one l -> nextToken l = Ok (t, l1) -> fresh l1.
Proof.
  intros [F|[u F]] H; [exact (fresh_next _ _ _ F H)|]. unfold nextToken in H. rewrite F in H. injection H as <- <-. reflexivity.
Qed.
Lemma ready_next l t l1 : ready l -> nextToken l = Ok (t, l1) -> one l1 /\ (t <> T_LPAREN -> fresh l1).
Proof.
  intros [F|[[u F]|[u F]]] H.
  - pose proof (fresh_next _ _ _ F H). split; [now left | auto].
  - pose proof (one_next l t l1 (or_intror (ex_intro _ u F)) H). split; [now left | auto].
  - unfold nextToken in H. rewrite F in H. injection H as <- <-. split; [right; now exists u | intros X; now contradiction X].
Qed.
Lemma shows_app l ws vs l' : shows l (ws ++ vs) l' <-> exists l1, shows l ws l1 /\ shows l1 vs l'.
Proof.
  split.
  - revert l. induction ws as [|[t s] ws IH]; intros l H; cbn [app] in H.
    + exists l. split; [constructor | exact H].
    + inversion H as [|? ? ? l1 ? ? N T S]; subst. destruct (IH _ S) as (l2 & A & B). exists l2. split; [|exact B].
      econstructor; eassumption.
  - intros (l1 & A & B). induction A as [|l t s l2 ws l1 N T S IH]; [exact B|]. cbn [app]. econstructor; [exact N | exact T | exact (IH B)].
Qed.
Lemma shows_cons l t s ws l' : shows l ((t, s) :: ws) l' ->
  exists l1, nextToken l = Ok (t, l1) /\ (paren t = false -> tokenStr l1 = s) /\ shows l1 ws l'.
Proof. intros H. inversion H; subst. eexists. repeat split; eassumption. Qed.
Lemma shows_nil l l' : shows l [] l' -> l' = l.
Proof. intros H. now inversion H. Qed.
Lemma shows_reinsert l t s ws l' : (paren t = false -> tokenStr l = s) -> shows l ws l' ->
  shows (reinsertToken t l) ((t, s) :: ws) l'.
Proof.
  intros T H. econstructor; [|exact T | exact H]. unfold reinsertToken, nextToken. cbn [l_peeked l_let l_type l_chars l_tok].
  destruct l; reflexivity.
Qed.
(** All words of a term are read, nothing is put back after it. *)
Lemma shows_fresh ws : forall l l', fresh l -> shows l ws l' -> fresh l'.
Proof.
  induction ws as [|[t s] ws IH]; intros l l' F H; [apply shows_nil in H; now subst|].
  apply shows_cons in H. destruct H as (l1 & N & _ & H). exact (IH _ _ (fresh_next _ _ _ F N) H).
Qed.
Lemma words_fresh x l l' : proper x -> ready l -> shows l (words x) l' -> fresh l'.
Proof.
  intros P R H. destruct x as [t s|xs]; cbn [words] in H.
  - apply shows_cons in H. destruct H as (l1 & N & _ & H). apply shows_nil in H. subst l1.
    apply (ready_next _ _ _ R N). inversion P as [? ? Q _|]; subst. intros ->. discriminate Q.
  - apply shows_cons in H. destruct H as (l1 & N & _ & H). apply (ready_next _ _ _ R) in N. destruct N as [O _].
    assert (Q : exists t s ws, flat_map words xs ++ [(T_RPAREN, [])] = (t, s) :: ws).
    { destruct (flat_map words xs) as [|[t s] ws]; [exists T_RPAREN, [], []; reflexivity | cbn [app]; eauto]. }
    destruct Q as (t & s & ws & Q). rewrite Q in H. apply shows_cons in H. destruct H as (l2 & N & _ & H).
    apply (one_next _ _ _ O) in N. exact (shows_fresh _ _ _ N H).
Qed.
Lemma args_ready xs l l' : Forall proper xs -> ready l -> shows l (flat_map words xs) l' -> ready l'.
Proof.
  intros P R H. destruct P as [|x xs Px P]; [apply shows_nil in H; now subst|]. cbn [flat_map] in H.
  apply shows_app in H. destruct H as (l1 & A & B). apply fresh_ready. apply (shows_fresh _ _ _ (words_fresh _ _ _ Px R A) B).
Qed.

(** The methods of the lexer on the words that are shown. *)
Lemma next_at l s t l1 : nextToken l = Ok (t, l1) -> next (l, s) = Ok (t, (l1, s)).
Proof. intros H. unfold next, mlex. cbn [fst snd]. rewrite H. reflexivity. Qed.
Lemma eat_at l s t l1 : nextToken l = Ok (t, l1) -> eat t (l, s) = Ok (tt, (l1, s)).
Proof. intros H. unfold eat, mlex, eatToken. cbn [fst snd]. rewrite H. cbn [bind]. rewrite token_eqb_refl. reflexivity. Qed.
Lemma eat_inv t l s a p : eat t (l, s) = Ok (a, p) -> exists l1, nextToken l = Ok (t, l1) /\ p = (l1, s).
Proof.
  unfold eat, mlex, eatToken. cbn [fst snd]. intros H. apply bind_ok in H. destruct H as ([u l2] & H1 & H2).
  apply bind_ok in H1. destruct H1 as (l3 & H1 & H3). apply bind_ok in H1. destruct H1 as ([v l4] & H1 & H4).
  destruct (token_eqb t v) eqn:E; [|discriminate]. apply token_eqb_eq in E. subst v. injection H4 as ->. injection H3 as <- <-.
  injection H2 as <- <-. exists l3. auto.
Qed.
Lemma choice_at l s t f u l1 : nextToken l = Ok (u, l1) ->
  eatChoice t f (l, s) = if token_eqb u t then Ok (true, (l1, s)) else if token_eqb u f then Ok (false, (l1, s)) else Err.
Proof.
  intros H. unfold eatChoice, mlex, eatTokenChoice. cbn [fst snd]. rewrite H. cbn [bind].
  destruct (token_eqb u t); [reflexivity|]. destruct (token_eqb u f); reflexivity.
Qed.
Lemma peek_at l s t l1 : fresh l -> nextToken l = Ok (t, l1) -> peek (l, s) = Ok (t, (reinsertToken t l1, s)).
Proof.
  unfold fresh, nextToken. intros F H. rewrite F in H. unfold peek, mlex, peekToken. cbn [fst snd]. rewrite H. reflexivity.
Qed.
Lemma symbol_at l s t w n : name_of t w = Some n -> tokenStr l = w -> tokSymbol t (l, s) = Ok (n, (l, s)).
Proof.
  intros H W. unfold tokSymbol, mlex, tokenStrToSymbol. cbn [fst snd]. destruct t; try discriminate H; cbn [name_of] in H; rewrite W.
  - unfold stripQuotes. destruct w as [|a [|b w]]; try discriminate H. cbn [tl]. injection H as <-. reflexivity.
  - injection H as <-. reflexivity.
Qed.
Lemma symbol_inv l s t n p : tokSymbol t (l, s) = Ok (n, p) -> name_of t (tokenStr l) = Some n /\ p = (l, s).
Proof.
  unfold tokSymbol, mlex, tokenStrToSymbol. cbn [fst snd]. intros H.
  destruct t; try discriminate H; cbn [name_of].
  - unfold stripQuotes in H. destruct (tokenStr l) as [|a [|b w]]; try discriminate H. cbn [tl] in H. injection H as <- <-. auto.
  - injection H as <- <-. auto.
Qed.
Lemma name_of_word t w n : name_of t w = Some n -> t = T_SYMBOL \/ t = T_QUOTED_SYMBOL.
Proof. destruct t; try discriminate; auto. Qed.

(* ------------------------------------------------------------------ *)
(** * The machine *)
Lemma mbind_at A B (m : M A) (f : A -> M B) p a p1 : m p = Ok (a, p1) -> mbind m f p = f a p1.
Proof. intros H. unfold mbind. rewrite H. reflexivity. Qed.
Lemma mbind_fuel A B (m : M A) (f : A -> M B) p : m p = Fuel -> mbind m f p = Fuel.
Proof. intros H. unfold mbind. rewrite H. reflexivity. Qed.
Lemma mbind_assoc A B C (m : M A) (f : A -> M B) (g : B -> M C) p :
  mbind (mbind m f) g p = mbind m (fun a => mbind (f a) g) p.
Proof. unfold mbind. destruct (m p) as [[a p1]| | |]; reflexivity. Qed.
Lemma mbind_ext A B (m : M A) (f g : A -> M B) p : (forall a p, f a p = g a p) -> mbind m f p = mbind m g p.
Proof. intros H. unfold mbind. destruct (m p) as [[a p1]| | |]; cbn [bind fst snd]; auto. Qed.
Ltac at_ H := rewrite (mbind_at _ _ _ _ _ _ _ H).

Section Machine.
Variable G : config.
Variable sig : bool.
Variable pe : M term.
Notation lets := (list (list (text * term))).
Notation reads := (SpecRead.reads G sig).
Notation reads_args := (SpecRead.reads_args G sig).

Definition onToken (pstack : list pframe) (lb : lets) (tok : token) : M (term * list pframe * lets) :=
  match tok with
  | T_LPAREN =>
      let! tok1 := next in
      match tok1 with
      | T_LET | T_EVAL_DEFINE =>
          eat T_LPAREN ;;
          let! (ps, lb1) := letNext (mkPFrame CLetNextBind 0 []) pstack ([] :: lb) in
          mret (null_term, ps, lb1)
      | T_ATTRIBUTE => mret (null_term, mkPFrame CAnnotate 0 [] :: pstack, lb)
      | T_LPAREN =>
          let! tok2 := next in
          let! name := tokSymbol tok2 in
          if text_eqb name (txt "_") || text_eqb name (txt "as") then
            let! fr := parseHead G pe tok2 in
            mret (null_term, fr :: mkPFrame CNextArg 0 [] :: pstack, lb)
          else merr
      | T_SYMBOL | T_QUOTED_SYMBOL =>
          let! fr := parseHead G pe tok1 in
          mret (null_term, fr :: pstack, lb)
      | _ => merr
      end
  | T_RPAREN =>
      match pstack with
      | [] => mlift UB
      | fr :: rest =>
          match pf_ctx fr with
          | CNextArg =>
              let! r := mkE G K_APPLY (pf_args fr) in
              popN (pf_nscopes fr) ;; mret (r, rest, lb)
          | _ => merr
          end
      end
  | T_SYMBOL | T_QUOTED_SYMBOL =>
      let! name := tokSymbol tok in
      let! v := getVarM name in
      if kind_eqb (tkind v) K_BUILTIN_CONST then merr else mret (v, pstack, lb)
  | _ => let! r := parseLiteral sig tok in mret (r, pstack, lb)
  end.
Definition run (n : nat) (ps : list pframe) (lb : lets) : M term := mloop n (parseStep G sig pe) (ps, lb).
Definition after (n : nat) (t : term) (ps : list pframe) (lb : lets) : M term :=
  let! (ret, ps2, lb2) := updateCtx G pe t ps lb in
  match ps2 with [] => mret ret | _ => run n ps2 lb2 end.
Lemma run_S n ps lb p : run (S n) ps lb p =
  mbind next (fun tok => mbind (onToken ps lb tok) (fun r => let '(ret, ps1, lb1) := r in after n ret ps1 lb1)) p.
Proof.
  unfold run at 1. cbn [mloop]. unfold parseStep. rewrite mbind_assoc. apply mbind_ext. intros tok q.
  rewrite mbind_assoc. apply mbind_ext. intros [[ret ps1] lb1] q1. unfold after. rewrite mbind_assoc. apply mbind_ext.
  intros [[ret2 ps2] lb2] q2. destruct ps2; reflexivity.
Qed.
Lemma run_tok n ps lb l s t l1 : nextToken l = Ok (t, l1) ->
  run (S n) ps lb (l, s) = mbind (onToken ps lb t) (fun r => let '(ret, ps1, lb1) := r in after n ret ps1 lb1) (l1, s).
Proof. intros H. rewrite run_S. now at_ (next_at l s t l1 H). Qed.
Lemma after_null n fr ps lb p t : tkind t = K_NONE -> after n t (fr :: ps) lb p = run n (fr :: ps) lb p.
Proof. intros H. unfold after. cbn [updateCtx]. rewrite H. reflexivity. Qed.
Lemma kind_neqb k : k <> K_NONE -> kind_eqb k K_NONE = false.
Proof. intros H. destruct (kind_eqb k K_NONE) eqn:E; [|reflexivity]. apply kind_eqb_eq in E. contradiction. Qed.
Lemma after_arg n k as_ ps lb p t : ~ skipped t ->
  after n t (mkPFrame CNextArg k as_ :: ps) lb p = run n (mkPFrame CNextArg k (as_ ++ [t]) :: ps) lb p.
Proof. intros H. unfold after. cbn [updateCtx pf_ctx pf_nscopes pf_args]. rewrite (kind_neqb _ H). reflexivity. Qed.

(** ** Names, scopes, applications *)
Lemma getVar_at s l n v : getVar (s_scope s) n = Some v -> getVarM n (l, s) = Ok (v, (l, s)).
Proof. intros H. unfold getVarM, mbind, mget. cbn [bind fst snd]. rewrite H. reflexivity. Qed.
Lemma getVar_inv s l n v p : getVarM n (l, s) = Ok (v, p) -> getVar (s_scope s) n = Some v /\ p = (l, s).
Proof.
  unfold getVarM, mbind, mget. cbn [bind fst snd]. destruct (getVar (s_scope s) n); [|discriminate].
  intros H. injection H as -> <-. auto.
Qed.
Lemma mkE_at s l k ts r : mkExpr (env_of G s) (g_n G) (g_mk G) k ts = Ok r -> mkE G k ts (l, s) = Ok (r, (l, s)).
Proof. intros H. unfold mkE, mbind, mget, mlift. cbn [bind fst snd]. rewrite H. reflexivity. Qed.
Lemma mkE_inv s l k ts r p : mkE G k ts (l, s) = Ok (r, p) -> mkExpr (env_of G s) (g_n G) (g_mk G) k ts = Ok r /\ p = (l, s).
Proof.
  unfold mkE, mbind, mget, mlift. cbn [bind fst snd]. intros H. apply bind_ok in H. destruct H as (a & H & E).
  injection E as -> <-. auto.
Qed.
Lemma pop_at s l s' : left_scope s s' -> popM (l, s) = Ok (tt, (l, s')).
Proof. intros (c & H & ->). unfold popM, mbind, mget, mlift, mupd. cbn [bind fst snd]. rewrite H. reflexivity. Qed.
Lemma pop_inv s l a p : popM (l, s) = Ok (a, p) -> exists s', left_scope s s' /\ p = (l, s').
Proof.
  unfold popM, mbind, mget, mlift, mupd. cbn [bind fst snd]. intros H. apply bind_ok in H. destruct H as ([x [l1 s1]] & H & E).
  apply bind_ok in H. destruct H as (c & H & F). injection F as <- <- <-. cbn [fst snd] in E. injection E as _ <-.
  exists (set_scope c s). split; [|reflexivity]. exists c. auto.
Qed.
Lemma bind_at s l n e c : bind_sym (o_ruleSymTable (s_opts s)) (s_scope s) n e = Some c ->
  bindM n e (l, s) = Ok (tt, (l, set_scope c s)).
Proof. intros H. unfold bindM, bindState, mbind, mget, mupd. cbn [bind fst snd]. rewrite H. reflexivity. Qed.
Lemma bind_inv s l n e a p : bindM n e (l, s) = Ok (a, p) ->
  exists c, bind_sym (o_ruleSymTable (s_opts s)) (s_scope s) n e = Some c /\ p = (l, set_scope c s).
Proof.
  unfold bindM, bindState, mbind, mget, mupd. cbn [bind fst snd]. destruct (bind_sym _ _ _ _) as [c|]; [|discriminate].
  cbn [bind fst snd mret]. intros H. injection H as _ <-. eauto.
Qed.
Lemma names_at s ds s' l : named_in s ds s' -> mfor ds (fun b => bindM (fst b) (snd b)) (l, s) = Ok (tt, (l, s')).
Proof.
  induction 1 as [s|s n e c ds s' B N IH]; [reflexivity|]. cbn [mfor fst snd]. now at_ (bind_at s l n e c B).
Qed.
Lemma names_inv ds : forall s l a p, mfor ds (fun b => bindM (fst b) (snd b)) (l, s) = Ok (a, p) ->
  exists s', named_in s ds s' /\ p = (l, s').
Proof.
  induction ds as [|[n e] ds IH]; intros s l a p H; cbn [mfor fst snd] in H.
  - injection H as _ <-. exists s. split; [constructor | reflexivity].
  - apply mbind_ok in H. destruct H as (u & p1 & B & H). apply bind_inv in B. destruct B as (c & B & ->).
    destruct (IH _ _ _ _ H) as (s' & N & ->). exists s'. split; [|reflexivity]. econstructor; eassumption.
Qed.
Lemma literal_at s l t w v : word_term sig (s_opts s) t w v -> tokenStr l = w -> parseLiteral sig t (l, s) = Ok (v, (l, s)).
Proof.
  intros H W.
  assert (L : forall k x r, lit k x = Ok r -> mkLit k x (l, s) = Ok (r, (l, s))).
  { intros k x r E. unfold lit in E. apply bind_ok in E. destruct E as (y & E & F). injection F as <-.
    unfold mkLit, mlift, mbind. rewrite E. reflexivity. }
  unfold parseLiteral, tokText, mlex, mlift, mbind, mget, mret. destruct H; cbn [bind fst snd]; rewrite ?W.
  - apply orb_true_iff in H. destruct H as [-> |H]; cbn [negb andb].
    + now apply L.
    + apply negb_true_iff in H. rewrite H, andb_false_r. now apply L.
  - apply orb_false_iff in H. destruct H as [-> H]. apply negb_false_iff in H. rewrite H. cbn [negb andb].
    rewrite H0. cbn [bind fst snd]. now apply L.
  - apply orb_true_iff in H. destruct H as [-> |H]; cbn [negb andb].
    + now apply L.
    + apply negb_true_iff in H. rewrite H, andb_false_r. now apply L.
  - apply orb_false_iff in H. destruct H as [-> H]. apply negb_false_iff in H. rewrite H. cbn [negb andb].
    rewrite H0. cbn [bind fst snd]. now apply L.
  - match goal with |- match ?d with _ => _ end _ = _ => assert (Z : d = None \/ exists x, d = Some x /\ forallb (fun c => c =? 48) x = false) end.
    { clear -H. revert H. match goal with |- ~ zero_denominator ?x -> _ => rename x into w end. induction w as [|c w IH]; intros H; [now left|].
      destruct (c =? 47) eqn:E.
      - right. exists w. split; [reflexivity|]. apply Z.eqb_eq in E. subst c. destruct (forallb _ w) eqn:F; [|reflexivity].
        exfalso. apply H. constructor. rewrite forallb_forall in F. apply Forall_forall. intros x I. now apply Z.eqb_eq, F.
      - apply IH. intros X. apply H. constructor; [|exact X]. intros ->. discriminate E. }
    destruct Z as [-> |(x & -> & ->)]; now apply L.
  - apply orb_true_iff in H. destruct H as [-> |H]; cbn [negb andb].
    + now apply L.
    + apply negb_true_iff in H. rewrite H, andb_false_r. now apply L.
  - apply orb_false_iff in H. destruct H as [-> H]. apply negb_false_iff in H. rewrite H. cbn [negb andb].
    rewrite H0. cbn [bind fst snd]. now apply L.
  - now apply L.
  - rewrite H. cbn [bind fst snd]. now apply L.
  - reflexivity.
  - reflexivity.
Qed.

(** ** The head of an application *)
Lemma first_words xs l l' : Forall proper xs -> fresh l -> shows l (flat_map words xs ++ [(T_RPAREN, [])]) l' ->
  exists t l1, nextToken l = Ok (t, l1) /\ fresh l1 /\
    ((t <> T_LPAREN /\ var_list xs = false /\ shows (reinsertToken t l1) (flat_map words xs ++ [(T_RPAREN, [])]) l') \/
     (t = T_LPAREN /\ exists t2 l2, nextToken l1 = Ok (t2, l2) /\ fresh l2 /\ token_eqb t2 T_LPAREN = var_list xs /\
        shows (reinsertToken T_LPAREN (reinsertToken t2 l2)) (flat_map words xs ++ [(T_RPAREN, [])]) l')).
Proof.
  intros P F H.
  assert (K : forall t s ws, flat_map words xs ++ [(T_RPAREN, [])] = (t, s) :: ws -> t <> T_LPAREN -> var_list xs = false ->
    exists t l1, nextToken l = Ok (t, l1) /\ fresh l1 /\
    ((t <> T_LPAREN /\ var_list xs = false /\ shows (reinsertToken t l1) (flat_map words xs ++ [(T_RPAREN, [])]) l') \/
     (t = T_LPAREN /\ exists t2 l2, nextToken l1 = Ok (t2, l2) /\ fresh l2 /\ token_eqb t2 T_LPAREN = var_list xs /\
        shows (reinsertToken T_LPAREN (reinsertToken t2 l2)) (flat_map words xs ++ [(T_RPAREN, [])]) l'))).
  { intros t s ws E N V. rewrite E in *. apply shows_cons in H. destruct H as (l1 & N1 & T1 & H). exists t, l1.
    split; [exact N1|]. split; [exact (fresh_next _ _ _ F N1)|]. left. split; [exact N|]. split; [exact V|].
    apply shows_reinsert; auto. }
  assert (K2 : forall t s ws, flat_map words xs ++ [(T_RPAREN, [])] = (T_LPAREN, []) :: (t, s) :: ws -> token_eqb t T_LPAREN = var_list xs ->
    exists t l1, nextToken l = Ok (t, l1) /\ fresh l1 /\
    ((t <> T_LPAREN /\ var_list xs = false /\ shows (reinsertToken t l1) (flat_map words xs ++ [(T_RPAREN, [])]) l') \/
     (t = T_LPAREN /\ exists t2 l2, nextToken l1 = Ok (t2, l2) /\ fresh l2 /\ token_eqb t2 T_LPAREN = var_list xs /\
        shows (reinsertToken T_LPAREN (reinsertToken t2 l2)) (flat_map words xs ++ [(T_RPAREN, [])]) l'))).
  { intros t s ws E V. rewrite E in *. apply shows_cons in H. destruct H as (l1 & N1 & T1 & H). exists T_LPAREN, l1.
    split; [exact N1|]. pose proof (fresh_next _ _ _ F N1) as F1. split; [exact F1|]. right. split; [reflexivity|].
    apply shows_cons in H. destruct H as (l2 & N2 & T2 & H). exists t, l2. split; [exact N2|]. split; [exact (fresh_next _ _ _ F1 N2)|].
    split; [exact V|]. apply shows_reinsert; [discriminate|]. apply shows_reinsert; auto. }
  destruct xs as [|[t s|[|[t s|ys] zs]] xs].
  - eapply K; reflexivity || discriminate.
  - inversion P as [|? ? Q _]; subst. inversion Q as [? ? Q1 _|]; subst. eapply K; [reflexivity| |reflexivity]. intros ->. discriminate Q1.
  - eapply K2; reflexivity.
  - inversion P as [|? ? Q _]; subst. inversion Q as [|? _ Q1]; subst. inversion Q1 as [|? ? Q2 _]; subst. inversion Q2 as [? ? Q3 _|]; subst.
    eapply K2; [reflexivity|]. cbn [var_list]. destruct t; try reflexivity; discriminate Q3.
  - eapply K2; [cbn; reflexivity|]. reflexivity.
Qed.
Lemma reinsert_at t l s : reinsert t (l, s) = Ok (tt, (reinsertToken t l, s)).
Proof. reflexivity. Qed.
Lemma head_plain s k w n v xs l l' : name_of k w = Some n -> getVar (s_scope s) n = Some v ->
  binds (getConstructorKind (env_of G s) v) && var_list xs = false -> Forall proper xs -> fresh l -> tokenStr l = w ->
  shows l (flat_map words xs ++ [(T_RPAREN, [])]) l' ->
  exists l2, parseHead G pe k (l, s) = Ok (mkPFrame CNextArg 0 [v], (l2, s)) /\ ready l2 /\
    shows l2 (flat_map words xs ++ [(T_RPAREN, [])]) l'.
Proof.
  intros N V B P F W H. unfold parseHead. at_ (symbol_at l s k w n N W). at_ (getVar_at s l n v V).
  unfold mbind at 1. cbn [mget bind fst snd].
  destruct (getConstructorKind (env_of G s) v) eqn:C; cbn [binds andb] in B;
    try (exists l; split; [reflexivity|]; split; [now left | exact H]).
  all: destruct (first_words xs l l' P F H) as (t & l1 & N1 & F1 & [(T & _ & S1)|(-> & t2 & l2 & N2 & F2 & T & S1)]);
    at_ (next_at l s _ l1 N1).
  all: try (assert (E : token_eqb t T_LPAREN = false) by (destruct (token_eqb t T_LPAREN) eqn:E; [apply token_eqb_eq in E; contradiction | reflexivity]);
            rewrite E; at_ (reinsert_at t l1 s); eexists; split; [reflexivity|]; split; [|exact S1];
            right; left; exists t; cbn [reinsertToken l_peeked]; now rewrite F1).
  all: cbn [token_eqb token_num Z.eqb Pos.eqb]; at_ (peek_at l1 s t2 l2 F1 N2); at_ (reinsert_at T_LPAREN (reinsertToken t2 l2) s);
    rewrite T, B; eexists; split; [reflexivity|]; split; [|exact S1]; right; right; exists t2; cbn [reinsertToken l_peeked]; now rewrite F2.
Qed.

(** ** Lists of variables and of definitions *)
Definition PEr : Prop := forall s x t s1, reads s x t s1 -> forall l l', proper x -> ready l -> shows l (words x) l' ->
  pe (l, s) = Fuel \/ pe (l, s) = Ok (t, (l', s1)).
Definition vbody (acc : list term * list (term * list (attr * option term))) :
  M ((list term * list (term * list (attr * option term))) + (list term * list (term * list (attr * option term)))) :=
    let '(vars, amap) := acc in
    let! more := eatChoice T_LPAREN T_RPAREN in
    if more then
      let! name := parseSymbol in
      let! t := parseType G pe false false in
      let! v := getBoundVar G name t in
      bindM name v ;; eat T_RPAREN ;; mret (inl (v :: vars, amap))
    else mret (inr (rev vars, rev amap)).
Lemma vbody_eq : parseVarListMap G pe K_NONE = (eat T_LPAREN ;; mloop (g_fuel G) vbody ([], [])).
Proof. reflexivity. Qed.
Definition lbody (acc : list (term * term)) : M (list (term * term) + list (term * term)) :=
    let! more := eatChoice T_LPAREN T_RPAREN in
    if more then
      let! name := parseSymbol in
      let! t := pe in
      eat T_RPAREN ;;
      let! ty := typeCheck G t in
      let! v := getBoundVar G name ty in
      mret (inl ((v, t) :: acc))
    else mret (inr (rev acc)).
Lemma typeCheck_at s l t ty : of_type G s t ty -> typeCheck G t (l, s) = Ok (ty, (l, s)).
Proof. intros H. unfold typeCheck, typeOf, mbind, mget, mlift. cbn [bind fst snd]. rewrite H. reflexivity. Qed.
Lemma typeCheck_inv s l t ty p : typeCheck G t (l, s) = Ok (ty, p) -> of_type G s t ty /\ p = (l, s).
Proof.
  unfold typeCheck, typeOf, mbind, mget, mlift. cbn [bind fst snd]. intros H. apply bind_ok in H. destruct H as ([a p1] & H & E).
  apply bind_ok in H. destruct H as (b & H & F). injection F as -> <-. cbn [fst snd] in E. destruct a as [a|]; [|discriminate].
  injection E as -> <-. auto.
Qed.
Lemma boundVar_at s l n ty v : variable G s n ty v -> getBoundVar G n ty (l, s) = Ok (v, (l, s)).
Proof.
  intros [H | x v' H L E]; unfold getBoundVar; rewrite H; [reflexivity|]. unfold lit in L. apply bind_ok in L. destruct L as (y & L & F).
  injection F as <-. assert (X : mkLit K_STRING n (l, s) = Ok (Lit y, (l, s))) by (unfold mkLit, mlift, mbind; rewrite L; reflexivity).
  at_ X. now apply mkE_at.
Qed.
Lemma boundVar_inv s l n ty v p : getBoundVar G n ty (l, s) = Ok (v, p) -> variable G s n ty v /\ p = (l, s).
Proof.
  unfold getBoundVar. destruct (isGround ty) eqn:I; intros H.
  - injection H as <- <-. split; [now constructor | reflexivity].
  - apply mbind_ok in H. destruct H as (x & p1 & L & H). unfold mkLit, mlift, mbind in L.
    apply bind_ok in L. destruct L as ([y p2] & L & F). apply bind_ok in L. destruct L as (y' & L & F'). injection F' as -> <-. injection F as <- <-.
    apply mkE_inv in H. destruct H as [H ->]. split; [|reflexivity]. econstructor; [exact I | | exact H]. unfold lit. rewrite L. reflexivity.
Qed.
Lemma parseSymbol_at l s k w n l1 : nextToken l = Ok (k, l1) -> tokenStr l1 = w -> name_of k w = Some n ->
  parseSymbol (l, s) = Ok (n, (l1, s)).
Proof. intros N W H. unfold parseSymbol. at_ (next_at l s k l1 N). exact (symbol_at l1 s k w n H W). Qed.
Lemma word_text k w n l1 : name_of k w = Some n -> (paren k = false -> tokenStr l1 = w) -> tokenStr l1 = w.
Proof. intros H T. apply T. destruct (name_of_word _ _ _ H) as [-> | ->]; reflexivity. Qed.
Lemma proper_list xs : proper (XL xs) -> Forall proper xs.
Proof. intros H. now inversion H. Qed.
Lemma type_at (PE : PEr) s x ty s1 l l' : reads s x ty s1 -> of_type G s1 ty t_Type -> isEvaluatable ty = false -> proper x -> ready l ->
  shows l (words x) l' -> parseType G pe false false (l, s) = Fuel \/ parseType G pe false false (l, s) = Ok (ty, (l', s1)).
Proof.
  intros R T E P Y H. unfold parseType, parseTypeBody. destruct (PE _ _ _ _ R _ _ P Y H) as [X|X].
  - left. now apply mbind_fuel.
  - right. at_ X. unfold typeCheckAs. rewrite mbind_assoc. at_ (typeCheck_at s1 l' ty t_Type T). rewrite term_eqb_refl.
    rewrite E. reflexivity.
Qed.
(** A pair (name x). *)
Lemma pair_words l k w x xs l' : proper (XL [XT k w; x]) -> one l -> shows l (words (XL [XT k w; x]) ++ flat_map words xs) l' ->
  exists l1 l2 l3 l4, nextToken l = Ok (T_LPAREN, l1) /\ nextToken l1 = Ok (k, l2) /\ (paren k = false -> tokenStr l2 = w) /\
    fresh l2 /\ proper x /\ shows l2 (words x) l3 /\ fresh l3 /\ nextToken l3 = Ok (T_RPAREN, l4) /\ fresh l4 /\ shows l4 (flat_map words xs) l'.
Proof.
  intros P F H. apply proper_list in P. inversion P as [|? ? _ P1]; subst. inversion P1 as [|? ? P2 _]; subst.
  cbn [words flat_map app] in H. apply shows_cons in H. destruct H as (l1 & N1 & _ & H). pose proof (one_next _ _ _ F N1) as F1.
  apply shows_cons in H. destruct H as (l2 & N2 & T2 & H). pose proof (fresh_next _ _ _ F1 N2) as F2.
  rewrite app_nil_r in H. rewrite <- app_assoc in H. apply shows_app in H. destruct H as (l3 & H3 & H). pose proof (shows_fresh _ _ _ F2 H3) as F3.
  cbn [app] in H. apply shows_cons in H. destruct H as (l4 & N4 & _ & H).
  exists l1, l2, l3, l4. repeat (split; [eassumption|]). split; [exact (fresh_next _ _ _ F3 N4)|exact H].
Qed.
Lemma vars_at (PE : PEr) s xs vs s1 : reads_vars G sig s xs vs s1 -> forall n acc l l', Forall proper xs -> one l ->
  shows l (flat_map words xs) l' ->
  mloop n vbody (acc, []) (l, s) = Fuel \/ exists n', mloop n vbody (acc, []) (l, s) = mloop n' vbody (rev vs ++ acc, []) (l', s1).
Proof.
  induction 1 as [s|s k w m x ty s1 v c xs vs s2 N R T E V B RV IH]; intros n acc l l' P F H.
  - apply shows_nil in H. subst l'. right. now exists n.
  - destruct n as [|n]; [now left|]. inversion P as [|? ? P1 P2]; subst. cbn [flat_map] in H.
    destruct (pair_words _ _ _ _ _ _ P1 F H) as (l1 & l2 & l3 & l4 & N1 & N2 & W2 & F2 & Px & S3 & F3 & N4 & F4 & S5).
    pose proof (word_text _ _ _ _ N W2) as W. cbn [mloop]. unfold vbody at 1 3. rewrite !mbind_assoc.
    assert (C : eatChoice T_LPAREN T_RPAREN (l, s) = Ok (true, (l1, s))) by (rewrite (choice_at _ _ _ _ _ _ N1); reflexivity).
    at_ C. rewrite !mbind_assoc. at_ (parseSymbol_at l1 s k w m l2 N2 W N). rewrite !mbind_assoc.
    destruct (type_at PE s x ty s1 l2 l3 R T E Px (fresh_ready _ F2) S3) as [X|X]; [left; now apply mbind_fuel|].
    at_ X. rewrite !mbind_assoc. at_ (boundVar_at s1 l3 m ty v V). rewrite !mbind_assoc. at_ (bind_at s1 l3 m v c B). rewrite !mbind_assoc.
    at_ (eat_at l3 (set_scope c s1) T_RPAREN l4 N4). unfold mbind at 1 2. cbn [mret bind fst snd].
    destruct (IH n (v :: acc) l4 l' P2 (fresh_one _ F4) S5) as [Y|[n' Y]]; [now left|]. right. exists n'. rewrite Y. cbn [rev]. now rewrite <- app_assoc.
Qed.
Lemma defs_at (PE : PEr) s xs ds s1 : reads_defs G sig s xs ds s1 -> forall n acc l l', Forall proper xs -> one l ->
  shows l (flat_map words xs) l' ->
  mloop n lbody acc (l, s) = Fuel \/
  exists n', mloop n lbody acc (l, s) = mloop n' lbody (rev (map (fun d => (snd (fst d), snd d)) ds) ++ acc) (l', s1).
Proof.
  induction 1 as [s|s k w m x t s1 ty xs ds s2 N R T I RV IH]; intros n acc l l' P F H.
  - apply shows_nil in H. subst l'. right. now exists n.
  - destruct n as [|n]; [now left|]. inversion P as [|? ? P1 P2]; subst. cbn [flat_map] in H.
    destruct (pair_words _ _ _ _ _ _ P1 F H) as (l1 & l2 & l3 & l4 & N1 & N2 & W2 & F2 & Px & S3 & F3 & N4 & F4 & S5).
    pose proof (word_text _ _ _ _ N W2) as W. cbn [mloop]. unfold lbody at 1 3. rewrite !mbind_assoc.
    assert (C : eatChoice T_LPAREN T_RPAREN (l, s) = Ok (true, (l1, s))) by (rewrite (choice_at _ _ _ _ _ _ N1); reflexivity).
    at_ C. rewrite !mbind_assoc. at_ (parseSymbol_at l1 s k w m l2 N2 W N). rewrite !mbind_assoc.
    destruct (PE _ _ _ _ R l2 l3 Px (fresh_ready _ F2) S3) as [X|X]; [left; now apply mbind_fuel|].
    at_ X. rewrite !mbind_assoc. at_ (eat_at l3 s1 T_RPAREN l4 N4). rewrite !mbind_assoc. at_ (typeCheck_at s1 l4 t ty T). rewrite !mbind_assoc.
    at_ (boundVar_at s1 l4 m ty _ (va_ground G s1 m ty I)). unfold mbind at 1 2. cbn [mret bind fst snd].
    destruct (IH n ((Sym K_VARIABLE (g_bvar G m ty), t) :: acc) l4 l' P2 (fresh_one _ F4) S5) as [Y|[n' Y]]; [now left|]. right. exists n'. rewrite Y.
    cbn [map rev fst snd]. now rewrite <- app_assoc.
Qed.

(** ** Binders *)
Lemma binder_words vxs xs l l' : Forall proper (XL vxs :: xs) -> fresh l -> var_list [XL vxs] = true ->
  shows l (flat_map words (XL vxs :: xs) ++ [(T_RPAREN, [])]) l' ->
  exists l1 l2 l4 l5 l6, nextToken l = Ok (T_LPAREN, l1) /\ fresh l1 /\ nextToken l1 = Ok (T_LPAREN, l2) /\
    nextToken (reinsertToken T_LPAREN (reinsertToken T_LPAREN l2)) = Ok (T_LPAREN, l4) /\ one l4 /\
    shows l4 (flat_map words vxs) l5 /\ fresh l5 /\ nextToken l5 = Ok (T_RPAREN, l6) /\ fresh l6 /\
    shows l6 (flat_map words xs ++ [(T_RPAREN, [])]) l'.
Proof.
  intros P F V H. destruct (first_words _ l l' P F H) as (t & l1 & N1 & F1 & [(_ & X & _)|(-> & t2 & l2 & N2 & F2 & T & S1)]).
  { cbn [var_list] in *. congruence. }
  assert (E : token_eqb t2 T_LPAREN = true) by (rewrite T; exact V). apply token_eqb_eq in E. subst t2.
  cbn [flat_map words] in S1. rewrite <- app_comm_cons in S1. rewrite <- app_comm_cons in S1. apply shows_cons in S1. destruct S1 as (l4 & N4 & _ & S4).
  assert (O4 : one l4).
  { unfold nextToken, reinsertToken in N4. cbn [l_peeked] in N4. rewrite F2 in N4. injection N4 as <-. right. now exists T_LPAREN. }
  rewrite <- !app_assoc in S4. apply shows_app in S4. destruct S4 as (l5 & S4 & S5). cbn [app] in S5. apply shows_cons in S5. destruct S5 as (l6 & N6 & _ & S6).
  assert (F5 : fresh l5).
  { destruct vxs as [|[a b|ys] zs]; try discriminate V. cbn [flat_map words app] in S4. apply shows_cons in S4. destruct S4 as (l7 & N7 & _ & S7).
    exact (shows_fresh _ _ _ (one_next _ _ _ O4 N7) S7). }
  exists l1, l2, l4, l5, l6. repeat (split; [assumption|]). split; [exact (fresh_next _ _ _ F5 N6)|exact S6].
Qed.
Lemma vloop_end n acc l s l1 : nextToken l = Ok (T_RPAREN, l1) ->
  mloop n vbody (acc, []) (l, s) = Fuel \/ mloop n vbody (acc, []) (l, s) = Ok ((rev acc, []), (l1, s)).
Proof.
  intros N. destruct n as [|n]; [now left|]. right. cbn [mloop]. unfold vbody at 1. rewrite mbind_assoc.
  assert (C : eatChoice T_LPAREN T_RPAREN (l, s) = Ok (false, (l1, s))) by (rewrite (choice_at _ _ _ _ _ _ N); reflexivity).
  at_ C. reflexivity.
Qed.
Lemma lloop_end n acc l s l1 : nextToken l = Ok (T_RPAREN, l1) ->
  mloop n lbody acc (l, s) = Fuel \/ mloop n lbody acc (l, s) = Ok (rev acc, (l1, s)).
Proof.
  intros N. destruct n as [|n]; [now left|]. right. cbn [mloop]. unfold lbody at 1. rewrite mbind_assoc.
  assert (C : eatChoice T_LPAREN T_RPAREN (l, s) = Ok (false, (l1, s))) by (rewrite (choice_at _ _ _ _ _ _ N); reflexivity).
  at_ C. reflexivity.
Qed.
Lemma varList_at (PE : PEr) s xs vs s1 l l1 l5 l6 : reads_vars G sig s xs vs s1 -> Forall proper xs ->
  nextToken l = Ok (T_LPAREN, l1) -> one l1 -> shows l1 (flat_map words xs) l5 -> nextToken l5 = Ok (T_RPAREN, l6) ->
  parseVarList G pe K_NONE (l, s) = Fuel \/ parseVarList G pe K_NONE (l, s) = Ok (vs, (l6, s1)).
Proof.
  intros R P N1 O S5 N6. unfold parseVarList. rewrite vbody_eq. rewrite mbind_assoc. at_ (eat_at l s T_LPAREN l1 N1).
  destruct (vars_at PE s xs vs s1 R (g_fuel G) [] l1 l5 P O S5) as [X|[n' X]]; [left; now apply mbind_fuel|].
  rewrite app_nil_r in X. destruct (vloop_end n' (rev vs) l5 s1 l6 N6) as [Y|Y]; rewrite Y in X; [left; now apply mbind_fuel|].
  right. at_ X. rewrite rev_involutive. reflexivity.
Qed.
Hypothesis HC : forall n t, g_varinfo G (g_bvar G n t) = Some (n, t).
Lemma defs_names : forall xs s ds s1, reads_defs G sig s xs ds s1 ->
  Forall (fun d => exists ty, snd (fst d) = Sym K_VARIABLE (g_bvar G (fst (fst d)) ty)) ds.
Proof. induction 1 as [s|s k w m x t s1 ty xs ds s2 N R T I RV IH]; constructor; [exists ty; reflexivity | exact IH]. Qed.
Definition dname (ll : term * term) : M unit :=
  match fst ll with
  | Sym _ _ => let! s := mget in bindM (e_name (env_of G s) (fst ll)) (fst ll)
  | _ => mlift UB
  end.
Lemma dnames_at ds : Forall (fun d : text * term * term => exists ty, snd (fst d) = Sym K_VARIABLE (g_bvar G (fst (fst d)) ty)) ds -> forall s s' l,
  named_in s (map (fun d => (fst (fst d), snd (fst d))) ds) s' ->
  mfor (map (fun d => (snd (fst d), snd d)) ds) dname (l, s) = Ok (tt, (l, s')).
Proof.
  induction 1 as [|[[n v] t] ds [ty E] _ IH]; intros s s' l H; cbn [map fst snd] in *.
  - inversion H; subst. reflexivity.
  - subst v. inversion H as [|? ? ? c ? ? B N]; subst. cbn [mfor]. unfold dname at 1. cbn [fst]. rewrite mbind_assoc.
    unfold mbind at 1. cbn [mget bind fst snd].
    assert (X : e_name (env_of G s) (Sym K_VARIABLE (g_bvar G n ty)) = n) by (cbn [env_of e_name]; now rewrite HC).
    rewrite X. at_ (bind_at s l n _ c B). apply IH. exact N.
Qed.
Lemma letList_at (PE : PEr) s xs ds s1 s2 l l1 l5 l6 : reads_defs G sig s xs ds s1 -> Forall proper xs ->
  named_in s1 (map (fun d => (fst (fst d), snd (fst d))) ds) s2 ->
  nextToken l = Ok (T_LPAREN, l1) -> one l1 -> shows l1 (flat_map words xs) l5 -> nextToken l5 = Ok (T_RPAREN, l6) ->
  parseLetList G pe (l, s) = Fuel \/ parseLetList G pe (l, s) = Ok (map (fun d => (snd (fst d), snd d)) ds, (l6, s2)).
Proof.
  intros R P NI N1 O S5 N6. unfold parseLetList. fold lbody. at_ (eat_at l s T_LPAREN l1 N1).
  destruct (defs_at PE s xs ds s1 R (g_fuel G) [] l1 l5 P O S5) as [X|[n' X]]; [left; now apply mbind_fuel|].
  rewrite app_nil_r in X.
  destruct (lloop_end n' (rev (map (fun d => (snd (fst d), snd d)) ds)) l5 s1 l6 N6) as [Y|Y]; rewrite Y in X; [left; now apply mbind_fuel|].
  right. at_ X. rewrite rev_involutive. fold dname. at_ (dnames_at ds (defs_names _ _ _ _ R) s1 s2 l6 NI). reflexivity.
Qed.
Lemma cons_at s l v ct : constructor_of G s v ct -> consTermOf G v (l, s) = Ok (ct, (l, s)).
Proof. intros (ai & E & ->). unfold consTermOf, mbind, mget. cbn [bind fst snd]. rewrite E. reflexivity. Qed.
Lemma cons_inv s l v ct p : consTermOf G v (l, s) = Ok (ct, p) -> constructor_of G s v ct /\ p = (l, s).
Proof.
  unfold consTermOf, mbind, mget. cbn [bind fst snd]. destruct (e_info (env_of G s) v) as [ai|] eqn:E; [|discriminate].
  intros H. injection H as <- <-. split; [|reflexivity]. exists ai. auto.
Qed.
Lemma head_binder (PE : PEr) s k w n v vxs xs vs s1 ct vl l l' :
  name_of k w = Some n -> getVar (s_scope s) n = Some v ->
  getConstructorKind (env_of G s) v = A_BINDER -> var_list [XL vxs] = true ->
  reads_vars G sig (entered s) vxs vs s1 -> constructor_of G s1 v ct -> applied G s1 (ct :: vs) vl ->
  Forall proper (XL vxs :: xs) -> fresh l -> tokenStr l = w ->
  shows l (flat_map words (XL vxs :: xs) ++ [(T_RPAREN, [])]) l' ->
  parseHead G pe k (l, s) = Fuel \/
  exists l2, parseHead G pe k (l, s) = Ok (mkPFrame CNextArg 1 [v; vl], (l2, s1)) /\ fresh l2 /\
    shows l2 (flat_map words xs ++ [(T_RPAREN, [])]) l'.
Proof.
  intros N V C VL R CO AP P F W H.
  destruct (binder_words vxs xs l l' P F VL H) as (l1 & l2 & l4 & l5 & l6 & N1 & F1 & N2 & N4 & O4 & S5 & F5 & N6 & F6 & S6).
  unfold parseHead. at_ (symbol_at l s k w n N W). at_ (getVar_at s l n v V).
  assert (GE : mget (l, s) = Ok (s, (l, s))) by reflexivity. at_ GE. rewrite C. at_ (next_at l s _ l1 N1). cbn [token_eqb token_num Z.eqb Pos.eqb].
  at_ (peek_at l1 s _ l2 F1 N2). at_ (reinsert_at T_LPAREN (reinsertToken T_LPAREN l2) s). cbn [token_eqb token_num Z.eqb Pos.eqb].
  assert (X : pushM (reinsertToken T_LPAREN (reinsertToken T_LPAREN l2), s) = Ok (tt, (reinsertToken T_LPAREN (reinsertToken T_LPAREN l2), entered s))) by reflexivity.
  at_ X. rewrite mbind_assoc. inversion P as [|? ? P1 P2]; subst. apply proper_list in P1.
  destruct (varList_at PE (entered s) vxs vs s1 _ l4 l5 l6 R P1 N4 O4 S5 N6) as [Y|Y]; [left; now apply mbind_fuel|].
  at_ Y. destruct vs as [|v0 vs]; [exfalso; inversion R; subst; discriminate VL|].
  unfold mkBinderList. rewrite mbind_assoc. at_ (cons_at s1 l6 v ct CO). at_ (mkE_at s1 l6 K_APPLY (ct :: v0 :: vs) vl AP).
  right. exists l6. split; [reflexivity|]. auto.
Qed.
Lemma pairs_at s2 l p (ds : list (text * term * term)) prs : Forall2 (fun d r => applied G s2 [p; snd (fst d); snd d] r) ds prs ->
  mmap (map (fun d => (snd (fst d), snd d)) ds) (fun ll => mkE G K_APPLY [p; fst ll; snd ll]) (l, s2) = Ok (prs, (l, s2)).
Proof.
  induction 1 as [|d r ds prs A _ IH]; [reflexivity|]. cbn [map mmap fst snd]. at_ (mkE_at s2 l K_APPLY _ r A). at_ IH. reflexivity.
Qed.
Lemma head_let_binder (PE : PEr) s k w n v vxs xs ds s1 s2 ct p q cs prs vl l l' :
  name_of k w = Some n -> getVar (s_scope s) n = Some v ->
  getConstructorKind (env_of G s) v = A_LET_BINDER -> var_list [XL vxs] = true ->
  reads_defs G sig (entered s) vxs ds s1 -> named_in s1 (map (fun d => (fst (fst d), snd (fst d))) ds) s2 ->
  constructor_of G s2 v ct -> tchildren ct = p :: q :: cs ->
  Forall2 (fun d r => applied G s2 [p; snd (fst d); snd d] r) ds prs -> applied G s2 (q :: prs) vl ->
  Forall proper (XL vxs :: xs) -> fresh l -> tokenStr l = w ->
  shows l (flat_map words (XL vxs :: xs) ++ [(T_RPAREN, [])]) l' ->
  parseHead G pe k (l, s) = Fuel \/
  exists l2, parseHead G pe k (l, s) = Ok (mkPFrame CNextArg 1 [v; vl], (l2, s2)) /\ fresh l2 /\
    shows l2 (flat_map words xs ++ [(T_RPAREN, [])]) l'.
Proof.
  intros N V C VL R NI CO CH PR AP P F W H.
  destruct (binder_words vxs xs l l' P F VL H) as (l1 & l2 & l4 & l5 & l6 & N1 & F1 & N2 & N4 & O4 & S5 & F5 & N6 & F6 & S6).
  unfold parseHead. at_ (symbol_at l s k w n N W). at_ (getVar_at s l n v V).
  assert (GE : mget (l, s) = Ok (s, (l, s))) by reflexivity. at_ GE. rewrite C. at_ (next_at l s _ l1 N1). cbn [token_eqb token_num Z.eqb Pos.eqb].
  at_ (peek_at l1 s _ l2 F1 N2). at_ (reinsert_at T_LPAREN (reinsertToken T_LPAREN l2) s). cbn [token_eqb token_num Z.eqb Pos.eqb].
  assert (X : pushM (reinsertToken T_LPAREN (reinsertToken T_LPAREN l2), s) = Ok (tt, (reinsertToken T_LPAREN (reinsertToken T_LPAREN l2), entered s))) by reflexivity.
  at_ X. rewrite mbind_assoc. inversion P as [|? ? P1 P2]; subst. apply proper_list in P1.
  destruct (letList_at PE (entered s) vxs ds s1 s2 _ l4 l5 l6 R P1 NI N4 O4 S5 N6) as [Y|Y]; [left; now apply mbind_fuel|].
  at_ Y. destruct ds as [|d0 ds]; [exfalso; inversion R; subst; discriminate VL|]. cbn [map].
  unfold mkLetBinderList. rewrite mbind_assoc. at_ (cons_at s2 l6 v ct CO). rewrite CH. unfold mlift. cbn [vec_at nth_error].
  assert (Z1 : (fun p0 : pst => Ok (p, p0)) (l6, s2) = Ok (p, (l6, s2))) by reflexivity.
  rewrite mbind_assoc. cbn [bind]. at_ Z1. rewrite mbind_assoc.
  assert (Z2 : (fun p0 : pst => Ok (q, p0)) (l6, s2) = Ok (q, (l6, s2))) by reflexivity. at_ Z2. rewrite mbind_assoc.
  pose proof (pairs_at s2 l6 p (d0 :: ds) prs PR) as Z. cbn [map] in Z. at_ Z. at_ (mkE_at s2 l6 K_APPLY (q :: prs) vl AP).
  right. exists l6. split; [reflexivity|]. auto.
Qed.

(** ** Annotations *)
Definition sbody (nparen : Z) : M (Z + unit) :=
    let! tok := next in
    let! n := match tok with
              | T_LPAREN => mret ((nparen + 1) mod 2 ^ 64)
              | T_RPAREN => mret ((nparen - 1) mod 2 ^ 64)
              | T_EOF => merr
              | _ => mret nparen
              end in
    if n =? 0 then mret (inr tt) else mret (inl n).
Lemma nesting_nonneg x : 0 <= nesting x.
Proof. destruct x as [t s|xs]; cbn [nesting]; [lia|]. induction xs as [|x xs IH]; cbn [fold_right]; lia. Qed.
Lemma sx_ind2 (P : sx -> Prop) : (forall t s, P (XT t s)) -> (forall xs, Forall P xs -> P (XL xs)) -> forall x, P x.
Proof.
  intros A B. fix rec 1. intros [t s|xs]; [apply A|]. apply B. induction xs as [|x xs IH]; constructor; [apply rec | exact IH].
Qed.
Lemma stok_at n c l s t l1 d : nextToken l = Ok (t, l1) -> t <> T_EOF ->
  d = match t with T_LPAREN => (c + 1) mod 2 ^ 64 | T_RPAREN => (c - 1) mod 2 ^ 64 | _ => c end ->
  mloop (S n) sbody c (l, s) = (if d =? 0 then Ok (tt, (l1, s)) else mloop n sbody d (l1, s)).
Proof.
  intros N E ->. cbn [mloop]. unfold sbody at 1. rewrite mbind_assoc. at_ (next_at l s t l1 N). rewrite mbind_assoc.
  destruct t; try (now contradiction E); unfold mbind at 1; cbn [mret bind fst snd].
  all: match goal with |- _ = if ?b then _ else _ => destruct b; reflexivity end.
Qed.
Lemma swords_at x : proper x -> forall n c l l' s, 0 < c -> c + nesting x < 2 ^ 64 -> shows l (words x) l' ->
  mloop n sbody c (l, s) = Fuel \/ exists n', mloop n sbody c (l, s) = mloop n' sbody c (l', s).
Proof.
  induction x as [t w|xs IH] using sx_ind2; intros P n c l l' s C B H; (destruct n as [|n]; [now left|]).
  - cbn [words] in H. apply shows_cons in H. destruct H as (l1 & N & _ & H). apply shows_nil in H. subst l1.
    inversion P as [? ? P1 P2|]; subst. rewrite (stok_at n c l s t l' c N P2); [|destruct t; reflexivity || discriminate P1].
    assert (Z : (c =? 0) = false) by (apply Z.eqb_neq; lia). rewrite Z. right. now exists n.
  - cbn [words] in H. apply shows_cons in H. destruct H as (l1 & N & _ & H). apply shows_app in H. destruct H as (l2 & H & H2).
    apply shows_cons in H2. destruct H2 as (l3 & N3 & _ & H2). apply shows_nil in H2. subst l3.
    assert (NN : 0 <= fold_right (fun y m => Z.max (nesting y) m) 0 xs) by (clear; induction xs as [|x xs IH]; cbn [fold_right]; lia).
    rewrite (stok_at n c l s T_LPAREN l1 (c + 1) N); [|discriminate|symmetry; apply Z.mod_small; cbn [nesting] in B; lia]. clear NN.
    assert (Z : (c + 1 =? 0) = false) by (apply Z.eqb_neq; lia). rewrite Z. inversion P as [|? P1 P2]; subst. cbn [nesting] in B, P1.
    clear N l Z P P1. revert n l1 H. induction xs as [|x xs IHx]; intros n l1 H; cbn [flat_map fold_right] in *.
    + apply shows_nil in H. subst l2. destruct n as [|n]; [now left|]. right. exists n.
      rewrite (stok_at n (c + 1) l1 s T_RPAREN l' c N3); [|discriminate|].
      * assert (Z : (c =? 0) = false) by (apply Z.eqb_neq; lia). now rewrite Z.
      * replace (c + 1 - 1) with c by lia. symmetry. apply Z.mod_small. lia.
    + apply shows_app in H. destruct H as (l4 & H & H4). inversion IH as [|? ? IH1 IH2]; subst. inversion P2 as [|? ? Q1 Q2]; subst.
      destruct (IH1 Q1 n (c + 1) l1 l4 s ltac:(lia) ltac:(lia) H) as [X|[n' X]]; [now left|]. rewrite X.
      apply IHx; auto. lia.
Qed.
Lemma symbolic_at x l l' s : proper x -> shows l (words x) l' ->
  parseSymbolicExpr G (l, s) = Fuel \/ parseSymbolicExpr G (l, s) = Ok (tt, (l', s)).
Proof.
  intros P H. unfold parseSymbolicExpr. fold sbody. destruct (g_fuel G) as [|n]; [now left|].
  destruct x as [t w|xs]; cbn [words] in H; apply shows_cons in H; destruct H as (l1 & N & _ & H).
  - apply shows_nil in H. subst l1. inversion P as [? ? P1 P2|]; subst. rewrite (stok_at n 0 l s t l' 0 N P2); [now right|].
    destruct t; reflexivity || discriminate P1.
  - rewrite (stok_at n 0 l s T_LPAREN l1 1 N); [|discriminate|reflexivity]. change (1 =? 0) with false. cbv iota.
    apply shows_app in H. destruct H as (l2 & H & H2).
    apply shows_cons in H2. destruct H2 as (l3 & N3 & _ & H2). apply shows_nil in H2. subst l3.
    inversion P as [|? P1 P2]; subst. cbn [nesting] in P1. clear N P. revert n l1 H. induction xs as [|x xs IHx]; intros n l1 H; cbn [flat_map fold_right] in *.
    + apply shows_nil in H. subst l2. destruct n as [|n]; [now left|]. right.
      rewrite (stok_at n 1 l1 s T_RPAREN l' 0 N3); [reflexivity | discriminate | reflexivity].
    + apply shows_app in H. destruct H as (l4 & H & H4). inversion P2 as [|? ? Q1 Q2]; subst.
      destruct (swords_at x Q1 n 1 l1 l4 s ltac:(lia) ltac:(lia) H) as [X|[n' X]]; [now left|]. rewrite X.
      apply IHx; auto. lia.
Qed.
Definition abody (e : term) (acc : list (attr * option term)) : M (list (attr * option term) + list (attr * option term)) :=
      let! more := eatChoice T_KEYWORD T_RPAREN in
      if more then
        let! key := tokText in
        match table_find strToAttr key with
        | None =>
            let! tok := peek in
            (if token_eqb tok T_KEYWORD || token_eqb tok T_RPAREN then mret tt else parseSymbolicExpr G) ;;
            mret (inl ((A_NONE, None) :: acc))
        | Some a => merr
        end
      else mret (inr (rev acc)).
Lemma mloop_ext {S A} (b1 b2 : S -> M (S + A)) : (forall s p, b1 s p = b2 s p) -> forall n s p, mloop n b1 s p = mloop n b2 s p.
Proof.
  intros E n. induction n as [|n IH]; intros s p; [reflexivity|]. cbn [mloop]. unfold mbind. rewrite E.
  destruct (b2 s p) as [[[s'|a] p1]| | |]; cbn [bind fst snd]; auto.
Qed.
Lemma mbind_left A B (m1 m2 : M A) (f : A -> M B) p : m1 p = m2 p -> mbind m1 f p = mbind m2 f p.
Proof. intros H. unfold mbind. now rewrite H. Qed.
Lemma mret_at A B (a : A) (f : A -> M B) p : mbind (mret a) f p = f a p.
Proof. unfold mbind, mret. cbn [bind fst snd]. reflexivity. Qed.
Lemma annotations e p : parseAttributeList G pe K_NONE e K_NONE p =
  (let! attrs := mloop (g_fuel G) (abody e) [] in reinsert T_RPAREN ;; mret attrs) p.
Proof.
  unfold parseAttributeList. apply mbind_left. apply mloop_ext. intros acc q. unfold abody. apply mbind_ext.
  intros [|] q1; [|reflexivity]. apply mbind_ext. intros key q2. destruct (table_find strToAttr key) as [a|]; [|reflexivity].
  cbn [kind_eqb andb]. unfold mbind, parseAttrValue. cbn [mret bind fst snd]. reflexivity.
Qed.
Lemma text_at l s : tokText (l, s) = Ok (tokenStr l, (l, s)).
Proof. reflexivity. Qed.
Lemma abody_key n e acc l s l2 : nextToken l = Ok (T_KEYWORD, l2) -> table_find strToAttr (tokenStr l2) = None ->
  mloop (S n) (abody e) acc (l, s) =
  (let! tok := peek in (if token_eqb tok T_KEYWORD || token_eqb tok T_RPAREN then mret tt else parseSymbolicExpr G) ;;
   mloop n (abody e) ((A_NONE, None) :: acc)) (l2, s).
Proof.
  intros N T. cbn [mloop]. unfold abody at 1. rewrite mbind_assoc.
  assert (C : eatChoice T_KEYWORD T_RPAREN (l, s) = Ok (true, (l2, s))) by (rewrite (choice_at _ _ _ _ _ _ N); reflexivity).
  at_ C. rewrite mbind_assoc. at_ (text_at l2 s). rewrite T. rewrite mbind_assoc. apply mbind_ext. intros tok p. rewrite mbind_assoc.
  apply mbind_ext. intros u q. now rewrite mret_at.
Qed.
Lemma attrs_at e as_ : attributes as_ -> forall n acc l l1 l' s, Forall proper as_ -> one l ->
  shows l (flat_map words as_) l1 -> nextToken l1 = Ok (T_RPAREN, l') ->
  mloop n (abody e) acc (l, s) = Fuel \/ exists r, mloop n (abody e) acc (l, s) = Ok (r, (l', s)).
Proof.
  induction 1 as [|k xs T K A IH|k x xs T K A IH]; intros n acc l l1 l' s P F H NR; (destruct n as [|n]; [now left|]).
  - apply shows_nil in H. subst l1. right. exists (rev acc). cbn [mloop]. unfold abody at 1. rewrite mbind_assoc.
    assert (C : eatChoice T_KEYWORD T_RPAREN (l, s) = Ok (false, (l', s))) by (rewrite (choice_at _ _ _ _ _ _ NR); reflexivity).
    at_ C. reflexivity.
  - cbn [flat_map words app] in H. apply shows_cons in H. destruct H as (l2 & N & W & H). specialize (W eq_refl).
    pose proof (one_next _ _ _ F N) as F2. rewrite <- W in T. rewrite (abody_key n e acc l s l2 N T).
    inversion P as [|? ? P1 P2]; subst.
    assert (Y : exists t l3, nextToken l2 = Ok (t, l3) /\ (t = T_KEYWORD \/ t = T_RPAREN) /\ shows (reinsertToken t l3) (flat_map words xs) l1 /\
                  (xs = [] -> l1 = reinsertToken t l3) /\ fresh l3 \/
                xs = [] /\ nextToken l2 = Ok (t, l3) /\ t = T_RPAREN /\ fresh l3 /\ l3 = l').
    { destruct xs as [|[u v|ys] xs]; [| |discriminate K].
      - apply shows_nil in H. subst l1. exists T_RPAREN, l'. right. split; [reflexivity|]. split; [exact NR|]. split; [reflexivity|].
        split; [exact (fresh_next _ _ _ F2 NR) | reflexivity].
      - destruct u; try discriminate K. cbn [flat_map words app] in H. apply shows_cons in H. destruct H as (l3 & N3 & W3 & H).
        exists T_KEYWORD, l3. left. split; [exact N3|]. split; [now left|]. split; [apply shows_reinsert; auto|].
        split; [discriminate | exact (fresh_next _ _ _ F2 N3)]. }
    destruct Y as (t & l3 & [(N3 & K3 & S3 & _ & F3)|(-> & N3 & -> & F3 & ->)]).
    + at_ (peek_at l2 s t l3 F2 N3). assert (E : token_eqb t T_KEYWORD || token_eqb t T_RPAREN = true) by (destruct K3 as [-> | ->]; reflexivity).
      rewrite E. rewrite !mret_at. eapply IH; [exact P2 | | exact S3 | exact NR].
      right. exists t. cbn [reinsertToken l_peeked]. now rewrite F3.
    + at_ (peek_at l2 s T_RPAREN l' F2 N3). change (token_eqb T_RPAREN T_KEYWORD || token_eqb T_RPAREN T_RPAREN) with true. cbv iota. rewrite !mret_at.
      eapply IH; [exact P2 | | constructor |].
      * right. exists T_RPAREN. cbn [reinsertToken l_peeked]. now rewrite F3.
      * unfold nextToken, reinsertToken. cbn [l_peeked l_let l_type l_chars l_tok]. destruct l'. reflexivity.
  - cbn [flat_map words app] in H. apply shows_cons in H. destruct H as (l2 & N & W & H). specialize (W eq_refl).
    pose proof (one_next _ _ _ F N) as F2. rewrite <- W in T. rewrite (abody_key n e acc l s l2 N T).
    inversion P as [|? ? P1 P2]; subst. inversion P2 as [|? ? P3 P4]; subst.
    assert (Y : exists t w ws, words x = (t, w) :: ws /\ token_eqb t T_KEYWORD || token_eqb t T_RPAREN = false).
    { destruct x as [u v|ys]; cbn [words]; [|eauto]. exists u, v, []. split; [reflexivity|]. inversion P3; subst.
      destruct u; try reflexivity; discriminate. }
    destruct Y as (t & w & ws & E & Y). apply shows_app in H. destruct H as (l4 & H & H4).
    pose proof H as H'. rewrite E in H'. apply shows_cons in H'. destruct H' as (l3 & N3 & W3 & H').
    at_ (peek_at l2 s t l3 F2 N3). rewrite Y.
    assert (S3 : shows (reinsertToken t l3) (words x) l4) by (rewrite E; apply shows_reinsert; auto).
    pose proof (fresh_next _ _ _ F2 N3) as F3. pose proof (shows_fresh _ _ _ F2 H) as F4.
    destruct (symbolic_at x (reinsertToken t l3) l4 s P3 S3) as [X|X]; [left; now apply mbind_fuel|].
    at_ X. eapply IH; [exact P4 | left; exact F4 | exact H4 | exact NR].
Qed.
Lemma annotated_at e as_ l l1 l' s : attributes as_ -> Forall proper as_ -> one l -> shows l (flat_map words as_) l1 -> nextToken l1 = Ok (T_RPAREN, l') ->
  parseAttributeList G pe K_NONE e K_NONE (l, s) = Fuel \/ exists r, parseAttributeList G pe K_NONE e K_NONE (l, s) = Ok (r, (reinsertToken T_RPAREN l', s)).
Proof.
  intros A P F H N. rewrite annotations. destruct (attrs_at e as_ A (g_fuel G) [] l l1 l' s P F H N) as [X|[r X]]; [left; now apply mbind_fuel|].
  right. exists r. at_ X. reflexivity.
Qed.

(** ** Whole terms *)
Lemma mbind_ext_ok A B (m : M A) (f g : A -> M B) p : (forall a q, m p = Ok (a, q) -> f a q = g a q) -> mbind m f p = mbind m g p.
Proof. intros H. unfold mbind. destruct (m p) as [[a p1]| | |]; cbn [bind fst snd]; auto. Qed.
Lemma letNext_frame fr rest lb p ps lb1 q : letNext fr rest lb p = Ok ((ps, lb1), q) -> exists fr', ps = fr' :: rest.
Proof.
  unfold letNext. intros H. apply mbind_ok in H. destruct H as (more & p1 & _ & H). destruct lb as [|bs lb']; [discriminate|].
  destruct more.
  - apply mbind_ok in H. destruct H as (nm & p2 & _ & H). injection H as <- <- <-. eauto.
  - apply mbind_ok in H. destruct H as (u & p2 & _ & H). apply mbind_ok in H. destruct H as (u' & p3 & _ & H). injection H as <- <- <-. eauto.
Qed.
Definition pause (fr : pframe) (rest : list pframe) (lb : lets) (n : nat) : M term :=
  let! (ps1, lb1) := letNext fr rest lb in run n ps1 lb1.
Lemma pause_eq fr rest lb n p :
  mbind (let! (ps, lb1) := letNext fr rest lb in mret (null_term, ps, lb1)) (fun r => let '(ret, ps1, lb1) := r in after n ret ps1 lb1) p =
  pause fr rest lb n p.
Proof.
  unfold pause. rewrite mbind_assoc. apply mbind_ext_ok. intros [ps lb1] q H. rewrite mret_at.
  destruct (letNext_frame _ _ _ _ _ _ _ H) as [fr' ->]. now rewrite after_null.
Qed.
Lemma close_at n k as_ ps lb l l' s r s' : nextToken l = Ok (T_RPAREN, l') -> applied G s as_ r -> popN k (l', s) = Ok (tt, (l', s')) ->
  run (S n) (mkPFrame CNextArg k as_ :: ps) lb (l, s) = after n r ps lb (l', s').
Proof.
  intros N A P. rewrite (run_tok n _ _ _ _ _ _ N). cbn [onToken pf_ctx pf_args pf_nscopes]. rewrite mbind_assoc.
  at_ (mkE_at s l' K_APPLY as_ r A). rewrite mbind_assoc. at_ P. now rewrite mret_at.
Qed.
Lemma popN1 l s s' : left_scope s s' -> popN 1 (l, s) = Ok (tt, (l, s')).
Proof. intros H. cbn [popN]. at_ (pop_at s l s' H). reflexivity. Qed.
Lemma after_body n t ps lb l l' s s' : ~ skipped t -> nextToken l = Ok (T_RPAREN, l') -> left_scope s s' ->
  after n t (mkPFrame CLetBody 1 [] :: ps) lb (l, s) = after n t ps lb (l', s').
Proof.
  intros K N P. unfold after. cbn [updateCtx pf_ctx pf_nscopes]. rewrite (kind_neqb _ K). rewrite mbind_assoc.
  at_ (eat_at l s _ l' N). rewrite mbind_assoc. now at_ (popN1 l' s s' P).
Qed.
Lemma back_at t l : nextToken (reinsertToken t l) = Ok (t, l).
Proof. unfold nextToken, reinsertToken. cbn [l_peeked l_let l_type l_chars l_tok]. destruct l. reflexivity. Qed.
Lemma after_annotation n t ps lb l l1 l' s as_ : ~ skipped t -> attributes as_ -> Forall proper as_ -> one l ->
  shows l (flat_map words as_) l1 -> nextToken l1 = Ok (T_RPAREN, l') ->
  after n t (mkPFrame CAnnotate 0 [] :: ps) lb (l, s) = Fuel \/ after n t (mkPFrame CAnnotate 0 [] :: ps) lb (l, s) = after n t ps lb (l', s).
Proof.
  intros K A P F H N. unfold after at 1 2. cbn [updateCtx pf_ctx pf_nscopes]. rewrite (kind_neqb _ K). rewrite mbind_assoc.
  destruct (annotated_at t as_ l l1 l' s A P F H N) as [X|[r X]]; [left; now apply mbind_fuel|]. right. at_ X.
  rewrite mbind_assoc. at_ (eat_at (reinsertToken T_RPAREN l') s _ l' (back_at _ _)). cbn [popN]. rewrite mbind_assoc. rewrite mret_at. reflexivity.
Qed.
(** The word after the parenthesis is a name: the head of an application. *)
Lemma head_at n ps lb l l1 l2 s k w m fr l3 s1 : nextToken l = Ok (T_LPAREN, l1) -> nextToken l1 = Ok (k, l2) -> name_of k w = Some m ->
  parseHead G pe k (l2, s) = Ok (fr, (l3, s1)) -> run (S n) ps lb (l, s) = run n (fr :: ps) lb (l3, s1).
Proof.
  intros N1 N2 K H. rewrite (run_tok n _ _ _ _ _ _ N1). cbn [onToken]. rewrite mbind_assoc. at_ (next_at l1 s k l2 N2).
  destruct (name_of_word _ _ _ K) as [-> | ->]; rewrite mbind_assoc; at_ H; rewrite mret_at; now apply after_null.
Qed.
Lemma head_fuel n ps lb l l1 l2 s k w m : nextToken l = Ok (T_LPAREN, l1) -> nextToken l1 = Ok (k, l2) -> name_of k w = Some m ->
  parseHead G pe k (l2, s) = Fuel -> run (S n) ps lb (l, s) = Fuel.
Proof.
  intros N1 N2 K H. rewrite (run_tok n _ _ _ _ _ _ N1). cbn [onToken]. rewrite mbind_assoc. at_ (next_at l1 s k l2 N2).
  destruct (name_of_word _ _ _ K) as [-> | ->]; rewrite mbind_assoc; now apply mbind_fuel.
Qed.
Lemma run_O ps lb p : run 0 ps lb p = Fuel.
Proof. reflexivity. Qed.

Definition Pr (s : st) (x : sx) (t : term) (s1 : st) : Prop := forall l l' n ps lb, proper x -> ready l -> shows l (words x) l' ->
  run n ps lb (l, s) = Fuel \/ exists n', run n ps lb (l, s) = after n' t ps lb (l', s1).
Definition Pa (s : st) (xs : list sx) (ts : list term) (s1 : st) : Prop := forall l l' n ps lb, Forall proper xs -> ready l ->
  shows l (flat_map words xs) l' ->
  (forall k as_, run n (mkPFrame CNextArg k as_ :: ps) lb (l, s) = Fuel \/
     exists n', run n (mkPFrame CNextArg k as_ :: ps) lb (l, s) = run n' (mkPFrame CNextArg k (as_ ++ ts) :: ps) lb (l', s1)) /\
  (ts = [] -> forall fr, run n (fr :: ps) lb (l, s) = Fuel \/ exists n', run n (fr :: ps) lb (l, s) = run n' (fr :: ps) lb (l', s1)).
Definition Pl (s : st) (xs : list sx) (ds : list (text * term)) (s1 : st) : Prop := forall l l1 l' n ps lb acc, Forall proper xs -> one l ->
  shows l (flat_map words xs) l1 -> nextToken l1 = Ok (T_RPAREN, l') ->
  pause (mkPFrame CLetNextBind 0 []) ps (acc :: lb) n (l, s) = Fuel \/
  exists n', pause (mkPFrame CLetNextBind 0 []) ps (acc :: lb) n (l, s) =
    (pushM ;; mfor (acc ++ ds) (fun b => bindM (fst b) (snd b)) ;; run n' (mkPFrame CLetBody 1 [] :: ps) lb) (l', s1).
(** Arguments to the end of the application. *)
Lemma args_at n k as_ ps lb l l' s xs ts s1 r s2 : Pa s xs ts s1 -> Forall proper xs -> ready l ->
  shows l (flat_map words xs ++ [(T_RPAREN, [])]) l' -> applied G s1 (as_ ++ ts) r -> (forall l, popN k (l, s1) = Ok (tt, (l, s2))) ->
  run n (mkPFrame CNextArg k as_ :: ps) lb (l, s) = Fuel \/
  exists n', run n (mkPFrame CNextArg k as_ :: ps) lb (l, s) = after n' r ps lb (l', s2).
Proof.
  intros A P R H AP PO. apply shows_app in H. destruct H as (l1 & H & H1). apply shows_cons in H1. destruct H1 as (l2 & N & _ & H1).
  apply shows_nil in H1. subst l2. destruct (A l l1 n ps lb P R H) as [A1 _]. destruct (A1 k as_) as [X|[n' X]]; [now left|]. rewrite X.
  destruct n' as [|n']; [now left|]. right. exists n'. apply (close_at _ _ _ _ _ _ _ _ _ _ N AP (PO l')).
Qed.
Lemma eat_paren xs l l' : ready l -> shows l (words (XL xs)) l' -> exists l1, nextToken l = Ok (T_LPAREN, l1) /\ one l1 /\ shows l1 (flat_map words xs ++ [(T_RPAREN, [])]) l'.
Proof.
  intros R H. cbn [words] in H. apply shows_cons in H. destruct H as (l1 & N & _ & H). exists l1. split; [exact N|]. split; [apply (ready_next _ _ _ R N) | exact H].
Qed.
Lemma machine_reads (PE : PEr) :
  (forall s x t s1, reads s x t s1 -> Pr s x t s1) /\ (forall s xs ts s1, reads_args s xs ts s1 -> Pa s xs ts s1) /\
  (forall s xs vs s1, reads_vars G sig s xs vs s1 -> True) /\ (forall s xs ds s1, reads_defs G sig s xs ds s1 -> True) /\
  (forall s xs ds s1, reads_lets G sig s xs ds s1 -> Pl s xs ds s1).
Proof.
  apply (reads_minds G sig Pr Pa (fun _ _ _ _ => True) (fun _ _ _ _ => True) Pl); try (intros; exact I).
  - (* name *)
    intros s k w m v N V B l l' n ps lb P R H. destruct n as [|n]; [now left|]. right. exists n. cbn [words] in H.
    apply shows_cons in H. destruct H as (l1 & N1 & W & H). apply shows_nil in H. subst l1. apply (word_text _ _ _ _ N) in W.
    rewrite (run_tok n _ _ _ _ _ _ N1).
    assert (X : onToken ps lb k (l', s) = Ok ((v, ps, lb), (l', s))).
    { destruct (name_of_word _ _ _ N) as [-> | ->]; cbn [onToken]; at_ (symbol_at l' s _ w m N W); at_ (getVar_at s l' m v V);
        (destruct (kind_eqb (tkind v) K_BUILTIN_CONST) eqn:E; [apply kind_eqb_eq in E; contradiction | reflexivity]). }
    now at_ X.
  - (* word *)
    intros s k w v T l l' n ps lb P R H. destruct n as [|n]; [now left|]. right. exists n. cbn [words] in H.
    apply shows_cons in H. destruct H as (l1 & N1 & W & H). apply shows_nil in H. subst l1.
    rewrite (run_tok n _ _ _ _ _ _ N1).
    assert (X : onToken ps lb k (l', s) = Ok ((v, ps, lb), (l', s))).
    { assert (Y : onToken ps lb k = (let! r := parseLiteral sig k in mret (r, ps, lb)) /\ paren k = false) by (destruct T; split; reflexivity).
      destruct Y as [-> Y]. at_ (literal_at s l' k w v T (W Y)). reflexivity. }
    now at_ X.
  - (* application *)
    intros s k w m v xs ts s1 r N V B _ A AP l l' n ps lb P R H. destruct n as [|n]; [now left|].
    destruct (eat_paren _ _ _ R H) as (l1 & N1 & O1 & H1). cbn [flat_map words app] in H1. apply shows_cons in H1.
    destruct H1 as (l2 & N2 & W & H2). apply (word_text _ _ _ _ N) in W. pose proof (one_next _ _ _ O1 N2) as F2.
    apply proper_list in P. inversion P as [|? ? _ P2]; subst.
    destruct (head_plain s k _ m v xs l2 l' N V B P2 F2 eq_refl H2) as (l3 & HD & R3 & H3).
    rewrite (head_at n ps lb l l1 l2 s k _ m _ l3 s N1 N2 N HD).
    apply (args_at n 0 [v] ps lb l3 l' s xs ts s1 r s1 A P2 R3 H3 AP). reflexivity.
  - (* ((_ f t) t) *)
    intros s k w m ys xs ts s1 r N E _ A AP l l' n ps lb P R H. destruct n as [|n]; [now left|].
    destruct (eat_paren _ _ _ R H) as (l1 & N1 & O1 & H1).
    assert (X : run (S n) ps lb (l, s) = run (S n) (mkPFrame CNextArg 0 [] :: ps) lb (l1, s)).
    { pose proof H1 as H2. cbn [flat_map words app] in H2. apply shows_cons in H2. destruct H2 as (l2 & N2 & _ & H2).
      apply shows_cons in H2. destruct H2 as (l3 & N3 & W & _). apply (word_text _ _ _ _ N) in W.
      rewrite (run_tok n _ _ _ _ _ _ N1), (run_tok n _ _ _ _ _ _ N2). cbn [onToken]. rewrite !mbind_assoc.
      at_ (next_at l1 s _ l2 N2). rewrite !mbind_assoc. at_ (next_at l2 s k l3 N3). at_ (next_at l2 s k l3 N3). rewrite mbind_assoc.
      at_ (symbol_at l3 s k w m N W).
      assert (Q : text_eqb m (txt "_") || text_eqb m (txt "as") = true) by (destruct E as [-> | ->]; reflexivity).
      rewrite Q. destruct (name_of_word _ _ _ N) as [-> | ->]; reflexivity. }
    rewrite X. apply proper_list in P. apply (args_at (S n) 0 [] ps lb l1 l' s _ ts s1 r s1 A P (one_ready _ O1) H1 AP). reflexivity.
  - (* binder *)
    intros s k w m v vxs xs vs s1 ct vl ts s2 r s3 N V C VL RV _ CO AV _ A AP PO l l' n ps lb P R H. destruct n as [|n]; [now left|].
    destruct (eat_paren _ _ _ R H) as (l1 & N1 & O1 & H1). cbn [flat_map words app] in H1. apply shows_cons in H1.
    destruct H1 as (l2 & N2 & W & H2). apply (word_text _ _ _ _ N) in W. pose proof (one_next _ _ _ O1 N2) as F2.
    apply proper_list in P. inversion P as [|? ? _ P2]; subst. inversion P2 as [|? ? _ P3]; subst.
    destruct (head_binder PE s k _ m v vxs xs vs s1 ct vl l2 l' N V C VL RV CO AV P2 F2 eq_refl H2) as [Y|(l3 & HD & R3 & H3)].
    + left. exact (head_fuel n ps lb l l1 l2 s k _ m N1 N2 N Y).
    + rewrite (head_at n ps lb l l1 l2 s k _ m _ l3 s1 N1 N2 N HD).
      apply (args_at n 1 [v; vl] ps lb l3 l' s1 xs ts s2 r s3 A P3 (fresh_ready _ R3) H3 AP). intros l4. now apply popN1.
  - (* let binder *)
    intros s k w m v vxs xs ds s1 s2 ct p q cs prs vl ts s3 r s4 N V C VL RV _ NI CO CH PR AV _ A AP PO l l' n ps lb P R H.
    destruct n as [|n]; [now left|].
    destruct (eat_paren _ _ _ R H) as (l1 & N1 & O1 & H1). cbn [flat_map words app] in H1. apply shows_cons in H1.
    destruct H1 as (l2 & N2 & W & H2). apply (word_text _ _ _ _ N) in W. pose proof (one_next _ _ _ O1 N2) as F2.
    apply proper_list in P. inversion P as [|? ? _ P2]; subst. inversion P2 as [|? ? _ P3]; subst.
    destruct (head_let_binder PE s k _ m v vxs xs ds s1 s2 ct p q cs prs vl l2 l' N V C VL RV NI CO CH PR AV P2 F2 eq_refl H2) as [Y|(l3 & HD & R3 & H3)].
    + left. exact (head_fuel n ps lb l l1 l2 s k _ m N1 N2 N Y).
    + rewrite (head_at n ps lb l l1 l2 s k _ m _ l3 s2 N1 N2 N HD).
      apply (args_at n 1 [v; vl] ps lb l3 l' s2 xs ts s3 r s4 A P3 (fresh_ready _ R3) H3 AP). intros l4. now apply popN1.
  - (* let *)
    intros s k w bs js x ds s1 s2 s3 t s4 s5 K _ L NI _ J _ B NS PO l l' n ps lb P R H. destruct n as [|n]; [now left|].
    destruct (eat_paren _ _ _ R H) as (l1 & N1 & O1 & H1). cbn [flat_map words] in H1. cbn [app] in H1. apply shows_cons in H1.
    destruct H1 as (l2 & N2 & _ & H2). pose proof (one_next _ _ _ O1 N2) as F2. apply shows_cons in H2. destruct H2 as (l3 & N3 & _ & H3).
    pose proof (fresh_next _ _ _ F2 N3) as F3.
    rewrite <- !app_assoc in H3. apply shows_app in H3. destruct H3 as (l4 & H3 & H4). cbn [app] in H4. apply shows_cons in H4. destruct H4 as (l5 & N5 & _ & H5).
    pose proof (fresh_next _ _ _ (shows_fresh _ _ _ F3 H3) N5) as F5.
    rewrite flat_map_app in H5. cbn [flat_map] in H5. rewrite app_nil_r, <- app_assoc in H5. apply shows_app in H5. destruct H5 as (l6 & H5 & H6).
    apply shows_app in H6. destruct H6 as (l7 & H6 & H7). apply shows_cons in H7. destruct H7 as (l8 & N8 & _ & H8). apply shows_nil in H8. subst l8.
    apply proper_list in P. inversion P as [|? ? _ P2]; subst. inversion P2 as [|? ? P3 P4]; subst. apply proper_list in P3.
    apply Forall_app in P4. destruct P4 as [P4 P5]. inversion P5 as [|? ? P6 _]; subst.
    assert (X : run (S n) ps lb (l, s) = pause (mkPFrame CLetNextBind 0 []) ps ([] :: lb) n (l3, s)).
    { rewrite (run_tok n _ _ _ _ _ _ N1). cbn [onToken]. rewrite mbind_assoc. at_ (next_at l1 s k l2 N2). rewrite <- pause_eq.
      destruct k; try discriminate K; rewrite mbind_assoc; now at_ (eat_at l2 s _ l3 N3). }
    rewrite X. destruct (L l3 l4 l5 n ps lb [] P3 (fresh_one _ F3) H3 N5) as [Y|[n1 Y]]; [now left|]. rewrite Y. cbn [app].
    assert (PU : pushM (l5, s1) = Ok (tt, (l5, entered s1))) by reflexivity. at_ PU. at_ (names_at _ _ _ l5 NI).
    destruct (J l5 l6 n1 ps lb P4 (fresh_ready _ F5) H5) as [_ J1]. destruct (J1 eq_refl (mkPFrame CLetBody 1 [])) as [Z|[n2 Z]]; [now left|]. rewrite Z.
    destruct (B l6 l7 n2 (mkPFrame CLetBody 1 [] :: ps) lb P6 (args_ready _ _ _ P4 (fresh_ready _ F5) H5) H6) as [Q|[n3 Q]]; [now left|]. rewrite Q.
    right. exists n3. apply (after_body n3 t ps lb l7 l' s4 s5 NS N8 PO).
  - (* annotation *)
    intros s w js x as_ s1 t s2 _ J _ B NS AT l l' n ps lb P R H. destruct n as [|n]; [now left|].
    destruct (eat_paren _ _ _ R H) as (l1 & N1 & O1 & H1). cbn [flat_map words] in H1. cbn [app] in H1. apply shows_cons in H1.
    destruct H1 as (l2 & N2 & _ & H2). pose proof (one_next _ _ _ O1 N2) as F2.
    rewrite flat_map_app, <- app_assoc in H2. apply shows_app in H2. destruct H2 as (l3 & H2 & H3).
    cbn [flat_map] in H3. rewrite <- app_assoc in H3. apply shows_app in H3. destruct H3 as (l4 & H3 & H4).
    apply shows_app in H4. destruct H4 as (l5 & H4 & H5). apply shows_cons in H5. destruct H5 as (l6 & N6 & _ & H6). apply shows_nil in H6. subst l6.
    apply proper_list in P. inversion P as [|? ? _ P2]; subst. apply Forall_app in P2. destruct P2 as [P2 P3]. inversion P3 as [|? ? P4 P5]; subst.
    assert (X : run (S n) ps lb (l, s) = run n (mkPFrame CAnnotate 0 [] :: ps) lb (l2, s)).
    { rewrite (run_tok n _ _ _ _ _ _ N1). cbn [onToken]. rewrite mbind_assoc. at_ (next_at l1 s _ l2 N2). rewrite mret_at. now apply after_null. }
    rewrite X. destruct (J l2 l3 n ps lb P2 (fresh_ready _ F2) H2) as [_ J1]. destruct (J1 eq_refl (mkPFrame CAnnotate 0 [])) as [Z|[n2 Z]]; [now left|]. rewrite Z.
    pose proof (args_ready _ _ _ P2 (fresh_ready _ F2) H2) as R3.
    destruct (B l3 l4 n2 (mkPFrame CAnnotate 0 [] :: ps) lb P4 R3 H3) as [Q|[n3 Q]]; [now left|]. rewrite Q.
    pose proof (words_fresh _ _ _ P4 R3 H3) as F4.
    destruct (after_annotation n3 t ps lb l4 l5 l' s2 as_ NS AT P5 (fresh_one _ F4) H4 N6) as [U|U]; rewrite U; [now left|]. right. now exists n3.
  - (* no argument *)
    intros s l l' n ps lb P R H. apply shows_nil in H. subst l'. split; [intros k as_ | intros _ fr]; right; exists n; [now rewrite app_nil_r | reflexivity].
  - intros s x t s1 xs ts s2 _ B NS _ A l l' n ps lb P R H. split; [|discriminate]. intros k as_. cbn [flat_map] in H.
    apply shows_app in H. destruct H as (l1 & H1 & H2). inversion P as [|? ? P1 P2]; subst.
    destruct (B l l1 n (mkPFrame CNextArg k as_ :: ps) lb P1 R H1) as [Q|[n1 Q]]; [now left|]. rewrite Q. rewrite (after_arg _ _ _ _ _ _ _ NS).
    destruct (A l1 l' n1 ps lb P2 (fresh_ready _ (words_fresh _ _ _ P1 R H1)) H2) as [A1 _]. destruct (A1 k (as_ ++ [t])) as [Y|[n2 Y]]; [now left|].
    right. exists n2. rewrite Y, <- app_assoc. reflexivity.
  - intros s x t s1 xs ts s2 _ B NS _ A l l' n ps lb P R H. cbn [flat_map] in H.
    apply shows_app in H. destruct H as (l1 & H1 & H2). inversion P as [|? ? P1 P2]; subst.
    pose proof (fresh_ready _ (words_fresh _ _ _ P1 R H1)) as R1. split.
    + intros k as_. destruct (B l l1 n (mkPFrame CNextArg k as_ :: ps) lb P1 R H1) as [Q|[n1 Q]]; [now left|]. rewrite Q. rewrite (after_null _ _ _ _ _ _ NS).
      destruct (A l1 l' n1 ps lb P2 R1 H2) as [A1 _]. exact (A1 k as_).
    + intros E fr. destruct (B l l1 n (fr :: ps) lb P1 R H1) as [Q|[n1 Q]]; [now left|]. rewrite Q. rewrite (after_null _ _ _ _ _ _ NS).
      destruct (A l1 l' n1 ps lb P2 R1 H2) as [_ A1]. exact (A1 E fr).
  - (* bindings *)
    intros s l l1 l' n ps lb acc P O H N. apply shows_nil in H. subst l1. right. exists n. unfold pause, letNext. rewrite mbind_assoc.
    assert (C : eatChoice T_LPAREN T_RPAREN (l, s) = Ok (false, (l', s))) by (rewrite (choice_at _ _ _ _ _ _ N); reflexivity).
    at_ C. rewrite mbind_assoc. rewrite app_nil_r. apply mbind_ext. intros u q. rewrite mbind_assoc. apply mbind_ext. intros u' q'. now rewrite mret_at.
  - intros s k w m js x s1 t s2 xs ds s3 N _ J _ B NS _ L l l1 l' n ps lb acc P O H NR. cbn [flat_map] in H. apply shows_app in H. destruct H as (la & H & HX).
    destruct (eat_paren _ _ _ (one_ready _ O) H) as (l2 & N2 & _ & H2). pose proof (one_next _ _ _ O N2) as F2.
    cbn [flat_map words] in H2. cbn [app] in H2. apply shows_cons in H2. destruct H2 as (l3 & N3 & W & H3). apply (word_text _ _ _ _ N) in W.
    pose proof (fresh_next _ _ _ F2 N3) as F3.
    rewrite flat_map_app in H3. cbn [flat_map] in H3. rewrite app_nil_r, <- app_assoc in H3. apply shows_app in H3. destruct H3 as (l6 & H5 & H6).
    apply shows_app in H6. destruct H6 as (l7 & H6 & H7). apply shows_cons in H7. destruct H7 as (l8 & N8 & _ & H8). apply shows_nil in H8. subst l8.
    inversion P as [|? ? P1 P2]; subst. apply proper_list in P1. inversion P1 as [|? ? _ P3]; subst.
    apply Forall_app in P3. destruct P3 as [P4 P5]. inversion P5 as [|? ? P6 _]; subst.
    assert (X : pause (mkPFrame CLetNextBind 0 []) ps (acc :: lb) n (l, s) = run n (mkPFrame CLetNextBind 0 [] :: ps) ((acc ++ [(m, null_term)]) :: lb) (l3, s)).
    { unfold pause, letNext. rewrite mbind_assoc.
      assert (C : eatChoice T_LPAREN T_RPAREN (l, s) = Ok (true, (l2, s))) by (rewrite (choice_at _ _ _ _ _ _ N2); reflexivity).
      at_ C. rewrite mbind_assoc. at_ (parseSymbol_at l2 s k _ m l3 N3 eq_refl N). now rewrite mret_at. }
    rewrite X. destruct (J l3 l6 n ps ((acc ++ [(m, null_term)]) :: lb) P4 (fresh_ready _ F3) H5) as [_ J1].
    destruct (J1 eq_refl (mkPFrame CLetNextBind 0 [])) as [Z|[n2 Z]]; [now left|]. rewrite Z.
    pose proof (args_ready _ _ _ P4 (fresh_ready _ F3) H5) as R6.
    destruct (B l6 l7 n2 (mkPFrame CLetNextBind 0 [] :: ps) ((acc ++ [(m, null_term)]) :: lb) P6 R6 H6) as [Q|[n3 Q]]; [now left|]. rewrite Q.
    assert (Y : after n3 t (mkPFrame CLetNextBind 0 [] :: ps) ((acc ++ [(m, null_term)]) :: lb) (l7, s2) =
                pause (mkPFrame CLetNextBind 0 []) ps ((acc ++ [(m, t)]) :: lb) n3 (la, s2)).
    { unfold after. cbn [updateCtx pf_ctx]. rewrite (kind_neqb _ NS). rewrite rev_app_distr. cbn [rev app]. rewrite rev_involutive. rewrite mbind_assoc.
      at_ (eat_at l7 s2 _ la N8). rewrite <- pause_eq. apply mbind_ext_ok. intros [[a b] c] q E. unfold after.
      apply mbind_ok in E. destruct E as ([b' c'] & q' & E & F). injection F as <- <- <- <-. destruct (letNext_frame _ _ _ _ _ _ _ E) as [fr' ->].
      reflexivity. }
    rewrite Y. pose proof (fresh_next _ _ _ (words_fresh _ _ _ P6 R6 H6) N8) as Fa.
    destruct (L la l1 l' n3 ps lb (acc ++ [(m, t)]) P2 (fresh_one _ Fa) HX NR) as [U|[n4 U]]; [now left|]. rewrite U. right. exists n4.
    rewrite <- app_assoc. reflexivity.
Qed.

(** ** The converse *)
Definition PEc : Prop := forall s x l l' r, proper x -> ready l -> shows l (words x) l' -> pe (l, s) = Ok r ->
  exists t s1, reads s x t s1.
Definition PE0 : Prop := forall l l1 s r, nextToken l = Ok (T_RPAREN, l1) -> pe (l, s) <> Ok r.
Lemma literal_inv s l k v p : parseLiteral sig k (l, s) = Ok (v, p) -> word_term sig (s_opts s) k (tokenStr l) v.
Proof.
  assert (L : forall k x r q q', mkLit k x q = Ok (r, q') -> lit k x = Ok r).
  { intros k' x r q q' E. unfold mkLit, mlift, mbind in E. unfold lit. destruct (mkLiteral k' x); cbn [bind fst snd mret] in *; try discriminate.
    injection E as <- _. reflexivity. }
  unfold parseLiteral, tokText, mlex, mlift, mbind, mget, mret. cbn [bind fst snd]. intros H.
  destruct k; try discriminate H.
  all: try (injection H as <- <-; constructor).
  - apply L in H. now apply wt_bin.
  - destruct (negb sig && o_normDec (s_opts s)) eqn:E.
    + apply bind_ok in H. destruct H as ([q p1] & H & H1). apply bind_ok in H. destruct H as (q' & H & E1). injection E1 as <- <-. apply L in H1.
      eapply wt_norm_dec; eauto. destruct sig; [discriminate|]. destruct (o_normDec (s_opts s)); [reflexivity|discriminate].
    + apply L in H. apply wt_dec; auto. destruct sig; [reflexivity|]. destruct (o_normDec (s_opts s)); [discriminate|reflexivity].
  - destruct (negb sig && o_normHex (s_opts s)) eqn:E.
    + apply bind_ok in H. destruct H as ([q p1] & H & H1). apply bind_ok in H. destruct H as (q' & H & E1). injection E1 as <- <-. apply L in H1.
      eapply wt_norm_hex; eauto. destruct sig; [discriminate|]. destruct (o_normHex (s_opts s)); [reflexivity|discriminate].
    + apply L in H. apply wt_hex; auto. destruct sig; [reflexivity|]. destruct (o_normHex (s_opts s)); [discriminate|reflexivity].
  - destruct (negb sig && o_normNum (s_opts s)) eqn:E.
    + apply bind_ok in H. destruct H as ([q p1] & H & H1). apply bind_ok in H. destruct H as (q' & H & E1). injection E1 as <- <-. apply L in H1.
      eapply wt_norm_num; eauto. destruct sig; [discriminate|]. destruct (o_normNum (s_opts s)); [reflexivity|discriminate].
    + apply L in H. apply wt_num; auto. destruct sig; [reflexivity|]. destruct (o_normNum (s_opts s)); [discriminate|reflexivity].
  - apply wt_rat.
    + intros ZD. assert (D : forall w, zero_denominator w -> exists d,
        (fix den (s0 : list Z) : option (list Z) := match s0 with [] => None | c :: s' => if c =? 47 then Some s' else den s' end) w = Some d /\
        forallb (fun c => c =? 48) d = true).
      { induction 1 as [d F|c w C _ (d & D1 & D2)].
        - exists d. split; [reflexivity|]. apply forallb_forall. rewrite Forall_forall in F. intros c I. apply Z.eqb_eq. auto.
        - exists d. apply Z.eqb_neq in C. rewrite C. auto. }
      destruct (D _ ZD) as (d & D1 & D2). rewrite D1, D2 in H. discriminate H.
    + match type of H with match ?o with _ => _ end _ = _ => destruct o as [d|] end; [destruct (forallb _ d) in H; [discriminate H|]|]; exact (L _ _ _ _ _ H).
  - apply bind_ok in H. destruct H as ([q p1] & H & H1). apply bind_ok in H. destruct H as (q' & H & E1). injection E1 as <- <-. apply L in H1.
    eapply wt_str; eauto.
Qed.
Lemma first_x x l l' : proper x -> shows l (words x) l' -> exists k l1, nextToken l = Ok (k, l1) /\ k <> T_RPAREN /\
  match x with XT t w => k = t /\ l1 = l' /\ tokenStr l1 = w /\ paren k = false | XL xs => k = T_LPAREN /\ shows l1 (flat_map words xs ++ [(T_RPAREN, [])]) l' end.
Proof.
  intros P H. destruct x as [t w|xs]; cbn [words] in H; apply shows_cons in H; destruct H as (l1 & N & W & H); eexists; exists l1; (split; [exact N|]).
  - apply shows_nil in H. subst l1. inversion P as [? ? P1 P2|]; subst. split; [intros ->; discriminate P1|]. auto.
  - split; [discriminate|]. auto.
Qed.
Lemma not_ok A (a : A) (H : Err = Ok a) : False. Proof. discriminate H. Qed.
(** The next word is a closing parenthesis only at the end of the list. *)
Lemma list_end xs l l1 l' : Forall proper xs -> shows l (flat_map words xs ++ [(T_RPAREN, [])]) l' -> nextToken l = Ok (T_RPAREN, l1) -> xs = [].
Proof.
  intros P H N. destruct P as [|x xs P1 P2]; [reflexivity|]. exfalso. cbn [flat_map] in H. rewrite <- app_assoc in H. apply shows_app in H. destruct H as (l2 & H & _).
  destruct (first_x x l l2 P1 H) as (k & l3 & N3 & K & _). rewrite N in N3. injection N3 as <- _. now apply K.
Qed.
Lemma list_first x xs l l' : proper x -> shows l (flat_map words (x :: xs) ++ [(T_RPAREN, [])]) l' ->
  exists l2, shows l (words x) l2 /\ shows l2 (flat_map words xs ++ [(T_RPAREN, [])]) l'.
Proof. intros P H. cbn [flat_map] in H. rewrite <- app_assoc in H. now apply shows_app in H. Qed.
Lemma parseSymbol_inv l s n p : parseSymbol (l, s) = Ok (n, p) -> exists k l1, nextToken l = Ok (k, l1) /\ name_of k (tokenStr l1) = Some n /\ p = (l1, s).
Proof.
  unfold parseSymbol. intros H. apply mbind_ok in H. destruct H as (k & [l1 s1] & N & H). apply symbol_inv in H. destruct H as [H ->].
  unfold next, mlex in N. cbn [fst snd] in N. apply bind_ok in N. destruct N as ([k' l2] & N & E). cbn [fst snd] in E. injection E as <- <- <-. eauto.
Qed.
(** The entries of a list of variables or definitions: a name and a term. *)
Lemma entry_inv x l l1 s nm p r q : proper x -> one l -> shows l (words x) l1 ->
  eatChoice T_LPAREN T_RPAREN (l, s) = Ok (true, q) -> parseSymbol q = Ok (nm, p) -> pe p = Ok r -> PE0 ->
  exists k w y ys l3 l4, x = XL (XT k w :: y :: ys) /\ name_of k w = Some nm /\ p = (l3, s) /\ fresh l3 /\ proper y /\ Forall proper ys /\ shows l3 (words y) l4 /\ fresh l4 /\
    shows l4 (flat_map words ys ++ [(T_RPAREN, [])]) l1.
Proof.
  intros P O H C S E P0. destruct (first_x x l l1 P H) as (k & l2 & N & K & X). rewrite (choice_at _ _ _ _ _ _ N) in C.
  destruct (token_eqb k T_LPAREN) eqn:KL; [|destruct (token_eqb k T_RPAREN); discriminate C]. injection C as <-.
  apply token_eqb_eq in KL. subst k. destruct x as [t w|ys]; [destruct X as (_ & _ & _ & X); discriminate X|]. destruct X as [_ X].
  pose proof (one_next _ _ _ O N) as F2. apply parseSymbol_inv in S. destruct S as (k & l3 & N3 & NM & ->). pose proof (fresh_next _ _ _ F2 N3) as F3.
  apply proper_list in P. destruct ys as [|y ys].
  - exfalso. cbn [flat_map app] in X. apply shows_cons in X. destruct X as (l4 & X & _). rewrite N3 in X. injection X as -> _. discriminate NM.
  - inversion P as [|? ? P1 P2]; subst. destruct (list_first _ _ _ _ P1 X) as (l4 & X1 & X2).
    destruct (first_x y l2 l4 P1 X1) as (k' & l5 & N5 & _ & Y). rewrite N3 in N5. injection N5 as <- <-.
    destruct y as [t w|zs]; [|destruct Y as [-> _]; discriminate NM]. destruct Y as (-> & <- & W & _). rewrite W in NM.
    destruct ys as [|y ys].
    + exfalso. cbn [flat_map app] in X2. apply shows_cons in X2. destruct X2 as (l6 & X2 & _). exact (P0 l3 l6 s r X2 E).
    + inversion P2 as [|? ? P3 P4]; subst. destruct (list_first _ _ _ _ P3 X2) as (l6 & X3 & X4).
      exists t, (tokenStr l3), y, ys, l3, l6. pose proof (words_fresh _ _ _ P3 (fresh_ready _ F3) X3). auto 10.
Qed.
Lemma vars_inv (PE : PEr) (PC : PEc) (P0 : PE0) xs : forall n acc l l1 l' s r, Forall proper xs -> one l -> shows l (flat_map words xs) l1 -> nextToken l1 = Ok (T_RPAREN, l') ->
  mloop n vbody (acc, []) (l, s) = Ok r -> exists vs s1, reads_vars G sig s xs vs s1.
Proof.
  induction xs as [|x xs IH]; intros n acc l l1 l' s r P O H NR E; [exists [], s; constructor|].
  destruct n as [|n]; [discriminate E|]. cbn [mloop] in E. destruct r as [r p]. apply mbind_ok in E. destruct E as (r1 & p1 & E & E2).
  unfold vbody in E. apply mbind_ok in E. destruct E as (more & q & C & E). cbn [flat_map] in H. apply shows_app in H. destruct H as (lx & H & H2).
  inversion P as [|? ? P1 P2]; subst. destruct more.
  - apply mbind_ok in E. destruct E as (nm & q1 & S & E). apply mbind_ok in E. destruct E as (ty & q2 & T & E).
    unfold parseType, parseTypeBody in T. apply mbind_ok in T. destruct T as (ty' & q3 & PT & T).
    destruct (entry_inv x l lx s nm q1 (ty', q3) q P1 O H C S PT P0) as (k & w & y & ys & l3 & l4 & -> & NM & -> & F3 & Py & Pys & H3 & F4 & H4).
    destruct (PC s y l3 l4 _ Py (fresh_ready _ F3) H3 PT) as (t & s1 & R).
    destruct (PE s y t s1 R l3 l4 Py (fresh_ready _ F3) H3) as [X|X]; rewrite X in PT; [discriminate PT|]. injection PT as <- <-.
    apply mbind_ok in T. destruct T as (u & q4 & T & T2). unfold typeCheckAs in T. apply mbind_ok in T. destruct T as (ty2 & q5 & T & T3).
    apply typeCheck_inv in T. destruct T as [T ->]. destruct (term_eqb ty2 t_Type) eqn:TE; [|discriminate T3]. apply term_eqb_eq in TE. subst ty2.
    injection T3 as <- <-. destruct (isEvaluatable t) eqn:EV; [rewrite orb_true_r in T2; discriminate T2|]. injection T2 as <- <-.
    apply mbind_ok in E. destruct E as (v & q6 & V & E). apply boundVar_inv in V. destruct V as [V ->].
    apply mbind_ok in E. destruct E as (u' & q7 & B & E). apply bind_inv in B. destruct B as (c & B & ->).
    apply mbind_ok in E. destruct E as (u'' & q8 & EA & E). apply eat_inv in EA. destruct EA as (l5 & N5 & ->). injection E as <- <-.
    pose proof (list_end ys l4 l5 lx Pys H4 N5). subst ys. cbn [flat_map app] in H4. apply shows_cons in H4. destruct H4 as (l6 & N6 & _ & H4).
    apply shows_nil in H4. subst l6. rewrite N5 in N6. injection N6 as ->.
    destruct (IH n (v :: acc) lx l1 l' (set_scope c s1) _ P2 (fresh_one _ (fresh_next _ _ _ F4 N5)) H2 NR E2) as (vs & s2 & RV).
    exists (v :: vs), s2. econstructor; eassumption.
  - exfalso. destruct (first_x x l lx P1 H) as (k & l2 & N & K & X). rewrite (choice_at _ _ _ _ _ _ N) in C.
    destruct (token_eqb k T_LPAREN); [discriminate C|]. destruct (token_eqb k T_RPAREN) eqn:Z; [|discriminate C]. apply token_eqb_eq in Z. contradiction.
Qed.
Lemma lbody_incl n : forall acc q r p a, mloop n lbody acc q = Ok (r, p) -> In a acc -> In a r.
Proof.
  induction n as [|n IH]; intros acc q r p a E I; [discriminate E|]. cbn [mloop] in E. apply mbind_ok in E. destruct E as (r1 & p1 & E & E2).
  unfold lbody in E. apply mbind_ok in E. destruct E as (more & q1 & C & E). destruct more.
  - apply mbind_ok in E. destruct E as (nm & q2 & S & E). apply mbind_ok in E. destruct E as (t & q3 & T & E).
    apply mbind_ok in E. destruct E as (u & q4 & _ & E). apply mbind_ok in E. destruct E as (ty & q5 & _ & E). apply mbind_ok in E. destruct E as (v & q6 & _ & E).
    injection E as <- <-. eapply IH; [exact E2|]. now right.
  - injection E as <- <-. injection E2 as <- <-. now apply in_rev in I.
Qed.
Lemma eval_var_open E0 n m y ty v : isGround ty = false -> mkExpr E0 n m K_EVAL_VAR [y; ty] = Ok v -> v = Node K_EVAL_VAR [y; ty].
Proof.
  intros GR H. destruct m as [|m]; [discriminate H|]. cbn [mkExpr isLiteralOp mkExprLitOp] in H.
  change (checkArity K_EVAL_VAR (length [y; ty])) with true in H. cbv iota in H. apply bind_ok in H. destruct H as (r & H & E). injection E as <-.
  destruct n as [|n]; [discriminate H|]. cbn [tc tc_lop] in H. unfold evaluateLiteralOp in H. cbn [forallb] in H. rewrite GR, andb_false_r in H. cbn [negb] in H.
  injection H as <-. reflexivity.
Qed.
Lemma defs_inv (PE : PEr) (PC : PEc) (P0 : PE0) xs : forall n acc l l1 l' s r p, Forall proper xs -> one l -> shows l (flat_map words xs) l1 -> nextToken l1 = Ok (T_RPAREN, l') ->
  mloop n lbody acc (l, s) = Ok (r, p) -> (forall ll, In ll r -> exists k i, fst ll = Sym k i) -> exists ds s1, reads_defs G sig s xs ds s1.
Proof.
  induction xs as [|x xs IH]; intros n acc l l1 l' s r p P O H NR E SY; [exists [], s; constructor|].
  destruct n as [|n]; [discriminate E|]. cbn [mloop] in E. apply mbind_ok in E. destruct E as (r1 & p1 & E & E2).
  unfold lbody in E. apply mbind_ok in E. destruct E as (more & q & C & E). cbn [flat_map] in H. apply shows_app in H. destruct H as (lx & H & H2).
  inversion P as [|? ? P1 P2]; subst. destruct more.
  - apply mbind_ok in E. destruct E as (nm & q1 & S & E). apply mbind_ok in E. destruct E as (t' & q3 & PT & E).
    destruct (entry_inv x l lx s nm q1 (t', q3) q P1 O H C S PT P0) as (k & w & y & ys & l3 & l4 & -> & NM & -> & F3 & Py & Pys & H3 & F4 & H4).
    destruct (PC s y l3 l4 _ Py (fresh_ready _ F3) H3 PT) as (t & s1 & R).
    destruct (PE s y t s1 R l3 l4 Py (fresh_ready _ F3) H3) as [X|X]; rewrite X in PT; [discriminate PT|]. injection PT as <- <-.
    apply mbind_ok in E. destruct E as (u'' & q8 & EA & E). apply eat_inv in EA. destruct EA as (l5 & N5 & ->).
    pose proof (list_end ys l4 l5 lx Pys H4 N5). subst ys. cbn [flat_map app] in H4. apply shows_cons in H4. destruct H4 as (l6 & N6 & _ & H4).
    apply shows_nil in H4. subst l6. rewrite N5 in N6. injection N6 as ->.
    apply mbind_ok in E. destruct E as (ty & q5 & T & E). apply typeCheck_inv in T. destruct T as [T ->].
    apply mbind_ok in E. destruct E as (v & q6 & V & E). apply boundVar_inv in V. destruct V as [V ->]. injection E as <- <-.
    destruct (SY (v, t) (lbody_incl _ _ _ _ _ (v, t) E2 (or_introl eq_refl))) as (kk & i & SV). cbn [fst] in SV.
    destruct (IH n ((v, t) :: acc) lx l1 l' s1 _ _ P2 (fresh_one _ (fresh_next _ _ _ F4 N5)) H2 NR E2 SY) as (ds & s2 & RV).
    destruct V as [GR|y' v' GR LI MK]; [|apply (eval_var_open _ _ _ _ _ _ GR) in MK; subst v'; discriminate SV].
    exists ((nm, Sym K_VARIABLE (g_bvar G nm ty), t) :: ds), s2. econstructor; eassumption.
  - exfalso. destruct (first_x x l lx P1 H) as (k & l2 & N & K & X). rewrite (choice_at _ _ _ _ _ _ N) in C.
    destruct (token_eqb k T_LPAREN); [discriminate C|]. destruct (token_eqb k T_RPAREN) eqn:Z; [|discriminate C]. apply token_eqb_eq in Z. contradiction.
Qed.
Lemma dnames_inv ds : Forall (fun d : text * term * term => exists ty, snd (fst d) = Sym K_VARIABLE (g_bvar G (fst (fst d)) ty)) ds -> forall s l r,
  mfor (map (fun d => (snd (fst d), snd d)) ds) dname (l, s) = Ok r -> exists s', named_in s (map (fun d => (fst (fst d), snd (fst d))) ds) s'.
Proof.
  induction 1 as [|[[n v] t] ds [ty E] _ IH]; intros s l [u p] H; cbn [map fst snd] in *; [exists s; constructor|].
  subst v. cbn [mfor] in H. apply mbind_ok in H. destruct H as (u1 & p1 & H & H1). unfold dname in H. cbn [fst] in H.
  apply mbind_ok in H. destruct H as (s0 & p2 & GE & H). injection GE as <- <-. apply bind_inv in H. destruct H as (c & B & ->).
  assert (NM : e_name (env_of G s) (Sym K_VARIABLE (g_bvar G n ty)) = n) by (cbn [env_of e_name]; now rewrite HC).
  rewrite NM in B. destruct (IH _ _ _ H1) as (s' & X). exists s'. econstructor; eassumption.
Qed.

Definition bound_head (s : st) (v : term) (vxs : list sx) : Prop :=
  (getConstructorKind (env_of G s) v = A_BINDER /\ exists vs s1 ct vl,
     reads_vars G sig (entered s) vxs vs s1 /\ constructor_of G s1 v ct /\ applied G s1 (ct :: vs) vl) \/
  (getConstructorKind (env_of G s) v = A_LET_BINDER /\ exists ds s1 s2 ct p q cs prs vl,
     reads_defs G sig (entered s) vxs ds s1 /\ named_in s1 (map (fun d => (fst (fst d), snd (fst d))) ds) s2 /\
     constructor_of G s2 v ct /\ tchildren ct = p :: q :: cs /\
     Forall2 (fun d r => applied G s2 [p; snd (fst d); snd d] r) ds prs /\ applied G s2 (q :: prs) vl).
Lemma pairs_inv s2 l p (ds : list (text * term * term)) : forall r,
  mmap (map (fun d => (snd (fst d), snd d)) ds) (fun ll => mkE G K_APPLY [p; fst ll; snd ll]) (l, s2) = Ok r ->
  exists prs, Forall2 (fun d r => applied G s2 [p; snd (fst d); snd d] r) ds prs /\ r = (prs, (l, s2)).
Proof.
  induction ds as [|d ds IH]; intros r H; cbn [map mmap fst snd] in H.
  - injection H as <-. exists []. split; [constructor | reflexivity].
  - destruct r as [r p1]. apply mbind_ok in H. destruct H as (a & p2 & A & H). apply mkE_inv in A. destruct A as [A ->].
    apply mbind_ok in H. destruct H as (b & p3 & B & H). destruct (IH _ B) as (prs & F & E). injection E as -> ->. injection H as <- <-.
    exists (a :: prs). split; [constructor; assumption | reflexivity].
Qed.
Lemma head_inv (PE : PEr) (PC : PEc) (P0 : PE0) s k xs l l' r : Forall proper xs -> fresh l ->
  shows l (flat_map words xs ++ [(T_RPAREN, [])]) l' -> parseHead G pe k (l, s) = Ok r ->
  exists n v, name_of k (tokenStr l) = Some n /\ getVar (s_scope s) n = Some v /\
    (binds (getConstructorKind (env_of G s) v) && var_list xs = false \/
     exists vxs xs', xs = XL vxs :: xs' /\ var_list [XL vxs] = true /\ bound_head s v vxs).
Proof.
  intros P F H E. destruct r as [fr pe']. unfold parseHead in E. apply mbind_ok in E. destruct E as (n & p1 & SY & E). apply symbol_inv in SY. destruct SY as [NM ->].
  apply mbind_ok in E. destruct E as (v & p2 & GV & E). apply getVar_inv in GV. destruct GV as [GV ->].
  apply mbind_ok in E. destruct E as (s0 & p3 & GE & E). injection GE as <- <-.
  exists n, v. split; [exact NM|]. split; [exact GV|].
  destruct (binds (getConstructorKind (env_of G s) v) && var_list xs) eqn:BV; [right | now left].
  apply andb_prop in BV. destruct BV as [BI VL].
  destruct xs as [|[|vxs] xs]; try discriminate VL. assert (VL' : var_list [XL vxs] = true) by exact VL. exists vxs, xs.
  split; [reflexivity|]. split; [exact VL'|].
  destruct (binder_words vxs xs l l' P F VL' H) as (l1 & l2 & l4 & l5 & l6 & N1 & F1 & N2 & N4 & O4 & S5 & F5 & N6 & F6 & S6).
  assert (E' : (pushM ;; let! vl := match getConstructorKind (env_of G s) v with
                 | A_BINDER => let! vs := parseVarList G pe K_NONE in match vs with [] => merr | _ => mkBinderList G v vs end
                 | _ => let! lls := parseLetList G pe in match lls with [] => merr | _ => mkLetBinderList G v lls end
                 end in mret (mkPFrame CNextArg 1 [v; vl])) (reinsertToken T_LPAREN (reinsertToken T_LPAREN l2), s) = Ok (fr, pe')).
  { rewrite <- E. destruct (getConstructorKind (env_of G s) v); try discriminate BI.
    all: at_ (next_at l s _ l1 N1); cbn [token_eqb token_num Z.eqb Pos.eqb]; at_ (peek_at l1 s _ l2 F1 N2);
      at_ (reinsert_at T_LPAREN (reinsertToken T_LPAREN l2) s); cbn [token_eqb token_num Z.eqb Pos.eqb]; reflexivity. }
  clear E. inversion P as [|? ? P1 P2]; subst. apply proper_list in P1.
  assert (X : pushM (reinsertToken T_LPAREN (reinsertToken T_LPAREN l2), s) = Ok (tt, (reinsertToken T_LPAREN (reinsertToken T_LPAREN l2), entered s))) by reflexivity.
  rewrite (mbind_at _ _ _ _ _ _ _ X) in E'. apply mbind_ok in E'. destruct E' as (vl & q1 & E & _). unfold bound_head.
  destruct (getConstructorKind (env_of G s) v); try discriminate BI.
  - left. split; [reflexivity|]. apply mbind_ok in E. destruct E as (vs' & q2 & E1 & E2). pose proof E1 as E1'.
    unfold parseVarList in E1. rewrite vbody_eq in E1. rewrite mbind_assoc in E1. rewrite (mbind_at _ _ _ _ _ _ _ (eat_at _ _ _ _ N4)) in E1.
    apply mbind_ok in E1. destruct E1 as (acc & q3 & E1 & _).
    destruct (vars_inv PE PC P0 vxs _ _ _ _ _ _ _ P1 O4 S5 N6 E1) as (vs & s1 & RV).
    destruct (varList_at PE (entered s) vxs vs s1 _ l4 l5 l6 RV P1 N4 O4 S5 N6) as [Y|Y]; rewrite Y in E1'; [discriminate E1'|].
    injection E1' as <- <-. assert (E3 : mkBinderList G v vs (l6, s1) = Ok (vl, q1)) by (destruct vs; [discriminate E2 | exact E2]).
    unfold mkBinderList in E3. apply mbind_ok in E3. destruct E3 as (ct & q4 & C & E3). apply cons_inv in C. destruct C as [C ->].
    apply mkE_inv in E3. destruct E3 as [E3 _]. exists vs, s1, ct, vl. auto.
  - right. split; [reflexivity|]. apply mbind_ok in E. destruct E as (lls & q2 & E1 & E2). pose proof E1 as E1'.
    unfold parseLetList in E1. fold lbody in E1. rewrite (mbind_at _ _ _ _ _ _ _ (eat_at _ _ _ _ N4)) in E1.
    apply mbind_ok in E1. destruct E1 as (lls' & q3 & E1 & E3). apply mbind_ok in E3. destruct E3 as (u & q4 & E3 & E4). injection E4 as -> ->.
    assert (SY : forall ll, In ll lls -> exists k i, fst ll = Sym k i).
    { fold dname in E3. clear - E3. revert q3 E3. induction lls as [|a lls IH]; intros q3 E3 ll I; [destruct I|]. cbn [mfor] in E3.
      apply mbind_ok in E3. destruct E3 as (u' & q5 & A & E3). destruct I as [<-|I]; [|exact (IH _ E3 ll I)].
      unfold dname in A. destruct (fst a); [eauto | discriminate A | discriminate A]. }
    destruct (defs_inv PE PC P0 vxs _ _ _ _ _ _ _ _ P1 O4 S5 N6 E1 SY) as (ds & s1 & RD).
    assert (NI : exists s2, named_in s1 (map (fun d => (fst (fst d), snd (fst d))) ds) s2).
    { destruct (defs_at PE (entered s) vxs ds s1 RD (g_fuel G) [] l4 l5 P1 O4 S5) as [Y|[n' Y]]; rewrite Y in E1; [discriminate E1|].
      rewrite app_nil_r in E1. destruct (lloop_end n' (rev (map (fun d => (snd (fst d), snd d)) ds)) l5 s1 l6 N6) as [Q|Q]; rewrite Q in E1; [discriminate E1|].
      injection E1 as <- <-. rewrite rev_involutive in E3. fold dname in E3. eapply dnames_inv; [exact (defs_names _ _ _ _ RD) | exact E3]. }
    destruct NI as [s2 NI].
    destruct (letList_at PE (entered s) vxs ds s1 s2 _ l4 l5 l6 RD P1 NI N4 O4 S5 N6) as [Y|Y]; rewrite Y in E1'; [discriminate E1'|].
    injection E1' as <- <-. assert (E5 : mkLetBinderList G v (map (fun d => (snd (fst d), snd d)) ds) (l6, s2) = Ok (vl, q1)) by (destruct ds; [discriminate E2 | exact E2]).
    unfold mkLetBinderList in E5. apply mbind_ok in E5. destruct E5 as (ct & q5 & C & E5). apply cons_inv in C. destruct C as [C ->].
    apply mbind_ok in E5. destruct E5 as (p & q6 & CP & E5). apply mlift_ok in CP. destruct CP as [CP ->].
    apply mbind_ok in E5. destruct E5 as (q & q7 & CQ & E5). apply mlift_ok in CQ. destruct CQ as [CQ ->].
    apply mbind_ok in E5. destruct E5 as (prs & q8 & CS & E5). destruct (pairs_inv _ _ _ _ _ CS) as (prs' & F2 & E6). injection E6 as -> ->.
    apply mkE_inv in E5. destruct E5 as [E5 _]. destruct (tchildren ct) as [|c0 [|c1 cs]] eqn:CT; try discriminate CP; try discriminate CQ.
    injection CP as ->. injection CQ as ->. exists ds, s1, s2, ct, p, q, cs, prs', vl. auto 10.
Qed.
Lemma attrs_inv e n : forall as_ acc l l1 l' s r, Forall proper as_ -> one l ->
  shows l (flat_map words as_) l1 -> nextToken l1 = Ok (T_RPAREN, l') -> mloop n (abody e) acc (l, s) = Ok r -> attributes as_.
Proof.
  induction n as [|n IH]; intros as_ acc l l1 l' s r P O H NR E; [discriminate E|]. destruct as_ as [|a as_]; [constructor|].
  inversion P as [|? ? P1 P2]; subst. cbn [flat_map] in H. apply shows_app in H. destruct H as (l2 & H & H2).
  destruct (first_x a l l2 P1 H) as (k & l3 & N & K & X).
  assert (KW : k = T_KEYWORD).
  { cbn [mloop] in E. unfold abody in E. rewrite mbind_assoc in E. unfold mbind at 1 in E. rewrite (choice_at _ _ _ _ _ _ N) in E.
    destruct (token_eqb k T_KEYWORD) eqn:Q; [now apply token_eqb_eq in Q|]. destruct (token_eqb k T_RPAREN) eqn:Q2; [apply token_eqb_eq in Q2; contradiction | discriminate E]. }
  subst k. destruct a as [t w|ys]; [|destruct X as [X _]; discriminate X]. destruct X as (<- & <- & W & _).
  pose proof (one_next _ _ _ O N) as F3.
  destruct (table_find strToAttr w) as [at_|] eqn:T.
  { exfalso. cbn [mloop] in E. unfold abody in E. rewrite mbind_assoc in E.
    assert (C : eatChoice T_KEYWORD T_RPAREN (l, s) = Ok (true, (l3, s))) by (rewrite (choice_at _ _ _ _ _ _ N); reflexivity).
    rewrite (mbind_at _ _ _ _ _ _ _ C) in E. rewrite mbind_assoc in E. rewrite (mbind_at _ _ _ _ _ _ _ (text_at l3 s)) in E. rewrite W, T in E. discriminate E. }
  rewrite <- W in T. rewrite (abody_key n e acc l s l3 N T) in E. rewrite W in T.
  destruct as_ as [|x as_].
  - apply at_key; [exact T | exact I | constructor].
  - inversion P2 as [|? ? P3 P4]; subst. cbn [flat_map] in H2. pose proof H2 as H2'. apply shows_app in H2. destruct H2 as (l4 & H2 & H4).
    destruct (first_x x l3 l4 P3 H2) as (k & l5 & N5 & K5 & X). pose proof (fresh_next _ _ _ F3 N5) as F5.
    rewrite (mbind_at _ _ _ _ _ _ _ (peek_at l3 s k l5 F3 N5)) in E.
    destruct (is_keyword x) eqn:IK.
    + apply at_key; [exact T | exact IK|]. destruct x as [u v|]; [|discriminate IK]. destruct u; try discriminate IK. destruct X as (-> & <- & W5 & _).
      change (token_eqb T_KEYWORD T_KEYWORD || token_eqb T_KEYWORD T_RPAREN) with true in E. cbv iota in E. rewrite mret_at in E.
      eapply IH; [exact P2 | | | exact NR | exact E].
      * right. exists T_KEYWORD. cbn [reinsertToken l_peeked]. now rewrite F5.
      * cbn [flat_map words app]. apply shows_reinsert; auto.
    + apply at_value; [exact T | exact IK|].
      assert (Y : token_eqb k T_KEYWORD || token_eqb k T_RPAREN = false).
      { destruct x as [u v|]; [|destruct X as [-> _]; reflexivity]. destruct X as (-> & _ & _ & X). destruct u; try reflexivity; discriminate. }
      rewrite Y in E.
      assert (S5 : shows (reinsertToken k l5) (words x) l4).
      { destruct x as [u v|zs]; [destruct X as (-> & <- & W5 & _) | destruct X as [-> X]]; cbn [words]; apply shows_reinsert; auto; try constructor. intros Z; discriminate Z. }
      destruct (symbolic_at x (reinsertToken k l5) l4 s P3 S5) as [Z|Z]; [rewrite (mbind_fuel _ _ _ _ _ Z) in E; discriminate E|].
      rewrite (mbind_at _ _ _ _ _ _ _ Z) in E. eapply IH; [exact P4 | left; exact (shows_fresh _ _ _ F3 H2) | exact H4 | exact NR | exact E].
Qed.

Definition Cr (x : sx) : Prop := forall s l l' n ps lb r, proper x -> ready l -> shows l (words x) l' ->
  run n ps lb (l, s) = Ok r -> exists t s1, reads s x t s1.
Lemma skip_dec t : skipped t \/ ~ skipped t.
Proof. unfold skipped. destruct (kind_eqb (tkind t) K_NONE) eqn:E; [left; now apply kind_eqb_eq | right; intros X; apply kind_eqb_eq in X; congruence]. Qed.
Lemma junk_inv (PE : PEr) xs : Forall Cr xs -> forall s l l1 l2 n fr ps lb r, pf_ctx fr <> CNextArg -> Forall proper xs -> ready l ->
  shows l (flat_map words xs) l1 -> nextToken l1 = Ok (T_RPAREN, l2) -> run n (fr :: ps) lb (l, s) = Ok r ->
  exists js x rest s1 t s2, xs = js ++ x :: rest /\ reads_args s js [] s1 /\ reads s1 x t s2 /\ ~ skipped t.
Proof.
  induction 1 as [|x xs CX _ IH]; intros s l l1 l2 n fr ps lb r C P R H NR E.
  - exfalso. apply shows_nil in H. subst l1. destruct n as [|n]; [discriminate E|]. rewrite (run_tok n _ _ _ _ _ _ NR) in E. cbn [onToken] in E.
    destruct (pf_ctx fr); [now apply C | discriminate E | discriminate E | discriminate E].
  - inversion P as [|? ? P1 P2]; subst. cbn [flat_map] in H. apply shows_app in H. destruct H as (l3 & H & H3).
    destruct (CX s l l3 n (fr :: ps) lb r P1 R H E) as (t & s1 & RD). destruct (skip_dec t) as [SK|SK].
    + destruct (proj1 (machine_reads PE) _ _ _ _ RD l l3 n (fr :: ps) lb P1 R H) as [Y|[n' Y]]; rewrite Y in E; [discriminate E|].
      rewrite (after_null _ _ _ _ _ _ SK) in E.
      destruct (IH s1 l3 l1 l2 n' fr ps lb r C P2 (fresh_ready _ (words_fresh _ _ _ P1 R H)) H3 NR E) as (js & y & rest & s2 & t2 & s3 & -> & A & B & D).
      exists (x :: js), y, rest, s2, t2, s3. split; [reflexivity|]. split; [|auto]. eapply ra_skip; eassumption.
    + exists [], x, xs, s, t, s1. split; [reflexivity|]. split; [constructor|]. auto.
Qed.
Lemma args_inv (PE : PEr) xs : Forall Cr xs -> forall s l l1 n k as_ ps lb r, Forall proper xs -> ready l ->
  shows l (flat_map words xs) l1 -> run n (mkPFrame CNextArg k as_ :: ps) lb (l, s) = Ok r -> exists ts s1, reads_args s xs ts s1.
Proof.
  induction 1 as [|x xs CX _ IH]; intros s l l1 n k as_ ps lb r P R H E; [exists [], s; constructor|].
  inversion P as [|? ? P1 P2]; subst. cbn [flat_map] in H. apply shows_app in H. destruct H as (l3 & H & H3).
  destruct (CX s l l3 n _ lb r P1 R H E) as (t & s1 & RD).
  destruct (proj1 (machine_reads PE) _ _ _ _ RD l l3 n (mkPFrame CNextArg k as_ :: ps) lb P1 R H) as [Y|[n' Y]]; rewrite Y in E; [discriminate E|].
  pose proof (fresh_ready _ (words_fresh _ _ _ P1 R H)) as R3. destruct (skip_dec t) as [SK|SK].
  - rewrite (after_null _ _ _ _ _ _ SK) in E. destruct (IH s1 l3 l1 n' k as_ ps lb r P2 R3 H3 E) as (ts & s2 & RA). exists ts, s2. eapply ra_skip; eassumption.
  - rewrite (after_arg _ _ _ _ _ _ _ SK) in E. destruct (IH s1 l3 l1 n' k _ ps lb r P2 R3 H3 E) as (ts & s2 & RA). exists (t :: ts), s2. eapply ra_cons; eassumption.
Qed.
Lemma close_inv (PE : PEr) xs n k as_ ps lb l l' s r : Forall Cr xs -> Forall proper xs -> ready l ->
  shows l (flat_map words xs ++ [(T_RPAREN, [])]) l' -> run n (mkPFrame CNextArg k as_ :: ps) lb (l, s) = Ok r ->
  exists ts s1 t s2, reads_args s xs ts s1 /\ applied G s1 (as_ ++ ts) t /\ popN k (l', s1) = Ok (tt, (l', s2)).
Proof.
  intros C P R H E. apply shows_app in H. destruct H as (l1 & H & H1). apply shows_cons in H1. destruct H1 as (l2 & N & _ & H1). apply shows_nil in H1. subst l2.
  destruct (args_inv PE xs C s l l1 n k as_ ps lb r P R H E) as (ts & s1 & RA).
  destruct (proj1 (proj2 (machine_reads PE)) _ _ _ _ RA l l1 n ps lb P R H) as [A1 _]. destruct (A1 k as_) as [Y|[n' Y]]; rewrite Y in E; [discriminate E|].
  destruct n' as [|n']; [discriminate E|]. rewrite (run_tok n' _ _ _ _ _ _ N) in E. cbn [onToken pf_ctx pf_args pf_nscopes] in E. destruct r as [r p].
  apply mbind_ok in E. destruct E as (a & p1 & E & _). apply mbind_ok in E. destruct E as (t & p2 & M & E). apply mkE_inv in M. destruct M as [M ->].
  apply mbind_ok in E. destruct E as ([] & p3 & PO & E).
  assert (PN : forall m s0 q, popN m (l', s0) = Ok (tt, q) -> exists s2, q = (l', s2)).
  { induction m as [|m IH]; intros s0 q Q; cbn [popN] in Q; [injection Q as <-; eauto|]. apply mbind_ok in Q. destruct Q as (u & q1 & Q1 & Q2).
    apply pop_inv in Q1. destruct Q1 as (s' & _ & ->). eauto. }
  destruct (PN _ _ _ PO) as [s2 ->]. exists ts, s1, t, s2. auto.
Qed.
Lemma popN1_inv l s s' : popN 1 (l, s) = Ok (tt, (l, s')) -> left_scope s s'.
Proof. cbn [popN]. intros H. apply mbind_ok in H. destruct H as (u & q & H1 & H2). apply pop_inv in H1. destruct H1 as (s2 & L & ->). injection H2 as <-. exact L. Qed.
Lemma lets_inv (PE : PEr) xs : Forall (fun x => match x with XL ys => Forall Cr ys | XT _ _ => True end) xs ->
  forall s l l1 l' n ps lb acc r, Forall proper xs -> one l -> shows l (flat_map words xs) l1 -> nextToken l1 = Ok (T_RPAREN, l') ->
  pause (mkPFrame CLetNextBind 0 []) ps (acc :: lb) n (l, s) = Ok r -> exists ds s1, reads_lets G sig s xs ds s1.
Proof.
  induction 1 as [|x xs CX _ IH]; intros s l l1 l' n ps lb acc r P O H NR E; [exists [], s; constructor|].
  inversion P as [|? ? P1 P2]; subst. cbn [flat_map] in H. apply shows_app in H. destruct H as (la & H & HX).
  destruct (first_x x l la P1 H) as (k & l2 & N2 & K & X).
  assert (KL : k = T_LPAREN).
  { unfold pause, letNext in E. rewrite mbind_assoc in E. unfold mbind at 1 in E. rewrite (choice_at _ _ _ _ _ _ N2) in E.
    destruct (token_eqb k T_LPAREN) eqn:Q; [now apply token_eqb_eq in Q|]. destruct (token_eqb k T_RPAREN) eqn:Q2; [apply token_eqb_eq in Q2; contradiction | discriminate E]. }
  subst k. destruct x as [u v|ys]; [destruct X as (_ & _ & _ & X); discriminate X|]. destruct X as [_ X]. pose proof (one_next _ _ _ O N2) as F2.
  assert (C : eatChoice T_LPAREN T_RPAREN (l, s) = Ok (true, (l2, s))) by (rewrite (choice_at _ _ _ _ _ _ N2); reflexivity).
  unfold pause, letNext in E. rewrite mbind_assoc in E. rewrite (mbind_at _ _ _ _ _ _ _ C) in E. rewrite mbind_assoc in E. destruct r as [r p].
  apply mbind_ok in E. destruct E as (nm & q & SY & E). apply parseSymbol_inv in SY. destruct SY as (k & l3 & N3 & NM & ->). rewrite mret_at in E.
  pose proof (fresh_next _ _ _ F2 N3) as F3. apply proper_list in P1.
  destruct ys as [|y ys]; [cbn [flat_map app] in X; apply shows_cons in X; destruct X as (l4 & X & _); rewrite N3 in X; injection X as -> _; discriminate NM|].
  inversion P1 as [|? ? P3 P4]; subst. destruct (list_first _ _ _ _ P3 X) as (l4 & X1 & X2).
  destruct (first_x y l2 l4 P3 X1) as (k' & l5 & N5 & _ & Y). rewrite N3 in N5. injection N5 as <- <-.
  destruct y as [t w|zs]; [|destruct Y as [-> _]; discriminate NM]. destruct Y as (-> & <- & W & _). rewrite W in NM.
  inversion CX as [|? ? _ CY]; subst.
  apply shows_app in X2. destruct X2 as (l6 & X2 & X3). apply shows_cons in X3. destruct X3 as (l7 & N7 & _ & X3). apply shows_nil in X3. subst l7.
  destruct (junk_inv PE ys CY s l3 l6 la n (mkPFrame CLetNextBind 0 []) ps _ (r, p) ltac:(discriminate) P4 (fresh_ready _ F3) X2 N7 E) as (js & z & rest & s1 & t' & s2 & -> & RA & RD & SK).
  apply Forall_app in P4. destruct P4 as [P4 P5]. inversion P5 as [|? ? P6 P7]; subst.
  rewrite flat_map_app in X2. apply shows_app in X2. destruct X2 as (l8 & X2 & X4). cbn [flat_map] in X4. apply shows_app in X4. destruct X4 as (l9 & X4 & X5).
  destruct (proj1 (proj2 (machine_reads PE)) _ _ _ _ RA l3 l8 n ps ((acc ++ [(nm, null_term)]) :: lb) P4 (fresh_ready _ F3) X2) as [_ J1].
  destruct (J1 eq_refl (mkPFrame CLetNextBind 0 [])) as [Z|[n2 Z]]; rewrite Z in E; [discriminate E|].
  pose proof (args_ready _ _ _ P4 (fresh_ready _ F3) X2) as R8.
  destruct (proj1 (machine_reads PE) _ _ _ _ RD l8 l9 n2 (mkPFrame CLetNextBind 0 [] :: ps) ((acc ++ [(nm, null_term)]) :: lb) P6 R8 X4) as [Q|[n3 Q]]; rewrite Q in E; [discriminate E|].
  unfold after in E. cbn [updateCtx pf_ctx] in E. rewrite (kind_neqb _ SK) in E. rewrite rev_app_distr in E. cbn [rev app] in E. rewrite rev_involutive in E. rewrite mbind_assoc in E.
  apply mbind_ok in E. destruct E as (u & q & EA & E). apply eat_inv in EA. destruct EA as (l10 & N10 & ->).
  assert (RE : rest = []). { apply (list_end rest l9 l10 la P7); [|exact N10]. apply shows_app. exists l6. split; [exact X5|]. econstructor; [exact N7 | discriminate | constructor]. }
  subst rest. apply shows_nil in X5. subst l9. rewrite N7 in N10. injection N10 as <-.
  assert (Fa : fresh la) by exact (fresh_next _ _ _ (words_fresh _ _ _ P6 R8 X4) N7).
  assert (E' : pause (mkPFrame CLetNextBind 0 []) ps ((acc ++ [(nm, t')]) :: lb) n3 (la, s2) = Ok (r, p)).
  { rewrite <- E. rewrite <- pause_eq. apply mbind_ext_ok. intros [[a b] c] q EE. unfold after.
    apply mbind_ok in EE. destruct EE as ([b' c'] & q' & EE & FF). injection FF as <- <- <- <-. destruct (letNext_frame _ _ _ _ _ _ _ EE) as [fr' ->]. reflexivity. }
  destruct (IH s2 la l1 l' n3 ps lb _ _ P2 (fresh_one _ Fa) HX NR E') as (ds & s3 & RL).
  exists ((nm, t') :: ds), s3. econstructor; eassumption.
Qed.
Inductive Deep : sx -> Prop :=
| dp_word : forall k w, Cr (XT k w) -> Deep (XT k w)
| dp_list : forall xs, Cr (XL xs) -> Forall Deep xs -> Deep (XL xs).
Lemma deep_all xs : Forall Deep xs -> Forall Cr xs.
Proof. intros H. eapply Forall_impl; [|exact H]. intros y Y. now inversion Y. Qed.
Lemma deep_lists xs : Forall Deep xs -> Forall (fun x => match x with XL ys => Forall Cr ys | XT _ _ => True end) xs.
Proof. intros H. eapply Forall_impl; [|exact H]. intros [k w|ys] Y; [exact I|]. inversion Y; subst. now apply deep_all. Qed.
Lemma machine_back (PE : PEr) (PC : PEc) (P0 : PE0) x : Cr x.
Proof.
  enough (K : Deep x) by now inversion K.
  induction x as [k w|xs IH] using sx_ind2.
  - constructor. intros s l l' n ps lb r P R H E. destruct n as [|n]; [discriminate E|]. destruct (first_x _ _ _ P H) as (k' & l1 & N & _ & -> & -> & W & PK).
    rewrite (run_tok n _ _ _ _ _ _ N) in E. destruct r as [r p]. apply mbind_ok in E. destruct E as ([[t ps1] lb1] & q & E & _).
    destruct (match k with T_SYMBOL | T_QUOTED_SYMBOL => true | _ => false end) eqn:KS.
    + assert (E' : (let! name := tokSymbol k in let! v := getVarM name in if kind_eqb (tkind v) K_BUILTIN_CONST then merr else mret (v, ps, lb)) (l', s) = Ok ((t, ps1, lb1), q)).
      { rewrite <- E. destruct k; try discriminate KS; reflexivity. }
      apply mbind_ok in E'. destruct E' as (nm & p1 & SY & E'). apply symbol_inv in SY. destruct SY as [NM ->]. rewrite W in NM.
      apply mbind_ok in E'. destruct E' as (v & p2 & GV & E'). apply getVar_inv in GV. destruct GV as [GV ->].
      exists v, s. eapply rd_name; [exact NM | exact GV|]. intros X. rewrite X in E'. discriminate E'.
    + assert (E' : (let! r := parseLiteral sig k in mret (r, ps, lb)) (l', s) = Ok ((t, ps1, lb1), q)).
      { rewrite <- E. destruct k; try discriminate KS; try discriminate PK; reflexivity. }
      apply mbind_ok in E'. destruct E' as (v & p1 & L & _). apply literal_inv in L. rewrite W in L. exists v, s. now apply rd_word.
  - pose proof (deep_all _ IH) as CX. constructor; [|exact IH]. pose proof IH as CL. clear IH.
    intros s l l' n ps lb r P R H E. destruct n as [|n]; [discriminate E|].
    destruct (eat_paren _ _ _ R H) as (l1 & N1 & O1 & H1). apply proper_list in P.
    pose proof E as E0. rewrite (run_tok n _ _ _ _ _ _ N1) in E. cbn [onToken] in E. rewrite mbind_assoc in E.
    destruct xs as [|x xs].
    { exfalso. cbn [flat_map app] in H1. apply shows_cons in H1. destruct H1 as (l2 & N2 & _). rewrite (mbind_at _ _ _ _ _ _ _ (next_at l1 s _ l2 N2)) in E. discriminate E. }
    inversion P as [|? ? P1 P2]; subst. inversion CX as [|? ? _ CXS]; subst. destruct (list_first _ _ _ _ P1 H1) as (l2 & H2 & H3).
    destruct (first_x x l1 l2 P1 H2) as (k & l3 & N2 & _ & X). rewrite (mbind_at _ _ _ _ _ _ _ (next_at l1 s k l3 N2)) in E.
    pose proof (one_next _ _ _ O1 N2) as F3.
    destruct x as [k' w|ys].
    + destruct X as (<- & -> & W & PK).
      destruct (is_let k) eqn:IL; [|destruct (match k with T_ATTRIBUTE => true | _ => false end) eqn:IA; [|destruct (match k with T_SYMBOL | T_QUOTED_SYMBOL => true | _ => false end) eqn:IS]].
      * (* let *)
        assert (E1 : (eat T_LPAREN ;; pause (mkPFrame CLetNextBind 0 []) ps ([] :: lb) n) (l2, s) = Ok r).
        { rewrite <- E. destruct k; try discriminate IL; rewrite mbind_assoc; apply mbind_ext; intros u q; now rewrite pause_eq. }
        clear E. destruct r as [r p]. apply mbind_ok in E1. destruct E1 as (u & q & EA & E). apply eat_inv in EA. destruct EA as (l4 & N4 & ->).
        pose proof (fresh_next _ _ _ F3 N4) as F4.
        destruct xs as [|x xs]; [cbn [flat_map app] in H3; apply shows_cons in H3; destruct H3 as (l5 & N5 & _); rewrite N4 in N5; discriminate N5|].
        inversion P2 as [|? ? P3 P4]; subst. inversion CXS as [|? ? _ CXS2]; subst. inversion CL as [|? ? _ CL1]; subst. inversion CL1 as [|? ? CB _]; subst.
        assert (CBS : forall bs, x = XL bs -> Forall (fun x => match x with XL ys => Forall Cr ys | XT _ _ => True end) bs).
        { intros bs ->. inversion CB; subst. now apply deep_lists. }
        destruct (list_first _ _ _ _ P3 H3) as (l5 & H4 & H5).
        destruct (first_x x l2 l5 P3 H4) as (k2 & l6 & N6 & _ & Y). rewrite N4 in N6. injection N6 as <- <-.
        destruct x as [k2 w2|bs]; [destruct Y as (_ & _ & _ & Y); discriminate Y|]. destruct Y as [_ Y]. apply proper_list in P3.
        apply shows_app in Y. destruct Y as (l6 & Y & Y2). apply shows_cons in Y2. destruct Y2 as (l7 & N7 & _ & Y2). apply shows_nil in Y2. subst l7.
        specialize (CBS bs eq_refl).
        destruct (lets_inv PE bs CBS s l4 l6 l5 n ps lb [] (r, p) P3 (fresh_one _ F4) Y N7 E) as (ds & s1 & RL).
        destruct (proj2 (proj2 (proj2 (proj2 (machine_reads PE)))) _ _ _ _ RL l4 l6 l5 n ps lb [] P3 (fresh_one _ F4) Y N7) as [Z|[n1 Z]]; rewrite Z in E; [discriminate E|].
        cbn [app] in E. assert (PU : pushM (l5, s1) = Ok (tt, (l5, entered s1))) by reflexivity. rewrite (mbind_at _ _ _ _ _ _ _ PU) in E.
        apply mbind_ok in E. destruct E as (u1 & q & NI & E). apply names_inv in NI. destruct NI as (s2 & NI & ->).
        pose proof (fresh_next _ _ _ (shows_fresh _ _ _ F4 Y) N7) as F5.
        apply shows_app in H5. destruct H5 as (l8 & H5 & H6). apply shows_cons in H6. destruct H6 as (l9 & N9 & _ & H6). apply shows_nil in H6. subst l9.
        destruct (junk_inv PE xs CXS2 s2 l5 l8 l' n1 (mkPFrame CLetBody 1 []) ps lb (r, p) ltac:(discriminate) P4 (fresh_ready _ F5) H5 N9 E) as (js & z & rest & s3 & t & s4 & -> & RA & RD & SK).
        apply Forall_app in P4. destruct P4 as [P5 P6]. inversion P6 as [|? ? P7 P8]; subst.
        rewrite flat_map_app in H5. apply shows_app in H5. destruct H5 as (l10 & H5 & H7). cbn [flat_map] in H7. apply shows_app in H7. destruct H7 as (l11 & H7 & H8).
        destruct (proj1 (proj2 (machine_reads PE)) _ _ _ _ RA l5 l10 n1 ps lb P5 (fresh_ready _ F5) H5) as [_ J1].
        destruct (J1 eq_refl (mkPFrame CLetBody 1 [])) as [Q|[n2 Q]]; rewrite Q in E; [discriminate E|].
        pose proof (args_ready _ _ _ P5 (fresh_ready _ F5) H5) as R10.
        destruct (proj1 (machine_reads PE) _ _ _ _ RD l10 l11 n2 (mkPFrame CLetBody 1 [] :: ps) lb P7 R10 H7) as [V|[n3 V]]; rewrite V in E; [discriminate E|].
        unfold after in E. cbn [updateCtx pf_ctx pf_nscopes] in E. rewrite (kind_neqb _ SK) in E. rewrite mbind_assoc in E.
        apply mbind_ok in E. destruct E as (u2 & q & EA & E). apply eat_inv in EA. destruct EA as (l12 & N12 & ->).
        assert (RE : rest = []). { apply (list_end rest l11 l12 l' P8); [|exact N12]. apply shows_app. exists l8. split; [exact H8|]. econstructor; [exact N9 | discriminate | constructor]. }
        subst rest. rewrite mbind_assoc in E. apply mbind_ok in E. destruct E as ([] & q & PO & _).
        assert (PO' : exists s5, left_scope s4 s5).
        { cbn [popN] in PO. apply mbind_ok in PO. destruct PO as (u3 & q3 & PO & _). apply pop_inv in PO. destruct PO as (s5 & PO & _). eauto. }
        destruct PO' as [s5 PO']. exists t, s5. eapply rd_let; eassumption.
      * (* annotation *)
        assert (E1 : run n (mkPFrame CAnnotate 0 [] :: ps) lb (l2, s) = Ok r).
        { rewrite <- E. destruct k; try discriminate IA. rewrite mret_at. symmetry. now apply after_null. }
        assert (KA : k = T_ATTRIBUTE) by (destruct k; try discriminate IA; reflexivity). subst k. clear E.
        apply shows_app in H3. destruct H3 as (l4 & H3 & H4). apply shows_cons in H4. destruct H4 as (l5 & N5 & _ & H4). apply shows_nil in H4. subst l5.
        destruct (junk_inv PE xs CXS s l2 l4 l' n (mkPFrame CAnnotate 0 []) ps lb r ltac:(discriminate) P2 (fresh_ready _ F3) H3 N5 E1) as (js & z & rest & s1 & t & s2 & -> & RA & RD & SK).
        apply Forall_app in P2. destruct P2 as [P5 P6]. inversion P6 as [|? ? P7 P8]; subst.
        rewrite flat_map_app in H3. apply shows_app in H3. destruct H3 as (l10 & H5 & H7). cbn [flat_map] in H7. apply shows_app in H7. destruct H7 as (l11 & H7 & H8).
        destruct (proj1 (proj2 (machine_reads PE)) _ _ _ _ RA l2 l10 n ps lb P5 (fresh_ready _ F3) H5) as [_ J1].
        destruct (J1 eq_refl (mkPFrame CAnnotate 0 [])) as [Q|[n2 Q]]; rewrite Q in E1; [discriminate E1|].
        pose proof (args_ready _ _ _ P5 (fresh_ready _ F3) H5) as R10.
        destruct (proj1 (machine_reads PE) _ _ _ _ RD l10 l11 n2 (mkPFrame CAnnotate 0 [] :: ps) lb P7 R10 H7) as [V|[n3 V]]; rewrite V in E1; [discriminate E1|].
        unfold after in E1. cbn [updateCtx pf_ctx pf_nscopes] in E1. rewrite (kind_neqb _ SK) in E1. rewrite mbind_assoc in E1. destruct r as [r p].
        apply mbind_ok in E1. destruct E1 as (at1 & q & EA & _). rewrite annotations in EA. apply mbind_ok in EA. destruct EA as (at2 & q2 & EA & _).
        pose proof (attrs_inv t (g_fuel G) rest [] l11 l4 l' s2 _ P8 (fresh_one _ (words_fresh _ _ _ P7 R10 H7)) H8 N5 EA) as AT.
        exists t, s2. eapply rd_annotated; eassumption.
      * (* application *)
        assert (E1 : exists q, parseHead G pe k (l2, s) = Ok q).
        { destruct r as [r p]. destruct k; try discriminate IS; rewrite mbind_assoc in E; apply mbind_ok in E; destruct E as (fr & q & E & _); eauto. }
        destruct E1 as [q E1]. destruct (head_inv PE PC P0 s k xs l2 l' q P2 F3 H3 E1) as (nm & v & NM & GV & HD). rewrite W in NM.
        destruct HD as [BV|(vxs & xs' & -> & VL & BH)].
        -- destruct (head_plain s k w nm v xs l2 l' NM GV BV P2 F3 W H3) as (l4 & HP & R4 & H4).
           rewrite (head_at n ps lb l l1 l2 s k w nm _ l4 s N1 N2 NM HP) in E0.
           destruct (close_inv PE xs n 0 [v] ps lb l4 l' s r CXS P2 R4 H4 E0) as (ts & s1 & t & s2 & RA & AP & _).
           exists t, s1. eapply rd_app; eassumption.
        -- inversion CXS as [|? ? _ CXS2]; subst. inversion P2 as [|? ? _ P3]; subst.
           destruct BH as [(CK & vs & s1 & ct & vl & RV & CO & AV)|(CK & ds & s1 & s2 & ct & p & q0 & cs & prs & vl & RD & NI & CO & CT & PR & AV)].
           ++ destruct (head_binder PE s k _ nm v vxs xs' vs s1 ct vl l2 l' NM GV CK VL RV CO AV P2 F3 eq_refl H3) as [Y|(l4 & HP & R4 & H4)]; [rewrite Y in E1; discriminate E1|].
              rewrite (head_at n ps lb l l1 l2 s k _ nm _ l4 s1 N1 N2 NM HP) in E0.
              destruct (close_inv PE xs' n 1 [v; vl] ps lb l4 l' s1 r CXS2 P3 (fresh_ready _ R4) H4 E0) as (ts & s3 & t & s4 & RA & AP & PO).
              apply popN1_inv in PO. exists t, s4. eapply rd_binder; eassumption.
           ++ destruct (head_let_binder PE s k _ nm v vxs xs' ds s1 s2 ct p q0 cs prs vl l2 l' NM GV CK VL RD NI CO CT PR AV P2 F3 eq_refl H3) as [Y|(l4 & HP & R4 & H4)]; [rewrite Y in E1; discriminate E1|].
              rewrite (head_at n ps lb l l1 l2 s k _ nm _ l4 s2 N1 N2 NM HP) in E0.
              destruct (close_inv PE xs' n 1 [v; vl] ps lb l4 l' s2 r CXS2 P3 (fresh_ready _ R4) H4 E0) as (ts & s3 & t & s4 & RA & AP & PO).
              apply popN1_inv in PO. exists t, s4. eapply rd_let_binder; eassumption.
      * exfalso. destruct k; try discriminate IL; try discriminate IA; try discriminate IS; try discriminate PK; discriminate E.
    + (* ((_ f t) t) *)
      destruct X as [-> X]. rewrite mbind_assoc in E. destruct r as [r p]. apply mbind_ok in E. destruct E as (k2 & q & NX & E).
      rewrite mbind_assoc in E. apply mbind_ok in E. destruct E as (nm & q2 & SY & E).
      unfold next, mlex in NX. cbn [fst snd] in NX. apply bind_ok in NX. destruct NX as ([k3 l4] & N4 & NX). cbn [fst snd] in NX. injection NX as -> <-.
      apply symbol_inv in SY. destruct SY as [NM ->]. destruct (text_eqb nm (txt "_") || text_eqb nm (txt "as")) eqn:TE; [|discriminate E].
      apply proper_list in P1.
      destruct ys as [|y ys]; [cbn [flat_map app] in X; apply shows_cons in X; destruct X as (l5 & X & _); rewrite N4 in X; injection X as -> _; discriminate NM|].
      inversion P1 as [|? ? P3 P4]; subst. destruct (list_first _ _ _ _ P3 X) as (l5 & X1 & X2).
      destruct (first_x y l3 l5 P3 X1) as (k' & l6 & N6 & _ & Y). rewrite N4 in N6. injection N6 as <- <-.
      destruct y as [t w|zs]; [|destruct Y as [-> _]; discriminate NM]. destruct Y as (-> & <- & W & _). rewrite W in NM.
      assert (Q : run (S n) ps lb (l, s) = run (S n) (mkPFrame CNextArg 0 [] :: ps) lb (l1, s)).
      { rewrite (run_tok n _ _ _ _ _ _ N1), (run_tok n _ _ _ _ _ _ N2). cbn [onToken]. rewrite !mbind_assoc.
        at_ (next_at l1 s _ l3 N2). rewrite !mbind_assoc. at_ (next_at l3 s t l4 N4). at_ (next_at l3 s t l4 N4). rewrite mbind_assoc.
        at_ (symbol_at l4 s t w nm NM W). rewrite TE. destruct (name_of_word _ _ _ NM) as [-> | ->]; reflexivity. }
      rewrite Q in E0. destruct (close_inv PE _ (S n) 0 [] ps lb l1 l' s (r, p) CX P (one_ready _ O1) H1 E0) as (ts & s1 & t1 & s2 & RA & AP & _).
      exists t1, s1. eapply rd_app2; [exact NM | | exact RA | exact AP].
      apply orb_prop in TE. destruct TE as [TE|TE]; apply text_eqb_eq in TE; auto.
Qed.
End Machine.

Section Whole.
Variable G : config.
Hypothesis HC : forall n t, g_varinfo G (g_bvar G n t) = Some (n, t).
Lemma parseExpr_reads sig n : PEr G sig (parseExpr G sig n).
Proof.
  induction n as [|n IH]; intros s x t s1 R l l' P Y H; [now left|]. cbn [parseExpr].
  destruct (machine_reads G sig (parseExpr G sig n) HC IH) as [A _]. specialize (A _ _ _ _ R l l' (g_fuel G) [] [] P Y H).
  unfold run in A. destruct A as [A|[n' A]]; [now left|]. right. exact A.
Qed.
Lemma parseExpr_paren sig n : PE0 (parseExpr G sig n).
Proof.
  intros l l1 s r N E. destruct n as [|n]; [discriminate E|]. cbn [parseExpr] in E. destruct (g_fuel G) as [|m] eqn:F; [discriminate E|].
  fold (run G sig (parseExpr G sig n) (S m) [] []) in E. rewrite (run_tok _ _ _ m _ _ _ _ _ _ N) in E. discriminate E.
Qed.
Lemma parseExpr_back sig n : PEc G sig (parseExpr G sig n).
Proof.
  induction n as [|n IH]; intros s x l l' r P Y H E; [discriminate E|]. cbn [parseExpr] in E.
  exact (machine_back G sig (parseExpr G sig n) HC (parseExpr_reads sig n) IH (parseExpr_paren sig n) x s l l' (g_fuel G) [] [] r P Y H E).
Qed.
Theorem parseExpr_exact sig n s x l l' t p : proper x -> ready l -> shows l (words x) l' -> parseExpr G sig n (l, s) = Ok (t, p) ->
  SpecRead.reads G sig s x t (snd p) /\ fst p = l'.
Proof.
  intros P Y H E. destruct (parseExpr_back sig n s x l l' _ P Y H E) as (t1 & s1 & R).
  destruct (parseExpr_reads sig n s x t1 s1 R l l' P Y H) as [X|X]; rewrite X in E; [discriminate E|]. injection E as <- <-. auto.
Qed.
End Whole.
