(** Commands, files and runs: that they do what SpecCmd.v and SpecRun.v say. *)
From Coq Require Import String ZArith List Bool Lia.
From Verif Require Import Base Kind Ints Str Literal Arity Term TermProofs Match Eval ListOps Typing Build Scope Lexer Parse Check
  SpecRead SpecCmd SpecRun FrontProofs CheckProofs ReadProofs CmdProofs CmdProofs2 CmdProofs3 CmdProofs4 CmdProofs5 CmdProofs6 CmdProofs7 CmdProofs8 CmdProofs9 CmdProofs10.
Import ListNotations.
Open Scope Z_scope.

Section Cmds.
Variable G : config.
Variable sig : bool.
Variable isRef : bool.
Variable inc : text -> bool -> bool -> term -> M bool.
Variable included : text -> bool -> bool -> term -> st -> st -> Prop.
Hypothesis INC : forall f a b nf, only (let! ok := inc f a b nf in if ok then mret tt else merr) (fun s _ s1 => included f a b nf s s1).
Hypothesis HC : forall n t, g_varinfo G (g_bvar G n t) = Some (n, t).
Notation does := (does G sig isRef included).

Lemma run_command c xs : (c = C_SET_INFO \/ c = C_SET_OPTION -> length xs <> 1%nat) -> command_on G sig isRef included (runCommand G sig isRef inc c) c xs.
Proof.
  intros V. destruct c; cbn [runCommand]; try (apply c_info || apply c_option; apply V; auto); apply command_all.
  - now apply c_const.
  - now apply c_datatype.
  - now apply c_datatypes.
  - now apply c_sort.
  - now apply c_echo.
  - apply c_nothing. now left.
  - now apply (c_pushpop G sig isRef included false).
  - now apply (c_pushpop G sig isRef included true).
  - now apply c_reset.
  - now apply c_assert.
  - now apply c_fun.
  - now apply c_define_const.
  - now apply c_define_fun.
  - now apply c_define_sort.
  - apply c_nothing. now right.
  - now apply c_check_assuming.
  - now apply c_logic.
  - now apply c_assume.
  - now apply c_assume_push.
  - now apply c_literals.
  - now apply c_param.
  - now apply c_rule.
  - now apply c_define.
  - now apply c_include.
  - now apply c_program.
  - now apply c_reference.
  - now apply (c_step G sig isRef included HC false).
  - now apply (c_step G sig isRef included HC true).
Qed.
Definition is_exit (c : command) : bool := match c with C_EXIT => true | _ => false end.
Lemma shows_nil l l' : shows l [] l' -> l' = l. Proof. intros H. now inversion H. Qed.
Lemma next_command x l s l' : well_formed x -> fresh l -> shows l (words x) l' ->
  (forall r p, parseNextCommand G sig isRef inc false (l, s) = Ok (r, p) -> exists w c xs s1, x = XL (XT T_SYMBOL w :: xs) /\ In (w, c) (command_words isRef) /\
     does s c xs s1 /\ r = Some (is_exit c) /\ p = (l', s1) /\ fresh l') /\
  (forall w c xs s1, x = XL (XT T_SYMBOL w :: xs) -> In (w, c) (command_words isRef) -> does s c xs s1 ->
     parseNextCommand G sig isRef inc false (l, s) = Fuel \/ parseNextCommand G sig isRef inc false (l, s) = Ok (Some (is_exit c), (l', s1)) /\ fresh l').
Proof.
  intros [P V] F H. unfold parseNextCommand. destruct x as [k w|ys].
  { inversion P; subst. cbn [words] in H. inversion H as [|l0 t s0 l1 ws l2 N W R]; subst.
    assert (E : eatChoice T_EOF T_LPAREN (l, s) = Err) by (rewrite (choice_at _ _ _ _ _ _ N); destruct k; try reflexivity; try discriminate; congruence).
    split; [|discriminate]. intros r p X. unfold mbind at 1 in X. rewrite E in X. discriminate X. }
  cbn [words] in H. inversion H as [|l0 t s0 l1 ws l2 N W R]; subst.
  assert (E : eatChoice T_EOF T_LPAREN (l, s) = Ok (false, (l1, s))) by (rewrite (choice_at _ _ _ _ _ _ N); reflexivity).
  rewrite (mbind_at _ _ _ _ _ _ _ E). clear E.
  assert (T : at_in CF 1 l1 [ys] l').
  { constructor; [reflexivity | | exact (fresh_next _ _ _ F N) | exact R]. constructor; [|constructor]. now inversion P. }
  destruct ys as [|[k w|zs] xs].
  - destruct (at_close _ _ _ _ _ T) as (l2 & N2 & U). rewrite (mbind_at _ _ _ _ _ _ _ (next_at l1 s _ _ N2)). rewrite (mbind_at _ _ _ _ _ _ _ (text_at l2 s)). split; [intros r p X; discriminate X | intros w c xs s1 X; discriminate X].
  - destruct (at_word _ _ _ _ _ _ _ _ T) as (l2 & N2 & W2 & U & K & _). rewrite (mbind_at _ _ _ _ _ _ _ (next_at l1 s _ _ N2)). rewrite (mbind_at _ _ _ _ _ _ _ (text_at l2 s)). rewrite W2.
    destruct (token_eqb k T_SYMBOL) eqn:EK.
    2:{ split; [intros r p X; destruct k; discriminate | intros w0 c xs0 s1 X; injection X as -> _ _; discriminate EK]. }
    apply token_eqb_eq in EK. subst k. destruct (table_find (commandTable isRef) w) as [c|] eqn:TF.
    + assert (IN := proj1 (command_find _ _ _) TF). assert (VC : c = C_SET_INFO \/ c = C_SET_OPTION -> length xs <> 1%nat).
      { intros C L. destruct xs as [|y [|? ?]]; try discriminate L. destruct (V w y eq_refl) as [V1 V2]. clear - IN C V1 V2.
        destruct isRef; cbn [command_words app In] in IN; decompose [or] IN; clear IN; try contradiction; match goal with X : (_, _) = (w, c) |- _ => injection X as <- <- end; destruct C as [C|C]; try discriminate C; try (now apply V1); now apply V2. }
      destruct (run_command c xs VC l2 s l' U) as [R1 R2].
      assert (EQ : forall p, (runCommand G sig isRef inc c;; eat T_RPAREN;; mret (Some (is_exit c))) p = ((runCommand G sig isRef inc c;; eat T_RPAREN);; mret (Some (is_exit c))) p) by (intros p; now rewrite mbind_assoc).
      change (fun _ : unit => mret (Some match c with C_EXIT => true | _ => false end)) with (fun _ : unit => mret (Some (is_exit c))). split.
      * intros r p X. rewrite EQ in X. apply mbind_ok in X. destruct X as ([] & p1 & X & Y). injection Y as <- <-. destruct (R1 _ X) as (l3 & s1 & -> & D & Z).
        destruct Z as [_ _ CL SH]. cbn [iwords] in SH. apply shows_nil in SH. subst l3. exists w, c, xs, s1. auto 8.
      * intros w0 c0 xs0 s1 X I D. injection X as <- <-. apply command_find in I. rewrite TF in I. injection I as <-. rewrite EQ. destruct (R2 _ D) as [X|(l3 & X & Z)].
        -- left. now apply mbind_fuel.
        -- right. destruct Z as [_ _ CL SH]. cbn [iwords] in SH. apply shows_nil in SH. subst l3. rewrite (mbind_at _ _ _ _ _ _ _ X). auto.
    + split; [intros r p X; discriminate X|]. intros w0 c xs0 s1 X I _. injection X as <- <-. apply command_find in I. congruence.
  - destruct (at_open _ _ _ _ _ _ _ T) as (l2 & N2 & U). rewrite (mbind_at _ _ _ _ _ _ _ (next_at l1 s _ _ N2)). rewrite (mbind_at _ _ _ _ _ _ _ (text_at l2 s)). split; [intros r p X; discriminate X | intros w c xs0 s1 X; discriminate X].
Qed.
Lemma shows_split l a b l' : shows l (a ++ b) l' -> exists l1, shows l a l1 /\ shows l1 b l'.
Proof.
  revert l. induction a as [|[t w] a IH]; intros l H; [exists l; split; [constructor | exact H]|]. cbn [app] in H. inversion H; subst.
  match goal with X : shows _ (a ++ b) _ |- _ => apply IH in X; destruct X as (l3 & X1 & X2) end. exists l3. split; [econstructor; eassumption | exact X2].
Qed.
Lemma exit_inv s ys s1 : does s C_EXIT ys s1 -> ys = [] /\ s1 = s. Proof. intros H. inversion H. auto. Qed.
Lemma commands_at n : forall l s xs, fresh l -> contents l xs ->
  let body := (fun fin => let! r := parseNextCommand G sig isRef inc fin in match r with None => mret (inr tt) | Some f => mret (inl f) end) in
  (forall p, mloop n body false (l, s) = Ok (tt, p) -> exists l1 s1, p = (l1, s1) /\ script G sig isRef included s xs s1) /\
  (forall s1, script G sig isRef included s xs s1 -> mloop n body false (l, s) = Fuel \/ exists l1, mloop n body false (l, s) = Ok (tt, (l1, s1))).
Proof.
  induction n as [|n IH]; intros l s xs F (WF & l1 & l2 & SH & EO) body; [split; [intros p X; discriminate X | intros; now left]|]. cbn [mloop].
  assert (FIN : forall m l s, mloop m body true (l, s) = Fuel \/ mloop m body true (l, s) = Ok (tt, (l, s))) by (intros [|m] l0 s0; [now left | now right]).
  destruct xs as [|x xs].
  - cbn [flat_map] in SH. apply shows_nil in SH. subst l1.
    assert (E : parseNextCommand G sig isRef inc false (l, s) = Ok (None, (l2, s))).
    { unfold parseNextCommand. erewrite mbind_at; [|rewrite (choice_at _ _ _ _ _ _ EO); reflexivity]. reflexivity. }
    unfold body at 1 3. assert (E2 : (let! r := (let! r := parseNextCommand G sig isRef inc false in match r with None => mret (inr tt) | Some f => mret (inl f) end) in match r with inl x' => mloop n body x' | inr a => mret a end) (l, s) = Ok (tt, (l2, s))).
    { rewrite mbind_assoc, (mbind_at _ _ _ _ _ _ _ E). reflexivity. }
    split.
    + intros p X. change (mloop (S n) body false (l, s) = Ok (tt, p)) in X. cbn [mloop] in X. unfold body at 1 in X. rewrite E2 in X. injection X as <-. exists l2, s. split; [reflexivity | constructor].
    + intros s1 X. inversion X; subst. right. exists l2. exact E2.
  - inversion WF as [|? ? WX WF2]; subst. cbn [flat_map] in SH. apply shows_split in SH. destruct SH as (l3 & SX & SR).
    destruct (next_command x l s l3 WX F SX) as [C1 C2]. split.
    + intros p X. apply mbind_ok in X. destruct X as (r & p1 & X & Y). unfold body in X at 1. apply mbind_ok in X. destruct X as (q & p2 & X & Z).
      destruct (C1 _ _ X) as (w & c & ys & s1 & -> & IN & D & -> & -> & F3). injection Z as <- <-. destruct (is_exit c) eqn:EX.
      * destruct (FIN n l3 s1) as [Q|Q]; rewrite Q in Y; [discriminate Y|]. injection Y as <-. destruct c; try discriminate EX. destruct (exit_inv _ _ _ D) as [-> _].
        exists l3, s1. split; [reflexivity|]. now apply sc_exit.
      * destruct (IH l3 s1 xs F3) as [I1 _]; [split; [exact WF2 | eauto]|]. destruct (I1 _ Y) as (l4 & s2 & -> & SC). exists l4, s2. split; [reflexivity|].
        eapply sc_next; try eassumption. intros ->. discriminate EX.
    + assert (ST : forall c s1, parseNextCommand G sig isRef inc false (l, s) = Ok (Some (is_exit c), (l3, s1)) ->
        (let! r := body false in match r with inl x' => mloop n body x' | inr a => mret a end) (l, s) = mloop n body (is_exit c) (l3, s1)).
      { intros c s1 E. unfold body at 1. rewrite mbind_assoc, (mbind_at _ _ _ _ _ _ _ E). reflexivity. }
      assert (SF : parseNextCommand G sig isRef inc false (l, s) = Fuel -> (let! r := body false in match r with inl x' => mloop n body x' | inr a => mret a end) (l, s) = Fuel).
      { intros E. unfold body at 1. rewrite mbind_assoc. now apply mbind_fuel. }
      intros s2 X. inversion X as [|s0 w xs0 s1 IN D|s0 w c ys s1 xs0 s3 IN NE D SC]; subst.
      * destruct (C2 w C_EXIT [] s2 eq_refl IN D) as [E|[E F3]]; [left; now apply SF|]. rewrite (ST _ _ E). cbn [is_exit]. destruct (FIN n l3 s2) as [Q|Q]; rewrite Q; [now left | right; eauto].
      * destruct (C2 w c ys s1 eq_refl IN D) as [E|[E F3]]; [left; now apply SF|]. rewrite (ST _ _ E). replace (is_exit c) with false by (destruct c; try reflexivity; congruence).
        destruct (IH l3 s1 xs F3) as [_ I2]; [split; [exact WF2 | eauto]|]. exact (I2 _ SC).
Qed.
Lemma commands_in l s xs : fresh l -> contents l xs ->
  (forall p, parseCommands G sig isRef inc (l, s) = Ok (tt, p) -> exists l1 s1, p = (l1, s1) /\ script G sig isRef included s xs s1) /\
  (forall s1, script G sig isRef included s xs s1 -> parseCommands G sig isRef inc (l, s) = Fuel \/ exists l1, parseCommands G sig isRef inc (l, s) = Ok (tt, (l1, s1))).
Proof. exact (commands_at (g_fuel G) l s xs). Qed.
End Cmds.

Section Files.
Variable G : config.
Hypothesis HC : forall n t, g_varinfo G (g_bvar G n t) = Some (n, t).
Hypothesis HF : files_formed G.

Lemma closed_at l s : checkClosed (l, s) = Ok (tt, (l, s)) /\ s_asmctx s = [] \/ (forall r, checkClosed (l, s) <> Ok r) /\ checkClosed (l, s) <> Fuel /\ s_asmctx s <> [].
Proof.
  unfold checkClosed, mget, mbind. cbn [bind fst snd]. destruct (s_asmctx s) as [|a m]; [now left|]. right.
  destruct (c_ctx (s_scope s)) as [|n c]; [repeat split; intros; discriminate|]. destruct (Nat.ltb n (length (c_decls (s_scope s)))); repeat split; intros; discriminate.
Qed.
Definition incM (n : nat) (f : text) (a b : bool) (t : term) : M bool := fun p => let* r := includeFile G n f a b t (snd p) in Ok (fst r, (fst p, snd r)).
Lemma include_in n : forall f a b nf s,
  (forall s1, includeFile G n f a b nf s = Ok (true, s1) -> included_in G n f a b nf s s1) /\
  (forall s1, included_in G n f a b nf s s1 -> includeFile G n f a b nf s = Fuel \/ includeFile G n f a b nf s = Ok (true, s1)).
Proof.
  induction n as [|n IH]; intros f a b nf s; [split; [discriminate | intros s1 []]|].
  assert (INC : forall f a b nf, only (let! ok := incM n f a b nf in if ok then mret tt else merr) (fun s _ s1 => included_in G n f a b nf s s1)).
  { intros f0 a0 b0 nf0 l0 s0. destruct (IH f0 a0 b0 nf0 s0) as [I1 I2]. split.
    - intros u p X. apply mbind_ok in X. destruct X as (ok & p1 & X & Y). unfold incM in X. cbn [fst snd] in X. apply bind_ok in X. destruct X as ([ok' s1] & X & Z). injection Z as <- <-. destruct ok'; [|discriminate Y].
      injection Y as <- <-. exists s1. auto.
    - intros [] s1 X. destruct (I2 s1 X) as [E|E]; [left | right]; unfold mbind, incM; cbn [fst snd]; rewrite E; reflexivity. }
  cbn [includeFile included_in]. set (path := g_path G (s_input s) f). destruct (g_files G path) as [bytes|] eqn:GF.
  2:{ split; [discriminate | intros s1 (bytes & X & _); discriminate X]. }
  destruct (existsb (text_eqb path) (s_incl s)) eqn:EI.
  { assert (I : In path (s_incl s)) by (apply existsb_exists in EI; destruct EI as (y & I & E); apply text_eqb_eq in E; now subst y). split.
    - intros s1 X. injection X as <-. exists bytes. auto.
    - intros s1 (b0 & _ & [[_ ->]|[N _]]); [now right | contradiction]. }
  assert (NI : ~ In path (s_incl s)).
  { intros I. assert (existsb (text_eqb path) (s_incl s) = true); [|congruence]. apply existsb_exists. exists path. split; [exact I | now apply text_eqb_eq]. }
  change (set_log ((length (s_asmctx (set_input path (set_refNf nf (set_hasRef b (set_incl (path :: s_incl s) s))))), EvInclude path b nf) :: s_log (set_input path (set_refNf nf (set_hasRef b (set_incl (path :: s_incl s) s)))))
    (set_input path (set_refNf nf (set_hasRef b (set_incl (path :: s_incl s) s))))) with (opened path b nf s).
  change (lexer_init (negb a && o_parseLet (s_opts s)) a (chars_of false bytes)) with (text_of s a bytes).
  change (fun (f0 : text) (a0 b0 : bool) (t : term) (p : pst) => let* r := includeFile G n f0 a0 b0 t (snd p) in Ok (fst r, (fst p, snd r))) with (incM n).
  assert (FR : fresh (text_of s a bytes)) by reflexivity. split.
  - intros s1 X. exists bytes. split; [reflexivity|]. right. split; [exact NI|]. apply bind_ok in X. destruct X as ([u [l1 s2]] & X & Y). cbn [snd] in Y. injection Y as ->.
    destruct (HF path bytes s a GF) as (xs & CO). destruct (commands_in G a b (incM n) (included_in G n) INC HC (text_of s a bytes) (opened path b nf s) xs FR CO) as [C1 _].
    apply mbind_ok in X. destruct X as ([] & p1 & X & Y). destruct (C1 _ X) as (l3 & s3 & -> & SC). exists xs, s3. split; [exact CO|]. split; [exact SC|].
    unfold mbind, mupd in Y. cbn [bind fst snd] in Y. destruct (closed_at l3 (set_input (s_input s) s3)) as [[E AE]|[E _]]; [|exfalso; exact (E _ Y)]. rewrite E in Y. injection Y as _ _ <-. auto.
  - intros s1 (b0 & GE & [[I _]|[_ (xs & s3 & CO & SC & -> & AE)]]); [contradiction|]. injection GE as <-.
    destruct (commands_in G a b (incM n) (included_in G n) INC HC (text_of s a bytes) (opened path b nf s) xs FR CO) as [_ C2]. destruct (C2 _ SC) as [E|(l3 & E)].
    + left. assert (Q : (parseCommands G a b (incM n);; mupd (set_input (s_input s));; checkClosed) (text_of s a bytes, opened path b nf s) = Fuel) by now apply mbind_fuel. rewrite Q. reflexivity.
    + right. rewrite (mbind_at _ _ _ _ _ _ _ E). unfold mbind, mupd. cbn [bind fst snd]. destruct (closed_at l3 (set_input (s_input s) s3)) as [[Q _]|[_ [_ N]]]; [rewrite Q; reflexivity | contradiction].
Qed.
Lemma include_only n f a b nf : only (let! ok := incM n f a b nf in if ok then mret tt else merr) (fun s _ s1 => included_in G n f a b nf s s1).
Proof.
  intros l0 s0. destruct (include_in n f a b nf s0) as [I1 I2]. split.
  - intros u p X. apply mbind_ok in X. destruct X as (ok & p1 & X & Y). unfold incM in X. cbn [fst snd] in X. apply bind_ok in X. destruct X as ([ok' s1] & X & Z). injection Z as <- <-. destruct ok'; [|discriminate Y].
    injection Y as <- <-. exists s1. auto.
  - intros [] s1 X. destruct (I2 s1 X) as [E|E]; [left | right]; unfold mbind, incM; cbn [fst snd]; rewrite E; reflexivity.
Qed.
Lemma includes_at fs : forall s,
  (forall s1, runIncludes G fs s = Ok s1 -> includes_in G fs s s1) /\ (forall s1, includes_in G fs s s1 -> runIncludes G fs s = Fuel \/ runIncludes G fs s = Ok s1).
Proof.
  induction fs as [|[f i] fs IH]; intros s; cbn [runIncludes].
  - split; [intros s1 X; injection X as <-; constructor | intros s1 X; inversion X; now right].
  - destruct (include_in (g_fuel G) f i (negb i) null_term s) as [I1 I2]. split.
    + intros s1 X. apply bind_ok in X. destruct X as ([ok s2] & X & Y). destruct ok; [|discriminate Y]. exact (ii_cons G f i fs s s2 s1 (I1 _ X) (proj1 (IH s2) _ Y)).
    + intros s1 X. inversion X; subst. match goal with Q : included_in _ _ _ _ _ _ _ _ |- _ => destruct (I2 _ Q) as [E|E] end; rewrite E; [now left|]. cbn [bind]. now apply IH.
Qed.
Lemma answered_at s : answered s (verdict_of s).
Proof.
  unfold answered, verdict_of. destruct (existsb _ (s_used s)) eqn:E.
  - split; [|reflexivity]. intros _. apply existsb_exists in E. destruct E as (r & I & E). apply existsb_exists in E. destruct E as (r' & J & E). apply term_eqb_eq in E. subst r'. eauto.
  - split; [discriminate|]. intros (r & I & J). assert (existsb (fun r => existsb (term_eqb r) (s_sorry s)) (s_used s) = true); [|congruence].
    apply existsb_exists. exists r. split; [exact I|]. apply existsb_exists. exists r. split; [exact J | apply term_eqb_refl].
Qed.
Lemma endsWithEo_spec f : endsWithEo f = true <-> exists p, f = p ++ [46; 101; 111].
Proof.
  unfold endsWithEo. rewrite text_eqb_eq. split.
  - intros H. exists (firstn (length f - 3) f). rewrite <- (firstn_skipn (length f - 3) f) at 1. now rewrite H.
  - intros (p & ->). rewrite app_length, skipn_app. cbn [length]. replace (length p + 3 - 3)%nat with (length p) by lia.
    now rewrite skipn_all, Nat.sub_diag.
Qed.
Definition input_formed (o : options) (fs : list (text * bool)) (i : input) : Prop :=
  match i with InFile _ => True | InStdin bytes => forall b, exists xs, contents (lexer_init b false (chars_of true bytes)) xs end.
Lemma run_in o fs i : input_formed o fs i ->
  (forall v s, Check.run G o fs i = Ok (v, s) -> runs G o fs i s /\ answered s v) /\
  (forall v s, runs G o fs i s -> answered s v -> Check.run G o fs i = Fuel \/ Check.run G o fs i = Ok (v, s)).
Proof.
  intros IF. destruct (includes_at fs (st_init o)) as [J1 J2].
  assert (AU : forall v s, answered s v -> verdict_of s = v).
  { intros v s A. assert (B := answered_at s). destruct v, (verdict_of s); try reflexivity; exfalso; unfold answered in *.
    - assert (X : Correct = Incomplete) by (apply A; now apply B). discriminate X.
    - assert (X : Correct = Incomplete) by (apply B; now apply A). discriminate X. }
  unfold Check.run. destruct i as [f|bytes].
  - split.
    + intros v s X. apply bind_ok in X. destruct X as (s0 & X & Y). apply bind_ok in Y. destruct Y as (s1 & Y & Z). injection Z as <- <-.
      apply bind_ok in Y. destruct Y as ([ok s2] & Y & Z). destruct ok; [|discriminate Z]. injection Z as ->. split; [|apply answered_at].
      exact (rn_file G o fs s0 f (endsWithEo f) s1 (J1 _ X) (endsWithEo_spec f) (proj1 (include_in (g_fuel G) f (endsWithEo f) false null_term s0) s1 Y)).
    + intros v s X A. inversion X as [s' f' b s1 QI SG QF|]; subst. match goal with Q : includes_in _ _ _ _ |- _ => destruct (J2 _ Q) as [E|E] end; rewrite E; [now left|]. cbn [bind].
      assert (endsWithEo f = b) as -> by (destruct b, (endsWithEo f) eqn:EF; try reflexivity; [rewrite <- EF; apply endsWithEo_spec, SG; reflexivity | symmetry; apply SG, endsWithEo_spec; exact EF]).
      match goal with Q : included_in _ _ _ _ _ _ _ _ |- _ => apply include_in in Q; destruct Q as [E2|E2] end; rewrite E2; [now left|]. right. cbn [bind]. now rewrite (AU v s A).
  - split.
    + intros v s X. apply bind_ok in X. destruct X as (s0 & X & Y). apply bind_ok in Y. destruct Y as (s1 & Y & Z). injection Z as <- <-.
      apply bind_ok in Y. destruct Y as ([[] [l2 s2]] & Y & Z). injection Z as <-. split; [|apply answered_at]. destruct (IF (o_parseLet (s_opts s0))) as (xs & CO).
      destruct (commands_in G false false (incM (g_fuel G)) (included_in G (g_fuel G)) (include_only (g_fuel G)) HC (lexer_init (o_parseLet (s_opts s0)) false (chars_of true bytes)) s0 xs eq_refl CO) as [C1 _]. destruct (C1 _ Y) as (l3 & s3 & E & SC). injection E as -> ->.
      exact (rn_stdin G o fs s0 bytes xs s3 (J1 _ X) CO SC).
    + intros v s X A. inversion X; subst. match goal with Q : includes_in _ _ _ _ |- _ => destruct (J2 _ Q) as [E|E] end; rewrite E; [now left|]. cbn [bind].
      match goal with Q : contents ?l ?xs, S : script _ _ _ _ ?s0 _ _ |- _ => destruct (commands_in G false false (incM (g_fuel G)) (included_in G (g_fuel G)) (include_only (g_fuel G)) HC l s0 xs eq_refl Q) as [_ C2]; destruct (C2 _ S) as [E2|(l3 & E2)] end;
        unfold incM in E2; rewrite E2; [now left|]. right. cbn [bind snd]. now rewrite (AU v s A).
Qed.
End Files.
