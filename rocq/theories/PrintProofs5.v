(** Proofs about printing: words are read back. *)
From Coq Require Import String ZArith List Bool Lia.
From Verif Require Import Base Kind Ints Str Literal Arity Term Match Eval ListOps Typing Build Scope Lexer SpecLex LexProofs LexProofs2 Parse SpecRead
  Print SpecPrint PrintProofs.
Import ListNotations.
Open Scope Z_scope.

(** * Words and what follows them *)
Lemma not_in_check c l : existsb (Z.eqb c) l = false -> ~ In c l.
Proof. intros H I. apply existsb_In in I. congruence. Qed.
Lemma start_char_iff c : start_char c <-> existsb (Z.eqb c) (letters ++ punct) = true.
Proof. rewrite existsb_In, in_app_iff. reflexivity. Qed.
Lemma sym_char_iff c : sym_char c <-> existsb (Z.eqb c) (letters ++ punct ++ digits ++ [58]) = true.
Proof.
  rewrite existsb_In, !in_app_iff. unfold sym_char, start_char. generalize (In c letters) (In c punct) (In c digits). intros P Q R. cbn [In].
  intuition.
Qed.
Lemma delimited_stops (P : Z -> Prop) rest : Forall (fun c => ~ P c) (32 :: 40 :: 41 :: spaces) -> delimited rest -> stops P rest.
Proof. destruct rest as [|c rest]; [now intros|]. cbn [delimited stops]. intros F D. rewrite Forall_forall in F. now apply F. Qed.
Lemma delimited_sym rest : delimited rest -> stops sym_char rest.
Proof.
  apply delimited_stops. repeat (apply Forall_cons; [rewrite sym_char_iff; intros H; vm_compute in H; discriminate|]). constructor.
Qed.
Lemma stops_incl (P Q : Z -> Prop) rest : (forall c, Q c -> P c) -> stops P rest -> stops Q rest.
Proof. destruct rest; cbn; auto. Qed.
Lemma simple_sym n : simple n -> Forall sym_char n /\ exists c r, n = c :: r /\ start_char c.
Proof.
  destruct n as [|c n]; [intros []|]. intros [D F]. split.
  - revert F. apply Forall_impl. intros d [H|[H|H]].
    + left. now left.
    + right. now left.
    + left. right. revert d H. apply incl_check. vm_compute. reflexivity.
  - exists c, n. split; [reflexivity|]. inversion F as [|? ? [H|[H|H]] _]; subst; [now left|contradiction|].
    right. revert c H D F. intros c H _ _. revert c H. apply incl_check. vm_compute. reflexivity.
Qed.
Lemma eo_sym : Forall sym_char (txt "eo::").
Proof. repeat (apply Forall_cons; [apply sym_char_iff; vm_compute; reflexivity|]). constructor. Qed.
Lemma not_in_barred n : ~ In 124 n -> ~ In 92 n -> replaceBars n = n.
Proof.
  induction n as [|c n IH]; intros A B; [reflexivity|]. cbn in A, B. unfold replaceBars in *. cbn [map]. rewrite IH by tauto.
  destruct (c =? 92) eqn:X; [apply Z.eqb_eq in X; tauto|]. destruct (c =? 124) eqn:Y; [apply Z.eqb_eq in Y; tauto|]. reflexivity.
Qed.
Lemma barred_no_bar n m : Forall2 barred n m -> ~ In 124 m.
Proof.
  induction 1 as [|c d n m B _ IH]; [tauto|]. intros [->|I]; [|contradiction]. unfold barred in B.
  destruct (c =? 124) eqn:X; [discriminate|]. destruct (c =? 92); [discriminate|]. cbn in B. subst c. discriminate.
Qed.

(** The word of a readable name. *)
Lemma readable_word ll lt n : readable ll lt n ->
  exists t, (forall rest, delimited rest -> lexeme ll lt t (quoteSymbol n) rest) /\ name_of t (quoteSymbol n) = Some n.
Proof.
  intros [m S N R|r F D|m S NE B1 B2].
  - rewrite (proj2 (quoteSymbol_spec m m) (wn_simple m S)). exists T_SYMBOL. split; [|reflexivity]. intros rest Dr.
    destruct (simple_sym m S) as (Fs & c & r & -> & Sc). inversion Fs; subst. apply lx_symbol; auto. now apply delimited_sym.
  - rewrite (proj2 (quoteSymbol_spec _ _) (wn_eo r)). exists T_SYMBOL. split; [|reflexivity]. intros rest Dr.
    change (txt "eo::" ++ r) with (101 :: (txt "o::" ++ r)). apply lx_symbol.
    + apply start_char_iff. vm_compute. reflexivity.
    + apply Forall_app. split; [|exact F]. repeat (apply Forall_cons; [apply sym_char_iff; vm_compute; reflexivity|]). constructor.
    + now apply delimited_sym.
    + intros t N. inversion N.
    + intros t N. inversion N as [H|H|H|? H|H|? H]; try discriminate H. apply D. exact (eq_sym H).
  - assert (W : quoteSymbol m = 124 :: m ++ [124]).
    { apply quoteSymbol_spec. apply wn_quoted; auto.
      - intros r ->. apply B1. now left.
      - rewrite <- (not_in_barred m B1 B2) at 2. apply barred_replace. }
    rewrite W. exists T_QUOTED_SYMBOL. split; [intros rest _; now apply lx_quoted|].
    cbn [name_of]. destruct (m ++ [124]) eqn:X; [now destruct m|]. rewrite <- X. f_equal. now rewrite removelast_last.
Qed.
(** A word that is read as the name is the word of a readable name. *)
Lemma word_readable ll lt n t rest : lexeme ll lt t (quoteSymbol n) rest -> name_of t (quoteSymbol n) = Some n -> readable ll lt n.
Proof.
  intros L N. remember (quoteSymbol n) as w eqn:W. symmetry in W. apply quoteSymbol_spec in W.
  assert (CASES : (t = T_SYMBOL /\ n = w /\ Forall sym_char w /\ (forall u, ~ negative w u) /\ (forall u, ~ reserved ll lt w u)) \/
    (t = T_QUOTED_SYMBOL /\ exists b, w = 124 :: b ++ [124] /\ ~ In 124 b /\ n = b)).
  { inversion L as [ | | b ? NB EQ | | | | | | | | | | ? ? ? Ng | ? ? ? Rs | c s ? SC FS ST NN NR]; subst; try discriminate N.
    - right. split; [reflexivity|]. exists b. split; [reflexivity|]. split; [exact NB|]. cbn [name_of] in N.
      destruct (b ++ [124]) eqn:X; [now destruct b|]. rewrite <- X in N. rewrite removelast_last in N. congruence.
    - inversion Ng; subst; discriminate N.
    - inversion Rs; subst; discriminate N.
    - left. split; [reflexivity|]. cbn in N. assert (n = c :: s) by congruence. subst n. split; [reflexivity|]. split; [|auto].
      constructor; [now left|exact FS]. }
  destruct CASES as [(-> & -> & F & NN & NR)|(-> & b & E & NB & ->)].
  - inversion W as [r EQ|? S|m m' FB EQ|? m S NE NQ FB EQ]; subst.
    + apply rn_eo; [now apply Forall_app in F|]. intros ->. exact (NR _ (res_define _ _)).
    + now apply rn_simple.
    + inversion F as [|? ? Hc Hr]; subst. apply sym_char_iff in Hc. vm_compute in Hc. discriminate.
    + inversion F as [|? ? Hc Hr]; subst. apply sym_char_iff in Hc. vm_compute in Hc. discriminate.
  - assert (X : forall n w, written_name n w -> n = b -> w = 124 :: b ++ [124] -> ~ simple b /\ (forall r, b <> txt "eo::" ++ r) /\ Forall2 barred b b).
    { intros n w' [r|m S|m m' FB|m m' S NE NQ FB] X Y.
      - subst b. discriminate Y.
      - subst m. rewrite Y in S. now apply not_bar_simple in S.
      - exfalso. apply NB. rewrite <- X. now left.
      - subst m. injection Y as Y. apply app_inj_tail in Y as [-> _]. auto. }
    destruct (X _ _ W eq_refl E) as (S & NE & FB). apply rn_quoted; auto. apply barred_fun in FB. intros I.
      assert (H : In 95 (replaceBars b) /\ ~ In 92 (replaceBars b)).
      { split.
        - unfold replaceBars. apply in_map_iff. exists 92. now split.
        - unfold replaceBars. rewrite in_map_iff. intros (c & X2 & _). destruct (c =? 92) eqn:Y; [discriminate|].
          destruct (c =? 124); [discriminate|]. cbn in X2. subst c. discriminate. }
      rewrite <- FB in H. now apply H.
Qed.
Lemma quote_plain n : Forall (fun c => 0 < c < 255) n -> plain (quoteSymbol n).
Proof.
  intros F. assert (P : plain n) by (revert F; apply Forall_impl; lia).
  remember (quoteSymbol n) as w eqn:W. symmetry in W. apply quoteSymbol_spec in W.
  assert (B : forall a b, Forall2 barred a b -> plain a -> plain (124 :: b ++ [124])).
  { intros a b FB Pa. constructor; [lia|]. apply Forall_app. split; [|repeat constructor; lia].
    induction FB as [|c d a b BB _ IH]; [constructor|]. inversion Pa; subst. constructor; [|now apply IH]. unfold barred in BB.
    destruct ((c =? 124) || (c =? 92)); lia. }
  inversion W as [r EQ|? S|m m' FB EQ|? m S NE NQ FB EQ]; subst; auto.
  - apply (B m); [exact FB|]. inversion P; subst. now apply Forall_app in H2.
  - now apply (B n).
Qed.
Lemma name_back i ll lt n rest : Forall (fun c => 0 < c < 255) n -> plain rest -> delimited rest ->
  (readable ll lt n <-> exists t, computeNextToken ll lt (chars_of i (quoteSymbol n ++ rest)) = Ok (t, quoteSymbol n, chars_of i rest) /\
    name_of t (quoteSymbol n) = Some n).
Proof.
  intros F P D. assert (PL : plain (quoteSymbol n ++ rest)) by (apply Forall_app; split; [now apply quote_plain|exact P]). split.
  - intros R. destruct (readable_word ll lt n R) as (t & L & N). exists t. split; [|exact N].
    apply (proj2 (token_of_bytes i ll lt _ t (quoteSymbol n) rest PL)). left. right. exists []. split; [constructor|]. split; [reflexivity|auto].
  - intros (t & C & N). destruct (proj1 (token_of_bytes i ll lt _ t (quoteSymbol n) rest PL) (conj C P)) as [[(-> & W & _)|(l & Ly & E & L)]|(-> & _)].
    + discriminate N.
    + exact (word_readable ll lt n t rest L N).
    + discriminate N.
Qed.

(** * Operators *)
Definition op_ok (rt : bool) (p : text * kind) : bool :=
  text_eqb (kindToTerm (snd p)) (fst p) &&
  match getVar (bind_all rt initial_names scope_empty) (fst p) with Some v => kind_eqb (builtin_kind v) (snd p) | None => false end.
Lemma ops_ok rt : forallb (op_ok rt) builtins = true.
Proof. destruct rt; vm_compute; reflexivity. Qed.
Lemma op_ok_spec rt n k : op_ok rt (n, k) = true -> kindToTerm k = n /\
  exists v, getVar (bind_all rt initial_names scope_empty) n = Some v /\ builtin_kind v = k.
Proof.
  unfold op_ok, fst, snd. generalize (getVar (bind_all rt initial_names scope_empty) n). intros [v|] H; apply andb_true_iff in H as [A B]; [|discriminate].
  apply text_eqb_eq in A. apply kind_eqb_eq in B. eauto.
Qed.
Lemma operators_bound o n k : In (n, k) builtins -> kindToTerm k = n /\
  exists v, getVar (s_scope (st_init o)) n = Some v /\ builtin_kind v = k.
Proof. intros I. exact (op_ok_spec _ n k (proj1 (forallb_forall _ _) (ops_ok (o_ruleSymTable o)) _ I)). Qed.
Definition op_in (k : kind) : bool := negb (isLiteralOp k) || existsb (fun p => kind_eqb (snd p) k) builtins.
Lemma ops_in : forallb op_in all_kinds = true.
Proof. vm_compute. reflexivity. Qed.
Lemma operators_all k : isLiteralOp k = true -> exists n, In (n, k) builtins.
Proof.
  intros H. assert (I : In k all_kinds).
  { rewrite <- (kind_of_num k). destruct (nth_in_or_default (N.to_nat (kind_num k)) all_kinds K_NONE) as [X|X]; [exact X|]. rewrite X. now left. }
  pose proof (proj1 (forallb_forall _ _) ops_in k I) as F. unfold op_in in F. rewrite H in F. cbn [negb orb] in F.
  apply existsb_exists in F as ([n k'] & J & X). apply kind_eqb_eq in X. unfold snd in X. subst. eauto.
Qed.
