(** Proofs that printed terms are read back: terms. *)
From Coq Require Import String ZArith List Bool Lia.
From Verif Require Import Base Kind Ints IntsProofs Str StrProofs Literal SpecLit LiteralProofs LiteralProofs2 Arity Term Match Eval ListOps Typing Build Scope Lexer SpecLex
  LexProofs LexProofs2 TermProofs Parse SpecRead SpecLocal Print SpecPrint PrintProofs PrintProofs2 PrintProofs3 PrintProofs4 PrintProofs5 SpecBack BackProofs.
Import ListNotations.
Open Scope Z_scope.

(** * Words of operators *)
Section Ops.
Variables ll lt : bool.
Definition sym_text (w : text) : bool :=
  match w with
  | c :: r => existsb (Z.eqb c) (letters ++ punct) && forallb (fun c => existsb (Z.eqb c) (letters ++ punct ++ digits ++ [58])) r
  | [] => false
  end.
Lemma sym_text_word w : sym_text w = true -> (forall t, ~ negative w t) -> (forall t, ~ reserved ll lt w t) -> a_word ll lt T_SYMBOL w.
Proof.
  destruct w as [|c r]; [discriminate|]. intros H NN NR. cbn [sym_text] in H. apply andb_true_iff in H as [A B].
  assert (SC : start_char c) by now apply start_char_iff.
  assert (SR : Forall sym_char r).
  { apply Forall_forall. intros d I. rewrite forallb_forall in B. apply sym_char_iff. now apply B. }
  split; [reflexivity|]. split; [discriminate|]. split.
  - assert (F : forallb (fun c => (0 <? c) && (c <? 255)) (letters ++ punct ++ digits ++ [58]) = true) by (vm_compute; reflexivity).
    assert (X : forall d, sym_char d -> 0 < d < 255).
    { intros d H. apply sym_char_iff, existsb_In in H. rewrite forallb_forall in F. specialize (F d H). lia. }
    constructor; [apply X; now left|]. revert SR. now apply Forall_impl.
  - intros rest R. apply lx_symbol; auto. now apply delimited_sym.
Qed.
Definition not_special (w : text) : bool :=
  negb (existsb (text_eqb w) [txt "!"; txt "eo::define"; txt "par"; txt "let"; txt "Bool"; txt "Type"]) &&
  match w with 45 :: c :: _ => negb (existsb (Z.eqb c) (46 :: 47 :: digits)) | _ => true end.
Lemma not_special_spec w : not_special w = true -> (forall t, ~ negative w t) /\ (forall t, ~ reserved ll lt w t).
Proof.
  intros H. apply andb_true_iff in H as [A B]. split.
  - intros t N.
    assert (X : exists c r, w = 45 :: c :: r /\ In c (46 :: 47 :: digits)).
    { destruct N as [d D F|d e D F Fe|d e D F Fe].
      - destruct d as [|c d]; [congruence|]. inversion F; subst. exists c, d. split; [reflexivity|]. right. now right.
      - destruct d as [|c d]; [exists 46, e; split; [reflexivity|now left]|]. inversion F; subst. exists c, (d ++ 46 :: e). split; [reflexivity|]. right. now right.
      - destruct d as [|c d]; [exists 47, e; split; [reflexivity|right; now left]|]. inversion F; subst. exists c, (d ++ 47 :: e). split; [reflexivity|]. right. now right. }
    destruct X as (c & r & -> & I). apply existsb_In in I. rewrite I in B. discriminate.
  - intros t R. apply negb_true_iff in A. 
    assert (X : existsb (text_eqb w) [txt "!"; txt "eo::define"; txt "par"; txt "let"; txt "Bool"; txt "Type"] = true).
    { apply existsb_exists. exists w. split; [|now apply text_eqb_eq]. destruct R; cbn [In]; auto 10. }
    congruence.
Qed.
Lemma check_word w : sym_text w && not_special w = true -> a_word ll lt T_SYMBOL w.
Proof. intros H. apply andb_true_iff in H as [A B]. apply not_special_spec in B as [B C]. now apply sym_text_word. Qed.
Lemma builtin_words : forallb (fun p => sym_text (fst p) && not_special (fst p)) builtins = true.
Proof. vm_compute. reflexivity. Qed.
Lemma builtin_word w k : In (w, k) builtins -> a_word ll lt T_SYMBOL w.
Proof. intros I. apply check_word. exact (proj1 (forallb_forall _ _) builtin_words (w, k) I). Qed.
Definition builtin_kinds_ok (k : kind) : bool :=
  match k with K_NONE | K_BUILTIN_CONST | K_PROOF_RULE | K_APPLY_OPAQUE | K_VARIABLE => false | _ => true end.
Lemma builtin_kinds : forallb (fun p => builtin_kinds_ok (snd p)) builtins = true.
Proof. vm_compute. reflexivity. Qed.
Lemma builtin_kind_ok w k : In (w, k) builtins -> builtin_kinds_ok k = true.
Proof. intros I. exact (proj1 (forallb_forall _ _) builtin_kinds (w, k) I). Qed.
Lemma let_word i : a_word ll lt T_SYMBOL (let_name i).
Proof.
  destruct (nat_text (Z.of_nat i) ltac:(lia)) as [N D]. unfold let_name. apply sym_text_word.
  - change (forallb (fun c => existsb (Z.eqb c) (letters ++ punct ++ digits ++ [58])) (118 :: int_toString 10 (Z.of_nat i)) = true).
    apply forallb_forall. intros c [<-|I]; [vm_compute; reflexivity|]. rewrite Forall_forall in D. apply sym_char_iff, digit_sym. now apply D.
  - intros t X. inversion X.
  - intros t X. inversion X.
Qed.
End Ops.

(** * Terms *)
Section Terms.
Variable G : config.
Hypothesis faithful_G : forall n t, g_varinfo G (g_bvar G n t) = Some (n, t).
Hypothesis some_fuel : (0 < g_mk G)%nat.
Variables sig ll lt : bool.
Variable s : st.
Let E := env_of G s.
Notation ordinary := (ordinary G sig ll lt s).

Lemma ordinary_kind t : ordinary t -> tkind t <> K_NONE /\ tkind t <> K_BUILTIN_CONST /\ (tkind t = K_PROOF_RULE -> exists i, t = Sym K_PROOF_RULE i).
Proof.
  intros O. inversion O; subst; cbn [tkind]; repeat split; try discriminate.
  - inversion H; subst. cbn. intros ->. discriminate.
  - inversion H; subst. cbn. intros ->. discriminate.
  - inversion H; subst. cbn. intros ->. eauto.
  - now destruct l.
  - now destruct l.
  - intros X. now destruct l.
  - destruct H1; subst; discriminate.
  - destruct H1; subst; discriminate.
  - intros ->. destruct H1; discriminate.
  - intros ->. apply builtin_kind_ok in H. discriminate.
  - intros ->. apply builtin_kind_ok in H. discriminate.
  - intros ->. apply builtin_kind_ok in H. discriminate.
Qed.
Lemma ordinary_parts t cs : ordinary t -> parts E t cs -> Forall ordinary cs.
Proof.
  intros O P. inversion O; subst.
  - inversion H; subst. inversion P; subst; [congruence|constructor].
  - inversion P; subst. constructor.
  - inversion P; subst. constructor.
  - inversion P; subst. constructor.
  - inversion P; subst. constructor; [now apply or_sym|constructor; [assumption|constructor]].
  - inversion P; subst. constructor; [now apply or_sym|assumption].
  - inversion P; subst. repeat first [assumption|apply Forall_nil|apply Forall_cons].
  - inversion P; subst. repeat first [assumption|apply Forall_nil|apply Forall_cons].
  - inversion P; subst; [|congruence]. cbn in H4. rewrite faithful_G in H4. cbn in H4. assert (T0 = T) by congruence. subst. repeat first [assumption|apply Forall_nil|apply Forall_cons].
  - inversion P; subst. assumption.
Qed.
Lemma ordinary_within u t : ordinary t -> within E u t -> ordinary u.
Proof.
  intros O W. induction W as [t|t cs c u P I W IH]; [exact O|]. apply IH. pose proof (ordinary_parts _ _ O P) as F.
  rewrite Forall_forall in F. now apply F.
Qed.

(** What names stand for where some terms are abbreviated. *)
Record names_ok (lb : term -> option text) (T : names_table) : Prop := {
  no_known : forall n v, getVar (s_scope s) n = Some v -> T n = Some v;
  no_words : forall u w, lb u = Some w -> a_word ll lt T_SYMBOL w /\ T w = Some u /\ compound E u }.

Section Table.
Variable lb : term -> option text.
Variable T : names_table.
Hypothesis OK : names_ok lb T.

Definition headed (y : sx) : Prop := match y with XL (XL _ :: _) => False | _ => True end.
Definition back (t : term) (x : px) : Prop := exists y, spells ll lt x y /\ means G sig s T y t /\ headed y.

Lemma sym_back f x us : named_symbol G ll lt s f -> written E lb f x us ->
  exists t w n, x = PA w /\ a_word ll lt t w /\ name_of t w = Some n /\ T n = Some f.
Proof.
  intros NS W. inversion NS as [k i K V n R F B]; subst.
  assert (X : x = PA (quoteSymbol n)).
  { inversion W as [? w L|? ? L P WL|? ? ? ? L|]; subst.
    - apply (no_words _ _ OK) in L as (_ & _ & c & cs & L). inversion L; subst. congruence.
    - inversion WL; subst; [|congruence]. f_equal. symmetry. now apply quoteSymbol_spec.
    - congruence. }
  destruct (readable_word ll lt n R) as (t & L & N). exists t, (quoteSymbol n), n. split; [exact X|]. split; [|split; [exact N|]].
  - assert (Q : t = T_SYMBOL \/ t = T_QUOTED_SYMBOL) by (destruct t; auto; discriminate N).
    split; [destruct Q; subst; reflexivity|]. split; [destruct Q; subst; discriminate|]. split; [|exact L].
    remember (quoteSymbol n) as w eqn:W'. symmetry in W'. apply quoteSymbol_spec in W'.
    assert (B2 : forall a b, Forall2 barred a b -> Forall (fun c => 0 < c < 255) a -> Forall (fun c => 0 < c < 255) (124 :: b ++ [124])).
    { intros a b FB Pa. constructor; [lia|]. apply Forall_app. split; [|constructor; [lia|constructor]].
      induction FB as [|c d a b BB _ IH]; [constructor|]. inversion Pa; subst. constructor; [|now apply IH]. unfold barred in BB.
      destruct ((c =? 124) || (c =? 92)); lia. }
    clear - W' F B2. revert F. destruct W' as [r|m S|m m' FB|m m' S NE NQ FB]; intros F.
    + exact F.
    + exact F.
    + apply (B2 m); [exact FB|]. inversion F; subst. now apply Forall_app in H2.
    + now apply (B2 m).
  - now apply (no_known _ _ OK).
Qed.
Lemma back_list ts xs : Forall2 (fun t x => (exists us, written E lb t x us) /\ (ordinary t -> back t x)) ts xs -> Forall ordinary ts ->
  exists ys, spells_list ll lt xs ys /\ means_args G sig s T ys ts /\ Forall headed ys.
Proof.
  induction 1 as [|t x ts xs [_ H] _ IH]; intros F; [exists []; repeat constructor|]. inversion F as [|? ? Ot Os]; subst.
  destruct (H Ot) as (y & S & M & HD). destruct (IH Os) as (ys & Ss & Ms & HDs). exists (y :: ys).
  split; [now constructor|]. split; [|now constructor]. constructor; auto. unfold skipped. now apply ordinary_kind.
Qed.
Lemma args_not_vars ys : Forall headed ys -> var_list ys = false.
Proof. intros F. destruct ys as [|[t w|[|[|]]] ys]; try reflexivity. inversion F; subst. contradiction. Qed.
Lemma app_back f t w n xs ys cs r : a_word ll lt t w -> name_of t w = Some n -> T n = Some f -> spells_list ll lt xs ys ->
  means_args G sig s T ys cs -> Forall headed ys -> applied G s (f :: cs) r -> back r (PL (PA w :: xs)).
Proof.
  intros A N L S M F AP. exists (XL (XT t w :: ys)). split; [|split; [|exact I]].
  - constructor. constructor; [now constructor|exact S].
  - eapply me_app; eauto. rewrite args_not_vars by exact F. apply andb_false_r.
Qed.
Lemma op_applied v k : builtin_kind v = k -> k <> K_NONE -> exists ai, e_info E v = Some ai /\ ai_kind ai = k.
Proof.
  intros B N. unfold E, env_of. cbn [e_info]. rewrite B. destruct k; try congruence; eauto.
Qed.
Lemma applied_apply v f a : builtin_kind v = K_APPLY -> applied G s [v; f; a] (Node K_APPLY [f; a]).
Proof.
  intros B. destruct (op_applied v K_APPLY B ltac:(discriminate)) as (ai & I & K). unfold applied. fold E.
  destruct (g_mk G) as [|m]; [lia|]. cbn [mkExpr]. unfold mkExprApply. rewrite I, K. reflexivity.
Qed.
Lemma applied_arrow v f a : builtin_kind v = K_FUNCTION_TYPE -> applied G s [v; f; a] (Node K_FUNCTION_TYPE [f; a]).
Proof.
  intros B. destruct (op_applied v K_FUNCTION_TYPE B ltac:(discriminate)) as (ai & I & K). unfold applied. fold E.
  destruct (g_mk G) as [|m]; [lia|]. cbn [mkExpr]. unfold mkExprApply. rewrite I, K. reflexivity.
Qed.
Lemma applied_plain f a : named_symbol G ll lt s f -> e_info E f = None -> applied G s [f; a] (Node K_APPLY [f; a]).
Proof.
  intros NS I. unfold applied. fold E. destruct (g_mk G) as [|m]; [lia|]. cbn [mkExpr]. unfold mkExprApply. rewrite I.
  unfold mkExprPlain. inversion NS as [k i K V n R F B]; subst. destruct k; try reflexivity. cbn [tkind].
  unfold getConstructorKind. rewrite I. reflexivity.
Qed.
Lemma word_back t w v : a_word ll lt t w -> word_term sig (s_opts s) t w v -> back v (PA w).
Proof. intros A W. exists (XT t w). split; [now constructor|]. split; [now apply me_word|exact I]. Qed.
Lemma bool_word (b : bool) : a_word ll lt T_SYMBOL (txt (if b then "true" else "false")%string).
Proof. destruct b; apply check_word; vm_compute; reflexivity. Qed.
Lemma lit_back l x : literal_word sig s l -> written_leaf E (Lit l) x -> back (Lit l) x.
Proof.
  intros L W. inversion L; subst; inversion W; subst.
  - exists (XT T_SYMBOL (txt (if b then "true" else "false")%string)). split; [|split; [|exact I]].
    + constructor. apply bool_word.
    + eapply me_name; [reflexivity| |discriminate]. now apply (no_known _ _ OK).
  - apply (word_back T_INTEGER); [apply num_word|]. apply wt_num; [assumption|]. unfold lit. now rewrite num_print_read.
  - rewrite rat_text. apply (word_back T_RATIONAL); [apply rat_word|]. apply wt_rat; [apply rat_nonzero|].
    rewrite <- rat_text. unfold lit. now rewrite rat_print_read.
  - apply (word_back T_BINARY); [now apply bin_word|]. apply wt_bin. unfold lit. cbn [skipn app txt map String.list_ascii_of_string].
    now rewrite bin_print_read.
  - lia.
  - destruct (str_text u H H0) as [F N]. cbn [lit_toString]. apply (word_back T_STRING); [now apply str_word|].
    apply wt_str with (u := str_toText u); [now apply str_unescape|]. unfold lit.
    rewrite (str_roundtrip u H). change (str_toText u) with (lit_toString (LStr u)). now rewrite str_print_read.
Qed.
Lemma var_word n : Forall text_char n -> back (Lit (LStr n)) (PA ([34] ++ n ++ [34])).
Proof.
  intros F. destruct (name_text n F) as [A B].
  assert (N : ~ In 34 n). { intros I. rewrite Forall_forall in F. apply F in I as (_ & X & _). congruence. }
  assert (P : Forall (fun c => 0 < c < 128) n) by (revert F; apply Forall_impl; intros c ([] & _); lia).
  apply (word_back T_STRING); [now apply str_word|]. apply wt_str with (u := n); [now apply str_unescape|].
  rewrite (name_ofText n F), A. unfold lit. cbn [mkLiteral bind]. now rewrite name_ofText.
Qed.

Lemma written_back :
  (forall t x us, written E lb t x us -> ordinary t -> back t x) /\
  (forall ts xs us, written_list E lb ts xs us -> Forall2 (fun t x => (exists us, written E lb t x us) /\ (ordinary t -> back t x)) ts xs).
Proof.
  apply written_minds.
  - intros t w L O. destruct (no_words _ _ OK t w L) as (A & B & _). exists (XT T_SYMBOL w). split; [now constructor|]. split; [|exact I].
    eapply me_name; [reflexivity|exact B|]. now apply ordinary_kind.
  - intros t x L P W O. inversion O; subst; try (inversion P; subst; congruence).
    + assert (Wt : written E lb t x []) by now apply wr_leaf. destruct (sym_back t x [] H Wt) as (k & w & n & -> & A & N & K).
      exists (XT k w). split; [now constructor|]. split; [|exact I]. eapply me_name; eauto. now apply ordinary_kind.
    + now apply lit_back.
    + inversion W as [| | | | | | | | | |? w KW]; subst. apply kind_word_spec in KW. vm_compute in KW. subst w. apply (word_back T_TYPE); [|apply wt_Type].
      split; [reflexivity|]. split; [discriminate|]. split; [repeat (constructor; [vm_compute; split; reflexivity|]); constructor|].
      intros rest R. apply lx_reserved; [|now apply delimited_sym]. now apply res_type.
    + inversion W as [| | | | | | | | | |? w KW]; subst. apply kind_word_spec in KW. vm_compute in KW. subst w. apply (word_back T_BOOL_TYPE); [|apply wt_Bool].
      split; [reflexivity|]. split; [discriminate|]. split; [repeat (constructor; [vm_compute; split; reflexivity|]); constructor|].
      intros rest R. apply lx_reserved; [|now apply delimited_sym]. apply res_bool.
  - intros i T0 x us L ST W IH O. inversion O; subst.
    { inversion H; subst. congruence. }
    cbn in ST. rewrite faithful_G in ST. cbn in ST. assert (T1 = T0) by congruence. subst T1.
    assert (NM : e_name E (Sym K_VARIABLE (g_bvar G n T0)) = n) by (unfold E; cbn [env_of e_name]; now rewrite faithful_G).
    rewrite NM. destruct (var_word n H1) as (y1 & S1 & M1 & H1'). destruct (IH H2) as (y2 & S2 & M2 & H2'). destruct H0 as [B K].
    apply (app_back v T_SYMBOL (txt "eo::var") (txt "eo::var") _ [y1; y2] [Lit (LStr n); T0]).
    + apply check_word. vm_compute. reflexivity.
    + reflexivity.
    + now apply (no_known _ _ OK).
    + repeat (constructor; auto).
    + constructor; [exact M1|discriminate|]. constructor; [exact M2| |constructor]. now apply ordinary_kind.
    + repeat (constructor; auto).
    + exact H3.
  - intros k c cs h xs us L P HW WL IH O.
    inversion O as [t NS|l LW|LT| |f a NS EI Oa|k0 f cs0 NS HW0 KK Os AP|v f a SF TC Of Oa|v t u SF Ot Ou|v n T0 SF TX OT AP|v k0 w c0 cs0 IB SF NK Os AP]; subst.
    + inversion NS.
    + assert (X : h = []).
      { apply (head_det E K_APPLY c); [exact HW|]. apply hw_apply. inversion NS; subst. reflexivity. }
      subst h. inversion IH as [|? x1 ? xs1 [[us1 W1] _] IHs]; subst.
      destruct (sym_back c x1 us1 NS W1) as (k & w & n & -> & A & N & K).
      destruct (back_list _ _ IHs) as (ys & Ss & Ms & HD); [constructor; auto|].
      apply (app_back c k w n xs1 ys [a]); auto. now apply applied_plain.
    + assert (X : h = []) by exact (head_det E k c _ _ HW HW0).
      subst h. inversion IH as [|? x1 ? xs1 [[us1 W1] _] IHs]; subst.
      destruct (sym_back c x1 us1 NS W1) as (k' & w & n & -> & A & N & K).
      destruct (back_list _ _ IHs) as (ys & Ss & Ms & HD); [assumption|].
      now apply (app_back c k' w n xs1 ys cs).
    + assert (X : h = [word "_"]) by (apply (head_det E K_APPLY c); [exact HW|now apply hw_apply2]).
      subst h. destruct (back_list _ _ IH) as (ys & Ss & Ms & HD); [repeat (constructor; auto)|]. destruct SF as [B K].
      apply (app_back v T_SYMBOL (txt "_") (txt "_") xs ys [c; a]); auto.
      * apply check_word. vm_compute. reflexivity.
      * now apply (no_known _ _ OK).
      * now apply applied_apply.
    + assert (X : h = [word "->"]).
      { apply (head_det E K_FUNCTION_TYPE c); [exact HW|]. apply hw_kind; try discriminate. apply kind_word_spec. reflexivity. }
      subst h. destruct (back_list _ _ IH) as (ys & Ss & Ms & HD); [repeat (constructor; auto)|]. destruct SF as [B K].
      apply (app_back v T_SYMBOL (txt "->") (txt "->") xs ys [c; u]); auto.
      * apply check_word. vm_compute. reflexivity.
      * now apply (no_known _ _ OK).
      * now apply applied_arrow.
    + assert (X : h = [PA w]).
      { apply (head_det E k c); [exact HW|]. apply hw_kind.
        - assumption.
        - intros ->. apply builtin_kind_ok in IB. discriminate.
        - apply kind_word_spec. exact (proj1 (operators_bound (s_opts s) w k IB)). }
      subst h. destruct (back_list _ _ IH) as (ys & Ss & Ms & HD); [assumption|]. destruct SF as [B K].
      apply (app_back v T_SYMBOL w w xs ys (c :: cs)); auto.
      * now apply (builtin_word ll lt w k).
      * now apply (no_known _ _ OK).
  - constructor.
  - intros t x us ts xs vs W IHt _ IHs. constructor; [|exact IHs]. split; [now exists us|exact IHt].
Qed.
End Table.
End Terms.
