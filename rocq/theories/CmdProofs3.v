(** Attributes and parameters as relations. *)
From Coq Require Import String ZArith List Bool Lia.
From Verif Require Import Base Kind Ints Str Literal Arity Term TermProofs Match Eval ListOps Typing Build Scope Lexer Parse Check
  SpecRead SpecCmd FrontProofs CheckProofs ReadProofs CmdProofs CmdProofs2.
Import ListNotations.
Open Scope Z_scope.

Lemma table_in A (t : list (text * A)) : NoDup (map fst t) -> forall w a, table_find t w = Some a <-> In (w, a) t.
Proof.
  induction t as [|[n b] t IH]; intros N w a; [split; [discriminate | intros []]|]. cbn [map fst] in N. inversion N as [|? ? N1 N2]; subst.
  cbn [table_find]. destruct (text_eqb n w) eqn:E.
  - apply text_eqb_eq in E. subst n. split; [intros H; injection H as ->; now left|]. intros [H|H]; [now injection H as ->|].
    exfalso. apply N1. change w with (fst (w, a)). now apply in_map.
  - rewrite (IH N2). split; [now right|]. intros [H|H]; [|exact H]. injection H as -> _. rewrite (proj2 (text_eqb_eq w w) eq_refl) in E. discriminate E.
Qed.
Lemma table_out A (t : list (text * A)) w : table_find t w = None <-> ~ In w (map fst t).
Proof.
  induction t as [|[n b] t IH]; [split; [intros _ [] | reflexivity]|]. cbn [table_find map fst In]. destruct (text_eqb n w) eqn:E.
  - apply text_eqb_eq in E. subst n. split; [discriminate | intros H; exfalso; auto].
  - rewrite IH. split; [|auto]. intros H [K|K]; [|auto]. subst n. rewrite (proj2 (text_eqb_eq w w) eq_refl) in E. discriminate E.
Qed.
Definition nodupb (l : list text) : bool := (fix go l := match l with [] => true | x :: l' => negb (existsb (text_eqb x) l') && go l' end) l.
Lemma nodupb_ok l : nodupb l = true -> NoDup l.
Proof.
  induction l as [|x l IH]; intros H; [constructor|]. cbn in H. apply andb_prop in H. destruct H as [H1 H2]. constructor; [|now apply IH].
  intros I. apply negb_true_iff in H1. assert (existsb (text_eqb x) l = true); [|congruence]. apply existsb_exists. exists x. split; [exact I | now apply text_eqb_eq].
Qed.
Lemma attr_words_eq : strToAttr = attribute_words. Proof. reflexivity. Qed.
Lemma classes_eq : strToLiteralKind = literal_classes. Proof. reflexivity. Qed.
Lemma commands_eq r : commandTable r = command_words r. Proof. destruct r; reflexivity. Qed.
Lemma attr_find w a : table_find strToAttr w = Some a <-> In (w, a) attribute_words.
Proof. rewrite attr_words_eq. apply table_in. apply nodupb_ok. reflexivity. Qed.
Lemma class_find w a : table_find strToLiteralKind w = Some a <-> In (w, a) literal_classes.
Proof. rewrite classes_eq. apply table_in. apply nodupb_ok. reflexivity. Qed.
Lemma command_find r w a : table_find (commandTable r) w = Some a <-> In (w, a) (command_words r).
Proof. rewrite commands_eq. apply table_in. apply nodupb_ok. destruct r; reflexivity. Qed.

Section Parts.
Variable G : config.
Variable sig : bool.
Hypothesis HC : forall n t, g_varinfo G (g_bvar G n t) = Some (n, t).
Notation reads := (SpecRead.reads G sig).
Notation applied := (SpecRead.applied G).
Notation of_type := (SpecRead.of_type G).
Notation pe := (parseExpr G sig (g_fuel G)).
Notation p_pe := (p_pe G sig HC).

(** ** Argument types of programs *)
Lemma p_argType d : parses CO (S d) (parseType G pe true false) (r_item (arg_type G sig)) (fun _ => CF) (fun _ => S d).
Proof.
  intros l s i l' T. destruct (at_next _ _ _ _ _ T) as (t & w & l1 & i1 & N & K & W & U). unfold parseType.
  rewrite (mbind_at _ _ _ _ _ _ _ (next_at l s t l1 N)).
  assert (PL : forall l0, at_in CR (S d) l0 i l' -> match i with (x :: _) :: _ => quote_form x = false | _ => True end ->
    (forall a p, parseTypeBody G pe false (l0, s) = Ok (a, p) -> exists l2 s2 i2, p = (l2, s2) /\ r_item (arg_type G sig) s i a s2 i2 /\ at_in CF (S d) l2 i2 l') /\
    (forall a s2 i2, r_item (arg_type G sig) s i a s2 i2 -> parseTypeBody G pe false (l0, s) = Fuel \/ exists l2, parseTypeBody G pe false (l0, s) = Ok (a, (l2, s2)) /\ at_in CF (S d) l2 i2 l')).
  { intros l0 V Q. destruct (p_typeBody G sig HC CR false d l0 s i l' V) as [H1 H2]. split.
    - intros a p X. destruct (H1 a p X) as (l2 & s2 & i2 & -> & (x & xs & i' & -> & Y & ->) & Z). exists l2, s2, (xs :: i'). split; [reflexivity|].
      split; [|exact Z]. exists x, xs, i'. split; [reflexivity|]. split; [now apply gt_type | reflexivity].
    - intros a s2 i2 (x & xs & i' & -> & Y & ->). apply H2. exists x, xs, i'. split; [reflexivity|]. split; [|reflexivity].
      inversion Y; subst; [assumption|]. cbn in Q. discriminate Q. }
  destruct (token_eqb t T_LPAREN) eqn:E.
  - apply token_eqb_eq in E. subst t. inversion K as [|ys xs i0 E1 E2|]; subst; [discriminate|]. cbn [down depth_after] in U.
    destruct (at_next _ _ _ _ _ U) as (t2 & w2 & l2 & i2 & N2 & K2 & W2 & U2).
    rewrite (mbind_at _ _ _ _ _ _ _ (next_at l1 s t2 l2 N2)). rewrite (mbind_at _ _ _ _ _ _ _ (text_at l2 s)).
    destruct (token_eqb t2 T_SYMBOL && text_eqb (tokenStr l2) (txt "eo::quote")) eqn:Q.
    + apply andb_prop in Q. destruct Q as [Q1 Q2]. apply token_eqb_eq in Q1. subst t2. apply text_eqb_eq in Q2. rewrite (W2 eq_refl) in Q2. subst w2.
      inversion K2 as [? ? zs ? _ _ E1| |]; subst. cbn [down depth_after] in U2.
      assert (H : parses CF (S (S d)) (let! t := pe in if kind_eqb (tkind t) K_PARAM then eat T_RPAREN ;; mret (Node K_QUOTE_TYPE [t]) else merr)
        (fun s i a s1 i1 => exists x p xs i', i = [x] :: xs :: i' /\ i1 = xs :: i' /\ reads s x p s1 /\ tkind p = K_PARAM /\ a = Node K_QUOTE_TYPE [p]) (fun _ => CF) (fun _ => S d)).
      { eapply parses_iff; [eapply p_bind; [apply p_pe|]; intros p; apply p_if;
          [eapply p_bind; [apply p_close|]; intros ?; apply p_ret | apply p_err]|].
        intros s0 i a s1 i1 D. split.
        - intros (p & s2 & i2 & (x & xs0 & i' & -> & R & ->) & [[KP (u & s3 & i3 & (-> & X) & -> & -> & ->)]|[_ []]]). injection X as -> ->.
          destruct i3 as [|xs1 i3]; [discriminate D|]. apply kind_eqb_eq in KP. exists x, p, xs1, i3. auto.
        - intros (x & p & xs0 & i' & -> & -> & R & KP & ->). exists p, s1, ([] :: xs0 :: i'). split; [exists x, [], (xs0 :: i'); auto|]. left.
          split; [now apply kind_eqb_eq|]. exists tt, s1, (xs0 :: i'). auto. }
      destruct (H l2 s _ l' U2) as [H1 H2]. split.
      * intros a p X. destruct (H1 a p X) as (l3 & s3 & i3 & -> & (x & q & xs1 & i' & E3 & -> & R & KP & ->) & Z). injection E3 as -> -> ->.
        exists l3, s3, (xs1 :: i'). split; [reflexivity|]. split; [|exact Z]. eexists _, _, _. split; [reflexivity|]. split; [now apply gt_quote | reflexivity].
      * intros a s3 i3 (x & xs1 & i' & E3 & Y & ->). injection E3 as <- <- <-. apply H2. inversion Y as [? ? ? Q|x0 p ? R KP]; subst.
        -- discriminate Q.
        -- exists x0, p, xs, i0. auto.
    + rewrite (mbind_at _ _ _ _ _ _ _ (reinsert_at t2 l2 s)). rewrite (mbind_at _ _ _ _ _ _ _ (reinsert_at T_LPAREN _ s)). apply PL.
      * destruct (at_put _ _ _ _ _ _ _ _ _ U (or_introl eq_refl) N2 K2) as [V (l3 & F & _)]. destruct V as [_ _ _ H]. destruct T as [D P C _].
        constructor; [exact D | exact P | right; right; exists t2; cbn [reinsertToken l_peeked]; now rewrite F|].
        cbn [iwords flat_map words app]. rewrite <- !app_assoc. cbn [app].
        apply shows_reinsert; [discriminate|]. cbn [iwords] in H. exact H.
      * inversion K2; subst; try reflexivity. cbn [quote_form]. destruct t2; try reflexivity. rewrite <- (W2 eq_refl). exact Q.
  - rewrite (mbind_at _ _ _ _ _ _ _ (reinsert_at t l1 s)). apply PL.
    + destruct (at_put _ _ _ _ _ _ _ _ _ T (or_intror eq_refl) N K) as [V _]. now apply (at_le CO).
    + inversion K; subst; try exact I; [reflexivity | discriminate E].
Qed.
Lemma p_argTypes c d : parses c (S d) (parseTypeList G pe true) (r_item (list_in (arg_type G sig))) (fun _ => CF) (fun _ => S d).
Proof. apply p_listOf. apply p_argType. Qed.

(** ** Lists of lists *)
Lemma p_close_o c d : parses c (S d) (eat T_RPAREN) (fun s i _ s1 i1 => s1 = s /\ i = [] :: i1) (fun _ => CO) (fun _ => d).
Proof. apply (parses_le _ c c (S d) _ _ (fun _ => CF)); [now destruct c | reflexivity | apply p_close]. Qed.
Definition cbody {S0 C : Type} (m : S0 -> M (S0 + C)) (fin : S0 -> C) (acc : S0) : M (S0 + C) :=
  let! more := eatChoice T_LPAREN T_RPAREN in if more then m acc else mret (inr (fin acc)).
Definition r_inner {S0 B C : Type} (R : st -> sx -> B -> st -> Prop) (add : S0 -> B -> S0) (acc : S0) : rel (S0 + C) :=
  fun s i r s1 i1 => exists ys b, i = ys :: i1 /\ R s (XL ys) b s1 /\ r = inl (add acc b).
Definition lists_only {B} (R : st -> sx -> B -> st -> Prop) : Prop := forall s x b s1, R s x b s1 -> exists ys, x = XL ys.
Lemma p_cloop {S0 B C : Type} (m : S0 -> M (S0 + C)) R (add : S0 -> B -> S0) (fin : S0 -> C) d : lists_only R ->
  (forall acc, parses CF (S (S (S d))) (m acc) (r_inner R add acc) (fun _ => CO) (fun _ => S (S d))) ->
  forall acc, parses CO (S (S d)) (mloop (g_fuel G) (cbody m fin) acc)
    (fun s i r s1 i1 => exists bs, r_items R s i bs s1 i1 /\ r = fin (fold_left add bs acc)) (fun _ => CF) (fun _ => S d).
Proof.
  intros LO H acc. eapply parses_iff; [apply (p_loop _ _ CO (S (S d)) (g_fuel G) (cbody m fin)
    (fun acc s i r s1 i1 => (exists x xs i' b, i = (x :: xs) :: i' /\ i1 = xs :: i' /\ R s x b s1 /\ r = inl (add acc b)) \/ (i = [] :: i1 /\ s1 = s /\ r = inr (fin acc)))
    (fun _ => CF) (fun _ => S d))|].
  - clear acc. intros acc l s i l' T. unfold cbody. destruct (p_choice CO (S d) l s i l' T) as [C1 C2]. destruct i as [|[|x xs] i].
    + exfalso. destruct T as [D _ _ _]. discriminate D.
    + destruct (at_close _ _ _ _ _ T) as (l1 & N & U). assert (E : eatChoice T_LPAREN T_RPAREN (l, s) = Ok (false, (l1, s))) by (now rewrite (choice_at _ _ _ _ _ _ N)).
      rewrite (mbind_at _ _ _ _ _ _ _ E). split.
      * intros a p X. injection X as <- <-. exists l1, s, i. auto 8.
      * intros a s1 i1 [(x & xs & i' & b & X & _)|(X & -> & ->)]; [discriminate X|]. injection X as <-. right. exists l1. auto.
    + destruct x as [k w|ys].
      * destruct (at_word _ _ _ _ _ _ _ _ T) as (l1 & N & W & U & K & _). assert (E : eatChoice T_LPAREN T_RPAREN (l, s) = Err).
        { rewrite (choice_at _ _ _ _ _ _ N). destruct k; try discriminate K; reflexivity. }
        split; [intros a p X; unfold mbind in X; rewrite E in X; discriminate X|]. intros a s1 i1 [(x & xs0 & i' & b & X & _ & Y & _)|(X & _)]; [|discriminate X].
        injection X as <- <- <-. destruct (LO _ _ _ _ Y) as (ys & Z). discriminate Z.
      * destruct (at_open _ _ _ _ _ _ _ T) as (l1 & N & U). assert (E : eatChoice T_LPAREN T_RPAREN (l, s) = Ok (true, (l1, s))) by (now rewrite (choice_at _ _ _ _ _ _ N)).
        rewrite (mbind_at _ _ _ _ _ _ _ E). cbn [down] in U. destruct (H acc l1 s _ l' U) as [H1 H2]. split.
        -- intros a p X. destruct (H1 a p X) as (l2 & s2 & i2 & -> & (zs & b & E2 & Y & ->) & Z). injection E2 as <- <-.
           exists l2, s2, (xs :: i). split; [reflexivity|]. split; [|exact Z]. left. exists (XL ys), xs, i, b. auto.
        -- intros a s2 i2 [(x & xs0 & i' & b & X & -> & Y & ->)|(X & _)]; [|discriminate X]. injection X as <- <- <-. apply H2. exists ys, b. auto.
  - intros s i a s1 i1 _. cbv beta. rewrite (loops_items R add fin); [reflexivity|]. intros; reflexivity.
Qed.
Lemma fold_map A B (f : A -> B) l acc : fold_left (fun acc b => f b :: acc) l acc = rev (map f l) ++ acc.
Proof. revert acc. induction l as [|x l IH]; intros acc; [reflexivity|]. cbn [fold_left map rev]. rewrite IH, <- app_assoc. reflexivity. Qed.
Lemma p_pairs c d : parses c (S d) (parseExprPairList G pe) (r_item (fun s x r s1 => exists ps, list_in (pair_in G sig) s x ps s1 /\ r = map tuple ps)) (fun _ => CF) (fun _ => S d).
Proof.
  apply p_any. eapply parses_iff; [eapply p_bind; [apply p_open|]; intros u0;
    apply (p_cloop (fun acc => let! t1 := pe in let! t2 := pe in eat T_RPAREN ;; mret (inl (Node K_TUPLE [t1; t2] :: acc)))
      (pair_in G sig) (fun acc b => tuple b :: acc) (@rev term) d)|].
  - intros s x b s1 H. inversion H; subst. eauto.
  - intros acc. eapply parses_iff; [eapply p_bind; [apply p_pe|]; intros a;
      eapply p_bind; [apply p_pe|]; intros b; eapply p_bind; [apply p_close_o|]; intros ?; apply p_ret|].
    intros s i r s1 i1 _. split.
    + intros (a & s2 & i2 & (x & xs & i' & -> & R & ->) & b & s3 & i3 & (y & ys & i'' & E & R2 & ->) & u & s4 & i4 & (-> & E2) & -> & -> & ->).
      injection E as -> ->. injection E2 as -> ->. exists [x; y], (a, b). split; [reflexivity|]. split; [econstructor; eassumption | reflexivity].
    + intros (ys & b & -> & H & ->). inversion H as [x a s2 y b2 s3 R1 R2]; subst. exists a, s2, ([y] :: i1). split; [exists x, [y], i1; auto|].
      exists b2, s1, ([] :: i1). split; [exists y, [], i1; auto|]. exists tt, s1, i1. auto.
  - intros s i a s1 i1 _. split.
    + intros (u & s2 & i2 & (-> & ys & xs & i' & -> & ->) & bs & (zs & E & H) & ->). injection E as <- <-. exists (XL ys), xs, i'. split; [reflexivity|].
      split; [|reflexivity]. exists bs. split; [exists ys; auto|]. now rewrite fold_map, app_nil_r, rev_involutive.
    + intros (x & xs & i' & -> & (ps & (ys & -> & H) & ->) & ->). exists tt, s, (ys :: xs :: i'). split; [split; [reflexivity | eauto 6]|]. exists ps.
      split; [exists ys; auto|]. now rewrite fold_map, app_nil_r, rev_involutive.
Qed.
Lemma p_pair d : parses CF (S d) (parseExprPair pe) (r_item (fun s x r s1 => exists p, pair_in G sig s x p s1 /\ r = tuple p)) (fun _ => CF) (fun _ => S d).
Proof.
  eapply parses_iff; [eapply p_bind; [apply p_open|]; intros u0; eapply p_bind; [apply p_pe|]; intros a;
      eapply p_bind; [apply p_pe|]; intros b; eapply p_bind; [apply p_close|]; intros ?; apply p_ret|].
  intros s i r s1 i1 _. split.
  - intros (u & s0 & i0 & (-> & zs & xs0 & i' & -> & ->) & a & s2 & i2 & (x & xs & i'' & E0 & R & ->) & b & s3 & i3 & (y & ys & i3' & E & R2 & ->) & u2 & s4 & i4 & (-> & E2) & -> & -> & ->).
    injection E0 as -> <-. injection E as -> <-. injection E2 as -> <-. exists (XL [x; y]), xs0, i'. split; [reflexivity|]. split; [|reflexivity].
    exists (a, b). split; [econstructor; eassumption | reflexivity].
  - intros (z & zs & i' & -> & (p & H & ->) & ->). inversion H as [x a s2 y b2 s3 R1 R2]; subst.
    exists tt, s, ([x; y] :: zs :: i'). split; [split; [reflexivity | eauto 6]|]. exists a, s2, ([y] :: zs :: i'). split; [exists x, [y], (zs :: i'); auto|].
    exists b2, s1, ([] :: zs :: i'). split; [exists y, [], (zs :: i'); auto|]. exists tt, s1, (zs :: i'). auto.
Qed.
Lemma p_class c d : parses c (S d) parseLiteralKind (r_item (pure (fun x k => exists n, named x n /\ In (n, k) literal_classes))) (fun _ => CF) (fun _ => S d).
Proof.
  eapply item_iff; [eapply item_then; [apply p_symbol|]; intros n; apply only_option; [intros k; apply only_ret | apply only_err]|].
  intros s x k s1. split.
  - intros (n & s2 & (N & ->) & [(k0 & E & -> & ->)|[_ []]]). split; [|reflexivity]. exists n. split; [exact N | now apply class_find].
  - intros ((n & N & I) & ->). exists n, s. split; [split; auto|]. left. exists k. apply class_find in I. auto.
Qed.

(** ** Attributes *)
Definition skips (s : st) (i : inp) (s1 : st) (i1 : inp) : Prop :=
  s1 = s /\ ((i1 = i /\ match i with (x :: _) :: _ => is_keyword x = true | _ => True end) \/
             exists x xs i', i = (x :: xs) :: i' /\ is_keyword x = false /\ i1 = xs :: i').
Lemma at_symbolic c d l s x xs i l' : at_in c d l ((x :: xs) :: i) l' ->
  exists l1, (parseSymbolicExpr G (l, s) = Fuel \/ parseSymbolicExpr G (l, s) = Ok (tt, (l1, s))) /\ at_in CF d l1 (xs :: i) l'.
Proof.
  intros [D P C H]. inversion P as [|? ? P1 P2]; subst. inversion P1 as [|? ? P3 P4]; subst.
  apply iwords_cons in H. destruct H as (l1 & H1 & H). exists l1. split; [exact (symbolic_at G x l l1 s P3 H1)|].
  constructor; [reflexivity | now constructor | | exact H]. apply (words_fresh x l l1 P3); [|exact H1]. exact (cl_le c CR l ltac:(now destruct c) C).
Qed.
Lemma p_skip d : parses CF (S d) (let! tok := peek in if token_eqb tok T_KEYWORD || token_eqb tok T_RPAREN then mret tt else parseSymbolicExpr G)
  (fun s i _ s1 i1 => skips s i s1 i1) (fun _ => CO) (fun _ => S d).
Proof.
  intros l s i l' T. destruct (at_peek d l s i l' T) as (l1 & E & N & U). rewrite (mbind_at _ _ _ _ _ _ _ E).
  destruct (token_eqb (first i) T_KEYWORD || token_eqb (first i) T_RPAREN) eqn:F.
  - assert (K : match i with (x :: _) :: _ => is_keyword x = true | _ => True end).
    { destruct i as [|[|[k w|ys] xs] i]; try exact I; [|discriminate F]. cbn [first is_keyword] in *. destruct (at_word _ _ _ _ _ _ _ _ T) as (l2 & _ & _ & _ & K & _).
      destruct k; try discriminate F; [reflexivity | discriminate K]. }
    split.
    + intros [] p X. injection X as <-. exists (reinsertToken (first i) l1), s, i. split; [reflexivity|]. split; [|exact U]. split; [reflexivity|]. left. auto.
    + intros [] s1 i1 (-> & [(-> & _)|(x & xs & i' & -> & Q & _)]); [right; exists (reinsertToken (first i) l1); auto|].
      rewrite K in Q. discriminate Q.
  - assert (K : exists x xs i', i = (x :: xs) :: i' /\ is_keyword x = false).
    { destruct i as [|[|[k w|ys] xs] i]; try discriminate F; [|eauto]. exists (XT k w), xs, i. split; [reflexivity|]. cbn [first is_keyword] in *. destruct k; try reflexivity. discriminate F. }
    destruct K as (x & xs & i' & -> & K). destruct (at_symbolic _ _ _ s _ _ _ _ U) as (l2 & S2 & V). split.
    + intros [] p X. destruct S2 as [S2|S2]; rewrite S2 in X; [discriminate X|]. injection X as <-. exists l2, s, (xs :: i'). split; [reflexivity|].
      split; [|now apply (at_le CF)]. split; [reflexivity|]. right. exists x, xs, i'. auto.
    + intros [] s1 i1 (-> & [(-> & Q)|(x0 & xs0 & i0 & Q & _ & ->)]); [rewrite K in Q; discriminate Q|]. injection Q as <- <- <-.
      destruct S2 as [S2|S2]; [now left|]. right. exists l2. split; [exact S2 | now apply (at_le CF)].
Qed.
Lemma p_kw {A : Type} c d (f : text -> M A) (g : M A) F H c2 d2 : (forall w, parses CF (S d) (f w) (F w) c2 d2) -> parses CF d g H c2 d2 ->
  parses c (S d) (let! more := eatChoice T_KEYWORD T_RPAREN in if more then let! key := tokText in f key else g)
    (fun s i a s1 i1 => (exists w xs i', i = (XT T_KEYWORD w :: xs) :: i' /\ F w s (xs :: i') a s1 i1) \/ (exists i', i = [] :: i' /\ H s i' a s1 i1)) c2 d2.
Proof.
  intros PF PG l s i l' T. destruct i as [|[|[k w|ys] xs] i].
  - exfalso. destruct T as [D _ _ _]. discriminate D.
  - destruct (at_close _ _ _ _ _ T) as (l1 & N & U). assert (E : eatChoice T_KEYWORD T_RPAREN (l, s) = Ok (false, (l1, s))) by (now rewrite (choice_at _ _ _ _ _ _ N)).
    rewrite (mbind_at _ _ _ _ _ _ _ E). destruct (PG l1 s i l' U) as [H1 H2]. split.
    + intros a p X. destruct (H1 a p X) as (l2 & s2 & i2 & -> & Y & Z). exists l2, s2, i2. eauto 8.
    + intros a s1 i1 [(? & ? & ? & X & _)|(i' & X & Y)]; [discriminate X|]. injection X as <-. now apply H2.
  - destruct (at_word _ _ _ _ _ _ _ _ T) as (l1 & N & W & U & K & _). destruct (token_eqb k T_KEYWORD) eqn:Q.
    + apply token_eqb_eq in Q. subst k. assert (E : eatChoice T_KEYWORD T_RPAREN (l, s) = Ok (true, (l1, s))) by (now rewrite (choice_at _ _ _ _ _ _ N)).
      rewrite (mbind_at _ _ _ _ _ _ _ E). rewrite (mbind_at _ _ _ _ _ _ _ (text_at l1 s)). rewrite W. destruct (PF w l1 s _ l' U) as [H1 H2]. split.
      * intros a p X. destruct (H1 a p X) as (l2 & s2 & i2 & -> & Y & Z). exists l2, s2, i2. split; [reflexivity|]. split; [|exact Z]. left. eauto.
      * intros a s1 i1 [(w0 & xs0 & i0 & X & Y)|(i' & X & _)]; [|discriminate X]. injection X as <- <- <-. now apply H2.
    + assert (E : eatChoice T_KEYWORD T_RPAREN (l, s) = Err). { rewrite (choice_at _ _ _ _ _ _ N). rewrite Q. destruct k; try discriminate K; reflexivity. }
      unfold mbind. rewrite E. split; [intros a p X; discriminate X|]. intros a s1 i1 [(w0 & xs0 & i0 & X & Y)|(i' & X & _)]; [|discriminate X].
      injection X as -> _ _ _. discriminate Q.
  - destruct (at_open _ _ _ _ _ _ _ T) as (l1 & N & U). assert (E : eatChoice T_KEYWORD T_RPAREN (l, s) = Err) by (now rewrite (choice_at _ _ _ _ _ _ N)).
    unfold mbind. rewrite E. split; [intros a p X; discriminate X|]. intros a s1 i1 [(w0 & xs0 & i0 & X & Y)|(i' & X & _)]; discriminate X.
Qed.
Definition r_value (k of : kind) (e : term) (a : attr) : rel (option (option term)) := fun s i r s1 i1 =>
  match attr_form k of a with
  | Some NoArg => r = Some None /\ s1 = s /\ i1 = i
  | Some TermArg => exists v, r = Some (Some v) /\ r_item reads s i v s1 i1
  | Some PairArg => exists p, r = Some (Some (tuple p)) /\ r_item (pair_in G sig) s i p s1 i1
  | Some SyntaxArg => r = Some None /\ exists c, r_item (pure (fun x k => exists n, named x n /\ In (n, k) literal_classes)) s i c s1 i1
  | Some TypeArg => exists v, r = Some (Some v) /\ r_item (fun s x v s1 => reads s x v s1 /\ of_type s1 e v) s i v s1 i1
  | Some SorryMark => r = Some None /\ s1 = logged (EvSorry e) (set_sorry (e :: s_sorry s) s) /\ i1 = i
  | Some ListMark | None => r = None /\ s1 = s /\ i1 = i
  end.
Lemma v_ret d (v : option (option term)) : parses CF (S d) (mret v) (fun s i r s1 i1 => r = v /\ s1 = s /\ i1 = i) (fun _ => CF) (fun _ => S d).
Proof. apply p_ret. Qed.
Lemma v_term d : parses CF (S d) (let! v := pe in mret (Some (Some v))) (fun s i r s1 i1 => exists v, r = Some (Some v) /\ r_item reads s i v s1 i1) (fun _ => CF) (fun _ => S d).
Proof.
  eapply parses_iff; [eapply p_bind; [apply p_pe|]; intros v; apply p_ret|]. intros s i r s1 i1 _. split.
  - intros (v & s2 & i2 & H & -> & -> & ->). eauto.
  - intros (v & -> & H). exists v, s1, i1. auto.
Qed.
Lemma v_pair d : parses CF (S d) (let! v := parseExprPair pe in mret (Some (Some v)))
  (fun s i r s1 i1 => exists p, r = Some (Some (tuple p)) /\ r_item (pair_in G sig) s i p s1 i1) (fun _ => CF) (fun _ => S d).
Proof.
  eapply parses_iff; [eapply p_bind; [apply p_pair|]; intros v; apply p_ret|]. intros s i r s1 i1 _. split.
  - intros (v & s2 & i2 & (x & xs & i' & -> & (p & H & ->) & ->) & -> & -> & ->). exists p. split; [reflexivity|]. exists x, xs, i'. auto.
  - intros (p & -> & (x & xs & i' & -> & H & ->)). exists (tuple p), s1, (xs :: i'). split; [|auto]. exists x, xs, i'. eauto.
Qed.
Lemma v_syntax d : parses CF (S d) (let! _ := parseLiteralKind in mret (Some None))
  (fun s i (r : option (option term)) s1 i1 => r = Some None /\ exists c, r_item (pure (fun x k => exists n, named x n /\ In (n, k) literal_classes)) s i c s1 i1) (fun _ => CF) (fun _ => S d).
Proof.
  eapply parses_iff; [eapply p_bind; [apply p_class|]; intros v; apply p_ret|]. intros s i r s1 i1 _. split.
  - intros (v & s2 & i2 & H & -> & -> & ->). eauto.
  - intros (-> & v & H). exists v, s1, i1. auto.
Qed.
Lemma v_type d e : parses CF (S d) (let! v := pe in typeCheckAs G e v ;; mret (Some (Some v)))
  (fun s i r s1 i1 => exists v, r = Some (Some v) /\ r_item (fun s x v s1 => reads s x v s1 /\ of_type s1 e v) s i v s1 i1) (fun _ => CF) (fun _ => S d).
Proof.
  eapply parses_iff; [eapply item_then; [apply p_pe|]; intros v; apply only_bind; [apply only_typeAs|]; intros ?; apply only_ret|]. intros s i r s1 i1 _. split.
  - intros (x & xs & i' & -> & (v & s2 & R & u & s3 & (O & ->) & -> & ->) & ->). exists v. split; [reflexivity|]. exists x, xs, i'. auto.
  - intros (v & -> & x & xs & i' & -> & (R & O) & ->). exists x, xs, i'. split; [reflexivity|]. split; [|reflexivity]. exists v, s1. split; [exact R|]. exists tt, s1. auto.
Qed.
Lemma v_sorry d e : parses CF (S d) (mupd (fun s => set_sorry (e :: s_sorry s) s) ;; logEvent (EvSorry e) ;; mret (Some None))
  (fun s i (r : option (option term)) s1 i1 => r = Some None /\ s1 = logged (EvSorry e) (set_sorry (e :: s_sorry s) s) /\ i1 = i) (fun _ => CF) (fun _ => S d).
Proof.
  eapply parses_iff; [apply p_only; apply only_bind; [apply only_upd|]; intros ?; apply only_bind; [apply only_log|]; intros ?; apply only_ret|]. intros s i r s1 i1 _. split.
  - intros H. unp. subst. auto.
  - intros (-> & -> & ->). split; [|reflexivity]. exists tt. eexists. split; [reflexivity|]. exists tt. eexists. split; [reflexivity|]. auto.
Qed.
Lemma p_value k of e a d : parses CF (S d) (parseAttrValue G pe k e of a) (r_value k of e a) (fun _ => CF) (fun _ => S d).
Proof.
  destruct k; try apply v_ret.
  all: try (destruct a; first [apply v_ret | apply v_term | apply v_pair | apply v_type | apply v_sorry]).
  destruct a; try (destruct of; apply v_ret); destruct of; first [apply v_ret | apply v_term | apply v_syntax].
Qed.

Notation attrmap := (list (attr * option term)).
Definition ebody (k of : kind) (e : term) (acc : attrmap) : M (attrmap + attrmap) :=
  let! more := eatChoice T_KEYWORD T_RPAREN in
  if more then
    let! key := tokText in
    match table_find strToAttr key with
    | Some a =>
        if kind_eqb k K_PARAM && attr_eqb a A_LIST then
          let! _ := markM e a None in mret (inl acc)
        else
          let! v := parseAttrValue G pe k e of a in
          match v with
          | Some v => mret (inl ((a, v) :: acc))
          | None => merr
          end
    | None =>
        let! tok := peek in
        (if token_eqb tok T_KEYWORD || token_eqb tok T_RPAREN then mret tt else parseSymbolicExpr G) ;;
        mret (inl ((A_NONE, None) :: acc))
    end
  else mret (inr (rev acc)).
Definition r_ebody (k of : kind) (e : term) (acc : attrmap) : rel (attrmap + attrmap) := fun s i r s1 i1 =>
  (exists w xs i', i = (XT T_KEYWORD w :: xs) :: i' /\
    ((~ In w (map fst attribute_words) /\ r = inl ((A_NONE, None) :: acc) /\ skips s (xs :: i') s1 i1) \/
     (In (w, A_LIST) attribute_words /\ k = K_PARAM /\ marked e A_LIST None s s1 /\ i1 = xs :: i' /\ r = inl acc) \/
     (exists a v, In (w, a) attribute_words /\ ~ (k = K_PARAM /\ a = A_LIST) /\ r_value k of e a s (xs :: i') (Some v) s1 i1 /\ r = inl ((a, v) :: acc)))) \/
  (i = [] :: i1 /\ s1 = s /\ r = inr (rev acc)).
Lemma p_mark_then A v a ct (r : A) c d : parses c d (let! _ := markM v a ct in mret r) (fun s i b s1 i1 => b = r /\ marked v a ct s s1 /\ i1 = i) (fun _ => c) (fun _ => d).
Proof.
  eapply parses_ext; [intros p; transitivity (mbind (let! _ := markM v a ct in mret tt) (fun _ => mret r) p); [|reflexivity]; rewrite mbind_assoc; apply mbind_ext; intros; reflexivity|].
  eapply parses_iff; [apply p_only; apply only_bind; [apply only_mark|]; intros ?; apply only_ret|]. intros s i b s1 i1 _. split.
  - intros H. unp. subst. auto.
  - intros (-> & H & ->). split; [|reflexivity]. exists tt, s1. auto.
Qed.
Lemma parses_o A c d (m : M A) R c2 d2 : parses c d m R (fun _ => CF) d2 -> parses c d m R c2 d2.
Proof. apply parses_le; [now destruct c | reflexivity]. Qed.
Lemma attr_list k a : (kind_eqb k K_PARAM && attr_eqb a A_LIST) = true <-> k = K_PARAM /\ a = A_LIST.
Proof. rewrite andb_true_iff. rewrite kind_eqb_eq, attr_eqb_eq. reflexivity. Qed.
Lemma p_ebody k of e acc d : parses CO (S d) (ebody k of e acc) (r_ebody k of e acc)
  (fun r => match r with inl _ => CO | inr _ => CF end) (fun r => match r with inl _ => S d | inr _ => d end).
Proof.
  eapply parses_iff; [apply p_kw with
    (F := fun w s i r s1 i1 => (exists a, table_find strToAttr w = Some a /\
         ((kind_eqb k K_PARAM && attr_eqb a A_LIST) = true /\ (r = inl acc /\ marked e a None s s1 /\ i1 = i) \/
          (kind_eqb k K_PARAM && attr_eqb a A_LIST) = false /\ exists v, r = inl ((a, v) :: acc) /\ r_value k of e a s i (Some v) s1 i1)) \/
       table_find strToAttr w = None /\ (r = inl ((A_NONE, None) :: acc) /\ skips s i s1 i1))
    (H := fun s i r s1 i1 => r = inr (rev acc) /\ s1 = s /\ i1 = i)|].
  - intros w. apply p_option; [intros a|].
    + apply p_if.
      * intros l s i l' T. destruct (p_mark_then (attrmap + attrmap) e a None (inl acc) CF (S d) l s i l' T) as [H1 H2]. split.
        -- intros r p X. destruct (H1 r p X) as (l1 & s1 & i1 & -> & Y & Z). exists l1, s1, i1. split; [reflexivity|]. split; [exact Y|]. destruct Y as (-> & _). now apply (at_le CF).
        -- intros r s1 i1 Y. destruct (H2 r s1 i1 Y) as [X|(l1 & X & Z)]; [now left|]. right. exists l1. split; [exact X|]. destruct Y as (-> & _). now apply (at_le CF).
      * intros l s i l' T. destruct (p_value k of e a d l s i l' T) as [H1 H2]. split.
        -- intros r p X. apply mbind_ok in X. destruct X as (v & p1 & X & Y). destruct (H1 v p1 X) as (l1 & s1 & i1 & -> & Y1 & Z). destruct v as [v|]; [|discriminate Y].
           injection Y as <- <-. exists l1, s1, i1. split; [reflexivity|]. split; [eauto | now apply (at_le CF)].
        -- intros r s1 i1 (v & -> & Y). destruct (H2 _ s1 i1 Y) as [X|(l1 & X & Z)]; [left; now apply mbind_fuel|]. right. exists l1. at_ X. split; [reflexivity | now apply (at_le CF)].
    + intros l s i l' T. destruct (p_skip d l s i l' T) as [H1 H2]. split.
      * intros r p X. rewrite <- mbind_assoc in X. apply mbind_ok in X. destruct X as ([] & p1 & X & Y). destruct (H1 tt p1 X) as (l1 & s1 & i1 & -> & Y1 & Z). injection Y as <- <-.
        exists l1, s1, i1. auto.
      * intros r s1 i1 (-> & Y). rewrite <- mbind_assoc. destruct (H2 tt s1 i1 Y) as [X|(l1 & X & Z)]; [left; now apply mbind_fuel|]. right. exists l1. at_ X. auto.
  - intros l s i l' T. destruct (p_ret _ CF d (inr (rev acc) : attrmap + attrmap) l s i l' T) as [H1 H2]. split.
    + intros r p X. destruct (H1 r p X) as (l1 & s1 & i1 & -> & (-> & -> & ->) & Z). exists l1, s, i. auto.
    + intros r s1 i1 (-> & -> & ->). destruct (H2 (inr (rev acc)) s i) as [X|(l1 & X & Z)]; [auto | now left|]. right. exists l1. auto.
  - intros s i r s1 i1 _. unfold r_ebody. split; (intros [(w & xs & i' & -> & H)|H]; [left; exists w, xs, i'; split; [reflexivity|] | right]).
    + destruct H as [(a & E & [(L & -> & M0 & ->)|(L & v & -> & V)])|(E & -> & Q)].
      * apply attr_list in L. destruct L as [-> ->]. apply attr_find in E. right. left. auto.
      * apply attr_find in E. right. right. exists a, v. split; [exact E|]. split; [|auto]. intros X. apply attr_list in X. rewrite X in L. discriminate L.
      * left. split; [now apply table_out in E; rewrite attr_words_eq in E | auto].
    + destruct H as (i' & -> & -> & -> & ->). auto.
    + destruct H as [(E & -> & Q)|[(E & -> & M0 & -> & ->)|(a & v & E & L & V & ->)]].
      * right. rewrite <- attr_words_eq in E. apply table_out in E. auto.
      * left. exists A_LIST. apply attr_find in E. split; [exact E|]. left. auto.
      * left. exists a. apply attr_find in E. split; [exact E|]. right. split; [|eauto]. destruct (kind_eqb k K_PARAM && attr_eqb a A_LIST) eqn:X; [|reflexivity].
        apply attr_list in X. now contradiction L.
    + destruct H as (-> & -> & ->). exists i1. auto.
Qed.
Lemma words_nodup w a b : In (w, a) attribute_words -> In (w, b) attribute_words -> b = a.
Proof. intros X Y. apply attr_find in X. apply attr_find in Y. congruence. Qed.
Lemma loops_attrs k of e acc s i r s1 i1 : loops (r_ebody k of e) acc s i r s1 i1 <-> exists as_ m, i = as_ :: i1 /\ attrs_in G sig k of e s as_ m s1 /\ r = rev acc ++ m.
Proof.
  split.
  - induction 1 as [acc s i a s1 i1 X|acc s i acc1 s1 i1 a s2 i2 X L (as_ & m & E & IH & ->)].
    + destruct X as [(w & xs & i' & _ & X)|(-> & -> & X)].
      * exfalso. destruct X as [(_ & X & _)|[(_ & _ & _ & _ & X)|(a0 & v & _ & _ & _ & X)]]; discriminate X.
      * injection X as ->. exists [], []. split; [reflexivity|]. split; [constructor | now rewrite app_nil_r].
    + destruct X as [(w & xs & i' & -> & X)|(_ & _ & X)]; [|discriminate X]. destruct X as [(O & X & -> & Q)|[(O & -> & M0 & -> & X)|(a0 & v & O & NL & V & X)]]; injection X as ->.
      * cbn [rev]. rewrite <- app_assoc. cbn [app]. destruct Q as [(Q1 & Q2)|(x & ys & i0 & Q1 & Q2 & Q3)].
        -- rewrite Q1 in E. injection E as -> ->. eexists _, _. split; [reflexivity|]. split; [|reflexivity]. now apply ai_key.
        -- injection Q1 as -> ->. rewrite Q3 in E. injection E as -> ->. eexists _, _. split; [reflexivity|]. split; [|reflexivity]. now apply ai_skip.
      * injection E as -> ->. eexists _, _. split; [reflexivity|]. split; [|reflexivity]. eapply ai_list; [exact O | reflexivity | exact M0 | exact IH].
      * cbn [rev]. rewrite <- app_assoc. cbn [app]. unfold r_value in V. destruct (attr_form k of a0) as [[]|] eqn:A; try (destruct V as (V & _); discriminate V).
        -- destruct V as (H & -> & ->). injection H as ->. injection E as -> ->. eexists _, _. split; [reflexivity|]. split; [|reflexivity]. now apply ai_none.
        -- destruct V as (x & H & y & ys & i0 & Y & H0 & ->). injection H as ->. injection Y as -> ->. injection E as -> ->. eexists _, _. split; [reflexivity|]. split; [|reflexivity]. eapply ai_term; eassumption.
        -- destruct V as (x & H & y & ys & i0 & Y & H0 & ->). injection H as ->. injection Y as -> ->. injection E as -> ->. eexists _, _. split; [reflexivity|]. split; [|reflexivity].
           destruct x as [v1 v2]. eapply ai_pair; eassumption.
        -- destruct V as (H & x & y & ys & i0 & Y & H0 & ->). injection H as ->. injection Y as -> ->. injection E as -> ->. destruct H0 as ((n & N1 & N2) & ->).
           eexists _, _. split; [reflexivity|]. split; [|reflexivity]. eapply ai_syntax; eassumption.
        -- destruct V as (x & H & y & ys & i0 & Y & (H0 & H1) & ->). injection H as ->. injection Y as -> ->. injection E as -> ->. eexists _, _. split; [reflexivity|]. split; [|reflexivity]. eapply ai_type; eassumption.
        -- destruct V as (H & -> & ->). injection H as ->. injection E as -> ->. eexists _, _. split; [reflexivity|]. split; [|reflexivity]. now apply ai_sorry.
  - intros (as_ & m & -> & H & ->). revert acc. induction H; intros acc.
    + apply lp_stop. right. rewrite app_nil_r. auto.
    + eapply lp_go; [left; exists w, xs, i1; split; [reflexivity|]; left; split; [assumption|]; split; [reflexivity|]; split; [reflexivity|]; left; split; [reflexivity | destruct xs; auto]|].
      specialize (IHattrs_in ((A_NONE, None) :: acc)). cbn [rev] in IHattrs_in. rewrite <- app_assoc in IHattrs_in. exact IHattrs_in.
    + eapply lp_go; [left; eexists w, _, i1; split; [reflexivity|]; left; split; [assumption|]; split; [reflexivity|]; split; [reflexivity|]; right; eexists _, _, _; split; [reflexivity|]; split; [assumption | reflexivity]|].
      specialize (IHattrs_in ((A_NONE, None) :: acc)). cbn [rev] in IHattrs_in. rewrite <- app_assoc in IHattrs_in. exact IHattrs_in.
    + assert (Q : k = K_PARAM /\ a = A_LIST). { clear - H0. destruct k, a; try discriminate H0; auto; destruct of; discriminate H0. }
      destruct Q as [-> ->]. eapply lp_go; [left; eexists w, _, i1; split; [reflexivity|]; right; left; eauto|]. apply IHattrs_in.
    + eapply lp_go; [left; eexists w, _, i1; split; [reflexivity|]; right; right; exists a, None; split; [assumption|]; split; [intros [-> ->]; discriminate H0|]; split; [unfold r_value; rewrite H0; auto | reflexivity]|].
      specialize (IHattrs_in ((a, None) :: acc)). cbn [rev] in IHattrs_in. rewrite <- app_assoc in IHattrs_in. exact IHattrs_in.
    + eapply lp_go; [left; eexists w, _, i1; split; [reflexivity|]; right; right; exists a, (Some v); split; [assumption|]; split; [intros [-> ->]; discriminate H0|]; split; [unfold r_value; rewrite H0; exists v; split; [reflexivity|]; eexists _, _, _; eauto | reflexivity]|].
      specialize (IHattrs_in ((a, Some v) :: acc)). cbn [rev] in IHattrs_in. rewrite <- app_assoc in IHattrs_in. exact IHattrs_in.
    + eapply lp_go; [left; eexists w, _, i1; split; [reflexivity|]; right; right; exists a, (Some (tuple (v1, v2))); split; [assumption|]; split; [intros [-> ->]; discriminate H0|]; split; [unfold r_value; rewrite H0; exists (v1, v2); split; [reflexivity|]; eexists _, _, _; eauto | reflexivity]|].
      specialize (IHattrs_in ((a, Some (tuple (v1, v2))) :: acc)). cbn [rev] in IHattrs_in. rewrite <- app_assoc in IHattrs_in. exact IHattrs_in.
    + eapply lp_go; [left; eexists w, _, i1; split; [reflexivity|]; right; right; exists a, None; split; [assumption|]; split; [intros [-> ->]; discriminate H0|]; split; [unfold r_value; rewrite H0; split; [reflexivity|]; exists c; eexists _, _, _; split; [reflexivity|]; split; [split; [eauto | reflexivity] | reflexivity] | reflexivity]|].
      specialize (IHattrs_in ((a, None) :: acc)). cbn [rev] in IHattrs_in. rewrite <- app_assoc in IHattrs_in. exact IHattrs_in.
    + eapply lp_go; [left; eexists w, _, i1; split; [reflexivity|]; right; right; exists a, (Some v); split; [assumption|]; split; [intros [-> ->]; discriminate H0|]; split; [unfold r_value; rewrite H0; exists v; split; [reflexivity|]; eexists _, _, _; eauto | reflexivity]|].
      specialize (IHattrs_in ((a, Some v) :: acc)). cbn [rev] in IHattrs_in. rewrite <- app_assoc in IHattrs_in. exact IHattrs_in.
    + eapply lp_go; [left; eexists w, _, i1; split; [reflexivity|]; right; right; exists a, None; split; [assumption|]; split; [intros [-> ->]; discriminate H0|]; split; [unfold r_value; rewrite H0; auto | reflexivity]|].
      specialize (IHattrs_in ((a, None) :: acc)). cbn [rev] in IHattrs_in. rewrite <- app_assoc in IHattrs_in. exact IHattrs_in.
Qed.
(** The closing parenthesis is put back. *)
Lemma p_unclose d : parses CF d (reinsert T_RPAREN) (fun s i _ s1 i1 => s1 = s /\ i1 = [] :: i) (fun _ => CO) (fun _ => S d).
Proof.
  intros l s i l' [D P C H].
  assert (T : at_in CO (S d) (reinsertToken T_RPAREN l) ([] :: i) l').
  { constructor; [cbn; now rewrite D | now constructor | right; exists T_RPAREN; cbn [reinsertToken l_peeked]; now rewrite C|]. cbn [iwords flat_map app]. now apply shows_reinsert. }
  split.
  - intros [] p X. rewrite reinsert_at in X. injection X as <-. exists (reinsertToken T_RPAREN l), s, ([] :: i). auto.
  - intros [] s1 i1 [-> ->]. right. exists (reinsertToken T_RPAREN l). split; [apply reinsert_at | exact T].
Qed.
Lemma p_attrs c k of e d : cle c CO = true -> parses c (S d) (parseAttributeList G pe k e of)
  (fun s i m s1 i1 => exists as_ i', i = as_ :: i' /\ attrs_in G sig k of e s as_ m s1 /\ i1 = [] :: i') (fun _ => CO) (fun _ => S d).
Proof.
  intros C. apply (parses_le _ CO c (S d) _ _ (fun _ => CO)); [exact C | reflexivity|].
  eapply parses_ext; [|eapply parses_iff; [eapply p_bind; [apply (p_loop _ _ CO (S d) (g_fuel G) (ebody k of e) (r_ebody k of e) (fun _ => CF) (fun _ => d)); intros acc; apply p_ebody|];
    intros m; eapply p_bind; [apply p_unclose|]; intros ?; apply p_ret|]].
  - intros p. unfold parseAttributeList. apply mbind_left. apply mloop_ext. intros acc q. unfold ebody. apply mbind_ext.
    intros [|] q1; [|reflexivity]. apply mbind_ext. intros key q2. destruct (table_find strToAttr key); reflexivity.
  - intros s i m s1 i1 _. split.
    + intros (m' & s2 & i2 & L & u & s3 & i3 & (-> & ->) & -> & -> & ->). apply loops_attrs in L. destruct L as (as_ & m & -> & H & ->). eauto.
    + intros (as_ & i' & -> & H & ->). exists m, s1, i'. split; [apply loops_attrs; eauto|]. exists tt, s1, ([] :: i'). auto.
Qed.
End Parts.
