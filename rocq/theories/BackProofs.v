(** Proofs that printed terms are read back. *)
From Coq Require Import String ZArith QArith List Bool Lia.
From Verif Require Import Base Kind Ints IntsProofs Str StrProofs Literal SpecLit LiteralProofs LiteralProofs2 Arity Term Match Eval ListOps Typing Build Scope Lexer SpecLex
  LexProofs LexProofs2 TermProofs Parse SpecRead SpecLocal Print SpecPrint PrintProofs PrintProofs2 PrintProofs3 PrintProofs4 PrintProofs5 SpecBack.
Import ListNotations.
Open Scope Z_scope.

(** * Trees and S-expressions *)
Section Spells.
Variables ll lt : bool.
(** A word that is a token in front of a delimiter. *)
Definition a_word (t : token) (w : text) : Prop :=
  paren t = false /\ t <> T_EOF /\ Forall (fun c => 0 < c < 255) w /\ forall rest, delimited rest -> lexeme ll lt t w rest.
Inductive spells : px -> sx -> Prop :=
| sp_word : forall t w, a_word t w -> spells (PA w) (XT t w)
| sp_list : forall xs ys, spells_list xs ys -> spells (PL xs) (XL ys)
with spells_list : list px -> list sx -> Prop :=
| sp_nil : spells_list [] []
| sp_cons : forall x y xs ys, spells x y -> spells_list xs ys -> spells_list (x :: xs) (y :: ys).
Scheme spells_mind := Minimality for spells Sort Prop
  with spells_list_mind := Minimality for spells_list Sort Prop.
Combined Scheme spells_minds from spells_mind, spells_list_mind.

Lemma cstr_pos w : Forall (fun c => 0 < c < 255) w -> cstr w = w.
Proof.
  intros F. apply cstr_id. intros I. rewrite Forall_forall in F. specialize (F _ I). lia.
Qed.
Lemma pos_plain w : Forall (fun c => 0 < c < 255) w -> plain w.
Proof. apply Forall_impl. intros c H. lia. Qed.

Definition at_rest (i : bool) (l : lexer) (rest : text) : Prop :=
  l_let l = ll /\ l_type l = lt /\ l_peeked l = [] /\ l_chars l = chars_of i rest.
Lemma next_lexeme i l t w rest : at_rest i l (w ++ rest) -> plain w -> plain rest -> lexeme ll lt t w rest ->
  exists l1, nextToken l = Ok (t, l1) /\ at_rest i l1 rest /\ l_tok l1 = w.
Proof.
  intros (A & B & C & D) P Q L.
  assert (PL : plain (w ++ rest)) by (apply Forall_app; now split).
  destruct (proj2 (token_of_bytes i ll lt (w ++ rest) t w rest PL)) as [X _].
  { left. right. exists []. split; [constructor|]. split; [reflexivity|exact L]. }
  exists (mkLexer ll lt (chars_of i rest) [] w). split; [|repeat split].
  unfold nextToken, nextTokenInternal. rewrite C, D, A, B, X. reflexivity.
Qed.
Lemma next_space i l t w rest : at_rest i l (32 :: w ++ rest) -> plain w -> plain rest -> lexeme ll lt t w rest ->
  exists l1, nextToken l = Ok (t, l1) /\ at_rest i l1 rest /\ l_tok l1 = w.
Proof.
  intros (A & B & C & D) P Q L.
  assert (PL : plain (32 :: w ++ rest)) by (constructor; [lia|]; apply Forall_app; now split).
  destruct (proj2 (token_of_bytes i ll lt (32 :: w ++ rest) t w rest PL)) as [X _].
  { left. right. exists [32]. split; [apply lay_space; [now left|constructor]|]. split; [reflexivity|exact L]. }
  exists (mkLexer ll lt (chars_of i rest) [] w). split; [|repeat split].
  unfold nextToken, nextTokenInternal. rewrite C, D, A, B, X. reflexivity.
Qed.
(** With or without a space before. *)
Definition sp (b : bool) (r : text) : text := if b then 32 :: r else r.
Lemma next_sp b i l t w rest : at_rest i l (sp b (w ++ rest)) -> plain w -> plain rest -> lexeme ll lt t w rest ->
  exists l1, nextToken l = Ok (t, l1) /\ at_rest i l1 rest /\ l_tok l1 = w.
Proof. destruct b; [apply next_space|apply next_lexeme]. Qed.

Lemma shows_trans l ws l1 vs l2 : shows l ws l1 -> shows l1 vs l2 -> shows l (ws ++ vs) l2.
Proof. induction 1; intros H2; [exact H2|]. cbn. econstructor; eauto. Qed.

Lemma spells_shows :
  (forall x y, spells x y -> forall b i l rest, at_rest i l (sp b (render x ++ rest)) -> plain rest -> delimited rest ->
     exists l', shows l (words y) l' /\ at_rest i l' rest) /\
  (forall xs ys, spells_list xs ys -> forall b i l rest, at_rest i l (sp b (spaced (map render xs) ++ 41 :: rest)) -> plain rest -> xs <> [] ->
     exists l', shows l (flat_map words ys) l' /\ at_rest i l' (41 :: rest)) /\ True.
Proof.
  assert (PLAIN : (forall x y, spells x y -> plain (render x)) /\ (forall xs ys, spells_list xs ys -> plain (spaced (map render xs)))).
  { apply spells_minds.
    - intros t w (_ & _ & F & _). now apply pos_plain.
    - intros xs ys _ IH. cbn [render]. constructor; [lia|]. apply Forall_app. split; [exact IH|]. constructor; [lia|constructor].
    - constructor.
    - intros x y xs ys _ IH _ IHs. cbn [map spaced]. destruct (map render xs); [exact IH|].
      apply Forall_app. split; [exact IH|]. constructor; [lia|exact IHs]. }
  destruct PLAIN as [P1 P2].
  assert (H : (forall x y, spells x y -> forall b i l rest, at_rest i l (sp b (render x ++ rest)) -> plain rest -> delimited rest ->
     exists l', shows l (words y) l' /\ at_rest i l' rest) /\
  (forall xs ys, spells_list xs ys -> forall b i l rest, at_rest i l (sp b (spaced (map render xs) ++ 41 :: rest)) -> plain rest -> 
     xs <> [] -> exists l', shows l (flat_map words ys) l' /\ at_rest i l' (41 :: rest))).
  { apply spells_minds.
    - intros t w (A & B & F & L) b i l rest AT P D. cbn [render] in AT.
      destruct (next_sp b i l t w rest AT (pos_plain _ F) P (L _ D)) as (l1 & N & AT1 & T). exists l1. split; [|exact AT1].
      cbn [words]. apply sh_word with (l1 := l1); [exact N| |constructor]. intros _. unfold tokenStr. rewrite T. now apply cstr_pos.
    - intros xs ys S IH b i l rest AT P D. cbn [render] in AT. rewrite <- !app_assoc in AT. change ([41] ++ rest) with (41 :: rest) in AT.
      destruct (next_sp b i l T_LPAREN [40] (spaced (map render xs) ++ 41 :: rest)) as (l1 & N & AT1 & _).
      { exact AT. } { constructor; [lia|constructor]. }
      { apply Forall_app. split; [exact (P2 _ _ S)|]. constructor; [lia|exact P]. } { apply lx_lparen. }
      assert (E : exists l2, shows l1 (flat_map words ys) l2 /\ at_rest i l2 (41 :: rest)).
      { destruct xs as [|x xs]; [inversion S; subst; exists l1; split; [constructor|exact AT1]|]. apply (IH false); auto. discriminate. }
      destruct E as (l2 & SH & AT2). destruct (next_lexeme i l2 T_RPAREN [41] rest) as (l3 & N3 & AT3 & _).
      { exact AT2. } { constructor; [lia|constructor]. } { exact P. } { apply lx_rparen. }
      exists l3. split; [|exact AT3]. cbn [words]. econstructor; [exact N|discriminate|]. apply (shows_trans _ _ l2); [exact SH|].
      econstructor; [exact N3|discriminate|constructor].
    - intros b i l rest AT P N. contradiction.
    - intros x y xs ys Sx IHx Ss IHs b i l rest AT P _. destruct xs as [|x2 xs].
      + inversion Ss; subst. cbn [map spaced] in AT. destruct (IHx b i l (41 :: rest) AT) as (l1 & SH & AT1).
        { constructor; [lia|exact P]. } { cbn. tauto. }
        exists l1. split; [|exact AT1]. cbn [flat_map]. now rewrite app_nil_r.
      + change (spaced (map render (x :: x2 :: xs))) with (render x ++ 32 :: spaced (map render (x2 :: xs))) in AT. rewrite <- app_assoc in AT.
        destruct (IHx b i l _ AT) as (l1 & SH & AT1).
        { constructor; [lia|]. apply Forall_app. split; [exact (P2 _ _ Ss)|]. constructor; [lia|exact P]. } { cbn. tauto. }
        destruct (IHs true i l1 rest AT1 P ltac:(discriminate)) as (l2 & SH2 & AT2).
        exists l2. split; [|exact AT2]. cbn [flat_map]. now apply (shows_trans _ _ l1). }
  tauto.
Qed.
Lemma spells_plain : (forall x y, spells x y -> plain (render x)) /\ (forall xs ys, spells_list xs ys -> plain (spaced (map render xs))).
Proof.
  apply spells_minds.
  - intros t w (_ & _ & F & _). now apply pos_plain.
  - intros xs ys _ IH. cbn [render]. constructor; [lia|]. apply Forall_app. split; [exact IH|]. constructor; [lia|constructor].
  - constructor.
  - intros x y xs ys _ IH _ IHs. cbn [map spaced]. destruct (map render xs); [exact IH|].
    apply Forall_app. split; [exact IH|]. constructor; [lia|exact IHs].
Qed.
(** The nesting is bounded by the length of the text. *)
Lemma nesting_length : (forall x y, spells x y -> nesting y <= Z.of_nat (length (render x))) /\
  (forall xs ys, spells_list xs ys -> fold_right (fun y m => Z.max (nesting y) m) 0 ys <= Z.of_nat (length (spaced (map render xs)))).
Proof.
  apply spells_minds.
  - intros. cbn [nesting render]. lia.
  - intros xs ys _ IH. cbn [nesting render]. rewrite !app_length. cbn [length]. lia.
  - cbn. lia.
  - intros x y xs ys _ IH _ IHs. cbn [fold_right map spaced]. destruct (map render xs) as [|u us] eqn:E; [cbn [spaced length] in IHs; lia|].
    rewrite !app_length. cbn [length]. lia.
Qed.
Lemma spells_proper : (forall x y, spells x y -> Z.of_nat (length (render x)) < 2 ^ 64 -> proper y) /\
  (forall xs ys, spells_list xs ys -> Z.of_nat (length (spaced (map render xs))) < 2 ^ 64 -> Forall proper ys).
Proof.
  assert (H : (forall x y, spells x y -> spells x y /\ (Z.of_nat (length (render x)) < 2 ^ 64 -> proper y)) /\
  (forall xs ys, spells_list xs ys -> spells_list xs ys /\ (Z.of_nat (length (spaced (map render xs))) < 2 ^ 64 -> Forall proper ys))).
  { apply spells_minds.
    - intros t w H. split; [now constructor|]. intros _. destruct H as (A & B & _). now constructor.
    - intros xs ys S [_ IH]. assert (X : spells (PL xs) (XL ys)) by now constructor. split; [exact X|]. intros L. constructor.
      + pose proof (proj1 nesting_length _ _ X). lia.
      + apply IH. cbn [render] in L. rewrite !app_length in L. cbn [length] in L. lia.
    - split; [constructor|constructor].
    - intros x y xs ys Sx [_ IHx] Ss [_ IHs]. split; [now constructor|]. cbn [map spaced]. intros L.
      destruct (map render xs) as [|u us] eqn:E.
      + destruct xs; [|discriminate]. inversion Ss; subst. constructor; [now apply IHx|constructor].
      + rewrite !app_length in L. constructor; [apply IHx; lia|apply IHs; cbn [length] in L; lia]. }
  split; intros; [eapply H|eapply H]; eassumption.
Qed.
End Spells.

(** * Words *)
Section Words.
Variables ll lt : bool.
Lemma digits_class d : Forall (fun c => 48 <= c <= 57) d -> Forall (fun c => In c digits) d.
Proof. apply Forall_impl. intros c H. now apply digits_In. Qed.
Lemma digit_sym c : In c digits -> sym_char c.
Proof. intros H. right. now left. Qed.
Lemma delimited_check (P : Z -> Prop) (b : Z -> bool) rest : (forall c, P c -> b c = true) ->
  forallb (fun c => negb (b c)) (32 :: 40 :: 41 :: spaces) = true -> delimited rest -> stops P rest.
Proof.
  intros H F. apply delimited_stops. apply Forall_forall. intros c I X. rewrite forallb_forall in F. specialize (F c I).
  rewrite (H c X) in F. discriminate.
Qed.
Lemma pos_forall (P : Z -> Prop) w : (forall c, P c -> 0 < c < 255) -> Forall P w -> Forall (fun c => 0 < c < 255) w.
Proof. intros H. apply Forall_impl. exact H. Qed.
Lemma digit_range c : In c digits -> 48 <= c <= 57.
Proof. apply digits_In. Qed.

Lemma nat_text z : 0 <= z -> int_toString 10 z <> [] /\ Forall (fun c => In c digits) (int_toString 10 z).
Proof.
  intros H. split; [apply int_toString_nonnil|]. apply int_toString_digits; [lia|exact H|]. intros d D. apply digits_In. unfold dchar.
  replace (d <? 10) with true by (symmetry; apply Z.ltb_lt; lia). lia.
Qed.
Lemma neg_text z : z < 0 -> int_toString 10 z = 45 :: int_toString 10 (- z).
Proof.
  intros H. rewrite (int_toString_nonneg 10 (- z)) by lia. unfold int_toString.
  now replace (z <? 0) with true by (symmetry; apply Z.ltb_lt; lia).
Qed.
Lemma minus_sym : sym_char 45.
Proof. apply sym_char_iff. vm_compute. reflexivity. Qed.
Lemma num_word z : a_word ll lt T_INTEGER (int_toString 10 z).
Proof.
  destruct (Z_lt_le_dec z 0) as [H|H].
  - rewrite (neg_text z H). destruct (nat_text (- z) ltac:(lia)) as [N D]. split; [reflexivity|]. split; [discriminate|]. split.
    + constructor; [lia|]. revert D. apply pos_forall. intros c I. apply digit_range in I. lia.
    + intros rest R. apply lx_negative; [now apply neg_int| |now apply delimited_sym].
      constructor; [exact minus_sym|]. revert D. apply Forall_impl. exact digit_sym.
  - destruct (nat_text z H) as [N D]. split; [reflexivity|]. split; [discriminate|]. split.
    + revert D. apply pos_forall. intros c I. apply digit_range in I. lia.
    + intros rest R. apply lx_integer; auto.
      apply (delimited_check _ (fun c => ((48 <=? c) && (c <=? 57)) || (c =? 46) || (c =? 47))); [|reflexivity|exact R].
      intros c [I|[->| ->]]; [|reflexivity|reflexivity]. apply digit_range in I. lia.
Qed.
Lemma rat_word q : a_word ll lt T_RATIONAL (int_toString 10 (Qnum q) ++ 47 :: int_toString 10 (QDen q)).
Proof.
  destruct (nat_text (QDen q) ltac:(lia)) as [N2 D2].
  assert (SL : sym_char 47) by (apply sym_char_iff; vm_compute; reflexivity).
  destruct (Z_lt_le_dec (Qnum q) 0) as [H|H].
  - rewrite (neg_text _ H). destruct (nat_text (- Qnum q) ltac:(lia)) as [N D]. split; [reflexivity|]. split; [discriminate|]. split.
    + cbn [app]. constructor; [lia|]. apply Forall_app. split; [revert D|constructor; [lia|revert D2]]; apply pos_forall; intros c I; apply digit_range in I; lia.
    + intros rest R. apply lx_negative; [now apply neg_rat| |now apply delimited_sym].
      cbn [app]. constructor; [exact minus_sym|]. apply Forall_app. split; [revert D; apply Forall_impl; exact digit_sym|].
      constructor; [exact SL|]. revert D2. apply Forall_impl. exact digit_sym.
  - destruct (nat_text (Qnum q) H) as [N D]. split; [reflexivity|]. split; [discriminate|]. split.
    + apply Forall_app. split; [revert D|constructor; [lia|revert D2]]; apply pos_forall; intros c I; apply digit_range in I; lia.
    + intros rest R. apply lx_rational; auto.
      apply (delimited_check _ (fun c => (48 <=? c) && (c <=? 57))); [|reflexivity|exact R].
      intros c I. apply digit_range in I. lia.
Qed.
Lemma zero_den_app a d : ~ In 47 a -> zero_denominator (a ++ 47 :: d) -> Forall (fun c => c = 48) d.
Proof.
  induction a as [|c a IH]; intros N Z; cbn [app] in Z.
  - inversion Z; subst; [assumption|congruence].
  - inversion Z; subst; [exfalso; apply N; now left|]. apply IH; [|assumption]. intros I. apply N. now right.
Qed.
Lemma zeros_value n : read_digs 10 (repeat 48 n) 0 = Some 0.
Proof. induction n as [|n IH]; [reflexivity|]. exact IH. Qed.
Lemma nonzero_text z : 0 < z -> ~ Forall (fun c => c = 48) (int_toString 10 z).
Proof.
  intros P F. pose proof (int_roundtrip 10 z ltac:(lia)) as R.
  assert (E : int_toString 10 z = repeat 48 (length (int_toString 10 z))).
  { clear - F. induction F as [|c w -> _ IH]; [reflexivity|]. cbn [length repeat]. now f_equal. }
  destruct (nat_text z ltac:(lia)) as [N D].
  rewrite int_ofString_digits in R; [|exact N|revert D; apply Forall_impl; intros c I; apply digit_range in I; lia].
  rewrite E, zeros_value in R. assert (z = 0) by congruence. lia.
Qed.
Lemma rat_nonzero q : ~ zero_denominator (int_toString 10 (Qnum q) ++ 47 :: int_toString 10 (QDen q)).
Proof.
  intros Z. apply zero_den_app in Z.
  - revert Z. apply nonzero_text. lia.
  - intros I. pose proof (int_text_no_slash (Qnum q)) as F. rewrite Forall_forall in F. now apply F in I.
Qed.
Lemma rat_text q : lit_toString (LRat q) = int_toString 10 (Qnum q) ++ 47 :: int_toString 10 (QDen q).
Proof.
  cbn [lit_toString]. unfold rat_isIntegral, rat_toString. destruct (QDen q =? 1) eqn:D; [|reflexivity].
  apply Z.eqb_eq in D. rewrite D. reflexivity.
Qed.
Lemma bin_word b : bv_wf b -> 0 < bv_size b -> a_word ll lt T_BINARY (txt "#b" ++ lit_toString (LBin b)).
Proof.
  intros [Hs Hv] P.
  assert (F : Forall (fun c => c = 48 \/ c = 49) (int_toString 2 (bv_val b))).
  { apply int_toString_digits; [lia|lia|]. intros d H. unfold dchar. replace (d <? 10) with true by (symmetry; apply Z.ltb_lt; lia). lia. }
  assert (T : lit_toString (LBin b) <> [] /\ Forall (fun c => c = 48 \/ c = 49) (lit_toString (LBin b))).
  { cbn [lit_toString]. unfold bv_toString. change (2 =? 2) with true. cbn [andb].
    destruct (Z.of_nat (length (int_toString 2 (bv_val b))) <? bv_size b) eqn:Q.
    - split.
      + intros C. apply app_eq_nil in C as [_ C]. revert C. apply int_toString_nonnil.
      + apply Forall_app. split; [|exact F]. apply Forall_forall. intros x I. apply repeat_spec in I. now left.
    - replace (bv_size b =? 0) with false by (symmetry; apply Z.eqb_neq; lia). split; [apply int_toString_nonnil|exact F]. }
  destruct T as [N D]. split; [reflexivity|]. split; [discriminate|]. split.
  - apply Forall_app. split; [repeat (constructor; [vm_compute; split; reflexivity|]); constructor|]. revert D. apply pos_forall. lia.
  - intros rest R. apply lx_binary; auto. apply (delimited_check _ (fun c => (c =? 48) || (c =? 49))); [|reflexivity|exact R]. intros c [->| ->]; reflexivity.
Qed.
Lemma double_none t : ~ In 34 t -> double_quotes t = t.
Proof.
  induction t as [|c t IH]; intros N; [reflexivity|]. cbn [double_quotes]. destruct (c =? 34) eqn:E; [apply Z.eqb_eq in E; subst; exfalso; apply N; now left|].
  rewrite IH; [reflexivity|]. intros I. apply N. now right.
Qed.
Lemma str_word t : Forall (fun c => 0 < c < 128) t -> ~ In 34 t -> a_word ll lt T_STRING (34 :: t ++ [34]).
Proof.
  intros F N. split; [reflexivity|]. split; [discriminate|]. split.
  - constructor; [lia|]. apply Forall_app. split; [revert F; apply pos_forall; lia|constructor; [lia|constructor]].
  - intros rest R. rewrite <- (double_none t N). apply lx_string. apply (delimited_check _ (Z.eqb 34)); [|reflexivity|exact R]. intros c <-. reflexivity.
Qed.
Lemma str_unescape t : Forall (fun c => 0 < c < 128) t -> ~ In 34 t -> unescapeString (34 :: t ++ [34]) = Ok t.
Proof.
  intros F N. rewrite <- (unescape_value t F), (double_none t N), cstr_pos; [reflexivity|].
  constructor; [lia|]. apply Forall_app. split; [revert F; apply pos_forall; lia|constructor; [lia|constructor]].
Qed.
Lemma char_text c : 0 <= c < 196608 -> c <> 34 -> Forall (fun d => 0 < d < 128 /\ d <> 34) (char_toText c).
Proof.
  intros R N. unfold char_toText. destruct (isPrintable c && negb (c =? 92)) eqn:P.
  - apply andb_true_iff in P as [P _]. unfold isPrintable in P. apply andb_true_iff in P as [A B]. constructor; [lia|constructor].
  - repeat (constructor; [lia|]). apply Forall_app. split; [|constructor; [lia|constructor]].
    apply int_toString_digits; [lia|lia|]. intros d H. pose proof (dchar_range d H). lia.
Qed.
Lemma str_text u : str_wf u -> ~ In 34 u -> Forall (fun c => 0 < c < 128) (str_toText u) /\ ~ In 34 (str_toText u).
Proof.
  intros W N. assert (F : Forall (fun d => 0 < d < 128 /\ d <> 34) (str_toText u)).
  { unfold str_toText. induction W as [|c u Hc _ IH]; [constructor|]. cbn [flat_map]. apply Forall_app. split.
    - apply char_text; [exact Hc|]. intros ->. apply N. now left.
    - apply IH. intros I. apply N. now right. }
  split; [revert F; apply Forall_impl; tauto|]. intros I. rewrite Forall_forall in F. apply F in I. tauto.
Qed.
Lemma name_text n : Forall text_char n -> str_toText n = n /\ str_wf n.
Proof.
  intros F. split; [|revert F; apply Forall_impl; intros c ([] & _); lia].
  unfold str_toText. induction F as [|c n (R & N1 & N2) _ IH]; [reflexivity|]. cbn [flat_map]. rewrite IH. unfold char_toText, isPrintable.
  replace (c =? 92) with false by (symmetry; apply Z.eqb_neq; exact N2). replace (32 <=? c) with true by (symmetry; apply Z.leb_le; lia).
  cbn [negb andb]. destruct (c <=? 126) eqn:E; [reflexivity|]. apply Z.leb_gt in E. lia.
Qed.
Lemma name_ofText n : Forall text_char n -> str_ofText true n = n.
Proof. intros F. destruct (name_text n F) as [T W]. rewrite <- T at 1. now apply str_roundtrip. Qed.
End Words.
