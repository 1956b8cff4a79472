(** Facts about the string layer. *)
From Coq Require Import ZArith List Bool Lia.
From Verif Require Import Base Ints Str SpecLit IntsProofs.
Import ListNotations.
Open Scope Z_scope.

Lemma toInternal_skip : forall u a rest,
  toInternal u (a ++ rest) (length a) = toInternal u rest O.
Proof.
  intros u a rest; induction a as [|x a IH]; [reflexivity|].
  cbn [app length toInternal]. exact IH.
Qed.

Lemma toInternal_backslash : forall s,
  toInternal true (92 :: s) O = fst (esc_step s) ++ toInternal true s (snd (esc_step s)).
Proof. intros s; cbn [toInternal]. rewrite Z.eqb_refl. cbn [negb orb]. destruct (esc_step s); reflexivity. Qed.

Lemma hexdigit_dchar : forall d, 0 <= d < 16 -> isHexDigit (dchar d) = true.
Proof.
  intros d H. pose proof (dchar_range d H). unfold isHexDigit, isDigit.
  destruct H0 as [[A B]|[A B]]; apply Z.leb_le in A; apply Z.leb_le in B; rewrite A, B;
    rewrite ?orb_true_r; reflexivity.
Qed.

Definition low_hex (c : Z) : Prop := isHexDigit c = true.

Lemma low_hex_not_brace : forall c, low_hex c -> c <> 123 /\ c <> 125.
Proof.
  intros c H; unfold low_hex, isHexDigit, isDigit in H.
  split; intros ->; discriminate H.
Qed.

(** Scanning the digits after an opening brace. *)
Lemma esc_loop_digits : forall ds rest hex cache n,
  Forall low_hex ds -> (length hex + length ds <= 5)%nat ->
  (0 < length hex + length ds)%nat ->
  exists cache',
  esc_loop (ds ++ 125 :: rest) false true hex cache n =
  (true, true, hex ++ ds, cache', (n + length ds + 1)%nat).
Proof.
  intros ds; induction ds as [|d ds IH]; intros rest hex cache n F L P.
  - cbn [app esc_loop negb andb]. rewrite Z.eqb_refl. cbn [andb].
    exists (cache ++ addChar 125).
    rewrite app_nil_r. cbn [length] in *.
    destruct hex; cbn [length] in *; [lia|]. cbn [Nat.eqb negb].
    do 2 f_equal. lia.
  - inversion F; subst.
    destruct (low_hex_not_brace d H1) as [N1 N2].
    cbn [app esc_loop negb andb].
    replace (d =? 125) with false by (symmetry; apply Z.eqb_neq; exact N2).
    unfold low_hex in H1. rewrite H1. cbn [negb].
    assert (L5 : Nat.ltb 5 (length (hex ++ [d])) = false).
    { apply Nat.ltb_ge. rewrite app_length. cbn [length] in *. lia. }
    rewrite L5.
    destruct (IH rest (hex ++ [d]) (cache ++ addChar d) (S n) H2) as [c' E].
    + rewrite app_length; cbn [length] in *; lia.
    + rewrite app_length; cbn [length]; lia.
    + exists c'. rewrite E. rewrite <- app_assoc. cbn [app length].
      do 2 f_equal. lia.
Qed.

(** A braced escape sequence denotes its code point. *)
Lemma esc_step_brace : forall ds rest v,
  Forall low_hex ds -> (1 <= length ds <= 5)%nat ->
  read_digs 16 ds 0 = Some v -> v < num_codes ->
  esc_step (117 :: 123 :: ds ++ 125 :: rest) = ([v], (length ds + 3)%nat).
Proof.
  intros ds rest v F L R V. unfold esc_step.
  rewrite Z.eqb_refl. cbn [esc_loop andb]. rewrite Z.eqb_refl. cbn [andb].
  destruct (esc_loop_digits ds rest [] ((addChar 92 ++ addChar 117) ++ addChar 123) 2 F)
    as [c' E]; cbn [length] in *; try lia.
  rewrite E. cbn [app andb]. rewrite R.
  replace (v >=? num_codes) with false.
  - f_equal. lia.
  - symmetry. rewrite Z.geb_leb. apply Z.leb_gt. exact V.
Qed.

Lemma hex_text : forall c, 0 <= c < 196608 ->
  Forall low_hex (int_toString 16 c) /\ (1 <= length (int_toString 16 c) <= 5)%nat /\
  read_digs 16 (int_toString 16 c) 0 = Some c.
Proof.
  intros c H. split; [|split].
  - apply int_toString_digits; [lia|lia|].
    intros d Hd. apply hexdigit_dchar; lia.
  - split.
    + pose proof (int_toString_nonnil 16 c). destruct (int_toString 16 c); [congruence|].
      cbn [length]; lia.
    + rewrite int_toString_nonneg by lia.
      pose proof (digs_length 16 (S (Z.to_nat (Z.log2 c))) c [] 5) as D.
      cbn [length] in D. change (Z.of_nat 5) with 5 in D.
      change (16 ^ 5) with 1048576 in D. lia.
  - apply read_nonneg; lia.
Qed.

Lemma char_roundtrip : forall c rest, 0 <= c < 196608 ->
  toInternal true (char_toText c ++ rest) O = c :: toInternal true rest O.
Proof.
  intros c rest H. unfold char_toText.
  destruct (isPrintable c && negb (c =? 92)) eqn:P.
  - apply andb_true_iff in P; destruct P as [P1 P2].
    cbn [app toInternal]. rewrite P2. cbn [orb].
    unfold isPrintable in P1. unfold addChar.
    apply andb_true_iff in P1; destruct P1 as [A B].
    apply Z.leb_le in A; apply Z.leb_le in B.
    replace (127 <? c) with false by (symmetry; apply Z.ltb_ge; lia).
    replace (c <? 32) with false by (symmetry; apply Z.ltb_ge; lia).
    reflexivity.
  - destruct (hex_text c H) as (F & L & R).
    set (ds := int_toString 16 c) in *.
    assert (E0 : ([92; 117; 123] ++ ds ++ [125]) ++ rest = 92 :: 117 :: 123 :: ds ++ 125 :: rest).
    { cbn [app]. rewrite <- app_assoc. reflexivity. }
    rewrite E0, toInternal_backslash.
    rewrite (esc_step_brace ds rest c F L R) by (unfold num_codes; lia).
    cbn [app fst snd]. f_equal.
    assert (E : 117 :: 123 :: ds ++ 125 :: rest = (117 :: 123 :: ds ++ [125]) ++ rest).
    { cbn [app]. rewrite <- app_assoc. reflexivity. }
    rewrite E.
    replace (length ds + 3)%nat with (length (117 :: 123 :: ds ++ [125])).
    + apply toInternal_skip.
    + cbn [length]. rewrite app_length. cbn [length]. lia.
Qed.

Lemma str_roundtrip : forall s, str_wf s -> str_ofText true (str_toText s) = s.
Proof.
  unfold str_ofText, str_toText. intros s H; induction H as [|c s Hc Hs IH]; [reflexivity|].
  cbn [flat_map]. rewrite char_roundtrip by exact Hc. f_equal. exact IH.
Qed.

(** every string obtained from text is well formed *)
Lemma addChar_wf : forall c, str_wf (addChar c).
Proof.
  intros c; unfold addChar, str_wf.
  destruct ((127 <? c) || (c <? 32)) eqn:E; [constructor|].
  apply orb_false_iff in E; destruct E as [A B].
  apply Z.ltb_ge in A; apply Z.ltb_ge in B. constructor; [lia|constructor].
Qed.

Lemma esc_loop_wf : forall s st br hex cache n a b h c m,
  str_wf cache -> esc_loop s st br hex cache n = (a, b, h, c, m) -> str_wf c.
Proof.
  intros s; induction s as [|x s IH]; intros st br hex cache n a b h c m W E; cbn [esc_loop] in E.
  - injection E; intros; subst; exact W.
  - assert (W' : str_wf (cache ++ addChar x)).
    { apply Forall_app; split; [exact W|apply addChar_wf]. }
    destruct (st && (x =? 123)); [eapply IH; [exact W'|exact E]|].
    destruct (negb st && (x =? 125)); [injection E; intros; subst; exact W'|].
    destruct (negb (isHexDigit x)); [injection E; intros; subst; exact W|].
    destruct (negb br && Nat.eqb (length (hex ++ [x])) 4);
      [injection E; intros; subst; exact W'|].
    destruct (br && Nat.ltb 5 (length (hex ++ [x])));
      [injection E; intros; subst; exact W'|].
    eapply IH; [exact W'|exact E].
Qed.

Lemma read_digs_nonneg : forall base s acc v, 0 <= base -> 0 <= acc ->
  read_digs base s acc = Some v -> 0 <= v.
Proof.
  intros base s; induction s as [|c s IH]; intros acc v Hb Ha E; cbn [read_digs] in E.
  - injection E; intros; subst; exact Ha.
  - destruct (dval c) as [d|] eqn:D; [|discriminate].
    destruct (d <? base); [|discriminate].
    eapply IH; [exact Hb| |exact E].
    assert (0 <= d).
    { unfold dval in D.
      destruct ((48 <=? c) && (c <=? 57)) eqn:A1.
      - injection D; intros; subst. apply andb_true_iff in A1. lia.
      - destruct ((97 <=? c) && (c <=? 102)) eqn:A2.
        + injection D; intros; subst. apply andb_true_iff in A2. lia.
        + destruct ((65 <=? c) && (c <=? 70)) eqn:A3; [|discriminate].
          injection D; intros; subst. apply andb_true_iff in A3. lia. }
    nia.
Qed.

Lemma esc_step_wf : forall s, str_wf (fst (esc_step s)).
Proof.
  intros s; unfold esc_step. pose proof (addChar_wf 92) as W0.
  destruct s as [|c s]; [exact W0|].
  destruct (c =? 117); [|exact W0].
  destruct (esc_loop s true false [] (addChar 92 ++ addChar c) 1) as [[[[a b] h] k] m] eqn:E.
  assert (W : str_wf k).
  { eapply esc_loop_wf; [|exact E]. apply Forall_app; split; [exact W0|apply addChar_wf]. }
  destruct (a && b); [|exact W].
  destruct (read_digs 16 h 0) as [v|] eqn:R; [|exact W].
  destruct (v >=? num_codes) eqn:V; [exact W|].
  cbn [fst]. constructor; [|constructor].
  split.
  - eapply read_digs_nonneg; [| |exact R]; lia.
  - rewrite Z.geb_leb in V. apply Z.leb_gt in V. exact V.
Qed.

Lemma toInternal_wf : forall u s n, str_wf (toInternal u s n).
Proof.
  intros u s; induction s as [|c s IH]; intros n; [constructor|].
  cbn [toInternal]. destruct n; [|apply IH].
  destruct (negb (c =? 92) || negb u).
  - apply Forall_app; split; [apply addChar_wf|apply IH].
  - pose proof (esc_step_wf s) as W. destruct (esc_step s) as [o n].
    apply Forall_app; split; [exact W|apply IH].
Qed.

Lemma str_ofText_wf : forall u s, str_wf (str_ofText u s).
Proof. intros; apply toInternal_wf. Qed.

(** printable text without escapes is kept as it is *)
Lemma str_ofText_raw : forall s, Forall (fun c => 32 <= c <= 127) s -> str_ofText false s = s.
Proof.
  unfold str_ofText. intros s H; induction H as [|c s Hc Hs IH]; [reflexivity|].
  cbn [toInternal]. rewrite orb_true_r. rewrite IH. unfold addChar.
  replace (127 <? c) with false by (symmetry; apply Z.ltb_ge; lia).
  replace (c <? 32) with false by (symmetry; apply Z.ltb_ge; lia). reflexivity.
Qed.

(* ---- equality ---- *)
Lemma str_cmp_codes_eq : forall a b, length a = length b -> str_cmp_codes a b = 0 -> a = b.
Proof.
  induction a as [|x a IH]; intros [|y b] L E; try discriminate; [reflexivity|].
  cbn [str_cmp_codes] in E. destruct (x =? y) eqn:X.
  - apply Z.eqb_eq in X; subst. f_equal. apply IH; [|exact E]. cbn [length] in L; lia.
  - destruct (x <? y); discriminate.
Qed.

Lemma str_cmp_codes_refl : forall a, str_cmp_codes a a = 0.
Proof. induction a; cbn [str_cmp_codes]; [reflexivity|]. rewrite Z.eqb_refl. assumption. Qed.

Lemma str_eqb_eq : forall a b, str_eqb a b = true <-> a = b.
Proof.
  intros a b; unfold str_eqb, str_cmp; split; intros H.
  - destruct (Nat.eqb (length a) (length b)) eqn:L; cbn [negb] in H.
    + apply Nat.eqb_eq in L. apply Z.eqb_eq in H. apply str_cmp_codes_eq; assumption.
    + destruct (Nat.ltb (length a) (length b)); discriminate.
  - subst. rewrite Nat.eqb_refl. cbn [negb]. rewrite str_cmp_codes_refl. reflexivity.
Qed.

(* ---- search ---- *)
Lemma str_prefix_spec : forall y x, str_prefix y x = true <-> exists post, x = y ++ post.
Proof.
  induction y as [|c y IH]; intros x; cbn [str_prefix].
  - split; intros; [exists x; reflexivity|reflexivity].
  - destruct x as [|d x].
    + split; [discriminate|]. intros [p E]; discriminate E.
    + rewrite andb_true_iff, Z.eqb_eq, IH. split.
      * intros [-> [p ->]]. exists p; reflexivity.
      * intros [p E]. injection E as -> ->. split; [reflexivity|exists p; reflexivity].
Qed.

Lemma occurs_at_0 : forall x y, occurs_at x y 0 <-> str_prefix y x = true.
Proof.
  intros x y; rewrite str_prefix_spec; unfold occurs_at; split.
  - intros (pre & post & E & L). destruct pre; [|cbn [length] in L; lia].
    exists post; exact E.
  - intros [post E]. exists [], post. split; [exact E|reflexivity].
Qed.

Lemma occurs_at_cons : forall c x y i, 0 <= i ->
  (occurs_at (c :: x) y (i + 1) <-> occurs_at x y i).
Proof.
  intros c x y i Hi; unfold occurs_at; split.
  - intros (pre & post & E & L). destruct pre as [|d pre]; [cbn [length] in L; lia|].
    injection E as -> E. exists pre, post. split; [exact E|cbn [length] in L; lia].
  - intros (pre & post & E & L). exists (c :: pre), post. split.
    + cbn [app]. rewrite E. reflexivity.
    + cbn [length]; lia.
Qed.

Lemma occurs_at_nonneg : forall x y i, occurs_at x y i -> 0 <= i.
Proof. intros x y i (pre & post & _ & L); lia. Qed.

Lemma str_search_spec : forall x y i,
  match str_search x y i with
  | Some j => occurs_at x y (j - i) /\ forall k, 0 <= k < j - i -> ~ occurs_at x y k
  | None => forall k, ~ occurs_at x y k
  end.
Proof.
  induction x as [|c x IH]; intros y i.
  - cbn [str_search]. destruct (str_prefix y []) eqn:P.
    + split; [|intros k Hk; lia]. replace (i - i) with 0 by lia. apply occurs_at_0; exact P.
    + intros k H. pose proof (occurs_at_nonneg _ _ _ H).
      destruct H as (pre & post & E & L).
      destruct pre; [|discriminate]. 
      assert (occurs_at [] y 0) by (exists [], post; split; [exact E|reflexivity]).
      apply occurs_at_0 in H. congruence.
  - cbn [str_search]. destruct (str_prefix y (c :: x)) eqn:P.
    + split; [|intros k Hk; lia]. replace (i - i) with 0 by lia. apply occurs_at_0; exact P.
    + specialize (IH y (i + 1)).
      destruct (str_search x y (i + 1)) as [j|].
      * destruct IH as [O N]. pose proof (occurs_at_nonneg _ _ _ O).
        split.
        -- replace (j - i) with ((j - (i + 1)) + 1) by lia.
           apply occurs_at_cons; [lia|exact O].
        -- intros k Hk H1. destruct (Z.eq_dec k 0) as [->|K0].
           ++ apply occurs_at_0 in H1. congruence.
           ++ apply (N (k - 1)); [lia|].
              apply (occurs_at_cons c); [lia|]. replace (k - 1 + 1) with k by lia. exact H1.
      * intros k H1. pose proof (occurs_at_nonneg _ _ _ H1).
        destruct (Z.eq_dec k 0) as [->|K0].
        -- apply occurs_at_0 in H1. congruence.
        -- apply (IH (k - 1)). apply (occurs_at_cons c); [lia|].
           replace (k - 1 + 1) with k by lia. exact H1.
Qed.

Lemma occurs_at_length : forall x y i, occurs_at x y i -> (length y <= length x)%nat.
Proof.
  intros x y i (pre & post & E & _). subst. rewrite !app_length. lia.
Qed.

Lemma occurs_at_bound : forall x y i, occurs_at x y i -> i <= Z.of_nat (length x).
Proof.
  intros x y i (pre & post & E & L). subst x. rewrite !app_length. lia.
Qed.

Lemma str_find_spec : forall x y,
  match str_find x y with
  | Some j => occurs_at x y j /\ forall k, 0 <= k < j -> ~ occurs_at x y k
  | None => forall k, ~ occurs_at x y k
  end.
Proof.
  intros x y; unfold str_find.
  destruct (Nat.ltb (length x) (length y)) eqn:L.
  - apply Nat.ltb_lt in L. intros k H. apply occurs_at_length in H. lia.
  - destruct (Nat.eqb (length y) 0) eqn:Y.
    + apply Nat.eqb_eq in Y. destruct y; [|discriminate]. split; [|intros; lia].
      apply occurs_at_0. reflexivity.
    + destruct (Nat.eqb (length x) 0) eqn:X.
      * apply Nat.eqb_eq in X. apply Nat.eqb_neq in Y. intros k H.
        apply occurs_at_length in H. lia.
      * pose proof (str_search_spec x y 0) as S.
        destruct (str_search x y 0) as [j|]; [|exact S].
        rewrite Z.sub_0_r in S. exact S.
Qed.
