From Coq Require Import ZArith List Bool Lia.
From Verif Require Import Base Ints Str SpecLit IntsProofs StrProofs SpecNumber SpecString NumberProofs.
Import ListNotations.
Open Scope Z_scope.

Lemma hex_digit : forall c, low_hex c <-> exists d, digit c d /\ d < 16.
Proof.
  intro c. unfold low_hex, isHexDigit, isDigit. split.
  - intro H. apply orb_prop in H as [H|H]; [apply orb_prop in H as [H|H]|]; apply andb_prop in H as [A B]; apply Z.leb_le in A; apply Z.leb_le in B.
    + exists (c - 48). split; [|lia]. replace c with (48 + (c - 48)) at 1 by lia. apply dg_dec. lia.
    + exists (c - 55). split; [|lia]. replace c with (65 + ((c - 55) - 10)) at 1 by lia. apply dg_up. lia.
    + exists (c - 87). split; [|lia]. replace c with (97 + ((c - 87) - 10)) at 1 by lia. apply dg_low. lia.
  - intros (d & D & L). inversion D; subst;
      repeat match goal with |- context[?x <=? ?y] => destruct (Z.leb_spec x y); try lia end; reflexivity.
Qed.
Lemma hex_number : forall ds, Forall low_hex ds -> ds <> [] -> exists v, number 16 ds v.
Proof.
  intros ds. induction ds as [|c ds IH] using rev_ind; intros F N; [congruence|].
  apply Forall_app in F as [F1 F2]. inversion F2 as [|? ? H _]; subst. apply hex_digit in H as (d & D & L).
  destruct ds as [|x ds]; [exists d; now apply nb_one|]. destruct (IH F1) as (v & V); [discriminate|]. eexists. eapply nb_more; eauto.
Qed.
Lemma number_hex : forall ds v, number 16 ds v -> Forall low_hex ds.
Proof.
  intros ds v H. induction H as [c d D L|s v c d N IH D L]; [|apply Forall_app; split; [exact IH|]]; (constructor; [apply hex_digit; eauto|constructor]).
Qed.

(** ** Escape sequences are read *)
Lemma four_read : forall a b c d rest v, number 16 [a; b; c; d] v -> esc_step (117 :: a :: b :: c :: d :: rest) = ([v], 5%nat).
Proof.
  intros a b c d rest v H. pose proof (number_hex _ _ H) as F. pose proof (number_read _ _ _ H 0) as R.
  assert (V : v < 65536).
  { clear - H. assert (G : forall s w, number 16 s w -> w < 16 ^ Z.of_nat (length s)).
    { intros s w X. induction X as [x e D L|s w x e N IH D L].
      - cbn. lia.
      - rewrite app_length. cbn [length]. rewrite Nat2Z.inj_add, Z.pow_add_r by lia. change (16 ^ Z.of_nat 1) with 16. lia. }
    apply (G _ _ H). }
  repeat match goal with F : Forall _ (_ :: _) |- _ => inversion F; clear F; subst end. unfold low_hex in *.
  assert (B : forall x, isHexDigit x = true -> (x =? 123) = false /\ (x =? 125) = false).
  { intros x X. destruct (low_hex_not_brace x X). split; now apply Z.eqb_neq. }
  unfold esc_step. rewrite Z.eqb_refl. cbn [esc_loop andb negb].
  repeat match goal with X : isHexDigit ?x = true |- _ => destruct (B x X) as [? ?]; rewrite ?X; revert X end. intros.
  repeat match goal with X : (?x =? 123) = false |- _ => rewrite ?X in *; clear X end. cbn [andb negb].
  repeat match goal with X : isHexDigit ?x = true |- _ => rewrite ?X; clear X end.
  cbn [negb app length Nat.eqb andb].
  repeat match goal with X : (?x =? 125) = false |- _ => rewrite ?X in *; clear X end.
  cbn [esc_loop negb app length Nat.eqb andb].
  rewrite R. replace (0 * 16 ^ Z.of_nat (length [a; b; c; d]) + v) with v by lia.
  replace (v >=? num_codes) with false; [reflexivity|]. symmetry. rewrite Z.geb_leb. apply Z.leb_gt. unfold num_codes. lia.
Qed.
Lemma escape_read : forall e v, escape e v -> exists s, e = 92 :: 117 :: s /\ forall r, esc_step (117 :: s ++ r) = ([v], S (length s)).
Proof.
  intros e v H. inversion H as [ds w N L|ds w N L V]; subst; eexists; (split; [reflexivity|]); intro r.
  - destruct ds as [|a [|b [|c [|d [|? ?]]]]]; try discriminate L. exact (four_read a b c d r v N).
  - replace ((123 :: ds ++ [125]) ++ r) with (123 :: ds ++ 125 :: r) by (cbn [app]; now rewrite <- app_assoc).
    rewrite (esc_step_brace ds r v); [|eapply number_hex; eauto| |now rewrite (number_read _ _ _ N)|exact V].
    + f_equal. cbn [length]. rewrite app_length. cbn [length]. lia.
    + destruct (number_chars _ _ _ N) as (X & _). destruct ds; [congruence|]. cbn [length] in *. lia.
Qed.

(** ** Nothing else is *)
Lemma esc_loop_cases : forall s hb hex cache n isE isN hex' cache' n', Forall low_hex hex -> (hb = false -> (length hex < 4)%nat) ->
  (hb = true -> (length hex <= 5)%nat) -> esc_loop s false hb hex cache n = (isE, isN, hex', cache', n') ->
  exists p rest, s = p ++ rest /\ n' = (n + length p)%nat /\ cache' = cache ++ flat_map addChar p /\ ~ In 92 p /\
    (isE && isN = true -> exists ds, hex' = hex ++ ds /\ Forall low_hex hex' /\
      (hb = true /\ p = ds ++ [125] /\ (0 < length hex' <= 5)%nat \/ hb = false /\ p = ds /\ length hex' = 4%nat)).
Proof.
  induction s as [|c s IH]; intros hb hex cache n isE isN hex' cache' n' F L4 L5 E; cbn [esc_loop negb andb] in E.
  - injection E as <- <- <- <- <-. exists [], []. split; [reflexivity|]. split; [cbn; lia|]. split; [cbn; now rewrite app_nil_r|]. split; [intros []|]. rewrite ?andb_false_r. discriminate.
  - destruct (c =? 125) eqn:C.
    + apply Z.eqb_eq in C. subst c. injection E as <- <- <- <- <-. exists [125], s. repeat split.
      * cbn [length]. lia.
      * intros [X|[]]; discriminate X.
      * intro X. rewrite andb_true_r in X. apply andb_prop in X as [X1 X2]. subst hb. exists []. rewrite app_nil_r. split; [reflexivity|]. split; [exact F|].
        left. repeat split; [|auto]. destruct hex; [discriminate X2|cbn; lia].
    + destruct (isHexDigit c) eqn:H; cbn [negb] in E.
      2: { injection E as <- <- <- <- <-. exists [], (c :: s). split; [reflexivity|]. split; [cbn; lia|]. split; [cbn; now rewrite app_nil_r|]. split; [intros []|]. rewrite ?andb_false_r. discriminate. }
      assert (N92 : c <> 92) by (intros ->; discriminate H).
      assert (F' : Forall low_hex (hex ++ [c])) by (apply Forall_app; split; [exact F|constructor; [exact H|constructor]]).
      destruct (negb hb && Nat.eqb (length (hex ++ [c])) 4) eqn:D4.
      { injection E as <- <- <- <- <-. apply andb_prop in D4 as [D4 D5]. apply Nat.eqb_eq in D5. destruct hb; [discriminate|].
        exists [c], s. repeat split; [cbn; lia|cbn [flat_map]; now rewrite app_nil_r|intros [X|[]]; congruence|].
        intros _. exists [c]. split; [reflexivity|]. split; [exact F'|]. right. auto. }
      destruct (hb && Nat.ltb 5 (length (hex ++ [c]))) eqn:D6.
      { injection E as <- <- <- <- <-. exists [c], s. repeat split; [cbn; lia|cbn [flat_map]; now rewrite app_nil_r|intros [X|[]]; congruence|discriminate]. }
      assert (LL : length (hex ++ [c]) = S (length hex)) by (rewrite app_length; cbn; lia).
      assert (A4 : hb = false -> (length (hex ++ [c]) < 4)%nat).
      { intros ->. cbn [negb andb] in D4. apply Nat.eqb_neq in D4. specialize (L4 eq_refl). lia. }
      assert (A5 : hb = true -> (length (hex ++ [c]) <= 5)%nat).
      { intros ->. cbn [andb] in D6. apply Nat.ltb_ge in D6. exact D6. }
      destruct (IH hb (hex ++ [c]) _ _ _ _ _ _ _ F' A4 A5 E) as (p & rest & -> & -> & -> & NI & S).
      exists (c :: p), rest. repeat split; [cbn [length]; lia|cbn [flat_map]; now rewrite app_assoc|intros [X|X]; [congruence|auto]|].
        intro X. destruct (S X) as (ds & -> & F2 & G). exists (c :: ds). split; [now rewrite <- app_assoc|]. split; [exact F2|].
        destruct G as [(-> & -> & G)|(-> & -> & G)]; [left|right]; repeat split; auto; tauto.
Qed.
Lemma esc_step_cases : forall s,
  (exists e v rest, 92 :: s = e ++ rest /\ escape e v /\ esc_step s = ([v], Nat.pred (length e))) \/
  (exists p rest, s = p ++ rest /\ ~ In 92 p /\ esc_step s = (92 :: flat_map addChar p, length p)).
Proof.
  intros [|c s]; [right; exists [], []; auto|]. destruct (c =? 117) eqn:C.
  2: { right. exists [], (c :: s). unfold esc_step. rewrite C. auto. }
  apply Z.eqb_eq in C. subst c.
  assert (G : forall (s0 : text) hb hex n p0, p0 <> [] -> 
     (s = p0 ++ s0) -> ~ In 92 p0 -> n = S (length p0) -> Forall low_hex hex -> (hb = false -> (length hex < 4)%nat) -> (hb = true -> (length hex <= 5)%nat) ->
     (hb = true /\ p0 = [123] /\ hex = [] \/ hb = false /\ p0 = hex) ->
     esc_loop s true false [] (addChar 92 ++ addChar 117) 1 = esc_loop s0 false hb hex (92 :: 117 :: flat_map addChar p0) n ->
     (exists e v rest, 92 :: 117 :: s = e ++ rest /\ escape e v /\ esc_step (117 :: s) = ([v], Nat.pred (length e))) \/
     (exists p rest, 117 :: s = p ++ rest /\ ~ In 92 p /\ esc_step (117 :: s) = (92 :: flat_map addChar p, length p))).
  { intros s0 hb hex n p0 NE Es NI En F L4 L5 K EQ.
    destruct (esc_loop s0 false hb hex (92 :: 117 :: flat_map addChar p0) n) as [[[[isE isN] hex'] cache'] n'] eqn:E.
    destruct (esc_loop_cases s0 hb hex _ n isE isN hex' cache' n' F L4 L5 E) as (p & rest & E1 & E2 & E3 & NI2 & S).
    assert (Es2 : 117 :: s = (117 :: p0 ++ p) ++ rest) by (cbn [app]; now rewrite Es, E1, <- app_assoc).
    assert (NI3 : ~ In 92 (117 :: p0 ++ p)) by (intros [X|X]; [discriminate X|]; apply in_app_iff in X as [X|X]; auto).
    assert (Fail : forall x, esc_step (117 :: s) = x -> x = (cache', n') ->
      (exists p rest, 117 :: s = p ++ rest /\ ~ In 92 p /\ esc_step (117 :: s) = (92 :: flat_map addChar p, length p))).
    { intros x X1 X2. exists (117 :: p0 ++ p), rest. split; [exact Es2|]. split; [exact NI3|]. rewrite X1, X2, E2, E3, En.
      cbn [flat_map length app]. rewrite flat_map_app, app_length. cbn. reflexivity. }
    assert (St : esc_step (117 :: s) = if isE && isN then match read_digs 16 hex' 0 with
      Some val => if val >=? num_codes then (cache', n') else ([val], n') | None => (cache', n') end else (cache', n')).
    { unfold esc_step. rewrite Z.eqb_refl, EQ. reflexivity. }
    destruct (isE && isN) eqn:I; [|right; eapply Fail; [exact St|reflexivity]].
    destruct (S eq_refl) as (ds & H1 & F2 & G).
    assert (NH : hex' <> []) by (destruct G as [(_ & _ & G)|(_ & _ & G)]; destruct hex'; cbn in G; try lia; discriminate).
    destruct (hex_number hex' F2 NH) as (v & V). rewrite (number_read _ _ _ V) in St. replace (0 * 16 ^ Z.of_nat (length hex') + v) with v in St by lia.
    destruct (v >=? num_codes) eqn:Q; [right; eapply Fail; [exact St|reflexivity]|]. left.
    rewrite Z.geb_leb in Q. apply Z.leb_gt in Q. unfold num_codes in Q.
    exists (92 :: 117 :: p0 ++ p), v, rest. split; [cbn [app]; now rewrite Es, E1, <- app_assoc|]. split.
    - destruct G as [(-> & -> & G)|(-> & -> & G)]; destruct K as [(K1 & -> & ->)|(K1 & ->)]; try discriminate K1.
      + cbn [app] in H1 |- *. subst ds. apply es_brace; [exact V|lia|exact Q].
      + rewrite <- H1. apply es_four; [exact V|exact G].
    - rewrite St, E2, En. f_equal. cbn [length Nat.pred]. rewrite app_length. lia. }
  destruct s as [|c s].
  - right. exists [117], []. repeat split; auto. intros [X|[]]; discriminate X.
  - destruct (c =? 123) eqn:B.
    + apply Z.eqb_eq in B. subst c. apply (G s true [] 2%nat [123]); try reflexivity; try discriminate; auto; [intros [X|[]]; discriminate X|cbn; lia].
    + destruct (isHexDigit c) eqn:H.
      * apply (G s false [c] 2%nat [c]); try reflexivity; try discriminate; auto.
        -- intros [X|[]]. subst c. discriminate H.
        -- cbn [esc_loop negb andb]. rewrite B, H. cbn [andb negb app length Nat.eqb]. cbn [flat_map]. rewrite app_nil_r. reflexivity.
      * right. exists [117], (c :: s). repeat split; [intros [X|[]]; discriminate X|]. unfold esc_step. rewrite Z.eqb_refl. cbn [esc_loop negb andb].
        rewrite B, H. reflexivity.
Qed.

(** ** Strings *)
Lemma plain_text : forall p rest, ~ In 92 p -> toInternal true (p ++ rest) O = flat_map addChar p ++ toInternal true rest O.
Proof.
  induction p as [|c p IH]; intros rest N; [reflexivity|]. cbn [app toInternal flat_map].
  assert ((c =? 92) = false) as -> by (apply Z.eqb_neq; intros ->; apply N; now left). cbn [negb orb].
  rewrite IH, app_assoc; [reflexivity|]. intro X. apply N. now right.
Qed.
Lemma backslash_escape : forall e v r, escape e v -> toInternal true (e ++ r) O = v :: toInternal true r O.
Proof.
  intros e v r H. destruct (escape_read e v H) as (s & -> & R). cbn [app]. rewrite toInternal_backslash, R. cbn [fst snd app].
  f_equal. apply (toInternal_skip true (117 :: s) r).
Qed.
Lemma backslash_char : forall s, (forall e v r, escape e v -> 92 :: s <> e ++ r) -> toInternal true (92 :: s) O = 92 :: toInternal true s O.
Proof.
  intros s N. destruct (esc_step_cases s) as [(e & v & rest & E & X & _)|(p & rest & -> & NI & E)]; [exfalso; exact (N e v rest X E)|].
  rewrite toInternal_backslash, E. cbn [fst snd app]. f_equal. rewrite toInternal_skip. symmetry. now apply plain_text.
Qed.
Lemma characters_unique : forall s l, characters s l -> str_ofText true s = l.
Proof.
  unfold str_ofText. intros s l H. induction H as [|e v s l He _ IH|c s l Hc N _ IH|c s l Hc _ IH].
  - reflexivity.
  - rewrite backslash_escape with (1 := He). now rewrite IH.
  - destruct (Z.eq_dec c 92) as [->|N92]; [rewrite backslash_char by exact (N eq_refl); now rewrite IH|].
    cbn [toInternal]. apply Z.eqb_neq in N92. rewrite N92. cbn [negb orb]. unfold addChar.
    replace (127 <? c) with false by (symmetry; apply Z.ltb_ge; lia). replace (c <? 32) with false by (symmetry; apply Z.ltb_ge; lia).
    cbn. now rewrite IH.
  - cbn [toInternal]. assert ((c =? 92) = false) as -> by (apply Z.eqb_neq; lia). cbn [negb orb]. unfold addChar.
    replace ((127 <? c) || (c <? 32)) with true; [exact IH|]. symmetry. apply orb_true_iff. destruct Hc; [right|left]; apply Z.ltb_lt; lia.
Qed.
Lemma characters_total : forall n s, (length s <= n)%nat -> exists l, characters s l.
Proof.
  induction n as [|n IH]; intros [|c s] L; try (exists []; apply ch_nil); cbn [length] in L; [lia|].
  destruct (IH s) as (l & Hl); [lia|].
  destruct (Z.ltb_spec c 32); [exists l; apply ch_control; auto|]. destruct (Z.ltb_spec 127 c); [exists l; apply ch_control; auto|].
  destruct (Z.eq_dec c 92) as [->|N92]; [|exists (c :: l); apply ch_char; [lia|congruence|exact Hl]].
  destruct (esc_step_cases s) as [(e & v & rest & E & X & _)|(p & rest & -> & NI & E)].
  - rewrite E. destruct (escape_read e v X) as (s1 & -> & _). destruct (IH rest) as (l1 & Hl1).
    + cbn [app] in E. injection E as ->. cbn [length] in L. rewrite app_length in L. lia.
    + exists (v :: l1). now apply ch_escape.
  - exists (92 :: l). apply ch_char; [lia| |exact Hl]. intros _ e v r X Y.
    destruct (escape_read e v X) as (s1 & -> & R). cbn [app] in Y. injection Y as Y. rewrite Y, R in E. injection E as _ E1 E2.
    destruct p as [|x p]; [discriminate E2|]. cbn [app] in Y. injection Y as -> _. discriminate E1.
Qed.
Lemma characters_iff : forall s l, characters s l <-> str_ofText true s = l.
Proof.
  intros s l. split; [apply characters_unique|]. intros <-. destruct (characters_total _ s (le_n _)) as (l & H). now rewrite (characters_unique _ _ H).
Qed.
