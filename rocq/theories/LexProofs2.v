(** The scanner implements the lexical grammar. *)
From Coq Require Import ZArith List Bool String Lia.
From Verif Require Import Base Lexer SpecLex LexProofs.
Import ListNotations.
Open Scope Z_scope.

Lemma push_plain : forall tok b, 0 <= b < 256 -> pushChar tok b = tok ++ [b].
Proof. intros tok b H. unfold pushChar. rewrite Z.mod_small by exact H. reflexivity. Qed.
Lemma save_plain : forall b bs, 0 <= b -> saveChar b bs = b :: bs.
Proof.
  intros b [|d bs] H; cbn [saveChar]; [|reflexivity].
  replace (b =? c_eof) with false; [reflexivity|]. symmetry. apply Z.eqb_neq. unfold c_eof. lia.
Qed.
Lemma neof : forall b, 0 <= b -> (b =? c_eof) = false.
Proof. intros b H. apply Z.eqb_neq. unfold c_eof. lia. Qed.
Lemma plain_app : forall a b, plain (a ++ b) <-> plain a /\ plain b.
Proof. intros a b. apply Forall_app. Qed.
Lemma plain_cons : forall c b, plain (c :: b) <-> 0 <= c < 255 /\ plain b.
Proof. intros c b. split; [intros H; plain_inv H; auto|intros [? ?]; apply Forall_cons; auto]. Qed.

Definition cls (cc : cclass) (c : Z) : Prop := isClass cc c = true.

(** ** Runs of characters of a class *)
Lemma charlist_run : forall cc d rest tok, plain d -> plain rest -> Forall (cls cc) d ->
  stops (cls cc) rest -> parseCharList cc tok (d ++ rest) = (tok ++ d, rest).
Proof.
  intros cc d; induction d as [|c d IH]; intros rest tok Hd Hr F S.
  - rewrite app_nil_r. cbn [app]. destruct rest as [|c r]; [reflexivity|].
    cbn [parseCharList]. cbn in S. destruct (isClass cc c) eqn:E; [elim S; exact E|].
    apply plain_cons in Hr. rewrite save_plain by lia. reflexivity.
  - cbn [app parseCharList]. inversion F as [|? ? F1 F2]; subst. rewrite F1.
    apply plain_cons in Hd. destruct Hd as [Hc Hd].
    rewrite push_plain by lia. rewrite IH by assumption. rewrite <- app_assoc. reflexivity.
Qed.
Lemma run_split : forall cc bs, exists d rest, bs = d ++ rest /\ Forall (cls cc) d /\
  stops (cls cc) rest.
Proof.
  intros cc; induction bs as [|c bs (d & rest & E & F & S)].
  - exists [], []. repeat split; constructor.
  - destruct (isClass cc c) eqn:Ec.
    + exists (c :: d), rest. subst. repeat split; [|exact S]. apply Forall_cons; assumption.
    + exists [], (c :: bs). repeat split; [constructor|]. cbn. unfold cls. congruence.
Qed.
Lemma nonempty_run : forall cc d rest tok, d <> [] -> plain d -> plain rest ->
  Forall (cls cc) d -> stops (cls cc) rest ->
  parseNonEmptyCharList cc tok (d ++ rest) = (true, tok ++ d, rest).
Proof.
  intros cc [|c d] rest tok Hn Hd Hr F S; [congruence|].
  unfold parseNonEmptyCharList. cbn [app nextChar]. inversion F as [|? ? F1 F2]; subst.
  rewrite F1. apply plain_cons in Hd. destruct Hd as [Hc Hd].
  rewrite push_plain by lia. rewrite charlist_run by assumption.
  rewrite <- app_assoc. reflexivity.
Qed.
Lemma nonempty_fail : forall cc bs tok, stops (cls cc) bs ->
  parseNonEmptyCharList cc tok bs = (false, tok, tl bs).
Proof.
  intros cc [|c bs] tok S; unfold parseNonEmptyCharList; cbn [nextChar tl].
  - replace (isClass cc c_eof) with false by (destruct cc; reflexivity). reflexivity.
  - cbn in S. unfold cls in S. destruct (isClass cc c); [congruence|]. reflexivity.
Qed.

Lemma stops_iff : forall (P Q : Z -> Prop) rest, plain rest ->
  (forall c, 0 <= c < 256 -> (P c <-> Q c)) -> (stops P rest <-> stops Q rest).
Proof.
  intros P Q [|c r] Hp H; [tauto|]. cbn. apply plain_cons in Hp.
  rewrite (H c) by lia. tauto.
Qed.
Lemma Forall_iff_plain : forall (P Q : Z -> Prop) l, plain l ->
  (forall c, 0 <= c < 256 -> (P c <-> Q c)) -> (Forall P l <-> Forall Q l).
Proof.
  intros P Q l Hp H. unfold plain in Hp. rewrite Forall_forall in Hp. rewrite !Forall_forall.
  split; intros G x Hx; apply (H x); auto; specialize (Hp x Hx); cbn in Hp; lia.
Qed.
Lemma cls_digit : forall c, 0 <= c < 256 -> (cls CDigit c <-> In c digits).
Proof. intros c H. apply (isClass_in CDigit c H). Qed.
Lemma cls_hex : forall c, 0 <= c < 256 -> (cls CHex c <-> In c hex_digits).
Proof. intros c H. apply (isClass_in CHex c H). Qed.
Lemma cls_bit : forall c, 0 <= c < 256 -> (cls CBit c <-> (c = 48 \/ c = 49)).
Proof.
  intros c H. unfold cls. rewrite (isClass_in CBit c H). cbn. intuition.
Qed.
Lemma cls_sym : forall c, 0 <= c < 256 -> (cls CSym c <-> sym_char c).
Proof. exact class_sym. Qed.

(** ** Layout *)
Lemma comment_skip : forall b r, plain b -> ~ In 10 b -> skipSpace true (b ++ r) = skipSpace true r.
Proof.
  induction b as [|c b IH]; intros r Hp Hn; [reflexivity|].
  apply plain_cons in Hp. destruct Hp as [Hc Hp]. cbn [app skipSpace]. rewrite neof by lia.
  assert (E : (c =? 10) = false) by (apply Z.eqb_neq; intros ->; apply Hn; left; reflexivity).
  rewrite E. cbn [negb]. apply IH; [exact Hp|]. intros X. apply Hn. right. exact X.
Qed.
Lemma layout_skip : forall s r, plain s -> layout s -> skipSpace false (s ++ r) = skipSpace false r.
Proof.
  intros s r Hp L; induction L as [|c s Hc L IH|b s Hb L IH]; [reflexivity| |].
  - apply plain_cons in Hp. destruct Hp as [H1 H2]. cbn [app skipSpace]. rewrite neof by lia.
    assert (E : isClass CWhitespace c = true) by (apply isClass_in; [lia|exact Hc]).
    rewrite E. apply IH. exact H2.
  - apply plain_cons in Hp. destruct Hp as [H1 H2]. apply plain_app in H2. destruct H2 as [H2 H3].
    apply plain_cons in H3. destruct H3 as [_ H3].
    cbn [app]. rewrite <- app_assoc. cbn [skipSpace].
    replace (59 =? c_eof) with false by reflexivity.
    replace (isClass CWhitespace 59) with false by reflexivity.
    replace (59 =? 59) with true by reflexivity.
    rewrite comment_skip by assumption. cbn [app skipSpace].
    replace (10 =? c_eof) with false by reflexivity.
    replace (negb (10 =? 10)) with false by reflexivity. apply IH. exact H3.
Qed.
Lemma layout_app : forall a b, layout a -> layout b -> layout (a ++ b).
Proof.
  intros a b La Lb; induction La as [|c s Hc L IH|bd s Hb L IH]; [exact Lb| |].
  - cbn. constructor; assumption.
  - cbn [app]. rewrite <- app_assoc. cbn [app]. apply lay_comment; assumption.
Qed.

Definition skips (cm : bool) (bs : text) : Prop :=
  match skipSpace cm bs with
  | (b, r) =>
      (b = -1 /\ r = [] /\
       (if cm then exists c, (~ In 10 c) /\ (bs = c \/ exists s, final_layout s /\ bs = c ++ 10 :: s)
        else final_layout bs)) \/
      (0 <= b /\ ~ In b spaces /\ b <> 59 /\
       (if cm then exists c s, ~ In 10 c /\ layout s /\ bs = c ++ 10 :: s ++ b :: r
        else exists s, layout s /\ bs = s ++ b :: r))
  end.
Lemma final_cons : forall c s, In c spaces -> final_layout s -> final_layout (c :: s).
Proof.
  intros c s H [s' L|s' b L Hb].
  - apply fl_layout. constructor; assumption.
  - apply (fl_comment (c :: s') b); [|exact Hb]. constructor; assumption.
Qed.
Lemma final_comment : forall b s, ~ In 10 b -> final_layout s -> final_layout (59 :: b ++ 10 :: s).
Proof.
  intros b s H [s' L|s' b' L Hb].
  - apply fl_layout. apply lay_comment; assumption.
  - replace (59 :: b ++ 10 :: s' ++ 59 :: b') with ((59 :: b ++ 10 :: s') ++ 59 :: b')
      by (cbn [app]; rewrite <- app_assoc; reflexivity).
    apply fl_comment; [|exact Hb]. apply lay_comment; assumption.
Qed.
Lemma plain_bytes : forall s, plain s -> bytes s.
Proof. intros s H. eapply Forall_impl; [|exact H]. cbn. lia. Qed.
Lemma skip_spec : forall bs cm, bytes bs -> skips cm bs.
Proof.
  induction bs as [|c bs IH]; intros cm H.
  - unfold skips. cbn. left. repeat split. destruct cm.
    + exists []. split; [intros []|left; reflexivity].
    + apply fl_layout. constructor.
  - assert (Hc : 0 <= c < 256) by (inversion H; assumption).
    assert (H' : bytes bs) by (inversion H; assumption). clear H. rename H' into H. unfold skips. cbn [skipSpace].
    rewrite neof by lia. destruct cm.
    + destruct (c =? 10) eqn:E; cbn [negb].
      * apply Z.eqb_eq in E. subst c. specialize (IH false H). unfold skips in IH.
        destruct (skipSpace false bs) as [b r].
        destruct IH as [(-> & -> & F) | (Hb & N1 & N2 & s & L & ->)].
        -- left. repeat split. exists []. split; [intros []|]. right. exists bs. auto.
        -- right. repeat split; auto. exists [], s. split; [intros []|auto].
      * apply Z.eqb_neq in E. specialize (IH true H). unfold skips in IH.
        destruct (skipSpace true bs) as [b r].
        destruct IH as [(-> & -> & d & Nd & [-> | (s & F & ->)]) | (Hb & N1 & N2 & d & s & Nd & L & ->)].
        -- left. repeat split. exists (c :: d). split; [intros [X|X]; [congruence|exact (Nd X)]|].
           left. reflexivity.
        -- left. repeat split. exists (c :: d). split; [intros [X|X]; [congruence|exact (Nd X)]|].
           right. exists s. auto.
        -- right. repeat split; auto. exists (c :: d), s. 
           split; [intros [X|X]; [congruence|exact (Nd X)]|]. auto.
    + destruct (isClass CWhitespace c) eqn:E.
      * assert (Sp : In c spaces) by (apply (isClass_in CWhitespace); [lia|exact E]).
        specialize (IH false H). unfold skips in IH. destruct (skipSpace false bs) as [b r].
        destruct IH as [(-> & -> & F) | (Hb & N1 & N2 & s & L & ->)].
        -- left. repeat split. apply final_cons; assumption.
        -- right. repeat split; auto. exists (c :: s). split; [constructor; assumption|reflexivity].
      * destruct (c =? 59) eqn:E9.
        -- apply Z.eqb_eq in E9. subst c. specialize (IH true H). unfold skips in IH.
           destruct (skipSpace true bs) as [b r].
           destruct IH as [(-> & -> & d & Nd & [-> | (s & F & ->)]) | (Hb & N1 & N2 & d & s & Nd & L & ->)].
           ++ left. repeat split. apply (fl_comment [] d); [constructor|exact Nd].
           ++ left. repeat split. apply final_comment; assumption.
           ++ right. repeat split; auto. exists (59 :: d ++ 10 :: s). split; [apply lay_comment; assumption|].
              cbn [app]. rewrite <- app_assoc. reflexivity.
        -- right. repeat split; [lia| | |].
           ++ intros X. apply (isClass_in CWhitespace) in X; [congruence|lia].
           ++ intros ->. discriminate E9.
           ++ exists []. split; [constructor|reflexivity].
Qed.
Lemma final_layout_skip : forall s, plain s -> final_layout s -> skipSpace false s = (-1, []).
Proof.
  intros s Hp F. destruct F as [s' L|s' b L Hb].
  - rewrite <- (app_nil_r s'). rewrite layout_skip by assumption. reflexivity.
  - apply plain_app in Hp. destruct Hp as [H1 H2]. rewrite layout_skip by assumption.
    apply plain_cons in H2. destruct H2 as [_ H2].
    cbn [skipSpace]. replace (59 =? c_eof) with false by reflexivity.
    replace (isClass CWhitespace 59) with false by reflexivity. replace (59 =? 59) with true by reflexivity.
    rewrite <- (app_nil_r b). rewrite comment_skip by assumption. reflexivity.
Qed.

(** ** Quoted symbols and strings *)
Lemma quoted_run : forall b rest tok, plain b -> ~ In 124 b ->
  scanQuoted tok (b ++ 124 :: rest) = (true, tok ++ b ++ [124], rest).
Proof.
  induction b as [|c b IH]; intros rest tok Hp Hn.
  - cbn [app scanQuoted]. replace (124 =? c_eof) with false by reflexivity.
    replace (124 =? 124) with true by reflexivity. reflexivity.
  - apply plain_cons in Hp. destruct Hp as [Hc Hp]. cbn [app scanQuoted]. rewrite neof by lia.
    assert (E : (c =? 124) = false) by (apply Z.eqb_neq; intros ->; apply Hn; left; reflexivity).
    rewrite E, IH; [|exact Hp|intros X; apply Hn; right; exact X].
    rewrite push_plain by lia. rewrite <- !app_assoc. reflexivity.
Qed.
Lemma quoted_open : forall b tok, plain b -> ~ In 124 b -> scanQuoted tok b = (false, tok ++ b, []).
Proof.
  induction b as [|c b IH]; intros tok Hp Hn.
  - cbn. rewrite app_nil_r. reflexivity.
  - apply plain_cons in Hp. destruct Hp as [Hc Hp]. cbn [scanQuoted]. rewrite neof by lia.
    assert (E : (c =? 124) = false) by (apply Z.eqb_neq; intros ->; apply Hn; left; reflexivity).
    rewrite E, IH; [|exact Hp|intros X; apply Hn; right; exact X].
    rewrite push_plain by lia. rewrite <- app_assoc. reflexivity.
Qed.
Lemma quoted_split : forall bs, (~ In 124 bs) \/ exists b rest, bs = b ++ 124 :: rest /\ ~ In 124 b.
Proof.
  induction bs as [|c bs [N | (b & rest & -> & N)]]; [left; intros []| |];
    (destruct (Z.eq_dec c 124) as [-> | Hc];
     [right; exists [], (bs) || exists [], (b ++ 124 :: rest); split; [reflexivity|intros []]|]).
  - left. intros [X|X]; [congruence|exact (N X)].
  - right. exists (c :: b), rest. split; [reflexivity|]. intros [X|X]; [congruence|exact (N X)].
Qed.

Lemma string_run : forall b rest tok, plain b -> plain rest -> stops (eq 34) rest ->
  scanString tok (double_quotes b ++ 34 :: rest) = (true, tok ++ double_quotes b ++ [34], rest).
Proof.
  induction b as [|c b IH]; intros rest tok Hp Hr S.
  - cbn [double_quotes app scanString]. replace (34 =? c_eof) with false by reflexivity.
    replace (34 =? 34) with true by reflexivity. rewrite push_plain by lia.
    destruct rest as [|d r]; [reflexivity|]. cbn in S.
    replace (d =? 34) with false by (symmetry; apply Z.eqb_neq; congruence).
    apply plain_cons in Hr. rewrite save_plain by lia. reflexivity.
  - apply plain_cons in Hp. destruct Hp as [Hc Hp]. cbn [double_quotes].
    destruct (c =? 34) eqn:E.
    + cbn [app scanString]. replace (34 =? c_eof) with false by reflexivity.
      replace (34 =? 34) with true by reflexivity. rewrite IH by assumption.
      rewrite !push_plain by lia. rewrite <- !app_assoc. reflexivity.
    + cbn [app scanString]. rewrite neof by lia. rewrite E. rewrite IH by assumption.
      rewrite push_plain by lia. rewrite <- !app_assoc. reflexivity.
Qed.
Lemma string_open : forall b tok, plain b ->
  scanString tok (double_quotes b) = (false, tok ++ double_quotes b, []).
Proof.
  induction b as [|c b IH]; intros tok Hp.
  - cbn. rewrite app_nil_r. reflexivity.
  - apply plain_cons in Hp. destruct Hp as [Hc Hp]. cbn [double_quotes].
    destruct (c =? 34) eqn:E.
    + cbn [scanString]. replace (34 =? c_eof) with false by reflexivity.
      replace (34 =? 34) with true by reflexivity. rewrite IH by assumption.
      rewrite !push_plain by lia. rewrite <- !app_assoc. reflexivity.
    + cbn [scanString]. rewrite neof by lia. rewrite E. rewrite IH by assumption.
      rewrite push_plain by lia. rewrite <- !app_assoc. reflexivity.
Qed.
Lemma string_split : forall n bs, (List.length bs <= n)%nat ->
  (exists b, bs = double_quotes b) \/
  exists b rest, bs = double_quotes b ++ 34 :: rest /\ stops (eq 34) rest.
Proof.
  induction n as [|n IH]; intros [|c bs] Hn; cbn [List.length] in Hn; try lia;
    try (left; exists []; reflexivity).
  destruct (Z.eq_dec c 34) as [-> | Hc].
  - destruct bs as [|d bs].
    + right. exists [], []. split; [reflexivity|exact I].
    + destruct (Z.eq_dec d 34) as [-> | Hd].
      * cbn [List.length] in Hn. destruct (IH bs ltac:(lia)) as [(b & ->) | (b & rest & -> & S)].
        -- left. exists (34 :: b). reflexivity.
        -- right. exists (34 :: b), rest. split; [reflexivity|exact S].
      * right. exists [], (d :: bs). split; [reflexivity|]. cbn. congruence.
  - destruct (IH bs ltac:(lia)) as [(b & ->) | (b & rest & -> & S)].
    + left. exists (c :: b). cbn. apply Z.eqb_neq in Hc. rewrite Hc. reflexivity.
    + right. exists (c :: b), rest. split; [|exact S]. cbn [double_quotes]. apply Z.eqb_neq in Hc.
      rewrite Hc. reflexivity.
Qed.
Lemma double_plain : forall b, plain (double_quotes b) -> plain b.
Proof.
  induction b as [|c b IH]; intros H; [exact H|]. cbn [double_quotes] in H.
  destruct (c =? 34) eqn:E.
  - apply Z.eqb_eq in E. subst c. apply plain_cons in H. destruct H as [H1 H].
    apply plain_cons in H. destruct H as [_ H]. apply plain_cons. auto.
  - apply plain_cons in H. destruct H as [H1 H]. apply plain_cons. auto.
Qed.

(** ** Symbols *)
Lemma neg_other : forall r ret, ret <> T_INTEGER ->
  (Forall (cls CDigit) r /\ negative_number r ret = ret) \/
  (~ Forall (cls CDigit) r /\ negative_number r ret = T_SYMBOL).
Proof.
  induction r as [|c r IH]; intros ret Hr; [left; split; [constructor|reflexivity]|].
  cbn [negative_number]. destruct (isClass CDigit c) eqn:E.
  - destruct (IH ret Hr) as [[F ->] | [F ->]]; [left|right].
    + split; [apply Forall_cons; assumption|reflexivity].
    + split; [|reflexivity]. intros X. inversion X; subst. auto.
  - right. split; [intros X; inversion X; subst; unfold cls in *; congruence|].
    destruct r, ret; congruence || reflexivity.
Qed.
Definition neg_shape (r : text) (t : token) : Prop :=
  (t = T_INTEGER /\ Forall (cls CDigit) r) \/
  (exists d e, e <> [] /\ Forall (cls CDigit) d /\ Forall (cls CDigit) e /\
     (t = T_DECIMAL /\ r = d ++ 46 :: e \/ t = T_RATIONAL /\ r = d ++ 47 :: e)).
Lemma neg_shape_cons : forall c r t, cls CDigit c -> (neg_shape (c :: r) t <-> neg_shape r t).
Proof.
  intros c r t Hc. unfold neg_shape. split.
  - intros [[-> F] | (d & e & Ne & Fd & Fe & D)].
    + left. inversion F; subst. auto.
    + destruct d as [|c' d].
      * cbn [app] in D. destruct D as [[_ D] | [_ D]]; injection D as -> _; discriminate Hc.
      * inversion Fd; subst. right. exists d, e. repeat split; auto.
        destruct D as [[-> D] | [-> D]]; cbn [app] in D; injection D as _ ->; auto.
  - intros [[-> F] | (d & e & Ne & Fd & Fe & D)].
    + left. split; [reflexivity|]. apply Forall_cons; assumption.
    + right. exists (c :: d), e. repeat split; auto.
      destruct D as [[-> ->] | [-> ->]]; [left|right]; split; reflexivity.
Qed.
Lemma neg_int_spec : forall r, 
  (exists t, neg_shape r t /\ negative_number r T_INTEGER = t) \/
  ((forall t, ~ neg_shape r t) /\ negative_number r T_INTEGER = T_SYMBOL).
Proof.
  induction r as [|c r IH].
  - left. exists T_INTEGER. split; [left; split; [reflexivity|constructor]|reflexivity].
  - cbn [negative_number]. destruct (isClass CDigit c) eqn:E.
    + destruct IH as [(t & S & ->) | [N ->]].
      * left. exists t. split; [apply neg_shape_cons; assumption|reflexivity].
      * right. split; [|reflexivity]. intros t X. apply neg_shape_cons in X; [|exact E]. exact (N t X).
    + assert (X : forall t, neg_shape (c :: r) t ->
        (c = 46 /\ t = T_DECIMAL \/ c = 47 /\ t = T_RATIONAL) /\ r <> [] /\ Forall (cls CDigit) r).
      { intros t [[-> F] | (d & e & Ne & Fd & Fe & D)].
        - inversion F; subst. unfold cls in *. congruence.
        - destruct d as [|c' d].
          + cbn [app] in D. destruct D as [[-> D] | [-> D]]; injection D as -> ->; auto.
          + inversion Fd; subst. destruct D as [[_ D] | [_ D]]; cbn [app] in D; injection D as -> _;
              unfold cls in *; congruence. }
      destruct r as [|c' r].
      { right. split; [|reflexivity]. intros t Hx. destruct (X t Hx) as (_ & Y & _). congruence. }
      destruct (c =? 46) eqn:E1; [|destruct (c =? 47) eqn:E2].
      * apply Z.eqb_eq in E1. subst c.
        destruct (neg_other (c' :: r) T_DECIMAL ltac:(discriminate)) as [[F ->] | [F ->]].
        -- left. exists T_DECIMAL. split; [|reflexivity]. right. exists [], (c' :: r).
           repeat split; auto; discriminate.
        -- right. split; [|reflexivity]. intros t Hx. destruct (X t Hx) as (_ & _ & Y). exact (F Y).
      * apply Z.eqb_eq in E2. subst c.
        destruct (neg_other (c' :: r) T_RATIONAL ltac:(discriminate)) as [[F ->] | [F ->]].
        -- left. exists T_RATIONAL. split; [|reflexivity]. right. exists [], (c' :: r).
           repeat split; auto; discriminate.
        -- right. split; [|reflexivity]. intros t Hx. destruct (X t Hx) as (_ & _ & Y). exact (F Y).
      * right. split; [|reflexivity]. intros t Hx. destruct (X t Hx) as ([[-> _] | [-> _]] & _ & _);
          discriminate.
Qed.
Lemma negative_shape : forall r t, plain r -> r <> [] -> (negative (45 :: r) t <-> neg_shape r t).
Proof.
  intros r t Hp Hn.
  assert (D : forall l, plain l -> (Forall (cls CDigit) l <-> Forall (fun c => In c digits) l)).
  { intros l Hl. apply Forall_iff_plain; [exact Hl|exact cls_digit]. }
  split.
  - intros H. inversion H as [d Nd F E|d e Ne Fd Fe E|d e Ne Fd Fe E]; subst.
    + left. split; [reflexivity|]. apply D; assumption.
    + apply plain_app in Hp. destruct Hp as [P1 P2]. apply plain_cons in P2. destruct P2 as [_ P2].
      right. exists d, e. repeat split; auto; apply D; assumption.
    + apply plain_app in Hp. destruct Hp as [P1 P2]. apply plain_cons in P2. destruct P2 as [_ P2].
      right. exists d, e. repeat split; auto; apply D; assumption.
  - intros [[-> F] | (d & e & Ne & Fd & Fe & [[-> ->] | [-> ->]])].
    + apply neg_int; [exact Hn|]. apply D; assumption.
    + apply plain_app in Hp. destruct Hp as [P1 P2]. apply plain_cons in P2. destruct P2 as [_ P2].
      apply neg_dec; [exact Ne|apply D; assumption|apply D; assumption].
    + apply plain_app in Hp. destruct Hp as [P1 P2]. apply plain_cons in P2. destruct P2 as [_ P2].
      apply neg_rat; [exact Ne|apply D; assumption|apply D; assumption].
Qed.

Definition word (ll lt : bool) (s : text) (t : token) : Prop :=
  negative s t \/ reserved ll lt s t \/
  (t = T_SYMBOL /\ (forall u, ~ negative s u) /\ (forall u, ~ reserved ll lt s u)).

Lemma not_negative : forall s, (forall r, s = 45 :: r -> r = []) -> forall u, ~ negative s u.
Proof.
  intros s H u N. inversion N; subst.
  - specialize (H _ eq_refl). congruence.
  - specialize (H _ eq_refl). destruct d; discriminate.
  - specialize (H _ eq_refl). destruct d; discriminate.
Qed.
Lemma negative_minus : forall s u, negative s u -> exists r, s = 45 :: r /\ r <> [].
Proof.
  intros s u N. inversion N; subst; eexists; (split; [reflexivity|]); [assumption| |];
    destruct d; discriminate.
Qed.
Lemma tokenize_word : forall ll lt s, plain s -> word ll lt s (tokenizeCurrentSymbol ll lt s).
Proof.
  intros ll lt s Hp.
  assert (C : (exists r, s = 45 :: r /\ r <> []) \/ (forall r, s = 45 :: r -> r = [])).
  { destruct s as [|c r]; [right; intros r X; discriminate X|].
    destruct (Z.eq_dec c 45) as [-> | N].
    - destruct r as [|x r]; [right; intros r X; injection X as <-; reflexivity|].
      left. eexists. split; [reflexivity|discriminate].
    - right. intros r' X. injection X as E _. congruence. }
  destruct C as [(r & -> & Hn) | Hn].
  - apply plain_cons in Hp. destruct Hp as [_ Hp].
    replace (tokenizeCurrentSymbol ll lt (45 :: r)) with (negative_number r T_INTEGER)
      by (destruct r; [congruence|reflexivity]).
    destruct (neg_int_spec r) as [(t & S & ->) | [N ->]].
    + left. apply negative_shape; assumption.
    + right. right. split; [reflexivity|]. split.
      * intros u X. apply negative_shape in X; try assumption. exact (N u X).
      * intros u X. inversion X.
  - assert (Hneg := not_negative s Hn).
    assert (E : tokenizeCurrentSymbol ll lt s =
      if text_eqb s (txt "!") then T_ATTRIBUTE
      else if text_eqb s (txt "eo::define") then T_EVAL_DEFINE
      else if text_eqb s (txt "par") then T_PAR
      else if ll && text_eqb s (txt "let") then T_LET
      else if text_eqb s (txt "Bool") then T_BOOL_TYPE
      else if lt && text_eqb s (txt "Type") then T_TYPE
      else T_SYMBOL).
    { destruct s as [|c r]; [reflexivity|]. destruct (Z.eq_dec c 45) as [-> | N].
      - rewrite (Hn r eq_refl). reflexivity.
      - destruct r as [|x r]; unfold tokenizeCurrentSymbol;
          destruct c as [|p|p]; try reflexivity;
          repeat (destruct p as [p|p|]; try reflexivity); congruence. }
    rewrite E. clear E.
    destruct (text_eqb s (txt "!")) eqn:E1.
    { apply text_eqb_eq in E1. subst s. right. left. constructor. }
    destruct (text_eqb s (txt "eo::define")) eqn:E2.
    { apply text_eqb_eq in E2. subst s. right. left. constructor. }
    destruct (text_eqb s (txt "par")) eqn:E3.
    { apply text_eqb_eq in E3. subst s. right. left. constructor. }
    destruct (ll && text_eqb s (txt "let")) eqn:E4.
    { apply andb_true_iff in E4. destruct E4 as [E0 E4].
      apply text_eqb_eq in E4. subst s. right. left. constructor. exact E0. }
    destruct (text_eqb s (txt "Bool")) eqn:E5.
    { apply text_eqb_eq in E5. subst s. right. left. constructor. }
    destruct (lt && text_eqb s (txt "Type")) eqn:E6.
    { apply andb_true_iff in E6. destruct E6 as [E0 E6].
      apply text_eqb_eq in E6. subst s. right. left. constructor. exact E0. }
    right. right. split; [reflexivity|]. split; [exact Hneg|].
    intros u X.
    assert (R : forall a, text_eqb a a = true) by (intros a; apply text_eqb_eq; reflexivity).
    inversion X; subst s; try rewrite R in *; try rewrite andb_true_r in *; congruence.
Qed.
Lemma word_unique : forall ll lt s t u, word ll lt s t -> word ll lt s u -> plain s -> t = u.
Proof.
  assert (NR : forall ll lt s t u, negative s t -> reserved ll lt s u -> False).
  { intros ll lt s t u N R. apply negative_minus in N. destruct N as (r & -> & Hn). inversion R. }
  assert (RR : forall ll lt s t u, reserved ll lt s t -> reserved ll lt s u -> t = u).
  { intros ll lt s t u R1 R2. inversion R1; subst; inversion R2; subst; reflexivity. }
  assert (NN : forall s t u, plain s -> negative s t -> negative s u -> t = u).
  { intros s t u Hp N1 N2. destruct (negative_minus _ _ N1) as (r & -> & Hn).
    apply plain_cons in Hp. destruct Hp as [_ Hp].
    apply negative_shape in N1; try assumption. apply negative_shape in N2; try assumption.
    revert N1 N2. clear. induction r as [|c r IH]; intros N1 N2.
    - destruct N1 as [[-> _] | (d & e & _ & _ & _ & [[_ X] | [_ X]])];
        [|destruct d; discriminate|destruct d; discriminate].
      destruct N2 as [[-> _] | (d & e & _ & _ & _ & [[_ X] | [_ X]])];
        [reflexivity|destruct d; discriminate|destruct d; discriminate].
    - destruct (isClass CDigit c) eqn:E.
      + apply neg_shape_cons in N1; [|exact E]. apply neg_shape_cons in N2; [|exact E]. auto.
      + assert (X : forall t, neg_shape (c :: r) t ->
          (c = 46 /\ t = T_DECIMAL \/ c = 47 /\ t = T_RATIONAL)).
        { intros v [[-> F] | (d & e & Ne & Fd & Fe & D)].
          - inversion F; subst. unfold cls in *. congruence.
          - destruct d as [|c' d].
            + cbn [app] in D. destruct D as [[-> D] | [-> D]]; injection D as -> ->; auto.
            + inversion Fd; subst. destruct D as [[_ D] | [_ D]]; cbn [app] in D; injection D as -> _;
                unfold cls in *; congruence. }
        apply X in N1. apply X in N2.
        destruct N1 as [[-> ->] | [-> ->]], N2 as [[? ->] | [? ->]]; congruence || reflexivity. }
  intros ll lt s t u [W1 | [W1 | (-> & W1 & W1')]] [W2 | [W2 | (-> & W2 & W2')]] Hp;
    eauto; try (exfalso; eauto; fail); try (elim (W1 _ W2)); try (elim (W1' _ W2));
    try (elim (W2 _ W1)); try (elim (W2' _ W1)).
Qed.
Lemma tokenize_is : forall ll lt s t, plain s -> word ll lt s t -> tokenizeCurrentSymbol ll lt s = t.
Proof.
  intros ll lt s t Hp W. eapply word_unique; [apply tokenize_word; exact Hp|exact W|exact Hp].
Qed.

(* ------------------------------------------------------------------ *)
(** * The next token *)

Lemma start_not_special : forall c, 0 <= c < 256 -> start_char c ->
  c <> 40 /\ c <> 41 /\ c <> 124 /\ c <> 35 /\ c <> 34 /\ c <> 58 /\ c <> 59 /\
  isClass CDigit c = false /\ ~ In c spaces /\ isClass CSymStart c = true.
Proof.
  intros c Hc Hs. apply class_start in Hs; [|exact Hc].
  assert (X : forallb (fun c => negb (isClass CSymStart c) ||
     (negb (existsb (Z.eqb c) [40; 41; 124; 35; 34; 58; 59]) && negb (isClass CDigit c) &&
      negb (isClass CWhitespace c))) (upto 256) = true) by (vm_compute; reflexivity).
  rewrite forallb_forall in X. specialize (X c (upto_in 256 c Hc)). cbn beta in X.
  rewrite Hs in X. cbn [negb orb] in X. apply andb_true_iff in X. destruct X as [X X3].
  apply andb_true_iff in X. destruct X as [X X2].
  apply negb_true_iff in X, X2, X3.
  assert (M : ~ In c [40; 41; 124; 35; 34; 58; 59]) by (intros M; apply memb_in in M; unfold memb in M; congruence).
  repeat split; try (intros ->; apply M; cbn; tauto); try assumption.
  intros Sp. apply (isClass_in CWhitespace) in Sp; [congruence|exact Hc].
Qed.
Lemma digit_not_special : forall c, 0 <= c < 256 -> In c digits ->
  c <> 40 /\ c <> 41 /\ c <> 124 /\ c <> 35 /\ c <> 34 /\ c <> 58 /\ c <> 59 /\
  isClass CDigit c = true /\ ~ In c spaces.
Proof.
  intros c Hc Hd. assert (E : isClass CDigit c = true) by (apply isClass_in; assumption).
  repeat split; try (intros ->; discriminate E); try exact E.
  intros Sp. cbn in Sp. destruct Sp as [<- | [<- | [<- | [<- | []]]]]; discriminate E.
Qed.

Lemma skip_token : forall l b r, plain (l ++ b :: r) -> layout l -> ~ In b spaces -> b <> 59 ->
  skipSpace false (l ++ b :: r) = (b, r).
Proof.
  intros l b r Hp L N1 N2. apply plain_app in Hp. destruct Hp as [P1 P2].
  rewrite layout_skip by assumption. apply plain_cons in P2. destruct P2 as [P2 P3].
  cbn [skipSpace]. rewrite neof by lia.
  destruct (isClass CWhitespace b) eqn:E.
  - apply (isClass_in CWhitespace) in E; [|lia]. elim (N1 E).
  - apply Z.eqb_neq in N2. rewrite N2. reflexivity.
Qed.

Lemma neqb : forall a b : Z, a <> b -> (a =? b) = false.
Proof. intros a b H. apply Z.eqb_neq. exact H. Qed.

Ltac split_plain :=
  repeat match goal with
  | H : plain (_ ++ _) |- _ => apply plain_app in H; destruct H
  | H : plain (_ :: _) |- _ => apply plain_cons in H; destruct H
  end.

Lemma word_token : forall ll lt c s rest t, plain (c :: s ++ rest) -> start_char c ->
  Forall sym_char s -> stops sym_char rest -> word ll lt (c :: s) t ->
  (let tok := pushChar [] c in
   let '(tok', r') := parseCharList CSym tok (s ++ rest) in
   Ok (tokenizeCurrentSymbol ll lt tok', tok', r')) = Ok (t, c :: s, rest).
Proof.
  intros ll lt c s rest t Hp Hc Hs Hr W. split_plain. cbn zeta.
  rewrite charlist_run; try assumption.
  - rewrite push_plain by lia. cbn [app].
    rewrite (tokenize_is ll lt (c :: s) t); [reflexivity| |exact W]. apply plain_cons. auto.
  - apply (Forall_iff_plain _ sym_char); [assumption|exact cls_sym|assumption].
  - apply (stops_iff _ sym_char); [assumption|exact cls_sym|assumption].
Qed.

Lemma negative_chars : forall s t, negative s t -> Forall sym_char s /\
  exists r, s = 45 :: r.
Proof.
  assert (D : forall d, Forall (fun c => In c digits) d -> Forall sym_char d).
  { intros d F. eapply Forall_impl; [|exact F]. intros a Ha. right. left. exact Ha. }
  assert (S45 : sym_char 45) by (left; right; vm_compute; tauto).
  assert (S46 : sym_char 46) by (left; right; vm_compute; tauto).
  assert (S47 : sym_char 47) by (left; right; vm_compute; tauto).
  intros s t N. inversion N; subst; split; try (eexists; reflexivity);
    apply Forall_cons; try assumption; auto; apply Forall_app; split; auto.
Qed.
Lemma memb_forall : forall s, forallb (fun c => memb c ((letters ++ punct) ++ digits ++ [58])) s = true ->
  Forall sym_char s.
Proof.
  intros s H. rewrite forallb_forall in H. apply Forall_forall. intros x Hx.
  specialize (H x Hx). apply memb_in in H. unfold sym_char, start_char.
  rewrite !in_app_iff in H. destruct H as [[H | H] | [H | [H | []]]]; auto.
Qed.
Lemma reserved_chars : forall ll lt s t, reserved ll lt s t ->
  exists c r, s = c :: r /\ start_char c /\ Forall sym_char r.
Proof.
  intros ll lt s t R. inversion R; subst; unfold txt; cbn [list_ascii_of_string map];
    do 2 eexists; (split; [reflexivity|]); split;
    try (apply memb_forall; vm_compute; reflexivity);
    unfold start_char; rewrite <- !memb_in; vm_compute; auto.
Qed.

Lemma lexeme_token : forall ll lt t s rest l, plain (l ++ s ++ rest) -> layout l ->
  lexeme ll lt t s rest ->
  computeNextToken ll lt (l ++ s ++ rest) = Ok (t, s, rest).
Proof.
  intros ll lt t s rest l Hp L Lx.
  assert (W : forall c s' , s = c :: s' -> start_char c -> Forall sym_char s' -> stops sym_char rest ->
     word ll lt s t -> computeNextToken ll lt (l ++ s ++ rest) = Ok (t, s, rest)).
  { intros c s' -> Hc Hs Hr Hw. unfold computeNextToken.
    assert (Hc' : 0 <= c < 255) by (apply plain_app in Hp; destruct Hp as [_ Hp]; cbn [app] in Hp;
      apply plain_cons in Hp; tauto).
    destruct (start_not_special c ltac:(lia) Hc) as (N1 & N2 & N3 & N4 & N5 & N6 & N7 & N8 & N9 & N10).
    cbn [app]. rewrite (skip_token l c (s' ++ rest)); try assumption.
    rewrite neof by lia. rewrite !neqb by assumption. rewrite N8, N10.
    apply word_token; try assumption. apply plain_app in Hp. tauto. }
  pose proof Hp as Hpl. apply plain_app in Hpl. destruct Hpl as [Hl Hsr].
  inversion Lx; subst.
  - (* ( *) unfold computeNextToken.
    change (txt "(" ++ rest) with (40 :: rest). 
    rewrite skip_token; [|exact Hp|exact L|cbn; intuition discriminate|discriminate]. reflexivity.
  - unfold computeNextToken.
    change (txt ")" ++ rest) with (41 :: rest). 
    rewrite skip_token; [|exact Hp|exact L|cbn; intuition discriminate|discriminate]. reflexivity.
  - cbn [app] in *. unfold computeNextToken.
    rewrite skip_token; [|exact Hp|exact L|cbn; intuition discriminate|discriminate].
    replace (124 =? c_eof) with false by reflexivity. cbn [Z.eqb Pos.eqb].
    rewrite <- app_assoc in *. cbn [app] in *. split_plain.
    rewrite quoted_run by assumption. reflexivity.
  - cbn [app] in *. unfold computeNextToken.
    rewrite skip_token; [|exact Hp|exact L|cbn; intuition discriminate|discriminate].
    replace (124 =? c_eof) with false by reflexivity. cbn [Z.eqb Pos.eqb].
    rewrite app_nil_r in *. split_plain.
    rewrite quoted_open by assumption. reflexivity.
  - cbn [app] in *. unfold computeNextToken.
    rewrite skip_token; [|exact Hp|exact L|cbn; intuition discriminate|discriminate].
    replace (34 =? c_eof) with false by reflexivity. cbn [Z.eqb Pos.eqb].
    rewrite <- app_assoc in *. cbn [app] in *. split_plain.
    rewrite string_run; try assumption; [reflexivity|]. apply double_plain. assumption.
  - cbn [app] in *. unfold computeNextToken.
    rewrite skip_token; [|exact Hp|exact L|cbn; intuition discriminate|discriminate].
    replace (34 =? c_eof) with false by reflexivity. cbn [Z.eqb Pos.eqb].
    rewrite app_nil_r in *. split_plain.
    rewrite string_open; [reflexivity|]. apply double_plain. assumption.
  - change (txt "#b") with [35; 98] in *. cbn [app] in *. unfold computeNextToken.
    rewrite skip_token; [|exact Hp|exact L|cbn; intuition discriminate|discriminate].
    replace (35 =? c_eof) with false by reflexivity. cbn [Z.eqb Pos.eqb nextChar].
    split_plain. rewrite nonempty_run; try assumption; [reflexivity| |].
    + apply (Forall_iff_plain _ (fun c => c = 48 \/ c = 49)); [assumption|exact cls_bit|assumption].
    + apply (stops_iff _ (fun c => c = 48 \/ c = 49)); [assumption|exact cls_bit|assumption].
  - change (txt "#x") with [35; 120] in *. cbn [app] in *. unfold computeNextToken.
    rewrite skip_token; [|exact Hp|exact L|cbn; intuition discriminate|discriminate].
    replace (35 =? c_eof) with false by reflexivity. cbn [Z.eqb Pos.eqb nextChar].
    split_plain. rewrite nonempty_run; try assumption; [reflexivity| |].
    + apply (Forall_iff_plain _ (fun c => In c hex_digits)); [assumption|exact cls_hex|assumption].
    + apply (stops_iff _ (fun c => In c hex_digits)); [assumption|exact cls_hex|assumption].
  - cbn [app] in *. unfold computeNextToken.
    rewrite skip_token; [|exact Hp|exact L|cbn; intuition discriminate|discriminate].
    replace (58 =? c_eof) with false by reflexivity. cbn [Z.eqb Pos.eqb nextChar].
    split_plain. replace (isClass CSymStart c) with true
      by (symmetry; apply class_start; [lia|assumption]).
    rewrite nonempty_run; try assumption.
    + rewrite push_plain by lia. reflexivity.
    + apply (Forall_iff_plain _ sym_char); [assumption|exact cls_sym|assumption].
    + apply (stops_iff _ sym_char); [assumption|exact cls_sym|assumption].
  - destruct s as [|c d]; [congruence|]. cbn [app] in *. unfold computeNextToken.
    inversion H0 as [|? ? Dc Dd]; subst. pose proof (skip_token _ _ _ Hp L) as Sk. split_plain.
    destruct (digit_not_special c ltac:(lia) Dc) as (N1 & N2 & N3 & N4 & N5 & N6 & N7 & N8 & N9).
    rewrite Sk by assumption.
    rewrite neof by lia. rewrite !neqb by assumption. rewrite N8.
    rewrite charlist_run; try assumption.
    + rewrite push_plain by lia. cbn [app].
      destruct rest as [|c' r]; cbn [nextChar]; [reflexivity|]. cbn [stops] in H1.
      rewrite (neqb c' 46), (neqb c' 47) by (intros ->; apply H1; auto). cbn [orb].
      split_plain. rewrite save_plain by lia. reflexivity.
    + apply (Forall_iff_plain _ (fun c => In c digits)); [assumption|exact cls_digit|assumption].
    + apply (stops_iff _ (fun c => In c digits)); [assumption|exact cls_digit|].
      destruct rest; [exact I|]. cbn in *. tauto.
  - destruct d as [|c d]; [congruence|]. cbn [app] in *. unfold computeNextToken.
    match goal with F : Forall _ (c :: d) |- _ => inversion F as [|? ? Dc Dd]; subst end.
    rewrite <- app_assoc in *. cbn [app] in *. pose proof (skip_token _ _ _ Hp L) as Sk. split_plain.
    destruct (digit_not_special c ltac:(lia) Dc) as (N1 & N2 & N3 & N4 & N5 & N6 & N7 & N8 & N9).
    rewrite Sk by assumption.
    rewrite neof by lia. rewrite !neqb by assumption. rewrite N8.
    rewrite charlist_run; try assumption.
    + rewrite (push_plain [] c) by lia. cbn [app nextChar]. cbn [Z.eqb Pos.eqb orb].
      rewrite nonempty_run; try assumption.
      * rewrite push_plain by lia. cbn [app]. rewrite <- app_assoc. reflexivity.
      * apply (Forall_iff_plain _ (fun c => In c digits)); [assumption|exact cls_digit|assumption].
      * apply (stops_iff _ (fun c => In c digits)); [assumption|exact cls_digit|assumption].
    + apply plain_cons. split; [lia|]. apply plain_app. auto.
    + apply (Forall_iff_plain _ (fun c => In c digits)); [assumption|exact cls_digit|assumption].
    + cbn. unfold cls. discriminate.
  - destruct d as [|c d]; [congruence|]. cbn [app] in *. unfold computeNextToken.
    match goal with F : Forall _ (c :: d) |- _ => inversion F as [|? ? Dc Dd]; subst end.
    rewrite <- app_assoc in *. cbn [app] in *. pose proof (skip_token _ _ _ Hp L) as Sk. split_plain.
    destruct (digit_not_special c ltac:(lia) Dc) as (N1 & N2 & N3 & N4 & N5 & N6 & N7 & N8 & N9).
    rewrite Sk by assumption.
    rewrite neof by lia. rewrite !neqb by assumption. rewrite N8.
    rewrite charlist_run; try assumption.
    + rewrite (push_plain [] c) by lia. cbn [app nextChar]. cbn [Z.eqb Pos.eqb orb].
      rewrite nonempty_run; try assumption.
      * rewrite push_plain by lia. cbn [app]. rewrite <- app_assoc. reflexivity.
      * apply (Forall_iff_plain _ (fun c => In c digits)); [assumption|exact cls_digit|assumption].
      * apply (stops_iff _ (fun c => In c digits)); [assumption|exact cls_digit|assumption].
    + apply plain_cons. split; [lia|]. apply plain_app. auto.
    + apply (Forall_iff_plain _ (fun c => In c digits)); [assumption|exact cls_digit|assumption].
    + cbn. unfold cls. discriminate.
  - destruct (negative_chars s t ltac:(assumption)) as [F (r & ->)].
    apply (W 45 r eq_refl); try assumption.
    + right. vm_compute. tauto.
    + inversion F; subst. assumption.
    + left. assumption.
  - destruct (reserved_chars ll lt s t ltac:(assumption)) as (c & r & -> & Hc & Hr).
    apply (W c r eq_refl); try assumption. right. left. assumption.
  - apply (W c s0 eq_refl); try assumption. right. right. auto.
Qed.

Lemma token_lexeme : forall ll lt bs t s rest, plain bs ->
  computeNextToken ll lt bs = Ok (t, s, rest) ->
  token_at ll lt bs t s rest \/ short_keyword bs t s rest.
Proof.
  intros ll lt bs t s rest Hp H.
  pose proof (skip_spec bs false (plain_bytes _ Hp)) as Sk. unfold skips in Sk.
  unfold computeNextToken in H.
  destruct (skipSpace false bs) as [b r].
  destruct Sk as [(-> & -> & F) | (Hb & N1 & N2 & l & L & E)].
  { replace (-1 =? c_eof) with true in H by reflexivity. injection H as <- <- <-.
    left. left. auto. }
  subst bs. apply plain_app in Hp. destruct Hp as [P1 P2]. apply plain_cons in P2.
  destruct P2 as [P2 P3]. rewrite neof in H by lia. rewrite (push_plain [] b) in H by lia.
  cbn [app] in H.
  assert (TA : forall s' r', b :: r = s' ++ r' -> lexeme ll lt t s' r' -> s = s' -> rest = r' ->
    token_at ll lt (l ++ b :: r) t s rest \/ short_keyword (l ++ b :: r) t s rest).
  { intros s' r' E Lx -> ->. left. right. exists l. rewrite E. auto. }
  destruct (b =? 40) eqn:E40.
  { apply Z.eqb_eq in E40. subst b. injection H as <- <- <-.
    apply (TA [40] r); [reflexivity|constructor|reflexivity|reflexivity]. }
  destruct (b =? 41) eqn:E41.
  { apply Z.eqb_eq in E41. subst b. injection H as <- <- <-.
    apply (TA [41] r); [reflexivity|constructor|reflexivity|reflexivity]. }
  destruct (b =? 124) eqn:E124.
  { apply Z.eqb_eq in E124. subst b. destruct (quoted_split r) as [N | (q & r' & -> & N)].
    - rewrite quoted_open in H by assumption. injection H as <- <- <-.
      apply (TA (124 :: r) []); [rewrite app_nil_r; reflexivity|apply lx_quoted_open; exact N| |]; reflexivity.
    - split_plain. rewrite quoted_run in H by assumption. injection H as <- <- <-.
      apply (TA (124 :: q ++ [124]) r'); [cbn [app]; rewrite <- app_assoc; reflexivity| |reflexivity|reflexivity].
      apply lx_quoted. exact N. }
  destruct (b =? 35) eqn:E35.
  { apply Z.eqb_eq in E35. subst b. destruct r as [|c r]; cbn [nextChar] in H; [discriminate H|].
    split_plain. destruct (c =? 98) eqn:E98.
    - apply Z.eqb_eq in E98. subst c. destruct (run_split CBit r) as (d & r' & -> & F & S). split_plain.
      destruct d as [|c d].
      + cbn [app] in H. rewrite nonempty_fail in H by exact S. discriminate H.
      + rewrite nonempty_run in H; try assumption; [|discriminate]. injection H as <- <- <-.
        apply (TA (txt "#b" ++ c :: d) r'); [reflexivity| |reflexivity|reflexivity].
        apply lx_binary; [discriminate| |].
        * apply (Forall_iff_plain (cls CBit)); [assumption|exact cls_bit|assumption].
        * apply (stops_iff (cls CBit)); [assumption|exact cls_bit|assumption].
    - destruct (c =? 120) eqn:E120; [|discriminate H].
      apply Z.eqb_eq in E120. subst c. destruct (run_split CHex r) as (d & r' & -> & F & S). split_plain.
      destruct d as [|c d].
      + cbn [app] in H. rewrite nonempty_fail in H by exact S. discriminate H.
      + rewrite nonempty_run in H; try assumption; [|discriminate]. injection H as <- <- <-.
        apply (TA (txt "#x" ++ c :: d) r'); [reflexivity| |reflexivity|reflexivity].
        apply lx_hex; [discriminate| |].
        * apply (Forall_iff_plain (cls CHex)); [assumption|exact cls_hex|assumption].
        * apply (stops_iff (cls CHex)); [assumption|exact cls_hex|assumption]. }
  destruct (b =? 34) eqn:E34.
  { apply Z.eqb_eq in E34. subst b.
    destruct (string_split _ r (le_n _)) as [(q & ->) | (q & r' & -> & S)].
    - rewrite string_open in H by (apply double_plain; assumption). injection H as <- <- <-.
      apply (TA (34 :: double_quotes q) []); [rewrite app_nil_r; reflexivity|apply lx_string_open| |]; reflexivity.
    - split_plain. rewrite string_run in H; try assumption; [|apply double_plain; assumption].
      injection H as <- <- <-.
      apply (TA (34 :: double_quotes q ++ [34]) r');
        [cbn [app]; rewrite <- app_assoc; reflexivity| |reflexivity|reflexivity].
      apply lx_string. exact S. }
  destruct (b =? 58) eqn:E58.
  { apply Z.eqb_eq in E58. subst b. destruct r as [|c r]; cbn [nextChar] in H; [discriminate H|].
    split_plain. destruct (isClass CSymStart c) eqn:Es; [|discriminate H].
    assert (Sc : start_char c) by (apply class_start; [lia|exact Es]).
    destruct (run_split CSym r) as (d & r' & -> & F & S). split_plain.
    rewrite push_plain in H by lia. cbn [app] in H.
    destruct d as [|c' d].
    - cbn [app] in H. rewrite nonempty_fail in H by exact S. injection H as <- <- <-.
      right. split; [reflexivity|]. exists l, c. repeat split; try assumption.
      destruct r' as [|x r']; [left; split; reflexivity|]. right. exists x. split; [|reflexivity].
      apply (stops_iff (cls CSym) sym_char) in S; [exact S|assumption|exact cls_sym].
    - rewrite nonempty_run in H; try assumption; [|discriminate]. injection H as <- <- <-.
      apply (TA (58 :: c :: c' :: d) r'); [reflexivity| |reflexivity|reflexivity].
      apply lx_keyword; [discriminate|exact Sc| |].
      * apply (Forall_iff_plain (cls CSym)); [assumption|exact cls_sym|assumption].
      * apply (stops_iff (cls CSym)); [assumption|exact cls_sym|assumption]. }
  destruct (isClass CDigit b) eqn:Ed.
  { assert (Db : In b digits) by (apply (isClass_in CDigit); [lia|exact Ed]).
    destruct (run_split CDigit r) as (d & r' & -> & F & S). split_plain.
    rewrite charlist_run in H; try assumption. cbn [app] in H.
    assert (Fd : Forall (fun c => In c digits) (b :: d)).
    { apply Forall_cons; [exact Db|].
      apply (Forall_iff_plain (cls CDigit)); [assumption|exact cls_digit|assumption]. }
    destruct r' as [|c r']; cbn [nextChar] in H.
    - cbn in H. injection H as <- <- <-.
      apply (TA (b :: d) []); [reflexivity| |reflexivity|reflexivity].
      apply lx_integer; [discriminate|exact Fd|exact I].
    - split_plain. destruct (c =? 46) eqn:E46; [|destruct (c =? 47) eqn:E47]; cbn [orb] in H.
      + apply Z.eqb_eq in E46. subst c. destruct (run_split CDigit r') as (e & r2 & -> & F' & S').
        split_plain. destruct e as [|x e].
        * cbn [app] in H. rewrite nonempty_fail in H by exact S'. discriminate H.
        * rewrite nonempty_run in H; try assumption; [|discriminate].
          rewrite push_plain in H by lia. injection H as <- <- <-.
          apply (TA ((b :: d) ++ 46 :: x :: e) r2); [cbn [app]; rewrite <- app_assoc; reflexivity| | |reflexivity].
          -- apply lx_decimal; [discriminate|discriminate|exact Fd| |].
             ++ apply (Forall_iff_plain (cls CDigit)); [assumption|exact cls_digit|assumption].
             ++ apply (stops_iff (cls CDigit)); [assumption|exact cls_digit|assumption].
          -- cbn [app]. rewrite <- app_assoc. reflexivity.
      + apply Z.eqb_eq in E47. subst c. destruct (run_split CDigit r') as (e & r2 & -> & F' & S').
        split_plain. destruct e as [|x e].
        * cbn [app] in H. rewrite nonempty_fail in H by exact S'. discriminate H.
        * rewrite nonempty_run in H; try assumption; [|discriminate].
          rewrite push_plain in H by lia. injection H as <- <- <-.
          apply (TA ((b :: d) ++ 47 :: x :: e) r2); [cbn [app]; rewrite <- app_assoc; reflexivity| | |reflexivity].
          -- apply lx_rational; [discriminate|discriminate|exact Fd| |].
             ++ apply (Forall_iff_plain (cls CDigit)); [assumption|exact cls_digit|assumption].
             ++ apply (stops_iff (cls CDigit)); [assumption|exact cls_digit|assumption].
          -- cbn [app]. rewrite <- app_assoc. reflexivity.
      + rewrite save_plain in H by lia. injection H as <- <- <-.
        apply (TA (b :: d) (c :: r')); [reflexivity| |reflexivity|reflexivity].
        apply lx_integer; [discriminate|exact Fd|]. cbn [stops] in *. intros [X | [X | X]].
        * apply S. apply (isClass_in CDigit); [lia|exact X].
        * subst c. discriminate E46.
        * subst c. discriminate E47. }
  destruct (isClass CSymStart b) eqn:Es; [|discriminate H].
  assert (Sb : start_char b) by (apply class_start; [lia|exact Es]).
  destruct (run_split CSym r) as (d & r' & -> & F & S). split_plain.
  rewrite charlist_run in H; try assumption. cbn [app] in H.
  assert (Pw : plain (b :: d)) by (apply plain_cons; auto).
  pose proof (tokenize_word ll lt (b :: d) Pw) as W.
  revert H W. generalize (tokenizeCurrentSymbol ll lt (b :: d)). intros tk H W.
  injection H as <- <- <-.
  assert (Fd : Forall sym_char d) by (apply (Forall_iff_plain (cls CSym)); [assumption|exact cls_sym|assumption]).
  assert (Sd : stops sym_char r') by (apply (stops_iff (cls CSym)); [assumption|exact cls_sym|assumption]).
  apply (TA (b :: d) r'); [reflexivity| |reflexivity|reflexivity].
  destruct W as [W | [W | (-> & W1 & W2)]].
  - apply lx_negative; [exact W| |exact Sd]. apply Forall_cons; [left; exact Sb|exact Fd].
  - apply lx_reserved; assumption.
  - apply lx_symbol; assumption.
Qed.

Lemma token_iff : forall ll lt bs t s rest, plain bs ->
  (computeNextToken ll lt bs = Ok (t, s, rest) <->
   token_at ll lt bs t s rest \/ short_keyword bs t s rest).
Proof.
  intros ll lt bs t s rest Hp. split; [apply token_lexeme; exact Hp|].
  intros [[(-> & -> & -> & F) | (l & L & -> & Lx)] | (-> & l & c & L & Hc & -> & D)].
  - unfold computeNextToken. rewrite final_layout_skip by assumption. reflexivity.
  - apply lexeme_token; assumption.
  - assert (G : forall r, plain (l ++ [58; c] ++ r) -> stops sym_char r ->
      computeNextToken ll lt (l ++ [58; c] ++ r) = Ok (T_KEYWORD, [58; c], tl r)).
    { intros r P S. cbn [app] in *. unfold computeNextToken.
      rewrite skip_token; [|exact P|exact L|cbn; intuition discriminate|discriminate].
      replace (58 =? c_eof) with false by reflexivity. cbn [Z.eqb Pos.eqb nextChar]. split_plain.
      replace (isClass CSymStart c) with true by (symmetry; apply class_start; [lia|assumption]).
      rewrite nonempty_fail by (apply (stops_iff _ sym_char); [assumption|exact cls_sym|exact S]).
      rewrite push_plain by lia. reflexivity. }
    destruct D as [[-> ->] | (d & Nd & ->)].
    + apply (G []); [exact Hp|exact I].
    + apply (G (d :: rest)); [exact Hp|exact Nd].
Qed.

(* ------------------------------------------------------------------ *)
(** * Consequences *)

Lemma plain_charof : forall i bs, plain bs -> forall ll lt,
  computeNextToken ll lt (chars_of i bs) =
  match computeNextToken ll lt bs with
  | Ok (t, s, r) => Ok (t, s, chars_of i r)
  | Err => Err | UB => UB | Fuel => Fuel
  end.
Proof.
  intros [|] bs H ll lt; cbn [chars_of].
  - destruct (computeNextToken ll lt bs) as [[[t s] r]| | |]; reflexivity.
  - destruct (cti_token ll lt bs H) as [E _]. rewrite E.
    destruct (computeNextToken ll lt bs) as [[[t s] r]| | |]; reflexivity.
Qed.
Lemma chars_of_inj : forall i a b, plain a -> plain b -> chars_of i a = chars_of i b -> a = b.
Proof.
  intros [|] a b Ha Hb; cbn [chars_of]; [auto|]. revert b Hb.
  induction a as [|x a IH]; intros [|y b] Hb E; cbn in E; try discriminate; [reflexivity|].
  apply plain_cons in Ha, Hb. destruct Ha as [Hx Ha], Hb as [Hy Hb].
  injection E as E1 E2. f_equal; [|auto].
  rewrite <- (cti_mod x), <- (cti_mod y) by lia. rewrite E1. reflexivity.
Qed.
Lemma token_of_bytes : forall i ll lt bs t s rest, plain bs ->
  (computeNextToken ll lt (chars_of i bs) = Ok (t, s, chars_of i rest) /\ plain rest <->
   token_at ll lt bs t s rest \/ short_keyword bs t s rest).
Proof.
  intros i ll lt bs t s rest H. rewrite <- (token_iff ll lt bs t s rest H).
  rewrite plain_charof by exact H. destruct (cti_token ll lt bs H) as [_ P].
  destruct (computeNextToken ll lt bs) as [[[t' s'] r']| | |]; cbn [plain_rest] in P;
    try (split; [intros [X _]; discriminate X|intros X; discriminate X]).
  split.
  - intros [X Pr]. injection X as -> -> X. apply chars_of_inj in X; [|assumption|assumption].
    subst. reflexivity.
  - intros X. injection X as -> -> ->. auto.
Qed.
Lemma eof_layout : forall i ll lt bs s rest, plain bs ->
  computeNextToken ll lt (chars_of i bs) = Ok (T_EOF, s, rest) -> final_layout bs.
Proof.
  intros i ll lt bs s rest H E. rewrite plain_charof in E by exact H.
  destruct (computeNextToken ll lt bs) as [[[t' s'] r']| | |] eqn:X; try discriminate E.
  injection E as -> -> _. apply token_lexeme in X; [|exact H].
  destruct X as [[(_ & _ & _ & F) | (l & L & -> & Lx)] | (D & _)]; [exact F| |discriminate D].
  inversion Lx; subst; match goal with N : negative _ _ |- _ => inversion N
    | R : reserved _ _ _ _ |- _ => inversion R end.
Qed.
Lemma neg_not_eof : forall r t, t <> T_EOF -> negative_number r t <> T_EOF.
Proof.
  induction r as [|c r IH]; intros t H; cbn [negative_number]; [exact H|].
  destruct (isClass CDigit c); [apply IH; exact H|].
  destruct r; [discriminate|]. destruct t; try discriminate.
  destruct (c =? 46); [apply IH; discriminate|]. destruct (c =? 47); [apply IH|]; discriminate.
Qed.
Lemma tokenize_not_eof : forall ll lt s, tokenizeCurrentSymbol ll lt s <> T_EOF.
Proof.
  intros ll lt s.
  assert (G : (exists r, tokenizeCurrentSymbol ll lt s = negative_number r T_INTEGER) \/
    tokenizeCurrentSymbol ll lt s =
      if text_eqb s (txt "!") then T_ATTRIBUTE
      else if text_eqb s (txt "eo::define") then T_EVAL_DEFINE
      else if text_eqb s (txt "par") then T_PAR
      else if ll && text_eqb s (txt "let") then T_LET
      else if text_eqb s (txt "Bool") then T_BOOL_TYPE
      else if lt && text_eqb s (txt "Type") then T_TYPE
      else T_SYMBOL).
  { destruct s as [|c [|x r]]; try (right; reflexivity).
    - right. unfold tokenizeCurrentSymbol; destruct c as [|p|p]; try reflexivity;
          repeat (destruct p as [p|p|]; try reflexivity).
    - destruct (Z.eq_dec c 45) as [-> | N]; [left; exists (x :: r); reflexivity|].
      right. unfold tokenizeCurrentSymbol; destruct c as [|p|p]; try reflexivity;
          repeat (destruct p as [p|p|]; try reflexivity); congruence. }
  destruct G as [(r & ->) | ->]; [apply neg_not_eof; discriminate|].
  repeat match goal with |- (if ?x then _ else _) <> _ => destruct x end; discriminate.
Qed.
Lemma eof_layout_stdin : forall ll lt bs s rest, bytes bs ->
  computeNextToken ll lt (chars_of true bs) = Ok (T_EOF, s, rest) -> final_layout bs.
Proof.
  intros ll lt bs s rest Hb H. cbn [chars_of] in H. unfold computeNextToken in H.
  pose proof (skip_spec bs false Hb) as Sk. unfold skips in Sk.
  destruct (skipSpace false bs) as [b r].
  destruct Sk as [(-> & -> & F) | (H0 & N1 & N2 & l & L & E)]; [exact F|exfalso].
  rewrite neof in H by lia.
  repeat match type of H with
  | (if ?x then _ else _) = _ => destruct x
  | (let '(_, _) := ?x in _) = _ => destruct x
  | Ok _ = Ok _ => injection H as H _ _
  end; try discriminate H.
  all: try (eapply tokenize_not_eof; exact H).
Qed.
Lemma layout_ignored : forall i ll lt l bs, plain l -> plain bs -> layout l ->
  computeNextToken ll lt (chars_of i (l ++ bs)) = computeNextToken ll lt (chars_of i bs).
Proof.
  intros i ll lt l bs Pl Pb L. rewrite !plain_charof; [|assumption|apply plain_app; auto].
  replace (computeNextToken ll lt (l ++ bs)) with (computeNextToken ll lt bs); [reflexivity|].
  unfold computeNextToken. rewrite layout_skip by assumption. reflexivity.
Qed.

Lemma cstr_id : forall s, ~ In 0 s -> cstr s = s.
Proof.
  induction s as [|c s IH]; intros H; [reflexivity|]. cbn [cstr].
  replace (c =? 0) with false by (symmetry; apply Z.eqb_neq; intros ->; apply H; left; reflexivity).
  rewrite IH; [reflexivity|]. intros X. apply H. right. exact X.
Qed.
Lemma strip_app : forall a s b, stripQuotes (a :: s ++ [b]) = Ok s.
Proof.
  intros a s b. unfold stripQuotes. cbn [tl]. 
  destruct (s ++ [b]) as [|x l] eqn:E; [destruct s; discriminate E|]. rewrite <- E.
  rewrite removelast_last. reflexivity.
Qed.
Lemma double_in : forall c s, In c (double_quotes s) -> In c s.
Proof.
  intros c s; induction s as [|x s IH]; cbn [double_quotes]; [auto|].
  destruct (x =? 34) eqn:E.
  - apply Z.eqb_eq in E. subst x. intros [H | [H | H]]; [left; exact H|left; exact H|right; auto].
  - intros [H | H]; [left; exact H|right; auto].
Qed.
Lemma unescape_double : forall s, unescapeLoop (double_quotes s) = s.
Proof.
  induction s as [|c s IH]; [reflexivity|]. cbn [double_quotes]. destruct (c =? 34) eqn:E.
  - apply Z.eqb_eq in E. subst c. cbn [unescapeLoop]. replace (34 =? 34) with true by reflexivity.
    rewrite IH. reflexivity.
  - cbn [unescapeLoop]. rewrite E, IH. reflexivity.
Qed.
Lemma unescape_value : forall s, Forall (fun c => 0 < c < 128) s ->
  unescapeString (cstr (34 :: double_quotes s ++ [34])) = Ok s.
Proof.
  intros s H. rewrite Forall_forall in H.
  assert (B : forall c, In c (double_quotes s) -> 0 < c < 128) by (intros c X; apply H, double_in, X).
  rewrite cstr_id.
  2: { intros [X | X]; [discriminate X|]. apply in_app_iff in X.
       destruct X as [X | [X | []]]; [apply B in X; lia|discriminate X]. }
  unfold unescapeString. rewrite strip_app. cbn [bind].
  replace (existsb (fun c => 127 <? c) (double_quotes s)) with false.
  - rewrite unescape_double. reflexivity.
  - symmetry. apply not_true_is_false. intros X. apply existsb_exists in X.
    destruct X as (c & X & Y). apply B in X. apply Z.ltb_lt in Y. lia.
Qed.

Lemma string_token : forall i ll lt l s rest, plain l -> plain rest -> layout l ->
  stops (eq 34) rest -> Forall (fun c => 0 < c < 128) s ->
  exists tok, computeNextToken ll lt (chars_of i (l ++ 34 :: double_quotes s ++ 34 :: rest))
      = Ok (T_STRING, tok, chars_of i rest) /\
    unescapeString (cstr tok) = Ok s.
Proof.
  intros i ll lt l s rest Pl Pr L S F. exists (34 :: double_quotes s ++ [34]).
  split; [|apply unescape_value; exact F].
  assert (Pd : plain (double_quotes s)).
  { apply Forall_forall. intros c X. apply double_in in X. rewrite Forall_forall in F.
    specialize (F c X). cbn in F. lia. }
  apply token_of_bytes.
  - apply plain_app. split; [exact Pl|]. apply plain_cons. split; [lia|]. apply plain_app.
    split; [exact Pd|]. apply plain_cons. split; [lia|exact Pr].
  - left. right. exists l. split; [exact L|]. split.
    + cbn [app]. rewrite <- app_assoc. reflexivity.
    + apply lx_string. exact S.
Qed.

Lemma symbol_char_pos : forall c, sym_char c -> 0 < c < 128.
Proof.
  intros c H. assert (M : In c (letters ++ punct ++ digits ++ [58])).
  { rewrite !in_app_iff. unfold sym_char, start_char in H. cbn [In]. intuition. }
  assert (A : forallb (fun c => (0 <? c) && (c <? 128)) (letters ++ punct ++ digits ++ [58]) = true)
    by (vm_compute; reflexivity).
  rewrite forallb_forall in A. specialize (A c M). apply andb_true_iff in A.
  destruct A as [A B]. apply Z.ltb_lt in A, B. lia.
Qed.
Lemma start_sym : forall c, start_char c -> sym_char c.
Proof. intros c H. left. exact H. Qed.

(** A simple symbol and the same symbol between bars denote the same name. *)
Lemma symbol_token : forall i ll lt l c s rest, plain l -> plain rest -> layout l ->
  start_char c -> Forall sym_char s -> stops sym_char rest ->
  (forall t, ~ negative (c :: s) t) -> (forall t, ~ reserved ll lt (c :: s) t) ->
  computeNextToken ll lt (chars_of i (l ++ (c :: s) ++ rest)) = Ok (T_SYMBOL, c :: s, chars_of i rest) /\
  computeNextToken ll lt (chars_of i (l ++ (124 :: (c :: s) ++ [124]) ++ rest)) =
    Ok (T_QUOTED_SYMBOL, 124 :: (c :: s) ++ [124], chars_of i rest).
Proof.
  intros i ll lt l c s rest Pl Pr L Hc Hs Hr N R.
  assert (Ps : plain (c :: s)).
  { apply Forall_cons; [apply start_sym, symbol_char_pos in Hc; lia|].
    eapply Forall_impl; [|exact Hs]. intros a Ha. apply symbol_char_pos in Ha. cbn. lia. }
  split; apply token_of_bytes.
  - apply plain_app. split; [exact Pl|]. apply plain_app. auto.
  - left. right. exists l. split; [exact L|]. split; [reflexivity|]. apply lx_symbol; assumption.
  - apply plain_app. split; [exact Pl|]. apply plain_app. split; [|exact Pr].
    apply plain_cons. split; [lia|]. apply plain_app. split; [exact Ps|].
    apply plain_cons. split; [lia|apply Forall_nil].
  - left. right. exists l. split; [exact L|]. split; [reflexivity|].
    apply lx_quoted. intros X.
    assert (Y : ~ sym_char 124).
    { unfold sym_char, start_char. rewrite <- !memb_in. vm_compute. intuition discriminate. }
    destruct X as [-> | X]; [exact (Y (start_sym _ Hc))|].
    rewrite Forall_forall in Hs. exact (Y (Hs _ X)).
Qed.
