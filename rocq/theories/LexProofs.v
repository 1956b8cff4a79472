(** Proofs about the lexer. *)
From Coq Require Import ZArith List Bool String Lia.
From Verif Require Import Base Lexer SpecLex.
Import ListNotations.
Open Scope Z_scope.

(* ------------------------------------------------------------------ *)
(** * The reader *)

Definition pending (r : reader) : list Z :=
  map char_to_int (r_buf r) ++ chars_of (r_inter r) (r_stream r).

Lemma readNextChar_pending : forall size r, (0 < size)%nat ->
  fst (readNextChar size r) = fst (nextChar (pending r)) /\
  pending (snd (readNextChar size r)) = snd (nextChar (pending r)).
Proof.
  intros size [i buf str] Hs. unfold readNextChar, pending, chars_of.
  cbn [r_buf r_inter r_stream].
  destruct buf as [|b buf]; cbn [map app].
  2: { cbn. split; reflexivity. }
  destruct i.
  - destruct str as [|b s]; cbn; split; reflexivity.
  - destruct size as [|n]; [lia|].
    destruct str as [|b s]; cbn [firstn skipn fst snd map app nextChar r_buf r_inter r_stream].
    + split; reflexivity.
    + split; [reflexivity|]. rewrite <- map_app, firstn_skipn. reflexivity.
Qed.

Lemma readMany_spec : forall size n r, (0 < size)%nat ->
  readMany size n r = firstn n (pending r ++ repeat c_eof n).
Proof.
  intros size n; induction n as [|n IH]; intros r Hs; [reflexivity|].
  cbn [readMany]. pose proof (readNextChar_pending size r Hs) as [H1 H2].
  destruct (readNextChar size r) as [c r']. cbn [fst snd] in *. subst c.
  rewrite (IH r' Hs), H2.
  destruct (pending r) as [|p ps]; cbn [nextChar fst snd app].
  - reflexivity.
  - cbn [firstn]. f_equal. clear. revert ps. 
    assert (G : forall (l : list Z) k j, (k <= j)%nat ->
      firstn k (l ++ repeat c_eof k) = firstn k (l ++ repeat c_eof j)).
    { induction l as [|x l IH]; intros k j Hk.
      - cbn [app]. rewrite firstn_all2 by (rewrite repeat_length; lia).
        revert k Hk; induction j as [|j IHj]; intros [|k] Hk; cbn; try reflexivity; try lia.
        f_equal. apply IHj. lia.
      - destruct k as [|k]; [reflexivity|]. cbn [app firstn]. f_equal.
        transitivity (firstn k (l ++ repeat c_eof k)).
        + symmetry. apply IH. lia.
        + apply IH. lia. }
    intros ps. apply G. lia.
Qed.

(* ------------------------------------------------------------------ *)
(** * Character sets *)

Fixpoint upto (n : nat) : list Z :=
  match n with O => [] | S m => upto m ++ [Z.of_nat m] end.
Lemma upto_in : forall n c, 0 <= c < Z.of_nat n -> In c (upto n).
Proof.
  induction n as [|n IH]; intros c Hc; [lia|]. cbn [upto]. apply in_or_app.
  destruct (Z.eq_dec c (Z.of_nat n)) as [-> | Hn]; [right; left; reflexivity|].
  left. apply IH. lia.
Qed.
Definition memb (c : Z) (l : text) : bool := existsb (Z.eqb c) l.
Lemma memb_in : forall c l, memb c l = true <-> In c l.
Proof.
  intros c l. unfold memb. rewrite existsb_exists. split.
  - intros (x & H & E). apply Z.eqb_eq in E. subst. exact H.
  - intros H. exists c. split; [exact H|apply Z.eqb_refl].
Qed.

Definition class_chars (cc : cclass) : text :=
  match cc with
  | CWhitespace => spaces
  | CDigit => digits
  | CHex => hex_digits
  | CBit => [48; 49]
  | CSymStart => letters ++ punct
  | CSym => (letters ++ punct) ++ digits ++ [58]
  end.
Definition class_check (cc : cclass) : bool :=
  forallb (fun c => Bool.eqb (isClass cc c) (memb c (class_chars cc))) (upto 256).
Lemma class_checked : forall cc, class_check cc = true.
Proof. intros []; vm_compute; reflexivity. Qed.
Lemma isClass_in : forall cc c, 0 <= c < 256 ->
  (isClass cc c = true <-> In c (class_chars cc)).
Proof.
  intros cc c Hc. rewrite <- memb_in.
  pose proof (class_checked cc) as H. unfold class_check in H.
  rewrite forallb_forall in H. specialize (H c (upto_in 256 c Hc)).
  apply eqb_prop in H. rewrite H. tauto.
Qed.
Lemma class_start : forall c, 0 <= c < 256 -> (isClass CSymStart c = true <-> start_char c).
Proof.
  intros c Hc. rewrite (isClass_in CSymStart c Hc). cbn [class_chars].
  rewrite in_app_iff. unfold start_char. tauto.
Qed.
Lemma class_sym : forall c, 0 <= c < 256 -> (isClass CSym c = true <-> sym_char c).
Proof.
  intros c Hc. rewrite (isClass_in CSym c Hc). cbn [class_chars].
  rewrite !in_app_iff. unfold sym_char, start_char. cbn [In]. intuition.
Qed.

(* ------------------------------------------------------------------ *)
(** * Signed characters do not matter, except for 0xFF *)

Lemma cti_eqb : forall b k, 0 <= b < 255 -> -1 <= k < 128 ->
  (char_to_int b =? k) = (b =? k).
Proof.
  intros b k Hb Hk. unfold char_to_int. destruct (b <? 128) eqn:E; [reflexivity|].
  apply Z.ltb_ge in E. transitivity false; [|symmetry]; apply Z.eqb_neq; lia.
Qed.
Lemma cti_mod : forall b, 0 <= b < 256 -> char_to_int b mod 256 = b.
Proof.
  intros b Hb. unfold char_to_int. destruct (b <? 128) eqn:E.
  - apply Z.mod_small. exact Hb.
  - replace (b - 256) with (b + (-1) * 256) by lia. rewrite Z.mod_add by lia.
    apply Z.mod_small. exact Hb.
Qed.
Lemma cti_class : forall cc b, 0 <= b < 256 -> isClass cc (char_to_int b) = isClass cc b.
Proof.
  intros cc b Hb. unfold isClass. rewrite (cti_mod b Hb), (Z.mod_small b) by exact Hb.
  reflexivity.
Qed.
Lemma cti_push : forall tok b, 0 <= b < 256 -> pushChar tok (char_to_int b) = pushChar tok b.
Proof.
  intros tok b Hb. unfold pushChar. rewrite (cti_mod b Hb), (Z.mod_small b) by exact Hb.
  reflexivity.
Qed.

Notation mapc := (map char_to_int).

Lemma cti_save : forall b bs, 0 <= b < 255 ->
  saveChar (char_to_int b) (mapc bs) = mapc (saveChar b bs).
Proof.
  intros b bs Hb. destruct bs as [|d bs]; cbn [saveChar map]; [|reflexivity].
  unfold c_eof. rewrite cti_eqb by lia. destruct (b =? -1); reflexivity.
Qed.

Ltac plain_inv H := inversion H as [|? ? ?Hb ?Hbs]; subst.

Lemma plain_save : forall b bs, 0 <= b < 255 -> plain bs -> plain (saveChar b bs).
Proof.
  intros b bs Hb H. destruct bs as [|d bs]; cbn [saveChar].
  - destruct (b =? c_eof); [apply Forall_nil|]. apply Forall_cons; [exact Hb|apply Forall_nil].
  - apply Forall_cons; assumption.
Qed.

Lemma cti_charlist : forall cc bs tok, plain bs ->
  parseCharList cc tok (mapc bs) =
    (fst (parseCharList cc tok bs), mapc (snd (parseCharList cc tok bs))) /\
  plain (snd (parseCharList cc tok bs)).
Proof.
  intros cc bs; induction bs as [|b bs IH]; intros tok H; [split; [reflexivity|exact H]|].
  plain_inv H. cbn [map parseCharList].
  rewrite cti_class by lia. rewrite cti_push by lia.
  destruct (isClass cc b); [apply IH; assumption|]. cbn [fst snd].
  rewrite cti_save by lia. split; [reflexivity|]. apply plain_save; assumption.
Qed.

Lemma cti_next : forall bs, plain bs ->
  (nextChar (mapc bs) = (char_to_int (fst (nextChar bs)), mapc (snd (nextChar bs))) \/
   (bs = [] /\ nextChar (mapc bs) = (-1, []))) /\ plain (snd (nextChar bs)).
Proof.
  intros [|b bs] H; cbn.
  - split; [right; split; reflexivity|exact H].
  - plain_inv H. split; [left; reflexivity|assumption].
Qed.

Lemma cti_nonempty : forall cc bs tok, plain bs ->
  parseNonEmptyCharList cc tok (mapc bs) =
    (fst (fst (parseNonEmptyCharList cc tok bs)), snd (fst (parseNonEmptyCharList cc tok bs)),
     mapc (snd (parseNonEmptyCharList cc tok bs))) /\
  plain (snd (parseNonEmptyCharList cc tok bs)).
Proof.
  intros cc [|b bs] tok H; unfold parseNonEmptyCharList; cbn [nextChar map].
  - replace (isClass cc c_eof) with false by (destruct cc; reflexivity).
    split; [reflexivity|exact H].
  - plain_inv H. rewrite cti_class by lia. rewrite cti_push by lia.
    destruct (isClass cc b); [|split; [reflexivity|assumption]].
    destruct (cti_charlist cc bs (pushChar tok b) Hbs) as [E P]. rewrite E.
    destruct (parseCharList cc (pushChar tok b) bs) as [t r]. cbn [fst snd] in *.
    split; [reflexivity|exact P].
Qed.

Lemma cti_space : forall bs cm, plain bs ->
  (exists b r, 0 <= b < 255 /\ skipSpace cm bs = (b, r) /\
     skipSpace cm (mapc bs) = (char_to_int b, mapc r) /\ plain r) \/
  (skipSpace cm bs = (-1, []) /\ skipSpace cm (mapc bs) = (-1, [])).
Proof.
  induction bs as [|b bs IH]; intros cm H; [right; split; reflexivity|].
  plain_inv H. cbn [map skipSpace]. unfold c_eof.
  rewrite !cti_eqb by lia. rewrite cti_class by lia.
  replace (b =? -1) with false by (symmetry; apply Z.eqb_neq; lia).
  destruct cm; [apply IH; assumption|].
  destruct (isClass CWhitespace b); [apply IH; assumption|].
  destruct (b =? 59); [apply IH; assumption|].
  left. exists b, bs. auto.
Qed.

Lemma cti_quoted : forall bs tok, plain bs ->
  scanQuoted tok (mapc bs) =
    (fst (fst (scanQuoted tok bs)), snd (fst (scanQuoted tok bs)), mapc (snd (scanQuoted tok bs))) /\
  plain (snd (scanQuoted tok bs)).
Proof.
  induction bs as [|b bs IH]; intros tok H; [split; [reflexivity|exact H]|].
  plain_inv H. cbn [map scanQuoted]. unfold c_eof.
  rewrite !cti_eqb by lia. rewrite cti_push by lia.
  replace (b =? -1) with false by (symmetry; apply Z.eqb_neq; lia).
  destruct (b =? 124); [split; [reflexivity|assumption]|]. apply IH. assumption.
Qed.

Lemma cti_string : forall n bs tok, (List.length bs <= n)%nat -> plain bs ->
  scanString tok (mapc bs) =
    (fst (fst (scanString tok bs)), snd (fst (scanString tok bs)), mapc (snd (scanString tok bs))) /\
  plain (snd (scanString tok bs)).
Proof.
  induction n as [|n IH]; intros [|b bs] tok Hn H;
    [split; [reflexivity|exact H]|cbn in Hn; lia|split; [reflexivity|exact H]|].
  plain_inv H. cbn [map scanString]. unfold c_eof.
  rewrite !cti_eqb by lia. rewrite cti_push by lia.
  replace (b =? -1) with false by (symmetry; apply Z.eqb_neq; lia). cbn [List.length] in Hn.
  destruct (b =? 34).
  - destruct bs as [|d bs]; cbn [map]; [split; [reflexivity|assumption]|].
    plain_inv Hbs. rewrite cti_eqb by lia. rewrite cti_push by lia. cbn [List.length] in Hn.
    destruct (d =? 34); [apply IH; [lia|assumption]|].
    cbn [fst snd]. rewrite cti_save by lia. split; [reflexivity|]. apply plain_save; assumption.
  - apply IH; [lia|assumption].
Qed.

Definition mapres (x : res (token * text * chars)) : res (token * text * chars) :=
  match x with
  | Ok (t, s, r) => Ok (t, s, mapc r)
  | Err => Err | UB => UB | Fuel => Fuel
  end.
Definition plain_rest (x : res (token * text * chars)) : Prop :=
  match x with Ok (_, _, r) => plain r | _ => True end.

Lemma cti_token : forall ll lt bs, plain bs ->
  computeNextToken ll lt (mapc bs) = mapres (computeNextToken ll lt bs) /\
  plain_rest (computeNextToken ll lt bs).
Proof.
  intros ll lt bs H. unfold computeNextToken.
  destruct (cti_space bs false H) as [(b & r & Hb & E1 & E2 & Hr) | [E1 E2]];
    rewrite E1, E2.
  2: { cbn. split; [reflexivity|apply Forall_nil]. }
  unfold c_eof. rewrite !cti_eqb by lia. rewrite !cti_push by lia.
  rewrite !cti_class by lia.
  replace (b =? -1) with false by (symmetry; apply Z.eqb_neq; lia).
  set (tok := pushChar [] b).
  destruct (b =? 40); [split; [reflexivity|exact Hr]|].
  destruct (b =? 41); [split; [reflexivity|exact Hr]|].
  destruct (b =? 124).
  { destruct (cti_quoted r tok Hr) as [E P]. rewrite E.
    destruct (scanQuoted tok r) as [[o t] r']. cbn [fst snd] in *. destruct o; split; auto. }
  destruct (b =? 35).
  { destruct r as [|c r]; cbn [map nextChar]; [split; [reflexivity|exact I]|].
    plain_inv Hr. rewrite !cti_eqb by lia. rewrite !cti_push by lia.
    destruct (c =? 98).
    { destruct (cti_nonempty CBit r (pushChar tok c) Hbs) as [E P]. rewrite E.
      destruct (parseNonEmptyCharList CBit (pushChar tok c) r) as [[o t] r'].
      cbn [fst snd] in *. destruct o; split; auto; exact I. }
    destruct (c =? 120); [|split; [reflexivity|exact I]].
    destruct (cti_nonempty CHex r (pushChar tok c) Hbs) as [E P]. rewrite E.
    destruct (parseNonEmptyCharList CHex (pushChar tok c) r) as [[o t] r'].
    cbn [fst snd] in *. destruct o; split; auto; exact I. }
  destruct (b =? 34).
  { destruct (cti_string _ r tok (le_n _) Hr) as [E P]. rewrite E.
    destruct (scanString tok r) as [[o t] r']. cbn [fst snd] in *. destruct o; split; auto. }
  destruct (b =? 58).
  { destruct r as [|c r]; cbn [map nextChar]; [split; [reflexivity|exact I]|].
    plain_inv Hr. rewrite cti_class by lia. rewrite !cti_push by lia.
    destruct (isClass CSymStart c); [|split; [reflexivity|exact I]].
    destruct (cti_nonempty CSym r (pushChar tok c) Hbs) as [E P]. rewrite E.
    destruct (parseNonEmptyCharList CSym (pushChar tok c) r) as [[o t] r'].
    cbn [fst snd] in *. split; auto. }
  destruct (isClass CDigit b).
  { destruct (cti_charlist CDigit r tok Hr) as [E P]. rewrite E.
    destruct (parseCharList CDigit tok r) as [t r1]. cbn [fst snd] in *.
    destruct r1 as [|c r1]; cbn [map nextChar].
    - unfold c_eof. cbn [Z.eqb orb saveChar mapres]. split; [reflexivity|apply Forall_nil].
    - plain_inv P. rewrite !cti_eqb by lia. rewrite !cti_push by lia.
      destruct ((c =? 46) || (c =? 47)).
      + destruct (cti_nonempty CDigit r1 (pushChar t c) Hbs) as [E' P']. rewrite E'.
        destruct (parseNonEmptyCharList CDigit (pushChar t c) r1) as [[o t'] r'].
        cbn [fst snd] in *. destruct o; split; auto; exact I.
      + rewrite cti_save by lia. split; [reflexivity|]. apply plain_save; assumption. }
  destruct (isClass CSymStart b); [|split; [reflexivity|exact I]].
  destruct (cti_charlist CSym r tok Hr) as [E P]. rewrite E.
  destruct (parseCharList CSym tok r) as [t r1]. cbn [fst snd] in *. split; auto.
Qed.

Lemma scan_interactive : forall ll lt n bs, plain bs ->
  scan ll lt n (chars_of false bs) = scan ll lt n (chars_of true bs).
Proof.
  intros ll lt n; induction n as [|n IH]; intros bs H; [reflexivity|].
  cbn [scan chars_of]. destruct (cti_token ll lt bs H) as [E P]. rewrite E.
  destruct (computeNextToken ll lt bs) as [[[t s] r]| | |]; cbn [mapres]; try reflexivity.
  f_equal. apply (IH r). exact P.
Qed.
