From Coq Require Import String ZArith QArith Qfield List Bool Lia.
From Verif Require Import Base Kind Ints Str Literal Term Lexer Parse SpecLit SpecRead SpecNumber IntsProofs LiteralProofs LiteralProofs2.
Import ListNotations.
Open Scope Z_scope.

Lemma digit_dval : forall c d, digit c d -> dval c = Some d /\ 48 <= c /\ 0 <= d.
Proof.
  intros c d H. unfold dval. inversion H; subst.
  - rewrite (proj2 (Z.leb_le 48 (48 + d))), (proj2 (Z.leb_le (48 + d) 57)) by lia. cbn [andb]. split; [f_equal|]; lia.
  - rewrite (proj2 (Z.leb_gt (97 + (d - 10)) 57)), andb_false_r by lia.
    rewrite (proj2 (Z.leb_le 97 (97 + (d - 10)))), (proj2 (Z.leb_le (97 + (d - 10)) 102)) by lia. cbn [andb]. split; [f_equal|]; lia.
  - rewrite (proj2 (Z.leb_gt (65 + (d - 10)) 57)), andb_false_r by lia.
    rewrite (proj2 (Z.leb_gt 97 (65 + (d - 10)))) by lia. cbn [andb].
    rewrite (proj2 (Z.leb_le 65 (65 + (d - 10)))), (proj2 (Z.leb_le (65 + (d - 10)) 70)) by lia. cbn [andb]. split; [f_equal|]; lia.
Qed.
Lemma read_digs_snoc : forall b s acc c d v, read_digs b s acc = Some v -> dval c = Some d -> d < b ->
  read_digs b (s ++ [c]) acc = Some (v * b + d).
Proof.
  intros b s. induction s as [|x s IH]; intros acc c d v H D L; cbn [app read_digs] in *.
  - injection H as <-. rewrite D, (proj2 (Z.ltb_lt d b) L). reflexivity.
  - destruct (dval x) as [e|]; [|discriminate]. destruct (e <? b); [|discriminate]. eauto.
Qed.
Lemma number_read : forall b s v, number b s v -> forall acc, read_digs b s acc = Some (acc * b ^ Z.of_nat (length s) + v).
Proof.
  intros b s v H. induction H as [c d D L|s v c d N IH D L]; intro acc.
  - cbn [read_digs]. destruct (digit_dval _ _ D) as (-> & _ & _). rewrite (proj2 (Z.ltb_lt d b) L). f_equal. cbn [length Z.of_nat Pos.of_succ_nat]. lia.
  - rewrite (read_digs_snoc b s acc c d _ (IH acc) (proj1 (digit_dval _ _ D)) L). f_equal.
    rewrite app_length. cbn [length]. rewrite Nat2Z.inj_add, Z.pow_add_r by lia. change (b ^ Z.of_nat 1) with (b ^ 1). rewrite Z.pow_1_r. ring.
Qed.
Lemma number_chars : forall b s v, number b s v -> s <> [] /\ Forall (fun c => 48 <= c) s /\ 0 <= v.
Proof.
  intros b s v H. induction H as [c d D L|s v c d N (A & B & C) D L]; destruct (digit_dval _ _ D) as (_ & D1 & D2).
  - repeat split; [discriminate|constructor; [exact D1|constructor]|exact D2].
  - repeat split; [destruct s; discriminate|apply Forall_app; split; [exact B|constructor; [exact D1|constructor]]|].
    destruct b; try lia; try nia.
Qed.

(** ** Integers *)
Definition signed (neg : bool) (v : Z) : Z := if neg then - v else v.
Lemma number_not : forall b s v x, number b s v -> x < 48 -> Forall (fun c => c <> x) s.
Proof. intros b s v x H L. destruct (number_chars _ _ _ H) as (_ & F & _). eapply Forall_impl; [|exact F]. cbn. intros; lia. Qed.
Lemma int_of_sign : forall b neg s v, s <> [] -> Forall (fun c => c <> 45) s -> read_digs b s 0 = Some v ->
  int_ofString b (sign neg ++ s) = Some (signed neg v).
Proof.
  intros b [|] s v N F R; cbn [sign app signed].
  - unfold int_ofString. destruct s; [congruence|]. now rewrite R.
  - now rewrite int_ofString_digits.
Qed.
Lemma int_number : forall b neg s v, number b s v -> int_ofString b (sign neg ++ s) = Some (signed neg v).
Proof.
  intros b neg s v H. apply int_of_sign; [apply (number_chars _ _ _ H)|apply (number_not _ _ _ 45 H); lia|].
  rewrite (number_read _ _ _ H). reflexivity.
Qed.
Lemma index_none : forall c s, Forall (fun x => x <> c) s -> index_of c s = None.
Proof.
  intros c s H. induction H as [|x s Hx _ IH]; [reflexivity|]. cbn [index_of]. apply Z.eqb_neq in Hx. now rewrite Hx, IH.
Qed.
Lemma sign_not : forall neg x, x <> 45 -> Forall (fun c => c <> x) (sign neg).
Proof. intros [|] x H; constructor; [congruence|constructor]. Qed.

(** ** Rationals *)
Lemma rat_toString_read : forall q, rat_wf q -> rat_ofString (rat_toString q) = Ok q.
Proof.
  intros q W. unfold rat_toString. destruct (QDen q =? 1) eqn:D.
  - unfold rat_ofString. rewrite (index_none _ _ (int_text_no_slash (Qnum q))), int_roundtrip by lia.
    apply Z.eqb_eq in D. destruct q as [n d]. cbn in *. injection D as ->. reflexivity.
  - cbn [app]. rewrite rat_ofString_slash by lia. now rewrite rat_make_id.
Qed.
Lemma rat_make_wf : forall n d, rat_wf (rat_make n d).
Proof. intros. apply Qred_wf. Qed.
Lemma rat_make_value : forall n d, d <> 0 -> (rat_make n d == inject_Z n / inject_Z d)%Q.
Proof.
  intros n d H. unfold rat_make. rewrite Qred_correct. rewrite Qmake_Qdiv. destruct d as [|p|p]; [congruence| |]; cbn [Z.sgn Z.abs Z.to_pos].
  - replace (1 * n) with n by lia. reflexivity.
  - replace (-1 * n) with (- n) by lia. change (Z.neg p) with (- Z.pos p). rewrite !inject_Z_opp. field. unfold Qeq; cbn; lia.
Qed.
Lemma split_at : forall (a b : text) c, firstn (length a) (a ++ c :: b) = a /\ skipn (S (length a)) (a ++ c :: b) = b.
Proof.
  intros a b c. split.
  - rewrite firstn_app, firstn_all, Nat.sub_diag. cbn [firstn]. apply app_nil_r.
  - rewrite skipn_app. rewrite skipn_all2 by lia. replace (S (length a) - length a)%nat with 1%nat by lia. reflexivity.
Qed.
Lemma read_digs_app : forall b s f a v r, read_digs b s a = Some v -> read_digs b f v = r -> read_digs b (s ++ f) a = r.
Proof.
  intros b s f. induction s as [|c s IH]; intros a v r R R2; cbn [app read_digs] in *.
  - injection R as ->. exact R2.
  - destruct (dval c); [|discriminate]. destruct (_ <? _); [|discriminate]. eauto.
Qed.
Lemma decimal_number : forall neg s v f w, number 10 s v -> number 10 f w ->
  exists q, rat_fromDecimal (sign neg ++ s ++ 46 :: f) = Ok q /\ lowest_terms q /\ (q == with_sign neg (inject_Z v + fraction f w))%Q.
Proof.
  intros neg s v f w Hs Hf.
  assert (P : 0 < 10 ^ Z.of_nat (length f)) by (apply Z.pow_pos_nonneg; lia).
  exists (rat_make (signed neg (v * 10 ^ Z.of_nat (length f) + w)) (10 ^ Z.of_nat (length f))).
  split; [|split; [apply rat_make_wf|]].
  - unfold rat_fromDecimal. rewrite app_assoc.
    rewrite index_of_app by (apply Forall_app; split; [apply sign_not; lia|apply (number_not _ _ _ 46 Hs); lia]).
    destruct (split_at (sign neg ++ s) f 46) as [-> ->]. rewrite <- app_assoc.
    rewrite (int_of_sign 10 neg (s ++ f) (v * 10 ^ Z.of_nat (length f) + w)).
    + rewrite app_length. cbn [length]. do 2 f_equal. f_equal. lia.
    + destruct (number_chars _ _ _ Hs) as (N & _). destruct s; [congruence|discriminate].
    + apply Forall_app. split; [apply (number_not _ _ _ 45 Hs); lia|apply (number_not _ _ _ 45 Hf); lia].
    + apply (read_digs_app _ _ _ _ v); [now rewrite (number_read _ _ _ Hs)|apply (number_read _ _ _ Hf)].
  - rewrite rat_make_value by lia. unfold fraction.
    assert (Hp : ~ (inject_Z (10 ^ Z.of_nat (length f)) == 0)%Q) by (unfold Qeq; cbn; lia).
    destruct neg; cbn [signed with_sign]; rewrite ?inject_Z_opp, inject_Z_plus, inject_Z_mult; field; exact Hp.
Qed.
Lemma rational_number : forall neg s v f w, number 10 s v -> number 10 f w -> w <> 0 ->
  exists q, rat_ofString (sign neg ++ s ++ 47 :: f) = Ok q /\ lowest_terms q /\ (q == with_sign neg (inject_Z v / inject_Z w))%Q.
Proof.
  intros neg s v f w Hs Hf W. exists (rat_make (signed neg v) w). split; [|split; [apply rat_make_wf|]].
  - unfold rat_ofString. rewrite app_assoc.
    rewrite index_of_app by (apply Forall_app; split; [apply sign_not; lia|apply (number_not _ _ _ 47 Hs); lia]).
    destruct (split_at (sign neg ++ s) f 47) as [-> ->]. rewrite (int_number _ _ _ _ Hs).
    pose proof (int_number 10 false f w Hf) as Rf. cbn [sign app signed] in Rf. rewrite Rf. apply Z.eqb_neq in W. now rewrite W.
  - rewrite rat_make_value by exact W. assert (Hp : ~ (inject_Z w == 0)%Q) by (unfold Qeq; cbn; lia).
    destruct neg; cbn [signed with_sign]; rewrite ?inject_Z_opp; field; exact Hp.
Qed.
Lemma rational_zero : forall neg s v f, number 10 s v -> number 10 f 0 -> rat_ofString (sign neg ++ s ++ 47 :: f) = UB.
Proof.
  intros neg s v f Hs Hf. unfold rat_ofString. rewrite app_assoc.
  rewrite index_of_app by (apply Forall_app; split; [apply sign_not; lia|apply (number_not _ _ _ 47 Hs); lia]).
  destruct (split_at (sign neg ++ s) f 47) as [-> ->]. rewrite (int_number _ _ _ _ Hs).
  pose proof (int_number 10 false f 0 Hf) as Rf. cbn [sign app signed] in Rf. now rewrite Rf.
Qed.
Lemma zeros : forall f w, number 10 f w -> Forall (fun c => c = 48) f -> w = 0.
Proof.
  intros f w H. assert (D0 : forall d, digit 48 d -> d = 0) by (intros d D; apply digit_dval in D; destruct D as (D & _); cbn in D; congruence).
  induction H as [c d D L|s v c d N IH D L]; intro F.
  - inversion F; subst. auto.
  - apply Forall_app in F. destruct F as [F1 F2]. inversion F2; subst. rewrite (IH F1), (D0 d D). reflexivity.
Qed.
Lemma zero_den : forall a f w, Forall (fun c => c <> 47) a -> number 10 f w -> zero_denominator (a ++ 47 :: f) -> w = 0.
Proof.
  intros a f w F Hf. induction F as [|c a Hc _ IH]; cbn [app]; intro Z; inversion Z; subst; try congruence; [|auto].
  eapply zeros; eauto.
Qed.

(** ** Bit-vectors *)
Lemma bits_number : forall b s v, number b s v -> bv_ofString b s = Ok (mkBV (u32 (if b =? 16 then Z.of_nat (length s) * 4 else Z.of_nat (length s))) v).
Proof. intros b s v H. unfold bv_ofString. pose proof (int_number b false s v H) as R. cbn [sign app signed] in R. now rewrite R. Qed.
