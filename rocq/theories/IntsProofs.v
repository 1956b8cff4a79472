(** Facts about the integer, rational and bit-vector layer. *)
From Coq Require Import ZArith QArith Qreduction List Bool Lia Znumtheory.
From Verif Require Import Base Kind Ints Str Literal SpecLit.
Import ListNotations.
Open Scope Z_scope.

Lemma u32_range : forall z, 0 <= u32 z < 2 ^ 32.
Proof. intros z; unfold u32; apply Z.mod_pos_bound; reflexivity. Qed.

Lemma u32_id : forall z, 0 <= z < 2 ^ 32 -> u32 z = z.
Proof. intros z H; unfold u32; apply Z.mod_small; exact H. Qed.

Lemma toUnsignedInt_id : forall z, 0 <= z < 2 ^ 32 -> toUnsignedInt z = z.
Proof.
  intros z H; unfold toUnsignedInt.
  rewrite Z.abs_eq by lia. rewrite (Z.mod_small z) by (split; [lia|]; 
    apply Z.lt_trans with (2 ^ 32); [lia|reflexivity]).
  apply u32_id; exact H.
Qed.

(* ---- Euclid ---- *)
Lemma euclidianQR_spec : forall x y, y <> 0 ->
  is_euclid x y (fst (euclidianQR x y)) (snd (euclidianQR x y)).
Proof.
  intros x y Hy; unfold euclidianQR, is_euclid.
  pose proof (Z.div_mod x y Hy) as E.
  destruct (Z.sgn (x mod y) <? 0) eqn:S1.
  - apply Z.ltb_lt in S1.
    assert (Hn : x mod y < 0) by (destruct (x mod y); simpl in S1; lia).
    destruct (Z.sgn (x mod y) >=? 0) eqn:S2.
    + apply Z.geb_le in S2; lia.
    + cbn [fst snd].
      assert (y < 0) by (destruct (Z_lt_le_dec y 0); [assumption|];
        pose proof (Z.mod_pos_bound x y); lia).
      pose proof (Z.mod_neg_bound x y H). split; nia.
  - apply Z.ltb_ge in S1. cbn [fst snd].
    assert (Hn : 0 <= x mod y) by (destruct (x mod y); simpl in S1; lia).
    split; [lia|]. split; [lia|].
    destruct (Z_lt_le_dec y 0).
    + pose proof (Z.mod_neg_bound x y l). lia.
    + pose proof (Z.mod_pos_bound x y). lia.
Qed.

Lemma is_euclid_unique : forall x y q r q' r',
  is_euclid x y q r -> is_euclid x y q' r' -> q = q' /\ r = r'.
Proof.
  unfold is_euclid; intros x y q r q' r' [H1 H2] [H3 H4].
  assert (y * (q - q') = r' - r) by lia.
  assert (q - q' = 0) by nia. lia.
Qed.

(* ---- bit-vectors ---- *)
Lemma bv_make_wf : forall s v, bv_wf (bv_make s v).
Proof.
  intros s v; unfold bv_wf, bv_make, modByPow2; cbn [bv_size bv_val].
  split; [apply u32_range|].
  apply Z.mod_pos_bound. apply Z.pow_pos_nonneg; [lia|apply u32_range].
Qed.

Lemma bv_make_size : forall s v, 0 <= s < 2 ^ 32 -> bv_size (bv_make s v) = s.
Proof. intros; unfold bv_make; cbn [bv_size]; apply u32_id; assumption. Qed.

Lemma bv_make_val : forall s v, 0 <= s < 2 ^ 32 -> bv_val (bv_make s v) = v mod 2 ^ s.
Proof. intros; unfold bv_make, modByPow2; cbn [bv_val]; rewrite u32_id; auto. Qed.

Lemma bv_make_id : forall b, bv_wf b -> bv_make (bv_size b) (bv_val b) = b.
Proof.
  intros [s v] [H1 H2]; cbn [bv_size bv_val] in *; unfold bv_make, modByPow2.
  rewrite u32_id by assumption. rewrite Z.mod_small by assumption. reflexivity.
Qed.

Lemma bv_ext : forall a b, bv_size a = bv_size b -> bv_val a = bv_val b -> a = b.
Proof. intros [s v] [s' v']; simpl; intros; subst; reflexivity. Qed.

Lemma mod_bits : forall v s k, 0 <= s -> 0 <= k < s ->
  Z.testbit (v mod 2 ^ s) k = Z.testbit v k.
Proof. intros; apply Z.mod_pow2_bits_low; lia. Qed.

Lemma wf_bits_high : forall b k, bv_wf b -> bv_size b <= k -> Z.testbit (bv_val b) k = false.
Proof.
  intros b k [H1 H2] Hk.
  replace (bv_val b) with (bv_val b mod 2 ^ bv_size b) by (apply Z.mod_small; exact H2).
  apply Z.mod_pow2_bits_high; lia.
Qed.

Lemma bv_bits_ext : forall a b, bv_wf a -> bv_wf b -> bv_size a = bv_size b ->
  (forall k, 0 <= k < bv_size a -> Z.testbit (bv_val a) k = Z.testbit (bv_val b) k) ->
  a = b.
Proof.
  intros a b Ha Hb Hs H. apply bv_ext; [exact Hs|].
  apply Z.bits_inj'. intros k Hk.
  destruct (Z_lt_le_dec k (bv_size a)).
  - apply H; lia.
  - rewrite (wf_bits_high a), (wf_bits_high b); auto; lia.
Qed.

Lemma bv_make_bit : forall s v k, 0 <= s < 2 ^ 32 -> 0 <= k < s ->
  Z.testbit (bv_val (bv_make s v)) k = Z.testbit v k.
Proof. intros; rewrite bv_make_val by assumption; apply mod_bits; lia. Qed.

(* operations *)
Lemma bv_not_spec : forall a, bv_wf a ->
  bv_size (bv_not a) = bv_size a /\
  forall k, 0 <= k < bv_size a ->
    Z.testbit (bv_val (bv_not a)) k = negb (Z.testbit (bv_val a) k).
Proof.
  intros a [Hs Hv]; unfold bv_not; split; [apply bv_make_size; exact Hs|].
  intros k Hk; rewrite bv_make_bit by lia. unfold bitwiseNot. apply Z.lnot_spec; lia.
Qed.

Lemma bv_neg_spec : forall a, bv_wf a ->
  bv_size (bv_neg a) = bv_size a /\ bv_val (bv_neg a) = (- bv_val a) mod 2 ^ bv_size a.
Proof.
  intros a [Hs Hv]; unfold bv_neg, bv_add.
  assert (Hn : bv_size (bv_not a) = bv_size a) by (apply bv_make_size; exact Hs).
  rewrite Hn. split; [apply bv_make_size; exact Hs|].
  rewrite bv_make_val by exact Hs. unfold bv_not, bitwiseNot.
  rewrite !bv_make_val by exact Hs.
  assert (0 < 2 ^ bv_size a) by (apply Z.pow_pos_nonneg; lia).
  rewrite <- Z.add_mod by lia. f_equal. unfold Z.lnot. lia.
Qed.

Lemma iter_setbit : forall n i z, 0 <= n -> 0 <= i ->
  Z.iter n (fun ir => (fst ir + 1, Z.setbit (snd ir) (fst ir))) (i, z)
  = (i + n, Z.lor z (Z.shiftl (Z.ones n) i)).
Proof.
  intros n i z Hn Hi. revert n Hn.
  apply natlike_ind.
  - cbn [Z.iter]. rewrite Z.shiftl_0_l, Z.lor_0_r. f_equal; lia.
  - intros n Hn IH.
    unfold Z.succ. 
    assert (E : forall A (f : A -> A) x, Z.iter (n + 1) f x = f (Z.iter n f x)).
    { intros A f x. destruct n as [|p|p]; [reflexivity| |lia].
      cbn [Z.add Z.iter]. rewrite Pos.add_1_r. apply Pos.iter_succ. }
    rewrite E, IH. cbn [fst snd]. f_equal; [lia|].
    apply Z.bits_inj'. intros k Hk.
    rewrite Z.setbit_eqb by lia. rewrite !Z.lor_spec, !Z.shiftl_spec by lia.
    destruct (Z_lt_le_dec k i).
    + rewrite !(Z.testbit_neg_r _ (k - i)) by lia.
      destruct (i + n =? k) eqn:E1; [apply Z.eqb_eq in E1; lia|reflexivity].
    + rewrite !Z.testbit_ones_nonneg by lia.
      destruct (i + n =? k) eqn:E1;
      destruct (k - i <? n) eqn:E2; destruct (k - i <? n + 1) eqn:E3;
      destruct (Z.testbit z k); simpl; try reflexivity;
      rewrite ?Z.eqb_eq, ?Z.eqb_neq, ?Z.ltb_lt, ?Z.ltb_ge in *; lia.
Qed.

Lemma oneExtend_ones : forall s, 1 <= s < 2 ^ 32 -> oneExtend 1 1 (u32 (s - 1)) = Z.ones s.
Proof.
  intros s H; unfold oneExtend.
  rewrite (u32_id (s - 1)) by lia. replace (1 + (s - 1)) with s by lia.
  rewrite u32_id by lia. rewrite iter_setbit by lia. cbn [snd].
  apply Z.bits_inj'. intros k Hk.
  rewrite Z.lor_spec, Z.shiftl_spec by lia.
  destruct (Z.eq_dec k 0) as [->|Hk0].
  - rewrite (Z.testbit_ones_nonneg s) by lia.
    replace (0 <? s) with true by (symmetry; apply Z.ltb_lt; lia). reflexivity.
  - rewrite !Z.testbit_ones_nonneg by lia.
    replace (Z.testbit 1 k) with false
      by (symmetry; apply Z.bits_above_log2; simpl; lia).
    simpl. destruct (k - 1 <? s - 1) eqn:E1; destruct (k <? s) eqn:E2; try reflexivity;
      rewrite ?Z.ltb_lt, ?Z.ltb_ge in *; lia.
Qed.

Lemma bv_udiv_spec : forall a b, bv_wf a -> bv_wf b ->
  bv_size (bv_udiv a b) = bv_size a /\
  bv_val (bv_udiv a b) =
    (if bv_val b =? 0 then 2 ^ bv_size a - 1 else bv_val a / bv_val b).
Proof.
  intros a b [Hs Hv] [Hs' Hv']; unfold bv_udiv.
  assert (P : 0 < 2 ^ bv_size a) by (apply Z.pow_pos_nonneg; lia).
  destruct (bv_val b =? 0) eqn:E.
  - apply Z.eqb_eq in E. rewrite E. cbn [Z.sgn Z.eqb].
    split; [apply bv_make_size; exact Hs|].
    rewrite bv_make_val by exact Hs.
    destruct (Z.eq_dec (bv_size a) 0) as [Z0|Z0].
    + rewrite Z0. change (2 ^ 0) with 1. rewrite Z.mod_1_r. reflexivity.
    + rewrite oneExtend_ones by lia. rewrite Z.ones_equiv.
      rewrite Z.mod_small; lia.
  - apply Z.eqb_neq in E.
    destruct (Z.sgn (bv_val b) =? 0) eqn:E2.
    + apply Z.eqb_eq, Z.sgn_null_iff in E2. lia.
    + split; [apply bv_make_size; exact Hs|].
      rewrite bv_make_val by exact Hs. unfold floorDivideQuotient.
      apply Z.mod_small. split; [apply Z.div_pos; lia|].
      apply Z.le_lt_trans with (bv_val a); [|lia].
      apply Z.div_le_upper_bound; nia.
Qed.

Lemma bv_urem_spec : forall a b, bv_wf a -> bv_wf b ->
  bv_size (bv_urem a b) = bv_size a /\
  bv_val (bv_urem a b) = (if bv_val b =? 0 then bv_val a else bv_val a mod bv_val b).
Proof.
  intros a b [Hs Hv] [Hs' Hv']; unfold bv_urem.
  destruct (bv_val b =? 0) eqn:E.
  - apply Z.eqb_eq in E. rewrite E. cbn [Z.sgn Z.eqb].
    split; [apply bv_make_size; exact Hs|].
    rewrite bv_make_val by exact Hs. apply Z.mod_small; exact Hv.
  - apply Z.eqb_neq in E.
    destruct (Z.sgn (bv_val b) =? 0) eqn:E2.
    + apply Z.eqb_eq, Z.sgn_null_iff in E2. lia.
    + split; [apply bv_make_size; exact Hs|].
      rewrite bv_make_val by exact Hs. unfold floorDivideRemainder.
      pose proof (Z.mod_pos_bound (bv_val a) (bv_val b)).
      pose proof (Z.mod_le (bv_val a) (bv_val b)).
      apply Z.mod_small. lia.
Qed.

Lemma bv_concat_spec : forall a b, bv_wf a -> bv_wf b ->
  bv_size a + bv_size b < 2 ^ 32 ->
  bv_size (bv_concat a b) = bv_size a + bv_size b /\
  bv_val (bv_concat a b) = bv_val a * 2 ^ bv_size b + bv_val b.
Proof.
  intros a b [Hs Hv] [Hs' Hv'] H; unfold bv_concat.
  split; [apply bv_make_size; lia|].
  rewrite bv_make_val by lia. unfold multiplyByPow2.
  apply Z.mod_small. rewrite Z.pow_add_r by lia. nia.
Qed.

Lemma bv_concat_bits : forall a b k, bv_wf a -> bv_wf b ->
  bv_size a + bv_size b < 2 ^ 32 -> 0 <= k ->
  Z.testbit (bv_val (bv_concat a b)) k =
  if k <? bv_size b then Z.testbit (bv_val b) k
  else Z.testbit (bv_val a) (k - bv_size b).
Proof.
  intros a b k Ha Hb H Hk.
  destruct (bv_concat_spec a b Ha Hb H) as [_ E]. rewrite E.
  destruct Ha as [Hs Hv], Hb as [Hs' Hv'].
  assert (P : 0 < 2 ^ bv_size b) by (apply Z.pow_pos_nonneg; lia).
  destruct (k <? bv_size b) eqn:K.
  - apply Z.ltb_lt in K.
    rewrite <- (Z.mod_pow2_bits_low _ (bv_size b)) by lia.
    rewrite Z.add_comm, Z.mod_add by lia.
    rewrite Z.mod_small by lia. reflexivity.
  - apply Z.ltb_ge in K.
    replace k with ((k - bv_size b) + bv_size b) at 1 by lia.
    rewrite <- Z.div_pow2_bits by lia.
    rewrite Z.add_comm, Z.div_add by lia.
    rewrite Z.div_small by lia. reflexivity.
Qed.

Lemma bv_extract_spec : forall a hi lo, bv_wf a ->
  0 <= lo <= hi -> hi < 2 ^ 32 - 1 ->
  bv_wf (bv_extract a hi lo) /\
  bv_size (bv_extract a hi lo) = hi - lo + 1 /\
  forall k, 0 <= k <= hi - lo ->
    Z.testbit (bv_val (bv_extract a hi lo)) k = Z.testbit (bv_val a) (lo + k).
Proof.
  intros a hi lo Ha Hl Hh; unfold bv_extract.
  split; [apply bv_make_wf|].
  rewrite u32_id by lia. split; [apply bv_make_size; lia|].
  intros k Hk. rewrite bv_make_bit by lia.
  unfold extractBitRange.
  replace (lo + (hi - lo + 1) - 1) with hi by lia.
  rewrite (u32_id hi) by lia. rewrite (u32_id (hi + 1)) by lia.
  rewrite Z.div_pow2_bits by lia.
  rewrite Z.mod_pow2_bits_low by lia. f_equal; lia.
Qed.

(* ---- rationals ---- *)
Lemma Qred_wf : forall q, rat_wf (Qred q).
Proof.
  intros [n d]; unfold rat_wf, Qred.
  pose proof (Z.ggcd_gcd n (Zpos d)) as G.
  pose proof (Z.ggcd_correct_divisors n (Zpos d)) as D.
  destruct (Z.ggcd n (Zpos d)) as [g [nn dd]]. cbn [fst snd] in *.
  destruct D as [D1 D2].
  assert (Hg : 0 < g).
  { pose proof (Z.gcd_nonneg n (Zpos d)). 
    destruct (Z.eq_dec g 0) as [G0|G0]; [exfalso; rewrite G0 in D2; lia|lia]. }
  assert (Hd : 0 < dd) by nia.
  cbn [Qnum Qden]. rewrite Z2Pos.id by lia.
  rewrite D1, D2 in G. rewrite Z.gcd_mul_mono_l_nonneg in G by lia. nia.
Qed.

Lemma rat_wf_red : forall q, rat_wf q -> Qred q = q.
Proof.
  intros [n d] H; unfold rat_wf, Qred in *. cbn [Qnum Qden] in H.
  pose proof (Z.ggcd_gcd n (Zpos d)) as G.
  pose proof (Z.ggcd_correct_divisors n (Zpos d)) as D.
  destruct (Z.ggcd n (Zpos d)) as [g [nn dd]]. cbn [fst snd] in *.
  subst g. rewrite H in D. destruct D as [D1 D2].
  rewrite Z.mul_1_l in D1, D2. subst. reflexivity.
Qed.

Lemma rat_wf_eq : forall a b, rat_wf a -> rat_wf b -> (a == b)%Q -> a = b.
Proof.
  intros a b Ha Hb E. rewrite <- (rat_wf_red a Ha), <- (rat_wf_red b Hb).
  apply Qred_complete; exact E.
Qed.

Lemma rat_make_spec : forall n d, d <> 0 ->
  rat_wf (rat_make n d) /\ (rat_make n d * inject_Z d == inject_Z n)%Q.
Proof.
  intros n d Hd; unfold rat_make; split; [apply Qred_wf|].
  rewrite Qred_correct. unfold Qeq, Qmult, inject_Z; cbn [Qnum Qden].
  rewrite Pos.mul_1_r. rewrite Z2Pos.id by lia.
  pose proof (Z.sgn_abs d). pose proof (Z.abs_sgn d). nia.
Qed.

(* ---- printing and reading numbers ---- *)
Lemma dval_dchar : forall d, 0 <= d < 16 -> dval (dchar d) = Some d.
Proof.
  intros d H. 
  assert (d = 0 \/ d = 1 \/ d = 2 \/ d = 3 \/ d = 4 \/ d = 5 \/ d = 6 \/ d = 7 \/
          d = 8 \/ d = 9 \/ d = 10 \/ d = 11 \/ d = 12 \/ d = 13 \/ d = 14 \/ d = 15) by lia.
  repeat (destruct H0 as [->|H0]; [reflexivity|]). subst; reflexivity.
Qed.

Lemma dchar_range : forall d, 0 <= d < 16 -> 48 <= dchar d <= 57 \/ 97 <= dchar d <= 102.
Proof. intros d H; unfold dchar; destruct (d <? 10) eqn:E; lia. Qed.

Lemma read_digs_digs : forall base n z acc, 2 <= base <= 16 -> 0 <= z < base ^ (Z.of_nat n) ->
  (0 < n)%nat ->
  read_digs base (digs n base z acc) 0 = read_digs base acc z.
Proof.
  intros base n z acc Hb. revert z acc.
  induction n as [|n IH]; intros z acc Hz Hn; [lia|].
  cbn [digs]. destruct (z <? base) eqn:E.
  - apply Z.ltb_lt in E. cbn [read_digs]. rewrite dval_dchar by lia.
    replace (z <? base) with true by (symmetry; apply Z.ltb_lt; lia).
    f_equal.
  - apply Z.ltb_ge in E.
    destruct n as [|n'].
    { change (Z.of_nat 1) with 1 in Hz. rewrite Z.pow_1_r in Hz. lia. }
    rewrite IH; [| |lia].
    + cbn [read_digs].
      pose proof (Z.mod_pos_bound z base).
      rewrite dval_dchar by lia.
      replace (z mod base <? base) with true by (symmetry; apply Z.ltb_lt; lia).
      f_equal. pose proof (Z.div_mod z base). lia.
    + rewrite (Nat2Z.inj_succ (S n')), Z.pow_succ_r in Hz by lia.
      split; [apply Z.div_pos; lia|].
      apply Z.div_lt_upper_bound; lia.
Qed.

Lemma log2_fuel : forall base z, 2 <= base -> 0 <= z ->
  0 <= z < base ^ Z.of_nat (S (Z.to_nat (Z.log2 z))).
Proof.
  intros base z Hb Hz. split; [exact Hz|].
  rewrite Nat2Z.inj_succ, Z2Nat.id by apply Z.log2_nonneg.
  apply Z.lt_le_trans with (2 ^ Z.succ (Z.log2 z)).
  - destruct (Z.eq_dec z 0) as [->|].
    + reflexivity.
    + apply Z.log2_spec; lia.
  - apply Z.pow_le_mono_l; lia.
Qed.

Lemma read_nonneg : forall base z, 2 <= base <= 16 -> 0 <= z ->
  read_digs base (int_toString base z) 0 = Some z.
Proof.
  intros base z Hb Hz. unfold int_toString.
  replace (z <? 0) with false by (symmetry; apply Z.ltb_ge; lia).
  rewrite read_digs_digs; [reflexivity|lia| |lia].
  apply log2_fuel; lia.
Qed.

Lemma digs_all : forall base n z acc (P : Z -> Prop), 2 <= base <= 16 -> 0 <= z ->
  (forall d, 0 <= d < base -> P (dchar d)) -> Forall P acc -> Forall P (digs n base z acc).
Proof.
  intros base n; induction n as [|n IH]; intros z acc P Hb Hz HP HA; [exact HA|].
  cbn [digs]. destruct (z <? base) eqn:E.
  - constructor; [apply HP; lia|exact HA].
  - apply IH; auto. apply Z.div_pos; lia.
    constructor; [|exact HA]. apply HP. apply Z.mod_pos_bound; lia.
Qed.

Lemma digs_nonnil : forall base n z acc, (0 < n)%nat -> digs n base z acc <> [].
Proof.
  intros base n; induction n as [|n IH]; intros z acc H; [lia|].
  cbn [digs]. destruct (z <? base); [discriminate|].
  destruct n; [cbn [digs]; discriminate|]. apply IH; lia.
Qed.

Lemma int_toString_nonneg : forall base z, 0 <= z ->
  int_toString base z = digs (S (Z.to_nat (Z.log2 z))) base z [].
Proof.
  intros base z H; unfold int_toString.
  replace (z <? 0) with false by (symmetry; apply Z.ltb_ge; lia). reflexivity.
Qed.

(** all digits of a printed non-negative number *)
Lemma int_toString_digits : forall base z (P : Z -> Prop), 2 <= base <= 16 -> 0 <= z ->
  (forall d, 0 <= d < base -> P (dchar d)) -> Forall P (int_toString base z).
Proof.
  intros; rewrite int_toString_nonneg by assumption. apply digs_all; auto.
Qed.

Lemma int_toString_nonnil : forall base z, int_toString base z <> [].
Proof.
  intros; unfold int_toString. destruct (z <? 0); [discriminate|].
  apply digs_nonnil; lia.
Qed.

Lemma int_ofString_digits : forall base s, s <> [] ->
  Forall (fun c => c <> 45) s -> int_ofString base s = read_digs base s 0.
Proof.
  intros base [|c s] H F; [congruence|].
  inversion F; subst. unfold int_ofString.
  assert (E : c <> 45) by assumption.
  destruct c as [|p|p]; try reflexivity.
  do 6 (destruct p as [p|p|]; try reflexivity); congruence.
Qed.

Lemma int_ofString_neg : forall base s, s <> [] ->
  int_ofString base (45 :: s) = option_map Z.opp (read_digs base s 0).
Proof. intros base [|c s] H; [congruence|reflexivity]. Qed.

Lemma int_roundtrip : forall base z, 2 <= base <= 16 ->
  int_ofString base (int_toString base z) = Some z.
Proof.
  intros base z Hb. destruct (Z_lt_le_dec z 0) as [Hz|Hz].
  - unfold int_toString.
    replace (z <? 0) with true by (symmetry; apply Z.ltb_lt; lia).
    rewrite <- (int_toString_nonneg base (- z)) by lia.
    rewrite int_ofString_neg by apply int_toString_nonnil.
    rewrite read_nonneg by lia. simpl. f_equal; lia.
  - rewrite int_ofString_digits.
    + apply read_nonneg; lia.
    + apply int_toString_nonnil.
    + apply int_toString_digits; [lia|lia|].
      intros d Hd. pose proof (dchar_range d). lia.
Qed.

Lemma read_digs_zeros : forall base k s, 2 <= base ->
  read_digs base (repeat 48 k ++ s) 0 = read_digs base s 0.
Proof.
  intros base k s Hb; induction k as [|k IH]; [reflexivity|].
  cbn [repeat app read_digs]. unfold dval at 1. cbn [Z.leb Z.compare Pos.compare Pos.compare_cont andb].
  change (48 - 48) with 0.
  replace (0 <? base) with true by (symmetry; apply Z.ltb_lt; lia).
  rewrite Z.mul_0_l. exact IH.
Qed.

Lemma digs_length : forall base n z acc m, 2 <= base -> 0 <= z < base ^ Z.of_nat m ->
  (0 < m)%nat -> (length (digs n base z acc) <= length acc + m)%nat.
Proof.
  intros base n; induction n as [|n IH]; intros z acc m Hb Hz Hm; cbn [digs]; [lia|].
  destruct (z <? base) eqn:E; [cbn [length]; lia|].
  apply Z.ltb_ge in E.
  destruct m as [|m]; [lia|].
  destruct m as [|m].
  { change (Z.of_nat 1) with 1 in Hz. rewrite Z.pow_1_r in Hz. lia. }
  specialize (IH (z / base) (dchar (z mod base) :: acc) (S m) Hb).
  cbn [length] in IH. 
  assert (length (digs n base (z / base) (dchar (z mod base) :: acc)) <= S (length acc) + S m)%nat.
  { apply IH; [|lia].
    rewrite (Nat2Z.inj_succ (S m)), Z.pow_succ_r in Hz by lia.
    split; [apply Z.div_pos; lia|]. apply Z.div_lt_upper_bound; lia. }
  lia.
Qed.
