(** Properties C01-C16 and C51: literal operators. *)
From Coq Require Import ZArith QArith List Bool Lia.
From Verif Require Import Base Kind Ints Str Literal Arity Union SpecLit
  IntsProofs StrProofs LiteralProofs LiteralProofs2 LiteralProofs3 UnionProofs.
Import ListNotations.
Open Scope Z_scope.

(** C01 *)
Theorem C01_zdiv_zmod_euclid : forall x y,
  (y <> 0 -> exists q r,
     evaluate K_EVAL_INT_DIV [LNum x; LNum y] = Ok (Some (LNum q)) /\
     evaluate K_EVAL_INT_MOD [LNum x; LNum y] = Ok (Some (LNum r)) /\
     is_euclid x y q r /\
     forall q' r', is_euclid x y q' r' -> q' = q /\ r' = r) /\
  (y = 0 ->
     evaluate K_EVAL_INT_DIV [LNum x; LNum y] = Ok None /\
     evaluate K_EVAL_INT_MOD [LNum x; LNum y] = Ok None).
Proof. exact zdiv_zmod_euclid. Qed.
Print Assumptions C01_zdiv_zmod_euclid.
Example C01_example :
  evaluate K_EVAL_INT_DIV [LNum (-7); LNum (-2)] = Ok (Some (LNum 4)) /\
  evaluate K_EVAL_INT_MOD [LNum (-7); LNum (-2)] = Ok (Some (LNum 1)) /\
  is_euclid (-7) (-2) 4 1.
Proof. vm_compute. intuition congruence. Qed.

(** C02: the full statement (floor for every non-zero divisor) is false. *)
Theorem C02_zdiv_floor_refuted : exists x y q, y <> 0 /\
  evaluate K_EVAL_INT_DIV [LNum x; LNum y] = Ok (Some (LNum q)) /\
  ~ is_floor_quotient x y q.
Proof.
  exists 7, (-2), (-3). split; [discriminate|]. split; [vm_compute; reflexivity|].
  unfold is_floor_quotient. lia.
Qed.
Print Assumptions C02_zdiv_floor_refuted.

(** Full statement: for every y <> 0 the quotient is the floor.  Missing here:
    negative divisors, where it is false (above). *)
Theorem C02_zdiv_floor_partial : forall x y, 0 < y ->
  exists q, evaluate K_EVAL_INT_DIV [LNum x; LNum y] = Ok (Some (LNum q)) /\
            is_floor_quotient x y q.
Proof. exact zdiv_floor_pos. Qed.
Print Assumptions C02_zdiv_floor_partial.
Example C02_example : evaluate K_EVAL_INT_DIV [LNum (-7); LNum 2] = Ok (Some (LNum (-4))).
Proof. vm_compute. reflexivity. Qed.

(** C03 *)
Theorem C03_literals_stay_wf : forall k args l, Forall lit_wf args ->
  evaluate k args = Ok (Some l) -> lit_wf l.
Proof. exact evaluate_wf. Qed.
Print Assumptions C03_literals_stay_wf.
Example C03_example : lit_wf (LBin (mkBV 3 5)) /\
  evaluate K_EVAL_MUL [LBin (mkBV 3 5); LBin (mkBV 3 7)] = Ok (Some (LBin (mkBV 3 3))).
Proof. split; [vm_compute; intuition congruence|vm_compute; reflexivity]. Qed.

Theorem C03_tokens_wf : forall base s b, base = 2 \/ base = 16 ->
  digit_text s -> Z.of_nat (length s) * 4 < 2 ^ 32 ->
  bv_ofString base s = Ok b -> bv_wf b.
Proof. exact bv_ofString_wf. Qed.
Print Assumptions C03_tokens_wf.
Example C03_tokens_example : digit_text [102; 48] /\ (* f0 *)
  bv_ofString 16 [102; 48] = Ok (mkBV 8 240).
Proof. split; [split; [discriminate|repeat constructor; lia]|vm_compute; reflexivity]. Qed.

(** C04 *)
Theorem C04_bv_nary : forall mk w a bs, bv_cat mk ->
  bv_wf a -> Forall bv_wf bs -> bv_size a = w -> Forall (fun b => bv_size b = w) bs ->
  (exists c, evaluate K_EVAL_ADD (map mk (a :: bs)) = Ok (Some (mk c)) /\ bv_size c = w /\
     bv_val c = fold_left Z.add (map bv_val bs) (bv_val a) mod 2 ^ w) /\
  (exists c, evaluate K_EVAL_MUL (map mk (a :: bs)) = Ok (Some (mk c)) /\ bv_size c = w /\
     bv_val c = fold_left Z.mul (map bv_val bs) (bv_val a) mod 2 ^ w) /\
  (exists c, evaluate K_EVAL_AND (map mk (a :: bs)) = Ok (Some (mk c)) /\ bv_size c = w /\
     forall i, 0 <= i < w -> Z.testbit (bv_val c) i =
       fold_left andb (map (fun b => Z.testbit (bv_val b) i) bs) (Z.testbit (bv_val a) i)) /\
  (exists c, evaluate K_EVAL_OR (map mk (a :: bs)) = Ok (Some (mk c)) /\ bv_size c = w /\
     forall i, 0 <= i < w -> Z.testbit (bv_val c) i =
       fold_left orb (map (fun b => Z.testbit (bv_val b) i) bs) (Z.testbit (bv_val a) i)) /\
  (exists c, evaluate K_EVAL_XOR (map mk (a :: bs)) = Ok (Some (mk c)) /\ bv_size c = w /\
     forall i, 0 <= i < w -> Z.testbit (bv_val c) i =
       fold_left xorb (map (fun b => Z.testbit (bv_val b) i) bs) (Z.testbit (bv_val a) i)).
Proof. exact bv_operators_meaning. Qed.
Print Assumptions C04_bv_nary.
Example C04_nary_example : bv_cat LBin /\ bv_wf (mkBV 4 12) /\ bv_wf (mkBV 4 10) /\
  evaluate K_EVAL_XOR [LBin (mkBV 4 12); LBin (mkBV 4 10)] = Ok (Some (LBin (mkBV 4 6))).
Proof. split; [right; reflexivity|]. vm_compute. intuition congruence. Qed.

Theorem C04_bv_unary : forall mk a, bv_cat mk -> bv_wf a ->
  (exists c, evaluate K_EVAL_NEG [mk a] = Ok (Some (mk c)) /\ bv_size c = bv_size a /\
     bv_val c = (- bv_val a) mod 2 ^ bv_size a) /\
  (exists c, evaluate K_EVAL_NOT [mk a] = Ok (Some (mk c)) /\ bv_size c = bv_size a /\
     forall i, 0 <= i < bv_size a -> Z.testbit (bv_val c) i = negb (Z.testbit (bv_val a) i)).
Proof. exact bv_unary_meaning. Qed.
Print Assumptions C04_bv_unary.
Example C04_unary_example : evaluate K_EVAL_NEG [LHex (mkBV 8 3)] = Ok (Some (LHex (mkBV 8 253))).
Proof. vm_compute. reflexivity. Qed.

Theorem C04_bv_divmod : forall mk a b, bv_cat mk -> bv_wf a -> bv_wf b ->
  bv_size a = bv_size b ->
  (exists c, evaluate K_EVAL_INT_DIV [mk a; mk b] = Ok (Some (mk c)) /\
     bv_size c = bv_size a /\
     bv_val c = (if bv_val b =? 0 then 2 ^ bv_size a - 1 else bv_val a / bv_val b)) /\
  (exists c, evaluate K_EVAL_INT_MOD [mk a; mk b] = Ok (Some (mk c)) /\
     bv_size c = bv_size a /\
     bv_val c = (if bv_val b =? 0 then bv_val a else bv_val a mod bv_val b)).
Proof. exact bv_divmod_meaning. Qed.
Print Assumptions C04_bv_divmod.
Example C04_divmod_example :
  evaluate K_EVAL_INT_DIV [LBin (mkBV 5 9); LBin (mkBV 5 0)] = Ok (Some (LBin (mkBV 5 31))).
Proof. vm_compute. reflexivity. Qed.

Theorem C04_bv_widths_differ : forall mk a bs k, bv_cat mk ->
  In k [K_EVAL_AND; K_EVAL_OR; K_EVAL_XOR; K_EVAL_ADD; K_EVAL_MUL; K_EVAL_INT_DIV; K_EVAL_INT_MOD] ->
  Exists (fun b => bv_size b <> bv_size a) bs ->
  evaluate k (map mk (a :: bs)) = Ok None.
Proof. exact bv_widths_differ. Qed.
Print Assumptions C04_bv_widths_differ.
Example C04_widths_example :
  Exists (fun b => bv_size b <> bv_size (mkBV 4 1)) [mkBV 4 2; mkBV 5 2].
Proof. right; left; discriminate. Qed.

(** C05 *)
Theorem C05_concat_bits : forall mk a b, bv_cat mk -> bv_wf a -> bv_wf b ->
  bv_size a + bv_size b < 2 ^ 32 ->
  exists c, evaluate K_EVAL_CONCAT [mk a; mk b] = Ok (Some (mk c)) /\
    bv_size c = bv_size a + bv_size b /\
    forall k, 0 <= k < bv_size c ->
      Z.testbit (bv_val c) k =
      (if k <? bv_size b then Z.testbit (bv_val b) k
       else Z.testbit (bv_val a) (k - bv_size b)).
Proof. exact concat_meaning. Qed.
Print Assumptions C05_concat_bits.

Theorem C05_extract_bits : forall mk a i j, bv_cat mk -> bv_wf a ->
  0 <= i <= j -> j < bv_size a ->
  exists c, evaluate K_EVAL_EXTRACT [mk a; LNum i; LNum j] = Ok (Some (mk c)) /\
    bv_wf c /\ bv_size c = j - i + 1 /\
    forall k, 0 <= k < bv_size c -> Z.testbit (bv_val c) k = Z.testbit (bv_val a) (i + k).
Proof. exact extract_meaning. Qed.
Print Assumptions C05_extract_bits.

Theorem C05_extract_above : forall mk a i j, bv_cat mk -> bv_wf a ->
  0 <= i < bv_size a -> bv_size a < j ->
  evaluate K_EVAL_EXTRACT [mk a; LNum i; LNum j] =
  evaluate K_EVAL_EXTRACT [mk a; LNum i; LNum (bv_size a - 1)].
Proof. exact extract_above. Qed.
Print Assumptions C05_extract_above.

Theorem C05_extract_empty : forall mk a i j, bv_cat mk -> bv_wf a ->
  i < 0 \/ j < 0 \/ bv_size a < i \/ (j < i /\ j <> bv_size a) \/ bv_size a = 0 \/
  (i = bv_size a /\ j <> bv_size a) ->
  evaluate K_EVAL_EXTRACT [mk a; LNum i; LNum j] = Ok (Some (mk (mkBV 0 0))).
Proof. exact extract_empty. Qed.
Print Assumptions C05_extract_empty.

Theorem C05_split_concat : forall mk a b, bv_cat mk -> bv_wf a -> bv_wf b ->
  bv_size a + bv_size b < 2 ^ 32 -> 0 < bv_size a -> 0 < bv_size b ->
  exists c, evaluate K_EVAL_CONCAT [mk a; mk b] = Ok (Some (mk c)) /\
    evaluate K_EVAL_EXTRACT [mk c; LNum 0; LNum (bv_size b - 1)] = Ok (Some (mk b)) /\
    evaluate K_EVAL_EXTRACT [mk c; LNum (bv_size b); LNum (bv_size a + bv_size b - 1)]
      = Ok (Some (mk a)).
Proof. exact split_concat. Qed.
Print Assumptions C05_split_concat.

Theorem C05_concat_split : forall mk c m, bv_cat mk -> bv_wf c ->
  0 < m < bv_size c ->
  exists hi lo,
    evaluate K_EVAL_EXTRACT [mk c; LNum m; LNum (bv_size c - 1)] = Ok (Some (mk hi)) /\
    evaluate K_EVAL_EXTRACT [mk c; LNum 0; LNum (m - 1)] = Ok (Some (mk lo)) /\
    evaluate K_EVAL_CONCAT [mk hi; mk lo] = Ok (Some (mk c)).
Proof. exact concat_split. Qed.
Print Assumptions C05_concat_split.
Example C05_example : bv_wf (mkBV 3 5) /\ bv_wf (mkBV 2 2) /\
  evaluate K_EVAL_CONCAT [LBin (mkBV 3 5); LBin (mkBV 2 2)] = Ok (Some (LBin (mkBV 5 22))) /\
  evaluate K_EVAL_EXTRACT [LBin (mkBV 5 22); LNum 2; LNum 4] = Ok (Some (LBin (mkBV 3 5))) /\
  evaluate K_EVAL_EXTRACT [LBin (mkBV 5 22); LNum 2; LNum 9] = Ok (Some (LBin (mkBV 3 5))) /\
  evaluate K_EVAL_EXTRACT [LBin (mkBV 5 22); LNum 3; LNum 2] = Ok (Some (LBin (mkBV 0 0))).
Proof. vm_compute. intuition congruence. Qed.

(** C06: the full statement (the result is never wider than the argument) is
    false: index |a| is accepted as an upper bound. *)
Theorem C06_extract_past_top_refuted : exists b i j c, bv_wf b /\ 0 <= i <= j /\
  evaluate K_EVAL_EXTRACT [LBin b; LNum i; LNum j] = Ok (Some (LBin c)) /\
  bv_size c > bv_size b.
Proof.
  exists (mkBV 3 5), 0, 3, (mkBV 4 5). vm_compute. intuition congruence.
Qed.
Print Assumptions C06_extract_past_top_refuted.

Theorem C06_extract_only_past_top_refuted : exists b i j c, bv_wf b /\
  i = bv_size b /\
  evaluate K_EVAL_EXTRACT [LBin b; LNum i; LNum j] = Ok (Some (LBin c)) /\
  bv_size c = 1.
Proof.
  exists (mkBV 3 5), 3, 3, (mkBV 1 0). vm_compute. intuition congruence.
Qed.
Print Assumptions C06_extract_only_past_top_refuted.

(** Full statement: for all indices.  Missing: an upper index equal to the
    width, where it is false (above). *)
Theorem C06_extract_not_wider_partial : forall mk a i j, bv_cat mk -> bv_wf a ->
  j <> bv_size a ->
  exists c, evaluate K_EVAL_EXTRACT [mk a; LNum i; LNum j] = Ok (Some (mk c)) /\
    bv_size c <= bv_size a.
Proof. exact extract_not_wider. Qed.
Print Assumptions C06_extract_not_wider_partial.
Example C06_example : bv_wf (mkBV 3 5) /\
  evaluate K_EVAL_EXTRACT [LBin (mkBV 3 5); LNum 1; LNum 4] = Ok (Some (LBin (mkBV 2 2))).
Proof. vm_compute. intuition congruence. Qed.

(** C07: widths wrap modulo 2^32. *)
Theorem C07_concat_width_refuted : exists a b c la lb lc, bv_wf a /\ bv_wf b /\
  evaluate K_EVAL_CONCAT [LBin a; LBin b] = Ok (Some (LBin c)) /\
  evaluate K_EVAL_LENGTH [LBin a] = Ok (Some (LNum la)) /\
  evaluate K_EVAL_LENGTH [LBin b] = Ok (Some (LNum lb)) /\
  evaluate K_EVAL_LENGTH [LBin c] = Ok (Some (LNum lc)) /\
  lc <> la + lb.
Proof.
  exists (mkBV (2 ^ 32 - 1) 0), (mkBV 1 1), (mkBV 0 0), (2 ^ 32 - 1), 1, 0.
  split.
  - unfold bv_wf; cbn [bv_size bv_val]. split; [lia|]. split; [lia|].
    apply Z.pow_pos_nonneg; lia.
  - split; [vm_compute; intuition congruence|].
    repeat (split; [vm_compute; reflexivity|]). discriminate.
Qed.
Print Assumptions C07_concat_width_refuted.

(** Full statement: for all widths.  Missing: sums of 2^32 and more, where it is
    false (above). *)
Theorem C07_concat_width_partial : forall mk a b, bv_cat mk -> bv_wf a -> bv_wf b ->
  bv_size a + bv_size b < 2 ^ 32 ->
  exists c, evaluate K_EVAL_CONCAT [mk a; mk b] = Ok (Some (mk c)) /\
    bv_size c = bv_size a + bv_size b.
Proof.
  intros mk a b H1 H2 H3 H4. destruct (concat_meaning mk a b H1 H2 H3 H4) as (c & E & S & _).
  exists c; split; assumption.
Qed.
Print Assumptions C07_concat_width_partial.
Example C07_example :
  evaluate K_EVAL_CONCAT [LHex (mkBV 4 10); LHex (mkBV 8 0)] = Ok (Some (LHex (mkBV 12 2560))).
Proof. vm_compute. reflexivity. Qed.

(** C08 *)
Theorem C08_string_text_roundtrip : forall s, str_wf s -> str_ofText true (str_toText s) = s.
Proof. exact str_roundtrip. Qed.
Print Assumptions C08_string_text_roundtrip.
Example C08_example : (* the characters backslash u { 4 1 } and code point 0x2ffff *)
  let s := [92; 117; 123; 52; 49; 125; 196607; 10] in
  str_wf s /\ str_ofText true (str_toText s) = s /\ str_ofText true s <> s.
Proof. split; [repeat constructor; lia|]. vm_compute. intuition congruence. Qed.

(** C09 *)
Theorem C09_concat : forall s ss,
  evaluate K_EVAL_CONCAT (map LStr (s :: ss)) = Ok (Some (LStr (concat (s :: ss)))).
Proof. exact str_concat_meaning. Qed.
Print Assumptions C09_concat.

Theorem C09_length : forall s, Z.of_nat (length s) < 2 ^ 32 ->
  evaluate K_EVAL_LENGTH [LStr s] = Ok (Some (LNum (Z.of_nat (length s)))).
Proof. exact str_length_meaning. Qed.
Print Assumptions C09_length.

Theorem C09_find : forall s t, Z.of_nat (length s) < 2 ^ 32 ->
  exists i, evaluate K_EVAL_FIND [LStr s; LStr t] = Ok (Some (LNum i)) /\
    ((i = -1 /\ forall k, ~ occurs_at s t k) \/
     (0 <= i /\ occurs_at s t i /\ forall k, 0 <= k < i -> ~ occurs_at s t k)).
Proof. exact str_find_meaning. Qed.
Print Assumptions C09_find.

Theorem C09_extract : forall s i j, Z.of_nat (length s) < 2 ^ 32 ->
  exists r, evaluate K_EVAL_EXTRACT [LStr s; LNum i; LNum j] = Ok (Some (LStr r)) /\
    (0 <= i /\ 0 <= j -> is_slice s i j r) /\
    (i < 0 \/ j < 0 -> r = []).
Proof. exact str_extract_meaning. Qed.
Print Assumptions C09_extract.
Example C09_example :
  evaluate K_EVAL_FIND [LStr [97; 98; 97; 98]; LStr [98; 97]] = Ok (Some (LNum 1)) /\
  evaluate K_EVAL_EXTRACT [LStr [97; 98; 99; 100]; LNum 1; LNum 2] = Ok (Some (LStr [98; 99])) /\
  evaluate K_EVAL_EXTRACT [LStr [97; 98; 99; 100]; LNum 2; LNum 99] = Ok (Some (LStr [99; 100])).
Proof. vm_compute. intuition congruence. Qed.

(** C10: the full statement (different escape-free bodies denote different
    strings) is false: a tab is dropped. *)
Theorem C10_chars_lost_refuted : exists s t : text, s <> t /\
  Forall (fun c => 0 <= c < 128 /\ c <> 92 /\ c <> 34) s /\
  Forall (fun c => 0 <= c < 128 /\ c <> 92 /\ c <> 34) t /\
  mkLiteral K_STRING s = mkLiteral K_STRING t.
Proof.
  exists [97; 9; 98], [97; 98]. split; [discriminate|].
  split; [repeat constructor; lia|]. split; [repeat constructor; lia|].
  vm_compute. reflexivity.
Qed.
Print Assumptions C10_chars_lost_refuted.

(** Full statement: for every byte sequence.  Missing: characters below 32 and
    above 127 (dropped, above) and bodies containing a backslash. *)
Theorem C10_chars_kept_partial : forall s,
  Forall (fun c => 32 <= c <= 127 /\ c <> 92) s -> mkLiteral K_STRING s = Ok (LStr s).
Proof.
  intros s H. cbn [mkLiteral]. do 2 f_equal.
  unfold str_ofText. induction H as [|c s [Hc Hb] Hs IH]; [reflexivity|].
  cbn [toInternal]. replace (c =? 92) with false by (symmetry; apply Z.eqb_neq; lia).
  cbn [negb orb]. rewrite IH. unfold addChar.
  replace (127 <? c) with false by (symmetry; apply Z.ltb_ge; lia).
  replace (c <? 32) with false by (symmetry; apply Z.ltb_ge; lia). reflexivity.
Qed.
Print Assumptions C10_chars_kept_partial.
Example C10_example : mkLiteral K_STRING [97; 32; 126] = Ok (LStr [97; 32; 126]).
Proof. vm_compute. reflexivity. Qed.

(** C11 *)
Theorem C11_rat_nary : forall mk a l, rat_cat mk -> rat_wf a -> Forall rat_wf l ->
  (exists r, evaluate K_EVAL_ADD (map mk (a :: l)) = Ok (Some (mk r)) /\ rat_wf r /\
     (r == fold_left Qplus l a)%Q) /\
  (exists r, evaluate K_EVAL_MUL (map mk (a :: l)) = Ok (Some (mk r)) /\ rat_wf r /\
     (r == fold_left Qmult l a)%Q).
Proof. exact rat_nary_meaning. Qed.
Print Assumptions C11_rat_nary.

Theorem C11_rat_div : forall mk a b, rat_cat mk ->
  ((b == 0)%Q -> evaluate K_EVAL_RAT_DIV [mk a; mk b] = Ok None) /\
  (~ (b == 0)%Q -> exists r, evaluate K_EVAL_RAT_DIV [mk a; mk b] = Ok (Some (LRat r)) /\
     rat_wf r /\ (r == a / b)%Q).
Proof. exact rat_div_meaning. Qed.
Print Assumptions C11_rat_div.

Theorem C11_num_div : forall x y,
  (y = 0 -> evaluate K_EVAL_RAT_DIV [LNum x; LNum y] = Ok None) /\
  (y <> 0 -> exists r, evaluate K_EVAL_RAT_DIV [LNum x; LNum y] = Ok (Some (LRat r)) /\
     rat_wf r /\ (r * inject_Z y == inject_Z x)%Q).
Proof. exact num_div_meaning. Qed.
Print Assumptions C11_num_div.

Theorem C11_rat_unary : forall mk a, rat_cat mk ->
  (exists r, evaluate K_EVAL_NEG [mk a] = Ok (Some (mk r)) /\ rat_wf r /\ (r == - a)%Q) /\
  (exists z, evaluate K_EVAL_TO_INT [mk a] = Ok (Some (LNum z)) /\
     (inject_Z z <= a)%Q /\ (a < inject_Z (z + 1))%Q) /\
  (exists b, evaluate K_EVAL_IS_NEG [mk a] = Ok (Some (LBool b)) /\ (b = true <-> (a < 0)%Q)).
Proof. exact rat_unary_meaning. Qed.
Print Assumptions C11_rat_unary.

Theorem C11_rat_gt : forall mk a b, rat_cat mk ->
  exists r, evaluate K_EVAL_GT [mk a; mk b] = Ok (Some (LBool r)) /\ (r = true <-> (b < a)%Q).
Proof. exact rat_gt_meaning. Qed.
Print Assumptions C11_rat_gt.

Theorem C11_equal_values_same_literal : forall a b, rat_wf a -> rat_wf b -> (a == b)%Q ->
  lit_eqb (LRat a) (LRat b) = true /\ lit_eqb (LDec a) (LDec b) = true.
Proof.
  intros a b Ha Hb E. rewrite (rat_wf_eq a b Ha Hb E). split; apply lit_eqb_eq; reflexivity.
Qed.
Print Assumptions C11_equal_values_same_literal.
Example C11_example :
  rat_wf (1 # 2) /\ rat_wf (-1 # 6) /\
  evaluate K_EVAL_ADD [LRat (1 # 2); LRat (-1 # 6)] = Ok (Some (LRat (1 # 3))) /\
  evaluate K_EVAL_RAT_DIV [LNum 4; LNum (-6)] = Ok (Some (LRat (-2 # 3))) /\
  evaluate K_EVAL_TO_INT [LRat (-1 # 6)] = Ok (Some (LNum (-1))).
Proof. vm_compute. intuition congruence. Qed.

(** C12 *)
Theorem C12_to_z_to_q : forall z, exists q,
  evaluate K_EVAL_TO_RAT [LNum z] = Ok (Some (LRat q)) /\
  evaluate K_EVAL_TO_INT [LRat q] = Ok (Some (LNum z)).
Proof. exact to_z_to_q. Qed.
Print Assumptions C12_to_z_to_q.

Theorem C12_code_points : forall c, 0 <= c < 196608 ->
  evaluate K_EVAL_TO_STRING [LNum c] = Ok (Some (LStr [c])) /\
  evaluate K_EVAL_TO_INT [LStr [c]] = Ok (Some (LNum c)).
Proof. exact to_z_to_str. Qed.
Print Assumptions C12_code_points.

Theorem C12_to_bin : forall w n, 0 <= w < 2 ^ 32 ->
  exists b, evaluate K_EVAL_TO_BIN [LNum w; LNum n] = Ok (Some (LBin b)) /\
    bv_size b = w /\ bv_val b = n mod 2 ^ w.
Proof. exact to_bin_meaning. Qed.
Print Assumptions C12_to_bin.

Theorem C12_bin_roundtrip : forall b, bv_wf b ->
  evaluate K_EVAL_LENGTH [LBin b] = Ok (Some (LNum (bv_size b))) /\
  evaluate K_EVAL_TO_INT [LBin b] = Ok (Some (LNum (bv_val b))) /\
  evaluate K_EVAL_TO_BIN [LNum (bv_size b); LNum (bv_val b)] = Ok (Some (LBin b)).
Proof. exact to_bin_of_bin. Qed.
Print Assumptions C12_bin_roundtrip.
Theorem C12_to_bin_of_bv : forall mk w b, bv_cat mk -> 0 <= w < 2 ^ 32 ->
  exists c, evaluate K_EVAL_TO_BIN [LNum w; mk b] = Ok (Some (LBin c)) /\
    bv_size c = w /\ bv_val c = bv_val b mod 2 ^ w.
Proof. exact to_bin_of_bv. Qed.
Print Assumptions C12_to_bin_of_bv.

Theorem C12_identities : forall z q s,
  evaluate K_EVAL_TO_INT [LNum z] = Ok (Some (LNum z)) /\
  evaluate K_EVAL_TO_RAT [LRat q] = Ok (Some (LRat q)) /\
  evaluate K_EVAL_TO_RAT [LDec q] = Ok (Some (LRat q)) /\
  evaluate K_EVAL_TO_STRING [LStr s] = Ok (Some (LStr s)).
Proof. exact identity_conversions. Qed.
Print Assumptions C12_identities.
Example C12_example :
  evaluate K_EVAL_TO_BIN [LNum 4; LNum (-3)] = Ok (Some (LBin (mkBV 4 13))) /\
  evaluate K_EVAL_TO_STRING [LNum 196607] = Ok (Some (LStr [196607])).
Proof. vm_compute. intuition congruence. Qed.

(** C13: the full statement (does not evaluate) is false: the decimal text is
    returned. *)
Theorem C13_to_str_out_of_range_refuted : exists z s, (z < 0 \/ 196608 <= z) /\
  evaluate K_EVAL_TO_STRING [LNum z] = Ok (Some (LStr s)).
Proof. exists (-1), [45; 49]. split; [lia|]. vm_compute. reflexivity. Qed.
Print Assumptions C13_to_str_out_of_range_refuted.

(** Full statement: a numeral that is no code point does not evaluate.  What holds instead: it
    evaluates to a text that is read as this numeral, with no character other than digits and
    a sign, and a numeral that is a code point to the string of that character.  Missing: the
    result of the manual for numerals that are no code points, which is false (above). *)
Theorem C13_to_str_partial : forall z, exists s, evaluate K_EVAL_TO_STRING [LNum z] = Ok (Some (LStr s)) /\
  (0 <= z < 196608 -> s = [z]) /\
  (z < 0 \/ 196608 <= z -> Forall (fun c => c = 45 \/ 48 <= c <= 57) s /\ mkLiteral K_NUMERAL s = Ok (LNum z)).
Proof.
  assert (PL : forall s, Forall (fun c => c = 45 \/ 48 <= c <= 57) s -> str_ofText false s = s).
  { intros s F. unfold str_ofText. induction F as [|c s C F IH]; [reflexivity|]. cbn [toInternal]. rewrite orb_true_r, IH. unfold addChar.
    replace (127 <? c) with false by (symmetry; apply Z.ltb_ge; lia). replace (c <? 32) with false by (symmetry; apply Z.ltb_ge; lia). reflexivity. }
  assert (D : forall z, Forall (fun c => c = 45 \/ 48 <= c <= 57) (int_toString 10 z)).
  { assert (D : forall d, 0 <= d < 10 -> dchar d = 45 \/ 48 <= dchar d <= 57).
    { intros d H. unfold dchar. replace (d <? 10) with true by (symmetry; apply Z.ltb_lt; lia). lia. }
    intros z. destruct (Z_lt_le_dec z 0).
    - unfold int_toString. replace (z <? 0) with true by (symmetry; apply Z.ltb_lt; lia). constructor; [lia|]. apply digs_all; auto; lia.
    - apply int_toString_digits; auto; lia. }
  intros z. destruct (Z_lt_le_dec z 0) as [N|N]; [|destruct (Z_lt_le_dec z 196608) as [M|M]].
  - exists (int_toString 10 z). split; [|split; [lia|]]; [|intros _; split; [apply D | apply num_print_read]].
    rewrite evaluate_unary by discriminate. cbn [evaluate_switch vec_at nth_error bind eval_tostr]. unfold fitsUnsignedInt.
    replace (0 <=? z) with false by (symmetry; apply Z.leb_gt; lia). cbn [andb lit_toString]. now rewrite PL.
  - exists [z]. split; [now apply to_z_to_str|]. split; [reflexivity|lia].
  - exists (int_toString 10 z). split; [|split; [lia|]]; [|intros _; split; [apply D | apply num_print_read]].
    rewrite evaluate_unary by discriminate. cbn [evaluate_switch vec_at nth_error bind eval_tostr].
    replace (fitsUnsignedInt z && (toUnsignedInt z <? num_codes)) with false; [cbn [lit_toString]; now rewrite PL|].
    symmetry. apply andb_false_iff. unfold fitsUnsignedInt. destruct (Z_lt_le_dec z (2 ^ 32)) as [L|L].
    + right. rewrite toUnsignedInt_id by lia. unfold num_codes. apply Z.ltb_ge. lia.
    + left. apply andb_false_iff. right. apply Z.ltb_ge. lia.
Qed.
Print Assumptions C13_to_str_partial.
Example C13_example : evaluate K_EVAL_TO_STRING [LNum 196608] = Ok (Some (LStr [49; 57; 54; 54; 48; 56])).
Proof. vm_compute. reflexivity. Qed.

(** C14: the full statement is false for eo::extract with two arguments. *)
Theorem C14_arity_safe_refuted : exists k args,
  checkArity k (length args) = true /\ evaluate k args = UB.
Proof. exists K_EVAL_EXTRACT, [LStr [97; 98]; LNum 0]. vm_compute. auto. Qed.
Print Assumptions C14_arity_safe_refuted.

(** Full statement: for every operator.  Missing: eo::extract with two
    arguments (above). *)
Theorem C14_arity_safe_partial : forall k args,
  checkArity k (length args) = true ->
  (k <> K_EVAL_EXTRACT \/ length args = 3%nat) ->
  exists o, evaluate k args = Ok o.
Proof. exact evaluate_safe_arity. Qed.
Print Assumptions C14_arity_safe_partial.
Example C14_example :
  checkArity K_EVAL_EXTRACT 3 = true /\
  evaluate K_EVAL_EXTRACT [LStr [97; 98]; LNum 1; LNum 1] = Ok (Some (LStr [98])).
Proof. vm_compute. auto. Qed.

(** C15 *)
Theorem C15_result_category : forall k a l r,
  evaluate k (a :: l) = Ok (Some r) ->
  result_category k (lit_kind a) = Some (lit_kind r) /\
  (mixed_ok k \/ Forall (fun b => lit_kind b = lit_kind a) l).
Proof. exact result_category_correct. Qed.
Print Assumptions C15_result_category.

Theorem C15_mixed_never_evaluates : forall k a l, ~ mixed_ok k ->
  Exists (fun b => lit_kind b <> lit_kind a) l ->
  evaluate k (a :: l) = Ok None.
Proof. exact mixed_never_evaluates. Qed.
Print Assumptions C15_mixed_never_evaluates.
Theorem C15_domain : forall k args,
  checkArity k (length args) = true ->
  ((exists r, evaluate k args = Ok (Some r)) <-> has_value k args).
Proof. exact evaluate_domain. Qed.
Print Assumptions C15_domain.
Example C15_example :
  evaluate K_EVAL_ADD [LNum 1; LRat (1 # 2)] = Ok None /\
  evaluate K_EVAL_GT [LNum 1; LNum 0] = Ok (Some (LBool true)) /\
  result_category K_EVAL_GT K_NUMERAL = Some K_BOOLEAN.
Proof. vm_compute. auto. Qed.

(** C16: the full statement is false for hexadecimal literals (leading zeros)
    and for the empty binary literal. *)
Theorem C16_hex_print_refuted : exists b, bv_wf b /\ 0 < bv_size b /\
  mkLiteral K_HEXADECIMAL (lit_toString (LHex b)) <> Ok (LHex b).
Proof.
  exists (mkBV 8 15). split; [vm_compute; intuition congruence|]. split; [reflexivity|].
  vm_compute. discriminate.
Qed.
Print Assumptions C16_hex_print_refuted.

Theorem C16_empty_bin_print_refuted : exists b, bv_wf b /\
  mkLiteral K_BINARY (lit_toString (LBin b)) = Err.
Proof. exists (mkBV 0 0). vm_compute. intuition congruence. Qed.
Print Assumptions C16_empty_bin_print_refuted.

(** Full statement: for every literal, through the lexer.  Missing: hexadecimal
    and empty binary literals (false, above); the lexer is dealt with in
    PropLexer.v. *)
Theorem C16_print_read_partial : forall l, lit_wf l ->
  match l with
  | LNum _ | LRat _ | LStr _ | LBool _ => True
  | LBin b => 0 < bv_size b
  | _ => False
  end ->
  mkLiteral (lit_kind l) (lit_toString l) = Ok l.
Proof.
  intros l W H. destruct l as [b|z|q|q|b|b|s]; try contradiction.
  - destruct b; reflexivity.
  - apply num_print_read.
  - apply rat_print_read; exact W.
  - apply bin_print_read; [exact W|exact H].
  - apply str_print_read; exact W.
Qed.
Print Assumptions C16_print_read_partial.
Example C16_example :
  lit_toString (LRat (-3 # 4)) = [45; 51; 47; 52] /\
  mkLiteral K_RATIONAL [45; 51; 47; 52] = Ok (LRat (-3 # 4)) /\
  lit_toString (LBin (mkBV 4 2)) = [48; 48; 49; 48] /\
  mkLiteral K_BINARY [48; 48; 49; 48] = Ok (LBin (mkBV 4 2)).
Proof. vm_compute. auto. Qed.

(** C51: the full statement (only the active union member is read) is false
    for sums and products of numerals. *)
Theorem C51_union_member_refuted : exists k args,
  checkArity k (length args) = true /\
  evaluate k args = Ok (Some (LNum 3)) /\ u_evaluate_and_intern k args = UB.
Proof. exists K_EVAL_ADD, [LNum 1; LNum 2]. vm_compute. auto. Qed.
Print Assumptions C51_union_member_refuted.

(** Full statement: for every operator and argument list.  Missing: n-ary
    operators whose first argument is a numeral (false, above). *)
Theorem C51_union_member_partial : forall k args,
  isNaryLiteralOp k = false \/ (exists a l, args = a :: l /\ lit_kind a <> K_NUMERAL) ->
  u_evaluate_and_intern k args = evaluate k args.
Proof. exact u_evaluate_ok. Qed.
Print Assumptions C51_union_member_partial.
Example C51_example :
  u_evaluate_and_intern K_EVAL_INT_DIV [LNum 7; LNum 2] = Ok (Some (LNum 3)).
Proof. vm_compute. reflexivity. Qed.

(** C52 *)
Theorem C52_bool_operators : forall b bs,
  evaluate K_EVAL_AND (map LBool (b :: bs)) = Ok (Some (LBool (fold_left andb bs b))) /\
  evaluate K_EVAL_OR (map LBool (b :: bs)) = Ok (Some (LBool (fold_left orb bs b))) /\
  evaluate K_EVAL_XOR (map LBool (b :: bs)) = Ok (Some (LBool (fold_left xorb bs b))) /\
  evaluate K_EVAL_NOT [LBool b] = Ok (Some (LBool (negb b))).
Proof. exact bool_operators_meaning. Qed.
Print Assumptions C52_bool_operators.

Theorem C52_num_operators : forall z l,
  evaluate K_EVAL_ADD (map LNum (z :: l)) = Ok (Some (LNum (fold_left Z.add l z))) /\
  evaluate K_EVAL_MUL (map LNum (z :: l)) = Ok (Some (LNum (fold_left Z.mul l z))) /\
  evaluate K_EVAL_NEG [LNum z] = Ok (Some (LNum (- z))) /\
  (exists b, evaluate K_EVAL_IS_NEG [LNum z] = Ok (Some (LBool b)) /\ (b = true <-> z < 0)).
Proof. exact num_operators_meaning. Qed.
Print Assumptions C52_num_operators.

Theorem C52_num_gt : forall x y, exists b,
  evaluate K_EVAL_GT [LNum x; LNum y] = Ok (Some (LBool b)) /\ (b = true <-> y < x).
Proof. exact num_gt_meaning. Qed.
Print Assumptions C52_num_gt.

Theorem C52_bv_gt : forall mk a c, bv_cat mk -> exists b,
  evaluate K_EVAL_GT [mk a; mk c] = Ok (Some (LBool b)) /\ (b = true <-> bv_val c < bv_val a).
Proof. exact bv_gt_meaning. Qed.
Print Assumptions C52_bv_gt.
Example C52_example :
  evaluate K_EVAL_XOR [LBool true; LBool true; LBool true] = Ok (Some (LBool true)) /\
  evaluate K_EVAL_MUL [LNum (-3); LNum 5] = Ok (Some (LNum (-15))) /\
  evaluate K_EVAL_GT [LBin (mkBV 3 5); LBin (mkBV 3 4)] = Ok (Some (LBool true)).
Proof. vm_compute. auto. Qed.
