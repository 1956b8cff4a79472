(** Proofs about literal operators: strings, rationals, conversions, safety,
    categories, reading back. *)
From Coq Require Import ZArith QArith Qreduction Qround List Bool Lia.
From Verif Require Import Base Kind Ints Str Literal Arity SpecLit IntsProofs StrProofs LiteralProofs.
Import ListNotations.
Open Scope Z_scope.

(* ------------------------------------------------------------------ *)
(** * C09 strings *)

Lemma fold_str : forall ss s,
  fold_opt (str_op K_EVAL_CONCAT) s (map LStr ss) = Some (s ++ concat ss).
Proof.
  induction ss as [|t ss IH]; intros s; cbn [map fold_opt concat].
  - rewrite app_nil_r. reflexivity.
  - cbn [str_op]. rewrite IH. unfold str_concat. rewrite app_assoc. reflexivity.
Qed.

Lemma str_concat_meaning : forall s ss,
  evaluate K_EVAL_CONCAT (map LStr (s :: ss)) = Ok (Some (LStr (concat (s :: ss)))).
Proof.
  intros s ss. cbn [map].
  rewrite evaluate_same; [|discriminate|discriminate|].
  - cbn [evaluate_switch eval_nary]. change (kind_eqb K_EVAL_CONCAT K_EVAL_CONCAT) with true.
    cbv iota. rewrite fold_str. reflexivity.
  - exact (allSameKind_map _ LStr s ss (fun _ _ => eq_refl)).
Qed.

Lemma str_length_meaning : forall s, Z.of_nat (length s) < 2 ^ 32 ->
  evaluate K_EVAL_LENGTH [LStr s] = Ok (Some (LNum (Z.of_nat (length s)))).
Proof.
  intros s H. rewrite evaluate_unary by discriminate.
  cbn [evaluate_switch vec_at nth_error bind eval_length]. unfold int_of_uint.
  rewrite u32_id by lia. reflexivity.
Qed.

Lemma str_find_meaning : forall s t, Z.of_nat (length s) < 2 ^ 32 ->
  exists i, evaluate K_EVAL_FIND [LStr s; LStr t] = Ok (Some (LNum i)) /\
    ((i = -1 /\ forall k, ~ occurs_at s t k) \/
     (0 <= i /\ occurs_at s t i /\ forall k, 0 <= k < i -> ~ occurs_at s t k)).
Proof.
  intros s t H. rewrite evaluate_binary by (reflexivity || discriminate).
  cbn [evaluate_switch eval_find vec_at nth_error bind].
  pose proof (str_find_spec s t) as F.
  destruct (str_find s t) as [j|].
  - exists j. destruct F as [F1 F2].
    pose proof (occurs_at_nonneg _ _ _ F1). pose proof (occurs_at_bound _ _ _ F1).
    unfold int_of_uint. rewrite u32_id by lia.
    split; [reflexivity|]. right; auto.
  - exists (-1). split; [reflexivity|]. left; auto.
Qed.

Lemma nth_error_slice : forall A (s : list A) m n k, (k < n)%nat ->
  nth_error (firstn n (skipn m s)) k = nth_error s (m + k)%nat.
Proof.
  intros A s m; revert s; induction m as [|m IH]; intros s n k H.
  - cbn [skipn Nat.add]. revert s k H. induction n as [|n IHn]; intros s k H; [lia|].
    destruct s as [|x s]; [destruct k; reflexivity|].
    destruct k; [reflexivity|]. cbn [firstn nth_error]. apply IHn. lia.
  - destruct s as [|x s].
    + cbn [skipn]. rewrite firstn_nil. destruct k; reflexivity.
    + cbn [skipn Nat.add nth_error]. apply IH; exact H.
Qed.

(** string extraction never leaves the string, whatever the length *)
Lemma extract_str_ok : forall s i j, exists r, extract_str s i j = Ok r.
Proof.
  intros s i j; unfold extract_str, int_of_uint.
  set (d := u32 (Z.of_nat (length s))).
  assert (Hd : 0 <= d < 2 ^ 32) by apply u32_range.
  assert (Hl : d <= Z.of_nat (length s)).
  { unfold d, u32. apply Z.mod_le; lia. }
  rewrite !sgn_ltb, sgn_eqb_0.
  destruct (i <? 0) eqn:E1; [eexists; reflexivity|].
  destruct (j <? 0) eqn:E2; [eexists; reflexivity|].
  destruct (i >? d) eqn:E3; [eexists; reflexivity|].
  destruct (d =? 0) eqn:E4; [eexists; reflexivity|]. cbn [orb].
  apply Z.ltb_ge in E1. apply Z.ltb_ge in E2. rewrite Z.gtb_ltb in E3. apply Z.ltb_ge in E3.
  apply Z.eqb_neq in E4.
  rewrite (toUnsignedInt_id i), (toUnsignedInt_id d) by lia.
  rewrite (u32_id (d - 1)) by lia.
  set (v2 := if j >=? d then d - 1 else toUnsignedInt j).
  assert (Hv2 : 0 <= v2 < d).
  { unfold v2. destruct (j >=? d) eqn:J; [lia|].
    rewrite Z.geb_leb in J. apply Z.leb_gt in J. rewrite toUnsignedInt_id by lia. lia. }
  rewrite (u32_id (v2 + 1)) by lia.
  destruct (v2 >=? i) eqn:V.
  - rewrite Z.geb_leb in V. apply Z.leb_le in V.
    rewrite u32_id by lia. unfold str_substr.
    replace (0 <=? i) with true by (symmetry; apply Z.leb_le; lia).
    replace (0 <=? v2 + 1 - i) with true by (symmetry; apply Z.leb_le; lia).
    replace (i + (v2 + 1 - i) <=? Z.of_nat (length s)) with true
      by (symmetry; apply Z.leb_le; lia).
    eexists; reflexivity.
  - unfold str_substr.
    replace (0 <=? i) with true by (symmetry; apply Z.leb_le; lia).
    replace (i + 0 <=? Z.of_nat (length s)) with true by (symmetry; apply Z.leb_le; lia).
    eexists; reflexivity.
Qed.

Lemma extract_str_slice : forall s i j, Z.of_nat (length s) < 2 ^ 32 -> 0 <= i -> 0 <= j ->
  exists r, extract_str s i j = Ok r /\ is_slice s i j r.
Proof.
  intros s i j Hs Hi Hj; unfold extract_str, int_of_uint.
  rewrite (u32_id (Z.of_nat (length s))) by lia.
  set (d := Z.of_nat (length s)) in *.
  rewrite !sgn_ltb, sgn_eqb_0.
  replace (i <? 0) with false by (symmetry; apply Z.ltb_ge; lia).
  replace (j <? 0) with false by (symmetry; apply Z.ltb_ge; lia).
  cbn [orb].
  assert (Emp : i > d \/ d = 0 -> is_slice s i j []).
  { intros H; unfold is_slice. fold d. split.
    - cbn [length]. change (Z.of_nat 0) with 0. lia.
    - intros k Hk; cbn [length] in Hk; lia. }
  destruct (i >? d) eqn:E3.
  { exists []; split; [reflexivity|]. apply Emp. rewrite Z.gtb_ltb in E3. apply Z.ltb_lt in E3. lia. }
  destruct (d =? 0) eqn:E4.
  { exists []; split; [reflexivity|]. apply Emp. apply Z.eqb_eq in E4. lia. }
  cbn [orb].
  rewrite Z.gtb_ltb in E3. apply Z.ltb_ge in E3. apply Z.eqb_neq in E4.
  assert (0 <= d) by (unfold d; lia).
  rewrite (toUnsignedInt_id i), (toUnsignedInt_id d) by lia.
  rewrite (u32_id (d - 1)) by lia.
  set (v2 := if j >=? d then d - 1 else toUnsignedInt j).
  assert (Hv2 : v2 = Z.min j (d - 1)).
  { unfold v2. destruct (j >=? d) eqn:J; rewrite Z.geb_leb in J.
    - apply Z.leb_le in J. lia.
    - apply Z.leb_gt in J. rewrite toUnsignedInt_id by lia. lia. }
  rewrite (u32_id (v2 + 1)) by lia.
  set (e := if v2 >=? i then u32 (v2 + 1 - i) else 0).
  assert (He : e = Z.max 0 (v2 + 1 - i)).
  { unfold e. destruct (v2 >=? i) eqn:V; rewrite Z.geb_leb in V.
    - apply Z.leb_le in V. rewrite u32_id by lia. lia.
    - apply Z.leb_gt in V. lia. }
  unfold str_substr. fold d.
  replace (0 <=? i) with true by (symmetry; apply Z.leb_le; lia).
  replace (0 <=? e) with true by (symmetry; apply Z.leb_le; lia).
  replace (i + e <=? d) with true by (symmetry; apply Z.leb_le; lia).
  cbn [andb]. eexists; split; [reflexivity|].
  assert (L : length (firstn (Z.to_nat e) (skipn (Z.to_nat i) s)) = Z.to_nat e).
  { rewrite firstn_length, skipn_length. unfold d in *. lia. }
  unfold is_slice. fold d. split.
  - rewrite L. rewrite Z2Nat.id by lia. lia.
  - intros k Hk. rewrite L in Hk. apply nth_error_slice. exact Hk.
Qed.

Lemma str_extract_meaning : forall s i j, Z.of_nat (length s) < 2 ^ 32 ->
  exists r, evaluate K_EVAL_EXTRACT [LStr s; LNum i; LNum j] = Ok (Some (LStr r)) /\
    (0 <= i /\ 0 <= j -> is_slice s i j r) /\
    (i < 0 \/ j < 0 -> r = []).
Proof.
  intros s i j Hs.
  assert (E : forall r, extract_str s i j = Ok r ->
    evaluate K_EVAL_EXTRACT [LStr s; LNum i; LNum j] = Ok (Some (LStr r))).
  { intros r H. unfold evaluate. cbn [negb andb kind_eqb]. 
    change (kind_eqb K_EVAL_EXTRACT K_EVAL_EXTRACT) with true. cbn [negb andb].
    cbn [evaluate_switch eval_extract vec_at nth_error bind]. rewrite H. reflexivity. }
  destruct (Z_lt_le_dec i 0) as [Hi|Hi].
  - exists []. split; [apply E|split; [lia|reflexivity]].
    unfold extract_str. rewrite !sgn_ltb.
    replace (i <? 0) with true by (symmetry; apply Z.ltb_lt; lia). reflexivity.
  - destruct (Z_lt_le_dec j 0) as [Hj|Hj].
    + exists []. split; [apply E|split; [lia|reflexivity]].
      unfold extract_str. rewrite !sgn_ltb.
      replace (j <? 0) with true by (symmetry; apply Z.ltb_lt; lia).
      rewrite orb_true_r. reflexivity.
    + destruct (extract_str_slice s i j Hs Hi Hj) as (r & R1 & R2).
      exists r. split; [apply E; exact R1|]. split; [auto|lia].
Qed.

(* ------------------------------------------------------------------ *)
(** * C11 rationals *)

Lemma rat_cat_kind : forall mk, rat_cat mk -> forall x y, lit_kind (mk x) = lit_kind (mk y).
Proof. intros mk [->| ->]; reflexivity. Qed.

Lemma fold_rat : forall k (f : Q -> Q -> Q) (g : Q -> Q -> Q) mk l a, rat_cat mk ->
  (forall x y, rat_op k x (mk y) = Some (f x y)) ->
  (forall x y, f x y == g x y)%Q ->
  (forall x x' y, x == x' -> g x y == g x' y)%Q ->
  exists r, fold_opt (rat_op k) a (map mk l) = Some r /\ (r == fold_left g l a)%Q.
Proof.
  intros k f g mk l a Hmk Hf Hg Hp. revert a.
  assert (P : forall l0 x x', (x == x')%Q -> (fold_left g l0 x == fold_left g l0 x')%Q).
  { induction l0 as [|y l' IH]; intros x x' E; cbn [fold_left]; [exact E|].
    apply IH, Hp, E. }
  induction l as [|b l IH]; intros a; cbn [map fold_opt fold_left].
  - exists a; split; reflexivity.
  - rewrite Hf. destruct (IH (f a b)) as [r [R1 R2]]. exists r; split; [exact R1|].
    rewrite R2. apply P, Hg.
Qed.

Lemma rat_nary_meaning : forall mk a l, rat_cat mk -> rat_wf a -> Forall rat_wf l ->
  (exists r, evaluate K_EVAL_ADD (map mk (a :: l)) = Ok (Some (mk r)) /\ rat_wf r /\
     (r == fold_left Qplus l a)%Q) /\
  (exists r, evaluate K_EVAL_MUL (map mk (a :: l)) = Ok (Some (mk r)) /\ rat_wf r /\
     (r == fold_left Qmult l a)%Q).
Proof.
  intros mk a l Hmk Wa Wl.
  assert (WF : forall k r, evaluate k (map mk (a :: l)) = Ok (Some (mk r)) -> rat_wf r).
  { intros k r E. apply evaluate_wf in E.
    - destruct Hmk as [->| ->]; exact E.
    - apply Forall_forall. intros x Hx. apply in_map_iff in Hx. destruct Hx as [y [<- Hy]].
      assert (rat_wf y) by (destruct Hy as [<-|Hy]; [exact Wa|rewrite Forall_forall in Wl; auto]).
      destruct Hmk as [->| ->]; exact H. }
  assert (EV : forall k r, (k = K_EVAL_ADD \/ k = K_EVAL_MUL) ->
     fold_opt (rat_op k) a (map mk l) = Some r ->
     evaluate k (map mk (a :: l)) = Ok (Some (mk r))).
  { intros k r Hk F. cbn [map]. rewrite evaluate_same.
    - destruct Hk as [->| ->]; destruct Hmk as [->| ->];
        cbn [evaluate_switch eval_nary]; rewrite F; reflexivity.
    - destruct Hk as [->| ->]; discriminate.
    - destruct Hk as [->| ->]; discriminate.
    - exact (allSameKind_map _ mk a l (rat_cat_kind mk Hmk)). }
  split.
  - destruct (fold_rat K_EVAL_ADD rat_add Qplus mk l a Hmk) as [r [R1 R2]].
    + destruct Hmk as [->| ->]; reflexivity.
    + intros; apply Qred_correct.
    + intros x x' y E; rewrite E; reflexivity.
    + exists r. assert (E := EV K_EVAL_ADD r (or_introl eq_refl) R1).
      split; [exact E|]. split; [eapply WF; exact E|exact R2].
  - destruct (fold_rat K_EVAL_MUL rat_mul Qmult mk l a Hmk) as [r [R1 R2]].
    + destruct Hmk as [->| ->]; reflexivity.
    + intros; apply Qred_correct.
    + intros x x' y E; rewrite E; reflexivity.
    + exists r. assert (E := EV K_EVAL_MUL r (or_intror eq_refl) R1).
      split; [exact E|]. split; [eapply WF; exact E|exact R2].
Qed.

Lemma rat_sgn_0 : forall q, rat_sgn q =? 0 = true <-> (q == 0)%Q.
Proof.
  intros [n d]; unfold rat_sgn, Qeq; cbn [Qnum Qden]. rewrite sgn_eqb_0, Z.eqb_eq. lia.
Qed.

Lemma rat_div_meaning : forall mk a b, rat_cat mk ->
  ((b == 0)%Q -> evaluate K_EVAL_RAT_DIV [mk a; mk b] = Ok None) /\
  (~ (b == 0)%Q -> exists r, evaluate K_EVAL_RAT_DIV [mk a; mk b] = Ok (Some (LRat r)) /\
     rat_wf r /\ (r == a / b)%Q).
Proof.
  intros mk a b Hmk.
  assert (E : evaluate K_EVAL_RAT_DIV [mk a; mk b] =
    Ok (if rat_sgn b =? 0 then None else Some (LRat (rat_div a b)))).
  { rewrite evaluate_binary; [|discriminate|discriminate|apply rat_cat_kind; exact Hmk].
    destruct Hmk as [->| ->]; reflexivity. }
  rewrite E. split; intros H.
  - apply rat_sgn_0 in H. rewrite H. reflexivity.
  - destruct (rat_sgn b =? 0) eqn:S; [apply rat_sgn_0 in S; contradiction|].
    exists (rat_div a b). split; [reflexivity|]. split; [apply Qred_wf|apply Qred_correct].
Qed.

Lemma num_div_meaning : forall x y,
  (y = 0 -> evaluate K_EVAL_RAT_DIV [LNum x; LNum y] = Ok None) /\
  (y <> 0 -> exists r, evaluate K_EVAL_RAT_DIV [LNum x; LNum y] = Ok (Some (LRat r)) /\
     rat_wf r /\ (r * inject_Z y == inject_Z x)%Q).
Proof.
  intros x y.
  assert (E : evaluate K_EVAL_RAT_DIV [LNum x; LNum y] =
    Ok (if Z.sgn y =? 0 then None else Some (LRat (rat_make x y)))) by reflexivity.
  rewrite E, sgn_eqb_0. split; intros H.
  - subst; reflexivity.
  - apply Z.eqb_neq in H. rewrite H. apply Z.eqb_neq in H.
    exists (rat_make x y). split; [reflexivity|]. apply rat_make_spec; exact H.
Qed.

Lemma rat_unary_meaning : forall mk a, rat_cat mk ->
  (exists r, evaluate K_EVAL_NEG [mk a] = Ok (Some (mk r)) /\ rat_wf r /\ (r == - a)%Q) /\
  (exists z, evaluate K_EVAL_TO_INT [mk a] = Ok (Some (LNum z)) /\
     (inject_Z z <= a)%Q /\ (a < inject_Z (z + 1))%Q) /\
  (exists b, evaluate K_EVAL_IS_NEG [mk a] = Ok (Some (LBool b)) /\ (b = true <-> (a < 0)%Q)).
Proof.
  intros mk a Hmk. split; [|split].
  - exists (rat_neg a). split; [destruct Hmk as [->| ->]; reflexivity|].
    split; [apply Qred_wf|apply Qred_correct].
  - exists (rat_floor a). split; [destruct Hmk as [->| ->]; reflexivity|].
    unfold rat_floor, Qle, Qlt, inject_Z; cbn [Qnum Qden].
    pose proof (Z.div_mod (Qnum a) (QDen a)). pose proof (Z.mod_pos_bound (Qnum a) (QDen a)).
    split; nia.
  - exists (rat_sgn a =? -1). split; [destruct Hmk as [->| ->]; reflexivity|].
    unfold rat_sgn. rewrite sgn_neg. rewrite Z.ltb_lt.
    unfold Qlt; cbn [Qnum Qden]. lia.
Qed.

Lemma rat_gt_meaning : forall mk a b, rat_cat mk ->
  exists r, evaluate K_EVAL_GT [mk a; mk b] = Ok (Some (LBool r)) /\ (r = true <-> (b < a)%Q).
Proof.
  intros mk a b Hmk. exists (rat_gt a b). split.
  - rewrite evaluate_binary; [|discriminate|discriminate|apply rat_cat_kind; exact Hmk].
    destruct Hmk as [->| ->]; reflexivity.
  - unfold rat_gt, Qlt. apply Z.ltb_lt.
Qed.

(** Literal identity is equality of values. *)
Lemma lit_eqb_eq : forall a b, lit_eqb a b = true <-> a = b.
Proof.
  intros a b; destruct a, b; cbn [lit_eqb]; split; intros H; try discriminate;
    try (injection H as H); subst.
  - apply Bool.eqb_prop in H; subst; reflexivity.
  - apply Bool.eqb_reflx.
  - apply Z.eqb_eq in H; subst; reflexivity.
  - apply Z.eqb_refl.
  - apply andb_true_iff in H; destruct H as [H1 H2]. apply Z.eqb_eq in H1, H2.
    destruct q as [n d], q0 as [n' d']; cbn [Qnum Qden] in *. injection H2 as H2. subst; reflexivity.
  - rewrite !Z.eqb_refl; reflexivity.
  - apply andb_true_iff in H; destruct H as [H1 H2]. apply Z.eqb_eq in H1, H2.
    destruct q as [n d], q0 as [n' d']; cbn [Qnum Qden] in *. injection H2 as H2. subst; reflexivity.
  - rewrite !Z.eqb_refl; reflexivity.
  - unfold bv_eqb in H. destruct (bv_size b0 =? bv_size b) eqn:S; cbn [negb] in H; [|discriminate].
    apply Z.eqb_eq in S, H. f_equal. apply bv_ext; assumption.
  - unfold bv_eqb. rewrite Z.eqb_refl. cbn [negb]. apply Z.eqb_refl.
  - unfold bv_eqb in H. destruct (bv_size b0 =? bv_size b) eqn:S; cbn [negb] in H; [|discriminate].
    apply Z.eqb_eq in S, H. f_equal. apply bv_ext; assumption.
  - unfold bv_eqb. rewrite Z.eqb_refl. cbn [negb]. apply Z.eqb_refl.
  - apply str_eqb_eq in H; subst; reflexivity.
  - apply str_eqb_eq; reflexivity.
Qed.

(* ------------------------------------------------------------------ *)
(** * C12 conversions *)

Lemma to_z_to_q : forall z, exists q,
  evaluate K_EVAL_TO_RAT [LNum z] = Ok (Some (LRat q)) /\
  evaluate K_EVAL_TO_INT [LRat q] = Ok (Some (LNum z)).
Proof.
  intros z. exists (rat_ofInt z). split; [reflexivity|].
  rewrite evaluate_unary by discriminate. cbn [evaluate_switch vec_at nth_error bind eval_toint].
  unfold rat_floor, rat_ofInt; cbn [Qnum Qden]. rewrite Z.div_1_r. reflexivity.
Qed.

Lemma to_z_to_str : forall c, 0 <= c < 196608 ->
  evaluate K_EVAL_TO_STRING [LNum c] = Ok (Some (LStr [c])) /\
  evaluate K_EVAL_TO_INT [LStr [c]] = Ok (Some (LNum c)).
Proof.
  intros c H. split.
  - rewrite evaluate_unary by discriminate. cbn [evaluate_switch vec_at nth_error bind eval_tostr].
    unfold fitsUnsignedInt. rewrite toUnsignedInt_id by lia.
    replace (0 <=? c) with true by (symmetry; apply Z.leb_le; lia).
    replace (c <? 2 ^ 32) with true by (symmetry; apply Z.ltb_lt; lia).
    unfold num_codes. replace (c <? 196608) with true by (symmetry; apply Z.ltb_lt; lia).
    reflexivity.
  - rewrite evaluate_unary by discriminate. cbn [evaluate_switch vec_at nth_error bind eval_toint].
    unfold int_of_uint. rewrite u32_id by lia. reflexivity.
Qed.

Lemma to_bin_meaning : forall w n, 0 <= w < 2 ^ 32 ->
  exists b, evaluate K_EVAL_TO_BIN [LNum w; LNum n] = Ok (Some (LBin b)) /\
    bv_size b = w /\ bv_val b = n mod 2 ^ w.
Proof.
  intros w n H. exists (bv_make w n).
  split; [|split; [apply bv_make_size; exact H|apply bv_make_val; exact H]].
  unfold evaluate. change (kind_eqb K_EVAL_TO_BIN K_EVAL_EXTRACT) with false.
  change (kind_eqb K_EVAL_TO_BIN K_EVAL_TO_BIN) with true. cbn [negb andb].
  cbn [evaluate_switch eval_tobin vec_at nth_error bind].
  unfold fitsUnsignedInt. rewrite toUnsignedInt_id by lia.
  replace (0 <=? w) with true by (symmetry; apply Z.leb_le; lia).
  replace (w <? 2 ^ 32) with true by (symmetry; apply Z.ltb_lt; lia). reflexivity.
Qed.

Lemma to_bin_of_bin : forall b, bv_wf b ->
  evaluate K_EVAL_LENGTH [LBin b] = Ok (Some (LNum (bv_size b))) /\
  evaluate K_EVAL_TO_INT [LBin b] = Ok (Some (LNum (bv_val b))) /\
  evaluate K_EVAL_TO_BIN [LNum (bv_size b); LNum (bv_val b)] = Ok (Some (LBin b)).
Proof.
  intros b W. assert (Hs := proj1 W). split; [|split].
  - rewrite evaluate_unary by discriminate. cbn [evaluate_switch vec_at nth_error bind eval_length].
    unfold int_of_uint. rewrite u32_id by lia. reflexivity.
  - reflexivity.
  - destruct (to_bin_meaning (bv_size b) (bv_val b) Hs) as (c & E & S & V).
    rewrite E. do 3 f_equal. apply bv_ext; [exact S|].
    rewrite V. apply Z.mod_small. apply W.
Qed.

(* ------------------------------------------------------------------ *)
(** * C14 safety on accepted arities *)

Lemma evaluate_safe_arity : forall k args,
  checkArity k (length args) = true ->
  (k <> K_EVAL_EXTRACT \/ length args = 3%nat) ->
  exists o, evaluate k args = Ok o.
Proof.
  intros k args A E.
  assert (SW : exists o, evaluate_switch k args = Ok o).
  { destruct args as [|a [|b [|c [|d l]]]]; destruct k; cbn [length checkArity isNaryLiteralOp Nat.eqb orb] in A;
      try discriminate A; cbn [evaluate_switch]; try (eexists; reflexivity);
      try (destruct E as [E|E]; [congruence|discriminate E]);
      unfold eval_divmod, eval_ratdiv, eval_tobin, eval_gt, eval_find, eval_extract;
      cbn [vec_at nth_error bind].
    all: try (destruct a; try (eexists; reflexivity);
      try (destruct (negb _); eexists; reflexivity); destruct b; try (eexists; reflexivity);
      try (destruct (_ =? _); eexists; reflexivity);
      try (destruct (str_find _ _); eexists; reflexivity);
      try (destruct (fitsUnsignedInt _); eexists; reflexivity); fail).
    - destruct b; try (eexists; reflexivity).
      destruct c; try (eexists; reflexivity).
      destruct a; try (eexists; reflexivity).
      destruct (extract_str_ok s z z0) as [r R]. rewrite R. eexists; reflexivity. }
  assert (NN : args <> []).
  { intros ->. destruct k; cbn [length checkArity isNaryLiteralOp Nat.eqb orb] in A; discriminate. }
  unfold evaluate. destruct (_ && _); [|exact SW].
  destruct args as [|a l]; [congruence|]. cbn [allSameKind bind].
  destruct (forallb _ _).
  - rewrite lit_kind_not_none. exact SW.
  - eexists; reflexivity.
Qed.

(* ------------------------------------------------------------------ *)
(** * C15 categories *)

Lemma fold_same_cat : forall k a l r, eval_nary k (a :: l) = Some r ->
  lit_kind r = lit_kind a /\ (lit_kind a = K_STRING -> k = K_EVAL_CONCAT).
Proof.
  intros k a l r E; unfold eval_nary in E.
  destruct a; try (destruct (_ && _); [discriminate|]);
    try (destruct (kind_eqb k K_EVAL_CONCAT) eqn:K; [|discriminate]);
    (destruct (fold_opt _ _ _); [|discriminate]); injection E; intros; subst;
    (split; [reflexivity|]); intros H; try discriminate.
  apply kind_eqb_eq; exact K.
Qed.

Lemma result_category_correct : forall k a l r,
  evaluate k (a :: l) = Ok (Some r) ->
  result_category k (lit_kind a) = Some (lit_kind r) /\
  (mixed_ok k \/ Forall (fun b => lit_kind b = lit_kind a) l).
Proof.
  intros k a l r E. split.
  - apply evaluate_evaluate_switch in E.
    assert (N : forall k', eval_nary k' (a :: l) = Some r ->
       lit_kind r = lit_kind a /\ (lit_kind a = K_STRING -> k' = K_EVAL_CONCAT))
      by (intros; eapply fold_same_cat; eassumption).
    destruct k; cbn [evaluate_switch] in E; try discriminate;
      unfold eval_divmod, eval_ratdiv, eval_tobin, eval_gt, eval_find, eval_extract in E;
      cbn [vec_at nth_error bind] in E;
      try (injection E; intros E1; apply N in E1; destruct E1 as [-> E2];
           destruct a; try reflexivity; specialize (E2 eq_refl); discriminate).
    + injection E; intros E1. destruct a; try discriminate; injection E1; intros; subst; reflexivity.
    + injection E; intros E1. destruct a; try discriminate; injection E1; intros; subst; reflexivity.
    + destruct a; try discriminate; try (destruct (negb _); [discriminate|]);
      (destruct l as [|a1 l1]; [discriminate|]); cbn [nth_error vec_at bind] in E;
      try (destruct a1; try discriminate; destruct (_ =? 0); try discriminate);
      injection E; intros; subst; reflexivity.
    + destruct a; try discriminate; try (destruct (negb _); [discriminate|]);
      (destruct l as [|a1 l1]; [discriminate|]); cbn [nth_error vec_at bind] in E;
      try (destruct a1; try discriminate; destruct (_ =? 0); try discriminate);
      injection E; intros; subst; reflexivity.
    + destruct a; try discriminate;
      (destruct l as [|a1 l1]; [discriminate|]); cbn [nth_error vec_at bind] in E;
      destruct a1; try discriminate; destruct (_ =? 0); try discriminate;
      injection E; intros; subst; reflexivity.
    + injection E; intros E1. destruct a; try discriminate; injection E1; intros; subst; reflexivity.
    + destruct a; try discriminate;
      (destruct l as [|a1 l1]; [discriminate|]); cbn [nth_error vec_at bind] in E;
      try (destruct a1; try discriminate); injection E; intros; subst; reflexivity.
    + injection E; intros E1. destruct a; try discriminate; injection E1; intros; subst; reflexivity.
    + destruct l as [|a1 l1]; [discriminate|]. cbn [nth_error vec_at bind] in E.
      destruct a1; try discriminate.
      destruct l1 as [|a2 l2]; [discriminate|]. cbn [nth_error vec_at bind] in E.
      destruct a2; try discriminate.
      destruct a as [ | | | | | |s]; try discriminate; try (injection E; intros; subst; reflexivity).
      destruct (extract_str s z z0); try discriminate. cbn [bind] in E.
      injection E; intros; subst; reflexivity.
    + destruct a; try discriminate.
      destruct l as [|a1 l1]; [discriminate|]. cbn [nth_error vec_at bind] in E.
      destruct a1; try discriminate. destruct (str_find _ _); injection E; intros; subst; reflexivity.
    + injection E; intros E1. destruct a as [ | | | | | |[|c [|d s]]]; try discriminate; injection E1; intros; subst; reflexivity.
    + injection E; intros E1. destruct a; try discriminate; injection E1; intros; subst; reflexivity.
    + destruct a; try discriminate. destruct (fitsUnsignedInt _); [|discriminate].
      destruct l as [|a1 l1]; [discriminate|]. cbn [nth_error vec_at bind] in E.
      destruct a1; try discriminate; injection E; intros; subst; reflexivity.
    + injection E; intros E1. destruct a; try discriminate; cbn [eval_tostr] in E1;
        try (destruct (_ && _)); injection E1; intros; subst; reflexivity.
  - unfold evaluate in E.
    destruct (kind_eqb k K_EVAL_EXTRACT) eqn:K1; [left; left; apply kind_eqb_eq; exact K1|].
    destruct (kind_eqb k K_EVAL_TO_BIN) eqn:K2; [left; right; apply kind_eqb_eq; exact K2|].
    right. cbn [negb andb allSameKind bind] in E.
    destruct (forallb _ _) eqn:F; [|discriminate].
    apply Forall_forall. intros b Hb. rewrite forallb_forall in F.
    apply kind_eqb_eq. apply F; exact Hb.
Qed.

(* ------------------------------------------------------------------ *)
(** * C16 reading back *)

Lemma index_of_app : forall c a b, Forall (fun x => x <> c) a ->
  index_of c (a ++ c :: b) = Some (length a).
Proof.
  intros c a b H; induction H as [|x a Hx Ha IH]; cbn [app index_of length].
  - rewrite Z.eqb_refl. reflexivity.
  - apply Z.eqb_neq in Hx. rewrite Hx, IH. reflexivity.
Qed.

Lemma int_text_no_slash : forall z, Forall (fun x => x <> 47) (int_toString 10 z).
Proof.
  intros z. assert (D : forall d, 0 <= d < 10 -> dchar d <> 47).
  { intros d H. pose proof (dchar_range d). lia. }
  destruct (Z_lt_le_dec z 0).
  - unfold int_toString. replace (z <? 0) with true by (symmetry; apply Z.ltb_lt; lia).
    constructor; [lia|]. apply digs_all; auto; lia.
  - apply int_toString_digits; auto; lia.
Qed.

Lemma rat_ofString_slash : forall n d, d <> 0 ->
  rat_ofString (int_toString 10 n ++ 47 :: int_toString 10 d) = Ok (rat_make n d).
Proof.
  intros n d Hd; unfold rat_ofString.
  rewrite index_of_app by apply int_text_no_slash.
  rewrite firstn_app, firstn_all, Nat.sub_diag. cbn [firstn]. rewrite app_nil_r.
  rewrite (int_roundtrip 10 n) by lia.
  replace (skipn (S (length (int_toString 10 n))) (int_toString 10 n ++ 47 :: int_toString 10 d))
    with (int_toString 10 d).
  - rewrite int_roundtrip by lia. apply Z.eqb_neq in Hd. rewrite Hd. reflexivity.
  - rewrite skipn_app. rewrite skipn_all2 by lia.
    replace (S (length (int_toString 10 n)) - length (int_toString 10 n))%nat with 1%nat by lia.
    reflexivity.
Qed.

Lemma rat_make_id : forall q, rat_wf q -> rat_make (Qnum q) (QDen q) = q.
Proof.
  intros [n d] H; unfold rat_make; cbn [Qnum Qden].
  cbn [Z.sgn Z.abs Z.to_pos]. rewrite Z.mul_1_l. apply rat_wf_red; exact H.
Qed.

Lemma rat_print_read : forall q, rat_wf q ->
  mkLiteral K_RATIONAL (lit_toString (LRat q)) = Ok (LRat q).
Proof.
  intros q W. cbn [mkLiteral].
  assert (E : lit_toString (LRat q)
              = int_toString 10 (Qnum q) ++ 47 :: int_toString 10 (QDen q)).
  { cbn [lit_toString]. unfold rat_isIntegral, rat_toString. destruct (QDen q =? 1) eqn:D.
    - apply Z.eqb_eq in D. rewrite D. reflexivity.
    - reflexivity. }
  rewrite E, rat_ofString_slash by lia. cbn [bind]. rewrite rat_make_id by exact W. reflexivity.
Qed.

Lemma bin_print_read : forall b, bv_wf b -> 0 < bv_size b ->
  mkLiteral K_BINARY (lit_toString (LBin b)) = Ok (LBin b).
Proof.
  intros b [Hs Hv] P. cbn [mkLiteral].
  set (str := int_toString 2 (bv_val b)).
  assert (L : Z.of_nat (length str) <= bv_size b).
  { unfold str. rewrite int_toString_nonneg by lia.
    pose proof (digs_length 2 (S (Z.to_nat (Z.log2 (bv_val b)))) (bv_val b) []
       (Z.to_nat (bv_size b))) as D.
    rewrite Z2Nat.id in D by lia. cbn [length] in D. lia. }
  assert (T : lit_toString (LBin b)
     = repeat 48 (Z.to_nat (bv_size b - Z.of_nat (length str))) ++ str).
  { cbn [lit_toString]. unfold bv_toString. fold str.
    change (2 =? 2) with true. cbn [andb].
    destruct (Z.of_nat (length str) <? bv_size b) eqn:Q; [reflexivity|].
    apply Z.ltb_ge in Q.
    replace (bv_size b =? 0) with false by (symmetry; apply Z.eqb_neq; lia).
    replace (bv_size b - Z.of_nat (length str)) with 0 by lia. reflexivity. }
  rewrite T. unfold bv_ofString.
  rewrite int_ofString_digits.
  - rewrite read_digs_zeros by lia. unfold str at 1. rewrite read_nonneg by lia.
    cbn [bind]. do 2 f_equal.
    change (2 =? 16) with false. cbv iota.
    rewrite app_length, repeat_length. apply bv_ext; cbn [bv_size bv_val]; [|reflexivity].
    rewrite Nat2Z.inj_add, Z2Nat.id by lia. 
    replace (bv_size b - Z.of_nat (length str) + Z.of_nat (length str)) with (bv_size b) by lia.
    apply u32_id; lia.
  - intros C. apply app_eq_nil in C. destruct C as [_ C]. revert C. apply int_toString_nonnil.
  - apply Forall_app; split.
    + apply Forall_forall. intros x Hx. apply repeat_spec in Hx. lia.
    + apply int_toString_digits; [lia|lia|]. intros d Hd. pose proof (dchar_range d). lia.
Qed.

Lemma num_print_read : forall z, mkLiteral K_NUMERAL (lit_toString (LNum z)) = Ok (LNum z).
Proof. intros z. cbn [mkLiteral lit_toString]. rewrite int_roundtrip by lia. reflexivity. Qed.

Lemma str_print_read : forall s, str_wf s ->
  mkLiteral K_STRING (lit_toString (LStr s)) = Ok (LStr s).
Proof. intros s W. cbn [mkLiteral lit_toString]. rewrite str_roundtrip by exact W. reflexivity. Qed.
