(** Proofs about literal operators. *)
From Coq Require Import ZArith QArith Qreduction Qround List Bool Lia.
From Verif Require Import Base Kind Ints Str Literal Arity SpecLit IntsProofs StrProofs.
Import ListNotations.
Open Scope Z_scope.

(* ------------------------------------------------------------------ *)
(** * Generic facts *)

Lemma bind_ok : forall A B (x : res A) (f : A -> res B) b,
  bind x f = Ok b -> exists a, x = Ok a /\ f a = Ok b.
Proof. intros A B [a| | |] f b H; try discriminate. exists a; split; [reflexivity|exact H]. Qed.

Lemma sgn_eqb_0 : forall z, (Z.sgn z =? 0) = (z =? 0).
Proof. intros [|p|p]; reflexivity. Qed.

Lemma sgn_neg : forall z, (Z.sgn z =? -1) = (z <? 0).
Proof. intros [|p|p]; reflexivity. Qed.

Lemma sgn_ltb : forall z, (Z.sgn z <? 0) = (z <? 0).
Proof. intros [|p|p]; reflexivity. Qed.

(** Same-category argument lists. *)
Lemma allSameKind_map : forall A (mk : A -> literal) a l,
  (forall x y, lit_kind (mk x) = lit_kind (mk y)) ->
  allSameKind (map mk (a :: l)) = Ok (lit_kind (mk a)).
Proof.
  intros A mk a l H. cbn [map allSameKind].
  replace (forallb _ _) with true; [reflexivity|].
  symmetry. apply forallb_forall. intros x Hx. apply in_map_iff in Hx.
  destruct Hx as [y [<- _]]. apply kind_eqb_eq. apply H.
Qed.

Lemma allSameKind_2 : forall a b, lit_kind a = lit_kind b ->
  allSameKind [a; b] = Ok (lit_kind a).
Proof.
  intros a b E; cbn [allSameKind forallb]. rewrite <- E, kind_eqb_refl. reflexivity.
Qed.

Lemma lit_kind_not_none : forall l, kind_eqb (lit_kind l) K_NONE = false.
Proof. destruct l; reflexivity. Qed.

(** Evaluation of an operator other than extract / to_bin. *)
Lemma evaluate_same : forall k a l, k <> K_EVAL_EXTRACT -> k <> K_EVAL_TO_BIN ->
  allSameKind (a :: l) = Ok (lit_kind a) ->
  evaluate k (a :: l) = evaluate_switch k (a :: l).
Proof.
  intros k a l H1 H2 H. unfold evaluate.
  apply kind_eqb_neq in H1. apply kind_eqb_neq in H2. rewrite H1, H2. cbn [negb andb].
  rewrite H. cbn [bind]. rewrite lit_kind_not_none. reflexivity.
Qed.

Lemma evaluate_unary : forall k a, k <> K_EVAL_EXTRACT -> k <> K_EVAL_TO_BIN ->
  evaluate k [a] = evaluate_switch k [a].
Proof.
  intros; apply evaluate_same; auto.
Qed.

Lemma evaluate_binary : forall k a b, k <> K_EVAL_EXTRACT -> k <> K_EVAL_TO_BIN ->
  lit_kind a = lit_kind b ->
  evaluate k [a; b] = evaluate_switch k [a; b].
Proof. intros; apply evaluate_same; auto. apply allSameKind_2; assumption. Qed.

(* ------------------------------------------------------------------ *)
(** * C01, C02 *)

Lemma zdiv_zmod_euclid : forall x y,
  (y <> 0 -> exists q r,
     evaluate K_EVAL_INT_DIV [LNum x; LNum y] = Ok (Some (LNum q)) /\
     evaluate K_EVAL_INT_MOD [LNum x; LNum y] = Ok (Some (LNum r)) /\
     is_euclid x y q r /\
     forall q' r', is_euclid x y q' r' -> q' = q /\ r' = r) /\
  (y = 0 ->
     evaluate K_EVAL_INT_DIV [LNum x; LNum y] = Ok None /\
     evaluate K_EVAL_INT_MOD [LNum x; LNum y] = Ok None).
Proof.
  intros x y; split; intros Hy.
  - exists (fst (euclidianQR x y)), (snd (euclidianQR x y)).
    assert (E : Z.sgn y =? 0 = false) by (rewrite sgn_eqb_0; apply Z.eqb_neq; exact Hy).
    split; [|split; [|split]].
    + rewrite evaluate_binary by (reflexivity || discriminate).
      cbn [evaluate_switch eval_divmod vec_at nth_error bind]. rewrite E. reflexivity.
    + rewrite evaluate_binary by (reflexivity || discriminate).
      cbn [evaluate_switch eval_divmod vec_at nth_error bind]. rewrite E. reflexivity.
    + apply euclidianQR_spec; exact Hy.
    + intros q' r' H. apply (is_euclid_unique x y); [exact H|].
      apply euclidianQR_spec; exact Hy.
  - subst; split; reflexivity.
Qed.

(** For positive divisors the quotient is the floor. *)
Lemma zdiv_floor_pos : forall x y, 0 < y ->
  exists q, evaluate K_EVAL_INT_DIV [LNum x; LNum y] = Ok (Some (LNum q)) /\
            is_floor_quotient x y q.
Proof.
  intros x y Hy. destruct (zdiv_zmod_euclid x y) as [H _].
  destruct H as (q & r & E & _ & [E1 E2] & _); [lia|].
  exists q; split; [exact E|]. left; split; [exact Hy|]. nia.
Qed.

(* ------------------------------------------------------------------ *)
(** * Well-formedness: C03 *)

Lemma rat_ops_wf : forall a b,
  rat_wf (rat_add a b) /\ rat_wf (rat_mul a b) /\ rat_wf (rat_neg a) /\ rat_wf (rat_div a b).
Proof. intros; repeat split; apply Qred_wf. Qed.

Lemma fold_opt_inv : forall A B (P : A -> Prop) (f : A -> B -> option A) l a r,
  P a -> (forall x b y, In b l -> P x -> f x b = Some y -> P y) ->
  fold_opt f a l = Some r -> P r.
Proof.
  intros A B P f l; induction l as [|b l IH]; intros a r Pa Hf E; cbn [fold_opt] in E.
  - injection E; intros; subst; exact Pa.
  - destruct (f a b) as [y|] eqn:F; [|discriminate].
    eapply IH; [|intros x b0 y0 I; apply Hf; right; exact I|exact E].
    eapply Hf; [left; reflexivity|exact Pa|exact F].
Qed.

Lemma bv_ops_wf : forall k x l y, bv_op k x l = Some y -> bv_wf y.
Proof.
  intros k x l y H; unfold bv_op in H.
  destruct l; try discriminate; destruct k; try discriminate;
    injection H; intros; subst; apply bv_make_wf.
Qed.

Lemma rat_op_wf : forall k x l y, rat_op k x l = Some y -> rat_wf y.
Proof.
  intros k x l y H; unfold rat_op in H.
  destruct l; try discriminate; destruct k; try discriminate;
    injection H; intros; subst; apply Qred_wf.
Qed.

Lemma extract_bv_wf : forall b i j, bv_wf (extract_bv b i j).
Proof.
  intros b i j; unfold extract_bv.
  assert (Z0 : bv_wf (mkBV 0 0)) by (split; cbn; lia).
  destruct ((_ || _) || _ || _); [exact Z0|].
  destruct (_ >? _); [exact Z0|]. apply bv_make_wf.
Qed.

Lemma in_firstn : forall A (l : list A) n x, In x (firstn n l) -> In x l.
Proof.
  intros A l n x H. rewrite <- (firstn_skipn n l). apply in_or_app; left; exact H.
Qed.
Lemma in_skipn : forall A (l : list A) n x, In x (skipn n l) -> In x l.
Proof.
  intros A l n x H. rewrite <- (firstn_skipn n l). apply in_or_app; right; exact H.
Qed.

Lemma extract_str_wf : forall s i j r, str_wf s -> extract_str s i j = Ok r -> str_wf r.
Proof.
  intros s i j r W E; unfold extract_str in E.
  destruct ((_ || _) || _ || _); [injection E; intros; subst; constructor|].
  unfold str_substr in E.
  destruct (_ && _ && _); [|discriminate]. injection E; intros; subst.
  unfold str_wf in *. rewrite Forall_forall in *. intros x Hx.
  apply W. apply in_firstn, in_skipn in Hx. exact Hx.
Qed.

Lemma eval_nary_wf : forall k args l, Forall lit_wf args ->
  eval_nary k args = Some l -> lit_wf l.
Proof.
  intros k args l W E; unfold eval_nary in E.
  destruct args as [|a rest]; [discriminate|].
  inversion W as [|a0 r0 Wa Wr]; subst a0 r0.
  destruct a as [b|z|q|q|b|b|s].
  - destruct (fold_opt _ _ _); [|discriminate]. injection E; intros; subst; exact I.
  - destruct (fold_opt _ _ _); [|discriminate]. injection E; intros; subst; exact I.
  - destruct (fold_opt _ _ _) as [r|] eqn:F; [|discriminate]. injection E; intros; subst.
    apply (fold_opt_inv _ _ rat_wf (rat_op k) rest q r); auto.
    intros x y z _ _ H; eapply rat_op_wf; exact H.
  - destruct (fold_opt _ _ _) as [r|] eqn:F; [|discriminate]. injection E; intros; subst.
    apply (fold_opt_inv _ _ rat_wf (rat_op k) rest q r); auto.
    intros x y z _ _ H; eapply rat_op_wf; exact H.
  - destruct (_ && _); [discriminate|].
    destruct (fold_opt _ _ _) as [r|] eqn:F; [|discriminate]. injection E; intros; subst.
    apply (fold_opt_inv _ _ bv_wf (bv_op k) rest b r); auto.
    intros x y z _ _ H; eapply bv_ops_wf; exact H.
  - destruct (_ && _); [discriminate|].
    destruct (fold_opt _ _ _) as [r|] eqn:F; [|discriminate]. injection E; intros; subst.
    apply (fold_opt_inv _ _ bv_wf (bv_op k) rest b r); auto.
    intros x y z _ _ H; eapply bv_ops_wf; exact H.
  - destruct (kind_eqb k K_EVAL_CONCAT); [|discriminate].
    destruct (fold_opt _ _ _) as [r|] eqn:F; [|discriminate]. injection E; intros; subst.
    apply (fold_opt_inv _ _ str_wf (str_op k) rest s r); auto.
    intros x y z Hin Wx H. unfold str_op in H. destruct y; try discriminate.
    destruct k; try discriminate. injection H; intros; subst.
    apply Forall_app; split; [exact Wx|].
    rewrite Forall_forall in Wr. exact (Wr _ Hin).
Qed.

Lemma evaluate_evaluate_switch : forall k args r,
  evaluate k args = Ok (Some r) -> evaluate_switch k args = Ok (Some r).
Proof.
  intros k args r H; unfold evaluate in H.
  destruct (_ && _); [|exact H].
  destruct (allSameKind args) as [ka| | |]; try discriminate. cbn [bind] in H.
  destruct (kind_eqb ka K_NONE); [discriminate|exact H].
Qed.

Ltac inj := match goal with H : Some _ = Some _ |- _ => injection H; clear H; intros
            | H : Ok _ = Ok _ |- _ => injection H; clear H; intros end.

Lemma evaluate_wf : forall k args l, Forall lit_wf args ->
  evaluate k args = Ok (Some l) -> lit_wf l.
Proof.
  intros k args l W E. apply evaluate_evaluate_switch in E.
  assert (WA : forall i a, nth_error args i = Some a -> lit_wf a).
  { intros i a H. apply nth_error_In in H. rewrite Forall_forall in W. exact (W a H). }
  destruct k; cbn [evaluate_switch] in E; try discriminate;
    try (injection E; intros E1; eapply eval_nary_wf; [exact W|exact E1]).
  - (* not *) unfold vec_at in E. destruct (nth_error args 0) as [a|] eqn:N; [|discriminate].
    cbn [bind] in E. injection E; intros E1. destruct a; try discriminate; cbn [eval_not] in E1;
      injection E1; intros; subst; try exact I; apply bv_make_wf.
  - (* neg *) unfold vec_at in E. destruct (nth_error args 0) as [a|] eqn:N; [|discriminate].
    cbn [bind] in E. injection E; intros E1. destruct a; try discriminate; cbn [eval_neg] in E1;
      injection E1; intros; subst; try exact I; try apply bv_make_wf; apply Qred_wf.
  - (* div *) unfold eval_divmod, vec_at in E.
    destruct (nth_error args 0) as [a|] eqn:N; [|discriminate]. cbn [bind] in E.
    destruct a; try discriminate; try (destruct (negb _); [discriminate|]);
    (destruct (nth_error args 1) as [a1|] eqn:N1; [|discriminate]); cbn [bind] in E.
    + destruct a1; try discriminate. destruct (Z.sgn _ =? 0); [discriminate|].
      injection E; intros; subst; exact I.
    + injection E; intros; subst. cbn [lit_wf]. unfold bv_udiv.
      destruct (_ =? 0); apply bv_make_wf.
    + injection E; intros; subst. cbn [lit_wf]. unfold bv_udiv.
      destruct (_ =? 0); apply bv_make_wf.
  - (* mod *) unfold eval_divmod, vec_at in E.
    destruct (nth_error args 0) as [a|] eqn:N; [|discriminate]. cbn [bind] in E.
    destruct a; try discriminate; try (destruct (negb _); [discriminate|]);
    (destruct (nth_error args 1) as [a1|] eqn:N1; [|discriminate]); cbn [bind] in E.
    + destruct a1; try discriminate. destruct (Z.sgn _ =? 0); [discriminate|].
      injection E; intros; subst; exact I.
    + injection E; intros; subst. cbn [lit_wf]. unfold bv_urem.
      destruct (_ =? 0); apply bv_make_wf.
    + injection E; intros; subst. cbn [lit_wf]. unfold bv_urem.
      destruct (_ =? 0); apply bv_make_wf.
  - (* qdiv *) unfold eval_ratdiv, vec_at in E.
    destruct (nth_error args 0) as [a|] eqn:N; [|discriminate]. cbn [bind] in E.
    destruct a; try discriminate;
    (destruct (nth_error args 1) as [a1|] eqn:N1; [|discriminate]); cbn [bind] in E;
    destruct a1; try discriminate; destruct (_ =? 0); try discriminate;
    injection E; intros; subst; apply Qred_wf.
  - (* is_neg *) unfold vec_at in E. destruct (nth_error args 0) as [a|] eqn:N; [|discriminate].
    cbn [bind] in E. injection E; intros E1. destruct a; try discriminate; cbn [eval_isneg] in E1;
      injection E1; intros; subst; exact I.
  - (* gt *) unfold eval_gt, vec_at in E.
    destruct (nth_error args 0) as [a|] eqn:N; [|discriminate]. cbn [bind] in E.
    destruct a; try discriminate;
    (destruct (nth_error args 1) as [a1|] eqn:N1; [|discriminate]); cbn [bind] in E;
    try (destruct a1; try discriminate); injection E; intros; subst; exact I.
  - (* length *) unfold vec_at in E. destruct (nth_error args 0) as [a|] eqn:N; [|discriminate].
    cbn [bind] in E. injection E; intros E1. destruct a; try discriminate; cbn [eval_length] in E1;
      injection E1; intros; subst; exact I.
  - (* extract *) unfold eval_extract, vec_at in E.
    destruct (nth_error args 1) as [a1|] eqn:N1; [|discriminate]. cbn [bind] in E.
    destruct a1; try discriminate.
    destruct (nth_error args 2) as [a2|] eqn:N2; [|discriminate]. cbn [bind] in E.
    destruct a2; try discriminate.
    destruct (nth_error args 0) as [a|] eqn:N; [|discriminate]. cbn [bind] in E.
    destruct a as [ | | | |b|b|s]; try discriminate.
    + injection E; intros; subst; apply extract_bv_wf.
    + injection E; intros; subst; apply extract_bv_wf.
    + destruct (extract_str s z z0) as [r| | |] eqn:X; try discriminate. cbn [bind] in E.
      injection E; intros; subst. cbn [lit_wf].
      eapply extract_str_wf; [|exact X]. exact (WA _ _ N).
  - (* find *) unfold eval_find, vec_at in E.
    destruct (nth_error args 0) as [a|] eqn:N; [|discriminate]. cbn [bind] in E.
    destruct a; try discriminate.
    destruct (nth_error args 1) as [a1|] eqn:N1; [|discriminate]. cbn [bind] in E.
    destruct a1; try discriminate. destruct (str_find _ _); injection E; intros; subst; exact I.
  - (* to_int *) unfold vec_at in E. destruct (nth_error args 0) as [a|] eqn:N; [|discriminate].
    cbn [bind] in E. injection E; intros E1. destruct a as [ | | | | | |[|c [|d s]]]; try discriminate; cbn [eval_toint] in E1;
      injection E1; intros; subst; exact I.
  - (* to_rat *) unfold vec_at in E. destruct (nth_error args 0) as [a|] eqn:N; [|discriminate].
    cbn [bind] in E. injection E; intros E1. pose proof (WA _ _ N) as Wa.
    destruct a; try discriminate; cbn [eval_torat] in E1;
      injection E1; intros; subst; try exact Wa.
    cbn [lit_wf]. unfold rat_wf, rat_ofInt; cbn [Qnum Qden]. apply Z.gcd_1_r.
  - (* to_bin *) unfold eval_tobin, vec_at in E.
    destruct (nth_error args 0) as [a|] eqn:N; [|discriminate]. cbn [bind] in E.
    destruct a; try discriminate. destruct (fitsUnsignedInt z); [|discriminate].
    destruct (nth_error args 1) as [a1|] eqn:N1; [|discriminate]. cbn [bind] in E.
    destruct a1; try discriminate; injection E; intros; subst; apply bv_make_wf.
  - (* to_string *) unfold vec_at in E. destruct (nth_error args 0) as [a|] eqn:N; [|discriminate].
    cbn [bind] in E. injection E; intros E1. pose proof (WA _ _ N) as Wa.
    destruct a; try discriminate; cbn [eval_tostr] in E1.
    + destruct (fitsUnsignedInt z && (toUnsignedInt z <? num_codes)) eqn:F.
      * injection E1; intros; subst. cbn [lit_wf]. constructor; [|constructor].
        apply andb_true_iff in F; destruct F as [_ F]. apply Z.ltb_lt in F.
        split; [|exact F]. apply u32_range.
      * injection E1; intros; subst; apply str_ofText_wf.
    + injection E1; intros; subst; apply str_ofText_wf.
    + injection E1; intros; subst; apply str_ofText_wf.
    + injection E1; intros; subst; apply str_ofText_wf.
    + injection E1; intros; subst; apply str_ofText_wf.
    + injection E1; intros; subst; exact Wa.
Qed.

(** Reading a token gives a well-formed literal. *)
Lemma dval_nonneg : forall c d, dval c = Some d -> 0 <= d.
Proof.
  intros c d D; unfold dval in D.
  destruct ((48 <=? c) && (c <=? 57)) eqn:A1.
  - injection D; intros; subst. apply andb_true_iff in A1. lia.
  - destruct ((97 <=? c) && (c <=? 102)) eqn:A2.
    + injection D; intros; subst. apply andb_true_iff in A2. lia.
    + destruct ((65 <=? c) && (c <=? 70)) eqn:A3; [|discriminate].
      injection D; intros; subst. apply andb_true_iff in A3. lia.
Qed.

Lemma read_digs_bound : forall base s acc v, 2 <= base -> 0 <= acc ->
  read_digs base s acc = Some v ->
  0 <= v < (acc + 1) * base ^ Z.of_nat (length s).
Proof.
  intros base s; induction s as [|c s IH]; intros acc v Hb Ha E; cbn [read_digs] in E.
  - injection E; intros; subst. cbn [length]. change (Z.of_nat 0) with 0. rewrite Z.pow_0_r. lia.
  - destruct (dval c) as [d|] eqn:D; [|discriminate].
    destruct (d <? base) eqn:L; [|discriminate]. apply Z.ltb_lt in L.
    pose proof (dval_nonneg _ _ D).
    apply IH in E; [|exact Hb|nia].
    cbn [length]. rewrite Nat2Z.inj_succ, Z.pow_succ_r by lia.
    assert (0 < base ^ Z.of_nat (length s)) by (apply Z.pow_pos_nonneg; lia).
    nia.
Qed.

(** Characters of a binary / hexadecimal token body: digits only. *)
Definition digit_text (s : text) : Prop := s <> [] /\ Forall (fun c => c <> 45) s.

Lemma bv_ofString_wf : forall base s b, base = 2 \/ base = 16 ->
  digit_text s -> Z.of_nat (length s) * 4 < 2 ^ 32 ->
  bv_ofString base s = Ok b -> bv_wf b.
Proof.
  intros base s b Hb [Hn Hd] L E; unfold bv_ofString in E.
  rewrite int_ofString_digits in E by assumption.
  destruct (read_digs base s 0) as [v|] eqn:R; [|discriminate].
  injection E; intros; subst. unfold bv_wf; cbn [bv_size bv_val].
  apply read_digs_bound in R; [|lia|lia].
  rewrite Z.mul_1_l in R.
  destruct Hb as [->| ->].
  - cbn [Z.eqb Pos.eqb]. change (2 =? 16) with false. cbv iota.
    rewrite u32_id by lia. split; [lia|exact R].
  - change (16 =? 16) with true. cbv iota. rewrite u32_id by lia. split; [lia|].
    rewrite Z.mul_comm, Z.pow_mul_r by lia. exact R.
Qed.

(* ------------------------------------------------------------------ *)
(** * C04 *)

Lemma fold_bv : forall k (f : bitvec -> bitvec -> bitvec) mk bs a, bv_cat mk ->
  (forall x y, bv_op k x (mk y) = Some (f x y)) ->
  fold_opt (bv_op k) a (map mk bs) = Some (fold_left f bs a).
Proof.
  intros k f mk bs; induction bs as [|b bs IH]; intros a Hmk Hf; [reflexivity|].
  cbn [map fold_opt fold_left]. rewrite Hf. apply IH; assumption.
Qed.

Lemma allSameBitWidth_map : forall mk w a bs, bv_cat mk ->
  bv_size a = w -> Forall (fun b => bv_size b = w) bs ->
  allSameBitWidth (map mk (a :: bs)) = true.
Proof.
  intros mk w a bs Hmk Ha Hb. cbn [map allSameBitWidth].
  apply forallb_forall. intros x Hx. apply in_map_iff in Hx. destruct Hx as [y [<- Hy]].
  rewrite Forall_forall in Hb. apply Hb in Hy.
  destruct Hmk as [->| ->]; cbn [lit_bv]; apply Z.eqb_eq; lia.
Qed.

Lemma bv_cat_kind : forall mk, bv_cat mk -> forall x y, lit_kind (mk x) = lit_kind (mk y).
Proof. intros mk [->| ->]; reflexivity. Qed.

Lemma eval_bv_nary : forall k f mk w a bs, bv_cat mk ->
  In k [K_EVAL_AND; K_EVAL_OR; K_EVAL_XOR; K_EVAL_ADD; K_EVAL_MUL; K_EVAL_CONCAT] ->
  (forall x y, bv_op k x (mk y) = Some (f x y)) ->
  (k = K_EVAL_CONCAT \/ (bv_size a = w /\ Forall (fun b => bv_size b = w) bs)) ->
  evaluate k (map mk (a :: bs)) = Ok (Some (mk (fold_left f bs a))).
Proof.
  intros k f mk w a bs Hmk Hk Hf Hw.
  assert (NE : k <> K_EVAL_EXTRACT /\ k <> K_EVAL_TO_BIN).
  { cbn [In] in Hk. intuition (subst; discriminate). }
  destruct NE as [NE1 NE2].
  cbn [map]. rewrite evaluate_same;
    [|exact NE1|exact NE2|exact (allSameKind_map _ mk a bs (bv_cat_kind mk Hmk))].
  assert (ES : evaluate_switch k (mk a :: map mk bs) = Ok (eval_nary k (mk a :: map mk bs))).
  { cbn [In] in Hk. intuition (subst; reflexivity). }
  rewrite ES. f_equal.
  assert (C : negb (kind_eqb k K_EVAL_CONCAT) && negb (allSameBitWidth (mk a :: map mk bs)) = false).
  { destruct Hw as [->|[W1 W2]]; [reflexivity|].
    change (mk a :: map mk bs) with (map mk (a :: bs)).
    rewrite (allSameBitWidth_map mk w a bs Hmk W1 W2). apply andb_false_r. }
  destruct Hmk as [->| ->]; cbn [eval_nary]; rewrite C; rewrite (fold_bv k f _ bs a);
    auto; [left|right]; reflexivity.
Qed.

(** accumulated value of a modular fold *)
Lemma fold_mod : forall (f : bitvec -> bitvec -> bitvec) (g : Z -> Z -> Z) w bs a,
  0 <= w < 2 ^ 32 ->
  (forall x y, bv_wf x -> bv_wf y -> bv_size x = w -> bv_size y = w ->
     bv_wf (f x y) /\ bv_size (f x y) = w /\ bv_val (f x y) = g (bv_val x) (bv_val y) mod 2 ^ w) ->
  (forall x y, g (x mod 2 ^ w) y mod 2 ^ w = g x y mod 2 ^ w) ->
  Forall bv_wf bs -> Forall (fun b => bv_size b = w) bs ->
  bv_wf a -> bv_size a = w ->
  bv_size (fold_left f bs a) = w /\ bv_wf (fold_left f bs a) /\
  bv_val (fold_left f bs a) = fold_left g (map bv_val bs) (bv_val a) mod 2 ^ w.
Proof.
  intros f g w bs a Hw Hf Hg. revert a.
  assert (G : forall l x, fold_left g l (x mod 2 ^ w) mod 2 ^ w = fold_left g l x mod 2 ^ w).
  { induction l as [|y l IH]; intros x; cbn [fold_left].
    - apply Z.mod_mod. apply Z.pow_nonzero; lia.
    - rewrite <- IH, Hg, IH. reflexivity. }
  induction bs as [|b bs IH]; intros a W1 W2 Wa Sa; cbn [fold_left map].
  - split; [exact Sa|]. split; [exact Wa|].
    destruct Wa as [_ V]. rewrite Sa in V. symmetry; apply Z.mod_small; exact V.
  - inversion W1; subst. inversion W2; subst.
    destruct (Hf a b) as (F1 & F2 & F3); auto.
    destruct (IH (f a b)) as (R1 & R2 & R3); auto.
    split; [exact R1|]. split; [exact R2|]. rewrite R3, F3.
    apply G.
Qed.

Lemma fold_bits : forall (f : bitvec -> bitvec -> bitvec) (g : bool -> bool -> bool) w bs a,
  0 <= w < 2 ^ 32 ->
  (forall x y, bv_wf x -> bv_wf y -> bv_size x = w -> bv_size y = w ->
     bv_wf (f x y) /\ bv_size (f x y) = w /\
     forall k, 0 <= k < w ->
       Z.testbit (bv_val (f x y)) k = g (Z.testbit (bv_val x) k) (Z.testbit (bv_val y) k)) ->
  Forall bv_wf bs -> Forall (fun b => bv_size b = w) bs ->
  bv_wf a -> bv_size a = w ->
  bv_size (fold_left f bs a) = w /\
  forall k, 0 <= k < w ->
  Z.testbit (bv_val (fold_left f bs a)) k =
    fold_left g (map (fun b => Z.testbit (bv_val b) k) bs) (Z.testbit (bv_val a) k).
Proof.
  intros f g w bs a Hw Hf. revert a.
  induction bs as [|b bs IH]; intros a W1 W2 Wa Sa; cbn [fold_left map].
  - split; [exact Sa|]. reflexivity.
  - inversion W1; subst. inversion W2; subst.
    destruct (Hf a b) as (F1 & F2 & F3); auto.
    destruct (IH (f a b)) as (R1 & R2); auto.
    split; [exact R1|]. intros k Hk. rewrite R2 by exact Hk. rewrite F3 by exact Hk. reflexivity.
Qed.

Section C04.
  Variables (mk : bitvec -> literal) (w : Z) (a : bitvec) (bs : list bitvec).
  Hypothesis Hmk : bv_cat mk.
  Hypothesis Wa : bv_wf a.
  Hypothesis Wb : Forall bv_wf bs.
  Hypothesis Sa : bv_size a = w.
  Hypothesis Sb : Forall (fun b => bv_size b = w) bs.

  Let Hw : 0 <= w < 2 ^ 32.
  Proof. destruct Wa as [H _]. rewrite Sa in H. exact H. Qed.

  Lemma eval_bv_modular : forall k f g,
    In k [K_EVAL_AND; K_EVAL_OR; K_EVAL_XOR; K_EVAL_ADD; K_EVAL_MUL] ->
    (forall x y, bv_op k x (mk y) = Some (f x y)) ->
    (forall x y, bv_size x = w -> f x y = bv_make w (g (bv_val x) (bv_val y))) ->
    (forall x y, g (x mod 2 ^ w) y mod 2 ^ w = g x y mod 2 ^ w) ->
    exists c, evaluate k (map mk (a :: bs)) = Ok (Some (mk c)) /\ bv_size c = w /\
      bv_val c = fold_left g (map bv_val bs) (bv_val a) mod 2 ^ w.
  Proof.
    intros k f g Hk Hf Hg Hm.
    exists (fold_left f bs a).
    assert (F : forall x y, bv_wf x -> bv_wf y -> bv_size x = w -> bv_size y = w ->
      bv_wf (f x y) /\ bv_size (f x y) = w /\ bv_val (f x y) = g (bv_val x) (bv_val y) mod 2 ^ w).
    { intros x y _ _ Sx _. rewrite Hg by exact Sx. split; [apply bv_make_wf|].
      split; [apply bv_make_size; exact Hw|apply bv_make_val; exact Hw]. }
    destruct (fold_mod f g w bs a Hw F Hm Wb Sb Wa Sa) as (R1 & R2 & R3).
    split; [|split; [exact R1|exact R3]].
    apply (eval_bv_nary k f mk w); auto.
    cbn [In] in *. intuition.
  Qed.

  Lemma eval_bv_bitwise : forall k f g gb,
    In k [K_EVAL_AND; K_EVAL_OR; K_EVAL_XOR; K_EVAL_ADD; K_EVAL_MUL] ->
    (forall x y, bv_op k x (mk y) = Some (f x y)) ->
    (forall x y, bv_size x = w -> f x y = bv_make w (g (bv_val x) (bv_val y))) ->
    (forall x y i, Z.testbit (g x y) i = gb (Z.testbit x i) (Z.testbit y i)) ->
    exists c, evaluate k (map mk (a :: bs)) = Ok (Some (mk c)) /\ bv_size c = w /\
      forall i, 0 <= i < w ->
      Z.testbit (bv_val c) i =
      fold_left gb (map (fun b => Z.testbit (bv_val b) i) bs) (Z.testbit (bv_val a) i).
  Proof.
    intros k f g gb Hk Hf Hg Hb.
    exists (fold_left f bs a).
    assert (F : forall x y, bv_wf x -> bv_wf y -> bv_size x = w -> bv_size y = w ->
      bv_wf (f x y) /\ bv_size (f x y) = w /\
      forall i, 0 <= i < w ->
        Z.testbit (bv_val (f x y)) i = gb (Z.testbit (bv_val x) i) (Z.testbit (bv_val y) i)).
    { intros x y _ _ Sx _. rewrite Hg by exact Sx. split; [apply bv_make_wf|].
      split; [apply bv_make_size; exact Hw|]. intros i Hi.
      rewrite bv_make_bit by (exact Hw || exact Hi). apply Hb. }
    destruct (fold_bits f gb w bs a Hw F Wb Sb Wa Sa) as (R1 & R2).
    split; [|split; [exact R1|exact R2]].
    apply (eval_bv_nary k f mk w); auto.
    cbn [In] in *. intuition.
  Qed.
End C04.

Definition sum_from (x : Z) (l : list Z) : Z := fold_left Z.add l x.
Definition prod_from (x : Z) (l : list Z) : Z := fold_left Z.mul l x.

Lemma pow2_pos : forall w, 0 <= w -> 0 < 2 ^ w.
Proof. intros; apply Z.pow_pos_nonneg; lia. Qed.

Lemma bv_operators_meaning : forall mk w a bs, bv_cat mk ->
  bv_wf a -> Forall bv_wf bs -> bv_size a = w -> Forall (fun b => bv_size b = w) bs ->
  (exists c, evaluate K_EVAL_ADD (map mk (a :: bs)) = Ok (Some (mk c)) /\ bv_size c = w /\
     bv_val c = fold_left Z.add (map bv_val bs) (bv_val a) mod 2 ^ w) /\
  (exists c, evaluate K_EVAL_MUL (map mk (a :: bs)) = Ok (Some (mk c)) /\ bv_size c = w /\
     bv_val c = fold_left Z.mul (map bv_val bs) (bv_val a) mod 2 ^ w) /\
  (exists c, evaluate K_EVAL_AND (map mk (a :: bs)) = Ok (Some (mk c)) /\ bv_size c = w /\
     forall i, 0 <= i < w -> Z.testbit (bv_val c) i =
       fold_left andb (map (fun b => Z.testbit (bv_val b) i) bs) (Z.testbit (bv_val a) i)) /\
  (exists c, evaluate K_EVAL_OR (map mk (a :: bs)) = Ok (Some (mk c)) /\ bv_size c = w /\
     forall i, 0 <= i < w -> Z.testbit (bv_val c) i =
       fold_left orb (map (fun b => Z.testbit (bv_val b) i) bs) (Z.testbit (bv_val a) i)) /\
  (exists c, evaluate K_EVAL_XOR (map mk (a :: bs)) = Ok (Some (mk c)) /\ bv_size c = w /\
     forall i, 0 <= i < w -> Z.testbit (bv_val c) i =
       fold_left xorb (map (fun b => Z.testbit (bv_val b) i) bs) (Z.testbit (bv_val a) i)).
Proof.
  intros mk w a bs Hmk Wa Wb Sa Sb.
  assert (Hw : 0 <= w < 2 ^ 32) by (destruct Wa as [H _]; rewrite Sa in H; exact H).
  pose proof (pow2_pos w (proj1 Hw)) as P.
  split; [|split; [|split; [|split]]].
  - apply (eval_bv_modular mk w a bs Hmk Wa Wb Sa Sb K_EVAL_ADD bv_add Z.add).
    + cbn [In]; auto 10.
    + destruct Hmk as [->| ->]; reflexivity.
    + intros x y <-; reflexivity.
    + intros x y. rewrite Z.add_mod_idemp_l by lia. reflexivity.
  - apply (eval_bv_modular mk w a bs Hmk Wa Wb Sa Sb K_EVAL_MUL bv_mul Z.mul).
    + cbn [In]; auto 10.
    + destruct Hmk as [->| ->]; reflexivity.
    + intros x y <-; reflexivity.
    + intros x y. rewrite Z.mul_mod_idemp_l by lia. reflexivity.
  - apply (eval_bv_bitwise mk w a bs Hmk Wa Wb Sa Sb K_EVAL_AND bv_and Z.land andb).
    + cbn [In]; auto 10.
    + destruct Hmk as [->| ->]; reflexivity.
    + intros x y <-; reflexivity.
    + intros; apply Z.land_spec.
  - apply (eval_bv_bitwise mk w a bs Hmk Wa Wb Sa Sb K_EVAL_OR bv_or Z.lor orb).
    + cbn [In]; auto 10.
    + destruct Hmk as [->| ->]; reflexivity.
    + intros x y <-; reflexivity.
    + intros; apply Z.lor_spec.
  - apply (eval_bv_bitwise mk w a bs Hmk Wa Wb Sa Sb K_EVAL_XOR bv_xor Z.lxor xorb).
    + cbn [In]; auto 10.
    + destruct Hmk as [->| ->]; reflexivity.
    + intros x y <-; reflexivity.
    + intros; apply Z.lxor_spec.
Qed.

Lemma bv_unary_meaning : forall mk a, bv_cat mk -> bv_wf a ->
  (exists c, evaluate K_EVAL_NEG [mk a] = Ok (Some (mk c)) /\ bv_size c = bv_size a /\
     bv_val c = (- bv_val a) mod 2 ^ bv_size a) /\
  (exists c, evaluate K_EVAL_NOT [mk a] = Ok (Some (mk c)) /\ bv_size c = bv_size a /\
     forall i, 0 <= i < bv_size a -> Z.testbit (bv_val c) i = negb (Z.testbit (bv_val a) i)).
Proof.
  intros mk a Hmk Wa; split.
  - exists (bv_neg a). destruct (bv_neg_spec a Wa) as [H1 H2].
    split; [|split; assumption]. destruct Hmk as [->| ->]; reflexivity.
  - exists (bv_not a). destruct (bv_not_spec a Wa) as [H1 H2].
    split; [|split; assumption]. destruct Hmk as [->| ->]; reflexivity.
Qed.

Lemma bv_divmod_meaning : forall mk a b, bv_cat mk -> bv_wf a -> bv_wf b ->
  bv_size a = bv_size b ->
  (exists c, evaluate K_EVAL_INT_DIV [mk a; mk b] = Ok (Some (mk c)) /\
     bv_size c = bv_size a /\
     bv_val c = (if bv_val b =? 0 then 2 ^ bv_size a - 1 else bv_val a / bv_val b)) /\
  (exists c, evaluate K_EVAL_INT_MOD [mk a; mk b] = Ok (Some (mk c)) /\
     bv_size c = bv_size a /\
     bv_val c = (if bv_val b =? 0 then bv_val a else bv_val a mod bv_val b)).
Proof.
  intros mk a b Hmk Wa Wb E.
  assert (W : forall m, bv_cat m -> allSameBitWidth [m a; m b] = true).
  { intros m Hm. apply (allSameBitWidth_map m (bv_size a) a [b] Hm); auto. }
  split.
  - exists (bv_udiv a b). split; [|apply bv_udiv_spec; assumption].
    rewrite evaluate_binary; [|discriminate|discriminate|apply bv_cat_kind; exact Hmk].
    destruct Hmk as [->| ->]; cbn [evaluate_switch eval_divmod vec_at nth_error bind];
      rewrite W; try reflexivity; [left|right]; reflexivity.
  - exists (bv_urem a b). split; [|apply bv_urem_spec; assumption].
    rewrite evaluate_binary; [|discriminate|discriminate|apply bv_cat_kind; exact Hmk].
    destruct Hmk as [->| ->]; cbn [evaluate_switch eval_divmod vec_at nth_error bind];
      rewrite W; try reflexivity; [left|right]; reflexivity.
Qed.

Lemma bv_widths_differ : forall mk a bs k, bv_cat mk ->
  In k [K_EVAL_AND; K_EVAL_OR; K_EVAL_XOR; K_EVAL_ADD; K_EVAL_MUL; K_EVAL_INT_DIV; K_EVAL_INT_MOD] ->
  Exists (fun b => bv_size b <> bv_size a) bs ->
  evaluate k (map mk (a :: bs)) = Ok None.
Proof.
  intros mk a bs k Hmk Hk H.
  assert (W : allSameBitWidth (map mk (a :: bs)) = false).
  { cbn [map allSameBitWidth]. apply not_true_is_false. intros F.
    rewrite forallb_forall in F. apply Exists_exists in H. destruct H as [b [Hb N]].
    specialize (F (mk b) (in_map mk bs b Hb)).
    destruct Hmk as [->| ->]; cbn [lit_bv] in F; apply Z.eqb_eq in F; lia. }
  cbn [map] in *.
  rewrite evaluate_same.
  2,3: (cbn [In] in Hk; intuition (subst; discriminate)).
  2: exact (allSameKind_map _ mk a bs (bv_cat_kind mk Hmk)).
  destruct Hmk as [->| ->]; cbn [In] in Hk;
    repeat (destruct Hk as [<-|Hk]; [
      cbn [evaluate_switch eval_nary eval_divmod vec_at nth_error bind kind_eqb]; rewrite W;
      reflexivity|]);
    contradiction.
Qed.

Lemma mixed_never_evaluates : forall k a l, ~ mixed_ok k ->
  Exists (fun b => lit_kind b <> lit_kind a) l ->
  evaluate k (a :: l) = Ok None.
Proof.
  intros k a l Hk H. unfold evaluate.
  assert (kind_eqb k K_EVAL_EXTRACT = false)
    by (apply kind_eqb_neq; intros ->; apply Hk; left; reflexivity).
  assert (kind_eqb k K_EVAL_TO_BIN = false)
    by (apply kind_eqb_neq; intros ->; apply Hk; right; reflexivity).
  rewrite H0, H1. cbn [negb andb allSameKind].
  replace (forallb _ _) with false; [reflexivity|].
  symmetry. apply not_true_is_false. intros F. rewrite forallb_forall in F.
  apply Exists_exists in H. destruct H as [b [Hb N]]. apply F in Hb.
  apply kind_eqb_eq in Hb. congruence.
Qed.

(* ------------------------------------------------------------------ *)
(** * C05 *)

Lemma eval_bv_concat : forall mk a b, bv_cat mk ->
  evaluate K_EVAL_CONCAT [mk a; mk b] = Ok (Some (mk (bv_concat a b))).
Proof. intros mk a b [->| ->]; reflexivity. Qed.

Lemma eval_bv_extract : forall mk a i j, bv_cat mk ->
  evaluate K_EVAL_EXTRACT [mk a; LNum i; LNum j] = Ok (Some (mk (extract_bv a i j))).
Proof. intros mk a i j [->| ->]; reflexivity. Qed.

Lemma concat_meaning : forall mk a b, bv_cat mk -> bv_wf a -> bv_wf b ->
  bv_size a + bv_size b < 2 ^ 32 ->
  exists c, evaluate K_EVAL_CONCAT [mk a; mk b] = Ok (Some (mk c)) /\
    bv_size c = bv_size a + bv_size b /\
    forall k, 0 <= k < bv_size c ->
      Z.testbit (bv_val c) k =
      (if k <? bv_size b then Z.testbit (bv_val b) k
       else Z.testbit (bv_val a) (k - bv_size b)).
Proof.
  intros mk a b Hmk Wa Wb H. exists (bv_concat a b).
  split; [apply eval_bv_concat; exact Hmk|].
  split; [apply bv_concat_spec; assumption|].
  intros k Hk. apply bv_concat_bits; auto; lia.
Qed.

Lemma extract_bv_in : forall a i j, bv_wf a -> 0 <= i <= j -> j < bv_size a ->
  extract_bv a i j = bv_extract a j i.
Proof.
  intros a i j [Hs Hv] Hi Hj; unfold extract_bv, int_of_uint.
  rewrite (u32_id (bv_size a)) by lia.
  rewrite !sgn_ltb, sgn_eqb_0.
  replace (i <? 0) with false by (symmetry; apply Z.ltb_ge; lia).
  replace (j <? 0) with false by (symmetry; apply Z.ltb_ge; lia).
  replace (i >? bv_size a) with false by (symmetry; rewrite Z.gtb_ltb; apply Z.ltb_ge; lia).
  replace (bv_size a =? 0) with false by (symmetry; apply Z.eqb_neq; lia).
  cbn [orb].
  replace (j >? bv_size a) with false by (symmetry; rewrite Z.gtb_ltb; apply Z.ltb_ge; lia).
  rewrite !toUnsignedInt_id by lia.
  replace (i >? j) with false by (symmetry; rewrite Z.gtb_ltb; apply Z.ltb_ge; lia).
  reflexivity.
Qed.

Lemma extract_meaning : forall mk a i j, bv_cat mk -> bv_wf a ->
  0 <= i <= j -> j < bv_size a ->
  exists c, evaluate K_EVAL_EXTRACT [mk a; LNum i; LNum j] = Ok (Some (mk c)) /\
    bv_wf c /\ bv_size c = j - i + 1 /\
    forall k, 0 <= k < bv_size c -> Z.testbit (bv_val c) k = Z.testbit (bv_val a) (i + k).
Proof.
  intros mk a i j Hmk Wa Hi Hj. exists (bv_extract a j i).
  rewrite eval_bv_extract by exact Hmk. rewrite extract_bv_in by assumption.
  destruct (bv_extract_spec a j i Wa) as (W & S & B); [lia| |].
  { destruct Wa; lia. }
  split; [reflexivity|]. split; [exact W|]. split; [exact S|].
  intros k Hk. apply B. lia.
Qed.

(** beyond the top: the slice through the top bit *)
Lemma extract_above : forall mk a i j, bv_cat mk -> bv_wf a ->
  0 <= i < bv_size a -> bv_size a < j ->
  evaluate K_EVAL_EXTRACT [mk a; LNum i; LNum j] =
  evaluate K_EVAL_EXTRACT [mk a; LNum i; LNum (bv_size a - 1)].
Proof.
  intros mk a i j Hmk Wa Hi Hj.
  rewrite !eval_bv_extract by exact Hmk. do 3 f_equal.
  rewrite (extract_bv_in a i (bv_size a - 1)) by (auto; lia).
  destruct Wa as [Hs Hv]. unfold extract_bv, int_of_uint.
  rewrite (u32_id (bv_size a)) by lia.
  rewrite !sgn_ltb, sgn_eqb_0.
  replace (i <? 0) with false by (symmetry; apply Z.ltb_ge; lia).
  replace (j <? 0) with false by (symmetry; apply Z.ltb_ge; lia).
  replace (i >? bv_size a) with false by (symmetry; rewrite Z.gtb_ltb; apply Z.ltb_ge; lia).
  replace (bv_size a =? 0) with false by (symmetry; apply Z.eqb_neq; lia).
  cbn [orb].
  replace (j >? bv_size a) with true by (symmetry; rewrite Z.gtb_ltb; apply Z.ltb_lt; lia).
  rewrite !toUnsignedInt_id by lia. rewrite u32_id by lia.
  replace (i >? bv_size a - 1) with false by (symmetry; rewrite Z.gtb_ltb; apply Z.ltb_ge; lia).
  reflexivity.
Qed.

Lemma extract_empty : forall mk a i j, bv_cat mk -> bv_wf a ->
  i < 0 \/ j < 0 \/ bv_size a < i \/ (j < i /\ j <> bv_size a) \/ bv_size a = 0 \/
  (i = bv_size a /\ j <> bv_size a) ->
  evaluate K_EVAL_EXTRACT [mk a; LNum i; LNum j] = Ok (Some (mk (mkBV 0 0))).
Proof.
  intros mk a i j Hmk [Hs Hv] H.
  rewrite eval_bv_extract by exact Hmk. do 3 f_equal.
  unfold extract_bv, int_of_uint. rewrite (u32_id (bv_size a)) by lia.
  rewrite !sgn_ltb, sgn_eqb_0.
  destruct (i <? 0) eqn:E1; [reflexivity|].
  destruct (j <? 0) eqn:E2; [reflexivity|].
  destruct (i >? bv_size a) eqn:E3; [reflexivity|].
  destruct (bv_size a =? 0) eqn:E4; [reflexivity|]. cbn [orb].
  apply Z.ltb_ge in E1. apply Z.ltb_ge in E2. rewrite Z.gtb_ltb in E3. apply Z.ltb_ge in E3.
  apply Z.eqb_neq in E4.
  rewrite (toUnsignedInt_id i) by lia. rewrite (toUnsignedInt_id (bv_size a)) by lia.
  destruct (j >? bv_size a) eqn:E5; rewrite Z.gtb_ltb in E5.
  - apply Z.ltb_lt in E5. rewrite u32_id by lia.
    replace (i >? bv_size a - 1) with true; [reflexivity|].
    symmetry. rewrite Z.gtb_ltb. apply Z.ltb_lt. lia.
  - apply Z.ltb_ge in E5. rewrite (toUnsignedInt_id j) by lia.
    replace (i >? j) with true; [reflexivity|].
    symmetry. rewrite Z.gtb_ltb. apply Z.ltb_lt. lia.
Qed.

Lemma bv_extract_wf_bits : forall a j i, bv_wf (bv_extract a j i).
Proof. intros; apply bv_make_wf. Qed.

Lemma split_concat : forall mk a b, bv_cat mk -> bv_wf a -> bv_wf b ->
  bv_size a + bv_size b < 2 ^ 32 -> 0 < bv_size a -> 0 < bv_size b ->
  exists c, evaluate K_EVAL_CONCAT [mk a; mk b] = Ok (Some (mk c)) /\
    evaluate K_EVAL_EXTRACT [mk c; LNum 0; LNum (bv_size b - 1)] = Ok (Some (mk b)) /\
    evaluate K_EVAL_EXTRACT [mk c; LNum (bv_size b); LNum (bv_size a + bv_size b - 1)]
      = Ok (Some (mk a)).
Proof.
  intros mk a b Hmk Wa Wb H Pa Pb.
  exists (bv_concat a b).
  split; [apply eval_bv_concat; exact Hmk|].
  assert (Wc : bv_wf (bv_concat a b)) by apply bv_make_wf.
  assert (Sc : bv_size (bv_concat a b) = bv_size a + bv_size b)
    by (apply bv_concat_spec; auto; lia).
  assert (Hsa : 0 <= bv_size a < 2 ^ 32) by (destruct Wa; assumption).
  assert (Hsb : 0 <= bv_size b < 2 ^ 32) by (destruct Wb; assumption).
  split.
  - rewrite eval_bv_extract by exact Hmk. rewrite extract_bv_in by (auto; lia).
    do 3 f_equal.
    destruct (bv_extract_spec (bv_concat a b) (bv_size b - 1) 0 Wc) as (W & S & B);
      [lia|lia|].
    apply bv_bits_ext; auto; [lia|]. intros k Hk. rewrite B by lia.
    rewrite bv_concat_bits by (auto; lia).
    replace (0 + k <? bv_size b) with true by (symmetry; apply Z.ltb_lt; lia). f_equal; lia.
  - rewrite eval_bv_extract by exact Hmk. rewrite extract_bv_in by (auto; lia).
    do 3 f_equal.
    destruct (bv_extract_spec (bv_concat a b) (bv_size a + bv_size b - 1) (bv_size b) Wc)
      as (W & S & B); [lia|lia|].
    apply bv_bits_ext; auto; [lia|]. intros k Hk. rewrite B by lia.
    rewrite bv_concat_bits by (auto; lia).
    replace (bv_size b + k <? bv_size b) with false by (symmetry; apply Z.ltb_ge; lia).
    f_equal; lia.
Qed.

Lemma concat_split : forall mk c m, bv_cat mk -> bv_wf c ->
  0 < m < bv_size c ->
  exists hi lo,
    evaluate K_EVAL_EXTRACT [mk c; LNum m; LNum (bv_size c - 1)] = Ok (Some (mk hi)) /\
    evaluate K_EVAL_EXTRACT [mk c; LNum 0; LNum (m - 1)] = Ok (Some (mk lo)) /\
    evaluate K_EVAL_CONCAT [mk hi; mk lo] = Ok (Some (mk c)).
Proof.
  intros mk c m Hmk Wc Hm.
  assert (Hc : 0 <= bv_size c < 2 ^ 32) by (destruct Wc; assumption).
  exists (bv_extract c (bv_size c - 1) m), (bv_extract c (m - 1) 0).
  rewrite !eval_bv_extract, eval_bv_concat by exact Hmk.
  rewrite !extract_bv_in by (auto; lia).
  split; [reflexivity|]. split; [reflexivity|]. do 3 f_equal.
  destruct (bv_extract_spec c (bv_size c - 1) m Wc) as (W1 & S1 & B1); [lia|lia|].
  destruct (bv_extract_spec c (m - 1) 0 Wc) as (W2 & S2 & B2); [lia|lia|].
  destruct (bv_concat_spec _ _ W1 W2) as [S3 _]; [lia|].
  apply bv_bits_ext; auto; [apply bv_make_wf|lia|].
  intros k Hk. rewrite bv_concat_bits by (auto; lia).
  rewrite S2. destruct (k <? m - 1 - 0 + 1) eqn:E.
  - apply Z.ltb_lt in E. rewrite B2 by lia. f_equal; lia.
  - apply Z.ltb_ge in E. rewrite B1 by lia. f_equal; lia.
Qed.
