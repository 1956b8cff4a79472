(** Proofs about the macros of tests/eo-definitions.eo that test and compare
    values. *)
From Coq Require Import String ZArith QArith List Bool Lia.
From Verif Require Import Base Kind Ints IntsProofs Str SpecLit Literal Arity Term SpecTerm SpecEval SpecList TermProofs Match MatchProofs Eval EvalProofs ListOps Typing SpecDerived DerivedProofs.
Import ListNotations. Open Scope Z_scope.

Section Tests.
Variable E : env.
Variable n : nat.
Variable progs : term -> option (list pcase).
Variable L : library.
Hypothesis D : derived L progs.
Local Notation lop := (tc_lop (tc E (S n))).
Local Notation EV := (ev lop progs shortcut).
Local Notation EVS := (evs lop progs shortcut).

Lemma ev_op1 : forall s k a v r, isLiteralOp k = true -> k <> K_EVAL_IF_THEN_ELSE -> EV s a v ->
  lop k [v] = Ok (Some r) -> EV s (Node k [a]) r.
Proof.
  intros s k a v r H1 H2 Ha H. eapply ev_op; [exact H1|exact H2|discriminate| |exact H].
  eapply evs_cons; [exact Ha|apply evs_nil].
Qed.
Lemma ev_op1_stuck : forall s k a v, isLiteralOp k = true -> k <> K_EVAL_IF_THEN_ELSE -> EV s a v ->
  lop k [v] = Ok None -> EV s (Node k [a]) (Node k [v]).
Proof.
  intros s k a v H1 H2 Ha H. eapply ev_op_stuck; [exact H1|exact H2|discriminate| |exact H].
  eapply evs_cons; [exact Ha|apply evs_nil].
Qed.
Lemma ev_op2 : forall s k a b v w r, isLiteralOp k = true -> k <> K_EVAL_IF_THEN_ELSE -> EV s a v -> EV s b w ->
  lop k [v; w] = Ok (Some r) -> EV s (Node k [a; b]) r.
Proof.
  intros s k a b v w r H1 H2 Ha Hb H. eapply ev_op; [exact H1|exact H2|discriminate| |exact H].
  eapply evs_cons; [exact Ha|eapply evs_cons; [exact Hb|apply evs_nil]].
Qed.
Lemma ev_op2_stuck : forall s k a b v w, isLiteralOp k = true -> k <> K_EVAL_IF_THEN_ELSE -> EV s a v -> EV s b w ->
  lop k [v; w] = Ok None -> EV s (Node k [a; b]) (Node k [v; w]).
Proof.
  intros s k a b v w H1 H2 Ha Hb H. eapply ev_op_stuck; [exact H1|exact H2|discriminate| |exact H].
  eapply evs_cons; [exact Ha|eapply evs_cons; [exact Hb|apply evs_nil]].
Qed.

Lemma op_ok : forall v, isGround v = true -> lop K_EVAL_IS_OK [v] = Ok (Some (boolean (negb (isEvaluatable v)))).
Proof. intros v H. cbn. rewrite H. reflexivity. Qed.
Lemma op_and : forall a b, lop K_EVAL_AND [boolean a; boolean b] = Ok (Some (boolean (a && b))).
Proof. intros a b. reflexivity. Qed.

Definition inertb (v : term) : bool := negb (isEvaluatable v).
Lemma run_is_eq : forall s a b v w, EV s a v -> EV s b w -> twf v -> twf w -> closed v -> closed w ->
  EV s (d_is_eq L a b) (boolean (inertb v && inertb w && term_eqb w v)).
Proof.
  intros s a b v w Ha Hb Wv Ww Cv Cw.
  assert (C : EV s (Node K_EVAL_AND [Node K_EVAL_IS_OK [a]; Node K_EVAL_IS_OK [b]]) (boolean (inertb v && inertb w))).
  { eapply ev_op2; [reflexivity|discriminate| | |apply op_and].
    - eapply ev_op1; [reflexivity|discriminate|exact Ha|apply op_ok; apply ground_closed; assumption].
    - eapply ev_op1; [reflexivity|discriminate|exact Hb|apply op_ok; apply ground_closed; assumption]. }
  destruct (inertb v && inertb w) eqn:I.
  - apply andb_prop in I. destruct I as [I J]. apply negb_true_iff in I. apply negb_true_iff in J.
    apply eval_inert in I; [|exact Wv]. apply eval_inert in J; [|exact Ww].
    apply ev_ite_true; [exact C|]. apply (run_eq E n progs L D); try assumption; (split; [assumption|split; assumption]).
  - apply ev_ite_false; [exact C|]. apply ev_lit.
Qed.

(** [k] applied to a literal, and to anything else. *)
Definition unary (k : kind) (f : literal -> option literal) : Prop :=
  (forall l, lop k [Lit l] = Ok (option_map Lit (f l))) /\
  (forall v, (forall l, v <> Lit l) -> lop k [v] = Ok None).
Lemma unary_int : unary K_EVAL_TO_INT eval_toint.
Proof.
  split; [intro l; destruct l; try reflexivity; destruct s as [|c [|]]; reflexivity|].
  intros v H. destruct v as [k i|l|k cs]; [|exfalso; exact (H l eq_refl)|];
    cbn; match goal with |- context [negb ?b] => destruct b; reflexivity end.
Qed.
Lemma unary_rat : unary K_EVAL_TO_RAT eval_torat.
Proof.
  split; [intro l; destruct l; reflexivity|].
  intros v H. destruct v as [k i|l|k cs]; [|exfalso; exact (H l eq_refl)|];
    cbn; match goal with |- context [negb ?b] => destruct b; reflexivity end.
Qed.
Lemma unary_str : unary K_EVAL_TO_STRING eval_tostr.
Proof.
  split; [intro l; destruct l; try reflexivity|].
  intros v H. destruct v as [k i|l|k cs]; [|exfalso; exact (H l eq_refl)|];
    cbn; match goal with |- context [negb ?b] => destruct b; reflexivity end.
Qed.
Lemma unary_len : unary K_EVAL_LENGTH eval_length.
Proof.
  split; [intro l; destruct l; reflexivity|].
  intros v H. destruct v as [k i|l|k cs]; [|exfalso; exact (H l eq_refl)|];
    cbn; match goal with |- context [negb ?b] => destruct b; reflexivity end.
Qed.

Lemma stuck_ok : forall k v, isLiteralOp k = true -> isSymbol k = false -> isLiteral k = false -> k <> K_ANY -> twf v -> closed v ->
  twf (Node k [v]) /\ closed (Node k [v]) /\ inertb (Node k [v]) = false.
Proof.
  intros k v H1 H2 H3 H4 W C.
  assert (Tw : twf (Node k [v])) by (constructor; [assumption|assumption|constructor; [exact W|constructor]]).
  split; [exact Tw|split].
  - intros u Hu. inversion Hu as [|k' cs c Hc Ho]; subst.
    + split; [intros [i X]; discriminate|intro X; discriminate X].
    + destruct Hc as [<-|[]]. apply C. exact Ho.
  - destruct (inertb (Node k [v])) eqn:I; [|reflexivity]. unfold inertb in I. apply negb_true_iff in I.
    apply eval_inert in I; [|exact Tw]. exfalso. apply (I (Node k [v])); [constructor|].
    right. right. exists k, [v]. repeat split; [discriminate|exact H1].
Qed.
Lemma lit_ok : forall l, twf (Lit l) /\ closed (Lit l) /\ inertb (Lit l) = true.
Proof. intro l. split; [apply twf_lit|split; [apply val_lit|destruct l; reflexivity]]. Qed.

(** x equals its conversion. *)
Lemma run_conv : forall s k f a v, unary k f -> isLiteralOp k = true -> k <> K_EVAL_IF_THEN_ELSE ->
  isSymbol k = false -> isLiteral k = false -> k <> K_ANY -> EV s a v -> twf v -> closed v ->
  EV s (d_is_eq L (Node k [a]) a)
    (boolean (match v with Lit l => match f l with Some r => term_eqb (Lit l) (Lit r) | None => false end | _ => false end)).
Proof.
  intros s k f a v [U1 U2] K1 K2 K3 K4 K5 Ha W C.
  assert (St : lop k [v] = Ok None -> EV s (d_is_eq L (Node k [a]) a) (boolean false)).
  { intro H. destruct (stuck_ok k v K1 K3 K4 K5 W C) as (W1 & C1 & I1).
    pose proof (run_is_eq s (Node k [a]) a (Node k [v]) v (ev_op1_stuck _ _ _ _ K1 K2 Ha H) Ha W1 W C1 C) as R.
    rewrite I1 in R. exact R. }
  destruct v as [k' i|l|k' cs].
  - apply St. apply U2. intros l X. discriminate.
  - pose proof (U1 l) as U. destruct (f l) as [r|]; cbn [option_map] in U; [|exact (St U)].
    destruct (lit_ok r) as (W1 & C1 & I1). destruct (lit_ok l) as (W2 & C2 & I2).
    pose proof (run_is_eq s (Node k [a]) a (Lit r) (Lit l) (ev_op1 _ _ _ _ _ K1 K2 Ha U) Ha W1 W C1 C) as R.
    rewrite I1, I2 in R. exact R.
  - apply St. apply U2. intros l X. discriminate.
Qed.

Lemma lit_same : forall l, term_eqb (Lit l) (Lit l) = true.
Proof. intro l. apply term_eqb_eq. reflexivity. Qed.
Lemma lit_other : forall l r, l <> r -> term_eqb (Lit l) (Lit r) = false.
Proof.
  intros l r H. destruct (term_eqb (Lit l) (Lit r)) eqn:Q; [|reflexivity]. exfalso.
  apply term_eqb_eq in Q. injection Q as Q. exact (H Q).
Qed.
Ltac other := apply lit_other; discriminate.

Lemma run_is_z : forall s a v, EV s a v -> twf v -> closed v ->
  EV s (d_is_z L a) (boolean (kind_eqb (tkind v) K_NUMERAL)).
Proof.
  intros s a v Ha W C.
  pose proof (run_conv s _ _ a v unary_int eq_refl ltac:(discriminate) eq_refl eq_refl ltac:(discriminate) Ha W C) as R.
  unfold d_is_z. match type of R with ev _ _ _ _ _ (boolean ?b) => replace (kind_eqb (tkind v) K_NUMERAL) with b; [exact R|] end.
  destruct v as [k i|l|k cs].
  - inversion W; subst. destruct k; try discriminate; reflexivity.
  - destruct l; cbn [eval_toint tkind lit_kind]; try reflexivity; try (other); [apply lit_same|].
    destruct s0 as [|c [|]]; try reflexivity; try other.
  - inversion W; subst. destruct k; try discriminate; reflexivity.
Qed.
Lemma run_is_q : forall s a v, EV s a v -> twf v -> closed v ->
  EV s (d_is_q L a) (boolean (kind_eqb (tkind v) K_RATIONAL)).
Proof.
  intros s a v Ha W C.
  pose proof (run_conv s _ _ a v unary_rat eq_refl ltac:(discriminate) eq_refl eq_refl ltac:(discriminate) Ha W C) as R.
  unfold d_is_q. match type of R with ev _ _ _ _ _ (boolean ?b) => replace (kind_eqb (tkind v) K_RATIONAL) with b; [exact R|] end.
  destruct v as [k i|l|k cs].
  - inversion W; subst. destruct k; try discriminate; reflexivity.
  - destruct l; cbn [eval_torat tkind lit_kind]; try reflexivity; try (other); apply lit_same.
  - inversion W; subst. destruct k; try discriminate; reflexivity.
Qed.
Lemma run_is_str : forall s a v, EV s a v -> twf v -> closed v ->
  EV s (d_is_str L a) (boolean (kind_eqb (tkind v) K_STRING)).
Proof.
  intros s a v Ha W C.
  pose proof (run_conv s _ _ a v unary_str eq_refl ltac:(discriminate) eq_refl eq_refl ltac:(discriminate) Ha W C) as R.
  unfold d_is_str. match type of R with ev _ _ _ _ _ (boolean ?b) => replace (kind_eqb (tkind v) K_STRING) with b; [exact R|] end.
  destruct v as [k i|l|k cs].
  - inversion W; subst. destruct k; try discriminate; reflexivity.
  - destruct l; cbn [eval_tostr tkind lit_kind]; try reflexivity; try (other); [|apply lit_same].
    match goal with |- context [if ?b then _ else _] => destruct b end; other.
  - inversion W; subst. destruct k; try discriminate; reflexivity.
Qed.
Lemma run_is_bool : forall s a v, EV s a v -> twf v -> closed v ->
  EV s (d_is_bool L a) (boolean (kind_eqb (tkind v) K_BOOLEAN)).
Proof.
  intros s a v Ha W C. unfold d_is_bool.
  assert (R : forall b, EV s (d_is_eq L a (boolean b)) (boolean (term_eqb (boolean b) v))).
  { intro b. destruct (lit_ok (LBool b)) as (W1 & C1 & I1).
    pose proof (run_is_eq s a (boolean b) v (boolean b) Ha (ev_lit _ _ _ _ _) W W1 C C1) as R.
    replace (term_eqb (boolean b) v) with (inertb v && inertb (boolean b) && term_eqb (boolean b) v); [exact R|].
    unfold boolean at 1. rewrite I1. destruct (term_eqb (boolean b) v) eqn:Q; [|apply andb_false_r].
    apply term_eqb_eq in Q. subst v. reflexivity. }
  destruct (term_eqb (boolean true) v) eqn:Q.
  - pose proof Q as Q2. apply term_eqb_eq in Q2. subst v. apply ev_ite_true; [|apply ev_lit].
    pose proof (R true) as R1. rewrite Q in R1. exact R1.
  - pose proof (R true) as R1. rewrite Q in R1. apply ev_ite_false; [exact R1|].
    pose proof (R false) as R2. replace (kind_eqb (tkind v) K_BOOLEAN) with (term_eqb (boolean false) v); [exact R2|].
    destruct v as [k i|l|k cs].
    + inversion W; subst. destruct k; try discriminate; reflexivity.
    + destruct l; try reflexivity. destruct b; [|reflexivity]. exfalso. unfold boolean in Q. rewrite lit_same in Q. discriminate.
    + inversion W; subst. destruct k; try discriminate; reflexivity.
Qed.

(** A bit-vector literal as the parser makes it. *)
Lemma run_is_bin : forall s a v, EV s a v -> twf v -> closed v ->
  (forall b, v = Lit (LBin b) -> bv_wf b) ->
  EV s (d_is_bin L a) (boolean (kind_eqb (tkind v) K_BINARY)).
Proof.
  intros s a v Ha W C B. unfold d_is_bin.
  assert (St : forall w, EV s (Node K_EVAL_LENGTH [a]) w -> twf w -> closed w -> lop K_EVAL_TO_BIN [w; v] = Ok None ->
     EV s (d_is_eq L (Node K_EVAL_TO_BIN [Node K_EVAL_LENGTH [a]; a]) a) (boolean false)).
  { intros w Hw Ww Cw H.
    assert (X : twf (Node K_EVAL_TO_BIN [w; v])) by (constructor; [reflexivity|reflexivity|repeat constructor; assumption]).
    assert (Y : closed (Node K_EVAL_TO_BIN [w; v])).
    { intros u Hu. inversion Hu as [|k' cs c Hc Ho]; subst.
      - split; [intros [i Z]; discriminate|intro Z; discriminate Z].
      - destruct Hc as [<-|[<-|[]]]; [apply Cw|apply C]; exact Ho. }
    assert (I1 : inertb (Node K_EVAL_TO_BIN [w; v]) = false).
    { destruct (inertb _) eqn:I; [|reflexivity]. unfold inertb in I. apply negb_true_iff in I.
      apply eval_inert in I; [|exact X]. exfalso. apply (I (Node K_EVAL_TO_BIN [w; v])); [constructor|].
      right. right. exists K_EVAL_TO_BIN, [w; v]. repeat split. discriminate. }
    pose proof (run_is_eq s (Node K_EVAL_TO_BIN [Node K_EVAL_LENGTH [a]; a]) a _ v (ev_op2_stuck _ K_EVAL_TO_BIN _ _ _ _ eq_refl ltac:(discriminate) Hw Ha H) Ha X W Y C) as R.
    rewrite I1 in R. exact R. }
  assert (S2 : lop K_EVAL_LENGTH [v] = Ok None ->
     EV s (d_is_eq L (Node K_EVAL_TO_BIN [Node K_EVAL_LENGTH [a]; a]) a) (boolean false)).
  { intro H. destruct (stuck_ok K_EVAL_LENGTH v eq_refl eq_refl eq_refl ltac:(discriminate) W C) as (W1 & C1 & I1).
    apply (St (Node K_EVAL_LENGTH [v])); [apply ev_op1_stuck; [reflexivity|discriminate|exact Ha|exact H]|exact W1|exact C1|].
    cbn. destruct v; cbn; match goal with |- context [negb ?b] => destruct b; reflexivity end. }
  destruct v as [k i|l|k cs].
  - replace (kind_eqb (tkind (Sym k i)) K_BINARY) with false by (inversion W; subst; destruct k; try discriminate; reflexivity).
    apply S2. apply (proj2 unary_len). intros l X. discriminate.
  - destruct l; try (apply S2; reflexivity).
    + pose proof (B b eq_refl) as Bw.
      assert (U : u32 (bv_size b) = bv_size b) by (destruct Bw as [Bw _]; unfold u32; apply Z.mod_small; exact Bw).
      assert (Hl : EV s (Node K_EVAL_LENGTH [a]) (num (bv_size b))).
      { eapply ev_op1; [reflexivity|discriminate|exact Ha|]. rewrite (proj1 unary_len). cbn [eval_length option_map].
        unfold int_of_uint. rewrite U. reflexivity. }
      assert (Ht : lop K_EVAL_TO_BIN [num (bv_size b); Lit (LBin b)] = Ok (Some (Lit (LBin b)))).
      { assert (F1 : fitsUnsignedInt (bv_size b) = true) by (destruct Bw as [Bw _]; unfold fitsUnsignedInt; apply andb_true_intro; split; [apply Z.leb_le|apply Z.ltb_lt]; apply Bw).
        assert (F2 : toUnsignedInt (bv_size b) = bv_size b).
        { unfold toUnsignedInt. destruct Bw as [Bw _]. rewrite Z.abs_eq by apply Bw.
          rewrite (Z.mod_small _ (2 ^ 64)) by (change (2 ^ 64) with (2 ^ 32 * 2 ^ 32); lia). exact U. }
        change (lop K_EVAL_TO_BIN [num (bv_size b); Lit (LBin b)]) with
          (let* r := (if fitsUnsignedInt (bv_size b) then Ok (Some (LBin (bv_make (toUnsignedInt (bv_size b)) (bv_val b)))) else Ok None) in Ok (option_map Lit r)).
        rewrite F1, F2, (bv_make_id b Bw). reflexivity. }
      destruct (lit_ok (LBin b)) as (W1 & C1 & I1).
      pose proof (run_is_eq s (Node K_EVAL_TO_BIN [Node K_EVAL_LENGTH [a]; a]) a _ _ (ev_op2 _ K_EVAL_TO_BIN _ _ _ _ _ eq_refl ltac:(discriminate) Hl Ha Ht) Ha W1 W1 C1 C1) as R.
      rewrite I1, lit_same in R. exact R.
    + apply (St (num (int_of_uint (Z.of_nat (length s0))))).
      * eapply ev_op1; [reflexivity|discriminate|exact Ha|]. rewrite (proj1 unary_len). reflexivity.
      * apply (val_lit (LNum _)).
      * apply (val_lit (LNum _)).
      * change (lop K_EVAL_TO_BIN [num (int_of_uint (Z.of_nat (length s0))); Lit (LStr s0)]) with
          (let* r := (if fitsUnsignedInt (int_of_uint (Z.of_nat (length s0))) then Ok None else Ok None) in Ok (option_map Lit r)).
        destruct (fitsUnsignedInt _); reflexivity.
  - replace (kind_eqb (tkind (Node k cs)) K_BINARY) with false by (inversion W; subst; destruct k; try discriminate; reflexivity).
    apply S2. apply (proj2 unary_len). intros l X. discriminate.
Qed.

(** Comparison. *)
Lemma sgn_sub : forall x y, (Z.sgn (- x + y) =? -1) = (x >? y).
Proof.
  intros x y. rewrite Z.gtb_ltb. destruct (Z.ltb_spec y x).
  - rewrite Z.sgn_neg by lia. reflexivity.
  - apply Z.eqb_neq. intro H2. apply Z.sgn_neg_iff in H2. lia.
Qed.
Lemma run_gt_num : forall s a b x y, EV s a (num x) -> EV s b (num y) -> EV s (d_gt a b) (boolean (x >? y)).
Proof.
  intros s a b x y Ha Hb. rewrite <- sgn_sub. unfold d_gt.
  apply (ev_op1 _ _ _ (num (- x + y))); [reflexivity|discriminate| |reflexivity]. apply ev_plus; [|exact Hb].
  eapply ev_op1; [reflexivity|discriminate|exact Ha|reflexivity].
Qed.
Lemma rat_sub : forall x y, (rat_sgn (rat_add (rat_neg x) y) =? -1) = rat_gt x y.
Proof.
  intros x y. unfold rat_sgn, rat_add, rat_neg, rat_gt.
  assert (A : (Qred (Qred (- x) + y) == y - x)%Q) by (rewrite !Qred_correct; ring).
  set (q := Qred (Qred (- x) + y)) in *. clearbody q.
  destruct (Z.ltb_spec (Qnum y * QDen x) (Qnum x * QDen y)) as [H|H].
  - assert (L0 : (y < x)%Q) by (unfold Qlt; exact H).
    assert (Q0 : (q < 0)%Q) by (rewrite A; apply (Qplus_lt_l _ _ x); ring_simplify; exact L0).
    unfold Qlt in Q0. cbn in Q0. rewrite Z.sgn_neg by lia. reflexivity.
  - apply Z.eqb_neq. intro H2. apply Z.sgn_neg_iff in H2.
    assert (L0 : (x <= y)%Q) by (unfold Qle; exact H).
    assert (Q0 : (0 <= q)%Q) by (rewrite A; apply (Qplus_le_l _ _ x); ring_simplify; exact L0).
    unfold Qle in Q0. cbn in Q0. lia.
Qed.
Lemma run_gt_rat : forall s a b x y, EV s a (Lit (LRat x)) -> EV s b (Lit (LRat y)) -> EV s (d_gt a b) (boolean (rat_gt x y)).
Proof.
  intros s a b x y Ha Hb. rewrite <- rat_sub. unfold d_gt.
  apply (ev_op1 _ _ _ (Lit (LRat (rat_add (rat_neg x) y)))); [reflexivity|discriminate| |reflexivity].
  apply (ev_op2 _ _ _ _ (Lit (LRat (rat_neg x))) (Lit (LRat y))); [reflexivity|discriminate| |exact Hb|reflexivity].
  eapply ev_op1; [reflexivity|discriminate|exact Ha|reflexivity].
Qed.
Lemma run_cmp : forall s a b v w, EV s a v -> EV s b w -> value v -> value w ->
  0 <= e_hash E v < 2 ^ 32 -> 0 <= e_hash E w < 2 ^ 32 ->
  EV s (d_cmp a b) (boolean (e_hash E w <? e_hash E v)).
Proof.
  intros s a b v w Ha Hb (W1 & C1 & I1) (W2 & C2 & I2) H1 H2.
  assert (Hh : forall t u, EV s t u -> twf u -> closed u -> inert u -> 0 <= e_hash E u < 2 ^ 32 -> EV s (Node K_EVAL_HASH [t]) (num (e_hash E u))).
  { intros t u Ht W C I B. eapply ev_op1; [reflexivity|discriminate|exact Ht|].
    apply ground_closed in C; [|exact W]. apply eval_inert in I; [|exact W]. cbn. rewrite C. cbn. rewrite I.
    unfold u32. rewrite Z.mod_small by exact B. reflexivity. }
  replace (e_hash E w <? e_hash E v) with (Z.sgn (e_hash E w + - e_hash E v) =? -1).
  - unfold d_cmp. apply (ev_op1 _ _ _ (num (e_hash E w + - e_hash E v))); [reflexivity|discriminate| |reflexivity]. apply ev_plus; [apply Hh; assumption|].
    eapply ev_op1; [reflexivity|discriminate|apply Hh; eassumption|reflexivity].
  - rewrite Z.add_comm, sgn_sub. apply Z.gtb_ltb.
Qed.
End Tests.
