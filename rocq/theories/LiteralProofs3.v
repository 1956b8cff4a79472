(** Exact domain of the operators and meaning of the remaining ones. *)
From Coq Require Import ZArith QArith List Bool Lia.
From Verif Require Import Base Kind Ints Str Literal Arity SpecLit IntsProofs StrProofs
  LiteralProofs LiteralProofs2.
Import ListNotations.
Open Scope Z_scope.

Lemma extract_str_total : forall s i j, exists r, extract_str s i j = Ok r.
Proof.
  intros s i j.
  destruct (evaluate_safe_arity K_EVAL_EXTRACT [LStr s; LNum i; LNum j] eq_refl
              (or_intror eq_refl)) as (o & E).
  unfold evaluate in E. cbn [kind_eqb] in E.
  destruct (extract_str s i j) as [r| | |] eqn:H; [exists r; reflexivity| | |];
    exfalso; vm_compute kind_eqb in E; cbn [negb andb evaluate_switch eval_extract vec_at nth_error bind] in E;
    rewrite H in E; discriminate E.
Qed.

Lemma sgn_zero_iff : forall z, (Z.sgn z =? 0) = (z =? 0).
Proof. intros [|p|p]; reflexivity. Qed.

Lemma rat_sgn_zero : forall q, (rat_sgn q =? 0) = true <-> (q == 0)%Q.
Proof.
  intros q. unfold rat_sgn. rewrite sgn_zero_iff, Z.eqb_eq. unfold Qeq. cbn. lia.
Qed.

Ltac triv_dom :=
  first [split; [intros (r & E); discriminate E|intros H; exact (False_ind _ H)]
        |split; [intros _; exact I|intros _; eexists; reflexivity]].

Ltac cond_dom :=
  match goal with
  | |- context [if (Z.sgn ?z =? 0) then _ else _] =>
      rewrite (sgn_zero_iff z); destruct (Z.eqb_spec z 0)
  | |- context [if (rat_sgn ?z =? 0) then _ else _] =>
      let H := fresh "Hs" in
      destruct (rat_sgn z =? 0) eqn:H;
      [apply (proj1 (rat_sgn_zero z)) in H
      |assert (~ (z == 0)%Q)
         by (let X := fresh in intro X; apply (proj2 (rat_sgn_zero z)) in X; congruence)]
  | |- context [bv_size ?x =? bv_size ?y] =>
      destruct (Z.eqb_spec (bv_size x) (bv_size y))
  | |- context [fitsUnsignedInt ?z] =>
      let H := fresh "Hf" in
      destruct (fitsUnsignedInt z) eqn:H; unfold fitsUnsignedInt in H;
      [apply andb_true_iff in H; destruct H as [?H ?H];
       rewrite Z.leb_le in *; rewrite Z.ltb_lt in *
      |apply andb_false_iff in H; rewrite Z.leb_gt, Z.ltb_ge in H]
  end.

Ltac fin_dom :=
  cbn -[Z.pow]; split;
  [intros (r & E); try discriminate E; try tauto; try congruence; try lia
  |intros H; try (exfalso; tauto); try congruence; try lia; eexists; reflexivity].

Theorem evaluate_domain : forall k args,
  checkArity k (length args) = true ->
  ((exists r, evaluate k args = Ok (Some r)) <-> has_value k args).
Proof.
  intros k args Ha.
  destruct args as [|a [|b [|c [|d args]]]];
    destruct k; try discriminate Ha; clear Ha;
    try (destruct a as [x|x|x|x|x|x|x]); try triv_dom;
    try (destruct b as [y|y|y|y|y|y|y]); try triv_dom.
  all: try (destruct c as [z|z|z|z|z|z|z]; try triv_dom).
  all: cbn -[Z.sgn Z.eqb rat_sgn Z.pow extract_str str_find fitsUnsignedInt];
       unfold same_width; cbn -[Z.sgn Z.eqb rat_sgn Z.pow extract_str str_find fitsUnsignedInt].
  all: try (cond_dom; (split; [intros (r & E); try discriminate E; assumption|intros H1; try contradiction; eexists; reflexivity]); fail).
  all: try (cond_dom; fin_dom; fail).
  all: try (destruct (str_find x y); fin_dom; fail).
  all: try (destruct (extract_str_total x y z) as (rr & ->); fin_dom; fail).
  all: try (destruct x as [|c0 [|c1 x]]; fin_dom; fail).
  all: try (destruct (fitsUnsignedInt x && (toUnsignedInt x <? num_codes)); fin_dom; fail).
Qed.

(** * Booleans and integers *)

Lemma fold_opt_bool : forall k f, (forall x y, bool_op k x (LBool y) = Some (f x y)) ->
  forall l b, fold_opt (bool_op k) b (map LBool l) = Some (fold_left f l b).
Proof.
  intros k f H l. induction l as [|y l IH]; intro b; [reflexivity|].
  cbn [map fold_opt fold_left]. rewrite H. apply IH.
Qed.

Lemma fold_opt_num : forall k f, (forall x y, num_op k x (LNum y) = Some (f x y)) ->
  forall l b, fold_opt (num_op k) b (map LNum l) = Some (fold_left f l b).
Proof.
  intros k f H l. induction l as [|y l IH]; intro b; [reflexivity|].
  cbn [map fold_opt fold_left]. rewrite H. apply IH.
Qed.

Lemma same_kind_map : forall (A : Type) (mk : A -> literal) K,
  (forall a, lit_kind (mk a) = K) -> forall a l,
  forallb (fun b => kind_eqb (lit_kind b) (lit_kind (mk a))) (map mk l) = true.
Proof.
  intros A mk K H a l. induction l as [|y l IH]; [reflexivity|].
  cbn [map forallb]. rewrite !H, kind_eqb_refl. rewrite H in IH. exact IH.
Qed.

Theorem bool_operators_meaning : forall b bs,
  evaluate K_EVAL_AND (map LBool (b :: bs)) = Ok (Some (LBool (fold_left andb bs b))) /\
  evaluate K_EVAL_OR (map LBool (b :: bs)) = Ok (Some (LBool (fold_left orb bs b))) /\
  evaluate K_EVAL_XOR (map LBool (b :: bs)) = Ok (Some (LBool (fold_left xorb bs b))) /\
  evaluate K_EVAL_NOT [LBool b] = Ok (Some (LBool (negb b))).
Proof.
  intros b bs.
  assert (HK : forall k, isNaryLiteralOp k = true ->
    evaluate k (map LBool (b :: bs)) = Ok (eval_nary k (map LBool (b :: bs)))).
  { intros k Hk. unfold evaluate, allSameKind. cbn [map].
    rewrite (same_kind_map _ LBool K_BOOLEAN (fun _ => eq_refl) b bs).
    destruct k; try discriminate Hk; reflexivity. }
  split; [|split; [|split; [|reflexivity]]]; rewrite HK by reflexivity; cbn [map eval_nary].
  - rewrite (fold_opt_bool K_EVAL_AND andb) by reflexivity. reflexivity.
  - rewrite (fold_opt_bool K_EVAL_OR orb) by reflexivity. reflexivity.
  - rewrite (fold_opt_bool K_EVAL_XOR xorb) by (intros [] []; reflexivity). reflexivity.
Qed.

Theorem num_operators_meaning : forall z l,
  evaluate K_EVAL_ADD (map LNum (z :: l)) = Ok (Some (LNum (fold_left Z.add l z))) /\
  evaluate K_EVAL_MUL (map LNum (z :: l)) = Ok (Some (LNum (fold_left Z.mul l z))) /\
  evaluate K_EVAL_NEG [LNum z] = Ok (Some (LNum (- z))) /\
  (exists b, evaluate K_EVAL_IS_NEG [LNum z] = Ok (Some (LBool b)) /\ (b = true <-> z < 0)).
Proof.
  intros z l.
  assert (HK : forall k, isNaryLiteralOp k = true ->
    evaluate k (map LNum (z :: l)) = Ok (eval_nary k (map LNum (z :: l)))).
  { intros k Hk. unfold evaluate, allSameKind. cbn [map].
    rewrite (same_kind_map _ LNum K_NUMERAL (fun _ => eq_refl) z l).
    destruct k; try discriminate Hk; reflexivity. }
  split; [|split; [|split; [reflexivity|]]].
  - rewrite HK by reflexivity; cbn [map eval_nary].
    rewrite (fold_opt_num K_EVAL_ADD Z.add) by reflexivity. reflexivity.
  - rewrite HK by reflexivity; cbn [map eval_nary].
    rewrite (fold_opt_num K_EVAL_MUL Z.mul) by reflexivity. reflexivity.
  - exists (Z.sgn z =? -1). split; [reflexivity|]. rewrite Z.eqb_eq. lia.
Qed.

Theorem num_gt_meaning : forall x y, exists b,
  evaluate K_EVAL_GT [LNum x; LNum y] = Ok (Some (LBool b)) /\ (b = true <-> y < x).
Proof. intros x y. exists (x >? y). split; [reflexivity|]. rewrite Z.gtb_lt. reflexivity. Qed.

Theorem bv_gt_meaning : forall mk a c, bv_cat mk -> exists b,
  evaluate K_EVAL_GT [mk a; mk c] = Ok (Some (LBool b)) /\ (b = true <-> bv_val c < bv_val a).
Proof.
  intros mk a c [-> | ->]; exists (bv_val a >? bv_val c);
    (split; [reflexivity|]; rewrite Z.gtb_lt; reflexivity).
Qed.

Theorem to_bin_of_bv : forall mk w b, bv_cat mk -> 0 <= w < 2 ^ 32 ->
  exists c, evaluate K_EVAL_TO_BIN [LNum w; mk b] = Ok (Some (LBin c)) /\
    bv_size c = w /\ bv_val c = bv_val b mod 2 ^ w.
Proof.
  intros mk w b Hm Hw.
  destruct (to_bin_meaning w (bv_val b) Hw) as (c & E & S & V).
  exists c. split; [|split; assumption].
  destruct Hm as [-> | ->]; exact E.
Qed.

Theorem identity_conversions : forall z q s,
  evaluate K_EVAL_TO_INT [LNum z] = Ok (Some (LNum z)) /\
  evaluate K_EVAL_TO_RAT [LRat q] = Ok (Some (LRat q)) /\
  evaluate K_EVAL_TO_RAT [LDec q] = Ok (Some (LRat q)) /\
  evaluate K_EVAL_TO_STRING [LStr s] = Ok (Some (LStr s)).
Proof. intros. repeat split. Qed.

Theorem extract_not_wider : forall mk a i j, bv_cat mk -> bv_wf a -> j <> bv_size a ->
  exists c, evaluate K_EVAL_EXTRACT [mk a; LNum i; LNum j] = Ok (Some (mk c)) /\
    bv_size c <= bv_size a.
Proof.
  intros mk a i j Hm Ha Hj.
  assert (Hs : 0 <= bv_size a) by (destruct Ha as [Ha _]; lia).
  destruct (Z_lt_dec i 0); [|destruct (Z_lt_dec j 0); [|destruct (Z_le_dec (bv_size a) i);
    [|destruct (Z_lt_dec j i)]]].
  1-4: exists (mkBV 0 0); split; [apply extract_empty; auto; lia|cbn; lia].
  destruct (Z_lt_dec j (bv_size a)).
  - destruct (extract_meaning mk a i j Hm Ha) as (c & E & _ & S & _); try lia.
    exists c. split; [exact E|lia].
  - rewrite extract_above by (auto; lia).
    destruct (extract_meaning mk a i (bv_size a - 1) Hm Ha) as (c & E & _ & S & _); try lia.
    exists c. split; [exact E|lia].
Qed.
