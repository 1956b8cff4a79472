(** C90: comparison of literals is a strict total order. *)
From Coq Require Import String ZArith QArith List Bool Lia.
From Verif Require Import Base Kind Ints IntsProofs Str Literal LiteralProofs Term Match Eval ListOps Typing Lexer SpecTerm SpecEval SpecLit TermProofs EvalProofs SpecDerived DerivedProofs DerivedProofs2 PropLit PropList PropDerived NameProofs AlgebraProofs.
Import ListNotations.
Open Scope Z_scope.

(** Sets of literals with an order. *)
Record ordered (C : literal -> Prop) (lt : literal -> literal -> Prop) : Prop := {
  or_gt : forall u v, C u -> C v -> exists r, Literal.evaluate K_EVAL_GT [u; v] = Ok (Some (LBool r)) /\ (r = true <-> lt v u);
  or_irr : forall u, C u -> ~ lt u u;
  or_trans : forall u v w, C u -> C v -> C w -> lt u v -> lt v w -> lt u w;
  or_total : forall u v, C u -> C v -> u <> v -> lt u v \/ lt v u }.
Definition value_lt (u v : literal) : Prop :=
  match u, v with
  | LNum a, LNum b => a < b
  | (LDec a | LRat a), (LDec b | LRat b) => (a < b)%Q
  | (LHex a | LBin a), (LHex b | LBin b) => bv_val a < bv_val b
  | _, _ => False
  end.
Lemma or_num : ordered (fun u => exists z, u = LNum z) value_lt.
Proof.
  split.
  - intros u v [a ->] [b ->]. exists (a >? b). split; [reflexivity|]. cbn [value_lt]. rewrite Z.gtb_ltb. apply Z.ltb_lt.
  - intros u [a ->]. cbn. lia.
  - intros u v w [a ->] [b ->] [c ->]. cbn. lia.
  - intros u v [a ->] [b ->] N. cbn. assert (a <> b) by congruence. lia.
Qed.
Lemma or_rat : forall mk, rat_cat mk -> ordered (fun u => exists q, u = mk q /\ rat_wf q) value_lt.
Proof.
  intros mk K. assert (VL : forall a b, value_lt (mk a) (mk b) = (a < b)%Q) by (intros; destruct K as [->| ->]; reflexivity). split.
  - intros u v [a [-> A]] [b [-> B]]. rewrite VL. apply C11_rat_gt. exact K.
  - intros u [a [-> A]]. rewrite VL. apply Qlt_irrefl.
  - intros u v w [a [-> A]] [b [-> B]] [c [-> C]]. rewrite !VL. apply Qlt_trans.
  - intros u v [a [-> A]] [b [-> B]] N. rewrite !VL. destruct (Q_dec a b) as [[H|H]|H]; [now left|now right|].
    exfalso. apply N. f_equal. now apply rat_wf_eq.
Qed.
Lemma or_bits : forall mk w, bv_cat mk -> ordered (of_width mk w) value_lt.
Proof.
  intros mk w K. assert (VL : forall a b, value_lt (mk a) (mk b) = (bv_val a < bv_val b)) by (intros; destruct K as [->| ->]; reflexivity). split.
  - intros u v [a [-> A]] [b [-> B]]. rewrite VL. exists (bv_val a >? bv_val b). split; [destruct K as [->| ->]; reflexivity|]. rewrite Z.gtb_ltb. apply Z.ltb_lt.
  - intros u [a [-> A]]. rewrite VL. lia.
  - intros u v x [a [-> A]] [b [-> B]] [c [-> C]]. rewrite !VL. lia.
  - intros u v [a [-> [A Sa]]] [b [-> [B Sb]]] N. rewrite !VL. assert (bv_val a <> bv_val b); [|lia].
    intro H. apply N. f_equal. apply bv_ext; [congruence|exact H].
Qed.
Lemma or_class : forall x y z, lit_wf x -> lit_wf y -> lit_wf z -> has_value K_EVAL_ADD [x; y] -> has_value K_EVAL_ADD [y; z] ->
  exists C lt, ordered C lt /\ C x /\ C y /\ C z.
Proof.
  intros x y z Wx Wy Wz H1 H2. destruct x as [?|x|x|x|x|x|?], y as [?|y|y|y|y|y|?], z as [?|z|z|z|z|z|?]; try (exfalso; exact H1); try (exfalso; exact H2); cbn in H1, H2, Wx, Wy, Wz.
  - eexists _, _. split; [exact or_num|]. cbv beta. eauto 10.
  - eexists _, _. split; [apply (or_rat LDec); now left|]. cbv beta. eauto 10.
  - eexists _, _. split; [apply (or_rat LRat); now right|]. cbv beta. eauto 10.
  - eexists _, _. split; [apply (or_bits LHex (bv_size x)); now left|]. split; [|split]; (eexists; split; [reflexivity|]; split; [assumption|congruence]).
  - eexists _, _. split; [apply (or_bits LBin (bv_size x)); now right|]. split; [|split]; (eexists; split; [reflexivity|]; split; [assumption|congruence]).
Qed.

Definition gt a b := Node K_EVAL_GT [a; b].
Definition eq a b := Node K_EVAL_EQ [a; b].
(** Exactly one of a > b, b > a and a = b holds for numbers of one category, and > is transitive. *)
Theorem C90_order : forall E n progs s a b c x y z, lit_wf x -> lit_wf y -> lit_wf z ->
  has_value K_EVAL_ADD [x; y] -> has_value K_EVAL_ADD [y; z] ->
  ev85 E n progs s a (Lit x) -> ev85 E n progs s b (Lit y) -> ev85 E n progs s c (Lit z) ->
  exists ab ba bc ac same, ev85 E n progs s (gt a b) (boolean ab) /\ ev85 E n progs s (gt b a) (boolean ba) /\
    ev85 E n progs s (gt b c) (boolean bc) /\ ev85 E n progs s (gt a c) (boolean ac) /\ ev85 E n progs s (eq a b) (boolean same) /\
    In (ab, ba, same) [(true, false, false); (false, true, false); (false, false, true)] /\ (ab = true -> bc = true -> ac = true).
Proof.
  intros E n progs s a b c x y z Wx Wy Wz H1 H2 A B C.
  destruct (or_class x y z Wx Wy Wz H1 H2) as (K & lt & R & X & Y & Z).
  assert (GT : forall t u v w r, ev85 E n progs s t (Lit v) -> ev85 E n progs s u (Lit w) -> Literal.evaluate K_EVAL_GT [v; w] = Ok (Some (LBool r)) -> ev85 E n progs s (gt t u) (boolean r)).
  { intros t u v w r T U H. unfold ev85 in *. eapply ev_op2; [reflexivity|discriminate|exact T|exact U|].
    apply (lop_lits E n K_EVAL_GT [v; w] (LBool r)); [reflexivity|reflexivity|exact H]. }
  destruct (or_gt _ _ R x y X Y) as (ab & G1 & L1). destruct (or_gt _ _ R y x Y X) as (ba & G2 & L2).
  destruct (or_gt _ _ R y z Y Z) as (bc & G3 & L3). destruct (or_gt _ _ R x z X Z) as (ac & G4 & L4).
  exists ab, ba, bc, ac, (term_eqb (Lit x) (Lit y)).
  split; [eapply GT; eassumption|]. split; [eapply GT; eassumption|]. split; [eapply GT; eassumption|]. split; [eapply GT; eassumption|].
  split; [|split].
  - unfold ev85 in *. eapply ev_op2; [reflexivity|discriminate|exact A|exact B|].
    destruct (C23_eq E n (Lit x) (Lit y)) as [Q _]; [repeat (apply Forall_cons; [apply val_ground, val_lit|]); apply Forall_nil|].
    destruct (Q (proj2 (proj2 (val_lit x))) (proj2 (proj2 (val_lit y)))) as [Q1 Q2].
    destruct (term_eqb (Lit x) (Lit y)) eqn:T; [apply term_eqb_eq in T; exact (Q1 T)|].
    apply Q2. intro X2. apply term_eqb_eq in X2. congruence.
  - destruct (term_eqb (Lit x) (Lit y)) eqn:T.
    + apply term_eqb_eq in T. injection T as <-. pose proof (or_irr _ _ R x X) as I.
      destruct ab; [exfalso; apply I; now apply L1|]. destruct ba; [exfalso; apply I; now apply L2|]. cbn. auto.
    + assert (N : x <> y) by (intros <-; rewrite (proj2 (term_eqb_eq (Lit x) (Lit x)) eq_refl) in T; discriminate T).
      destruct ab, ba; cbn; auto.
      * exfalso. apply (or_irr _ _ R x X). apply (or_trans _ _ R x y x X Y X); [now apply L2|now apply L1].
      * exfalso. destruct (or_total _ _ R x y X Y N) as [H|H]; [apply L2 in H|apply L1 in H]; discriminate H.
  - intros F G. apply L4. apply (or_trans _ _ R z y x Z Y X); [now apply L3|now apply L1].
Qed.
Print Assumptions C90_order.
Example C90_order_example : lit_wf (LRat (1 # 3)) /\ lit_wf (LRat (-1 # 2)) /\ has_value K_EVAL_ADD [LRat (1 # 3); LRat (-1 # 2)] /\
  read85 s85 "(eo::gt 1/3 -1/2)" = Some (boolean true) /\ read85 s85 "(eo::gt -1/2 1/3)" = Some (boolean false) /\
  read85 s85 "(eo::eq 2/6 1/3)" = Some (boolean true).
Proof. split; [reflexivity|]. split; [reflexivity|]. split; [exact I|]. split; [vm_compute; reflexivity|]. split; vm_compute; reflexivity. Qed.
