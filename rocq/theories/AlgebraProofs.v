From Coq Require Import ZArith QArith List Bool Lia.
From Verif Require Import Base Kind Ints IntsProofs Str Literal LiteralProofs Term Match Eval ListOps Typing SpecTerm SpecEval SpecLit TermProofs EvalProofs SpecDerived DerivedProofs DerivedProofs2 PropDerived PropLit.
Import ListNotations.
Open Scope Z_scope.

(** Sets of literals with arithmetic. *)
Record arithmetic (C : literal -> Prop) (add mul : literal -> literal -> literal) (neg : literal -> literal) : Prop := {
  ar_add : forall u v, C u -> C v -> C (add u v) /\ Literal.evaluate K_EVAL_ADD [u; v] = Ok (Some (add u v));
  ar_mul : forall u v, C u -> C v -> C (mul u v) /\ Literal.evaluate K_EVAL_MUL [u; v] = Ok (Some (mul u v));
  ar_neg : forall u, C u -> C (neg u) /\ Literal.evaluate K_EVAL_NEG [u] = Ok (Some (neg u));
  ar_add_comm : forall u v, C u -> C v -> add u v = add v u;
  ar_mul_comm : forall u v, C u -> C v -> mul u v = mul v u;
  ar_add_assoc : forall u v w, C u -> C v -> C w -> add (add u v) w = add u (add v w);
  ar_mul_assoc : forall u v w, C u -> C v -> C w -> mul (mul u v) w = mul u (mul v w);
  ar_distr : forall u v w, C u -> C v -> C w -> mul u (add v w) = add (mul u v) (mul u w);
  ar_neg_neg : forall u, C u -> neg (neg u) = u;
  ar_sub : forall u v, C u -> C v -> add (add u v) (neg v) = u }.

Definition num2 (f : Z -> Z -> Z) (u v : literal) : literal := match u, v with LNum a, LNum b => LNum (f a b) | _, _ => u end.
Definition num1 (f : Z -> Z) (u : literal) : literal := match u with LNum a => LNum (f a) | _ => u end.
Lemma ar_num : arithmetic (fun u => exists z, u = LNum z) (num2 Z.add) (num2 Z.mul) (num1 Z.opp).
Proof.
  split; intros; repeat match goal with H : exists z, _ = LNum z |- _ => destruct H as [? ->] end; cbn [num2 num1];
    try (split; [eauto|reflexivity]); f_equal; ring.
Qed.
Definition rat2 (mk : Q -> literal) (f : Q -> Q -> Q) (u v : literal) : literal :=
  match u, v with (LDec a | LRat a), (LDec b | LRat b) => mk (f a b) | _, _ => u end.
Definition rat1 (mk : Q -> literal) (f : Q -> Q) (u : literal) : literal := match u with LDec a | LRat a => mk (f a) | _ => u end.
Lemma ar_rat : forall mk, rat_cat mk -> arithmetic (fun u => exists q, u = mk q /\ rat_wf q) (rat2 mk rat_add) (rat2 mk rat_mul) (rat1 mk rat_neg).
Proof.
  intros mk [->| ->]; (split; intros; repeat match goal with H : exists q, _ = _ q /\ _ |- _ => destruct H as [? [-> ?]] end; cbn [rat2 rat1];
    try (split; [eexists; split; [reflexivity|apply Qred_wf]|reflexivity]); f_equal; unfold rat_add, rat_mul, rat_neg;
    first [apply Qred_complete; rewrite ?Qred_correct; ring | apply rat_wf_eq; [apply Qred_wf|assumption|]; rewrite ?Qred_correct; ring]).
Qed.
Definition bv2 (mk : bitvec -> literal) (f : bitvec -> bitvec -> bitvec) (u v : literal) : literal :=
  match u, v with (LHex a | LBin a), (LHex b | LBin b) => mk (f a b) | _, _ => u end.
Definition bv1 (mk : bitvec -> literal) (f : bitvec -> bitvec) (u : literal) : literal := match u with LHex a | LBin a => mk (f a) | _ => u end.
Definition of_width (mk : bitvec -> literal) (w : Z) (u : literal) : Prop := exists b, u = mk b /\ bv_wf b /\ bv_size b = w.

Lemma bv_add_wf : forall a b, bv_wf a -> bv_wf (bv_add a b) /\ bv_size (bv_add a b) = bv_size a /\ bv_val (bv_add a b) = (bv_val a + bv_val b) mod 2 ^ bv_size a.
Proof. intros a b [H _]. split; [apply bv_make_wf|]. unfold bv_add. split; [now apply bv_make_size|now apply bv_make_val]. Qed.
Lemma bv_mul_wf : forall a b, bv_wf a -> bv_wf (bv_mul a b) /\ bv_size (bv_mul a b) = bv_size a /\ bv_val (bv_mul a b) = (bv_val a * bv_val b) mod 2 ^ bv_size a.
Proof. intros a b [H _]. split; [apply bv_make_wf|]. unfold bv_mul. split; [now apply bv_make_size|now apply bv_make_val]. Qed.
Lemma bv_neg_wf : forall a, bv_wf a -> bv_wf (bv_neg a) /\ bv_size (bv_neg a) = bv_size a /\ bv_val (bv_neg a) = (- bv_val a) mod 2 ^ bv_size a.
Proof. intros a H. split; [apply bv_make_wf|]. now apply bv_neg_spec. Qed.
Lemma mod_wf : forall a, bv_wf a -> bv_val a = bv_val a mod 2 ^ bv_size a.
Proof. intros a [_ H]. symmetry. now apply Z.mod_small. Qed.

Lemma mod_eq : forall m x y k, m <> 0 -> x = y + k * m -> x mod m = y mod m.
Proof. intros m x y k H ->. now apply Z_mod_plus_full. Qed.
Lemma mod_split : forall x m, m <> 0 -> exists k, x mod m = x + k * m.
Proof. intros x m H. exists (- (x / m)). pose proof (Z.div_mod x m H). lia. Qed.
Ltac facts3 :=
  repeat match goal with H : of_width _ _ _ |- _ => let b := fresh "b" in let W := fresh "W" in let S := fresh "S" in destruct H as [b [-> [W S]]] end.
Lemma width_pos : forall b w, bv_wf b -> bv_size b = w -> 2 ^ w <> 0.
Proof. intros b w [H _] <-. apply Z.pow_nonzero; lia. Qed.
Lemma bv_laws : forall w a b c, bv_wf a -> bv_wf b -> bv_wf c -> bv_size a = w -> bv_size b = w -> bv_size c = w ->
  bv_add a b = bv_add b a /\ bv_mul a b = bv_mul b a /\ bv_add (bv_add a b) c = bv_add a (bv_add b c) /\
  bv_mul (bv_mul a b) c = bv_mul a (bv_mul b c) /\ bv_mul a (bv_add b c) = bv_add (bv_mul a b) (bv_mul a c) /\
  bv_neg (bv_neg a) = a /\ bv_add (bv_add a b) (bv_neg b) = a.
Proof.
  intros w a b c A B C Sa Sb Sc. pose proof (width_pos _ _ A Sa) as M.
  assert (AD : forall x y, bv_wf x -> bv_size x = w -> bv_wf (bv_add x y) /\ bv_size (bv_add x y) = w /\ bv_val (bv_add x y) = (bv_val x + bv_val y) mod 2 ^ w).
  { intros x y X <-. now apply bv_add_wf. }
  assert (MU : forall x y, bv_wf x -> bv_size x = w -> bv_wf (bv_mul x y) /\ bv_size (bv_mul x y) = w /\ bv_val (bv_mul x y) = (bv_val x * bv_val y) mod 2 ^ w).
  { intros x y X <-. now apply bv_mul_wf. }
  assert (NE : forall x, bv_wf x -> bv_size x = w -> bv_wf (bv_neg x) /\ bv_size (bv_neg x) = w /\ bv_val (bv_neg x) = (- bv_val x) mod 2 ^ w).
  { intros x X <-. now apply bv_neg_wf. }
  pose proof (AD a b A Sa) as (W1 & S1 & V1). pose proof (AD b a B Sb) as (W2 & S2 & V2). pose proof (AD b c B Sb) as (W3 & S3 & V3).
  pose proof (MU a b A Sa) as (W4 & S4 & V4). pose proof (MU b a B Sb) as (W5 & S5 & V5). pose proof (MU b c B Sb) as (W6 & S6 & V6).
  pose proof (MU a c A Sa) as (W7 & S7 & V7). pose proof (NE a A Sa) as (W8 & S8 & V8). pose proof (NE b B Sb) as (W9 & S9 & V9).
  pose proof (AD (bv_add a b) c W1 S1) as (_ & T1 & U1). pose proof (AD a (bv_add b c) A Sa) as (_ & T2 & U2).
  pose proof (MU (bv_mul a b) c W4 S4) as (_ & T3 & U3). pose proof (MU a (bv_mul b c) A Sa) as (_ & T4 & U4).
  pose proof (MU a (bv_add b c) A Sa) as (_ & T5 & U5). pose proof (AD (bv_mul a b) (bv_mul a c) W4 S4) as (_ & T6 & U6).
  pose proof (NE _ W8 S8) as (_ & T7 & U7). pose proof (AD (bv_add a b) (bv_neg b) W1 S1) as (_ & T8 & U8).
  pose proof (mod_wf a A) as Ma. rewrite Sa in Ma.
  repeat split; apply bv_ext; try congruence.
  - rewrite V1, V2. f_equal. ring.
  - rewrite V4, V5. f_equal. ring.
  - rewrite U1, U2, V1, V3, Z.add_mod_idemp_l, Z.add_mod_idemp_r by exact M. f_equal. ring.
  - rewrite U3, U4, V4, V6, Z.mul_mod_idemp_l, Z.mul_mod_idemp_r by exact M. f_equal. ring.
  - rewrite U5, U6, V3, V4, V7, Z.mul_mod_idemp_r, <- Z.add_mod by exact M. f_equal. ring.
  - rewrite U7, V8. destruct (mod_split (- bv_val a) _ M) as [k ->]. rewrite Ma at 2. apply (mod_eq _ _ _ (- k) M). ring.
  - rewrite U8, V1, V9, <- Z.add_mod by exact M. rewrite Ma at 2. f_equal. ring.
Qed.

Lemma same_bits : forall k a b, bv_size a = bv_size b -> k = LHex \/ k = LBin -> allSameBitWidth [k a; k b] = true.
Proof. intros k a b E [->| ->]; cbn; now rewrite E, Z.eqb_refl. Qed.
Lemma bv2_mk : forall mk f a b, bv_cat mk -> bv2 mk f (mk a) (mk b) = mk (f a b).
Proof. intros mk f a b [->| ->]; reflexivity. Qed.
Lemma bv1_mk : forall mk f a, bv_cat mk -> bv1 mk f (mk a) = mk (f a).
Proof. intros mk f a [->| ->]; reflexivity. Qed.
Lemma eval_bits2 : forall mk k f a b, bv_cat mk -> bv_size a = bv_size b ->
  In (k, f) [(K_EVAL_ADD, bv_add); (K_EVAL_MUL, bv_mul); (K_EVAL_AND, bv_and); (K_EVAL_OR, bv_or); (K_EVAL_XOR, bv_xor)] ->
  Literal.evaluate k [mk a; mk b] = Ok (Some (mk (f a b))).
Proof.
  intros mk k f a b K E I. pose proof (same_bits mk a b E K) as B.
  repeat (destruct I as [I|I]; [injection I as <- <-; destruct K as [->| ->]; unfold Literal.evaluate; cbn [kind_eqb negb andb];
    cbn -[allSameBitWidth]; rewrite B; reflexivity|]). destruct I.
Qed.
Lemma ar_bits : forall mk w, bv_cat mk -> arithmetic (of_width mk w) (bv2 mk bv_add) (bv2 mk bv_mul) (bv1 mk bv_neg).
Proof.
  intros mk w K.
  assert (L := fun a b c => bv_laws w a b c).
  split.
  - intros u v [a [-> [A Sa]]] [b [-> [B Sb]]]; rewrite ?(bv2_mk _ _ _ _ K), ?(bv1_mk _ _ _ K), ?(bv2_mk _ _ _ _ K), ?(bv1_mk _ _ _ K), ?(bv2_mk _ _ _ _ K). split; [|apply eval_bits2; [exact K|congruence|cbn [In]; auto]]. destruct (bv_add_wf a b A) as (X & Y & _). exists (bv_add a b). split; [reflexivity|split; [exact X|congruence]].
  - intros u v [a [-> [A Sa]]] [b [-> [B Sb]]]; rewrite ?(bv2_mk _ _ _ _ K), ?(bv1_mk _ _ _ K), ?(bv2_mk _ _ _ _ K), ?(bv1_mk _ _ _ K), ?(bv2_mk _ _ _ _ K). split; [|apply eval_bits2; [exact K|congruence|cbn [In]; auto]]. destruct (bv_mul_wf a b A) as (X & Y & _). exists (bv_mul a b). split; [reflexivity|split; [exact X|congruence]].
  - intros u [a [-> [A Sa]]]; rewrite ?(bv2_mk _ _ _ _ K), ?(bv1_mk _ _ _ K), ?(bv2_mk _ _ _ _ K), ?(bv1_mk _ _ _ K), ?(bv2_mk _ _ _ _ K). split; [|destruct K as [->| ->]; reflexivity]. destruct (bv_neg_wf a A) as (X & Y & _). exists (bv_neg a). split; [reflexivity|split; [exact X|congruence]].
  - intros u v [a [-> [A Sa]]] [b [-> [B Sb]]]; rewrite ?(bv2_mk _ _ _ _ K), ?(bv1_mk _ _ _ K), ?(bv2_mk _ _ _ _ K), ?(bv1_mk _ _ _ K), ?(bv2_mk _ _ _ _ K). f_equal. apply (L a b a); assumption.
  - intros u v [a [-> [A Sa]]] [b [-> [B Sb]]]; rewrite ?(bv2_mk _ _ _ _ K), ?(bv1_mk _ _ _ K), ?(bv2_mk _ _ _ _ K), ?(bv1_mk _ _ _ K), ?(bv2_mk _ _ _ _ K). f_equal. apply (L a b a); assumption.
  - intros u v z [a [-> [A Sa]]] [b [-> [B Sb]]] [c [-> [C Sc]]]; rewrite ?(bv2_mk _ _ _ _ K), ?(bv1_mk _ _ _ K), ?(bv2_mk _ _ _ _ K), ?(bv1_mk _ _ _ K), ?(bv2_mk _ _ _ _ K). f_equal. apply (L a b c); assumption.
  - intros u v z [a [-> [A Sa]]] [b [-> [B Sb]]] [c [-> [C Sc]]]; rewrite ?(bv2_mk _ _ _ _ K), ?(bv1_mk _ _ _ K), ?(bv2_mk _ _ _ _ K), ?(bv1_mk _ _ _ K), ?(bv2_mk _ _ _ _ K). f_equal. apply (L a b c); assumption.
  - intros u v z [a [-> [A Sa]]] [b [-> [B Sb]]] [c [-> [C Sc]]]; rewrite ?(bv2_mk _ _ _ _ K), ?(bv1_mk _ _ _ K), ?(bv2_mk _ _ _ _ K), ?(bv1_mk _ _ _ K), ?(bv2_mk _ _ _ _ K). f_equal. apply (L a b c); assumption.
  - intros u [a [-> [A Sa]]]; rewrite ?(bv2_mk _ _ _ _ K), ?(bv1_mk _ _ _ K), ?(bv2_mk _ _ _ _ K), ?(bv1_mk _ _ _ K), ?(bv2_mk _ _ _ _ K). f_equal. apply (L a a a); assumption.
  - intros u v [a [-> [A Sa]]] [b [-> [B Sb]]]; rewrite ?(bv2_mk _ _ _ _ K), ?(bv1_mk _ _ _ K), ?(bv2_mk _ _ _ _ K), ?(bv1_mk _ _ _ K), ?(bv2_mk _ _ _ _ K). f_equal. apply (L a b a); assumption.
Qed.
Lemma ar_class : forall x y z, lit_wf x -> lit_wf y -> lit_wf z -> has_value K_EVAL_ADD [x; y] -> has_value K_EVAL_ADD [y; z] ->
  exists C add mul neg, arithmetic C add mul neg /\ C x /\ C y /\ C z.
Proof.
  intros x y z Wx Wy Wz H1 H2. destruct x as [?|x|x|x|x|x|?], y as [?|y|y|y|y|y|?], z as [?|z|z|z|z|z|?]; try (exfalso; exact H1); try (exfalso; exact H2); cbn in H1, H2, Wx, Wy, Wz.
  - eexists _, _, _, _. split; [exact ar_num|]. cbv beta. eauto 10.
  - eexists _, _, _, _. split; [apply (ar_rat LDec); now left|]. cbv beta. eauto 10.
  - eexists _, _, _, _. split; [apply (ar_rat LRat); now right|]. cbv beta. eauto 10.
  - eexists _, _, _, _. split; [apply (ar_bits LHex (bv_size x)); now left|]. split; [|split]; (eexists; split; [reflexivity|]; split; [assumption|congruence]).
  - eexists _, _, _, _. split; [apply (ar_bits LBin (bv_size x)); now right|]. split; [|split]; (eexists; split; [reflexivity|]; split; [assumption|congruence]).
Qed.

(** Sets of literals with the operations on bits. *)
Record bitwise (C : literal -> Prop) (con dis exc : literal -> literal -> literal) (neg : literal -> literal) : Prop := {
  bi_con : forall u v, C u -> C v -> C (con u v) /\ Literal.evaluate K_EVAL_AND [u; v] = Ok (Some (con u v));
  bi_dis : forall u v, C u -> C v -> C (dis u v) /\ Literal.evaluate K_EVAL_OR [u; v] = Ok (Some (dis u v));
  bi_exc : forall u v, C u -> C v -> C (exc u v) /\ Literal.evaluate K_EVAL_XOR [u; v] = Ok (Some (exc u v));
  bi_neg : forall u, C u -> C (neg u) /\ Literal.evaluate K_EVAL_NOT [u] = Ok (Some (neg u));
  bi_laws : forall u v w, C u -> C v -> C w -> neg (con u v) = dis (neg u) (neg v) /\ neg (dis u v) = con (neg u) (neg v) /\
    neg (neg u) = u /\ exc (exc u v) v = u /\ con u (dis v w) = dis (con u v) (con u w) }.
Definition bool2 (f : bool -> bool -> bool) (u v : literal) : literal := match u, v with LBool a, LBool b => LBool (f a b) | _, _ => u end.
Definition bool1 (u : literal) : literal := match u with LBool a => LBool (negb a) | _ => u end.
Lemma bi_bool : bitwise (fun u => exists b, u = LBool b) (bool2 andb) (bool2 orb) (bool2 xorb) bool1.
Proof.
  split.
  1,2,3: intros u v [[] ->] [[] ->]; split; first [reflexivity|eexists; reflexivity].
  - intros u [a ->]. split; [eexists; reflexivity|reflexivity].
  - intros u v w [[] ->] [[] ->] [[] ->]; repeat split.
Qed.
Lemma bit_spec : forall f g a b w, In (f, g) [(bv_and, andb); (bv_or, orb); (bv_xor, xorb)] -> bv_wf a -> bv_size a = w ->
  bv_wf (f a b) /\ bv_size (f a b) = w /\ forall i, 0 <= i < w -> Z.testbit (bv_val (f a b)) i = g (Z.testbit (bv_val a) i) (Z.testbit (bv_val b) i).
Proof.
  intros f g a b w I [W _] <-. repeat (destruct I as [I|I]; [injection I as <- <-; split; [apply bv_make_wf|split; [now apply bv_make_size|]];
    intros i Hi; unfold bv_and, bv_or, bv_xor; rewrite bv_make_bit by assumption; first [apply Z.land_spec|apply Z.lor_spec|apply Z.lxor_spec]|]). destruct I.
Qed.
Lemma not_spec : forall a w, bv_wf a -> bv_size a = w ->
  bv_wf (bv_not a) /\ bv_size (bv_not a) = w /\ forall i, 0 <= i < w -> Z.testbit (bv_val (bv_not a)) i = negb (Z.testbit (bv_val a) i).
Proof. intros a w W <-. split; [apply bv_make_wf|]. now apply bv_not_spec. Qed.
Lemma bi_bits : forall mk w, bv_cat mk -> bitwise (of_width mk w) (bv2 mk bv_and) (bv2 mk bv_or) (bv2 mk bv_xor) (bv1 mk bv_not).
Proof.
  intros mk w K.
  pose proof (fun a b => bit_spec bv_and andb a b w ltac:(cbn [In]; auto)) as SA.
  pose proof (fun a b => bit_spec bv_or orb a b w ltac:(cbn [In]; auto)) as SO.
  pose proof (fun a b => bit_spec bv_xor xorb a b w ltac:(cbn [In]; auto)) as SX.
  pose proof (fun a => not_spec a w) as SN.
  assert (P2 : forall a b, bv_wf a -> bv_size a = w -> bv_wf (bv_and a b) /\ bv_size (bv_and a b) = w /\ bv_wf (bv_or a b) /\ bv_size (bv_or a b) = w /\ bv_wf (bv_xor a b) /\ bv_size (bv_xor a b) = w /\ bv_wf (bv_not a) /\ bv_size (bv_not a) = w).
  { intros a b A S. pose proof (SA a b A S). pose proof (SO a b A S). pose proof (SX a b A S). pose proof (SN a A S). tauto. }
  split.
  1,2,3: intros u v [a [-> [A Sa]]] [b [-> [B Sb]]]; rewrite ?(bv2_mk _ _ _ _ K), ?(bv1_mk _ _ _ K), ?(bv2_mk _ _ _ _ K), ?(bv1_mk _ _ _ K), ?(bv2_mk _ _ _ _ K); (split; [|apply eval_bits2; [exact K|congruence|cbn [In]; tauto]]);
    (eexists; split; [reflexivity|]); destruct (P2 a b A Sa); tauto.
  - intros u [a [-> [A Sa]]]; rewrite ?(bv2_mk _ _ _ _ K), ?(bv1_mk _ _ _ K), ?(bv2_mk _ _ _ _ K), ?(bv1_mk _ _ _ K), ?(bv2_mk _ _ _ _ K). split; [|destruct K as [->| ->]; reflexivity]. eexists. split; [reflexivity|]. destruct (P2 a a A Sa); tauto.
  - intros u v x [a [-> [A Sa]]] [b [-> [B Sb]]] [c [-> [C Sc]]]. rewrite ?(bv2_mk _ _ _ _ K), ?(bv1_mk _ _ _ K), ?(bv2_mk _ _ _ _ K), ?(bv1_mk _ _ _ K), ?(bv2_mk _ _ _ _ K).
    pose proof (P2 a b A Sa) as Pab. pose proof (P2 b c B Sb) as Pbc. pose proof (P2 a c A Sa) as Pac.
    decompose [and] Pab. decompose [and] Pbc. decompose [and] Pac.
    pose proof (SA a b A Sa) as (_ & _ & T1). pose proof (SO a b A Sa) as (_ & _ & T2). pose proof (SX a b A Sa) as (_ & _ & T3).
    pose proof (SN a A Sa) as (_ & _ & T4). pose proof (SN b B Sb) as (_ & _ & T5). pose proof (SO b c B Sb) as (_ & _ & T6). pose proof (SA a c A Sa) as (_ & _ & T7).
    pose proof (SN (bv_and a b) ltac:(assumption) ltac:(assumption)) as (W1 & S1 & U1).
    pose proof (SO (bv_not a) (bv_not b) ltac:(assumption) ltac:(assumption)) as (W2 & S2 & U2).
    pose proof (SN (bv_or a b) ltac:(assumption) ltac:(assumption)) as (W3 & S3 & U3).
    pose proof (SA (bv_not a) (bv_not b) ltac:(assumption) ltac:(assumption)) as (W4 & S4 & U4).
    pose proof (SN (bv_not a) ltac:(assumption) ltac:(assumption)) as (W5 & S5 & U5).
    pose proof (SX (bv_xor a b) b ltac:(assumption) ltac:(assumption)) as (W6 & S6 & U6).
    pose proof (SA a (bv_or b c) A Sa) as (W7 & S7 & U7).
    pose proof (SO (bv_and a b) (bv_and a c) ltac:(assumption) ltac:(assumption)) as (W8 & S8 & U8).
    split; [|split; [|split; [|split]]]; apply (f_equal mk); (apply bv_bits_ext; [assumption|assumption|etransitivity; [eassumption|symmetry; assumption]|]).
    + rewrite S1. intros i Hi. rewrite U1, U2, T1, T4, T5 by exact Hi. apply negb_andb.
    + rewrite S3. intros i Hi. rewrite U3, U4, T2, T4, T5 by exact Hi. apply negb_orb.
    + rewrite S5. intros i Hi. rewrite U5, T4 by exact Hi. apply negb_involutive.
    + rewrite S6. intros i Hi. rewrite U6, T3 by exact Hi. destruct (Z.testbit (bv_val a) i), (Z.testbit (bv_val b) i); reflexivity.
    + rewrite S7. intros i Hi. rewrite U7, U8, T1, T6, T7 by exact Hi. apply andb_orb_distrib_r.
Qed.
Lemma bi_class : forall x y z, lit_wf x -> lit_wf y -> lit_wf z -> has_value K_EVAL_AND [x; y] -> has_value K_EVAL_AND [y; z] ->
  exists C con dis exc neg, bitwise C con dis exc neg /\ C x /\ C y /\ C z.
Proof.
  intros x y z Wx Wy Wz H1 H2. destruct x as [?|x|x|x|x|x|?], y as [?|y|y|y|y|y|?], z as [?|z|z|z|z|z|?]; try (exfalso; exact H1); try (exfalso; exact H2); cbn in H1, H2, Wx, Wy, Wz.
  - eexists _, _, _, _, _. split; [exact bi_bool|]. cbv beta. eauto 10.
  - eexists _, _, _, _, _. split; [apply (bi_bits LHex (bv_size x)); now left|]. split; [|split]; (eexists; split; [reflexivity|]; split; [assumption|congruence]).
  - eexists _, _, _, _, _. split; [apply (bi_bits LBin (bv_size x)); now right|]. split; [|split]; (eexists; split; [reflexivity|]; split; [assumption|congruence]).
Qed.

(** Division. *)
Lemma div_back : forall a b : Q, ~ (b == 0)%Q -> (a / b * b == a)%Q.
Proof. intros a b H. field. exact H. Qed.
Lemma same_elements : forall (a b : list Z), length a = length b -> (forall k, (k < length a)%nat -> nth_error a k = nth_error b k) -> a = b.
Proof.
  induction a as [|x a IH]; intros [|y b] L H; try discriminate L; [reflexivity|]. pose proof (H O ltac:(cbn; lia)) as E. injection E as ->.
  f_equal. apply IH; [cbn in L; lia|]. intros k Hk. apply (H (S k)). cbn. lia.
Qed.
Lemma division_law : forall x y, lit_wf x -> lit_wf y -> has_value K_EVAL_INT_DIV [x; y] ->
  exists q r p, Literal.evaluate K_EVAL_INT_DIV [x; y] = Ok (Some q) /\ Literal.evaluate K_EVAL_INT_MOD [x; y] = Ok (Some r) /\
    Literal.evaluate K_EVAL_MUL [y; q] = Ok (Some p) /\ Literal.evaluate K_EVAL_ADD [p; r] = Ok (Some x).
Proof.
  assert (BV : forall mk a b, bv_cat mk -> bv_wf a -> bv_wf b -> bv_size a = bv_size b ->
    exists q r p, Literal.evaluate K_EVAL_INT_DIV [mk a; mk b] = Ok (Some q) /\ Literal.evaluate K_EVAL_INT_MOD [mk a; mk b] = Ok (Some r) /\
    Literal.evaluate K_EVAL_MUL [mk b; q] = Ok (Some p) /\ Literal.evaluate K_EVAL_ADD [p; r] = Ok (Some (mk a))).
  { intros mk a b K A B S. destruct (C04_bv_divmod mk a b K A B S) as [(q & Q1 & Q2 & Q3) (r & R1 & R2 & R3)].
    exists (mk q), (mk r), (mk (bv_mul b q)). split; [exact Q1|]. split; [exact R1|].
    split; [apply eval_bits2; [exact K|congruence|cbn [In]; auto]|].
    destruct (bv_mul_wf b q B) as (W & S2 & V). rewrite eval_bits2 with (f := bv_add); [|exact K|congruence|cbn [In]; auto].
    do 3 f_equal. destruct (bv_add_wf (bv_mul b q) r W) as (W2 & S3 & V2). apply bv_ext; [congruence|].
    pose proof (width_pos _ _ A eq_refl) as M. rewrite V2, V, S2, <- S, Z.add_mod_idemp_l by exact M.
    rewrite (mod_wf a A). f_equal. rewrite Q3, R3. destruct (bv_val b =? 0) eqn:E.
    - apply Z.eqb_eq in E. rewrite E. ring.
    - apply Z.eqb_neq in E. symmetry. apply Z.div_mod. exact E. }
  intros x y Wx Wy H. destruct x as [?|x|x|x|x|x|?], y as [?|y|y|y|y|y|?]; try (exfalso; exact H); cbn in H, Wx, Wy.
  - destruct (C01_zdiv_zmod_euclid x y) as [D _]. destruct (D H) as (q & r & Q & R & [E _] & _).
    exists (LNum q), (LNum r), (LNum (y * q)). split; [exact Q|]. split; [exact R|]. split; [reflexivity|]. rewrite E. reflexivity.
  - apply (BV LHex); auto. now left.
  - apply (BV LBin); auto. now right.
Qed.
Lemma rat_division_law : forall x y, lit_wf x -> lit_wf y -> has_value K_EVAL_RAT_DIV [x; y] ->
  exists q b a, Literal.evaluate K_EVAL_RAT_DIV [x; y] = Ok (Some q) /\ Literal.evaluate K_EVAL_TO_RAT [y] = Ok (Some b) /\
    Literal.evaluate K_EVAL_TO_RAT [x] = Ok (Some a) /\ Literal.evaluate K_EVAL_MUL [q; b] = Ok (Some a).
Proof.
  intros x y Wx Wy H. destruct x as [?|x|x|x|x|x|?], y as [?|y|y|y|y|y|?]; try (exfalso; exact H); cbn [lit_wf has_value] in H, Wx, Wy.
  - destruct (C11_num_div x y) as [_ D]. destruct (D H) as (r & Q & W & E).
    exists (LRat r), (LRat (rat_ofInt y)), (LRat (rat_ofInt x)). split; [exact Q|]. split; [reflexivity|]. split; [reflexivity|].
    change (Ok (Some (LRat (rat_mul r (rat_ofInt y)))) = Ok (Some (LRat (rat_ofInt x)))). do 3 f_equal.
    apply rat_wf_eq; [apply Qred_wf| |]; [unfold rat_wf, rat_ofInt; cbn; apply Z.gcd_1_r|]. unfold rat_mul. rewrite Qred_correct. exact E.
  - destruct (C11_rat_div LDec x y (or_introl eq_refl)) as [_ D]. destruct (D H) as (r & Q & W & E).
    exists (LRat r), (LRat y), (LRat x). split; [exact Q|]. split; [reflexivity|]. split; [reflexivity|].
    change (Ok (Some (LRat (rat_mul r y))) = Ok (Some (LRat x))). do 3 f_equal. apply rat_wf_eq; [apply Qred_wf|exact Wx|]. unfold rat_mul. rewrite Qred_correct, E. now apply div_back.
  - destruct (C11_rat_div LRat x y (or_intror eq_refl)) as [_ D]. destruct (D H) as (r & Q & W & E).
    exists (LRat r), (LRat y), (LRat x). split; [exact Q|]. split; [reflexivity|]. split; [reflexivity|].
    change (Ok (Some (LRat (rat_mul r y))) = Ok (Some (LRat x))). do 3 f_equal. apply rat_wf_eq; [apply Qred_wf|exact Wx|]. unfold rat_mul. rewrite Qred_correct, E. now apply div_back.
Qed.

(** Strings. *)
Lemma slice_of : forall a b c i j r, is_slice (a ++ b ++ c) i j r -> i = Z.of_nat (length a) -> j = Z.of_nat (length a) + Z.of_nat (length b) - 1 -> r = b.
Proof.
  intros a b c i j r [L N] -> ->. rewrite !app_length in L. assert (LE : length r = length b) by lia.
  apply same_elements; [exact LE|]. intros k Hk. rewrite (N k Hk), Nat2Z.id, nth_error_app2 by lia.
  replace (length a + k - length a)%nat with k by lia. apply nth_error_app1. lia.
Qed.
