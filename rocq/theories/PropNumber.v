(** Property C88: the values of literals. *)
From Coq Require Import String ZArith QArith List Bool Lia.
From Verif Require Import Base Kind Ints Str Literal Term Lexer Parse SpecLit SpecRead SpecNumber IntsProofs LiteralProofs LiteralProofs2 NumberProofs.
Import ListNotations.
Open Scope Z_scope.

(** C88.  A literal has the value of the number that is written: the digits s with an optional sign, with a point and the digits f
    behind it, with a slash and the denominator f, or behind #x or #b.  [word_term] is the reading of a word as a literal, which the
    parser does (C66), [sig] being true in signatures.  With the normalization of an option of the command line the value is the same, as
    a rational or a binary. *)
Theorem C88_numeral : forall sig o neg s v t, number 10 s v ->
  word_term sig o T_INTEGER (sign neg ++ s) t <->
  t = Lit (if sig || negb (o_normNum o) then LNum (if neg then - v else v) else LRat (inject_Z (if neg then - v else v))).
Proof.
  intros sig o neg s v t H. pose proof (int_number _ neg _ _ H) as R. fold (signed neg v).
  assert (Q : rat_ofString (sign neg ++ s) = Ok (inject_Z (signed neg v))).
  { unfold rat_ofString. rewrite index_none by (apply Forall_app; split; [apply sign_not; lia|apply (number_not _ _ _ 47 H); lia]). now rewrite R. }
  assert (W : rat_wf (inject_Z (signed neg v))) by (unfold rat_wf, inject_Z; cbn; apply Z.gcd_1_r).
  split.
  - intro X. inversion X as [? ? N L|? q ? N Q1 L| | | | | | | | | ]; subst; rewrite N; unfold lit in L; cbn [mkLiteral] in L.
    + rewrite R in L. cbn in L. congruence.
    + rewrite Q in Q1. injection Q1 as <-. rewrite rat_toString_read in L by exact W. cbn in L. congruence.
  - intros ->. destruct (sig || negb (o_normNum o)) eqn:N.
    + apply wt_num; [exact N|]. unfold lit. cbn [mkLiteral]. now rewrite R.
    + eapply wt_norm_num; [exact N|exact Q|]. unfold lit. cbn [mkLiteral]. now rewrite rat_toString_read.
Qed.
Print Assumptions C88_numeral.

Theorem C88_decimal : forall sig o neg s v f w t, number 10 s v -> number 10 f w ->
  word_term sig o T_DECIMAL (sign neg ++ s ++ 46 :: f) t <->
  exists q, (q == with_sign neg (inject_Z v + fraction f w))%Q /\ lowest_terms q /\
    t = Lit (if sig || negb (o_normDec o) then LDec q else LRat q).
Proof.
  intros sig o neg s v f w t Hs Hf. destruct (decimal_number neg s v f w Hs Hf) as (q & R & W & V). split.
  - intro X. exists q. repeat split; [exact V|exact W|].
    inversion X as [| |? ? N L|? q1 ? N Q1 L| | | | | | | ]; subst; rewrite N; unfold lit in L; cbn [mkLiteral] in L.
    + rewrite R in L. cbn in L. congruence.
    + rewrite R in Q1. injection Q1 as <-. rewrite rat_toString_read in L by exact W. cbn in L. congruence.
  - intros (q1 & V1 & W1 & ->).
    assert (q1 = q) as -> by (rewrite <- (rat_wf_red q W), <- (rat_wf_red q1 W1); apply Qred_complete; now rewrite V1, V).
    destruct (sig || negb (o_normDec o)) eqn:N.
    + apply wt_dec; [exact N|]. unfold lit. cbn [mkLiteral]. now rewrite R.
    + eapply wt_norm_dec; [exact N|exact R|]. unfold lit. cbn [mkLiteral]. now rewrite rat_toString_read.
Qed.
Print Assumptions C88_decimal.

Theorem C88_rational : forall sig o neg s v f w t, number 10 s v -> number 10 f w ->
  word_term sig o T_RATIONAL (sign neg ++ s ++ 47 :: f) t <->
  w <> 0 /\ exists q, (q == with_sign neg (inject_Z v / inject_Z w))%Q /\ lowest_terms q /\ t = Lit (LRat q).
Proof.
  intros sig o neg s v f w t Hs Hf. destruct (Z.eq_dec w 0) as [->|W0].
  { split; [|tauto]. intro X. inversion X as [| | | |? ? N L| | | | | | ]; subst. unfold lit in L. cbn [mkLiteral] in L.
    rewrite (rational_zero neg s v f Hs Hf) in L. discriminate. }
  destruct (rational_number neg s v f w Hs Hf W0) as (q & R & W & V). split.
  - intro X. split; [exact W0|]. exists q. repeat split; [exact V|exact W|].
    inversion X as [| | | |? ? N L| | | | | | ]; subst; unfold lit in L; cbn [mkLiteral] in L. rewrite R in L. cbn in L. congruence.
  - intros (_ & q1 & V1 & W1 & ->).
    assert (q1 = q) as -> by (rewrite <- (rat_wf_red q W), <- (rat_wf_red q1 W1); apply Qred_complete; now rewrite V1, V).
    apply wt_rat.
    + intro Z. apply W0. rewrite app_assoc in Z. eapply zero_den; [|exact Hf|exact Z].
      apply Forall_app; split; [apply sign_not; lia|apply (number_not _ _ _ 47 Hs); lia].
    + unfold lit. cbn [mkLiteral]. now rewrite R.
Qed.
Print Assumptions C88_rational.

(** Four bits for each hexadecimal digit, one for each binary digit; the number of bits is below 2^32. *)
Theorem C88_bits : forall sig o s v t, 4 * Z.of_nat (length s) < 2 ^ 32 ->
  (number 16 s v -> word_term sig o T_HEX (txt "#x" ++ s) t <->
    t = Lit ((if sig || negb (o_normHex o) then LHex else LBin) (mkBV (4 * Z.of_nat (length s)) v))) /\
  (number 2 s v -> word_term sig o T_BINARY (txt "#b" ++ s) t <-> t = Lit (LBin (mkBV (Z.of_nat (length s)) v))).
Proof.
  intros sig o s v t B. split; intro H; pose proof (bits_number _ _ _ H) as R.
  - change (16 =? 16) with true in R. cbv iota in R. rewrite IntsProofs.u32_id, Z.mul_comm in R by lia.
    destruct (number_chars _ _ _ H) as (NE & _). assert (0 < Z.of_nat (length s)) by (destruct s; [congruence|cbn [length]; lia]).
    assert (W : bv_wf (mkBV (4 * Z.of_nat (length s)) v)).
    { apply (bv_ofString_wf 16 s); [now right|split; [exact NE|apply (number_not _ _ _ 45 H); lia]|lia|exact R]. }
    assert (P : lit K_BINARY (bv_toString 2 (mkBV (4 * Z.of_nat (length s)) v)) = Ok (Lit (LBin (mkBV (4 * Z.of_nat (length s)) v)))).
    { unfold lit. pose proof (bin_print_read _ W) as P. cbn [lit_toString bv_size] in P. rewrite P by lia. reflexivity. }
    split.
    + intro X. inversion X as [| | | | |? ? N L|? b ? N Q1 L| | | | ]; subst; rewrite N; [change (skipn 2 (txt "#x" ++ s)) with s in L|change (skipn 2 (txt "#x" ++ s)) with s in Q1].
      * unfold lit in L. cbn [mkLiteral] in L. rewrite R in L. cbn [bind] in L. congruence.
      * rewrite R in Q1. assert (b = mkBV (4 * Z.of_nat (length s)) v) as -> by congruence. rewrite P in L. congruence.
    + intros ->. destruct (sig || negb (o_normHex o)) eqn:N.
      * apply wt_hex; [exact N|]. change (skipn 2 (txt "#x" ++ s)) with s. unfold lit. cbn [mkLiteral]. now rewrite R.
      * eapply wt_norm_hex; [exact N|exact R|exact P].
  - change (2 =? 16) with false in R. cbv iota in R. rewrite IntsProofs.u32_id in R by lia. split.
    + intro X. inversion X as [| | | | | | |? ? L| | | ]; subst. change (skipn 2 (txt "#b" ++ s)) with s in L. unfold lit in L. cbn [mkLiteral] in L. rewrite R in L.
      cbn [bind] in L. congruence.
    + intros ->. apply wt_bin. change (skipn 2 (txt "#b" ++ s)) with s. unfold lit. cbn [mkLiteral]. now rewrite R.
Qed.
Print Assumptions C88_bits.

(** -12.50, -0.5 and 010/4 are read as -25/2, -1/2 and 5/2, #xfA as 250 with eight bits. *)
Example C88_example :
  number 10 (txt "12") 12 /\ number 10 (txt "50") 50 /\ number 10 (txt "010") 10 /\ number 16 (txt "fA") 250 /\
  word_term true options_init T_DECIMAL (txt "-12.50") (Lit (LDec (-25 # 2))) /\
  word_term true options_init T_DECIMAL (txt "-0.5") (Lit (LDec (-1 # 2))) /\
  word_term true options_init T_RATIONAL (txt "010/4") (Lit (LRat (5 # 2))) /\
  word_term true options_init T_HEX (txt "#xfA") (Lit (LHex (mkBV 8 250))).
Proof.
  assert (N1 : number 10 (txt "12") 12) by (apply (nb_more 10 [49] 1 50 2); [apply nb_one; [now apply (dg_dec 1)|lia]|now apply (dg_dec 2)|lia]).
  assert (N2 : number 10 (txt "50") 50) by (apply (nb_more 10 [53] 5 48 0); [apply nb_one; [now apply (dg_dec 5)|lia]|now apply (dg_dec 0)|lia]).
  assert (N3 : number 10 (txt "010") 10).
  { apply (nb_more 10 [48; 49] 1 48 0); [|now apply (dg_dec 0)|lia].
    apply (nb_more 10 [48] 0 49 1); [apply nb_one; [now apply (dg_dec 0)|lia]|now apply (dg_dec 1)|lia]. }
  assert (N4 : number 16 (txt "fA") 250) by (apply (nb_more 16 [102] 15 65 10); [apply nb_one; [now apply (dg_low 15)|lia]|now apply (dg_up 10)|lia]).
  split; [exact N1|]. split; [exact N2|]. split; [exact N3|]. split; [exact N4|]. split; [|split; [|split]].
  - apply (C88_decimal true options_init true (txt "12") 12 (txt "50") 50); [exact N1|exact N2|]. exists (-25 # 2)%Q.
    split; [vm_compute; reflexivity|split; [vm_compute; reflexivity|reflexivity]].
  - apply (C88_decimal true options_init true (txt "0") 0 (txt "5") 5); [apply nb_one; [now apply (dg_dec 0)|lia]|apply nb_one; [now apply (dg_dec 5)|lia]|].
    exists (-1 # 2)%Q. split; [vm_compute; reflexivity|split; [vm_compute; reflexivity|reflexivity]].
  - apply (C88_rational true options_init false (txt "010") 10 (txt "4") 4); [exact N3|apply nb_one; [now apply (dg_dec 4)|lia]|].
    split; [discriminate|]. exists (5 # 2)%Q. split; [vm_compute; reflexivity|split; [vm_compute; reflexivity|reflexivity]].
  - apply (C88_bits true options_init (txt "fA") 250); [vm_compute; reflexivity|exact N4|reflexivity].
Qed.
