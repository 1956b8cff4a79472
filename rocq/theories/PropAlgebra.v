(** C90: the operators on literals obey the laws of arithmetic, of bits and of strings. *)
From Coq Require Import String ZArith QArith List Bool Lia.
From Verif Require Import Base Kind Ints IntsProofs Str Literal LiteralProofs Term Match Eval ListOps Typing Lexer SpecTerm SpecEval SpecLit TermProofs EvalProofs SpecDerived DerivedProofs DerivedProofs2 PropLit PropDerived NameProofs AlgebraProofs.
Import ListNotations.
Open Scope Z_scope.

Definition add a b := Node K_EVAL_ADD [a; b].
Definition mul a b := Node K_EVAL_MUL [a; b].
Definition neg a := Node K_EVAL_NEG [a].

Lemma ev_lit2 : forall E n progs s k a b x y r,
  In k [K_EVAL_ADD; K_EVAL_MUL; K_EVAL_AND; K_EVAL_OR; K_EVAL_XOR; K_EVAL_INT_DIV; K_EVAL_INT_MOD; K_EVAL_RAT_DIV; K_EVAL_CONCAT; K_EVAL_FIND] ->
  ev85 E n progs s a (Lit x) -> ev85 E n progs s b (Lit y) -> Literal.evaluate k [x; y] = Ok (Some r) -> ev85 E n progs s (Node k [a; b]) (Lit r).
Proof.
  intros E n progs s k a b x y r I A B H. unfold ev85 in *. eapply ev_op2; [| |exact A|exact B|].
  - repeat (destruct I as [<-|I]; [reflexivity|]). destruct I.
  - repeat (destruct I as [<-|I]; [discriminate|]). destruct I.
  - apply (lop_lits E n k [x; y] r); [| |exact H]; (repeat (destruct I as [<-|I]; [reflexivity|])); destruct I.
Qed.
Lemma ev_lit1 : forall E n progs s k a x r, In k [K_EVAL_NEG; K_EVAL_NOT; K_EVAL_LENGTH; K_EVAL_TO_RAT] ->
  ev85 E n progs s a (Lit x) -> Literal.evaluate k [x] = Ok (Some r) -> ev85 E n progs s (Node k [a]) (Lit r).
Proof.
  intros E n progs s k a x r I A H. unfold ev85 in *. eapply ev_op1; [| |exact A|].
  - repeat (destruct I as [<-|I]; [reflexivity|]). destruct I.
  - repeat (destruct I as [<-|I]; [discriminate|]). destruct I.
  - apply (lop_lits E n k [x] r); [| |exact H]; (repeat (destruct I as [<-|I]; [reflexivity|])); destruct I.
Qed.
Lemma ev_lit3 : forall E n progs s a b c x y z r, ev85 E n progs s a (Lit x) -> ev85 E n progs s b (Lit y) -> ev85 E n progs s c (Lit z) ->
  Literal.evaluate K_EVAL_EXTRACT [x; y; z] = Ok (Some r) -> ev85 E n progs s (Node K_EVAL_EXTRACT [a; b; c]) (Lit r).
Proof.
  intros E n progs s a b c x y z r A B C H. unfold ev85 in *. eapply ev_op; [reflexivity|discriminate|discriminate| |].
  - constructor; [exact A|]. constructor; [exact B|]. constructor; [exact C|constructor].
  - apply (lop_lits E n K_EVAL_EXTRACT [x; y; z] r); [reflexivity|reflexivity|exact H].
Qed.
Ltac ink := cbn [In]; tauto.
Ltac same r := exists (Lit r); split; [apply val_lit|split;
  match goal with |- ev (tc_lop (tc ?E (S ?n))) ?p shortcut ?s ?t ?v => change (ev85 E n p s t v) end].

(** Numerals, rationals, decimals and bit-vectors of a width. *)
Theorem C90_arithmetic : forall E n progs s a b c x y z, lit_wf x -> lit_wf y -> lit_wf z ->
  has_value K_EVAL_ADD [x; y] -> has_value K_EVAL_ADD [y; z] ->
  ev85 E n progs s a (Lit x) -> ev85 E n progs s b (Lit y) -> ev85 E n progs s c (Lit z) ->
  both85 E n progs s (add a b) (add b a) /\ both85 E n progs s (mul a b) (mul b a) /\
  both85 E n progs s (add (add a b) c) (add a (add b c)) /\ both85 E n progs s (mul (mul a b) c) (mul a (mul b c)) /\
  both85 E n progs s (mul a (add b c)) (add (mul a b) (mul a c)) /\
  both85 E n progs s (neg (neg a)) a /\ both85 E n progs s (add (add a b) (neg b)) a.
Proof.
  intros E n progs s a b c x y z Wx Wy Wz H1 H2 A B C.
  destruct (ar_class x y z Wx Wy Wz H1 H2) as (K & ad & mu & ne & R & X & Y & Z).
  assert (AD : forall t u v w, K v -> K w -> ev85 E n progs s t (Lit v) -> ev85 E n progs s u (Lit w) -> ev85 E n progs s (add t u) (Lit (ad v w))).
  { intros t u v w V W T U. eapply ev_lit2; [ink|exact T|exact U|apply (ar_add _ _ _ _ R); assumption]. }
  assert (MU : forall t u v w, K v -> K w -> ev85 E n progs s t (Lit v) -> ev85 E n progs s u (Lit w) -> ev85 E n progs s (mul t u) (Lit (mu v w))).
  { intros t u v w V W T U. eapply ev_lit2; [ink|exact T|exact U|apply (ar_mul _ _ _ _ R); assumption]. }
  assert (NE : forall t v, K v -> ev85 E n progs s t (Lit v) -> ev85 E n progs s (neg t) (Lit (ne v))).
  { intros t v V T. eapply ev_lit1; [ink|exact T|apply (ar_neg _ _ _ _ R); assumption]. }
  pose proof (proj1 (ar_add _ _ _ _ R x y X Y)). pose proof (proj1 (ar_add _ _ _ _ R y z Y Z)).
  pose proof (proj1 (ar_mul _ _ _ _ R x y X Y)). pose proof (proj1 (ar_mul _ _ _ _ R y z Y Z)). pose proof (proj1 (ar_mul _ _ _ _ R x z X Z)).
  pose proof (proj1 (ar_neg _ _ _ _ R x X)). pose proof (proj1 (ar_neg _ _ _ _ R y Y)).
  split; [|split; [|split; [|split; [|split; [|split]]]]].
  - same (ad x y); [auto|]. rewrite (ar_add_comm _ _ _ _ R) by assumption. auto.
  - same (mu x y); [auto|]. rewrite (ar_mul_comm _ _ _ _ R) by assumption. auto.
  - same (ad (ad x y) z); [auto|]. rewrite (ar_add_assoc _ _ _ _ R) by assumption. auto.
  - same (mu (mu x y) z); [auto|]. rewrite (ar_mul_assoc _ _ _ _ R) by assumption. auto.
  - same (mu x (ad y z)); [auto|]. rewrite (ar_distr _ _ _ _ R) by assumption. auto.
  - same x; [|exact A]. rewrite <- (ar_neg_neg _ _ _ _ R x X) at 1. auto.
  - same x; [|exact A]. rewrite <- (ar_sub _ _ _ _ R x y X Y) at 1. auto.
Qed.
Print Assumptions C90_arithmetic.

Definition con a b := Node K_EVAL_AND [a; b].
Definition dis a b := Node K_EVAL_OR [a; b].
Definition exc a b := Node K_EVAL_XOR [a; b].
Definition com a := Node K_EVAL_NOT [a].
(** Booleans and bit-vectors of a width. *)
Theorem C90_bits : forall E n progs s a b c x y z, lit_wf x -> lit_wf y -> lit_wf z ->
  has_value K_EVAL_AND [x; y] -> has_value K_EVAL_AND [y; z] ->
  ev85 E n progs s a (Lit x) -> ev85 E n progs s b (Lit y) -> ev85 E n progs s c (Lit z) ->
  both85 E n progs s (com (con a b)) (dis (com a) (com b)) /\ both85 E n progs s (com (dis a b)) (con (com a) (com b)) /\
  both85 E n progs s (com (com a)) a /\ both85 E n progs s (exc (exc a b) b) a /\
  both85 E n progs s (con a (dis b c)) (dis (con a b) (con a c)).
Proof.
  intros E n progs s a b c x y z Wx Wy Wz H1 H2 A B C.
  destruct (bi_class x y z Wx Wy Wz H1 H2) as (K & co & di & ex & ne & R & X & Y & Z).
  assert (CO : forall t u v w, K v -> K w -> ev85 E n progs s t (Lit v) -> ev85 E n progs s u (Lit w) -> ev85 E n progs s (con t u) (Lit (co v w))).
  { intros t u v w V W T U. eapply ev_lit2; [ink|exact T|exact U|apply (bi_con _ _ _ _ _ R); assumption]. }
  assert (DI : forall t u v w, K v -> K w -> ev85 E n progs s t (Lit v) -> ev85 E n progs s u (Lit w) -> ev85 E n progs s (dis t u) (Lit (di v w))).
  { intros t u v w V W T U. eapply ev_lit2; [ink|exact T|exact U|apply (bi_dis _ _ _ _ _ R); assumption]. }
  assert (EX : forall t u v w, K v -> K w -> ev85 E n progs s t (Lit v) -> ev85 E n progs s u (Lit w) -> ev85 E n progs s (exc t u) (Lit (ex v w))).
  { intros t u v w V W T U. eapply ev_lit2; [ink|exact T|exact U|apply (bi_exc _ _ _ _ _ R); assumption]. }
  assert (NE : forall t v, K v -> ev85 E n progs s t (Lit v) -> ev85 E n progs s (com t) (Lit (ne v))).
  { intros t v V T. eapply ev_lit1; [ink|exact T|apply (bi_neg _ _ _ _ _ R); assumption]. }
  pose proof (proj1 (bi_con _ _ _ _ _ R x y X Y)). pose proof (proj1 (bi_con _ _ _ _ _ R x z X Z)).
  pose proof (proj1 (bi_dis _ _ _ _ _ R x y X Y)). pose proof (proj1 (bi_dis _ _ _ _ _ R y z Y Z)). pose proof (proj1 (bi_exc _ _ _ _ _ R x y X Y)).
  pose proof (proj1 (bi_neg _ _ _ _ _ R x X)). pose proof (proj1 (bi_neg _ _ _ _ _ R y Y)).
  destruct (bi_laws _ _ _ _ _ R x y z X Y Z) as (L1 & L2 & L3 & L4 & L5).
  split; [|split; [|split; [|split]]].
  - same (ne (co x y)); [auto|]. rewrite L1. auto.
  - same (ne (di x y)); [auto|]. rewrite L2. auto.
  - same x; [|exact A]. rewrite <- L3 at 1. auto.
  - same x; [|exact A]. rewrite <- L4 at 1. auto.
  - same (co x (di y z)); [auto|]. rewrite L5. auto.
Qed.
Print Assumptions C90_bits.

(** Quotient and remainder give the dividend back, also for bit-vectors divided by zero. *)
Theorem C90_division : forall E n progs s a b x y, lit_wf x -> lit_wf y -> has_value K_EVAL_INT_DIV [x; y] ->
  ev85 E n progs s a (Lit x) -> ev85 E n progs s b (Lit y) ->
  both85 E n progs s (add (mul b (Node K_EVAL_INT_DIV [a; b])) (Node K_EVAL_INT_MOD [a; b])) a.
Proof.
  intros E n progs s a b x y Wx Wy H A B. destruct (division_law x y Wx Wy H) as (q & r & p & Q & R & P & S). same x; [|exact A].
  eapply ev_lit2; [ink| | |exact S]; [eapply ev_lit2; [ink|exact B| |exact P]|]; (eapply ev_lit2; [ink|exact A|exact B|assumption]).
Qed.
Print Assumptions C90_division.
Theorem C90_rational_division : forall E n progs s a b x y, lit_wf x -> lit_wf y -> has_value K_EVAL_RAT_DIV [x; y] ->
  ev85 E n progs s a (Lit x) -> ev85 E n progs s b (Lit y) ->
  both85 E n progs s (mul (Node K_EVAL_RAT_DIV [a; b]) (Node K_EVAL_TO_RAT [b])) (Node K_EVAL_TO_RAT [a]).
Proof.
  intros E n progs s a b x y Wx Wy H A B. destruct (rat_division_law x y Wx Wy H) as (q & r & p & Q & R & P & S). same p.
  - eapply ev_lit2; [ink| | |exact S]; [eapply ev_lit2; [ink|exact A|exact B|exact Q]|eapply ev_lit1; [ink|exact B|exact R]].
  - eapply ev_lit1; [ink|exact A|exact P].
Qed.
Print Assumptions C90_rational_division.

Definition cat a b := Node K_EVAL_CONCAT [a; b].
Definition len a := Node K_EVAL_LENGTH [a].
Definition ext a i j := Node K_EVAL_EXTRACT [a; i; j].
Definition one_less t := add t (Lit (LNum (-1))).
(** The parts of a concatenation can be taken out again, and a string that is found is where it was found. *)
Theorem C90_strings : forall E n progs s a b c x y z,
  Z.of_nat (length x) + Z.of_nat (length y) < 2 ^ 32 ->
  ev85 E n progs s a (Lit (LStr x)) -> ev85 E n progs s b (Lit (LStr y)) -> ev85 E n progs s c (Lit (LStr z)) ->
  both85 E n progs s (cat (cat a b) c) (cat a (cat b c)) /\
  both85 E n progs s (len (cat a b)) (add (len a) (len b)) /\
  both85 E n progs s (ext (cat a b) (Lit (LNum 0)) (one_less (len a))) a /\
  both85 E n progs s (ext (cat a b) (len a) (one_less (len (cat a b)))) b /\
  ((exists k, occurs_at x y k) -> both85 E n progs s (ext a (Node K_EVAL_FIND [a; b]) (one_less (add (Node K_EVAL_FIND [a; b]) (len b)))) b).
Proof.
  intros E n progs s a b c x y z L A B C.
  assert (NUM : forall v, ev85 E n progs s (Lit (LNum v)) (Lit (LNum v))) by (intro v; apply ev_const; [reflexivity|intros [j J]; discriminate J]).
  assert (CAT : forall t u v w, ev85 E n progs s t (Lit (LStr v)) -> ev85 E n progs s u (Lit (LStr w)) -> ev85 E n progs s (cat t u) (Lit (LStr (v ++ w)))).
  { intros t u v w T U. eapply ev_lit2; [ink|exact T|exact U|]. pose proof (C09_concat v [w]) as H. cbn [map concat] in H. rewrite app_nil_r in H. exact H. }
  assert (LEN : forall t v, Z.of_nat (length v) < 2 ^ 32 -> ev85 E n progs s t (Lit (LStr v)) -> ev85 E n progs s (len t) (Lit (LNum (Z.of_nat (length v))))).
  { intros t v H T. eapply ev_lit1; [ink|exact T|apply C09_length; exact H]. }
  assert (ADD : forall t u v w, ev85 E n progs s t (Lit (LNum v)) -> ev85 E n progs s u (Lit (LNum w)) -> ev85 E n progs s (add t u) (Lit (LNum (v + w)))).
  { intros t u v w T U. eapply ev_lit2; [ink|exact T|exact U|reflexivity]. }
  assert (EXT : forall t i j v pre w post vi vj, v = pre ++ w ++ post -> Z.of_nat (length v) < 2 ^ 32 -> vi = Z.of_nat (length pre) -> vj = Z.of_nat (length pre) + Z.of_nat (length w) - 1 ->
    ev85 E n progs s t (Lit (LStr v)) -> ev85 E n progs s i (Lit (LNum vi)) -> ev85 E n progs s j (Lit (LNum vj)) -> ev85 E n progs s (ext t i j) (Lit (LStr w))).
  { intros t i j v pre w post vi vj -> Hv -> -> T I J. destruct (C09_extract (pre ++ w ++ post) (Z.of_nat (length pre)) (Z.of_nat (length pre) + Z.of_nat (length w) - 1) Hv) as (r & R & S1 & S2).
    assert (EQ : r = w).
    { destruct (Z_lt_le_dec (Z.of_nat (length pre) + Z.of_nat (length w) - 1) 0) as [N|N].
      - rewrite (S2 (or_intror N)). destruct w; [reflexivity|cbn [length] in N; lia].
      - eapply slice_of; [apply S1; lia|reflexivity|reflexivity]. }
    subst r. eapply ev_lit3; [exact T|exact I|exact J|exact R]. }
  assert (LX : Z.of_nat (length (x ++ y)) < 2 ^ 32) by (rewrite app_length; lia).
  split; [|split; [|split; [|split]]].
  - same (LStr (x ++ y ++ z)); [rewrite app_assoc|]; auto.
  - same (LNum (Z.of_nat (length x) + Z.of_nat (length y))); [rewrite <- Nat2Z.inj_add, <- app_length; auto|]. apply ADD; apply LEN; auto; lia.
  - same (LStr x); [|exact A]. apply (EXT _ _ _ (x ++ y) [] x y 0 (Z.of_nat (length x) + -1)); auto; try (cbn [length]; lia). apply ADD; [|apply NUM]. apply LEN; [lia|exact A].
  - same (LStr y); [|exact B]. apply (EXT _ _ _ (x ++ y) x y [] (Z.of_nat (length x)) (Z.of_nat (length (x ++ y)) + -1)); try (rewrite app_length; lia); auto.
    + now rewrite app_nil_r.
    + apply LEN; [lia|exact A].
    + apply ADD; [|apply NUM]. apply LEN; auto.
  - intros [k O]. destruct (C09_find x y ltac:(lia)) as (i & F & [[_ N]|(I & (pre & post & Ex & Ei) & _)]); [exfalso; exact (N k O)|].
    assert (FI : ev85 E n progs s (Node K_EVAL_FIND [a; b]) (Lit (LNum i))) by (eapply ev_lit2; [ink|exact A|exact B|exact F]).
    same (LStr y); [|exact B]. apply (EXT _ _ _ x pre y post i (i + Z.of_nat (length y) + -1)); auto; try lia.
    apply ADD; [|apply NUM]. apply ADD; [exact FI|]. apply LEN; [lia|exact B].
Qed.
Print Assumptions C90_strings.

Example C90_example : lit_wf (LBin (mkBV 3 5)) /\ lit_wf (LBin (mkBV 3 0)) /\ has_value K_EVAL_ADD [LBin (mkBV 3 5); LBin (mkBV 3 0)] /\
  has_value K_EVAL_AND [LBin (mkBV 3 5); LBin (mkBV 3 0)] /\ has_value K_EVAL_INT_DIV [LNum (-7); LNum (-2)] /\ has_value K_EVAL_RAT_DIV [LRat (1 # 3); LRat (-2 # 5)] /\
  lit_wf (LRat (1 # 3)) /\ occurs_at (txt "abcb") (txt "b") 1 /\
  read85 s85 "(eo::add (eo::mul -2 (eo::zdiv -7 -2)) (eo::zmod -7 -2))" = Some (Lit (LNum (-7))) /\
  read85 s85 "(eo::add (eo::mul #b000 (eo::zdiv #b101 #b000)) (eo::zmod #b101 #b000))" = Some (Lit (LBin (mkBV 3 5))) /\
  read85 s85 "(eo::not (eo::and #b101 #b110))" = read85 s85 "(eo::or (eo::not #b101) (eo::not #b110))" /\
  read85 s85 "(eo::extract ""abcb"" (eo::find ""abcb"" ""bc"") (eo::add (eo::add (eo::find ""abcb"" ""bc"") (eo::len ""bc"")) -1))" = Some (Lit (LStr (txt "bc"))).
Proof.
  split; [vm_compute; intuition congruence|]. split; [vm_compute; intuition congruence|]. split; [reflexivity|]. split; [reflexivity|].
  split; [discriminate|]. split; [discriminate|]. split; [reflexivity|]. split; [exists (txt "a"), (txt "cb"); split; reflexivity|].
  split; [vm_compute; reflexivity|]. split; [vm_compute; reflexivity|]. split; vm_compute; reflexivity.
Qed.
