(** Evaluation keeps types: proofs. *)
From Coq Require Import ZArith List Bool Lia.
From Verif Require Import Base Kind Ints Str Literal Arity SpecLit LiteralProofs2 Term Match Eval SpecTerm SpecEval TermProofs
  EvalProofs ListOps Typing SpecType TypeProofs SpecPreserve.
Import ListNotations.
Open Scope Z_scope.

Lemma all_literals_map ds : forall ls, all_literals ds = Some ls -> ds = map Lit ls.
Proof.
  induction ds as [|d ds IH]; intros ls H; cbn in H; [injection H as <-; reflexivity|].
  destruct d as [| l |]; try discriminate H. destruct (all_literals ds) as [ls'|]; [|discriminate H]. injection H as <-. cbn. now rewrite <- (IH ls').
Qed.

Section Ops.
Variable E : env.
Variable gt : term -> res (option term).
Variable evl : term -> ctx -> res (option term).
(** What the last part of evaluateLiteralOpInternal gives. *)
Lemma tail_literal k ds r : isListLiteralOp k = false -> evaluateLitTail E gt evl k ds = Ok (Some r) ->
  exists a ls l, ds = Lit a :: map Lit ls /\ r = Lit l /\ result_category k (lit_kind a) = Some (lit_kind l).
Proof.
  unfold evaluateLitTail. intros L H. destruct (all_literals ds) as [ls|] eqn:A; [|rewrite L in H; discriminate H].
  destruct (checkArity k (length ds)) eqn:C; cbn [negb] in H; [|discriminate H].
  apply all_literals_map in A. subst ds. destruct (Literal.evaluate k ls) as [[l|]| | |] eqn:V; try discriminate H. cbn in H. injection H as <-.
  destruct ls as [|a ls].
  - exfalso. rewrite map_length in C. unfold Literal.evaluate in V. destruct (negb (kind_eqb k K_EVAL_EXTRACT) && negb (kind_eqb k K_EVAL_TO_BIN)) eqn:X; [discriminate V|].
    destruct k; try discriminate X; discriminate C.
  - exists a, ls, l. split; [reflexivity|]. split; [reflexivity|]. exact (proj1 (result_category_correct k a ls l V)).
Qed.
Definition is_bool_lit (r : term) : Prop := exists b, r = Lit (LBool b).
Lemma mpred_bool k op nl isLeft args r : evaluateListMPred k op nl isLeft args = Ok (Some r) -> is_bool_lit r.
Proof.
  unfold evaluateListMPred. intros H. repeat match type of H with
  | bind ?x _ = _ => destruct x; cbn [bind] in H; try discriminate H
  | (match ?x with _ => _ end) = _ => destruct x; try discriminate H
  end; injection H as <-; eexists; reflexivity.
Qed.
Lemma length_num op nl isLeft args r : evaluateListLength op nl isLeft args = Ok (Some r) -> exists z, r = Lit (LNum z).
Proof.
  unfold evaluateListLength. intros H. repeat match type of H with
  | bind ?x _ = _ => destruct x; cbn [bind] in H; try discriminate H
  | (match ?x with _ => _ end) = _ => destruct x; try discriminate H
  end; injection H as <-; eexists; reflexivity.
Qed.
Lemma find_num op nl isLeft args r : evaluateListFind op nl isLeft args = Ok (Some r) -> exists z, r = Lit (LNum z).
Proof.
  unfold evaluateListFind. intros H. repeat match type of H with
  | bind ?x _ = _ => destruct x; cbn [bind] in H; try discriminate H
  | (match ?x with _ => _ end) = _ => destruct x; try discriminate H
  end; injection H as <-; eexists; reflexivity.
Qed.
(** List operators that do not give lists. *)
Lemma tail_list k ds r : k = K_EVAL_LIST_LENGTH \/ k = K_EVAL_LIST_FIND \/ k = K_EVAL_LIST_MINCLUDE \/ k = K_EVAL_LIST_MEQ ->
  evaluateLitTail E gt evl k ds = Ok (Some r) ->
  (k = K_EVAL_LIST_LENGTH \/ k = K_EVAL_LIST_FIND -> exists z, r = Lit (LNum z)) /\
  (k = K_EVAL_LIST_MINCLUDE \/ k = K_EVAL_LIST_MEQ -> is_bool_lit r).
Proof.
  intros K H. unfold evaluateLitTail in H.
  destruct (all_literals ds) as [ls|] eqn:A.
  { exfalso. destruct (checkArity k (length ds)) eqn:C; cbn [negb] in H; [|discriminate H].
    destruct (Literal.evaluate k ls) as [[l|]| | |] eqn:V; try discriminate H. clear H. apply all_literals_map in A. subst ds. rewrite map_length in C.
    destruct ls as [|a ls]; [destruct K as [-> | [-> | [-> | ->]]]; discriminate C|].
    apply result_category_correct in V. destruct V as [V _]. destruct K as [-> | [-> | [-> | ->]]]; discriminate V. }
  assert (L : isListLiteralOp k = true) by (destruct K as [-> | [-> | [-> | ->]]]; reflexivity).
  assert (NN : kind_eqb k K_EVAL_NIL = false) by (destruct K as [-> | [-> | [-> | ->]]]; reflexivity).
  rewrite L, NN in H. cbn [negb] in H.
  assert (Q : exists op nl isLeft, evaluateListOp k op nl isLeft ds = Ok (Some r)).
  { destruct (vec_at ds 0) as [a0| | |]; try discriminate H. cbn [bind] in H.
    match type of H with bind ?x _ = _ => destruct x as [op| | |]; try discriminate H end. cbn [bind] in H.
    destruct (e_info E op) as [ai|]; [|discriminate H]. destruct (negb (isListNilAttr (ai_cons ai))); [discriminate H|].
    destruct ds as [|d0 [|d1 ds']]; try discriminate H.
    match type of H with bind ?x _ = _ => destruct x as [[n|]| | |]; try discriminate H end. cbn [bind] in H. eexists _, _, _. exact H. }
  destruct Q as (op & nl & isLeft & Q). unfold evaluateListOp in Q.
  destruct K as [-> | [-> | [-> | ->]]]; (split; [intros [X|X]|intros [X|X]]); try discriminate X.
  - exact (length_num _ _ _ _ _ Q).
  - exact (find_num _ _ _ _ _ Q).
  - exact (mpred_bool _ _ _ _ _ _ Q).
  - exact (mpred_bool _ _ _ _ _ _ Q).
Qed.
Definition first_op (k : kind) : Prop :=
  In k [K_EVAL_NOT; K_EVAL_AND; K_EVAL_OR; K_EVAL_XOR; K_EVAL_ADD; K_EVAL_NEG; K_EVAL_MUL; K_EVAL_CONCAT; K_EVAL_EXTRACT].
Lemma lop_first k ds r : first_op k -> evaluateLiteralOp E gt evl k ds = Ok (Some r) ->
  exists a ls l, ds = Lit a :: ls /\ r = Lit l /\ lit_kind l = lit_kind a.
Proof.
  intros K H. assert (Q : evaluateLitTail E gt evl k ds = Ok (Some r)).
  { unfold first_op in K. cbn in K. unfold evaluateLiteralOp in H. decompose [or] K; try contradiction; subst k; destruct (forallb isGround ds); try discriminate H; exact H. }
  assert (L : isListLiteralOp k = false) by (unfold first_op in K; cbn in K; decompose [or] K; try contradiction; subst k; reflexivity).
  destruct (tail_literal k ds r L Q) as (a & ls & l & -> & -> & RC). exists a, (map Lit ls), l. split; [reflexivity|]. split; [reflexivity|].
  unfold first_op in K. cbn in K. decompose [or] K; try contradiction; subst k; cbn in RC; destruct (lit_kind a); try discriminate RC; congruence.
Qed.
Ltac ops H := repeat match type of H with
  | bind ?x _ = _ => destruct x; cbn [bind] in H; try discriminate H
  | (if ?x then _ else _) = _ => destruct x; try discriminate H
  end.
Lemma lop_bool k ds r ns : op_signature k = Some (ns, OBool) -> evaluateLiteralOp E gt evl k ds = Ok (Some r) -> is_bool_lit r.
Proof.
  intros SG H. unfold evaluateLiteralOp, ret_bool in H. destruct k; try discriminate SG;
    (destruct (negb (forallb isGround ds)) in H; [discriminate H|]);
    try (ops H; injection H as <-; eexists; reflexivity);
    try (apply tail_list in H; [|tauto]; apply H; tauto);
    try (apply tail_literal in H; [|reflexivity]; destruct H as (a & ls & l & _ & -> & RC); cbn in RC; destruct (lit_kind a); try discriminate RC;
         destruct l; try discriminate RC; eexists; reflexivity).
Qed.
Lemma lop_lit k ds r ns c : op_signature k = Some (ns, OLit c) -> evaluateLiteralOp E gt evl k ds = Ok (Some r) ->
  exists l, r = Lit l /\ (lit_kind l = c \/ (k = K_EVAL_INT_DIV \/ k = K_EVAL_INT_MOD) /\ exists a ls, ds = Lit a :: ls /\ lit_kind l = lit_kind a).
Proof.
  intros SG H. unfold evaluateLiteralOp, ret_bool in H. destruct k; try discriminate SG; injection SG as _ <-;
    (destruct (negb (forallb isGround ds)) in H; [discriminate H|]).
  all: try (apply tail_list in H; [|tauto]; destruct H as [H _]; destruct H as (z & ->); [tauto|]; eexists; split; [reflexivity | left; reflexivity]).
  all: try (apply tail_literal in H; [|reflexivity]; destruct H as (a & ls & l & -> & -> & RC); exists l; split; [reflexivity|]; cbn in RC;
            destruct (lit_kind a) eqn:KA; try discriminate RC; injection RC as RC; first [left; congruence | right; split; [tauto|]; exists a, (map Lit ls); split; [reflexivity | congruence]]).
  - ops H. injection H as <-. eexists. split; [reflexivity | left; reflexivity].
  - destruct (vec_at ds 0) as [a0| | |] eqn:V0; cbn [bind] in H; try discriminate H.
    assert (Q : (exists s0, r = Lit (LStr s0)) \/ evaluateLitTail E gt evl K_EVAL_NAME_OF ds = Ok (Some r)).
    { destruct (tkind a0); try (right; exact H); left; injection H as <-; eexists; reflexivity. }
    destruct Q as [[s0 ->]|Q]; [eexists; split; [reflexivity | left; reflexivity]|].
    apply tail_literal in Q; [|reflexivity]. destruct Q as (a & ls & l & -> & -> & RC). discriminate RC.
Qed.
Lemma lop_requires ds r : evaluateLiteralOp E gt evl K_EVAL_REQUIRES ds = Ok (Some r) -> vec_at ds 2 = Ok r.
Proof. unfold evaluateLiteralOp. intros H. ops H. congruence. Qed.
End Ops.

(** * Types *)
Section Types.
Variable E : env.
Variable progs : term -> option (list pcase).
Notation TY := (typed E progs).
Notation TYS := (has_types (e_symtype E) (e_littype E) (e_self E) (e_proofType E) (e_listType E) (evaluates E progs)).

Lemma sym_type k i T : TY (Sym k i) T -> e_symtype E (Sym k i) = Some T.
Proof. intros H. inversion H; subst; assumption. Qed.
Lemma ev_simple s T r : simple_type T -> evaluates E progs s T r -> r = T.
Proof.
  intros (W & C & I & _) (n & H). eapply ev_det; [exact shortcut_ext|exact H|]. apply ev_static; auto.
Qed.
Lemma apply_inv f xs T : TY (Node K_APPLY (f :: xs)) T -> exists fk hts ret ts s,
  TY f (Node fk (hts ++ [ret])) /\ TYS xs ts /\ (fk = K_FUNCTION_TYPE \/ fk = K_PROGRAM_TYPE) /\
  fit_args (e_symtype E) (e_littype E) (e_self E) (e_proofType E) (e_listType E) (evaluates E progs) s hts xs ts /\
  only s hts /\ evaluates E progs s ret T /\ settled T.
Proof.
  intros H. unfold typed in H. inversion H as [| | |k f' xs' fk hs ret ts s T' K HS FK F O V ST| | | | | |k cs ts ns o T' HS SG]; subst;
      try discriminate SG;
      try (match goal with X : In K_APPLY _ |- _ => cbn in X; repeat (destruct X as [X|X]; [discriminate X|]); destruct X end).
  inversion HS; subst. exists fk, hs, ret, ts, s. repeat split; assumption || (apply O; assumption).
Qed.
Lemma fit_simple s hts xs ts : Forall simple_type hts ->
  fit_args (e_symtype E) (e_littype E) (e_self E) (e_proofType E) (e_listType E) (evaluates E progs) s hts xs ts -> ts = hts.
Proof.
  intros F H. revert F. induction H as [| |s h hts x xs tx ts NQ FT H IH]; intros F; [reflexivity| |].
  - inversion F as [|y ys (_ & _ & _ & Q)]; subst. elim Q. reflexivity.
  - inversion F as [|y ys (W & C & _ & _) F']; subst. destruct FT as (_ & FT & _). rewrite (tsubst_closed s h W C) in FT. subst tx.
    now rewrite (IH F').
Qed.
Lemma apply_simple f xs T k As R : (forall B, TY f B -> B = Node k (As ++ [R])) -> Forall simple_type As -> simple_type R ->
  TY (Node K_APPLY (f :: xs)) T -> TYS xs As /\ T = R.
Proof.
  intros U FA SR H. apply apply_inv in H. destruct H as (fk & hts & ret & ts & s & H & HS & _ & F & _ & V & _).
  specialize (U _ H). injection U as -> U. apply app_inj_tail in U. destruct U as [-> ->].
  rewrite (fit_simple s As xs ts FA F) in HS. split; [exact HS|]. exact (ev_simple s R T SR V).
Qed.

(** The values of the parameters of a pattern. *)
Definition suits_on (f : sub) (p : term) : Prop :=
  forall i v, occurs (Sym K_PARAM i) p -> f (Sym K_PARAM i) = Some v -> forall T, TY (Sym K_PARAM i) T -> TY v T.
Scheme shape_i := Minimality for shape Sort Prop with arg_i := Minimality for arg Sort Prop with args_i := Minimality for args Sort Prop.
Combined Scheme shape_ind3 from shape_i, arg_i, args_i.
Lemma pattern_types f :
  (forall p T, shape E p T -> (forall q, is_param q -> occurs q p -> f q <> None) ->
     forall B, TY (tsubst f p) B -> B = T /\ suits_on f p) /\
  (forall p T, arg E p T -> (forall q, is_param q -> occurs q p -> f q <> None) -> TY (tsubst f p) T -> suits_on f p) /\
  (forall ps Ts, args E ps Ts -> (forall p q, In p ps -> is_param q -> occurs q p -> f q <> None) -> TYS (map (tsubst f) ps) Ts ->
     Forall (suits_on f) ps).
Proof.
  apply shape_ind3.
  - intros k i T NK ST _ B H.
    assert (X : tsubst f (Sym k i) = Sym k i) by (destruct k; try reflexivity; elim NK; reflexivity). rewrite X in H.
    apply sym_type in H. split; [congruence|]. intros j v O. inversion O; subst. elim NK. reflexivity.
  - intros g xs As R SH IHf AR IHx FA SR D B H. cbn [tsubst map] in H.
    assert (U : forall B, TY (tsubst f g) B -> B = Node K_FUNCTION_TYPE (As ++ [R])).
    { intros B0 H0. apply (IHf (fun q Q O => D q Q (occ_child q K_APPLY (g :: xs) g (or_introl eq_refl) O)) B0 H0). }
    pose proof H as H1. apply apply_inv in H1. destruct H1 as (fk & hts & ret & ts & s & HG & _).
    destruct (IHf (fun q Q O => D q Q (occ_child q K_APPLY (g :: xs) g (or_introl eq_refl) O)) _ HG) as [_ SG].
    destruct (apply_simple _ _ _ K_FUNCTION_TYPE As R U FA SR H) as [HS ->]. split; [reflexivity|].
    specialize (IHx (fun p q I Q O => D q Q (occ_child q K_APPLY (g :: xs) p (or_intror I) O)) HS).
    intros i v O V T HT. inversion O as [|k cs u I O']; subst. destruct I as [<-|I]; [exact (SG i v O' V T HT)|].
    rewrite Forall_forall in IHx. exact (IHx u I i v O' V T HT).
  - intros i T ST D H j v O V T' H'. inversion O; subst. apply sym_type in H'. assert (T' = T) by congruence. subst T'.
    cbn [tsubst] in H. rewrite V in H. exact H.
  - intros l T _ _ i v O. inversion O.
  - intros t T SH IH D H. exact (proj2 (IH D T H)).
  - constructor.
  - intros t ts T Ts A IH AS IHs D H. cbn [map] in H. inversion H; subst. constructor.
    + apply IH; [|assumption]. intros q Q O. exact (D t q (or_introl eq_refl) Q O).
    + apply IHs; [|assumption]. intros p q I Q O. exact (D p q (or_intror I) Q O).
Qed.
End Types.

(** * Evaluation keeps types *)
Section Main.
Variable E : env.
Variable progs : term -> option (list pcase).
Variable good : term -> Prop.
Hypothesis FL : fixed_literals E.
Hypothesis GP : forall hd, good hd -> typed_program E progs good hd.
Notation TY := (typed E progs).
Notation TYS := (has_types (e_symtype E) (e_littype E) (e_self E) (e_proofType E) (e_listType E) (evaluates E progs)).
Notation LT := (literal_type (e_littype E) (e_self E) (evaluates E progs)).

Lemma literal_fixed k x y T : LT k x T -> LT k y T.
Proof.
  unfold literal_type. destruct (e_littype E k) as [tp|] eqn:L; [|auto]. intros [H|[N _]]; [left; exact H|]. elim N. exact (FL k tp L).
Qed.
Lemma lit_inv l T : TY (Lit l) T -> (lit_kind l = K_BOOLEAN /\ T = ty_bool) \/ (lit_kind l <> K_BOOLEAN /\ LT (lit_kind l) (Lit l) T /\ settled T).
Proof. intros H. inversion H; subst; [left; split; reflexivity | right; auto]. Qed.
Lemma lit_same a l T : lit_kind l = lit_kind a -> TY (Lit a) T -> TY (Lit l) T.
Proof.
  intros K H. apply lit_inv in H. destruct H as [[KA ->]|(NB & L & ST)].
  - rewrite KA in K. destruct l; try discriminate K. apply ht_boolean.
  - apply ht_literal; [congruence| |exact ST]. rewrite K. exact (literal_fixed _ _ _ _ L).
Qed.
Lemma hts_app_nil ts : TYS [] ts -> ts = [].
Proof. intros H. inversion H. reflexivity. Qed.
Lemma fit_swap s hts xs ts : Forall (fun h => tkind h <> K_QUOTE_TYPE) hts ->
  fit_args (e_symtype E) (e_littype E) (e_self E) (e_proofType E) (e_listType E) (evaluates E progs) s hts xs ts ->
  forall ys, length ys = length xs ->
  fit_args (e_symtype E) (e_littype E) (e_self E) (e_proofType E) (e_listType E) (evaluates E progs) s hts ys ts.
Proof.
  intros F H. revert F. induction H as [s|s q qs hts x xs tx ts _ _ H IH|s h hts x xs tx ts NQ FT H IH]; intros F ys L.
  - destruct ys; [constructor|discriminate L].
  - inversion F as [|? ? Q]; subst. elim Q. reflexivity.
  - destruct ys as [|y ys]; [discriminate L|]. injection L as L. inversion F; subst. apply fa_plain; auto.
Qed.
Lemma op_inv k cs T : isLiteralOp k = true -> TY (Node k cs) T -> exists ts ns o, TYS cs ts /\ op_signature k = Some (ns, o) /\ In (length cs) ns /\
  op_result (e_littype E) (e_self E) (e_listType E) (evaluates E progs) o cs ts T /\ settled T.
Proof.
  intros LO H. inversion H; subst; try discriminate LO;
    try (match goal with X : _ \/ _ |- _ => destruct X as [X|X]; subst; discriminate LO end);
    try (match goal with X : In k _ |- _ => cbn in X; decompose [or] X; try contradiction; subst; discriminate LO end).
  eexists _, _, _. repeat split; eassumption.
Qed.
Lemma op_sig_lop k ns o : op_signature k = Some (ns, o) -> isLiteralOp k = true.
Proof. destruct k; try discriminate; reflexivity. Qed.
Lemma lit_op_lop k : literal_op k -> isLiteralOp k = true /\ k <> K_EVAL_IF_THEN_ELSE.
Proof.
  intros [H|(ns & o & H & O)].
  - cbn in H. decompose [or] H; try contradiction; subst; split; (reflexivity || discriminate).
  - split; [exact (op_sig_lop k ns o H)|]. intros ->. cbn in H. injection H as _ <-. destruct O as [O|(c & O)]; discriminate O.
Qed.
Lemma not_app k : isLiteralOp k = true -> ~ is_application k.
Proof. intros H [->| ->]; discriminate H. Qed.

Section Level.
Variable n : nat.
Notation lop := (tc_lop (tc E n)).
Lemma lop_level k ds r : lop k ds = Ok (Some r) -> exists gt evl, evaluateLiteralOp E gt evl k ds = Ok (Some r).
Proof. destruct n as [|m]; [discriminate|]. cbn. intros H. eexists _, _. exact H. Qed.
Lemma evs_length s cs ds : evs lop progs shortcut s cs ds -> length ds = length cs.
Proof. induction 1; cbn; congruence. Qed.
Lemma head_ev f : head f -> forall s g, ev lop progs shortcut s f g -> ~ is_program g.
Proof.
  induction 1 as [k i NP NC|f xs H IH]; intros s g HE.
  - inversion HE; subst; try (elim NP; reflexivity). intros (j & X). injection X as -> _. elim NC. reflexivity.
  - inversion HE; subst; try discriminate;
      try (match goal with X : evs _ _ _ _ (f :: xs) _ |- _ => inversion X; subst end);
      try (match goal with Y : is_program ?h, X : ev _ _ _ _ f ?h |- _ => elim (IH _ _ X Y) end);
      try (match goal with Y : ~ is_application _ |- _ => elim Y; left; reflexivity end).
    intros (j & X). discriminate X.
Qed.

Lemma call_inv s k cs hd xs : is_application k -> evs lop progs shortcut s cs (hd :: xs) -> is_program hd -> keeps E progs good s (Node k cs) ->
  exists i ys, k = K_APPLY /\ cs = Sym K_PROGRAM_CONST i :: ys /\ hd = Sym K_PROGRAM_CONST i /\ good hd /\ Forall (keeps E progs good s) ys.
Proof.
  intros A HE PG K.
  inversion K as [t0 X|f0 ys HD Kf Kx NQ|i ys G Kx|cs0 Kx|k0 cs0 LO Kx DM|c0 a0 b0 Kc Ka Kb SAME|a0 b0 c0 Ka Kb Kc]; subst.
  - cbn in X. subst cs. inversion HE.
  - inversion HE as [|? ? ? ? ? HV]; subst. elim (head_ev f0 HD s hd HV PG).
  - inversion HE as [|? ? ? ? ? HV]; subst. inversion HV; subst. exists i, ys. auto.
  - destruct A as [A|A]; discriminate A.
  - apply lit_op_lop in LO. elim (not_app k (proj1 LO) A).
  - destruct A as [A|A]; discriminate A.
  - destruct A as [A|A]; discriminate A.
Qed.
Lemma selects_case xs cases r : selects xs cases r -> forall body f, r = Some (body, f) -> exists ps, In (ps, body) cases /\ exact_instance f ps xs.
Proof.
  induction 1 as [| | |ps rhs cases r L NI SL IH]; intros body g Q; try discriminate Q.
  - injection Q as <- <-. eexists. split; [left; reflexivity|assumption].
  - destruct (IH body g Q) as (qs & I & X). exists qs. split; [right; exact I|exact X].
Qed.
Lemma call_types s i xs ys body f T : good (Sym K_PROGRAM_CONST i) -> evs lop progs shortcut s (Sym K_PROGRAM_CONST i :: ys) (Sym K_PROGRAM_CONST i :: xs) ->
  calls progs (Sym K_PROGRAM_CONST i) xs (Some (body, f)) -> TY (Node K_APPLY (Sym K_PROGRAM_CONST i :: ys)) T ->
  (forall As, TYS ys As -> TYS xs As) -> Forall (keeps E progs good s) ys ->
  exists R, T = R /\ TY body R /\ suits E progs f /\ keeps E progs good f body.
Proof.
  intros G HE CL H TS K. destruct (GP _ G) as (As & R & DT & FA & SR & CS).
  assert (UB : forall B, TY (Sym K_PROGRAM_CONST i) B -> B = Node K_PROGRAM_TYPE (As ++ [R])) by (intros B HB; apply sym_type in HB; congruence).
  destruct (apply_simple E progs _ _ _ K_PROGRAM_TYPE As R UB FA SR H) as [HS ->].
  apply TS in HS. exists R. split; [reflexivity|]. inversion CL as [| |cases r _ _ PC SL]; subst.
  destruct (selects_case _ _ _ SL body f eq_refl) as (ps & I & (IN & DOM) & ON). specialize (CS cases PC). rewrite Forall_forall in CS.
  destruct (CS _ I) as (PA & HB & KB). cbn [fst snd] in PA, HB, KB. subst xs.
  destruct (pattern_types E progs f) as (_ & _ & PT). specialize (PT ps As PA DOM HS). rewrite Forall_forall in PT.
  assert (SF : suits E progs f).
  { intros j v V T HT. destruct (ON (Sym K_PARAM j)) as (_ & q & Iq & Oq); [congruence|]. exact (PT q Iq j v Oq V T HT). }
  auto.
Qed.

Theorem keeps_types :
  (forall s t v, ev lop progs shortcut s t v -> suits E progs s -> keeps E progs good s t -> forall T, TY t T -> TY v T) /\
  (forall s cs ds, evs lop progs shortcut s cs ds -> suits E progs s -> Forall (keeps E progs good s) cs -> forall Ts, TYS cs Ts -> TYS ds Ts).
Proof.
  apply ev_evs_ind.
  - intros s i SU _ T H. destruct (s (Sym K_PARAM i)) as [v|] eqn:V; [exact (SU i v V T H)|exact H].
  - auto.
  - auto.
  - intros s c a b r _ _ _ IHa SU K T H. apply op_inv in H; [|reflexivity]. destruct H as (ts & ns & o & HS & SG & _ & R & _).
    injection SG as _ <-. cbn in R.
    inversion K as [t0 X|?|?|?|k cs LO| c0 a0 b0 Kc Ka Kb SAME |]; subst; [discriminate X|apply lit_op_lop in LO; destruct LO as [_ LO]; elim LO; reflexivity|].
    apply IHa; auto. inversion HS as [|? ? ? ? _ HS']; subst. inversion HS'; subst. cbn in R. injection R as <-. assumption.
  - intros s c a b r _ _ _ IHb SU K T H. apply op_inv in H; [|reflexivity]. destruct H as (ts & ns & o & HS & SG & _ & R & _).
    injection SG as _ <-. cbn in R.
    inversion K as [t0 X|?|?|?|k cs LO| c0 a0 b0 Kc Ka Kb SAME |]; subst; [discriminate X|apply lit_op_lop in LO; destruct LO as [_ LO]; elim LO; reflexivity|].
    apply IHb; auto. apply SAME. inversion HS as [|? ? ? ? _ HS']; subst. inversion HS'; subst. cbn in R. injection R as <-. assumption.
  - intros s c a b c' a' b' _ IHc _ _ IHa _ IHb SU K T H. apply op_inv in H; [|reflexivity]. destruct H as (ts & ns & o & HS & SG & L & R & ST).
    pose proof SG as SG'. injection SG' as _ <-. cbn in R.
    inversion K as [t0 X|?|?|?|k cs LO| c0 a0 b0 Kc Ka Kb SAME |]; subst; [discriminate X|apply lit_op_lop in LO; destruct LO as [_ LO]; elim LO; reflexivity|].
    inversion HS as [|? ? ? ? Hc HS1]; subst. inversion HS1 as [|? ? ? ? Ha HS2]; subst. inversion HS2 as [|? ? ? ? Hb HS3]; subst.
    assert (Z : TYS [c'; a'; b'] (T0 :: T1 :: T2 :: Ts)).
    { constructor; [apply IHc; assumption|]. constructor; [apply IHa; assumption|].
      constructor; [apply IHb; assumption|]. inversion HS3. constructor. }
    eapply ht_op; [exact Z|exact SG|exact L|exact R|exact ST].
  - intros s k cs hd xs body f r A HE IHs PG CL _ _ IHb SU K T H. destruct (call_inv s k cs hd xs A HE PG K) as (i & ys & -> & -> & -> & G & Kx).
    destruct (call_types s i xs ys body f T G HE CL H) as (R & RR & HB & SF & KB); [|exact Kx|].
    { intros As HS. specialize (IHs SU). destruct (GP _ G) as (As' & R' & DT & _ & _ & _).
      assert (Z : TYS (Sym K_PROGRAM_CONST i :: xs) (Node K_PROGRAM_TYPE (As' ++ [R']) :: As)).
      { apply IHs; [constructor; [apply kp_leaf; reflexivity|exact Kx]|]. constructor; [now apply ht_symbol|exact HS]. }
      now inversion Z. }
    subst T. exact (IHb SF KB R HB).
  - intros s k cs hd xs body f A HE IHs PG CL _ SU K T H. destruct (call_inv s k cs hd xs A HE PG K) as (i & ys & -> & -> & -> & G & Kx).
    destruct (call_types s i xs ys body f T G HE CL H) as (R & RR & HB & SF & KB); [|exact Kx|].
    { intros As HS. specialize (IHs SU). destruct (GP _ G) as (As' & R' & DT & _ & _ & _).
      assert (Z : TYS (Sym K_PROGRAM_CONST i :: xs) (Node K_PROGRAM_TYPE (As' ++ [R']) :: As)).
      { apply IHs; [constructor; [apply kp_leaf; reflexivity|exact Kx]|]. constructor; [now apply ht_symbol|exact HS]. }
      now inversion Z. }
    subst T. exact HB.
  - intros s k cs hd xs A HE IHs PG _ SU K T H. destruct (call_inv s k cs hd xs A HE PG K) as (i & ys & -> & -> & -> & G & Kx).
    apply apply_inv in H. destruct H as (fk & hts & ret & ts & s' & HF & HS & FK & F & O & V & ST).
    assert (Z : TYS (Sym K_PROGRAM_CONST i :: xs) (Node fk (hts ++ [ret]) :: ts)).
    { apply IHs; [exact SU|constructor; [apply kp_leaf; reflexivity|exact Kx]|]. now constructor. }
    eapply ht_apply; [left; reflexivity|exact Z|exact FK| |exact O|exact V|exact ST]. eapply fit_swap; [|exact F|].
    + destruct (GP _ G) as (As & R & DT & FA & _ & _). apply sym_type in HF. rewrite DT in HF. injection HF as <- EQ. apply app_inj_tail in EQ. destruct EQ as [-> _].
      eapply Forall_impl; [|exact FA]. intros h Q. apply Q.
    + apply evs_length in HE. cbn in HE. congruence.
  - intros s k cs hd xs A HE IHs NP SU K T H.
    inversion K as [t0 X|f0 ys HD Kf Kx NQ|i ys G Kx|cs0 Kx|k0 cs0 LO Kx DM|c0 a0 b0 Kc Ka Kb SAME|a0 b0 c0 Ka Kb Kc]; subst.
    + cbn in X. subst cs. inversion HE.
    + apply apply_inv in H. destruct H as (fk & hts & ret & ts & s' & HF & HS & FK & F & O & V & ST).
      assert (Z : TYS (hd :: xs) (Node fk (hts ++ [ret]) :: ts)).
      { apply IHs; [exact SU|constructor; [exact Kf|exact Kx]|]. now constructor. }
      eapply ht_apply; [left; reflexivity|exact Z|exact FK| |exact O|exact V|exact ST]. eapply fit_swap; [exact (NQ _ _ _ HF)|exact F|].
      apply evs_length in HE. cbn in HE. congruence.
    + exfalso. inversion HE as [|? ? ? ? ? HV]; subst. inversion HV; subst. apply NP. eexists. reflexivity.
    + destruct A as [A|A]; discriminate A.
    + apply lit_op_lop in LO. elim (not_app k (proj1 LO) A).
    + destruct A as [A|A]; discriminate A.
    + destruct A as [A|A]; discriminate A.
  - (* operators *)
    intros s k cs ds r LO NI NE HE IHs LV SU K T H. destruct (op_inv k cs T LO H) as (ts & ns & o & HS & SG & _ & R & ST).
    apply lop_level in LV. destruct LV as (gt & evl & LV).
    inversion K as [t0 X|f0 ys HD Kf Kx NQ|i ys G Kx|cs0 Kx|k0 cs0 LO' Kx DM|c0 a0 b0 Kc Ka Kb SAME|a0 b0 c0 Ka Kb Kc]; subst; try discriminate LO.
    + cbn in X. contradiction.
    + specialize (IHs SU Kx ts HS).
      assert (C : first_op k \/ exists ns o, op_signature k = Some (ns, o) /\ (o = OBool \/ exists c, o = OLit c)) by exact LO'.
      destruct C as [C|(ns' & o' & SG' & C)].
      * destruct (lop_first E gt evl k ds r C LV) as (a & ls & l & -> & -> & KA).
        assert (O : o = OArgType 0) by (cbn in C; unfold first_op in C; cbn in C; decompose [or] C; try contradiction; subst k; injection SG as _ <-; reflexivity).
        subst o. cbn in R. inversion IHs; subst. injection R as <-. eapply lit_same; eassumption.
      * rewrite SG in SG'. injection SG' as <- <-. destruct C as [-> | (c & ->)].
        -- destruct (lop_bool E gt evl k ds r ns SG LV) as (b & ->). cbn in R. subst T. apply ht_boolean.
        -- destruct (lop_lit E gt evl k ds r ns c SG LV) as (l & -> & KL). cbn in R.
           assert (KC : lit_kind l = c).
           { destruct KL as [KL|[KD (a & ls & -> & KL)]]; [exact KL|]. assert (CN : c = K_NUMERAL) by (destruct KD as [-> | ->]; injection SG as _ <-; reflexivity).
             subst c. rewrite KL. inversion HE as [|s0 c0 cs0' d0 ds0 HE1 HE2]; subst. apply (DM KD c0 cs0' a eq_refl). exists n. exact HE1. }
           apply ht_literal; [|rewrite KC; exact (literal_fixed _ _ _ _ R)|exact ST]. rewrite KC. clear -SG. destruct k; try discriminate SG; injection SG as _ <-; discriminate.
    + elim NI. reflexivity.
    + assert (Z : TYS ds ts) by (apply IHs; [exact SU|repeat (constructor; [assumption|]); constructor|exact HS]).
      apply lop_requires in LV. cbn in SG. injection SG as <- <-. cbn in R.
      inversion Z as [|d0 ds1 T0 Ts1 Z0 Z1]; subst; [discriminate LV|]. inversion Z1 as [|d1 ds2 T1 Ts2 Z2 Z3]; subst; [discriminate LV|].
      inversion Z3 as [|d2 ds3 T2 Ts3 Z4 Z5]; subst; [discriminate LV|]. cbn in LV, R. injection LV as <-. injection R as <-. exact Z4.
  - intros s k cs ds LO NI NE HE IHs LV SU K T H. destruct (op_inv k cs T LO H) as (ts & ns & o & HS & SG & L & R & ST).
    rewrite <- (evs_length s cs ds HE) in L.
    inversion K as [t0 X|f0 ys HD Kf Kx NQ|i ys G Kx|cs0 Kx|k0 cs0 LO' Kx DM|c0 a0 b0 Kc Ka Kb SAME|a0 b0 c0 Ka Kb Kc]; subst; try discriminate LO.
    + cbn in X. contradiction.
    + eapply ht_op; [exact (IHs SU Kx ts HS)|exact SG|exact L| |exact ST]. destruct LO' as [C|(ns' & o' & SG' & C)].
      * assert (O : o = OArgType 0) by (cbn in C; decompose [or] C; try contradiction; subst k; injection SG as _ <-; reflexivity). subst o. exact R.
      * rewrite SG in SG'. injection SG' as <- <-. destruct C as [-> | (c & ->)]; exact R.
    + elim NI. reflexivity.
    + assert (Z : TYS ds ts) by (apply IHs; [exact SU|repeat (constructor; [assumption|]); constructor|exact HS]).
      eapply ht_op; [exact Z|exact SG|exact L| |exact ST]. cbn in SG. injection SG as <- <-. exact R.
  - intros s k cs ds LO NA NE HE IHs SU K T H.
    inversion K as [t0 X|f0 ys HD Kf Kx NQ|i ys G Kx|cs0 Kx|k0 cs0 LO' Kx DM|c0 a0 b0 Kc Ka Kb SAME|a0 b0 c0 Ka Kb Kc]; subst; try discriminate LO.
    + cbn in X. contradiction.
    + elim NA. left. reflexivity.
    + elim NA. left. reflexivity.
    + inversion H; subst; try (match goal with X : _ \/ _ |- _ => destruct X as [X|X]; discriminate X end);
        try (match goal with X : op_signature _ = _ |- _ => discriminate X end);
        try (match goal with X : In K_FUNCTION_TYPE [K_QUOTE_TYPE; K_TUPLE] |- _ => cbn in X; decompose [or] X; try contradiction; discriminate end).
      eapply ht_type; [eassumption|]. eapply IHs; eassumption.
    + apply lit_op_lop in LO'. destruct LO' as [LO' _]. congruence.
  - intros s SU _ Ts H. exact H.
  - intros s c cs d ds _ IH _ IHs SU K Ts H. inversion K; subst. inversion H; subst. constructor; [apply IH|apply IHs]; assumption.
Qed.
End Level.
Theorem evaluates_keeps s t v T : suits E progs s -> keeps E progs good s t -> evaluates E progs s t v -> TY t T -> TY v T.
Proof. intros SU K (n & H) HT. exact (proj1 (keeps_types n) s t v H SU K T HT). Qed.
End Main.
