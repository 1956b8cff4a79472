(** C85: the programs and macros of tests/eo-definitions.eo compute what the
    built-in operators compute (user_manual.md 2178-2240). *)
From Coq Require Import String ZArith QArith List Bool Lia Permutation.
From Verif Require Import Base Kind Ints IntsProofs Str SpecLit Literal Arity Term SpecTerm SpecEval SpecList TermProofs Match MatchProofs Eval EvalProofs ListOps Typing ListProofs2 PropList Build Scope Lexer Parse Check Encode SpecDerived DerivedProofs DerivedProofs2 DefinitionsText.
Import ListNotations. Open Scope Z_scope.

(** The library is loaded, $eo_nil knows the operator, and the list is one of the operator. *)
Definition library85 (progs : term -> option (list pcase)) (L : library) (op nl T : term) : Prop :=
  derived L progs /\ value op /\ value nl /\ value T /\ not_app2 op nl /\ nil_program progs L op nl T.
Definition list85 (E : env) (n : nat) (op nl T : term) (xs : list term) : Prop :=
  list_op E n false op op (rlist op nl xs) nl /\ Forall value xs /\ curried op (rlist op nl xs) /\
  lists_typed (tc_lop (tc E (S n))) op nl T xs.
Definition both85 E n progs := both (tc_lop (tc E (S n))) progs.
Definition ev85 E n progs := ev (tc_lop (tc E (S n))) progs shortcut.

Lemma val_ground : forall v, value v -> ground_arg v.
Proof. intros v (W & C & _). split; assumption. Qed.
Ltac gr := repeat (apply Forall_cons; [apply val_ground; first [assumption|apply val_rlist; assumption|apply val_lit]|]); apply Forall_nil.
Ltac start := intros E n progs L op nl T; intros;
  match goal with H : library85 _ _ _ _ _ |- _ => destruct H as (D & Vop & Vnl & VT & Nnl & Hnil) end;
  repeat match goal with H : list85 _ _ _ _ _ _ |- _ => let O := fresh "O" in let V := fresh "V" in let C := fresh "C" in let Y := fresh "Y" in destruct H as (O & V & C & Y) end;
  unfold both85, ev85 in *.
Ltac evs2 := repeat (first [apply evs_nil | eapply evs_cons; [eassumption|]]).
Ltac builtin := eapply ev_op; [reflexivity|discriminate|discriminate|evs2|].

(** The macros and programs on lists. *)
Theorem C85_is_list : forall E n progs L op nl T v s f a, library85 progs L op nl T ->
  ev85 E n progs s f op -> ev85 E n progs s a v -> value v -> tc_lop (tc E (S n)) K_EVAL_TYPE_OF [v] = Ok (Some T) ->
  exists b, ev85 E n progs s (d_is_list L f a) (boolean b) /\ (b = true <-> exists xs, v = rlist op nl xs).
Proof.
  start. destruct (rlist_split op v) as (xs & e & -> & Ne). exists (term_eqb nl e). split.
  - apply (run_d_is_list E n progs L D op nl Vop Vnl T VT Hnil s f a e xs); assumption.
  - rewrite term_eqb_eq. split; [intros <-; exists xs; reflexivity|]. intros [ys Hy].
    assert (X : forall l m, rlist op e l = rlist op nl m -> nl = e).
    { induction l as [|x l IH]; intros [|y m] Z; cbn [rlist] in Z.
      - symmetry. exact Z.
      - exfalso. exact (Ne _ _ Z).
      - exfalso. exact (Nnl _ _ (eq_sym Z)).
      - injection Z as _ Z. exact (IH _ Z). }
    exact (X _ _ Hy).
Qed.
Print Assumptions C85_is_list.

Theorem C85_cons : forall E n progs L op nl T xs x s f a e, library85 progs L op nl T ->
  list85 E n op nl T xs -> ev85 E n progs s f op -> ev85 E n progs s a (rlist op nl xs) -> ev85 E n progs s e x -> value x -> list_op E n false op op x nl ->
  both85 E n progs s (Node K_EVAL_CONS [f; e; a]) (d_cons L f e a).
Proof.
  start. exists (rlist op nl (x :: xs)). split; [apply val_rlist; try assumption; constructor; assumption|]. split.
  - builtin. apply (proj1 (C24_cons E n op op x (rlist op nl xs) nl ltac:(assumption) ltac:(gr) ltac:(assumption) Nnl) xs eq_refl).
  - apply (run_checked E n progs L D op nl Vop Vnl Nnl T VT Hnil _ _ _ xs); try assumption.
    apply ev_app2; try assumption. apply val_not_prog. exact Vop.
Qed.
Print Assumptions C85_cons.

Theorem C85_length : forall E n progs L op nl T xs s f a, library85 progs L op nl T ->
  list85 E n op nl T xs -> ev85 E n progs s f op -> ev85 E n progs s a (rlist op nl xs) ->
  both85 E n progs s (Node K_EVAL_LIST_LENGTH [f; a]) (d_len L f a).
Proof.
  start. exists (num (Z.of_nat (length xs))). split; [apply val_lit|]. split.
  - builtin. apply (C24_length E n op op _ nl xs); try assumption; [gr|reflexivity].
  - apply (run_checked E n progs L D op nl Vop Vnl Nnl T VT Hnil _ _ _ xs); try assumption.
    apply (run_len E n progs L D op nl Vop Vnl Nnl); assumption.
Qed.
Print Assumptions C85_length.

Theorem C85_concat : forall E n progs L op nl T xs ys s f a b, library85 progs L op nl T ->
  list85 E n op nl T xs -> list85 E n op nl T ys -> ev85 E n progs s f op ->
  ev85 E n progs s a (rlist op nl xs) -> ev85 E n progs s b (rlist op nl ys) ->
  both85 E n progs s (Node K_EVAL_LIST_CONCAT [f; a; b]) (d_concat L f a b).
Proof.
  start. exists (rlist op nl (xs ++ ys)). split; [apply val_rlist; try assumption; apply Forall_app; split; assumption|]. split.
  - builtin. apply (proj1 (C24_concat E n op op (rlist op nl xs) (rlist op nl ys) nl ltac:(assumption) ltac:(gr) ltac:(assumption) ltac:(assumption) Nnl) xs ys eq_refl eq_refl).
  - apply (run_checked E n progs L D op nl Vop Vnl Nnl T VT Hnil _ _ _ xs); try assumption.
    apply (run_checked E n progs L D op nl Vop Vnl Nnl T VT Hnil _ _ _ ys); try assumption.
    apply (run_concat E n progs L D op nl Vop Vnl Nnl); assumption.
Qed.
Print Assumptions C85_concat.

Theorem C85_nth : forall E n progs L op nl T xs i s f a m, library85 progs L op nl T ->
  list85 E n op nl T xs -> ev85 E n progs s f op -> ev85 E n progs s a (rlist op nl xs) -> ev85 E n progs s m (num i) ->
  Z.of_nat (length xs) < 2 ^ 32 -> 0 <= i < Z.of_nat (length xs) ->
  both85 E n progs s (Node K_EVAL_LIST_NTH [f; a; m]) (d_nth L f a m).
Proof.
  start. destruct (nth_error xs (Z.to_nat i)) as [x|] eqn:Hx; [|apply nth_error_None in Hx; lia].
  exists x. split; [|split].
  - match goal with H : Forall value xs |- _ => rewrite Forall_forall in H; apply H end. exact (nth_error_In _ _ Hx).
  - builtin. unfold num; rewrite (C24_nth E n op op (rlist op nl xs) nl xs i); try assumption; [|gr|reflexivity].
    destruct (Z.ltb_spec i 0); [lia|]. rewrite Hx. reflexivity.
  - apply (run_checked E n progs L D op nl Vop Vnl Nnl T VT Hnil _ _ _ xs); try assumption.
    apply (run_nth E n progs L D op nl Vop Vnl xs _ _ _ _ (Z.to_nat i)); try assumption. rewrite Z2Nat.id by lia. assumption.
Qed.
Print Assumptions C85_nth.
(** Without such an element neither evaluates to a value. *)
Theorem C85_nth_none : forall E n progs L op nl T xs i s f a m, library85 progs L op nl T ->
  list85 E n op nl T xs -> ev85 E n progs s f op -> ev85 E n progs s a (rlist op nl xs) -> ev85 E n progs s m (num i) ->
  Z.of_nat (length xs) < 2 ^ 32 -> i < 0 \/ Z.of_nat (length xs) <= i ->
  neither (tc_lop (tc E (S n))) progs s (Node K_EVAL_LIST_NTH [f; a; m]) (d_nth L f a m).
Proof.
  start. split.
  - exists (Node K_EVAL_LIST_NTH [op; rlist op nl xs; num i]). split.
    + eapply ev_op_stuck; [reflexivity|discriminate|discriminate|evs2|].
      unfold num; rewrite (C24_nth E n op op (rlist op nl xs) nl xs i); try assumption; [|gr|reflexivity].
      destruct (Z.ltb_spec i 0); [reflexivity|]. f_equal. apply nth_error_None. lia.
    + intro I. apply (I _ (occ_here _)). right. right. eexists _, _. split; [reflexivity|]. split; [discriminate|reflexivity].
  - exists (call (l_nth L) [op; nl; num (i - Z.of_nat (length xs))]). split.
    + apply (run_checked E n progs L D op nl Vop Vnl Nnl T VT Hnil _ _ _ xs); try assumption.
      apply (run_nth_none E n progs L D op nl Vop Vnl Nnl); assumption.
    + intro I. apply (I (prog (l_nth L))); [|left; eexists; reflexivity].
      apply (occ_child _ _ _ (prog (l_nth L))); [left; reflexivity|constructor].
Qed.
Print Assumptions C85_nth_none.

Theorem C85_find : forall E n progs L op nl T xs x s f a e, library85 progs L op nl T ->
  list85 E n op nl T xs -> ev85 E n progs s f op -> ev85 E n progs s a (rlist op nl xs) -> ev85 E n progs s e x -> value x ->
  both85 E n progs s (Node K_EVAL_LIST_FIND [f; a; e]) (d_find L f a e).
Proof.
  start. destruct (C24_find E n op op (rlist op nl xs) nl xs x) as (i & Hi & Pi); try assumption; [gr|reflexivity|].
  exists (num i). split; [apply val_lit|]. split; [builtin; exact Hi|].
  apply (run_checked E n progs L D op nl Vop Vnl Nnl T VT Hnil _ _ _ xs); try assumption.
  destruct (run_find E n progs L D op nl Vop Vnl Nnl xs s f a e (num 0) x 0) as (j & Pj & Ej); try assumption; [apply ev_lit|].
  rewrite (position_det _ _ _ _ Pi Pj). replace (if j =? -1 then -1 else 0 + j) with j in Ej; [exact Ej|].
  destruct (Z.eqb_spec j (-1)); lia.
Qed.
Print Assumptions C85_find.

Theorem C85_rev : forall E n progs L op nl T xs s f a, library85 progs L op nl T ->
  list85 E n op nl T xs -> ev85 E n progs s f op -> ev85 E n progs s a (rlist op nl xs) ->
  both85 E n progs s (Node K_EVAL_LIST_REV [f; a]) (d_rev L f a).
Proof.
  start. exists (rlist op nl (rev xs)). split; [apply val_rlist; try assumption; apply Forall_rev; assumption|]. split.
  - builtin. apply (C24_rev E n op op _ nl xs); try assumption; [gr|reflexivity].
  - apply (run_checked E n progs L D op nl Vop Vnl Nnl T VT Hnil _ _ _ xs); try assumption.
    rewrite <- (app_nil_r (rev xs)). apply (run_rev E n progs L D op nl Vop Vnl Nnl); try assumption; [|constructor].
    apply (run_nil E n progs L op nl Vop Vnl T VT Hnil s f a (rlist op nl xs)); try assumption.
    match goal with H : lists_typed _ _ _ _ _ |- _ => apply H; [apply incl_refl|lia] end.
Qed.
Print Assumptions C85_rev.

Theorem C85_erase : forall E n progs L op nl T xs x s f a e, library85 progs L op nl T ->
  list85 E n op nl T xs -> ev85 E n progs s f op -> ev85 E n progs s a (rlist op nl xs) -> ev85 E n progs s e x -> value x ->
  both85 E n progs s (Node K_EVAL_LIST_ERASE [f; a; e]) (d_erase L f a e).
Proof.
  start. destruct (C25_erase E n op op (rlist op nl xs) nl xs x) as (ys & Hy & By); try assumption; [gr|reflexivity|].
  destruct (run_d_erase E n progs L D op nl Vop Vnl Nnl T VT Hnil xs s f a e x) as (zs & Hz & Ez); try assumption.
  rewrite <- (erased_det _ _ _ _ Hy Hz) in Ez. exists (rlist op nl ys). split; [|split; [builtin; exact By|exact Ez]].
  apply val_rlist; try assumption. apply (incl_vals xs); [apply (erased_incl _ _ _ Hy)|assumption].
Qed.
Print Assumptions C85_erase.

Theorem C85_erase_all : forall E n progs L op nl T xs x s f a e, library85 progs L op nl T ->
  list85 E n op nl T xs -> ev85 E n progs s f op -> ev85 E n progs s a (rlist op nl xs) -> ev85 E n progs s e x -> value x ->
  both85 E n progs s (Node K_EVAL_LIST_ERASE_ALL [f; a; e]) (d_erase_all L f a e).
Proof.
  start. destruct (C25_erase_all E n op op (rlist op nl xs) nl xs x) as (ys & Hy & By); try assumption; [gr|reflexivity|].
  destruct (run_d_erase_all E n progs L D op nl Vop Vnl Nnl T VT Hnil xs s f a e x) as (zs & Hz & Ez); try assumption.
  rewrite <- (erased_all_det _ _ _ _ Hy Hz) in Ez. exists (rlist op nl ys). split; [|split; [builtin; exact By|exact Ez]].
  apply val_rlist; try assumption. apply (incl_vals xs); [apply (erased_all_incl _ _ _ Hy)|assumption].
Qed.
Print Assumptions C85_erase_all.

Theorem C85_setof : forall E n progs L op nl T xs s f a, library85 progs L op nl T ->
  list85 E n op nl T xs -> ev85 E n progs s f op -> ev85 E n progs s a (rlist op nl xs) ->
  both85 E n progs s (Node K_EVAL_LIST_SETOF [f; a]) (d_setof L f a).
Proof.
  start. destruct (C25_setof E n op op (rlist op nl xs) nl xs) as (ys & Hy & By); try assumption; [gr|reflexivity|].
  destruct (run_setof_n E n progs L D op nl Vop Vnl Nnl T VT Hnil (length xs) xs s f a) as (zs & Hz & Ez); try assumption; [lia|].
  rewrite <- (firsts_det _ _ _ _ Hy Hz) in Ez. exists (rlist op nl ys). split; [|split; [builtin; exact By|]].
  - apply val_rlist; try assumption. apply (incl_vals xs); [|assumption]. clear - Hy.
    induction Hy; [apply incl_refl|apply incl_tl; assumption|apply incl_cons; [left; reflexivity|apply incl_tl; assumption]].
  - apply (run_checked E n progs L D op nl Vop Vnl Nnl T VT Hnil _ _ _ xs); assumption.
Qed.
Print Assumptions C85_setof.

Theorem C85_diff : forall E n progs L op nl T xs ys s f a b, library85 progs L op nl T ->
  list85 E n op nl T xs -> list85 E n op nl T ys -> ev85 E n progs s f op ->
  ev85 E n progs s a (rlist op nl xs) -> ev85 E n progs s b (rlist op nl ys) -> Z.of_nat (length ys) < 2 ^ 32 ->
  both85 E n progs s (Node K_EVAL_LIST_DIFF [f; a; b]) (d_diff L f a b).
Proof.
  start. destruct (C25_diff E n op op (rlist op nl xs) (rlist op nl ys) nl xs ys) as (us & Hu & Bu); try assumption; try reflexivity; [gr|].
  destruct (run_diff_rec E n progs L D op nl Vop Vnl Nnl T VT Hnil xs ys s f a b) as (zs & Hz & Ez); try assumption.
  rewrite <- (difference_det _ _ _ Hu _ _ (Permutation_refl ys) Hz) in Ez. exists (rlist op nl us). split; [|split; [builtin; exact Bu|]].
  - apply val_rlist; try assumption. apply (incl_vals xs); [|assumption]. clear - Hu.
    induction Hu; [intros u []|first [apply incl_tl; assumption|apply incl_cons; [left; reflexivity|apply incl_tl; assumption]]..].
  - apply (run_checked E n progs L D op nl Vop Vnl Nnl T VT Hnil _ _ _ xs); try assumption.
    apply (run_checked E n progs L D op nl Vop Vnl Nnl T VT Hnil _ _ _ ys); assumption.
Qed.
Print Assumptions C85_diff.

Theorem C85_inter : forall E n progs L op nl T xs ys s f a b, library85 progs L op nl T ->
  list85 E n op nl T xs -> list85 E n op nl T ys -> ev85 E n progs s f op ->
  ev85 E n progs s a (rlist op nl xs) -> ev85 E n progs s b (rlist op nl ys) -> Z.of_nat (length ys) < 2 ^ 32 ->
  both85 E n progs s (Node K_EVAL_LIST_INTER [f; a; b]) (d_inter L f a b).
Proof.
  start. destruct (C25_inter E n op op (rlist op nl xs) (rlist op nl ys) nl xs ys) as (us & Hu & Bu); try assumption; try reflexivity; [gr|].
  destruct (run_inter_rec E n progs L D op nl Vop Vnl Nnl T VT Hnil xs ys s f a b) as (zs & Hz & Ez); try assumption.
  rewrite <- (intersection_det _ _ _ Hu _ _ (Permutation_refl ys) Hz) in Ez. exists (rlist op nl us). split; [|split; [builtin; exact Bu|]].
  - apply val_rlist; try assumption. apply (incl_vals xs); [|assumption]. clear - Hu.
    induction Hu; [intros u []|first [apply incl_tl; assumption|apply incl_cons; [left; reflexivity|apply incl_tl; assumption]]..].
  - apply (run_checked E n progs L D op nl Vop Vnl Nnl T VT Hnil _ _ _ xs); try assumption.
    apply (run_checked E n progs L D op nl Vop Vnl Nnl T VT Hnil _ _ _ ys); assumption.
Qed.
Print Assumptions C85_inter.

Theorem C85_singleton_elim : forall E n progs L op nl T xs s f a, library85 progs L op nl T ->
  list85 E n op nl T xs -> ev85 E n progs s f op -> ev85 E n progs s a (rlist op nl xs) ->
  both85 E n progs s (Node K_EVAL_LIST_SINGLETON_ELIM [f; a]) (d_single L f a).
Proof.
  start. exists (match xs with [x] => x | _ => rlist op nl xs end). split; [|split].
  - destruct xs as [|x [|y xs]]; try (apply val_rlist; assumption). inversion V; assumption.
  - builtin. destruct (C24_singleton_elim E n op op (rlist op nl xs) nl xs) as [A B]; try assumption; [gr|reflexivity|].
    destruct xs as [|x [|y xs]]; [apply B; discriminate|apply A; reflexivity|apply B; discriminate].
  - apply (run_checked E n progs L D op nl Vop Vnl Nnl T VT Hnil _ _ _ xs); try assumption.
    apply (run_single E n progs L D op nl Vop Vnl Nnl); try assumption.
    apply (run_nil E n progs L op nl Vop Vnl T VT Hnil s f a (rlist op nl xs)); try assumption.
    match goal with H : lists_typed _ _ _ _ _ |- _ => apply H; [apply incl_refl|lia] end.
Qed.
Print Assumptions C85_singleton_elim.

(** Equality of values, and the tests: on every argument without parameters, evaluated or not. *)
Theorem C85_eq : forall E n progs L s a b v w, derived L progs -> ev85 E n progs s a v -> ev85 E n progs s b w ->
  value v -> value w -> both85 E n progs s (Node K_EVAL_EQ [a; b]) (call (l_eq L) [a; b]).
Proof.
  intros E n progs L s a b v w D Ha Hb Vv Vw. exists (boolean (term_eqb v w)). split; [apply val_lit|]. split.
  - eapply (ev_op2 E n progs); [reflexivity|discriminate|exact Ha|exact Hb|].
    destruct Vv as (W1 & C1 & I1), Vw as (W2 & C2 & I2). apply ground_closed in C1; [|exact W1]. apply ground_closed in C2; [|exact W2].
    apply eval_inert in I1; [|exact W1]. apply eval_inert in I2; [|exact W2]. cbn. rewrite C1, C2. cbn. rewrite I1, I2. reflexivity.
  - apply (run_eq E n progs L D); assumption.
Qed.
Print Assumptions C85_eq.

Theorem C85_tests : forall E n progs L s a v, derived L progs -> ev85 E n progs s a v -> twf v -> closed v ->
  both85 E n progs s (Node K_EVAL_IS_Z [a]) (d_is_z L a) /\
  both85 E n progs s (Node K_EVAL_IS_Q [a]) (d_is_q L a) /\
  both85 E n progs s (Node K_EVAL_IS_STR [a]) (d_is_str L a) /\
  both85 E n progs s (Node K_EVAL_IS_BOOL [a]) (d_is_bool L a) /\
  ((forall b, v = Lit (LBin b) -> bv_wf b) -> both85 E n progs s (Node K_EVAL_IS_BIN [a]) (d_is_bin L a)) /\
  (forall b w, ev85 E n progs s b w -> twf w -> closed w ->
    both85 E n progs s (Node K_EVAL_IS_EQ [a; b]) (d_is_eq L a b)).
Proof.
  intros E n progs L s a v D Ha W C. pose proof (proj2 (ground_closed v W) C) as G.
  assert (B : forall k, isLiteralOp k = true -> k <> K_EVAL_IF_THEN_ELSE -> forall x d, tc_lop (tc E (S n)) k [v] = Ok (Some (boolean x)) ->
    ev85 E n progs s d (boolean x) -> both85 E n progs s (Node k [a]) d).
  { intros k K1 K2 x d Hk Hd. exists (boolean x). split; [apply val_lit|]. split; [|exact Hd].
    exact (ev_op1 E n progs s k a v _ K1 K2 Ha Hk). }
  split; [|split; [|split; [|split; [|split]]]].
  - eapply B; [reflexivity|discriminate| |apply (run_is_z E n progs L D s a v Ha W C)]. cbn. rewrite G. reflexivity.
  - eapply B; [reflexivity|discriminate| |apply (run_is_q E n progs L D s a v Ha W C)]. cbn. rewrite G. reflexivity.
  - eapply B; [reflexivity|discriminate| |apply (run_is_str E n progs L D s a v Ha W C)]. cbn. rewrite G. reflexivity.
  - eapply B; [reflexivity|discriminate| |apply (run_is_bool E n progs L D s a v Ha W C)]. cbn. rewrite G. reflexivity.
  - intro Hb. eapply B; [reflexivity|discriminate| |apply (run_is_bin E n progs L D s a v Ha W C Hb)]. cbn. rewrite G. reflexivity.
  - intros b w Hb W2 C2. pose proof (proj2 (ground_closed w W2) C2) as G2.
    exists (boolean (inertb v && inertb w && term_eqb w v)). split; [apply val_lit|].
    split; [|apply (run_is_eq E n progs L D s a b v w); assumption].
    apply (ev_op2 E n progs s K_EVAL_IS_EQ a b v w); [reflexivity|discriminate|exact Ha|exact Hb|].
    cbn. rewrite G, G2. cbn. unfold inertb. destruct (isEvaluatable v); [reflexivity|]. cbn.
    destruct (isEvaluatable w); [reflexivity|]. cbn. unfold ret_bool, boolean. f_equal. f_equal. f_equal. f_equal.
    destruct (term_eqb v w) eqn:Q; symmetry.
    + apply term_eqb_eq in Q. subst. apply term_eqb_eq. reflexivity.
    + destruct (term_eqb w v) eqn:R; [|reflexivity]. apply term_eqb_eq in R. subst. rewrite (proj2 (term_eqb_eq v v) eq_refl) in Q. discriminate.
Qed.
Print Assumptions C85_tests.

(** Comparison of numbers, and of values by their hash if it fits 32 bits. *)
Theorem C85_order : forall E n progs s a b,
  (forall x y, ev85 E n progs s a (num x) -> ev85 E n progs s b (num y) -> both85 E n progs s (Node K_EVAL_GT [a; b]) (d_gt a b)) /\
  (forall x y, ev85 E n progs s a (Lit (LRat x)) -> ev85 E n progs s b (Lit (LRat y)) -> both85 E n progs s (Node K_EVAL_GT [a; b]) (d_gt a b)) /\
  (forall v w, ev85 E n progs s a v -> ev85 E n progs s b w -> value v -> value w ->
     0 <= e_hash E v < 2 ^ 32 -> 0 <= e_hash E w < 2 ^ 32 -> both85 E n progs s (Node K_EVAL_COMPARE [a; b]) (d_cmp a b)).
Proof.
  intros E n progs s a b. split; [|split].
  - intros x y Ha Hb. exists (boolean (x >? y)). split; [apply val_lit|]. split; [|apply (run_gt_num E n progs s a b x y); assumption].
    exact (ev_op2 E n progs s K_EVAL_GT a b _ _ _ eq_refl ltac:(discriminate) Ha Hb eq_refl).
  - intros x y Ha Hb. exists (boolean (rat_gt x y)). split; [apply val_lit|]. split; [|apply (run_gt_rat E n progs s a b x y); assumption].
    exact (ev_op2 E n progs s K_EVAL_GT a b _ _ _ eq_refl ltac:(discriminate) Ha Hb eq_refl).
  - intros v w Ha Hb Vv Vw H1 H2. exists (boolean (e_hash E w <? e_hash E v)). split; [apply val_lit|].
    split; [|apply (run_cmp E n progs s a b v w); assumption].
    apply (ev_op2 E n progs s K_EVAL_COMPARE a b v w); [reflexivity|discriminate|exact Ha|exact Hb|].
    destruct Vv as (W1 & C1 & I1), Vw as (W2 & C2 & I2). apply ground_closed in C1; [|exact W1]. apply ground_closed in C2; [|exact W2].
    apply eval_inert in I1; [|exact W1]. apply eval_inert in I2; [|exact W2]. cbn. rewrite C1, C2. cbn. rewrite I1, I2. reflexivity.
Qed.
Print Assumptions C85_order.
(** Full statement: the definitions have no impact on behaviour.  eo::gt compares bit-vectors,
    $eo_gt does not evaluate on them. *)
Theorem C85_gt_refuted : exists x y, bv_wf x /\ bv_wf y /\ forall E n progs s,
  let a := Lit (LBin x) in let b := Lit (LBin y) in
  ev85 E n progs s (Node K_EVAL_GT [a; b]) (boolean true) /\
  exists r, ev85 E n progs s (d_gt a b) r /\ ~ inert r.
Proof.
  exists (mkBV 4 5), (mkBV 4 3). split; [split; split; reflexivity || discriminate|]. split; [split; split; reflexivity || discriminate|].
  intros E n progs s a b. split.
  - exact (ev_op2 E n progs s K_EVAL_GT a b _ _ _ eq_refl ltac:(discriminate) (ev_lit _ _ _ _ _) (ev_lit _ _ _ _ _) eq_refl).
  - exists (Node K_EVAL_IS_NEG [Lit (LBin (mkBV 4 14))]). split.
    + apply (ev_op1_stuck E n progs s K_EVAL_IS_NEG); [reflexivity|discriminate| |reflexivity].
      apply (ev_op2 E n progs s K_EVAL_ADD _ _ (Lit (LBin (mkBV 4 11))) b); [reflexivity|discriminate| |apply ev_lit|reflexivity].
      apply (ev_op1 E n progs s K_EVAL_NEG _ a); [reflexivity|discriminate|apply ev_lit|reflexivity].
    + intro I. apply (I _ (occ_here _)). right. right. eexists _, _. split; [reflexivity|]. split; [discriminate|reflexivity].
Qed.
Print Assumptions C85_gt_refuted.

(** The file itself. *)
Definition text85 : string := (before_definitions ++ eo_definitions)%string.
Definition cfg85 : config := mkConfig (fun t => 0) var_num num_var (fun _ p => p) (fun _ => Some (txt text85)) (Z.to_nat 2000) 200 4000.
Definition s85 : st :=
  match Check.run cfg85 options_init [] (InFile (txt "a.eo")) with Ok (_, s) => s | _ => st_init options_init end.
Definition read85 (s : st) (t : string) : option term :=
  match parseExpr cfg85 true 200 (lexer_init true true (chars_of false (txt (t ++ " "))), s) with Ok (r, _) => Some r | _ => None end.
(** The application of the built-in operator and of the one of the file are read as the same value. *)
Definition same85 (s : st) (p : string * string) : bool :=
  match read85 s ("($eo_" ++ fst p ++ " " ++ snd p ++ ")"), read85 s ("(eo::" ++ fst p ++ " " ++ snd p ++ ")") with
  | Some t, Some u => term_eqb t u && isGround t && negb (isEvaluatable t)
  | _, _ => false
  end.
Example C85_replaced : (let s := s85 in (s_next s, forallb (same85 s) derived_examples)) = (346, true).
Proof. vm_compute. reflexivity. Qed.
(** Full statement, as of the manual: replacing eo:: by $eo_ has no impact, for operators marked right-assoc-nil
    or left-assoc-nil.  For a left associative operator the programs take the last element for the rest of
    the list. *)
Theorem C85_left_refuted : exists s op l, s = s85 /\ In (op, l) other_examples /\ op = "list_len"%string /\
  read85 s ("(eo::" ++ op ++ " " ++ l ++ ")") = Some (num 2) /\
  read85 s ("($eo_" ++ op ++ " " ++ l ++ ")") = Some (required (boolean false) (num 1)).
Proof.
  exists s85, "list_len"%string, "lor (lor a b)"%string. split; [reflexivity|]. split; [left; reflexivity|]. split; [reflexivity|].
  split; vm_compute; reflexivity.
Qed.
Print Assumptions C85_left_refuted.

(** The programs as the file leaves them. *)
Definition case85 (t : term) : option pcase :=
  match t with Node K_TUPLE [Node K_APPLY (_ :: ps); r] => Some (ps, r) | _ => None end.
Definition cases85 (p : term) : option (list pcase) :=
  match p with
  | Node K_PROGRAM cs => fold_right (fun c l => match case85 c, l with Some x, Some l' => Some (x :: l') | _, _ => None end) (Some []) cs
  | _ => None
  end.
Definition progs85 (s : st) (hd : term) : option (list pcase) :=
  match s_marks s hd with Some (_, Some p) => cases85 p | _ => None end.
Definition lib85 : library := mkLibrary 83 88 122 164 180 193 211 229 245 263 279 313 326 339.
Definition names85 : list string :=
  ["$eo_nil"; "$eo_eq"; "$eo_is_list_rec"; "$eo_list_len_rec"; "$eo_list_concat_rec"; "$eo_list_nth_rec"; "$eo_list_find_rec";
   "$eo_list_rev_rec"; "$eo_list_erase_rec"; "$eo_list_erase_all_rec"; "$eo_list_setof_rec"; "$eo_list_diff_rec";
   "$eo_list_inter_rec"; "$eo_list_singleton_elim_2"]%string.
Definition ids85 : list Z := [83; 88; 122; 164; 180; 193; 211; 229; 245; 263; 279; 313; 326; 339].
(** The names of the file are those of the library. *)
Example C85_names : (let s := s85 in map (fun x => getVar (s_scope s) (txt x)) names85) = map (fun i => Some (prog i)) ids85.
Proof. vm_compute. reflexivity. Qed.
(** They are the programs that the evaluator looks up. *)
Example C85_programs : (let s := s85 in map (fun i => getProgram (env_of cfg85 s) (prog i)) ids85) =
  (let s := s85 in map (fun i => option_map (program_term (prog i)) (progs85 s (prog i))) ids85).
Proof. vm_compute. reflexivity. Qed.
Lemma all85 : (let s := s85 in map (fun i => progs85 s (prog i)) ids85) =
  [Some [([Sym K_CONST 68; t_Bool], boolean false); ([Sym K_CONST 69; t_Bool], boolean true); ([Sym K_CONST 70; t_Bool], boolean false);
         ([Sym K_CONST 77; Sym K_CONST 74], Sym K_CONST 75)];
   Some (c_eq (par 86) (par 87)); Some (c_is_list lib85 (par 117) (par 118) (par 119) (par 121) (par 120));
   Some (c_len lib85 (par 160) (par 161) (par 162) (par 163));
   Some (c_concat lib85 (par 175) (par 176) (par 177) (par 178) (par 179));
   Some (c_nth lib85 (par 189) (par 190) (par 191) (par 192));
   Some (c_find lib85 (par 204) (par 205) (par 207) (par 208) (par 210) (par 209));
   Some (c_rev lib85 (par 224) (par 225) (par 226) (par 228) (par 227));
   Some (c_erase lib85 (par 240) (par 241) (par 242) (par 243) (par 244));
   Some (c_erase_all lib85 (par 258) (par 259) (par 260) (par 261) (par 262));
   Some (c_setof lib85 (par 275) (par 276) (par 277) (par 278));
   Some (c_diff lib85 (par 310) (par 308) (par 309) (par 312) (par 311));
   Some (c_inter lib85 (par 323) (par 321) (par 322) (par 325) (par 324));
   Some (c_single (par 335) (par 336) (par 337) (par 338))].
Proof. vm_compute. reflexivity. Qed.
Lemma nth85 : forall (f : Z -> option (list pcase)) l k, map f ids85 = l -> (k < 14)%nat -> f (nth k ids85 0) = nth k l None.
Proof. intros f l k <- H. rewrite (nth_indep _ None (f 0)) by (rewrite map_length; exact H). symmetry. apply map_nth. Qed.
Ltac nodups := repeat constructor; cbn [In]; intros Hin; repeat destruct Hin as [Hin|Hin]; try discriminate; contradiction.
Ltac prog85 k := exact (nth85 _ _ k all85 ltac:(lia)).
Lemma derived85 : derived lib85 (progs85 s85).
Proof.
  split; [exists 86, 87; split; [nodups|prog85 1%nat]|].
  split; [exists 117, 118, 119, 121, 120; split; [nodups|prog85 2%nat]|].
  split; [exists 160, 161, 162, 163; split; [nodups|prog85 3%nat]|].
  split; [exists 175, 176, 177, 178, 179; split; [nodups|prog85 4%nat]|].
  split; [exists 189, 190, 191, 192; split; [nodups|prog85 5%nat]|].
  split; [exists 204, 205, 207, 208, 210, 209; split; [nodups|prog85 6%nat]|].
  split; [exists 224, 225, 226, 228, 227; split; [nodups|prog85 7%nat]|].
  split; [exists 240, 241, 242, 243, 244; split; [nodups|prog85 8%nat]|].
  split; [exists 258, 259, 260, 261, 262; split; [nodups|prog85 9%nat]|].
  split; [exists 275, 276, 277, 278; split; [nodups|prog85 10%nat]|].
  split; [exists 310, 308, 309, 312, 311; split; [nodups|prog85 11%nat]|].
  split; [exists 323, 321, 322, 325, 324; split; [nodups|prog85 12%nat]|].
  exists 335, 336, 337, 338; split; [nodups|prog85 13%nat].
Qed.

Definition or85 : term := Sym K_CONST 68.
Definition a85 : term := Sym K_CONST 71.
Definition b85 : term := Sym K_CONST 72.
Definition E85 : env := env_of cfg85 s85.
Definition lists85 : list (list term) :=
  [] :: flat_map (fun x => [x] :: flat_map (fun y => [x; y] :: map (fun z => [x; y; z]) [a85; b85]) [a85; b85]) [a85; b85].
Lemma types85 : (let E := E85 in forallb (fun ys => match tc_lop (tc E 61) K_EVAL_TYPE_OF [rlist or85 (boolean false) ys] with
  Ok (Some t) => term_eqb t t_Bool | _ => false end) lists85) = true.
Proof. vm_compute. reflexivity. Qed.
Lemma lists85_in : forall ys, incl ys [a85; b85; a85] -> (length ys <= 3)%nat -> In ys lists85.
Proof.
  assert (A : forall x ys, incl (x :: ys) [a85; b85; a85] -> (x = a85 \/ x = b85) /\ incl ys [a85; b85; a85]).
  { intros x ys I. split.
    - destruct (I x (or_introl eq_refl)) as [H|[H|[H|[]]]]; subst; auto.
    - intros y Hy. apply I. right. exact Hy. }
  intros [|x [|y [|z [|w ys]]]] I Hl; cbn [length] in Hl; try lia; [left; reflexivity|..];
  repeat match goal with H : incl (_ :: _) _ |- _ => apply A in H; let e := fresh in destruct H as [[e|e] H]; subst end; cbn; tauto.
Qed.
Lemma sym85 : forall i, value (Sym K_CONST i).
Proof.
  intro i. split; [constructor; reflexivity|]. split; intros u Hu; inversion Hu; subst.
  - split; [intros [j X]; discriminate|intro X; discriminate X].
  - intros [[j X]|[X|(k & cs & X & _)]]; discriminate.
Qed.
Lemma bool85 : value t_Bool.
Proof.
  split; [constructor; [reflexivity|reflexivity|constructor]|].
  assert (O : forall u, occurs u t_Bool -> u = t_Bool) by (intros u Hu; inversion Hu as [|k cs c Hc Ho]; [reflexivity|destruct Hc]).
  split; intros u Hu; apply O in Hu; subst.
  - split; [intros [j X]; discriminate|intro X; discriminate X].
  - intros [[j X]|[X|(k & cs & X & Y & _)]]; try discriminate. injection X as _ <-. exact (Y eq_refl).
Qed.
Example C85_example : library85 (progs85 s85) lib85 or85 (boolean false) t_Bool /\
  list85 E85 60 or85 (boolean false) t_Bool [a85; b85; a85] /\
  (let s := s85 in map (fun x => getVar (s_scope s) (txt x)) ["or"; "a"; "b"]%string) = [Some or85; Some a85; Some b85].
Proof.
  split; [|split; [|vm_compute; reflexivity]].
  - split; [exact derived85|]. split; [apply sym85|]. split; [apply val_lit|]. split; [exact bool85|]. split; [intros x y H; discriminate|].
    eexists _, (fun _ => None). split; [prog85 0%nat|]. cbn [nth]. apply sel_hit. split; [split; [reflexivity|]|].
    + intros q p Hq [j ->] Ho. exfalso. destruct Hq as [<-|[<-|[]]]; inversion Ho as [|k cs c Hc Ho2]; destruct Hc.
    + intros p H. exfalso. apply H. reflexivity.
  - split; [|split; [|split]].
    + destruct (e_info E85 or85) as [ai|] eqn:I.
      * assert (J : match e_info E85 or85 with Some ai => (ai_cons ai, ai_cterm ai) | None => (A_NONE, None) end = (A_RIGHT_ASSOC_NIL, Some (boolean false))) by (vm_compute; reflexivity).
        rewrite I in J. injection J as J1 J2.
        apply (list_op_plain E85 60 false or85 K_CONST 68 ai); [reflexivity|exact I|exact J1|exact J2|discriminate].
      * exfalso. assert (J : match e_info E85 or85 with Some _ => true | None => false end = true) by (vm_compute; reflexivity). rewrite I in J. discriminate.
    + repeat (apply Forall_cons; [apply sym85|]). apply Forall_nil.
    + apply curriedb_ok. vm_compute. reflexivity.
    + intros ys I Hl. pose proof types85 as H. cbv zeta in H. rewrite forallb_forall in H. specialize (H ys (lists85_in ys I Hl)).
      destruct (tc_lop (tc E85 61) K_EVAL_TYPE_OF [rlist or85 (boolean false) ys]) as [[t|]| | |]; try discriminate H.
      apply term_eqb_eq in H. subst t. reflexivity.
Qed.
