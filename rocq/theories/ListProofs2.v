(** List operators as called by the evaluator. *)
From Coq Require Import ZArith List Bool Lia Permutation Arith.
From Verif Require Import Base Kind Ints Literal Arity Term Match Eval SpecTerm SpecEval TermProofs EvalProofs
  ListOps SpecList Typing ListProofs.
Import ListNotations.
Open Scope Z_scope.

(** [op], written [a0], is declared with a nil terminator, which for a list
    computation with first argument [l] is [nl]. *)
Definition list_op (E : env) (n : nat) (left : bool) (a0 op l nl : term) : Prop :=
  names_op a0 op /\
  exists ai, e_info E op = Some ai /\
    (if left then ai_cons ai = A_LEFT_ASSOC_NIL \/ ai_cons ai = A_LEFT_ASSOC_NS_NIL
     else ai_cons ai = A_RIGHT_ASSOC_NIL \/ ai_cons ai = A_RIGHT_ASSOC_NS_NIL) /\
    computeConstructorTerm (tc_type (tc E n)) (tc_eval (tc E n)) ai [a0; l] (tc_type (tc E n) l)
      = Ok (Some nl).

(** An operator declared with a plain nil terminator. *)
Lemma list_op_plain : forall E n (left : bool) op k i ai l nl,
  op = Sym k i -> e_info E op = Some ai ->
  ai_cons ai = (if left then A_LEFT_ASSOC_NIL else A_RIGHT_ASSOC_NIL) ->
  ai_cterm ai = Some nl -> tkind nl <> K_PARAMETERIZED -> list_op E n left op op l nl.
Proof.
  intros E n left op k i ai l nl -> H1 H2 H3 H4. split; [split; [eauto|left; reflexivity]|].
  exists ai. split; [exact H1|]. split; [destruct left; auto|]. unfold computeConstructorTerm. rewrite H3.
  destruct (kind_eqb (tkind nl) K_PARAMETERIZED) eqn:Ek; [apply kind_eqb_eq in Ek; contradiction|]. reflexivity.
Qed.

Definition ground_arg (t : term) : Prop := twf t /\ closed t.
Lemma ground_args : forall l, Forall ground_arg l -> forallb isGround l = true.
Proof.
  intros l H. apply forallb_forall. intros x Hx. rewrite Forall_forall in H. destruct (H x Hx).
  apply ground_closed; assumption.
Qed.

Lemma names_op_not_literal : forall a0 op rest, names_op a0 op -> all_literals (a0 :: rest) = None.
Proof. intros a0 op rest [(k & i & ->) [->|(ps & ->)]]; reflexivity. Qed.
Lemma names_op_head : forall a0 op, names_op a0 op ->
  match a0 with Node K_PARAMETERIZED cs => vec_at cs 1 | _ => Ok a0 end = Ok op.
Proof. intros a0 op [(k & i & ->) [->|(ps & ->)]]; reflexivity. Qed.

Lemma lop_list : forall E n left a0 op a1 rest nl k, list_op E n left a0 op a1 nl ->
  Forall ground_arg (a0 :: a1 :: rest) -> isListLiteralOp k = true -> k <> K_EVAL_NIL ->
  tc_lop (tc E (S n)) k (a0 :: a1 :: rest) = evaluateListOp k op nl left (a0 :: a1 :: rest).
Proof.
  intros E n left a0 op a1 rest nl k (Hn & ai & Hi & Hk & Hc) G L N.
  cbn [tc tc_lop].
  assert (T : evaluateLitTail E (tc_type (tc E n)) (tc_eval (tc E n)) k (a0 :: a1 :: rest)
              = evaluateListOp k op nl left (a0 :: a1 :: rest)).
  { unfold evaluateLitTail. rewrite (names_op_not_literal _ _ _ Hn), L.
    cbn [negb vec_at nth_error bind]. rewrite (names_op_head _ _ Hn). cbn [bind]. rewrite Hi.
    assert (N' : kind_eqb k K_EVAL_NIL = false).
    { destruct (kind_eqb k K_EVAL_NIL) eqn:Ek; [apply kind_eqb_eq in Ek; contradiction|reflexivity]. }
    destruct left; destruct Hk as [Hk|Hk]; rewrite Hk, N'; cbn [isListNilAttr negb]; rewrite Hc; reflexivity. }
  rewrite <- T. unfold evaluateLiteralOp. rewrite (ground_args _ G).
  destruct k; try discriminate L; try reflexivity; contradiction N; reflexivity.
Qed.

Section Ops.
Variables (E : env) (n : nat).
Notation run := (tc_lop (tc E (S n))).

(** The second argument of the operators is a list, the elements of which the
    code gets in the order of [seqof]. *)
Lemma run_not_list : forall left a0 op l nl rest k, list_op E n left a0 op l nl ->
  Forall ground_arg (a0 :: l :: rest) -> curried op l -> not_app2 op nl ->
  (forall xs, l <> flist left op nl xs) ->
  isListLiteralOp k = true -> k <> K_EVAL_NIL -> k <> K_EVAL_CONS -> k <> K_EVAL_LIST_CONCAT ->
  (k = K_EVAL_LIST_NTH -> rest <> []) ->
  run k (a0 :: l :: rest) = Ok None.
Proof.
  intros left a0 op l nl rest k Ho G C N H L K1 K2 K3 K4.
  rewrite (lop_list E n left a0 op l rest nl k Ho G L K1).
  destruct (getNAry_exact left op nl l C) as [(xs & -> & _)|(_ & HG & _)]; [exfalso; apply (H xs); reflexivity|].
  destruct k; try discriminate L; try contradiction; cbn [evaluateListOp];
    unfold evaluateListLength, evaluateListNth, evaluateListFind, evaluateListErase, evaluateListRev,
      evaluateListSetOf, evaluateListMPred, evaluateListDiffInter, evaluateListSingletonElim;
    cbn [vec_at nth_error bind]; rewrite ?HG; cbn [bind]; try reflexivity.
  destruct rest as [|i rest]; [exfalso; apply K4; reflexivity|]. cbn [vec_at nth_error bind].
  destruct i as [|[]|]; try reflexivity.
  destruct (negb (Ints.fitsUnsignedInt z)); reflexivity.
Qed.

Lemma run_length : forall left a0 op l nl xs, list_op E n left a0 op l nl ->
  Forall ground_arg [a0; l] -> curried op l -> not_app2 op nl -> l = flist left op nl xs ->
  run K_EVAL_LIST_LENGTH [a0; l] = Ok (Some (Lit (LNum (Z.of_nat (length xs))))).
Proof.
  intros left a0 op l nl xs Ho G C N ->. rewrite (lop_list E n left a0 op _ [] nl _ Ho G) by (reflexivity || discriminate).
  cbn [evaluateListOp]. unfold evaluateListLength. cbn [vec_at nth_error bind].
  rewrite getNAry_yes by (try assumption; apply (curried_flist _ _ _ _ C)). cbn [bind].
  destruct left; cbn [seqof]; rewrite ?rev_length; reflexivity.
Qed.

Lemma run_singleton : forall left a0 op l nl xs, list_op E n left a0 op l nl ->
  Forall ground_arg [a0; l] -> curried op l -> not_app2 op nl -> l = flist left op nl xs ->
  run K_EVAL_LIST_SINGLETON_ELIM [a0; l] =
  Ok (Some (match xs with [x] => x | _ => l end)).
Proof.
  intros left a0 op l nl xs Ho G C N ->. rewrite (lop_list E n left a0 op _ [] nl _ Ho G) by (reflexivity || discriminate).
  cbn [evaluateListOp]. unfold evaluateListSingletonElim. cbn [vec_at nth_error bind].
  rewrite getNAry_yes by (try assumption; apply (curried_flist _ _ _ _ C)). cbn [bind].
  destruct left; cbn [seqof]; [|destruct xs as [|x [|y xs]]; reflexivity].
  destruct xs as [|x [|y xs]]; try reflexivity.
  cbn [rev]. destruct (rev xs ++ [y]) as [|a b] eqn:Er; [apply app_eq_nil in Er; destruct Er; discriminate|].
  rewrite <- app_comm_cons. destruct (b ++ [x]) eqn:Eb; [apply app_eq_nil in Eb; destruct Eb; discriminate|]. reflexivity.
Qed.

Lemma run_nth : forall a0 op l nl xs i, list_op E n false a0 op l nl ->
  Forall ground_arg [a0; l; Lit (LNum i)] -> curried op l -> not_app2 op nl -> l = rlist op nl xs ->
  Z.of_nat (length xs) < 2 ^ 32 ->
  run K_EVAL_LIST_NTH [a0; l; Lit (LNum i)] = Ok (if i <? 0 then None else nth_error xs (Z.to_nat i)).
Proof.
  intros a0 op l nl xs i Ho G C N -> Hl. rewrite (lop_list E n false a0 op _ [_] nl _ Ho G) by (reflexivity || discriminate).
  cbn [evaluateListOp]. unfold evaluateListNth. cbn [vec_at nth_error bind].
  unfold fitsUnsignedInt. destruct (Z.ltb_spec i 0) as [Hi|Hi].
  { replace (0 <=? i) with false by (symmetry; apply Z.leb_gt; exact Hi). reflexivity. }
  replace (0 <=? i) with true by (symmetry; apply Z.leb_le; exact Hi). cbn [andb].
  destruct (Z.ltb_spec i (2 ^ 32)) as [Hb|Hb]; cbn [negb].
  - rewrite (getNAry_yes false) by (try assumption; apply (curried_flist false _ _ _ C)). cbn [bind seqof].
    unfold toUnsignedInt, u32. rewrite Z.abs_eq, (Z.mod_small i), Z.mod_small by lia.
    destruct (Z.leb_spec (Z.of_nat (length xs)) i) as [H|H].
    + rewrite (proj2 (nth_error_None xs (Z.to_nat i))) by lia. reflexivity.
    + unfold vec_at. destruct (nth_error xs (Z.to_nat i)) eqn:En; [reflexivity|]. apply nth_error_None in En. lia.
  - rewrite (proj2 (nth_error_None xs (Z.to_nat i))) by lia. reflexivity.
Qed.

Lemma run_find : forall a0 op l nl xs x, list_op E n false a0 op l nl ->
  Forall ground_arg [a0; l; x] -> curried op l -> not_app2 op nl -> l = rlist op nl xs ->
  exists i, run K_EVAL_LIST_FIND [a0; l; x] = Ok (Some (Lit (LNum i))) /\ position x xs i.
Proof.
  intros a0 op l nl xs x Ho G C N ->. rewrite (lop_list E n false a0 op _ [_] nl _ Ho G) by (reflexivity || discriminate).
  cbn [evaluateListOp]. unfold evaluateListFind. cbn [vec_at nth_error bind].
  rewrite (getNAry_yes false) by (try assumption; apply (curried_flist false _ _ _ C)). cbn [bind seqof].
  pose proof (find_term_spec x xs) as F. destruct (find_term xs x 0) as [z|].
  - exists z. split; [reflexivity|]. left. exact F.
  - exists (-1). split; [reflexivity|]. right. auto.
Qed.

Lemma run_rev : forall left a0 op l nl xs, list_op E n left a0 op l nl ->
  Forall ground_arg [a0; l] -> curried op l -> not_app2 op nl -> l = flist left op nl xs ->
  run K_EVAL_LIST_REV [a0; l] = Ok (Some (if left then l else rlist op nl (rev xs))).
Proof.
  intros left a0 op l nl xs Ho G C N ->. rewrite (lop_list E n left a0 op _ [] nl _ Ho G) by (reflexivity || discriminate).
  cbn [evaluateListOp]. unfold evaluateListRev. cbn [vec_at nth_error bind].
  rewrite getNAry_yes by (try assumption; apply (curried_flist _ _ _ _ C)). cbn [bind].
  destruct left; cbn [seqof flist].
  - rewrite rev_involutive. f_equal. f_equal. exact (prepend_left op nl xs []).
  - f_equal. f_equal. rewrite <- (app_nil_r (rev xs)) at 2. exact (prepend_right op nl (rev xs) []).
Qed.

(** cons: the nil terminator depends on the element, its type decides. *)
Lemma run_cons : forall left a0 op x l nl, list_op E n left a0 op x nl ->
  Forall ground_arg [a0; x; l] -> curried op l -> not_app2 op nl ->
  (forall xs, l = flist left op nl xs ->
     run K_EVAL_CONS [a0; x; l] = Ok (Some (if left then app2 op l x else app2 op x l))) /\
  ((forall xs, l <> flist left op nl xs) -> run K_EVAL_CONS [a0; x; l] = Ok None).
Proof.
  intros left a0 op x l nl Ho G C N. rewrite (lop_list E n left a0 op _ [_] nl _ Ho G) by (reflexivity || discriminate).
  cbn [evaluateListOp]. unfold evaluateListConcat. cbn [vec_at nth_error bind kind_eqb].
  replace (kind_eqb K_EVAL_CONS K_EVAL_LIST_CONCAT) with false by reflexivity. cbn [vec_at nth_error bind].
  destruct (getNAry_exact left op nl l C) as [(xs & El & _ & _ & _ & Hi)|(Hx & _ & Hi)]; rewrite Hi; cbn [bind negb].
  - split; [|intro H; exfalso; apply (H xs El)]. intros ys _. destruct left; reflexivity.
  - split; [|reflexivity]. intros xs Ex. exfalso. apply (Hx N xs Ex).
Qed.

Lemma run_concat : forall a0 op l1 l2 nl, list_op E n false a0 op l1 nl ->
  Forall ground_arg [a0; l1; l2] -> curried op l1 -> curried op l2 -> not_app2 op nl ->
  (forall xs ys, l1 = rlist op nl xs -> l2 = rlist op nl ys ->
     run K_EVAL_LIST_CONCAT [a0; l1; l2] = Ok (Some (rlist op nl (xs ++ ys)))) /\
  ((forall xs, l1 <> rlist op nl xs) \/ (forall ys, l2 <> rlist op nl ys) ->
     run K_EVAL_LIST_CONCAT [a0; l1; l2] = Ok None).
Proof.
  intros a0 op l1 l2 nl Ho G C1 C2 N. rewrite (lop_list E n false a0 op _ [_] nl _ Ho G) by (reflexivity || discriminate).
  cbn [evaluateListOp]. unfold evaluateListConcat.
  replace (kind_eqb K_EVAL_LIST_CONCAT K_EVAL_LIST_CONCAT) with true by reflexivity. cbn [vec_at nth_error bind].
  destruct (getNAry_exact false op nl l2 C2) as [(ys & E2 & Cn & _ & _ & Hi)|(Hx & _ & Hi)]; rewrite Hi; cbn [bind negb].
  - cbn [flist seqof] in *. destruct (getNAry_exact false op nl l1 C1) as [(xs & E1 & _ & _ & Hg & _)|(Hx & Hg & _)]; rewrite Hg; cbn [bind].
    + cbn [flist seqof] in *. split; [|intros [H|H]; exfalso; eapply H; eassumption].
      intros xs' ys' E1' E2'.
      assert (xs' = xs).
      { pose proof (nary_loop_flist false op nl xs Cn N) as P1. pose proof (nary_loop_flist false op nl xs' Cn N) as P2.
        cbn [flist seqof] in *. rewrite <- E1, E1', P2 in P1. congruence. }
      assert (ys' = ys).
      { pose proof (nary_loop_flist false op nl ys Cn N) as P1. pose proof (nary_loop_flist false op nl ys' Cn N) as P2.
        cbn [flist seqof] in *. rewrite <- E2, E2', P2 in P1. congruence. }
      subst xs' ys'. destruct (term_eqb l2 nl) eqn:En.
      * apply term_eqb_eq in En. assert (ys = []) by (destruct ys as [|y ys]; [reflexivity|]; exfalso; rewrite E2 in En; cbn in En; symmetry in En; eapply N; exact En).
        subst ys. rewrite app_nil_r, E1. reflexivity.
      * rewrite E2. f_equal. f_equal. apply prepend_right.
    + split; [|reflexivity]. intros xs ys' E1. exfalso. eapply Hx; eassumption.
  - split; [|reflexivity]. intros xs ys _ E2. exfalso. apply (Hx N ys E2).
Qed.

Lemma run_erase : forall a0 op l nl xs x, list_op E n false a0 op l nl ->
  Forall ground_arg [a0; l; x] -> curried op l -> not_app2 op nl -> l = rlist op nl xs ->
  exists ys, erased x xs ys /\ run K_EVAL_LIST_ERASE [a0; l; x] = Ok (Some (rlist op nl ys)).
Proof.
  intros a0 op l nl xs x Ho G C N ->. rewrite (lop_list E n false a0 op _ [_] nl _ Ho G) by (reflexivity || discriminate).
  cbn [evaluateListOp]. unfold evaluateListErase.
  replace (kind_eqb K_EVAL_LIST_ERASE K_EVAL_LIST_ERASE_ALL) with false by reflexivity. cbn [vec_at nth_error bind].
  rewrite (getNAry_yes false) by (try assumption; apply (curried_flist false _ _ _ C)). cbn [bind seqof].
  destruct xs as [|y xs].
  { exists []. split; [left; auto|reflexivity]. }
  rewrite erase_one_loop. pose proof (find_term_spec x (y :: xs)) as F. destruct (find_term (y :: xs) x 0) as [z|].
  - destruct F as (a & b & Ea & Ha & ->). rewrite Ea. exists (a ++ b).
    split; [right; exists a, b; auto|]. unfold finish_list. cbn [Nat.eqb Nat.add].
    rewrite Nat2Z.id, nthTail_right by (rewrite app_length; cbn; lia).
    cbn [bind app]. rewrite firstn_app, firstn_all, Nat.sub_diag. cbn [firstn]. rewrite app_nil_r.
    rewrite prepend_right. f_equal. f_equal. f_equal. f_equal.
    replace (S (length a)) with (length (a ++ [x])) by (rewrite app_length; cbn; lia).
    replace (a ++ x :: b) with ((a ++ [x]) ++ b) by (rewrite <- app_assoc; reflexivity).
    rewrite skipn_app, skipn_all, Nat.sub_diag. reflexivity.
  - exists (y :: xs). split; [left; auto|]. reflexivity.
Qed.

Lemma run_erase_all : forall a0 op l nl xs x, list_op E n false a0 op l nl ->
  Forall ground_arg [a0; l; x] -> curried op l -> not_app2 op nl -> l = rlist op nl xs ->
  exists ys, erased_all x xs ys /\ run K_EVAL_LIST_ERASE_ALL [a0; l; x] = Ok (Some (rlist op nl ys)).
Proof.
  intros a0 op l nl xs x Ho G C N ->. rewrite (lop_list E n false a0 op _ [_] nl _ Ho G) by (reflexivity || discriminate).
  cbn [evaluateListOp]. unfold evaluateListErase.
  replace (kind_eqb K_EVAL_LIST_ERASE_ALL K_EVAL_LIST_ERASE_ALL) with true by reflexivity. cbn [vec_at nth_error bind].
  rewrite (getNAry_yes false) by (try assumption; apply (curried_flist false _ _ _ C)). cbn [bind seqof].
  destruct xs as [|y xs]; [exists []; split; [constructor|reflexivity]|].
  destruct (erase_all_loop x (y :: xs) [] [] 0 0 book_start (le_n _)) as (R & ci & cz & E1 & E2 & ys & E3 & E4).
  change (length (@nil term)) with 0%nat in E1. rewrite E1. exists ys. split; [exact E4|].
  cbn [app] in E2, E3. subst R. apply (finish_right op nl). exact E2.
Qed.

Lemma run_setof : forall a0 op l nl xs, list_op E n false a0 op l nl ->
  Forall ground_arg [a0; l] -> curried op l -> not_app2 op nl -> l = rlist op nl xs ->
  exists ys, firsts [] xs ys /\ run K_EVAL_LIST_SETOF [a0; l] = Ok (Some (rlist op nl ys)).
Proof.
  intros a0 op l nl xs Ho G C N ->. rewrite (lop_list E n false a0 op _ [] nl _ Ho G) by (reflexivity || discriminate).
  cbn [evaluateListOp]. unfold evaluateListSetOf. cbn [vec_at nth_error bind].
  rewrite (getNAry_yes false) by (try assumption; apply (curried_flist false _ _ _ C)). cbn [bind seqof].
  destruct (setof_loop_spec xs [] [] [] 0 0 book_start (le_n _)) as (R & ci & cz & E1 & E2 & ys & E3 & E4).
  change (length (@nil term)) with 0%nat in E1. rewrite E1. exists ys. split; [exact E4|].
  cbn [app] in E2, E3. subst R. apply (finish_right op nl). exact E2.
Qed.

Lemma difference_self : forall xs, difference xs xs [].
Proof.
  induction xs as [|x xs IH]; [constructor|]. apply (di_drop x xs [] xs). exact IH.
Qed.
Lemma intersection_self : forall xs, intersection xs xs xs.
Proof.
  induction xs as [|x xs IH]; [constructor|]. apply (in_keep x xs [] xs). exact IH.
Qed.

Lemma rlist_inj : forall op nl xs ys, curried op nl -> not_app2 op nl -> rlist op nl xs = rlist op nl ys -> xs = ys.
Proof.
  intros op nl xs ys C N H. pose proof (nary_loop_flist false op nl xs C N) as P1.
  pose proof (nary_loop_flist false op nl ys C N) as P2. cbn [flist seqof] in *. rewrite H, P2 in P1. congruence.
Qed.
Lemma flist_inj : forall left op nl xs ys, curried op nl -> not_app2 op nl -> flist left op nl xs = flist left op nl ys -> xs = ys.
Proof.
  intros left op nl xs ys C N H. pose proof (nary_loop_flist left op nl xs C N) as P1.
  pose proof (nary_loop_flist left op nl ys C N) as P2. rewrite H, P2 in P1.
  assert (seqof left ys = seqof left xs) by congruence.
  rewrite <- (seqof_inv _ left xs), <- (seqof_inv _ left ys). congruence.
Qed.

Lemma run_diffinter : forall (isDiff : bool) a0 op l1 l2 nl xs ys, list_op E n false a0 op l1 nl ->
  Forall ground_arg [a0; l1; l2] -> curried op l1 -> not_app2 op nl ->
  l1 = rlist op nl xs -> l2 = rlist op nl ys -> Z.of_nat (length ys) < 2 ^ 32 ->
  exists zs, (if isDiff then difference xs ys zs else intersection xs ys zs) /\
    run (if isDiff then K_EVAL_LIST_DIFF else K_EVAL_LIST_INTER) [a0; l1; l2] = Ok (Some (rlist op nl zs)).
Proof.
  intros isDiff a0 op l1 l2 nl xs ys Ho G C N -> -> Hl.
  rewrite (lop_list E n false a0 op _ [_] nl _ Ho G) by (destruct isDiff; (reflexivity || discriminate)).
  replace (evaluateListOp (if isDiff then K_EVAL_LIST_DIFF else K_EVAL_LIST_INTER))
    with (evaluateListDiffInter (if isDiff then K_EVAL_LIST_DIFF else K_EVAL_LIST_INTER))
    by (destruct isDiff; reflexivity).
  unfold evaluateListDiffInter.
  replace (kind_eqb (if isDiff then K_EVAL_LIST_DIFF else K_EVAL_LIST_INTER) K_EVAL_LIST_DIFF) with isDiff
    by (destruct isDiff; reflexivity).
  cbn [vec_at nth_error bind]. pose proof (proj1 (curried_flist false _ _ _ C)) as Cn.
  rewrite (getNAry_yes false) by assumption. cbn [bind seqof].
  rewrite (getNAry_yes false) by assumption. cbn [bind seqof].
  destruct (term_eqb (rlist op nl xs) (rlist op nl ys)) eqn:Ee.
  - apply term_eqb_eq in Ee. apply rlist_inj in Ee; [|assumption|assumption]. subst ys.
    destruct isDiff.
    + exists []. split; [apply difference_self|reflexivity].
    + exists xs. split; [apply intersection_self|reflexivity].
  - destruct (diffinter_spec isDiff xs ys (count_list ys) [] [] 0 0 Hl (count_list_ok ys Hl) book_start (le_n _))
      as (R & ci & cz & E1 & E2 & zs & E3 & E4).
    change (length (@nil term)) with 0%nat in E1. rewrite E1. exists zs. split; [exact E4|].
    cbn [app] in E2, E3. subst R. apply (finish_right op nl). exact E2.
Qed.

Lemma seqof_perm : forall A left (xs : list A), Permutation (seqof left xs) xs.
Proof. intros A [|] xs; [symmetry; apply Permutation_rev|reflexivity]. Qed.
Lemma included_perm : forall a b c d, Permutation a b -> Permutation c d -> included a c -> included b d.
Proof.
  intros a b c d H1 H2 (r & H). exists r. rewrite <- H1, H, H2. reflexivity.
Qed.

Lemma run_mpred : forall (left isEq : bool) a0 op l1 l2 nl xs ys, list_op E n left a0 op l1 nl ->
  Forall ground_arg [a0; l1; l2] -> curried op l1 -> not_app2 op nl ->
  l1 = flist left op nl xs -> l2 = flist left op nl ys ->
  Z.of_nat (length xs) < 2 ^ 32 -> Z.of_nat (length ys) < 2 ^ 32 ->
  exists b, run (if isEq then K_EVAL_LIST_MEQ else K_EVAL_LIST_MINCLUDE) [a0; l1; l2] = Ok (Some (Lit (LBool b))) /\
    (b = true <-> if isEq then Permutation xs ys else included xs ys).
Proof.
  intros left isEq a0 op l1 l2 nl xs ys Ho G C N -> -> Hx Hy.
  rewrite (lop_list E n left a0 op _ [_] nl _ Ho G) by (destruct isEq; (reflexivity || discriminate)).
  replace (evaluateListOp (if isEq then K_EVAL_LIST_MEQ else K_EVAL_LIST_MINCLUDE))
    with (evaluateListMPred (if isEq then K_EVAL_LIST_MEQ else K_EVAL_LIST_MINCLUDE))
    by (destruct isEq; reflexivity).
  unfold evaluateListMPred.
  replace (kind_eqb (if isEq then K_EVAL_LIST_MEQ else K_EVAL_LIST_MINCLUDE) K_EVAL_LIST_MEQ) with isEq
    by (destruct isEq; reflexivity).
  cbn [vec_at nth_error bind]. pose proof (proj1 (curried_flist left _ _ _ C)) as Cn.
  rewrite (getNAry_yes left) by assumption. cbn [bind].
  rewrite (getNAry_yes left) by assumption. cbn [bind].
  destruct (term_eqb (flist left op nl xs) (flist left op nl ys)) eqn:Ee.
  - apply term_eqb_eq in Ee. apply flist_inj in Ee; [|assumption|assumption]. subst ys.
    exists true. split; [reflexivity|]. split; [intros _|reflexivity].
    destruct isEq; [reflexivity|]. exists []. rewrite app_nil_r. reflexivity.
  - set (sx := seqof left xs). set (sy := seqof left ys).
    assert (Px : Permutation sx xs) by apply seqof_perm. assert (Py : Permutation sy ys) by apply seqof_perm.
    assert (Kx : counts_ok (count_list sx) sx) by (apply count_list_ok; rewrite (Permutation_length Px); exact Hx).
    assert (Ky : counts_ok (count_list sy) sy) by (apply count_list_ok; rewrite (Permutation_length Py); exact Hy).
    destruct isEq; cbn [andb].
    + pose proof (forallb_eq _ _ _ _ Kx Ky) as F.
      assert (P : Permutation sx sy <-> Permutation xs ys).
      { split; intro H; [rewrite <- Px, H, Py|rewrite Px, H, <- Py]; reflexivity. }
      destruct (negb (Nat.eqb (length (count_list sx)) (length (count_list sy)))).
      * eexists. split; [reflexivity|]. rewrite <- P, <- F. split; [discriminate|intros [H _]; discriminate].
      * eexists. split; [reflexivity|]. rewrite <- P, <- F. tauto.
    + eexists. split; [reflexivity|]. rewrite (forallb_le _ _ _ _ Kx Ky).
      split; apply included_perm; (assumption || (symmetry; assumption)).
Qed.

(** Left-associative concatenation reverses its second argument. *)
Lemma run_concat_left : forall a0 op l1 l2 nl xs ys, list_op E n true a0 op l1 nl ->
  Forall ground_arg [a0; l1; l2] -> curried op l1 -> not_app2 op nl ->
  l1 = llist op nl xs -> l2 = llist op nl ys ->
  run K_EVAL_LIST_CONCAT [a0; l1; l2] =
  Ok (Some (llist op nl (if term_eqb l1 nl then ys else xs ++ rev ys))).
Proof.
  intros a0 op l1 l2 nl xs ys Ho G C N E1 E2. rewrite (lop_list E n true a0 op _ [_] nl _ Ho G) by (reflexivity || discriminate).
  cbn [evaluateListOp]. unfold evaluateListConcat.
  replace (kind_eqb K_EVAL_LIST_CONCAT K_EVAL_LIST_CONCAT) with true by reflexivity. cbn [vec_at nth_error bind].
  assert (Cn : curried op nl) by (rewrite E1 in C; exact (proj1 (curried_flist true _ _ _ C))).
  destruct (getNAry_exact true op nl l1 C) as [(xs' & E1' & _ & _ & _ & Hi)|(Hx & _)]; [|exfalso; apply (Hx N xs E1)].
  rewrite Hi. cbn [bind negb]. pose proof (getNAry_yes true op nl ys Cn N) as Hy. cbn [flist] in Hy. rewrite <- E2 in Hy. rewrite Hy. cbn [bind seqof].
  destruct (term_eqb l1 nl); [rewrite E2; reflexivity|]. rewrite E1. f_equal. f_equal. apply prepend_left.
Qed.
End Ops.
