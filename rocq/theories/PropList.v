(** Properties C23 to C27 and C53: equality tests and list operators. *)
From Coq Require Import ZArith List Bool Lia Permutation Arith.
From Verif Require Import Base Kind Ints Literal Arity Term Match Eval SpecTerm SpecEval TermProofs EvalProofs
  ListOps SpecList Typing ListProofs ListProofs2.
Import ListNotations.
Open Scope Z_scope.

(** Examples: a right-associative operator [ex_or] and a left-associative
    operator [ex_lor], both with nil terminator false, on the constants
    [ex_a], [ex_b], [ex_c]. *)
Definition ex_or := Sym K_CONST 1.
Definition ex_lor := Sym K_CONST 2.
Definition ex_a := Sym K_CONST 3.
Definition ex_b := Sym K_CONST 4.
Definition ex_c := Sym K_CONST 5.
Definition ex_false := Lit (LBool false).
Definition ex_num (z : Z) := Lit (LNum z).
Definition ex_info (t : term) : option appinfo :=
  match t with
  | Sym K_CONST 1 => Some (mkInfo A_RIGHT_ASSOC_NIL (Some ex_false) K_NONE None)
  | Sym K_CONST 2 => Some (mkInfo A_LEFT_ASSOC_NIL (Some ex_false) K_NONE None)
  | _ => None
  end.
Definition ex_E : env :=
  mkEnv ex_info (fun _ => 0) (fun _ _ => t_Any) (fun _ => []) (fun _ => Some t_Bool) (fun _ => None)
    (Sym K_PARAM 6) (Sym K_CONST 7) (Sym K_CONST 8) (Sym K_CONST 9) (Sym K_CONST 10).
Definition ex_run (k : kind) (l : list term) := tc_lop (tc ex_E 3) k l.
Definition orl := rlist ex_or ex_false.
Definition lorl := llist ex_lor ex_false.

Lemma ex_or_op : forall l, list_op ex_E 2 false ex_or ex_or l ex_false.
Proof. intro l. eapply list_op_plain; [reflexivity|reflexivity|reflexivity|reflexivity|discriminate]. Qed.
Lemma ex_lor_op : forall l, list_op ex_E 2 true ex_lor ex_lor l ex_false.
Proof. intro l. eapply list_op_plain; [reflexivity|reflexivity|reflexivity|reflexivity|discriminate]. Qed.
Lemma ex_ground : forall t, twf t -> isGround t = true -> ground_arg t.
Proof. intros t W G. split; [exact W|]. apply ground_closed; assumption. Qed.
Ltac twf_tac := repeat (constructor; try reflexivity).
Ltac ground_tac := repeat (apply Forall_cons; [apply ex_ground; [twf_tac|reflexivity]|]); apply Forall_nil.
(** Decides [curried] on examples. *)
Fixpoint curriedb (f t : term) : bool :=
  match t with
  | Node k cs =>
      (if kind_eqb k K_APPLY then
         match cs with
         | [] => false
         | h :: rest =>
             (negb (term_eqb h f || match h with Node K_APPLY (g :: _) => term_eqb g f | _ => false end)
              || Nat.eqb (length rest) 1)
         end
       else true) && forallb (curriedb f) cs
  | _ => true
  end.
Lemma curriedb_ok : forall f t, curriedb f t = true -> curried f t.
Proof.
  intros f t. induction t as [k i|l|k cs IH] using term_ind2; intros H ds Ho.
  - apply occurs_inv in Ho. destruct Ho as [Ho|(c & [] & _)]. discriminate.
  - apply occurs_inv in Ho. destruct Ho as [Ho|(c & [] & _)]. discriminate.
  - cbn [curriedb] in H. apply andb_true_iff in H. destruct H as [H1 H2].
    apply occurs_inv in Ho. destruct Ho as [Ho|(c & Hc & Ho)].
    + injection Ho as <- <-. destruct ds as [|h rest]; [discriminate|]. exists h, rest. split; [reflexivity|].
      intro Hh. cbn [kind_eqb] in H1. change (kind_eqb K_APPLY K_APPLY) with true in H1. cbn iota in H1.
      apply orb_true_iff in H1. destruct H1 as [H1|H1]; [|apply Nat.eqb_eq; exact H1].
      exfalso. apply negb_true_iff, orb_false_iff in H1. destruct H1 as [H1 H1'].
      destruct Hh as [->|(es & ->)]; [rewrite term_eqb_refl in H1|rewrite term_eqb_refl in H1']; discriminate.
    + cbn in Hc. rewrite Forall_forall in IH. rewrite forallb_forall in H2. apply (IH c Hc (H2 c Hc) ds Ho).
Qed.
Lemma ex_not_app2 : forall f, not_app2 f ex_false.
Proof. intros f x y H. discriminate. Qed.

(** C23.  A value is a closed term without anything left to compute. *)
Definition value (t : term) : Prop := closed t /\ inert t.

Lemma value_flags : forall t, twf t -> (isGround t && negb (isEvaluatable t) = true <-> value t).
Proof.
  intros t W. unfold value. rewrite andb_true_iff, negb_true_iff, ground_closed, eval_inert by exact W. reflexivity.
Qed.
Lemma inert_flag : forall t, twf t -> (isEvaluatable t = true <-> ~ inert t).
Proof.
  intros t W. rewrite <- eval_inert by exact W. destruct (isEvaluatable t); split; intro H; congruence.
Qed.

Theorem C23_eq : forall E n a b, Forall ground_arg [a; b] ->
  (inert a -> inert b ->
     (a = b -> tc_lop (tc E (S n)) K_EVAL_EQ [a; b] = Ok (Some (Lit (LBool true)))) /\
     (a <> b -> tc_lop (tc E (S n)) K_EVAL_EQ [a; b] = Ok (Some (Lit (LBool false))))) /\
  (~ inert a \/ ~ inert b -> tc_lop (tc E (S n)) K_EVAL_EQ [a; b] = Ok None).
Proof.
  intros E n a b G. pose proof (ground_args _ G) as G'. inversion G as [|? ? [Wa _] G2]; subst. inversion G2 as [|? ? [Wb _] _]; subst.
  cbn [tc tc_lop]. unfold evaluateLiteralOp. rewrite G'. cbn [negb vec_at nth_error bind]. split.
  - intros Ia Ib. apply (eval_inert a Wa) in Ia. apply (eval_inert b Wb) in Ib. rewrite Ia, Ib.
    split; intro H; [subst; rewrite term_eqb_refl; reflexivity|apply term_eqb_neq in H; rewrite H; reflexivity].
  - rewrite <- !inert_flag by assumption. intros [H|H]; [rewrite H; reflexivity|]. rewrite H. destruct (isEvaluatable a); reflexivity.
Qed.
Print Assumptions C23_eq.

Theorem C23_is_eq : forall E n a b, Forall ground_arg [a; b] ->
  exists r, tc_lop (tc E (S n)) K_EVAL_IS_EQ [a; b] = Ok (Some (Lit (LBool r))) /\
    (r = true <-> value a /\ value b /\ a = b).
Proof.
  intros E n a b G. pose proof (ground_args _ G) as G'. inversion G as [|? ? [Wa Ca] G2]; subst. inversion G2 as [|? ? [Wb Cb] _]; subst.
  cbn [tc tc_lop]. unfold evaluateLiteralOp. rewrite G'. cbn [negb vec_at nth_error bind].
  unfold value. pose proof (eval_inert a Wa) as Ia. pose proof (eval_inert b Wb) as Ib. destruct (isEvaluatable a) eqn:Ea.
  - exists false. split; [reflexivity|]. split; [discriminate|]. intros [[_ H] _]. apply Ia in H. discriminate.
  - exists (negb (isEvaluatable b) && term_eqb a b). split; [reflexivity|].
    rewrite andb_true_iff, negb_true_iff, term_eqb_eq, Ib. tauto.
Qed.
Print Assumptions C23_is_eq.

Theorem C23_is_ok : forall E n a, ground_arg a ->
  exists r, tc_lop (tc E (S n)) K_EVAL_IS_OK [a] = Ok (Some (Lit (LBool r))) /\ (r = true <-> value a).
Proof.
  intros E n a G. assert (G' : forallb isGround [a] = true) by (apply ground_args; constructor; [exact G|constructor]).
  destruct G as [W C].
  cbn [tc tc_lop]. unfold evaluateLiteralOp. rewrite G'. cbn [negb vec_at nth_error bind].
  exists (negb (isEvaluatable a)). split; [reflexivity|]. unfold value. rewrite negb_true_iff, eval_inert by exact W. tauto.
Qed.
Print Assumptions C23_is_ok.

(** The third argument of eo::requires need not be closed. *)
Theorem C23_requires : forall E n a b c, twf a -> twf b ->
  (value a -> value b -> a = b -> tc_lop (tc E (S n)) K_EVAL_REQUIRES [a; b; c] = Ok (Some c)) /\
  (~ (value a /\ value b /\ a = b) -> tc_lop (tc E (S n)) K_EVAL_REQUIRES [a; b; c] = Ok None).
Proof.
  intros E n a b c Wa Wb. cbn [tc tc_lop]. unfold evaluateLiteralOp. cbn [vec_at nth_error bind].
  rewrite <- !value_flags by assumption.
  destruct (isGround a && negb (isEvaluatable a)) eqn:Ea.
  - destruct (isGround b && negb (isEvaluatable b)) eqn:Eb.
    + cbn [andb]. destruct (term_eqb a b) eqn:Ee.
      * apply term_eqb_eq in Ee. split; [reflexivity|]. intro H. exfalso. apply H. auto.
      * apply term_eqb_neq in Ee. split; [contradiction|reflexivity].
    + split; [discriminate|reflexivity].
  - split; [discriminate|reflexivity].
Qed.
Print Assumptions C23_requires.

Definition ex_stuck := Node K_EVAL_ADD [ex_a; ex_b].
Example C23_example :
  Forall ground_arg [ex_a; ex_stuck] /\ inert ex_a /\ ~ inert ex_stuck /\ value ex_b /\
  ex_run K_EVAL_EQ [ex_a; ex_a] = Ok (Some (Lit (LBool true))) /\
  ex_run K_EVAL_EQ [ex_a; ex_b] = Ok (Some (Lit (LBool false))) /\
  ex_run K_EVAL_EQ [ex_stuck; ex_stuck] = Ok None /\
  ex_run K_EVAL_IS_EQ [ex_stuck; ex_stuck] = Ok (Some (Lit (LBool false))) /\
  ex_run K_EVAL_IS_OK [ex_stuck] = Ok (Some (Lit (LBool false))) /\
  ex_run K_EVAL_REQUIRES [ex_b; ex_b; Sym K_PARAM 6] = Ok (Some (Sym K_PARAM 6)).
Proof.
  split; [ground_tac|]. split; [apply eval_inert; [twf_tac|reflexivity]|].
  split; [apply inert_flag; [twf_tac|reflexivity]|]. split; [apply value_flags; [twf_tac|reflexivity]|].
  repeat split; vm_compute; reflexivity.
Qed.

(** C24 *)
Theorem C24_length : forall E n a0 op l nl xs, list_op E n false a0 op l nl ->
  Forall ground_arg [a0; l] -> curried op l -> not_app2 op nl -> l = rlist op nl xs ->
  tc_lop (tc E (S n)) K_EVAL_LIST_LENGTH [a0; l] = Ok (Some (Lit (LNum (Z.of_nat (length xs))))).
Proof. intros E n a0 op l nl xs. exact (run_length E n false a0 op l nl xs). Qed.
Print Assumptions C24_length.

Theorem C24_cons : forall E n a0 op x l nl, list_op E n false a0 op x nl ->
  Forall ground_arg [a0; x; l] -> curried op l -> not_app2 op nl ->
  (forall xs, l = rlist op nl xs -> tc_lop (tc E (S n)) K_EVAL_CONS [a0; x; l] = Ok (Some (rlist op nl (x :: xs)))) /\
  ((forall xs, l <> rlist op nl xs) -> tc_lop (tc E (S n)) K_EVAL_CONS [a0; x; l] = Ok None).
Proof.
  intros E n a0 op x l nl H1 H2 H3 H4. destruct (run_cons E n false a0 op x l nl H1 H2 H3 H4) as [A B].
  split; [|exact B]. intros xs El. rewrite (A xs El), El. reflexivity.
Qed.
Print Assumptions C24_cons.

Theorem C24_concat : forall E n a0 op l1 l2 nl, list_op E n false a0 op l1 nl ->
  Forall ground_arg [a0; l1; l2] -> curried op l1 -> curried op l2 -> not_app2 op nl ->
  (forall xs ys, l1 = rlist op nl xs -> l2 = rlist op nl ys ->
     tc_lop (tc E (S n)) K_EVAL_LIST_CONCAT [a0; l1; l2] = Ok (Some (rlist op nl (xs ++ ys)))) /\
  ((forall xs, l1 <> rlist op nl xs) \/ (forall ys, l2 <> rlist op nl ys) ->
     tc_lop (tc E (S n)) K_EVAL_LIST_CONCAT [a0; l1; l2] = Ok None).
Proof. exact run_concat. Qed.
Print Assumptions C24_concat.

Theorem C24_nth : forall E n a0 op l nl xs i, list_op E n false a0 op l nl ->
  Forall ground_arg [a0; l; Lit (LNum i)] -> curried op l -> not_app2 op nl -> l = rlist op nl xs ->
  Z.of_nat (length xs) < 2 ^ 32 ->
  tc_lop (tc E (S n)) K_EVAL_LIST_NTH [a0; l; Lit (LNum i)]
    = Ok (if i <? 0 then None else nth_error xs (Z.to_nat i)).
Proof. exact run_nth. Qed.
Print Assumptions C24_nth.

Theorem C24_find : forall E n a0 op l nl xs x, list_op E n false a0 op l nl ->
  Forall ground_arg [a0; l; x] -> curried op l -> not_app2 op nl -> l = rlist op nl xs ->
  exists i, tc_lop (tc E (S n)) K_EVAL_LIST_FIND [a0; l; x] = Ok (Some (Lit (LNum i))) /\ position x xs i.
Proof. exact run_find. Qed.
Print Assumptions C24_find.

Theorem C24_rev : forall E n a0 op l nl xs, list_op E n false a0 op l nl ->
  Forall ground_arg [a0; l] -> curried op l -> not_app2 op nl -> l = rlist op nl xs ->
  tc_lop (tc E (S n)) K_EVAL_LIST_REV [a0; l] = Ok (Some (rlist op nl (rev xs))).
Proof. intros E n a0 op l nl xs. exact (run_rev E n false a0 op l nl xs). Qed.
Print Assumptions C24_rev.

Theorem C24_singleton_elim : forall E n a0 op l nl xs, list_op E n false a0 op l nl ->
  Forall ground_arg [a0; l] -> curried op l -> not_app2 op nl -> l = rlist op nl xs ->
  (forall x, xs = [x] -> tc_lop (tc E (S n)) K_EVAL_LIST_SINGLETON_ELIM [a0; l] = Ok (Some x)) /\
  (length xs <> 1%nat -> tc_lop (tc E (S n)) K_EVAL_LIST_SINGLETON_ELIM [a0; l] = Ok (Some l)).
Proof.
  intros E n a0 op l nl xs H1 H2 H3 H4 H5. rewrite (run_singleton E n false a0 op l nl xs H1 H2 H3 H4 H5). split.
  - intros x ->. reflexivity.
  - destruct xs as [|x [|y xs]]; try reflexivity. cbn. lia.
Qed.
Print Assumptions C24_singleton_elim.

(** On anything else no list operator evaluates (cons and concatenation are
    above). *)
Theorem C24_not_a_list : forall E n left a0 op l nl rest k, list_op E n left a0 op l nl ->
  Forall ground_arg (a0 :: l :: rest) -> curried op l -> not_app2 op nl ->
  (forall xs, l <> flist left op nl xs) ->
  isListLiteralOp k = true -> k <> K_EVAL_NIL -> k <> K_EVAL_CONS -> k <> K_EVAL_LIST_CONCAT ->
  (k = K_EVAL_LIST_NTH -> rest <> []) ->
  tc_lop (tc E (S n)) k (a0 :: l :: rest) = Ok None.
Proof. intros E n left a0 op l nl rest k. exact (run_not_list E n left a0 op l nl rest k). Qed.
Print Assumptions C24_not_a_list.

Ltac curried_tac := apply curriedb_ok; vm_compute; reflexivity.
Example C24_example :
  let l := orl [ex_a; orl [ex_b; ex_c]; ex_a] in
  list_op ex_E 2 false ex_or ex_or l ex_false /\ list_op ex_E 2 false ex_or ex_or ex_b ex_false /\
  Forall ground_arg [ex_or; l; ex_num 1] /\
  curried ex_or l /\ not_app2 ex_or ex_false /\
  ex_run K_EVAL_LIST_LENGTH [ex_or; l] = Ok (Some (ex_num 3)) /\
  ex_run K_EVAL_CONS [ex_or; ex_b; l] = Ok (Some (orl [ex_b; ex_a; orl [ex_b; ex_c]; ex_a])) /\
  ex_run K_EVAL_CONS [ex_or; ex_b; ex_c] = Ok None /\
  ex_run K_EVAL_LIST_CONCAT [ex_or; l; orl [ex_b]] = Ok (Some (orl [ex_a; orl [ex_b; ex_c]; ex_a; ex_b])) /\
  ex_run K_EVAL_LIST_NTH [ex_or; l; ex_num 1] = Ok (Some (orl [ex_b; ex_c])) /\
  ex_run K_EVAL_LIST_FIND [ex_or; l; ex_a] = Ok (Some (ex_num 0)) /\
  ex_run K_EVAL_LIST_REV [ex_or; orl [ex_a; ex_b; ex_c]] = Ok (Some (orl [ex_c; ex_b; ex_a])) /\
  ex_run K_EVAL_LIST_SINGLETON_ELIM [ex_or; orl [ex_a]] = Ok (Some ex_a) /\
  ex_run K_EVAL_LIST_SINGLETON_ELIM [ex_or; l] = Ok (Some l) /\
  ex_run K_EVAL_LIST_REV [ex_or; app2 ex_or ex_a ex_b] = Ok None.
Proof.
  split; [apply ex_or_op|]. split; [apply ex_or_op|]. split; [ground_tac|]. split; [curried_tac|].
  split; [apply ex_not_app2|]. repeat split; vm_compute; reflexivity.
Qed.

(** C25 *)
Theorem C25_erase : forall E n a0 op l nl xs x, list_op E n false a0 op l nl ->
  Forall ground_arg [a0; l; x] -> curried op l -> not_app2 op nl -> l = rlist op nl xs ->
  exists ys, erased x xs ys /\ tc_lop (tc E (S n)) K_EVAL_LIST_ERASE [a0; l; x] = Ok (Some (rlist op nl ys)).
Proof. exact run_erase. Qed.
Print Assumptions C25_erase.

Theorem C25_erase_all : forall E n a0 op l nl xs x, list_op E n false a0 op l nl ->
  Forall ground_arg [a0; l; x] -> curried op l -> not_app2 op nl -> l = rlist op nl xs ->
  exists ys, erased_all x xs ys /\
    tc_lop (tc E (S n)) K_EVAL_LIST_ERASE_ALL [a0; l; x] = Ok (Some (rlist op nl ys)).
Proof. exact run_erase_all. Qed.
Print Assumptions C25_erase_all.

Theorem C25_setof : forall E n a0 op l nl xs, list_op E n false a0 op l nl ->
  Forall ground_arg [a0; l] -> curried op l -> not_app2 op nl -> l = rlist op nl xs ->
  exists ys, firsts [] xs ys /\ tc_lop (tc E (S n)) K_EVAL_LIST_SETOF [a0; l] = Ok (Some (rlist op nl ys)).
Proof. exact run_setof. Qed.
Print Assumptions C25_setof.

Theorem C25_diff : forall E n a0 op l1 l2 nl xs ys, list_op E n false a0 op l1 nl ->
  Forall ground_arg [a0; l1; l2] -> curried op l1 -> not_app2 op nl ->
  l1 = rlist op nl xs -> l2 = rlist op nl ys -> Z.of_nat (length ys) < 2 ^ 32 ->
  exists zs, difference xs ys zs /\
    tc_lop (tc E (S n)) K_EVAL_LIST_DIFF [a0; l1; l2] = Ok (Some (rlist op nl zs)).
Proof. intros E n. exact (run_diffinter E n true). Qed.
Print Assumptions C25_diff.

Theorem C25_inter : forall E n a0 op l1 l2 nl xs ys, list_op E n false a0 op l1 nl ->
  Forall ground_arg [a0; l1; l2] -> curried op l1 -> not_app2 op nl ->
  l1 = rlist op nl xs -> l2 = rlist op nl ys -> Z.of_nat (length ys) < 2 ^ 32 ->
  exists zs, intersection xs ys zs /\
    tc_lop (tc E (S n)) K_EVAL_LIST_INTER [a0; l1; l2] = Ok (Some (rlist op nl zs)).
Proof. intros E n. exact (run_diffinter E n false). Qed.
Print Assumptions C25_inter.

Example C25_example :
  let l := orl [ex_c; ex_a; ex_a; ex_b; ex_a] in
  list_op ex_E 2 false ex_or ex_or l ex_false /\ Forall ground_arg [ex_or; l; orl [ex_a; ex_a]] /\
  curried ex_or l /\ not_app2 ex_or ex_false /\
  ex_run K_EVAL_LIST_ERASE [ex_or; l; ex_a] = Ok (Some (orl [ex_c; ex_a; ex_b; ex_a])) /\
  ex_run K_EVAL_LIST_ERASE_ALL [ex_or; l; ex_a] = Ok (Some (orl [ex_c; ex_b])) /\
  ex_run K_EVAL_LIST_SETOF [ex_or; l] = Ok (Some (orl [ex_c; ex_a; ex_b])) /\
  ex_run K_EVAL_LIST_DIFF [ex_or; l; orl [ex_a; ex_a]] = Ok (Some (orl [ex_c; ex_b; ex_a])) /\
  ex_run K_EVAL_LIST_INTER [ex_or; l; orl [ex_a; ex_a]] = Ok (Some (orl [ex_a; ex_a])).
Proof.
  split; [apply ex_or_op|]. split; [ground_tac|]. split; [curried_tac|].
  split; [apply ex_not_app2|]. repeat split; vm_compute; reflexivity.
Qed.

(** C26, for both directions of associativity *)
Theorem C26_minclude : forall E n left a0 op l1 l2 nl xs ys, list_op E n left a0 op l1 nl ->
  Forall ground_arg [a0; l1; l2] -> curried op l1 -> not_app2 op nl ->
  l1 = flist left op nl xs -> l2 = flist left op nl ys ->
  Z.of_nat (length xs) < 2 ^ 32 -> Z.of_nat (length ys) < 2 ^ 32 ->
  exists b, tc_lop (tc E (S n)) K_EVAL_LIST_MINCLUDE [a0; l1; l2] = Ok (Some (Lit (LBool b))) /\
    (b = true <-> included xs ys).
Proof. intros E n left. exact (run_mpred E n left false). Qed.
Print Assumptions C26_minclude.

Theorem C26_meq : forall E n left a0 op l1 l2 nl xs ys, list_op E n left a0 op l1 nl ->
  Forall ground_arg [a0; l1; l2] -> curried op l1 -> not_app2 op nl ->
  l1 = flist left op nl xs -> l2 = flist left op nl ys ->
  Z.of_nat (length xs) < 2 ^ 32 -> Z.of_nat (length ys) < 2 ^ 32 ->
  exists b, tc_lop (tc E (S n)) K_EVAL_LIST_MEQ [a0; l1; l2] = Ok (Some (Lit (LBool b))) /\
    (b = true <-> Permutation xs ys).
Proof. intros E n left. exact (run_mpred E n left true). Qed.
Print Assumptions C26_meq.

Theorem C26_meq_both_inclusions : forall xs ys, Permutation xs ys <-> included xs ys /\ included ys xs.
Proof.
  intros xs ys. rewrite perm_occ, !included_occ. split.
  - intro H. split; intro t; rewrite H; lia.
  - intros [H1 H2] t. specialize (H1 t). specialize (H2 t). lia.
Qed.
Print Assumptions C26_meq_both_inclusions.

Example C26_example :
  list_op ex_E 2 false ex_or ex_or (orl [ex_a; ex_b]) ex_false /\
  Forall ground_arg [ex_or; orl [ex_a; ex_b]; orl [ex_a; ex_a; ex_b]] /\
  curried ex_or (orl [ex_a; ex_b]) /\ not_app2 ex_or ex_false /\
  ex_run K_EVAL_LIST_MINCLUDE [ex_or; orl [ex_a; ex_b]; orl [ex_a; ex_a; ex_b]] = Ok (Some (Lit (LBool true))) /\
  ex_run K_EVAL_LIST_MINCLUDE [ex_or; orl [ex_a; ex_b; ex_b]; orl [ex_a; ex_b]] = Ok (Some (Lit (LBool false))) /\
  ex_run K_EVAL_LIST_MEQ [ex_or; orl [ex_a; ex_b; ex_b]; orl [ex_a; ex_a; ex_b]] = Ok (Some (Lit (LBool false))) /\
  ex_run K_EVAL_LIST_MEQ [ex_or; orl [ex_a; ex_b; ex_c; ex_b]; orl [ex_b; ex_a; ex_c; ex_b]] = Ok (Some (Lit (LBool true))).
Proof.
  split; [apply ex_or_op|]. split; [ground_tac|]. split; [curried_tac|].
  split; [apply ex_not_app2|]. repeat split; vm_compute; reflexivity.
Qed.

(** C27: what the manual calls "analogously" does not hold: on left-associative
    lists reversal is the identity, concatenation and erasing reverse a part,
    and positions count from the end. *)
Theorem C27_left_lists_refuted :
  exists E n op nl, (forall l, list_op E n true op op l nl) /\ not_app2 op nl /\
  exists xs ys x, Forall ground_arg [op; llist op nl xs; llist op nl ys; x] /\
    curried op (llist op nl xs) /\ curried op (llist op nl ys) /\
    tc_lop (tc E (S n)) K_EVAL_LIST_REV [op; llist op nl xs] <> Ok (Some (llist op nl (rev xs))) /\
    tc_lop (tc E (S n)) K_EVAL_LIST_CONCAT [op; llist op nl xs; llist op nl ys] <> Ok (Some (llist op nl (xs ++ ys))) /\
    tc_lop (tc E (S n)) K_EVAL_LIST_NTH [op; llist op nl xs; Lit (LNum 0)] <> Ok (nth_error xs 0) /\
    (forall i, tc_lop (tc E (S n)) K_EVAL_LIST_FIND [op; llist op nl xs; x] = Ok (Some (Lit (LNum i))) ->
       ~ position x xs i) /\
    (forall zs, tc_lop (tc E (S n)) K_EVAL_LIST_ERASE [op; llist op nl xs; x] = Ok (Some (llist op nl zs)) ->
       ~ erased x xs zs).
Proof.
  exists ex_E, 2%nat, ex_lor, ex_false. split; [exact ex_lor_op|]. split; [apply ex_not_app2|].
  exists [ex_a; ex_b; ex_c], [ex_b; ex_c], ex_a. split; [ground_tac|]. split; [curried_tac|]. split; [curried_tac|].
  split; [vm_compute; discriminate|]. split; [vm_compute; discriminate|]. split; [vm_compute; discriminate|]. split.
  - intros i H. vm_compute in H. injection H as <-. intros [(a & b & H1 & H2 & H3)|[H1 H2]]; [|discriminate].
    destruct a as [|y a]; [discriminate|]. injection H1 as <- _. apply H2. left. reflexivity.
  - intros zs H. assert (Hz : llist ex_lor ex_false zs = llist ex_lor ex_false [ex_c; ex_b]).
    { vm_compute in H. vm_compute. congruence. }
    apply (flist_inj true ex_lor ex_false zs) in Hz; [|curried_tac|apply ex_not_app2]. subst zs.
    intros [[H1 _]|(a & b & H1 & H2 & H3)].
    + apply H1. left. reflexivity.
    + destruct a as [|y a]; [injection H1 as <-; discriminate|]. injection H1 as <- _. apply H2. left. reflexivity.
Qed.
Print Assumptions C27_left_lists_refuted.

(** What holds on left-associative lists. Missing from the full statement: the
    operators refuted above. *)
Theorem C27_left_lists_partial : forall E n a0 op l nl xs, list_op E n true a0 op l nl ->
  Forall ground_arg [a0; l] -> curried op l -> not_app2 op nl -> l = llist op nl xs ->
  tc_lop (tc E (S n)) K_EVAL_LIST_LENGTH [a0; l] = Ok (Some (Lit (LNum (Z.of_nat (length xs))))) /\
  tc_lop (tc E (S n)) K_EVAL_LIST_SINGLETON_ELIM [a0; l] = Ok (Some (match xs with [x] => x | _ => l end)) /\
  (forall x, list_op E n true a0 op x nl -> ground_arg x ->
     tc_lop (tc E (S n)) K_EVAL_CONS [a0; x; l] = Ok (Some (llist op nl (xs ++ [x])))).
Proof.
  intros E n a0 op l nl xs H1 H2 H3 H4 H5. split; [exact (run_length E n true a0 op l nl xs H1 H2 H3 H4 H5)|].
  split; [exact (run_singleton E n true a0 op l nl xs H1 H2 H3 H4 H5)|].
  intros x Hx Gx. inversion H2 as [|? ? G1 G2]; subst. inversion G2 as [|? ? G3 _]; subst.
  destruct (run_cons E n true a0 op x (llist op nl xs) nl Hx) as [A _]; [constructor; [exact G1|constructor; [exact Gx|constructor; [exact G3|constructor]]]|assumption|assumption|].
  rewrite (A xs eq_refl), llist_snoc. reflexivity.
Qed.
Print Assumptions C27_left_lists_partial.

(** What the code does instead of reversing and concatenating. *)
Theorem C27_rev_is_identity : forall E n a0 op l nl xs, list_op E n true a0 op l nl ->
  Forall ground_arg [a0; l] -> curried op l -> not_app2 op nl -> l = llist op nl xs ->
  tc_lop (tc E (S n)) K_EVAL_LIST_REV [a0; l] = Ok (Some l).
Proof. intros E n a0 op l nl xs. exact (run_rev E n true a0 op l nl xs). Qed.
Print Assumptions C27_rev_is_identity.
Theorem C27_concat_reverses_second : forall E n a0 op l1 l2 nl xs ys, list_op E n true a0 op l1 nl ->
  Forall ground_arg [a0; l1; l2] -> curried op l1 -> not_app2 op nl ->
  l1 = llist op nl xs -> l2 = llist op nl ys -> xs <> [] ->
  tc_lop (tc E (S n)) K_EVAL_LIST_CONCAT [a0; l1; l2] = Ok (Some (llist op nl (xs ++ rev ys))).
Proof.
  intros E n a0 op l1 l2 nl xs ys H1 H2 H3 H4 H5 H6 Hx.
  rewrite (run_concat_left E n a0 op l1 l2 nl xs ys H1 H2 H3 H4 H5 H6).
  destruct (term_eqb l1 nl) eqn:El; [|reflexivity]. exfalso. apply term_eqb_eq in El. apply Hx.
  apply (flist_inj true op nl xs []); [|exact H4|].
  - rewrite H5 in H3. exact (proj1 (curried_flist true op nl xs H3)).
  - cbn [flist llist]. congruence.
Qed.
Print Assumptions C27_concat_reverses_second.
Example C27_example :
  let l := lorl [ex_a; ex_b; ex_c] in
  list_op ex_E 2 true ex_lor ex_lor l ex_false /\ Forall ground_arg [ex_lor; l; l] /\
  curried ex_lor l /\ not_app2 ex_lor ex_false /\
  ex_run K_EVAL_LIST_LENGTH [ex_lor; l] = Ok (Some (ex_num 3)) /\
  ex_run K_EVAL_LIST_SINGLETON_ELIM [ex_lor; lorl [ex_b]] = Ok (Some ex_b) /\
  ex_run K_EVAL_CONS [ex_lor; ex_b; l] = Ok (Some (lorl [ex_a; ex_b; ex_c; ex_b])) /\
  ex_run K_EVAL_LIST_REV [ex_lor; l] = Ok (Some l) /\
  ex_run K_EVAL_LIST_CONCAT [ex_lor; l; lorl [ex_a; ex_b]] = Ok (Some (lorl [ex_a; ex_b; ex_c; ex_b; ex_a])).
Proof.
  split; [apply ex_lor_op|]. split; [ground_tac|]. split; [curried_tac|].
  split; [apply ex_not_app2|]. repeat split; vm_compute; reflexivity.
Qed.

(** C53: the manual says that the list operators evaluate only on values. *)
Theorem C53_list_operators_on_values_refuted :
  exists E n op l x r, list_op E n false op op l (Lit (LBool false)) /\ Forall ground_arg [op; l; x] /\
    ~ inert x /\ ~ inert l /\
    tc_lop (tc E (S n)) K_EVAL_LIST_LENGTH [op; l] = Ok (Some r) /\
    tc_lop (tc E (S n)) K_EVAL_LIST_FIND [op; rlist op (Lit (LBool false)) [op]; x] = Ok (Some (Lit (LNum (-1)))).
Proof.
  exists ex_E, 2%nat, ex_or, (orl [ex_stuck]), ex_stuck, (ex_num 1).
  split; [apply ex_or_op|]. split; [ground_tac|]. split; [apply inert_flag; [twf_tac|reflexivity]|].
  split; [apply inert_flag; [twf_tac|reflexivity]|]. split; vm_compute; reflexivity.
Qed.
Print Assumptions C53_list_operators_on_values_refuted.

(** Full statement: a list operator evaluates only if all arguments are values.  Missing: the
    arguments may contain stuck applications (above).  They contain no parameters, and the first
    one is an operator that is declared with a nil terminator. *)
Theorem C53_list_operators_partial : forall E n k args r, isListLiteralOp k = true -> Forall twf args -> all_literals args = None ->
  tc_lop (tc E (S n)) k args = Ok (Some r) ->
  Forall closed args /\ exists a0 rest op ai, args = a0 :: rest /\ (op = a0 \/ exists cs, a0 = Node K_PARAMETERIZED cs /\ nth_error cs 1 = Some op) /\
    e_info E op = Some ai /\ In (ai_cons ai) [A_RIGHT_ASSOC_NIL; A_LEFT_ASSOC_NIL; A_RIGHT_ASSOC_NS_NIL; A_LEFT_ASSOC_NS_NIL].
Proof.
  intros E n k args r L W AL H. cbn [tc tc_lop] in H.
  assert (X : (if negb (forallb isGround args) then Ok None else evaluateLitTail E (tc_type (tc E n)) (tc_eval (tc E n)) k args) = Ok (Some r)).
  { destruct k; try discriminate L; exact H. }
  destruct (forallb isGround args) eqn:G; [|discriminate X]. cbn [negb] in X. split.
  { rewrite forallb_forall in G. rewrite Forall_forall in *. intros a I. apply ground_closed; auto. }
  unfold evaluateLitTail in X. rewrite AL, L in X. cbn [negb] in X. destruct args as [|a0 rest]; [discriminate X|]. cbn [vec_at nth_error bind] in X.
  assert (Y : exists op, match a0 with Node K_PARAMETERIZED cs => vec_at cs 1 | _ => Ok a0 end = Ok op).
  { destruct (match a0 with Node K_PARAMETERIZED cs => vec_at cs 1 | _ => Ok a0 end) as [op| | |]; [eauto|discriminate X..]. }
  destruct Y as [op Y]. rewrite Y in X. cbn [bind] in X. exists a0, rest, op. destruct (e_info E op) as [ai|] eqn:I; [|discriminate X]. exists ai.
  split; [reflexivity|]. split; [|split; [reflexivity|]].
  - destruct a0 as [k0 i|l|k0 cs]; try (injection Y as <-; now left). destruct k0; try (injection Y as <-; now left).
    right. exists cs. split; [reflexivity|]. unfold vec_at in Y. destruct (nth_error cs 1); [now injection Y as ->|discriminate Y].
  - destruct (ai_cons ai); try discriminate X; cbn; auto.
Qed.
Print Assumptions C53_list_operators_partial.
Example C53_example : isListLiteralOp K_EVAL_LIST_LENGTH = true /\ Forall twf [ex_or; orl [ex_stuck]] /\ all_literals [ex_or; orl [ex_stuck]] = None /\
  ex_run K_EVAL_LIST_LENGTH [ex_or; orl [ex_stuck]] = Ok (Some (ex_num 1)).
Proof. split; [reflexivity|]. split; [repeat constructor; twf_tac|]. split; vm_compute; reflexivity. Qed.
