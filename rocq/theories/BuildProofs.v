(** Proofs about the construction of applications. *)
From Coq Require Import ZArith List Bool Lia Arith.
From Verif Require Import Base Kind Ints Literal Arity Term Match Eval SpecTerm TermProofs
  ListOps SpecList Typing Build SpecBuild ListProofs ListProofs2.
Import ListNotations.
Open Scope Z_scope.

(** [f] is an ordinary symbol with attribute [a]: not a built-in operator and
    not overloaded. *)
Definition declared (E : env) (f : term) (a : attr) (ai : appinfo) : Prop :=
  e_info E f = Some ai /\ ai_cons ai = a /\ ai_kind ai = K_NONE /\ ai_over ai = None.
(** The parameter [t] is marked :list. *)
Definition marked (E : env) (t : term) : Prop := exists ai, e_info E t = Some ai /\ ai_cons ai = A_LIST.
(** The nil terminator of an application of [f] with first argument [t1]: the
    declared one, or a placeholder if it cannot be determined yet. *)
Definition nil_for (E : env) (n : nat) (f : term) (ai : appinfo) (t1 nl : term) : Prop :=
  exists ct, computeConstructorTerm (tc_type (tc E n)) (tc_eval (tc E n)) ai [f; t1] (tc_type (tc E n) t1) = Ok ct /\
    nl = match ct with Some c => c | None => Node K_EVAL_NIL [f; Node K_EVAL_TYPE_OF [t1]] end.

Lemma nil_for_plain : forall E n f ai t1 nl, ai_cterm ai = Some nl -> tkind nl <> K_PARAMETERIZED ->
  nil_for E n f ai t1 nl.
Proof.
  intros E n f ai t1 nl H1 H2. exists (Some nl). split; [|reflexivity]. unfold computeConstructorTerm. rewrite H1.
  destruct (kind_eqb (tkind nl) K_PARAMETERIZED) eqn:Ek; [apply kind_eqb_eq in Ek; contradiction|]. reflexivity.
Qed.

Lemma marked_flag : forall E t, attr_eqb (getConstructorKind E t) A_LIST = true <-> marked E t.
Proof.
  intros E t. unfold marked, getConstructorKind. destruct (e_info E t) as [ai|].
  - split.
    + intro H. exists ai. split; [reflexivity|]. destruct (ai_cons ai); try discriminate H. reflexivity.
    + intros (ai' & H & Ha). injection H as <-. rewrite Ha. reflexivity.
  - split; [discriminate|intros (ai & H & _); discriminate].
Qed.
Lemma not_marked_flag : forall E t, attr_eqb (getConstructorKind E t) A_LIST = false <-> ~ marked E t.
Proof. intros. rewrite <- marked_flag. destruct (attr_eqb _ _); split; intro H; congruence. Qed.

Lemma cct_children : forall gt evl ai f t1 ts ty,
  computeConstructorTerm gt evl ai (f :: t1 :: ts) ty = computeConstructorTerm gt evl ai [f; t1] ty.
Proof. reflexivity. Qed.

(** The associative loop in the order of processing. *)
Definition assoc_run (E : env) (isLeft isNil : bool) (hd nl : term) (os : list term) : term * nat :=
  match os with
  | [] => (nl, O)
  | first :: others =>
      if isNil && negb (attr_eqb (getConstructorKind E first) A_LIST)
      then fold_left (assoc_step E isLeft isNil hd) os (nl, O)
      else fold_left (assoc_step E isLeft isNil hd) others (first, O)
  end.
Lemma assoc_run_snoc : forall E isLeft isNil hd nl os t, os <> [] ->
  assoc_run E isLeft isNil hd nl (os ++ [t]) = assoc_step E isLeft isNil hd (assoc_run E isLeft isNil hd nl os) t.
Proof.
  intros E isLeft isNil hd nl [|x os] t H; [contradiction|]. cbn [app assoc_run].
  destruct (isNil && negb (attr_eqb (getConstructorKind E x) A_LIST)).
  - rewrite app_comm_cons, fold_left_app. reflexivity.
  - rewrite fold_left_app. reflexivity.
Qed.

Lemma unmarked_snoc : forall M t ts k, unmarked M ts k ->
  (M t -> unmarked M (ts ++ [t]) k) /\ (~ M t -> unmarked M (ts ++ [t]) (S k)).
Proof.
  intros M t ts k H. induction H as [|u ts k Hu H [A B]|u ts k Hu H [A B]].
  - split; intro Ht; [apply um_list|apply um_cons]; try exact Ht; constructor.
  - split; intro Ht; cbn; apply um_list; auto.
  - split; intro Ht; cbn; apply um_cons; auto.
Qed.

Lemma desugar_right_nonempty : forall f nl M ts r, desugar_right f nl M ts r -> ts <> [].
Proof. intros f nl M ts r H. destruct H; discriminate. Qed.
Lemma desugar_left_nonempty : forall f nl M ts r, desugar_left f nl M ts r -> ts <> [].
Proof. intros f nl M ts r H. destruct H; try discriminate; intro E; apply app_eq_nil in E; destruct E; discriminate. Qed.

Lemma run_right_nil : forall E f nl ts r, desugar_right f nl (marked E) ts r ->
  exists k, assoc_run E false true f nl (rev ts) = (r, k) /\ unmarked (marked E) ts k.
Proof.
  intros E f nl ts r H. induction H as [t Ht|t Ht|t ts r Ht H IH|t ts r Ht H IH].
  - exists O. cbn [rev app assoc_run]. rewrite (proj2 (marked_flag E t) Ht). split; [reflexivity|]. apply um_list; [exact Ht|constructor].
  - exists 1%nat. cbn [rev app assoc_run]. rewrite (proj2 (not_marked_flag E t) Ht).
    cbn [andb negb fold_left assoc_step]. rewrite (proj2 (not_marked_flag E t) Ht).
    split; [reflexivity|]. apply um_cons; [exact Ht|constructor].
  - destruct IH as (k & E1 & E2). exists k. cbn [rev]. rewrite assoc_run_snoc, E1.
    2:{ intro X. apply (desugar_right_nonempty _ _ _ _ _ H). rewrite <- (rev_involutive ts), X. reflexivity. }
    cbn [andb assoc_step]. rewrite (proj2 (marked_flag E t) Ht). split; [reflexivity|]. apply um_list; assumption.
  - destruct IH as (k & E1 & E2). exists (S k). cbn [rev]. rewrite assoc_run_snoc, E1.
    2:{ intro X. apply (desugar_right_nonempty _ _ _ _ _ H). rewrite <- (rev_involutive ts), X. reflexivity. }
    cbn [andb assoc_step]. rewrite (proj2 (not_marked_flag E t) Ht). split; [reflexivity|]. apply um_cons; assumption.
Qed.
Lemma run_left_nil : forall E f nl ts r, desugar_left f nl (marked E) ts r ->
  exists k, assoc_run E true true f nl ts = (r, k) /\ unmarked (marked E) ts k.
Proof.
  intros E f nl ts r H. induction H as [t Ht|t Ht|t ts r Ht H IH|t ts r Ht H IH].
  - exists O. cbn [rev app assoc_run]. rewrite (proj2 (marked_flag E t) Ht). split; [reflexivity|]. apply um_list; [exact Ht|constructor].
  - exists 1%nat. cbn [rev app assoc_run]. rewrite (proj2 (not_marked_flag E t) Ht).
    cbn [andb negb fold_left assoc_step]. rewrite (proj2 (not_marked_flag E t) Ht).
    split; [reflexivity|]. apply um_cons; [exact Ht|constructor].
  - destruct IH as (k & E1 & E2). exists k. rewrite assoc_run_snoc, E1 by exact (desugar_left_nonempty _ _ _ _ _ H).
    cbn [andb assoc_step]. rewrite (proj2 (marked_flag E t) Ht). split; [reflexivity|]. apply (unmarked_snoc _ _ _ _ E2); assumption.
  - destruct IH as (k & E1 & E2). exists (S k). rewrite assoc_run_snoc, E1 by exact (desugar_left_nonempty _ _ _ _ _ H).
    cbn [andb assoc_step]. rewrite (proj2 (not_marked_flag E t) Ht). split; [reflexivity|]. apply (unmarked_snoc _ _ _ _ E2); assumption.
Qed.

Lemma marked_dec : forall E t, marked E t \/ ~ marked E t.
Proof.
  intros E t. destruct (attr_eqb (getConstructorKind E t) A_LIST) eqn:H; [left; apply marked_flag|right; apply not_marked_flag]; exact H.
Qed.
Lemma desugar_right_total : forall E f nl ts, ts <> [] -> exists r, desugar_right f nl (marked E) ts r.
Proof.
  intros E f nl ts. induction ts as [|t ts IH]; [intro H; contradiction|]. intros _.
  destruct ts as [|u ts].
  - destruct (marked_dec E t); eexists; [apply dr_last_list|apply dr_last]; assumption.
  - destruct IH as (r & Hr); [discriminate|]. destruct (marked_dec E t); eexists; [eapply dr_list|eapply dr_cons]; eassumption.
Qed.
Lemma desugar_left_total : forall E f nl ts, ts <> [] -> exists r, desugar_left f nl (marked E) ts r.
Proof.
  intros E f nl ts. induction ts as [|t ts IH] using rev_ind; [intro H; contradiction|]. intros _.
  destruct ts as [|u ts].
  - destruct (marked_dec E t); eexists; [apply dl_first_list|apply dl_first]; assumption.
  - destruct IH as (r & Hr); [discriminate|]. destruct (marked_dec E t); eexists; [eapply dl_list|eapply dl_snoc]; eassumption.
Qed.

(** mkExpr on a symbol with an attribute. *)
Lemma mkExpr_attr : forall E n m f ts a ai, declared E f a ai ->
  mkExpr E n (S m) K_APPLY (f :: ts) =
  let* ct := computeConstructorTerm (tc_type (tc E n)) (tc_eval (tc E n)) ai (f :: ts) (tc_type (tc E n) (nth 0 ts null_term)) in
  let* r := mkApplyAttr E (mkExpr E n m) ai (f :: ts) ct in
  match r with Some t => Ok t | None => mkExprPlain E (tc E n) (f :: ts) end.
Proof.
  intros E n m f ts a ai (H1 & H2 & H3 & H4). cbn [mkExpr mkExprApply]. rewrite H1, H3, H4. reflexivity.
Qed.

Definition is_left (a : attr) : bool := match a with A_LEFT_ASSOC | A_LEFT_ASSOC_NIL | A_LEFT_ASSOC_NS_NIL => true | _ => false end.
Definition is_ns (a : attr) : bool := match a with A_RIGHT_ASSOC_NS_NIL | A_LEFT_ASSOC_NS_NIL => true | _ => false end.
Definition is_nil_attr (a : attr) : bool := is_ns a || match a with A_RIGHT_ASSOC_NIL | A_LEFT_ASSOC_NIL => true | _ => false end.

Lemma mkApplyAssoc_run : forall E mk a hd t1 ts ct,
  mkApplyAssoc E mk a hd (t1 :: ts) ct =
  let nl := match ct with Some c => c | None => Node K_EVAL_NIL [hd; Node K_EVAL_TYPE_OF [t1]] end in
  let '(curr, k) := assoc_run E (is_left a) (is_nil_attr a) hd nl (if is_left a then t1 :: ts else rev (t1 :: ts)) in
  if is_ns a && (k <? 2)%nat
  then let* r := mk K_EVAL_LIST_SINGLETON_ELIM [hd; curr] in Ok (Some r)
  else Ok (Some curr).
Proof.
  intros E mk a hd t1 ts ct. unfold mkApplyAssoc. fold (is_left a). fold (is_ns a).
  change (is_ns a || match a with A_RIGHT_ASSOC_NIL | A_LEFT_ASSOC_NIL => true | _ => false end) with (is_nil_attr a).
  assert (N : (if is_left a then t1 :: ts else rev (t1 :: ts)) <> []).
  { destruct (is_left a); [discriminate|]. cbn. intro X. apply app_eq_nil in X. destruct X; discriminate. }
  destruct (if is_left a then t1 :: ts else rev (t1 :: ts)) as [|first others]; [contradiction|].
  cbn [assoc_run].
  destruct (is_nil_attr a && negb (attr_eqb (getConstructorKind E first) A_LIST)); reflexivity.
Qed.

Lemma mkApplyAttr_assoc : forall E mk ai hd ts ct, 
  match ai_cons ai with A_LEFT_ASSOC | A_RIGHT_ASSOC | A_LEFT_ASSOC_NIL | A_RIGHT_ASSOC_NIL
      | A_RIGHT_ASSOC_NS_NIL | A_LEFT_ASSOC_NS_NIL => true | _ => false end = true ->
  mkApplyAttr E mk ai (hd :: ts) ct = mkApplyAssoc E mk (ai_cons ai) hd ts ct.
Proof. intros E mk ai hd ts ct H. cbn [mkApplyAttr]. destruct (ai_cons ai); try discriminate H; reflexivity. Qed.

Lemma build_right_nil : forall E n m f ai t1 ts nl r, declared E f A_RIGHT_ASSOC_NIL ai ->
  nil_for E n f ai t1 nl -> desugar_right f nl (marked E) (t1 :: ts) r ->
  mkExpr E n (S m) K_APPLY (f :: t1 :: ts) = Ok r.
Proof.
  intros E n m f ai t1 ts nl r D (ct & Hc & Hn) H. rewrite (mkExpr_attr E n m f _ _ ai D), cct_children. cbn [nth]. rewrite Hc.
  cbn [bind]. destruct D as (_ & Ha & _). rewrite mkApplyAttr_assoc by (rewrite Ha; reflexivity). rewrite Ha, mkApplyAssoc_run.
  cbn [is_left is_ns is_nil_attr andb orb]. cbv zeta. rewrite <- Hn.
  destruct (run_right_nil E f nl _ r H) as (k & -> & _). reflexivity.
Qed.
Lemma build_left_nil : forall E n m f ai t1 ts nl r, declared E f A_LEFT_ASSOC_NIL ai ->
  nil_for E n f ai t1 nl -> desugar_left f nl (marked E) (t1 :: ts) r ->
  mkExpr E n (S m) K_APPLY (f :: t1 :: ts) = Ok r.
Proof.
  intros E n m f ai t1 ts nl r D (ct & Hc & Hn) H. rewrite (mkExpr_attr E n m f _ _ ai D), cct_children. cbn [nth]. rewrite Hc.
  cbn [bind]. destruct D as (_ & Ha & _). rewrite mkApplyAttr_assoc by (rewrite Ha; reflexivity). rewrite Ha, mkApplyAssoc_run.
  cbn [is_left is_ns is_nil_attr andb orb]. cbv zeta. rewrite <- Hn.
  destruct (run_left_nil E f nl _ r H) as (k & -> & _). reflexivity.
Qed.

Lemma build_ns : forall (left : bool) E n m f ai t1 ts nl r k,
  declared E f (if left then A_LEFT_ASSOC_NS_NIL else A_RIGHT_ASSOC_NS_NIL) ai ->
  nil_for E n f ai t1 nl ->
  (if left then desugar_left f nl (marked E) (t1 :: ts) r else desugar_right f nl (marked E) (t1 :: ts) r) ->
  unmarked (marked E) (t1 :: ts) k ->
  mkExpr E n (S m) K_APPLY (f :: t1 :: ts) =
  if (k <? 2)%nat then mkExpr E n m K_EVAL_LIST_SINGLETON_ELIM [f; r] else Ok r.
Proof.
  assert (U : forall M ts k k', unmarked M ts k -> unmarked M ts k' -> k = k').
  { intros M ts k k' H. revert k'. induction H; intros k' H'; inversion H'; subst; try contradiction; auto. }
  intros left E n m f ai t1 ts nl r k D (ct & Hc & Hn) H Hk.
  rewrite (mkExpr_attr E n m f _ _ ai D), cct_children. cbn [nth]. rewrite Hc. cbn [bind].
  destruct D as (_ & Ha & _). rewrite mkApplyAttr_assoc by (rewrite Ha; destruct left; reflexivity).
  rewrite Ha, mkApplyAssoc_run. cbv zeta. rewrite <- Hn. destruct left.
  - cbn [is_left is_ns is_nil_attr andb orb]. destruct (run_left_nil E f nl _ r H) as (k' & -> & Hk').
    rewrite (U _ _ _ _ Hk' Hk). destruct (k <? 2)%nat; [|reflexivity]. destruct (mkExpr E n m _ _); reflexivity.
  - cbn [is_left is_ns is_nil_attr andb orb]. destruct (run_right_nil E f nl _ r H) as (k' & -> & Hk').
    rewrite (U _ _ _ _ Hk' Hk). destruct (k <? 2)%nat; [|reflexivity]. destruct (mkExpr E n m _ _); reflexivity.
Qed.

(** Without nil terminator. *)
Lemma assoc_right_len : forall f ts r, assoc_right f ts r -> ts <> [].
Proof. intros f ts r H; destruct H; discriminate. Qed.
Lemma assoc_left_len : forall f ts r, assoc_left f ts r -> ts <> [].
Proof. intros f ts r H; destruct H; [discriminate|]. intro X; apply app_eq_nil in X; destruct X; discriminate. Qed.
Lemma run_right : forall E f nl ts r, assoc_right f ts r -> exists k, assoc_run E false false f nl (rev ts) = (r, k).
Proof.
  intros E f nl ts r H. induction H as [x y|x ts r H (k & IH)]; [eexists; reflexivity|].
  cbn [rev]. rewrite assoc_run_snoc, IH; [eexists; reflexivity|].
  intro X. apply (assoc_right_len _ _ _ H). rewrite <- (rev_involutive ts), X. reflexivity.
Qed.
Lemma run_left : forall E f nl ts r, assoc_left f ts r -> exists k, assoc_run E true false f nl ts = (r, k).
Proof.
  intros E f nl ts r H. induction H as [x y|x ts r H (k & IH)]; [eexists; reflexivity|].
  rewrite assoc_run_snoc, IH; [eexists; reflexivity|]. exact (assoc_left_len _ _ _ H).
Qed.
(** The constructor term of an operator that has none. *)
Lemma cct_none : forall gt evl ai cs ty, ai_cterm ai = None -> computeConstructorTerm gt evl ai cs ty = Ok None.
Proof. intros gt evl ai cs ty H. unfold computeConstructorTerm. rewrite H. reflexivity. Qed.
Lemma build_assoc : forall (left : bool) E n m f ai ts r,
  declared E f (if left then A_LEFT_ASSOC else A_RIGHT_ASSOC) ai -> ai_cterm ai = None ->
  (if left then assoc_left f ts r else assoc_right f ts r) ->
  mkExpr E n (S m) K_APPLY (f :: ts) = Ok r.
Proof.
  intros left E n m f ai ts r D Hc H.
  assert (N : ts <> []) by (destruct left; [exact (assoc_left_len _ _ _ H)|exact (assoc_right_len _ _ _ H)]).
  destruct ts as [|t1 ts]; [contradiction|].
  rewrite (mkExpr_attr E n m f _ _ ai D), (cct_none _ _ _ _ _ Hc). cbn [bind].
  destruct D as (_ & Ha & _). rewrite mkApplyAttr_assoc by (rewrite Ha; destruct left; reflexivity).
  rewrite Ha, mkApplyAssoc_run. cbv zeta. destruct left; cbn [is_left is_ns is_nil_attr andb orb].
  - destruct (run_left E f (Node K_EVAL_NIL [f; Node K_EVAL_TYPE_OF [t1]]) _ r H) as (k & ->). reflexivity.
  - destruct (run_right E f (Node K_EVAL_NIL [f; Node K_EVAL_TYPE_OF [t1]]) _ r H) as (k & ->). reflexivity.
Qed.

(** Chains and pairs. *)
Lemma chain_neighbours : forall f ts, neighbours f ts (chain f ts).
Proof.
  intros f ts. induction ts as [|x ts IH].
  - split; [reflexivity|]. intros [|i] a b H; discriminate.
  - destruct ts as [|y ts].
    + split; [reflexivity|]. intros [|i] a b H1 H2; cbn in H2; [discriminate|destruct i; discriminate].
    + destruct IH as [L IH]. split.
      * cbn [chain length pred] in *. rewrite L. reflexivity.
      * intros [|i] a b H1 H2.
        -- cbn in H1, H2. injection H1 as <-. injection H2 as <-. reflexivity.
        -- cbn [chain nth_error] in *. apply IH; assumption.
Qed.
Lemma nth_error_ext' : forall (A : Type) (l1 l2 : list A), (forall i, nth_error l1 i = nth_error l2 i) -> l1 = l2.
Proof.
  intros A l1. induction l1 as [|x l1 IH]; intros [|y l2] H; [reflexivity| | |].
  - specialize (H O). discriminate.
  - specialize (H O). discriminate.
  - assert (H0 := H O). injection H0 as <-. f_equal. apply IH. intro i. exact (H (S i)).
Qed.
Lemma neighbours_unique : forall f ts ps, neighbours f ts ps -> ps = chain f ts.
Proof.
  intros f ts ps [L H]. destruct (chain_neighbours f ts) as [L' H'].
  apply nth_error_ext'. intro i. destruct (nth_error ts i) as [x|] eqn:Ex.
  - destruct (nth_error ts (S i)) as [y|] eqn:Ey.
    + rewrite (H i x y Ex Ey), (H' i x y Ex Ey). reflexivity.
    + apply nth_error_None in Ey. rewrite !(proj2 (nth_error_None _ _)); [reflexivity| |]; lia.
  - apply nth_error_None in Ex. rewrite !(proj2 (nth_error_None _ _)); [reflexivity| |]; lia.
Qed.
Lemma map_nth_seq : forall (A B : Type) (g : A -> B) d (l : list A),
  map (fun j => g (nth j l d)) (seq 0 (length l)) = map g l.
Proof.
  intros A B g d l. induction l as [|x l IH]; [reflexivity|]. cbn [length seq map nth]. f_equal.
  rewrite <- seq_shift, map_map. exact IH.
Qed.
Lemma pairwise_all : forall f ts, pairwise f ts = all_pairs f ts.
Proof.
  intros f ts. induction ts as [|x ts IH]; [reflexivity|].
  cbn [pairwise]. unfold all_pairs in *. cbn [length seq flat_map]. f_equal.
  - cbn [Nat.sub]. rewrite Nat.sub_0_r.
    rewrite <- seq_shift, map_map. cbn [nth].
    symmetry. apply (map_nth_seq term term (mkApply2 f x)).
  - rewrite IH. rewrite <- seq_shift. rewrite !flat_map_concat_map, map_map. f_equal. apply map_ext. intro i.
    cbn [Nat.sub nth]. rewrite <- (seq_shift _ (S i)), map_map. reflexivity.
Qed.

Lemma build_combine : forall E n m f ai op ts ps a, declared E f a ai ->
  ai_cterm ai = Some op -> tkind op <> K_PARAMETERIZED ->
  (a = A_CHAINABLE /\ neighbours f ts ps \/ a = A_PAIRWISE /\ ps = all_pairs f ts) ->
  (forall p, ps = [p] -> mkExpr E n (S m) K_APPLY (f :: ts) = Ok p) /\
  (length ps <> 1%nat -> mkExpr E n (S m) K_APPLY (f :: ts) = mkExpr E n m K_APPLY (op :: ps)).
Proof.
  intros E n m f ai op ts ps a D Hc Hk Hp.
  assert (R : mkExpr E n (S m) K_APPLY (f :: ts) =
    let* r := combine_apps (mkExpr E n m) (Some op) ps in match r with Some t => Ok t | None => mkExprPlain E (tc E n) (f :: ts) end).
  { rewrite (mkExpr_attr E n m f _ _ ai D).
    assert (C : forall cs ty, computeConstructorTerm (tc_type (tc E n)) (tc_eval (tc E n)) ai cs ty = Ok (Some op)).
    { intros. unfold computeConstructorTerm. rewrite Hc. destruct (kind_eqb (tkind op) K_PARAMETERIZED) eqn:Ek; [apply kind_eqb_eq in Ek; contradiction|]. reflexivity. }
    rewrite C. cbn [bind mkApplyAttr]. destruct D as (_ & Ha & _). rewrite Ha.
    destruct Hp as [[-> Hp]|[-> ->]]; [rewrite (neighbours_unique _ _ _ Hp)|rewrite <- pairwise_all]; reflexivity. }
  split.
  - intros p ->. rewrite R. reflexivity.
  - intro L. rewrite R. destruct ps as [|p [|q ps]]; [| cbn in L; lia|]; cbn [combine_apps or_null];
      destruct (mkExpr E n m K_APPLY _); reflexivity.
Qed.

Lemma build_arg_list : forall E n m f ai op ts, declared E f A_ARG_LIST ai ->
  ai_cterm ai = Some op -> tkind op <> K_PARAMETERIZED ->
  (forall t, ts = [t] -> marked E t -> mkExpr E n (S m) K_APPLY (f :: ts) = Ok (Node K_APPLY [f; t])) /\
  ((forall t, ts = [t] -> ~ marked E t) -> forall r, mkExpr E n m K_APPLY (op :: ts) = Ok r ->
     mkExpr E n (S m) K_APPLY (f :: ts) = Ok (Node K_APPLY [f; r])).
Proof.
  intros E n m f ai op ts D Hc Hk.
  assert (C : forall cs ty, computeConstructorTerm (tc_type (tc E n)) (tc_eval (tc E n)) ai cs ty = Ok (Some op)).
  { intros. unfold computeConstructorTerm. rewrite Hc. destruct (kind_eqb (tkind op) K_PARAMETERIZED) eqn:Ek; [apply kind_eqb_eq in Ek; contradiction|]. reflexivity. }
  rewrite (mkExpr_attr E n m f _ _ ai D), C. cbn [bind mkApplyAttr]. destruct D as (_ & Ha & _). rewrite Ha. split.
  - intros t -> Ht. rewrite (proj2 (marked_flag E t) Ht). reflexivity.
  - intros Hn r Hr. destruct ts as [|t [|u ts]]; cbn [or_null].
    + rewrite Hr. reflexivity.
    + rewrite (proj2 (not_marked_flag E t) (Hn t eq_refl)), Hr. reflexivity.
    + rewrite Hr. reflexivity.
Qed.

(** Plain lists. *)
Lemma desugar_right_rlist : forall f nl M ts, ts <> [] -> Forall (fun t => ~ M t) ts ->
  desugar_right f nl M ts (rlist f nl ts).
Proof.
  intros f nl M ts. induction ts as [|t ts IH]; [intro; contradiction|]. intros _ H. inversion H as [|? ? Ht Hts]; subst.
  destruct ts as [|u ts]; [apply dr_last; exact Ht|]. cbn [rlist]. apply dr_cons; [exact Ht|]. apply IH; [discriminate|exact Hts].
Qed.
Lemma desugar_left_llist : forall f nl M ts, ts <> [] -> Forall (fun t => ~ M t) ts ->
  desugar_left f nl M ts (llist f nl ts).
Proof.
  intros f nl M ts. induction ts as [|t ts IH] using rev_ind; [intro; contradiction|]. intros _ H.
  apply Forall_app in H. destruct H as [Hts Ht]. inversion Ht as [|? ? Ht' _]; subst.
  rewrite llist_snoc. destruct ts as [|u ts]; [apply dl_first; exact Ht'|]. apply dl_snoc; [exact Ht'|]. apply IH; [discriminate|exact Hts].
Qed.

(** Overloading. *)
Lemma getOverload_exact : forall E mk T ov children rt ra,
  (forall hd, In hd ov -> exists r, try_overload E mk T hd children = Ok r) ->
  (exists pre hd post x ty, ov = pre ++ hd :: post /\
     try_overload E mk T hd children = Ok (Some (x, ty)) /\ match rt with None => True | Some t => t = ty end /\
     (forall h, In h pre -> forall x' ty', try_overload E mk T h children = Ok (Some (x', ty')) ->
        match rt with None => False | Some t => t <> ty' end) /\
     getOverload E mk T ov children rt ra = Ok (Some (if ra then x else hd))) \/
  ((forall h, In h ov -> forall x' ty', try_overload E mk T h children = Ok (Some (x', ty')) ->
        match rt with None => False | Some t => t <> ty' end) /\
   getOverload E mk T ov children rt ra = Ok None).
Proof.
  intros E mk T ov children rt ra. induction ov as [|h ov IH]; intro Hok.
  - right. split; [intros h []|reflexivity].
  - cbn [getOverload]. destruct (Hok h (or_introl eq_refl)) as (r & Hr). rewrite Hr. cbn [bind].
    assert (IH' := IH (fun hd H => Hok hd (or_intror H))).
    assert (Skip : (forall x' ty', try_overload E mk T h children = Ok (Some (x', ty')) ->
              match rt with None => False | Some t => t <> ty' end) ->
            getOverload E mk T (h :: ov) children rt ra = getOverload E mk T ov children rt ra ->
            (exists pre hd post x ty, h :: ov = pre ++ hd :: post /\
     try_overload E mk T hd children = Ok (Some (x, ty)) /\ match rt with None => True | Some t => t = ty end /\
     (forall h, In h pre -> forall x' ty', try_overload E mk T h children = Ok (Some (x', ty')) ->
        match rt with None => False | Some t => t <> ty' end) /\
     getOverload E mk T ov children rt ra = Ok (Some (if ra then x else hd))) \/
  ((forall h', In h' (h :: ov) -> forall x' ty', try_overload E mk T h' children = Ok (Some (x', ty')) ->
        match rt with None => False | Some t => t <> ty' end) /\
   getOverload E mk T ov children rt ra = Ok None)).
    { intros Hno _. destruct IH' as [(pre & hd & post & x & ty & -> & A & B & C & D)|(A & B)].
      - left. exists (h :: pre), hd, post, x, ty. split; [reflexivity|]. split; [exact A|]. split; [exact B|]. split; [|exact D].
        intros h' [<-|Hh']; [exact Hno|apply C; exact Hh'].
      - right. split; [|exact B]. intros h' [<-|Hh']; [exact Hno|apply A; exact Hh']. }
    destruct r as [[x ty]|].
    + destruct (match rt with None => true | Some t => term_eqb t ty end) eqn:Et.
      * left. exists [], h, ov, x, ty. split; [reflexivity|]. split; [exact Hr|]. split.
        { destruct rt as [t|]; [apply term_eqb_eq; exact Et|exact I]. }
        split; [intros h' []|reflexivity].
      * apply Skip; [|cbn [getOverload]; rewrite Hr; cbn [bind]; rewrite Et; reflexivity].
        intros x' ty' H. rewrite Hr in H. injection H as <- <-. destruct rt as [t|]; [apply term_eqb_neq; exact Et|discriminate].
    + apply Skip; [|cbn [getOverload]; rewrite Hr; reflexivity]. intros x' ty' H. rewrite Hr in H. discriminate.
Qed.
