From Coq Require Import ZArith List Bool Permutation Lia.
From Verif Require Import Base Kind Ints Str Literal Term Match Eval ListOps Typing SpecTerm SpecEval SpecLit SpecList ListProofs ListProofs2
  TermProofs EvalProofs PropList SpecDerived DerivedProofs DerivedProofs2 PropDerived SpecLaws.
Import ListNotations.
Open Scope Z_scope.

Section Laws.
Variable E : env.
Variable n : nat.
Variable progs : term -> option (list pcase).
Variable op nl : term.
Hypothesis O : list_operator E n op nl.
Variable s : sub.
Variable f : term.
Notation EV := (ev85 E n progs s).
Hypothesis Hf : EV f op.
Notation R := (rlist op nl).

Lemma curried_rlist : forall xs, Forall (curried op) xs -> curried op (R xs).
Proof.
  destruct O as (_ & (i & Eo) & _ & C & _). induction 1 as [|x xs Hx _ IH]; [exact C|]. cbn [rlist]. unfold app2.
  intros cs Ho. inversion Ho as [|k ds c Hc Ho2]; subst.
  - eexists _, _. split; [reflexivity|]. reflexivity.
  - destruct Hc as [<-|[<-|[]]]; [|exact (IH cs Ho2)]. inversion Ho2 as [|k ds c Hc Ho3]; subst.
    + eexists _, _. split; [reflexivity|]. reflexivity.
    + destruct Hc as [<-|[<-|[]]]; [inversion Ho3|exact (Hx cs Ho3)].
Qed.
Lemma val_R : forall xs, elements op xs -> value (R xs).
Proof. destruct O as (Vo & _ & Vn & _). intros xs [V _]. apply val_rlist; assumption. Qed.
Lemma cur_R : forall xs, elements op xs -> curried op (R xs).
Proof. intros xs [_ C]. now apply curried_rlist. Qed.
Lemma elements_incl : forall xs ys, elements op xs -> incl ys xs -> elements op ys.
Proof.
  intros xs ys [V C] I. rewrite Forall_forall in V, C. split; apply Forall_forall; intros x Hx; [apply V|apply C]; auto.
Qed.
Lemma elements_app : forall xs ys, elements op xs -> elements op ys -> elements op (xs ++ ys).
Proof. intros xs ys [V C] [V2 C2]. split; apply Forall_app; split; assumption. Qed.
Lemma elements_rev : forall xs, elements op xs -> elements op (rev xs).
Proof. intros xs H. apply (elements_incl xs); [exact H|]. intros x Hx. now apply in_rev. Qed.

Lemma ev3 : forall k a b v w r, isLiteralOp k = true -> k <> K_EVAL_IF_THEN_ELSE -> EV a v -> EV b w ->
  tc_lop (tc E (S n)) k [op; v; w] = Ok (Some r) -> EV (Node k [f; a; b]) r.
Proof.
  intros k a b v w r H1 H2 Ha Hb H. unfold ev85 in *. eapply ev_op; [exact H1|exact H2|discriminate| |exact H].
  constructor; [exact Hf|]. constructor; [exact Ha|]. constructor; [exact Hb|constructor].
Qed.
Lemma ev2 : forall k a v r, isLiteralOp k = true -> k <> K_EVAL_IF_THEN_ELSE -> EV a v ->
  tc_lop (tc E (S n)) k [op; v] = Ok (Some r) -> EV (Node k [f; a]) r.
Proof. intros k a v r H1 H2 Ha H. unfold ev85 in *. eapply ev_op2; eauto. Qed.

Ltac facts := destruct O as (Vo & Io & Vn & Cn & Nn & LO); repeat match goal with H : elements op ?xs |- _ =>
  pose proof (val_R xs H); pose proof (cur_R xs H); revert H end; intros.
Ltac grd := repeat (apply Forall_cons; [apply val_ground; first [assumption|apply val_lit]|]); apply Forall_nil.

Lemma ev_rev : forall a xs, elements op xs -> EV a (R xs) -> EV (Node K_EVAL_LIST_REV [f; a]) (R (rev xs)).
Proof. intros a xs X A. facts. eapply ev2; [reflexivity|discriminate|exact A|]. apply C24_rev; auto. grd. Qed.
Lemma ev_concat : forall a b xs ys, elements op xs -> elements op ys -> EV a (R xs) -> EV b (R ys) -> EV (Node K_EVAL_LIST_CONCAT [f; a; b]) (R (xs ++ ys)).
Proof.
  intros a b xs ys X Y A B. facts. eapply ev3; [reflexivity|discriminate|exact A|exact B|].
  refine (proj1 (C24_concat E n op op (R xs) (R ys) nl (LO _) _ _ _ Nn) xs ys eq_refl eq_refl); auto. grd.
Qed.
Lemma ev_length : forall a xs, elements op xs -> EV a (R xs) -> EV (Node K_EVAL_LIST_LENGTH [f; a]) (Lit (LNum (Z.of_nat (length xs)))).
Proof. intros a xs X A. facts. eapply ev2; [reflexivity|discriminate|exact A|]. apply (C24_length E n op op (R xs) nl xs); auto. grd. Qed.
Lemma ev_add : forall a b x y, EV a (Lit (LNum x)) -> EV b (Lit (LNum y)) -> EV (Node K_EVAL_ADD [a; b]) (Lit (LNum (x + y))).
Proof. intros a b x y A B. unfold ev85 in *. eapply ev_op2; [reflexivity|discriminate|exact A|exact B|]. reflexivity. Qed.
Lemma firsts_incl : forall xs seen ys, firsts seen xs ys -> incl ys xs.
Proof. intros xs seen ys H. induction H; intros x Hx; [exact Hx|right; auto|]. destruct Hx as [<-|Hx]; [now left|right; auto]. Qed.
Lemma ev_setof : forall a xs, elements op xs -> EV a (R xs) -> exists ys, firsts [] xs ys /\ elements op ys /\ EV (Node K_EVAL_LIST_SETOF [f; a]) (R ys).
Proof.
  intros a xs X A. facts. destruct (C25_setof E n op op (R xs) nl xs) as (ys & F & L); auto; [grd|]. exists ys. split; [exact F|].
  split; [apply (elements_incl xs); [assumption|eapply firsts_incl; eauto]|]. eapply ev2; [reflexivity|discriminate|exact A|exact L].
Qed.
Lemma ev_find : forall a e xs x, elements op xs -> value x -> EV a (R xs) -> EV e x -> exists i, position x xs i /\ EV (Node K_EVAL_LIST_FIND [f; a; e]) (Lit (LNum i)).
Proof.
  intros a e xs x X Vx A B. facts. destruct (C24_find E n op op (R xs) nl xs x) as (i & L & P); auto; [grd|]. exists i. split; [exact P|].
  eapply ev3; [reflexivity|discriminate|exact A|exact B|exact L].
Qed.
Lemma erased_all_incl : forall x xs ys, erased_all x xs ys -> incl ys xs.
Proof. intros x xs ys H. induction H; intros u Hu; [exact Hu|right; auto|]. destruct Hu as [<-|Hu]; [now left|right; auto]. Qed.
Lemma ev_erase_all : forall a e xs x, elements op xs -> value x -> EV a (R xs) -> EV e x ->
  exists ys, erased_all x xs ys /\ elements op ys /\ EV (Node K_EVAL_LIST_ERASE_ALL [f; a; e]) (R ys).
Proof.
  intros a e xs x X Vx A B. facts. destruct (C25_erase_all E n op op (R xs) nl xs x) as (ys & F & L); auto; [grd|]. exists ys. split; [exact F|].
  split; [apply (elements_incl xs); [assumption|eapply erased_all_incl; eauto]|]. eapply ev3; [reflexivity|discriminate|exact A|exact B|exact L].
Qed.
Lemma intersection_perm : forall u v w, intersection u v w -> forall v', Permutation v v' -> intersection u v' w.
Proof.
  intros u v w H. induction H as [ys|z xs a b r I IH|z xs ys r N I IH]; intros v' Q.
  - constructor.
  - assert (J : In z v') by (apply (Permutation_in z Q); apply in_app_iff; right; left; reflexivity).
    apply in_split in J as (c & d & ->). apply in_keep. apply IH. apply (Permutation_app_inv a b c d z Q).
  - apply in_drop; [|auto]. intro J. apply N. apply (Permutation_in z (Permutation_sym Q) J).
Qed.
Lemma intersection_inv : forall z xs ys i, intersection (z :: xs) ys i ->
  (exists a b r, ys = a ++ z :: b /\ i = z :: r /\ intersection xs (a ++ b) r) \/ (~ In z ys /\ intersection xs ys i).
Proof. intros z xs ys i H. inversion H; subst; [left; eauto 10|right; auto]. Qed.
Lemma difference_split : forall xs ys d, difference xs ys d -> forall i, intersection xs ys i -> Permutation xs (d ++ i).
Proof.
  intros xs ys d H. induction H as [ys|z xs a b r D IH|z xs ys r N D IH]; intros i I.
  - inversion I; subst. constructor.
  - apply intersection_inv in I as [(a' & b' & r' & E1 & -> & I)|[N _]].
    + apply Permutation_cons_app. apply IH. apply (intersection_perm _ _ _ I).
      apply (Permutation_app_inv a' b' a b z). rewrite E1. apply Permutation_refl.
    + exfalso. apply N. apply in_app_iff. right. left. reflexivity.
  - apply intersection_inv in I as [(a' & b' & r' & -> & _)|[_ I]].
    + exfalso. apply N. apply in_app_iff. right. left. reflexivity.
    + cbn [app]. constructor. auto.
Qed.
Lemma intersection_second : forall xs ys i, intersection xs ys i -> included i ys.
Proof.
  intros xs ys i H. induction H as [ys|z xs a b r I [rest IH]|z xs ys r N I [rest IH]].
  - exists ys. apply Permutation_refl.
  - exists rest. cbn [app]. apply Permutation_cons_app. exact IH.
  - exists rest. exact IH.
Qed.
Lemma ev_diff_inter : forall a b xs ys, elements op xs -> elements op ys -> Z.of_nat (length ys) < 2 ^ 32 -> EV a (R xs) -> EV b (R ys) ->
  exists d i, Permutation xs (d ++ i) /\ included i ys /\ elements op d /\ elements op i /\
    EV (Node K_EVAL_LIST_DIFF [f; a; b]) (R d) /\ EV (Node K_EVAL_LIST_INTER [f; a; b]) (R i).
Proof.
  intros a b xs ys X Y L A B. facts.
  destruct (C25_diff E n op op (R xs) (R ys) nl xs ys) as (d & D & L1); auto; [grd|].
  destruct (C25_inter E n op op (R xs) (R ys) nl xs ys) as (i & I & L2); auto; [grd|].
  pose proof (difference_split _ _ _ D _ I) as P. exists d, i. split; [exact P|]. split; [eapply intersection_second; eauto|].
  assert (J : elements op (d ++ i)) by (apply (elements_incl xs); [assumption|]; intros u Hu; apply (Permutation_in u (Permutation_sym P) Hu)).
  split; [eapply elements_incl; [exact J|]; apply incl_appl, incl_refl|]. split; [eapply elements_incl; [exact J|]; apply incl_appr, incl_refl|].
  split; (eapply ev3; [reflexivity|discriminate|exact A|exact B|assumption]).
Qed.
Lemma ev_meq : forall a b xs ys, elements op xs -> elements op ys -> Z.of_nat (length xs) < 2 ^ 32 -> Permutation xs ys -> EV a (R xs) -> EV b (R ys) ->
  EV (Node K_EVAL_LIST_MEQ [f; a; b]) (Lit (LBool true)).
Proof.
  intros a b xs ys X Y L P A B. pose proof (Permutation_length P) as PL. facts.
  destruct (C26_meq E n false op op (R xs) (R ys) nl xs ys) as (r & HH & K); auto; [grd|lia|]. rewrite (proj2 K P) in HH.
  eapply ev3; [reflexivity|discriminate|exact A|exact B|exact HH].
Qed.
Lemma ev_minclude : forall a b xs ys, elements op xs -> elements op ys -> Z.of_nat (length ys) < 2 ^ 32 -> included xs ys -> EV a (R xs) -> EV b (R ys) ->
  EV (Node K_EVAL_LIST_MINCLUDE [f; a; b]) (Lit (LBool true)).
Proof.
  intros a b xs ys X Y L P A B. assert (PL : (length xs <= length ys)%nat).
  { destruct P as [rest P]. apply Permutation_length in P. rewrite app_length in P. lia. }
  facts. destruct (C26_minclude E n false op op (R xs) (R ys) nl xs ys) as (r & HH & K); auto; [grd|lia|]. rewrite (proj2 K P) in HH.
  eapply ev3; [reflexivity|discriminate|exact A|exact B|exact HH].
Qed.
Lemma ev_nth : forall a m xs i x, elements op xs -> Z.of_nat (length xs) < 2 ^ 32 -> 0 <= i -> nth_error xs (Z.to_nat i) = Some x ->
  EV a (R xs) -> EV m (Lit (LNum i)) -> EV (Node K_EVAL_LIST_NTH [f; a; m]) x.
Proof.
  intros a m xs i x X L I H A B. facts. eapply ev3; [reflexivity|discriminate|exact A|exact B|].
  rewrite (C24_nth E n op op (R xs) nl xs i); auto; [|grd]. replace (i <? 0) with false by (symmetry; apply Z.ltb_ge; lia). now rewrite H.
Qed.
End Laws.

Lemma firsts_unique : forall seen xs ys, firsts seen xs ys -> forall zs, firsts seen xs zs -> zs = ys.
Proof.
  intros seen xs ys H. induction H as [seen|seen z xs ys I F IH|seen z xs ys N F IH]; intros zs G; inversion G; subst; try contradiction; auto. f_equal. auto.
Qed.
Lemma firsts_again : forall seen xs ys, firsts seen xs ys -> firsts seen ys ys.
Proof. intros seen xs ys H. induction H; [constructor|assumption|]. apply fi_keep; assumption. Qed.
Lemma firsts_included : forall seen xs ys, firsts seen xs ys -> included ys xs.
Proof.
  intros seen xs ys H. induction H as [seen|seen z xs ys I F [r IH]|seen z xs ys N F [r IH]].
  - exists []. constructor.
  - exists (z :: r). apply Permutation_sym, Permutation_cons_app, Permutation_sym. exact IH.
  - exists r. cbn [app]. constructor. exact IH.
Qed.
Lemma erased_all_app : forall x xs ys us vs, erased_all x xs us -> erased_all x ys vs -> erased_all x (xs ++ ys) (us ++ vs).
Proof. intros x xs ys us vs H G. induction H; cbn [app]; [exact G|now constructor|now constructor]. Qed.
Lemma erased_all_unique : forall x xs ys, erased_all x xs ys -> forall zs, erased_all x xs zs -> zs = ys.
Proof. intros x xs ys H. induction H; intros zs G; inversion G; subst; try contradiction; auto; try congruence. f_equal. auto. Qed.
Lemma erased_all_gone : forall x xs ys, erased_all x xs ys -> ~ In x ys.
Proof. intros x xs ys H. induction H; intro I; [exact I|auto|]. destruct I as [->|I]; [congruence|auto]. Qed.
