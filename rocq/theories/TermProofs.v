(** Proofs about terms, flags and parameters. *)
From Coq Require Import ZArith List Bool Lia.
From Verif Require Import Base Kind Literal LiteralProofs2 Term SpecTerm.
Import ListNotations.

Section TermInd.
  Variable P : term -> Prop.
  Hypothesis Hs : forall k i, P (Sym k i).
  Hypothesis Hl : forall l, P (Lit l).
  Hypothesis Hn : forall k cs, Forall P cs -> P (Node k cs).
  Fixpoint term_ind2 (t : term) : P t :=
    match t with
    | Sym k i => Hs k i
    | Lit l => Hl l
    | Node k cs =>
        Hn k cs ((fix go (l : list term) : Forall P l :=
          match l with
          | [] => Forall_nil P
          | c :: l' => @Forall_cons _ P c l' (term_ind2 c) (go l')
          end) cs)
    end.
End TermInd.

Fixpoint terms_eqb (xs ys : list term) {struct xs} : bool :=
  match xs, ys with
  | [], [] => true
  | x :: xs', y :: ys' => term_eqb x y && terms_eqb xs' ys'
  | _, _ => false
  end.

Lemma term_eqb_node : forall k cs k' ds,
  term_eqb (Node k cs) (Node k' ds) = kind_eqb k k' && terms_eqb cs ds.
Proof.
  reflexivity.
Qed.

Lemma term_eqb_eq : forall a b, term_eqb a b = true <-> a = b.
Proof.
  intro a. induction a as [k i|l|k cs IH] using term_ind2; intros [k' j|l'|k' ds];
    try (split; [discriminate|discriminate]).
  - cbn [term_eqb]. rewrite andb_true_iff, kind_eqb_eq, Z.eqb_eq. split.
    + intros [-> ->]; reflexivity.
    + intros [= -> ->]; auto.
  - cbn [term_eqb]. rewrite lit_eqb_eq. split; congruence.
  - rewrite term_eqb_node, andb_true_iff, kind_eqb_eq.
    assert (H : terms_eqb cs ds = true <-> cs = ds).
    { revert ds. induction IH as [|c cs Hc Hcs IHcs]; intros [|d ds];
        try (split; [discriminate|discriminate]); [split; reflexivity|].
      cbn [terms_eqb]. rewrite andb_true_iff, Hc, IHcs. split.
      - intros [-> ->]; reflexivity.
      - intros [= -> ->]; auto. }
    rewrite H. split; [intros [-> ->]; reflexivity|intros [= -> ->]; auto].
Qed.

Lemma term_eqb_refl : forall a, term_eqb a a = true.
Proof. intro a; apply term_eqb_eq; reflexivity. Qed.

Lemma term_eqb_neq : forall a b, term_eqb a b = false <-> a <> b.
Proof. intros a b. rewrite <- term_eqb_eq. destruct (term_eqb a b); split; congruence. Qed.

Definition term_eq_dec (a b : term) : {a = b} + {a <> b}.
Proof.
  destruct (term_eqb a b) eqn:E.
  - left; apply term_eqb_eq; exact E.
  - right; apply term_eqb_neq; exact E.
Defined.

Lemma mem_term_In : forall t l, mem_term t l = true <-> In t l.
Proof.
  intros t l. induction l as [|u l IH]; [split; [discriminate|intros []]|].
  cbn [mem_term In]. rewrite orb_true_iff, term_eqb_eq, IH. reflexivity.
Qed.

Lemma mem_term_not_In : forall t l, mem_term t l = false <-> ~ In t l.
Proof. intros t l. rewrite <- mem_term_In. destruct (mem_term t l); split; congruence. Qed.

(** * Sizes *)

Definition tsizes (l : list term) : nat := fold_right (fun c n => (tsize c + n)%nat) O l.

Lemma tsize_node : forall k cs, tsize (Node k cs) = S (tsizes cs).
Proof. reflexivity. Qed.

Lemma tsizes_cons : forall x l, tsizes (x :: l) = (tsize x + tsizes l)%nat.
Proof. reflexivity. Qed.
Lemma tsizes_nil : tsizes [] = O.
Proof. reflexivity. Qed.

Lemma tsizes_app : forall a b, tsizes (a ++ b) = (tsizes a + tsizes b)%nat.
Proof. induction a as [|x a IH]; intro b; [reflexivity|]. cbn [app]. rewrite !tsizes_cons, IH. lia. Qed.

Lemma tsizes_rev : forall a, tsizes (rev a) = tsizes a.
Proof. induction a as [|x a IH]; [reflexivity|]. cbn [rev]. rewrite tsizes_app, IH, !tsizes_cons, tsizes_nil. lia. Qed.

Lemma tsize_pos : forall t, (0 < tsize t)%nat.
Proof. intros [k i|l|k cs]; cbn; lia. Qed.

Lemma tsizes_In : forall c l, In c l -> (tsize c <= tsizes l)%nat.
Proof.
  intros c l. induction l as [|x l IH]; [intros []|]. intros [->|H]; rewrite tsizes_cons; [lia|].
  specialize (IH H). lia.
Qed.

Lemma tsize_child : forall c t, In c (tchildren t) -> (tsize c < tsize t)%nat.
Proof.
  intros c [k i|l|k cs] H; try destruct H. cbn [tchildren] in H.
  rewrite tsize_node. apply tsizes_In in H. lia.
Qed.

Lemma tsize_children : forall t, (tsizes (tchildren t) < tsize t)%nat.
Proof. intros [k i|l|k cs]; cbn [tchildren]; [cbn;lia|cbn;lia|rewrite tsize_node; lia]. Qed.

Lemma stack_fuel_eq : forall l, stack_fuel l = S (tsizes l).
Proof. reflexivity. Qed.

(** * Subterms *)

Lemma occurs_trans : forall a b c, occurs a b -> occurs b c -> occurs a c.
Proof.
  intros a b c Hab Hbc. induction Hbc as [|k cs c Hin Hb IH]; [exact Hab|].
  eapply occ_child; eauto.
Qed.

Lemma occurs_child : forall c t, In c (tchildren t) -> occurs c t.
Proof. intros c [k i|l|k cs] H; try destruct H; apply (occ_child _ _ _ c); auto; apply occ_here. Qed.

Lemma occurs_inv : forall s t, occurs s t -> s = t \/ exists c, In c (tchildren t) /\ occurs s c.
Proof. intros s t H. inversion H as [|k cs c Hin Ho]; subst; [left; reflexivity|right]. exists c; auto. Qed.

Lemma twf_child : forall t c, twf t -> In c (tchildren t) -> twf c.
Proof.
  intros t c H Hin. inversion H as [k i Hk|l|k cs H1 H2 H3]; subst; try (destruct Hin; fail).
  rewrite Forall_forall in H3. apply H3. exact Hin.
Qed.

Lemma twf_occurs : forall s t, twf t -> occurs s t -> twf s.
Proof.
  intros s t W H. induction H as [|k cs c Hin Ho IH]; [exact W|].
  apply IH. eapply twf_child; eauto.
Qed.

Lemma existsb_flag : forall (f : term -> bool) l, existsb f l = true <-> exists c, In c l /\ f c = true.
Proof. intros f l. apply existsb_exists. Qed.

Lemma lit_kind_literal : forall l, isLiteral (lit_kind l) = true.
Proof. intros []; reflexivity. Qed.

Lemma lit_leaf : forall l, leaf_eval (lit_kind l) = false /\ leaf_nonground (lit_kind l) = false.
Proof. intros []; split; reflexivity. Qed.

(** What the recursive functions say. *)
Lemma leaf_eval_spec : forall t, twf t -> tchildren t = [] ->
  (leaf_eval (tkind t) = true <-> computes t).
Proof.
  intros t W H. unfold leaf_eval. rewrite orb_true_iff, !kind_eqb_eq. split.
  - intros [E|E].
    + left. inversion W as [k i Hk|l|k cs H1 H2 H3]; subst; cbn [tkind] in E; subst.
      * exists i; reflexivity.
      * destruct l; discriminate.
      * discriminate.
    + right; left. inversion W as [k i Hk|l|k cs H1 H2 H3]; subst; cbn [tkind] in E; subst.
      * discriminate.
      * destruct l; discriminate.
      * cbn [tchildren] in H. subst. reflexivity.
  - intros [(i & ->)|[->|(k & cs & -> & Hne & _)]]; cbn; auto.
    cbn [tchildren] in H. congruence.
Qed.

Lemma isEvaluatable_node : forall t, tchildren t <> [] ->
  isEvaluatable t = isLiteralOp (tkind t) || existsb isEvaluatable (tchildren t).
Proof. intros [k i|l|k [|c cs]] H; try (exfalso; apply H; reflexivity). reflexivity. Qed.
Lemma nonGround_node : forall t, tchildren t <> [] ->
  nonGround t = existsb nonGround (tchildren t).
Proof. intros [k i|l|k [|c cs]] H; try (exfalso; apply H; reflexivity). reflexivity. Qed.
Lemma isEvaluatable_leaf : forall t, tchildren t = [] -> isEvaluatable t = leaf_eval (tkind t).
Proof. intros [k i|l|k [|c cs]] H; try reflexivity. discriminate. Qed.
Lemma nonGround_leaf : forall t, tchildren t = [] -> nonGround t = leaf_nonground (tkind t).
Proof. intros [k i|l|k [|c cs]] H; try reflexivity. discriminate. Qed.

Theorem isEvaluatable_spec : forall t, twf t ->
  (isEvaluatable t = true <-> exists s, occurs s t /\ computes s).
Proof.
  intro t. induction t as [k i|l|k cs IH] using term_ind2; intro W.
  - rewrite isEvaluatable_leaf by reflexivity. rewrite leaf_eval_spec by (auto; reflexivity).
    split; [intro H; exists (Sym k i); split; [apply occ_here|exact H]|].
    intros (s & Ho & Hc). inversion Ho; subst. exact Hc.
  - rewrite isEvaluatable_leaf by reflexivity. rewrite leaf_eval_spec by (auto; reflexivity).
    split; [intro H; exists (Lit l); split; [apply occ_here|exact H]|].
    intros (s & Ho & Hc). inversion Ho; subst. exact Hc.
  - destruct (list_eq_dec term_eq_dec cs []) as [->|Hne].
    + rewrite isEvaluatable_leaf by reflexivity. rewrite leaf_eval_spec by (auto; reflexivity).
      split; [intro H; exists (Node k []); split; [apply occ_here|exact H]|].
      intros (s & Ho & Hc). apply occurs_inv in Ho. destruct Ho as [->|(c & [] & _)]. exact Hc.
    + rewrite isEvaluatable_node by exact Hne. cbn [tkind tchildren].
      rewrite orb_true_iff, existsb_exists.
      rewrite Forall_forall in IH. split.
      * intros [Hk|(c & Hin & Hc)].
        -- exists (Node k cs). split; [apply occ_here|]. right; right. exists k, cs; auto.
        -- apply IH in Hc; [|exact Hin|eapply twf_child; eauto].
           destruct Hc as (s & Ho & Hs). exists s. split; [|exact Hs].
           eapply occ_child; eauto.
      * intros (s & Ho & Hs). apply occurs_inv in Ho. destruct Ho as [->|(c & Hin & Ho)].
        -- left. destruct Hs as [(i & E)|[E|(k' & cs' & E & _ & Hk)]]; [discriminate| |].
           ++ unfold is_any in E. injection E as -> E2. contradiction.
           ++ injection E as -> ->. exact Hk.
        -- right. exists c. split; [exact Hin|]. apply IH; [exact Hin|eapply twf_child; eauto|].
           exists s; auto.
Qed.

Lemma leaf_nonground_spec : forall t, twf t -> tchildren t = [] ->
  (leaf_nonground (tkind t) = true <-> is_param t \/ is_any t).
Proof.
  intros t W H. unfold leaf_nonground. rewrite orb_true_iff, !kind_eqb_eq. split.
  - intros [E|E].
    + left. inversion W as [k i Hk|l|k cs H1 H2 H3]; subst; cbn [tkind] in E; subst.
      * exists i; reflexivity.
      * destruct l; discriminate.
      * discriminate.
    + right. inversion W as [k i Hk|l|k cs H1 H2 H3]; subst; cbn [tkind] in E; subst.
      * discriminate.
      * destruct l; discriminate.
      * cbn [tchildren] in H. subst. reflexivity.
  - intros [(i & ->)| ->]; cbn; auto.
Qed.

Theorem nonGround_spec : forall t, twf t ->
  (nonGround t = true <-> exists s, occurs s t /\ (is_param s \/ is_any s)).
Proof.
  intro t. induction t as [k i|l|k cs IH] using term_ind2; intro W.
  - rewrite nonGround_leaf by reflexivity. rewrite leaf_nonground_spec by (auto; reflexivity).
    split; [intro H; exists (Sym k i); split; [apply occ_here|exact H]|].
    intros (s & Ho & Hc). inversion Ho; subst. exact Hc.
  - rewrite nonGround_leaf by reflexivity. rewrite leaf_nonground_spec by (auto; reflexivity).
    split; [intro H; exists (Lit l); split; [apply occ_here|exact H]|].
    intros (s & Ho & Hc). inversion Ho; subst. exact Hc.
  - destruct (list_eq_dec term_eq_dec cs []) as [->|Hne].
    + rewrite nonGround_leaf by reflexivity. rewrite leaf_nonground_spec by (auto; reflexivity).
      split; [intro H; exists (Node k []); split; [apply occ_here|exact H]|].
      intros (s & Ho & Hc). apply occurs_inv in Ho. destruct Ho as [->|(c & [] & _)]. exact Hc.
    + rewrite nonGround_node by exact Hne. cbn [tchildren].
      rewrite existsb_exists.
      rewrite Forall_forall in IH. split.
      * intros (c & Hin & Hc).
        apply IH in Hc; [|exact Hin|eapply twf_child; eauto].
        destruct Hc as (s & Ho & Hs). exists s. split; [|exact Hs].
        eapply occ_child; eauto.
      * intros (s & Ho & Hs). apply occurs_inv in Ho. destruct Ho as [->|(c & Hin & Ho)].
        -- exfalso. destruct Hs as [(i & E)|E]; [discriminate|].
           unfold is_any in E. injection E as -> E2. contradiction.
        -- exists c. split; [exact Hin|]. apply IH; [exact Hin|eapply twf_child; eauto|].
           exists s; auto.
Qed.
