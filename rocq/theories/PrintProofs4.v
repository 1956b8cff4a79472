(** Proofs about printing: what definitions stand for. *)
From Coq Require Import String ZArith List Bool Lia.
From Verif Require Import Base Kind Ints Str Literal Arity Term Match Eval ListOps Typing Lexer SpecLex TermProofs LiteralProofs2 LiteralProofs3
  Print SpecPrint PrintProofs PrintProofs2 PrintProofs3.
Import ListNotations.
Open Scope nat_scope.

Fixpoint px_ind' (P : px -> Prop) (HA : forall s, P (PA s)) (HL : forall xs, Forall P xs -> P (PL xs)) (x : px) : P x :=
  match x with
  | PA s => HA s
  | PL xs => HL xs ((fix go (l : list px) : Forall P l :=
                       match l with [] => Forall_nil P | y :: l' => Forall_cons y (px_ind' P HA HL y) (go l') end) xs)
  end.

Lemma let_name_inj i j : let_name i = let_name j -> i = j.
Proof.
  unfold let_name. intros H. apply app_inv_head in H.
  pose proof (num_print_read (Z.of_nat i)) as A. pose proof (num_print_read (Z.of_nat j)) as B.
  cbn [lit_toString] in A, B. rewrite H in A. rewrite A in B. injection B as B. lia.
Qed.

Lemma replaced_same r x : (forall w, In w (px_words x) -> assoc r w = None) -> replaced r x = x.
Proof.
  induction x as [s|xs IH] using px_ind'; intros H; cbn [replaced].
  - rewrite H; [reflexivity|now left].
  - f_equal. induction IH as [|y ys Py _ IH]; [reflexivity|]. cbn [map]. f_equal.
    + apply Py. intros w I. apply H. cbn. apply in_app_iff. now left.
    + apply IH. intros w I. apply H. cbn. apply in_app_iff. now right.
Qed.

Section Print.
Variable E : env.
Definition none : term -> option text := fun _ => None.

Lemma leaf_det t x y : written_leaf E t x -> written_leaf E t y -> x = y.
Proof.
  intros A B. destruct A; inversion B; subst; try congruence; try reflexivity;
    f_equal; match goal with
    | H1 : written_name ?n _, H2 : written_name ?n _ |- _ => apply quoteSymbol_spec in H1, H2; congruence
    | H1 : kind_word ?n _, H2 : kind_word ?n _ |- _ => apply kind_word_spec in H1, H2; congruence
    end.
Qed.
Lemma head_det k c a b : head_word E k c a -> head_word E k c b -> a = b.
Proof.
  intros A B. destruct A; inversion B; subst; try congruence; try reflexivity; try tauto.
  repeat f_equal. match goal with H1 : kind_word ?n ?a, H2 : kind_word ?n ?b |- _ => apply kind_word_spec in H1, H2; congruence end.
Qed.

Lemma plain_det :
  (forall t x us, written E none t x us -> forall y vs, written E none t y vs -> x = y) /\
  (forall ts xs us, written_list E none ts xs us -> forall ys vs, written_list E none ts ys vs -> xs = ys).
Proof.
  apply written_minds.
  - discriminate.
  - intros t x _ P W y vs H. inversion H; subst; try discriminate.
    + eapply leaf_det; eassumption.
    + inversion P; congruence.
    + inversion P.
  - intros i T x us _ S _ IH y vs H. inversion H; subst; try discriminate.
    + match goal with H : parts _ _ [] |- _ => inversion H end.
      congruence.
    + match goal with A : written E none ?T0 ?x0 _, B : e_symtype E _ = Some ?T0 |- _ => rewrite S in B; injection B as <-; rewrite (IH _ _ A) end. reflexivity.
  - intros k c cs h xs us _ P HW _ IH y vs H. inversion H; subst; try discriminate.
    + match goal with Q : parts _ _ [] |- _ => inversion Q end.
    + match goal with A : written_list E none _ ?x0 _, B : head_word E _ _ ?h0 |- _ => rewrite (IH _ _ A), (head_det _ _ _ _ HW B) end. reflexivity.
  - intros ys vs H. now inversion H.
  - intros t x us ts xs vs _ IH _ IHl ys ws H. inversion H; subst.
    match goal with A : written E none t _ _, B : written_list E none ts _ _ |- _ => rewrite (IH _ _ A), (IHl _ _ B) end. reflexivity.
Qed.
Lemma plainly_det t x y : plainly E t x -> plainly E t y -> x = y.
Proof. intros [us A] [vs B]. exact (proj1 plain_det _ _ _ A _ _ B). Qed.

(** Replacing the names of a text gives the text without abbreviations. *)
Lemma replaced_written lb r :
  (forall t b us, written E lb t b us -> forall x vs, written E none t x vs ->
     (forall u w, lb u = Some w -> within E u t -> exists y, assoc r w = Some y /\ plainly E u y) ->
     (forall w, In w (px_words x) -> assoc r w = None) -> replaced r b = x) /\
  (forall ts bs us, written_list E lb ts bs us -> forall xs vs, written_list E none ts xs vs ->
     (forall t u w, In t ts -> lb u = Some w -> within E u t -> exists y, assoc r w = Some y /\ plainly E u y) ->
     (forall w, In w (flat_map px_words xs) -> assoc r w = None) -> map (replaced r) bs = xs).
Proof.
  apply written_minds.
  - intros t w L x vs Wx A _. destruct (A t w L (wi_refl _ _)) as (y & S & P). cbn [replaced]. rewrite S.
    apply (plainly_det t); [exact P|now exists vs].
  - intros t b L P W x vs Wx _ F. assert (b = x) as ->.
    { inversion Wx; subst; try discriminate; [eapply leaf_det; eassumption|inversion P; congruence|inversion P]. }
    now apply replaced_same.
  - intros i T b us L S _ IH x vs Wx A F. inversion Wx; subst; try discriminate.
    + match goal with H : parts _ _ [] |- _ => inversion H end. congruence.
    + match goal with B : e_symtype E _ = Some ?T0, W : written E none ?T0 ?x0 ?v0 |- _ =>
        rewrite S in B; injection B as <-; pose proof (IH x0 v0 W) as IH' end.
      cbn [replaced map word]. cbn [px_words flat_map word app] in F.
      rewrite (F (txt "eo::var")) by now left. rewrite F by (right; now left). do 4 f_equal. apply IH'.
      * intros u w Lu Wu. apply (A u w Lu). eapply wi_part; [constructor; exact S|now left|exact Wu].
      * intros w I. apply F. right. right. now rewrite app_nil_r.
  - intros k c cs h bs us L P HW _ IH x vs Wx A F. inversion Wx; subst; try discriminate.
    + match goal with Q : parts _ _ [] |- _ => inversion Q end.
    + match goal with B : head_word E _ _ ?h0, W : written_list E none _ ?x0 ?v0 |- _ =>
        rewrite <- (head_det _ _ _ _ HW B) in *; pose proof (IH x0 v0 W) as IH' end.
      cbn [replaced]. f_equal. rewrite map_app. cbn [px_words] in F. rewrite flat_map_app in F. f_equal.
      * assert (G : forall w, In w (flat_map px_words h) -> assoc r w = None) by (intros; apply F, in_app_iff; now left).
        clear - G. induction h as [|p h IH]; [reflexivity|]. cbn [map]. f_equal.
        -- apply replaced_same. intros w I. apply G. cbn. apply in_app_iff. now left.
        -- apply IH. intros w I. apply G. cbn. apply in_app_iff. now right.
      * apply IH'.
        -- intros t u w I Lu Wu. apply (A u w Lu). exact (wi_part E _ _ _ _ P I Wu).
        -- intros w I. apply F, in_app_iff. now right.
  - intros xs vs H. now inversion H.
  - intros t b us ts bs vs _ IH _ IHl xs ws H A F. inversion H; subst. cbn [map flat_map] in *. f_equal.
    + eapply IH; [eassumption| |].
      * intros u w Lu Wu. apply (A t u w); auto. now left.
      * intros w I. apply F, in_app_iff. now left.
    + eapply IHl; [eassumption| |].
      * intros t' u w I Lu Wu. apply (A t' u w); auto. now right.
      * intros w I. apply F, in_app_iff. now right.
Qed.

Lemma words_within : 
  (forall t x us, written E none t x us -> forall u y, within E u t -> plainly E u y -> incl (px_words y) (px_words x)) /\
  (forall ts xs us, written_list E none ts xs us -> forall t u y, In t ts -> within E u t -> plainly E u y -> incl (px_words y) (flat_map px_words xs)).
Proof.
  apply written_minds.
  - discriminate.
  - intros t x L P W u y Wu Py. inversion Wu as [|? cs c ? Q I _]; subst.
    + rewrite (plainly_det t y x Py); [apply incl_refl|]. exists []. now constructor.
    + pose proof (parts_fun E _ _ _ P Q). subst. contradiction.
  - intros i T x us L S Wx IH u y Wu Py. inversion Wu as [|? cs c ? Q I Wc]; subst.
    + erewrite (plainly_det _ y _ Py); [apply incl_refl|]. eexists. exact (wr_var E none i T x us L S Wx).
    + pose proof (parts_fun E _ _ _ (pt_var E i T S) Q). subst. destruct I as [<-|[]].
      intros w I. cbn. right. right. rewrite app_nil_r. exact (IH u y Wc Py w I).
  - intros k c cs h xs us L P HW Wl IH u y Wu Py. inversion Wu as [|? ds d ? Q I Wc]; subst.
    + erewrite (plainly_det _ y _ Py); [apply incl_refl|]. eexists. exact (wr_node E none k c cs h xs us L P HW Wl).
    + pose proof (parts_fun E _ _ _ P Q). subst. cbn [px_words]. rewrite flat_map_app.
      intros w J. apply in_app_iff. right. exact (IH d u y I Wc Py w J).
  - intros t u y [].
  - intros t x us ts xs vs _ IH _ IHl t' u y I Wu Py w J. cbn [flat_map]. apply in_app_iff. destruct I as [<-|I].
    + left. exact (IH u y Wu Py w J).
    + right. exact (IHl t' u y I Wu Py w J).
Qed.

Lemma naming_some i ls u w : naming i ls u = Some w -> exists j, i <= j < i + length ls /\ w = let_name j.
Proof.
  revert i. induction ls as [|l ls IH]; intros i H; [discriminate|]. cbn [naming] in H. destruct (term_eqb l u).
  - exists i. cbn [length]. split; [lia|congruence].
  - destruct (IH _ H) as (j & B & ->). exists j. cbn [length]. split; [lia|reflexivity].
Qed.

Section Expand.
Variable t : term.
Variable x : px.
Hypothesis plain_t : plainly E t x.
Hypothesis fresh : forall i, ~ In (let_name i) (px_words x).

(** The definitions of [pre]. *)
Definition knows (r : list (text * px)) (pre : list term) : Prop :=
  (forall u w, naming 0 pre u = Some w -> exists y, assoc r w = Some y /\ plainly E u y) /\
  (forall w, assoc r w <> None -> exists i, i < length pre /\ w = let_name i).

Lemma plain_inside u : within E u t -> exists y, plainly E u y /\ incl (px_words y) (px_words x).
Proof.
  intros W. destruct plain_t as [us H]. pose proof (proj1 (written_fin E) _ _ _ H) as F.
  destruct (written_total E none u (within_fin E _ _ F W)) as (y & vs & Wy).
  exists y. split; [now exists vs|]. exact (proj1 words_within _ _ _ H u y W (ex_intro _ vs Wy)).
Qed.
Lemma replaced_plain pre r u b us y : knows r pre -> within E u t -> written E (naming 0 pre) u b us -> plainly E u y -> replaced r b = y.
Proof.
  intros [K1 K2] W Wb Py. destruct (plain_inside u W) as (y' & Py' & I). rewrite (plainly_det u y y' Py Py').
  destruct Py' as [vs Wy]. apply (proj1 (replaced_written _ r) _ _ _ Wb _ _ Wy).
  - intros v w L _. exact (K1 v w L).
  - intros w Iw. destruct (assoc r w) eqn:A; [|reflexivity]. destruct (K2 w ltac:(congruence)) as (i & _ & ->).
    exfalso. exact (fresh i (I _ Iw)).
Qed.
Lemma expanded_plain : forall pre ls ds us, defined E pre ls ds us -> forall r b vs, knows r pre -> (forall l, In l ls -> within E l t) ->
  written E (naming 0 (pre ++ ls)) t b vs -> expanded r ds b = x.
Proof.
  induction 1 as [pre|pre l ls lx us ds ws W D IH]; intros r b vs K I Wb.
  { cbn [expanded]. rewrite app_nil_r in Wb. exact (replaced_plain pre r t b vs x K (wi_refl _ _) Wb plain_t). }
  cbn [expanded]. destruct (plain_inside l (I l ltac:(now left))) as (y & Py & _).
  rewrite (replaced_plain pre r l lx us y K (I l ltac:(now left)) W Py).
  apply (IH _ b vs).
  - destruct K as [K1 K2]. split.
    + intros u w H. rewrite naming_app in H. cbn [assoc]. destruct (naming 0 pre u) as [w'|] eqn:N.
      * assert (w' = w) as -> by congruence. destruct (text_eqb (let_name (length pre)) w) eqn:X; [|exact (K1 u w N)].
        apply text_eqb_eq in X. destruct (naming_some _ _ _ _ N) as (j & B & ->). apply let_name_inj in X. lia.
      * cbn [naming Nat.add] in H. destruct (term_eqb l u) eqn:Y; [|discriminate]. apply term_eqb_eq in Y as <-.
        assert (w = let_name (length pre)) as -> by congruence. exists y.
        rewrite (proj2 (text_eqb_eq _ _) eq_refl). now split.
    + intros w H. cbn [assoc] in H. rewrite app_length. cbn [length]. destruct (text_eqb (let_name (length pre)) w) eqn:X.
      * apply text_eqb_eq in X. exists (length pre). split; [lia|congruence].
      * destruct (K2 w H) as (i & B & ->). exists i. split; [lia|reflexivity].
  - intros l' I'. apply I. now right.
  - now rewrite <- app_assoc.
Qed.
End Expand.

Lemma printLets_more : forall ls n k m os cp r, printLets E n ls m os cp = Ok r -> printLets E (k + n) ls m os cp = Ok r.
Proof.
  induction ls as [|l ls IH]; intros n k m os cp r H; [exact H|]. cbn [printLets] in *.
  destruct (printDebugInternal E n l (lerase m l)) as [s| | |] eqn:P; try discriminate.
  unfold printDebugInternal in *. rewrite (printLoop_more E _ _ k _ _ _ P). cbn [bind] in *. now apply IH.
Qed.
Lemma printDebug_more dag n k t s : printDebug E dag n t = Ok s -> printDebug E dag (k + n) t = Ok s.
Proof.
  unfold printDebug, computeLetBinding, printDebugInternal. destruct dag; [|apply printLoop_more]. intros H.
  destruct (countLoop E n [t] [] [] []) as [[c l]| | |] eqn:P; try discriminate. rewrite (countLoop_more E _ k _ _ _ _ _ P).
  cbn [bind] in *. destruct (keepShared c l) as [m ll].
  destruct (printLets E n ll m [] []) as [[[m' os] cp]| | |] eqn:Q; try discriminate. rewrite (printLets_more _ _ k _ _ _ _ Q). cbn [bind] in *.
  destruct (printLoop E n m' [(t, 0)] []) as [r| | |] eqn:R; try discriminate. rewrite (printLoop_more E _ _ k _ _ _ R). exact H.
Qed.
Lemma printDebug_same dag n k t s s' : printDebug E dag n t = Ok s -> printDebug E dag k t = Ok s' -> s = s'.
Proof. intros A B. apply (printDebug_more _ _ k) in A. apply (printDebug_more _ _ n) in B. rewrite Nat.add_comm in A. congruence. Qed.
End Print.
