(** Proofs about printing: names, words, and the loop over a term. *)
From Coq Require Import String ZArith List Bool Lia.
From Verif Require Import Base Kind Ints Str Literal Arity Term Match Eval ListOps Typing Lexer SpecLex TermProofs Print SpecPrint.
Import ListNotations.
Open Scope Z_scope.

Scheme written_mind := Minimality for written Sort Prop
  with written_list_mind := Minimality for written_list Sort Prop.
Combined Scheme written_minds from written_mind, written_list_mind.

(** * Names *)
Lemma existsb_In c l : existsb (Z.eqb c) l = true <-> In c l.
Proof.
  rewrite existsb_exists. split.
  - intros (d & I & H). apply Z.eqb_eq in H. now subst.
  - intros I. exists c. split; [exact I|apply Z.eqb_refl].
Qed.
Lemma incl_check a b : forallb (fun x => existsb (Z.eqb x) b) a = true -> forall c, In c a -> In c b.
Proof. intros H c I. rewrite forallb_forall in H. apply existsb_In. exact (H c I). Qed.
Lemma simple_chars_In c : In c simple_chars <-> simple_char c.
Proof.
  unfold simple_char. split; intros H.
  - apply (incl_check simple_chars (letters ++ digits ++ txt "~!@$%^&*_-+=<>.?/") eq_refl) in H.
    apply in_app_iff in H as [H|H]; [now left|]. apply in_app_iff in H as [H|H]; [right; now left|now right; right].
  - destruct H as [H|[H|H]]; revert H; apply incl_check; reflexivity.
Qed.
Lemma digits_In c : In c digits <-> 48 <= c <= 57.
Proof. cbn. lia. Qed.
Lemma eoPrefix_spec s : eoPrefix s = true <-> exists r, s = txt "eo::" ++ r.
Proof.
  unfold eoPrefix. rewrite text_eqb_eq. split.
  - intros H. exists (skipn 4 s). rewrite <- H. symmetry. apply firstn_skipn.
  - intros [r ->]. reflexivity.
Qed.
Lemma simple_spec c s :
  forallb (fun c => existsb (Z.eqb c) simple_chars) (c :: s) && ((c <? 48) || (57 <? c)) = true <-> simple (c :: s).
Proof.
  unfold simple. rewrite andb_true_iff, forallb_forall, Forall_forall, orb_true_iff, !Z.ltb_lt, digits_In.
  split; intros [A B].
  - split; [lia|]. intros d I. apply simple_chars_In, existsb_In, A, I.
  - split; [|lia]. intros d I. apply existsb_In, simple_chars_In, B, I.
Qed.
Lemma barred_replace n : Forall2 barred n (replaceBars n).
Proof.
  induction n as [|c n IH]; cbn; constructor; [|exact IH]. unfold barred. rewrite (orb_comm (c =? 92)).
  now destruct ((c =? 124) || (c =? 92)).
Qed.
Lemma barred_fun n m : Forall2 barred n m -> m = replaceBars n.
Proof.
  induction 1 as [|c d n m H _ IH]; [reflexivity|]. unfold replaceBars in *. cbn [map]. rewrite <- IH. f_equal. unfold barred in H. rewrite (orb_comm (c =? 92)).
  now destruct ((c =? 124) || (c =? 92)).
Qed.
Lemma not_eo_simple r : ~ simple (txt "eo::" ++ r).
Proof.
  intros [_ H]. rewrite Forall_forall in H. specialize (H 58). assert (S : simple_char 58) by (apply H; cbn; tauto).
  unfold simple_char in S. cbn in S. intuition discriminate.
Qed.
Lemma not_bar_simple r : ~ simple (124 :: r).
Proof.
  intros [_ H]. apply Forall_inv in H. unfold simple_char in H. cbn in H. intuition discriminate.
Qed.
Lemma strip_middle (a : Z) n b : firstn (length (a :: n ++ [b]) - 2) (skipn 1 (a :: n ++ [b])) = n.
Proof.
  cbn [length skipn]. rewrite app_length. cbn [length].
  replace (S (length n + 1) - 2)%nat with (length n) by lia.
  rewrite firstn_app, Nat.sub_diag, firstn_all. cbn. apply app_nil_r.
Qed.
Lemma last_snoc (l : text) b d : last (l ++ [b]) d = b.
Proof. apply last_last. Qed.
Lemma quoteSymbol_spec n w : quoteSymbol n = w <-> written_name n w.
Proof.
  assert (F : forall n w, written_name n w -> quoteSymbol n = w).
  { clear. intros n w H. destruct H as [n|n S|n m H|n m NS NE NB H].
    - unfold quoteSymbol. change (txt "eo::" ++ n) with (101 :: 111 :: 58 :: 58 :: n) at 1.
      replace (eoPrefix (txt "eo::" ++ n)) with true; [reflexivity|]. symmetry. apply eoPrefix_spec. eauto.
    - destruct n as [|c n]; [contradiction|]. unfold quoteSymbol.
      destruct (eoPrefix (c :: n)); [reflexivity|]. apply simple_spec in S. now rewrite S.
    - unfold quoteSymbol.
      destruct (eoPrefix (124 :: n ++ [124])) eqn:P; [apply eoPrefix_spec in P as [r P]; discriminate|].
      destruct (_ && _) eqn:S; [exfalso; apply simple_spec in S; now apply not_bar_simple in S|].
      assert (B : (124 =? 124) && (last (124 :: n ++ [124]) 0 =? 124) && Nat.ltb 1 (length (124 :: n ++ [124])) = true).
      { change (124 :: n ++ [124]) with ((124 :: n) ++ [124]) at 1. rewrite last_snoc. cbn [length].
        rewrite app_length. cbn [length]. cbn -[Nat.ltb]. apply Nat.ltb_lt. lia. }
      rewrite B, strip_middle. now rewrite (barred_fun _ _ H).
    - destruct n as [|c n]; [inversion H; reflexivity|]. unfold quoteSymbol.
      destruct (eoPrefix (c :: n)) eqn:P; [exfalso; apply eoPrefix_spec in P as [r P]; now apply (NE r)|].
      destruct (_ && _) eqn:S; [exfalso; apply simple_spec in S; contradiction|].
      destruct ((c =? 124) && _ && _) eqn:B.
      + exfalso. apply andb_true_iff in B as [B L]. apply andb_true_iff in B as [B1 B2].
        apply Z.eqb_eq in B1, B2. apply Nat.ltb_lt in L. subst c.
        destruct n as [|d n] using rev_ind; [cbn in L; lia|].
        change (124 :: n ++ [d]) with ((124 :: n) ++ [d]) in B2. rewrite last_snoc in B2. subst d. now apply (NB n).
      + now rewrite (barred_fun _ _ H). }
  split; [|apply F]. intros <-.
  destruct (eoPrefix n) eqn:P.
  { apply eoPrefix_spec in P as [r ->]. rewrite (F _ (txt "eo::" ++ r) (wn_eo r)). constructor. }
  assert (NE : forall r, n <> txt "eo::" ++ r).
  { intros r ->. assert (eoPrefix (txt "eo::" ++ r) = true) by (apply eoPrefix_spec; eauto). congruence. }
  destruct n as [|c n].
  { apply wn_quoted with (m := []); auto; try discriminate. }
  destruct (forallb (fun c => existsb (Z.eqb c) simple_chars) (c :: n) && ((c <? 48) || (57 <? c))) eqn:S.
  { apply simple_spec in S. rewrite (F _ _ (wn_simple _ S)). now apply wn_simple. }
  assert (NS : ~ simple (c :: n)) by (intros X; apply simple_spec in X; congruence).
  destruct (list_eq_dec Z.eq_dec (c :: n) (124 :: removelast n ++ [124])) as [B|NB].
  - rewrite B in *. pose proof (wn_stripped _ _ (barred_replace (removelast n))) as W. rewrite (F _ _ W). exact W.
  - assert (NB' : forall r, c :: n <> 124 :: r ++ [124]).
    { intros r X. apply NB. injection X as -> ->. now rewrite removelast_last. }
    pose proof (wn_quoted _ _ NS NE NB' (barred_replace (c :: n))) as W. rewrite (F _ _ W). exact W.
Qed.

(** * Words of kinds *)
Lemma kind_word_spec k w : kindToTerm k = w <-> kind_word k w.
Proof.
  split.
  - intros <-.
    destruct (find (fun p => kind_eqb (fst p) k) operator_names) as [[k' s]|] eqn:F.
    + assert (X : kindToTerm k = txt "eo::" ++ txt s) by (destruct k; try discriminate F; injection F as _ <-; reflexivity).
      rewrite X. apply find_some in F as [I F]. cbn [fst] in F. apply kind_eqb_eq in F as ->. now apply kw_operator.
    + destruct (find (fun p => kind_eqb (fst p) k) other_names) as [[k' s]|] eqn:F2.
      * assert (X : kindToTerm k = txt s) by (destruct k; try discriminate F; injection F2 as _ <-; reflexivity).
        rewrite X. apply find_some in F2 as [I F2]. cbn [fst] in F2. apply kind_eqb_eq in F2 as ->. now apply kw_other.
      * destruct k; discriminate.
  - intros H. destruct H as [k s I|k s I].
    + assert (F : Forall (fun p => kindToTerm (fst p) = txt "eo::" ++ txt (snd p)) operator_names) by (repeat constructor).
      rewrite Forall_forall in F. exact (F _ I).
    + assert (F : Forall (fun p => kindToTerm (fst p) = txt (snd p)) other_names) by (repeat constructor).
      rewrite Forall_forall in F. exact (F _ I).
Qed.

(** * The loop over a term *)
Lemma spaced_cons s ss : spaced (s :: ss) = s ++ flat_map (fun u => 32 :: u) ss.
Proof.
  revert s. induction ss as [|u ss IH]; intros s; [cbn; now rewrite app_nil_r|].
  change (spaced (s :: u :: ss)) with (s ++ [32] ++ spaced (u :: ss)). rewrite IH. reflexivity.
Qed.

Section Print.
Variable E : env.

Lemma printChildren_spec t cs : parts E t cs -> getPrintChildren E t = Ok cs.
Proof.
  intros H. destruct H as [i T H|k i H|l|k cs H]; unfold getPrintChildren; cbn [tkind tchildren].
  - now rewrite H.
  - destruct (kind_eqb k K_VARIABLE) eqn:K; [apply kind_eqb_eq in K; contradiction|reflexivity].
  - destruct l; reflexivity.
  - destruct (kind_eqb k K_VARIABLE) eqn:K; [apply kind_eqb_eq in K; contradiction|reflexivity].
Qed.
Lemma printChildren_parts t cs : (forall ds, t <> Node K_VARIABLE ds) -> getPrintChildren E t = Ok cs -> parts E t cs.
Proof.
  intros N. unfold getPrintChildren. destruct (kind_eqb (tkind t) K_VARIABLE) eqn:K.
  - apply kind_eqb_eq in K. destruct t as [k i|l|k ds]; cbn in K; subst.
    + destruct (e_symtype E (Sym K_VARIABLE i)) eqn:S; [|discriminate]. intros X. injection X as <-. now constructor.
    + destruct l; discriminate.
    + now elim (N ds).
  - assert (tkind t <> K_VARIABLE) by (intros X; rewrite X in K; discriminate).
    intros X. injection X as <-. destruct t; cbn in *; now constructor.
Qed.
Lemma parts_fun t cs ds : parts E t cs -> parts E t ds -> cs = ds.
Proof. intros A B. apply printChildren_spec in A, B. congruence. Qed.

Lemma leaf_spec t x : parts E t [] -> written_leaf E t x -> render x = printLeaf E t.
Proof.
  intros P H. destruct H as [k i w S N W|k i S|b|z|q|q|b|b N|b N|s|k w W]; cbn [render printLeaf map spaced word] in *; try reflexivity.
  - rewrite S. symmetry. now apply quoteSymbol_spec.
  - now rewrite S.
  - now destruct b.
  - cbn -[lit_toString]. rewrite <- !app_assoc. reflexivity.
  - rewrite (proj2 (Z.eqb_neq _ _) N). reflexivity.
  - rewrite (proj2 (Z.eqb_eq _ _) N). reflexivity.
  - symmetry. now apply kind_word_spec.
Qed.
Lemma leaf_exists t : parts E t [] -> exists x, written_leaf E t x.
Proof.
  intros P. destruct t as [k i|l|k cs].
  - destruct (isSymbol k) eqn:S.
    + eexists. apply wl_sym; [exact S| |apply quoteSymbol_spec; reflexivity]. inversion P; subst; auto.
    + eexists. now apply wl_builtin.
  - destruct l; try (eexists; constructor; fail).
    destruct (Z.eq_dec (bv_size b) 0) as [X|X]; [eexists; now apply wl_empty_bin|eexists; now apply wl_bin].
  - inversion P; subst. eexists. apply wl_kind, kind_word_spec. reflexivity.
Qed.

Lemma head_spec k c h xs : head_word E k c h -> xs <> [] ->
  printHead E k c ++ spaced xs = [40] ++ spaced (map render h ++ xs).
Proof.
  intros H N. destruct xs as [|x xs]; [contradiction|]. destruct H as [f H|f H|f A B|f H|k f w A B H]; unfold printHead.
  - rewrite H. reflexivity.
  - destruct (tchildren f) as [|c0 cs0]; [contradiction|]. reflexivity.
  - destruct (getConstructorKind E f); try contradiction; reflexivity.
  - destruct H as [H|H]; rewrite H; reflexivity.
  - apply kind_word_spec in H. subst w. cbn [map render app].
    change (spaced (kindToTerm k :: x :: xs)) with (kindToTerm k ++ [32] ++ spaced (x :: xs)).
    destruct k; try contradiction; rewrite <- !app_assoc; reflexivity.
Qed.
Lemma head_exists k c : exists h, head_word E k c h.
Proof.
  destruct (kind_eqb k K_APPLY) eqn:A.
  { apply kind_eqb_eq in A as ->. destruct (tchildren c) eqn:T; eexists; [now apply hw_apply|apply hw_apply2]. congruence. }
  destruct (kind_eqb k K_APPLY_OPAQUE) eqn:B.
  { apply kind_eqb_eq in B as ->. destruct (getConstructorKind E c) eqn:T;
      first [eexists; apply hw_as; tauto | eexists; apply hw_opaque; congruence]. }
  eexists. apply hw_kind; [intros ->; discriminate|intros ->; discriminate|apply kind_word_spec; reflexivity].
Qed.

Section Loop.
Variable m : lmap.
Variable lb : term -> option text.
Hypothesis agree : forall t, lb t = option_map letName (lfind m t).

Lemma no_entry t : lb t = None -> lfind m t = None.
Proof. rewrite agree. destruct (lfind m t); [discriminate|reflexivity]. Qed.

(** What is written is what the loop prints. *)
Lemma loop_spec :
  (forall t x us, written E lb t x us -> exists k, forall n rest os,
     printLoop E (k + n) m ((t, O) :: rest) os = printLoop E n m rest (os ++ render x)) /\
  (forall ts xs us, written_list E lb ts xs us ->
     (exists k, forall cur pre n rest os, tchildren cur = pre ++ ts -> pre <> [] ->
        printLoop E (k + n) m ((cur, length pre) :: rest) os =
        printLoop E n m rest (os ++ flat_map (fun u => 32 :: u) (map render xs) ++ [41])) /\
     match ts with
     | [] => True
     | t :: _ => exists k, forall cur n rest os, tchildren cur = ts ->
        printLoop E (k + n) m ((t, O) :: (cur, 1%nat) :: rest) os =
        printLoop E n m rest (os ++ spaced (map render xs) ++ [41])
     end).
Proof.
  apply written_minds.
  - intros t w L. exists 1%nat. intros n rest os. cbn [Nat.add printLoop].
    rewrite agree in L. destruct (lfind m t) as [i|]; [|discriminate]. injection L as <-. reflexivity.
  - intros t x L P W. exists 1%nat. intros n rest os. cbn [Nat.add printLoop].
    rewrite (no_entry _ L), (printChildren_spec _ _ P). cbn [bind]. now rewrite (leaf_spec _ _ P W).
  - intros i T x us L ST _ [k IH]. exists (S (k + 1))%nat. intros n rest os.
    replace (S (k + 1) + n)%nat with (S (k + S n)) by lia. cbn [printLoop].
    rewrite (no_entry _ L), (printChildren_spec _ [T]) by now constructor. cbn [bind tkind].
    replace (kind_eqb K_VARIABLE K_VARIABLE) with true by reflexivity. rewrite IH.
    cbn [printLoop tchildren nth_error]. f_equal. cbn [render map]. rewrite !spaced_cons.
    cbn [flat_map]. rewrite <- !app_assoc. cbn. rewrite <- !app_assoc. reflexivity.
  - intros k c cs h xs us L P H W [_ [j IH]]. exists (S j). intros n rest os. cbn [Nat.add printLoop].
    rewrite (no_entry _ L), (printChildren_spec _ _ P). cbn [bind tkind].
    destruct (kind_eqb k K_VARIABLE) eqn:K; [apply kind_eqb_eq in K; inversion P; congruence|].
    rewrite IH by reflexivity. f_equal. cbn [render]. rewrite map_app.
    assert (N : map render xs <> []) by (inversion W; discriminate).
    rewrite <- !app_assoc. f_equal. rewrite !app_assoc. f_equal. exact (head_spec _ _ _ _ H N).
  - split; [|exact I]. exists 1%nat. intros cur pre n rest os T N.
    destruct pre as [|p pre]; [contradiction|]. cbn [length Nat.add printLoop].
    rewrite app_nil_r in T. rewrite T. change (S (length pre)) with (length (p :: pre)).
    rewrite (proj2 (nth_error_None _ _)) by lia. reflexivity.
  - intros t x us ts xs vs _ [k IH] _ [[j IHl] _]. split.
    + exists (S (k + j)). intros cur pre n rest os T N.
      destruct pre as [|p pre]; [contradiction|]. cbn [length Nat.add printLoop].
      rewrite T. change (S (length pre)) with (length (p :: pre)).
      rewrite nth_error_app2, Nat.sub_diag by lia. cbn [nth_error].
      replace (k + j + n)%nat with (k + (j + n))%nat by lia. rewrite IH.
      replace (S (length (p :: pre))) with (length ((p :: pre) ++ [t])) by (rewrite app_length; cbn; lia).
      rewrite IHl; [|rewrite T, <- app_assoc; reflexivity|now destruct pre].
      cbn [map flat_map]. rewrite <- !app_assoc. reflexivity.
    + exists (k + j)%nat. intros cur n rest os T. replace (k + j + n)%nat with (k + (j + n))%nat by lia. rewrite IH.
      change 1%nat with (length [t]). rewrite IHl; [|now rewrite T|discriminate].
      cbn [map]. rewrite spaced_cons, <- !app_assoc. reflexivity.
Qed.

(** What the loop prints is written. *)
Lemma loop_written : forall n t rest os r, (forall cs, ~ within E (Node K_VARIABLE cs) t) ->
  printLoop E n m ((t, O) :: rest) os = Ok r ->
  exists x us n', (n' < n)%nat /\ written E lb t x us /\ printLoop E n' m rest (os ++ render x) = Ok r.
Proof.
  induction n as [n IH] using lt_wf_ind. intros t rest os r NV H.
  destruct n as [|n]; [discriminate|]. cbn [printLoop] in H.
  destruct (lfind m t) as [i|] eqn:L.
  { exists (PA (letName i)), [], n. repeat split; [lia|constructor; rewrite agree, L; reflexivity|exact H]. }
  assert (LN : lb t = None) by (rewrite agree, L; reflexivity).
  destruct (getPrintChildren E t) as [cs| | |] eqn:C; try discriminate. cbn [bind] in H.
  apply printChildren_parts in C; [|intros ds ->; exact (NV ds (wi_refl _ _))].
  destruct cs as [|c cs].
  { destruct (leaf_exists t C) as [x W]. exists x, [], n. repeat split; [lia|now constructor|]. now rewrite (leaf_spec _ _ C W). }
  assert (NC : forall d, In d (c :: cs) -> forall ds, ~ within E (Node K_VARIABLE ds) d).
  { intros d I ds W. exact (NV ds (wi_part _ _ _ _ _ C I W)). }
  destruct (kind_eqb (tkind t) K_VARIABLE) eqn:K.
  - apply kind_eqb_eq in K. inversion C as [i T S X Y|? ? Q|?|? ? Q]; subst; cbn in K; try congruence.
    destruct (IH n ltac:(lia) _ _ _ _ (NC c ltac:(now left)) H) as (x & us & n' & LT & W & H').
    destruct n' as [|n']; [discriminate|]. cbn [printLoop tchildren nth_error] in H'.
    eexists _, _, n'. split; [lia|]. split; [exact (wr_var _ _ _ _ _ _ LN S W)|].
    rewrite <- H'. f_equal. cbn [render map]. rewrite !spaced_cons.
    cbn [flat_map]. rewrite <- !app_assoc. cbn. rewrite <- !app_assoc. reflexivity.
  - assert (TN : t = Node (tkind t) (c :: cs)).
    { inversion C; subst; [cbn in K; discriminate|reflexivity]. }
    (* the other children *)
    assert (LS : forall ds pre n1 os1, (n1 <= n)%nat -> c :: cs = pre ++ ds -> pre <> [] ->
      printLoop E n1 m ((t, length pre) :: rest) os1 = Ok r ->
      exists xs us n2, (n2 < n1)%nat /\ written_list E lb ds xs us /\
        printLoop E n2 m rest (os1 ++ flat_map (fun u => 32 :: u) (map render xs) ++ [41]) = Ok r).
    { induction ds as [|d ds IHd]; intros pre n1 os1 LE P N H1.
      - destruct n1 as [|n1]; [discriminate|]. destruct pre as [|p pre]; [contradiction|]. cbn [length printLoop] in H1.
        change (S (length pre)) with (length (p :: pre)) in H1. rewrite app_nil_r in P.
        rewrite TN in H1. cbn [tchildren] in H1. rewrite P, (proj2 (nth_error_None _ _)) in H1 by lia.
        exists [], [], n1. repeat split; [lia|constructor|exact H1].
      - destruct n1 as [|n1]; [discriminate|]. destruct pre as [|p pre]; [contradiction|]. cbn [length printLoop] in H1.
        change (S (length pre)) with (length (p :: pre)) in H1.
        rewrite TN in H1 at 1. cbn [tchildren] in H1. rewrite P, nth_error_app2, Nat.sub_diag in H1 by lia. cbn [nth_error] in H1.
        destruct (IH n1 ltac:(lia) _ _ _ _ (NC d ltac:(rewrite P; apply in_or_app; right; now left)) H1) as (x & us & n2 & L2 & W & H2).
        replace (S (length (p :: pre))) with (length ((p :: pre) ++ [d])) in H2 by (rewrite app_length; cbn; lia).
        destruct (IHd ((p :: pre) ++ [d]) n2 _ ltac:(lia) ltac:(rewrite P, <- app_assoc; reflexivity) ltac:(now destruct pre) H2) as (xs & vs & n3 & L3 & Wl & H3).
        exists (x :: xs), (us ++ vs), n3. split; [lia|]. split; [now constructor|].
        rewrite <- H3. f_equal. cbn [map flat_map]. rewrite <- !app_assoc. reflexivity. }
    destruct (IH n ltac:(lia) _ _ _ _ (NC c ltac:(now left)) H) as (x & us & n' & LT & W & H').
    change 1%nat with (length [c]) in H'.
    destruct (LS cs [c] n' _ ltac:(lia) eq_refl ltac:(discriminate) H') as (xs & vs & n2 & L2 & Wl & H2).
    destruct (head_exists (tkind t) c) as [h HW].
    exists (PL (h ++ x :: xs)), (t :: us ++ vs), n2. split; [lia|]. split.
    + rewrite TN at 1 2. rewrite TN in C at 1. rewrite TN in LN. apply wr_node; auto. now constructor.
    + rewrite <- H2. f_equal. cbn [render]. rewrite map_app.
      cbn [map]. rewrite <- !app_assoc. f_equal. rewrite !app_assoc. f_equal.
      rewrite <- (head_spec _ _ _ (render x :: map render xs) HW) by discriminate.
      rewrite spaced_cons, <- !app_assoc. reflexivity.
Qed.
End Loop.

(** * Fuel *)
Lemma printLoop_more m : forall n k st os r, printLoop E n m st os = Ok r -> printLoop E (k + n) m st os = Ok r.
Proof.
  induction n as [|n IH]; intros k st os r H; [discriminate|]. rewrite Nat.add_succ_r. cbn [printLoop] in *.
  destruct st as [|[cur [|i]] rest]; [exact H| |].
  - destruct (lfind m cur); [now apply IH|]. destruct (getPrintChildren E cur) as [[|c cs]| | |]; try discriminate; cbn [bind] in *.
    + now apply IH.
    + destruct (kind_eqb (tkind cur) K_VARIABLE); now apply IH.
  - destruct (nth_error (tchildren cur) (S i)); now apply IH.
Qed.

Lemma plain_print t x n s : plainly E t x -> printDebug E false n t = Ok s -> s = render x.
Proof.
  intros [us W] H. unfold printDebug, printDebugInternal in H.
  destruct (proj1 (loop_spec [] (fun _ => None) ltac:(reflexivity)) _ _ _ W) as [k P].
  apply (printLoop_more _ _ (k + 1)) in H. rewrite <- Nat.add_assoc, P in H. cbn in H. congruence.
Qed.
Lemma plain_prints t x : plainly E t x -> exists N, forall n, (N <= n)%nat -> printDebug E false n t = Ok (render x).
Proof.
  intros [us W]. destruct (proj1 (loop_spec [] (fun _ => None) ltac:(reflexivity)) _ _ _ W) as [k P].
  exists (k + 1)%nat. intros n L. unfold printDebug, printDebugInternal.
  replace n with (k + (S (n - k - 1)))%nat by lia. rewrite P. reflexivity.
Qed.
Lemma plain_written t n s : (forall cs, ~ within E (Node K_VARIABLE cs) t) -> printDebug E false n t = Ok s ->
  exists x, plainly E t x /\ s = render x.
Proof.
  intros N H. unfold printDebug, printDebugInternal in H.
  destruct (loop_written [] (fun _ => None) ltac:(reflexivity) _ _ _ _ _ N H) as (x & us & n' & _ & W & P).
  exists x. split; [now exists us|]. destruct n'; cbn in P; congruence.
Qed.
End Print.
