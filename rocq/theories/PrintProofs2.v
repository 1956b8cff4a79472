(** Proofs about printing: shared terms. *)
From Coq Require Import String ZArith List Bool Lia Permutation.
From Verif Require Import Base Kind Ints Str Literal Arity Term Match Eval ListOps Typing Lexer SpecLex TermProofs Print SpecPrint PrintProofs.
Import ListNotations.
Open Scope nat_scope.

Definition cnt (l : list term) (u : term) : nat := count_occ term_eq_dec l u.
Definition one (t u : term) : nat := if term_eq_dec t u then 1 else 0.
Lemma cnt_cons t l u : cnt (t :: l) u = one t u + cnt l u.
Proof. unfold cnt, one. cbn. destruct (term_eq_dec t u); lia. Qed.
Lemma cnt_app a b u : cnt (a ++ b) u = cnt a u + cnt b u.
Proof. apply count_occ_app. Qed.
Lemma cnt_rev a u : cnt (rev a) u = cnt a u.
Proof. apply count_occ_rev. Qed.
Lemma one_same t : one t t = 1.
Proof. unfold one. destruct (term_eq_dec t t); congruence. Qed.
Lemma one_other t u : t <> u -> one t u = 0.
Proof. unfold one. destruct (term_eq_dec t u); congruence. Qed.
Lemma cnt_In l u : In u l <-> 0 < cnt l u.
Proof. apply count_occ_In. Qed.
Lemma cnt_not l u : ~ In u l <-> cnt l u = 0.
Proof. apply count_occ_not_In. Qed.

(** * Maps *)
Lemma find_filter_same (m : lmap) e : find (fun p => term_eqb (fst p) e) (lerase m e) = None.
Proof.
  unfold lerase. induction m as [|[a i] m IH]; [reflexivity|]. cbn.
  destruct (term_eqb a e) eqn:X; cbn; [exact IH|]. rewrite X. exact IH.
Qed.
Lemma lfind_erase (m : lmap) e u : lfind (lerase m e) u = if term_eq_dec e u then None else lfind m u.
Proof.
  unfold lfind. destruct (term_eq_dec e u) as [->|N]; [now rewrite find_filter_same|].
  unfold lerase. induction m as [|[a i] m IH]; [reflexivity|]. cbn.
  destruct (term_eqb a e) eqn:X; cbn.
  - apply term_eqb_eq in X as ->. destruct (term_eqb e u) eqn:Y; [apply term_eqb_eq in Y; contradiction|exact IH].
  - destruct (term_eqb a u); [reflexivity|exact IH].
Qed.
Lemma lfind_set (m : lmap) e i u : lfind (lset m e i) u = if term_eq_dec e u then Some i else lfind m u.
Proof.
  unfold lset. unfold lfind at 1. cbn. destruct (term_eqb e u) eqn:X.
  - apply term_eqb_eq in X as ->. destruct (term_eq_dec u u); [reflexivity|contradiction].
  - change (option_map snd (find (fun p => term_eqb (fst p) u) (lerase m e))) with (lfind (lerase m e) u).
    rewrite lfind_erase. destruct (term_eq_dec e u) as [->|]; [rewrite term_eqb_refl in X; discriminate|reflexivity].
Qed.
Definition cval (m : lmap) (u : term) : nat := match lfind m u with Some i => i | None => 0 end.
Lemma cval_incr m e u : cval (lincr m e) u = cval m u + one e u.
Proof.
  unfold cval, lincr. rewrite lfind_set. unfold one. destruct (term_eq_dec e u) as [->|]; [destruct (lfind m u); lia|lia].
Qed.
Lemma lfind_incr m e u : lfind (lincr m e) u <> None <-> u = e \/ lfind m u <> None.
Proof.
  unfold lincr. rewrite lfind_set. destruct (term_eq_dec e u) as [->|N].
  - split; [now left|discriminate].
  - split; [now right|]. intros [->|H]; [contradiction|exact H].
Qed.

Section Print.
Variable E : env.

(** * Finite terms *)
Definition kids (t : term) : list term := match getPrintChildren E t with Ok cs => cs | _ => [] end.
Inductive fin : term -> Prop :=
| fin_i : forall t, parts E t (kids t) -> (forall c, In c (kids t) -> fin c) -> fin t.
Lemma parts_kids t cs : parts E t cs -> cs = kids t.
Proof. intros P. unfold kids. now rewrite (printChildren_spec E _ _ P). Qed.
Lemma fin_parts t : fin t -> parts E t (kids t).
Proof. now intros []. Qed.
Lemma fin_kid t c : fin t -> In c (kids t) -> fin c.
Proof. intros []. auto. Qed.
Lemma fin_get t : fin t -> getPrintChildren E t = Ok (kids t).
Proof. intros F. exact (printChildren_spec E _ _ (fin_parts _ F)). Qed.

Lemma written_fin : (forall t x us, written E (fun _ => None) t x us -> fin t) /\
  (forall ts xs us, written_list E (fun _ => None) ts xs us -> forall t, In t ts -> fin t).
Proof.
  apply written_minds.
  - discriminate.
  - intros t x _ P _. constructor; [now rewrite <- (parts_kids _ _ P)|]. intros c. rewrite <- (parts_kids _ _ P). intros [].
  - intros i T x us _ S _ IH. pose proof (pt_var E i T S) as P. constructor; [now rewrite <- (parts_kids _ _ P)|].
    intros c. rewrite <- (parts_kids _ _ P). intros [<-|[]]. exact IH.
  - intros k c cs h xs us _ P _ _ IH. constructor; [now rewrite <- (parts_kids _ _ P)|]. intros d. rewrite <- (parts_kids _ _ P). apply IH.
  - intros t [].
  - intros t x us ts xs vs _ F _ IH u [<-|I]; auto.
Qed.

Lemma within_trans u v t : within E u v -> within E v t -> within E u t.
Proof. intros A B. induction B as [t|t cs c v P I _ IH]; [exact A|]. exact (wi_part E t cs c u P I (IH A)). Qed.
Lemma within_kid t c : fin t -> In c (kids t) -> within E c t.
Proof. intros F I. exact (wi_part E t _ c c (fin_parts _ F) I (wi_refl _ _)). Qed.
Lemma within_inv u t : fin t -> within E u t -> u = t \/ exists c, In c (kids t) /\ within E u c.
Proof. intros F W. destruct W as [t|t cs c u P I W]; [now left|]. right. exists c. now rewrite <- (parts_kids _ _ P). Qed.
Lemma within_fin u t : fin t -> within E u t -> fin u.
Proof.
  intros F W. induction W as [t|t cs c u P I W IH]; [exact F|]. apply IH, (fin_kid t); [exact F|]. now rewrite <- (parts_kids _ _ P).
Qed.
Lemma acyclic t : fin t -> forall c, In c (kids t) -> ~ within E t c.
Proof.
  induction 1 as [t P Fc IH]. intros c I W. assert (F : fin t) by now constructor.
  destruct (within_inv _ _ (Fc _ I) W) as [<-|(d & Id & Wd)].
  - exact (IH t I t I (wi_refl _ _)).
  - exact (IH c I d Id (within_trans _ _ _ (within_kid _ _ F I) Wd)).
Qed.
Lemma compound_kids t : fin t -> compound E t <-> kids t <> [].
Proof.
  intros F. split.
  - intros (c & cs & P). apply parts_kids in P. rewrite <- P. discriminate.
  - intros N. pose proof (fin_parts _ F) as P. destruct (kids t) as [|c cs]; [contradiction|]. now exists c, cs.
Qed.

(** * Counting *)
(** The state of the loop: the terms that are done, in order. *)
Record inv (V : list term) (C : lmap) (L : list term) : Prop := mkInv {
  i_keys : forall u, lfind C u <> None <-> In u L;
  i_seen : incl L V;
  i_fin : forall u, In u L -> fin u /\ compound E u;
  i_nodup : NoDup L;
  i_order : forall pre u post, L = pre ++ u :: post -> forall c, In c (kids u) -> compound E c -> In c pre }.
(** What the loop over terms [ts] does. *)
Definition counted (ts : list term) (V : list term) (C : lmap) (L : list term) (V' : list term) (C' : lmap) (L' : list term) : Prop :=
  inv V' C' L' /\
  (exists D, L' = L ++ D /\ (forall u, In u V' <-> In u V \/ In u D) /\ (forall u, In u D -> exists t, In t ts /\ within E u t)) /\
  (forall t, In t ts -> compound E t -> In t L') /\
  (forall u, compound E u -> cval C' u + cnt (flat_map kids L) u = cval C u + cnt (flat_map kids L') u + cnt ts u).

Lemma counted_nil V C L : inv V C L -> counted [] V C L V C L.
Proof.
  intros I. split; [exact I|]. split; [exists []; rewrite app_nil_r; split; [reflexivity|]; split; [cbn; tauto|intros u []]|].
  split; [intros t []|]. intros u _. cbn. lia.
Qed.
Lemma counted_app ts us V C L V1 C1 L1 V2 C2 L2 :
  counted ts V C L V1 C1 L1 -> counted us V1 C1 L1 V2 C2 L2 -> counted (ts ++ us) V C L V2 C2 L2.
Proof.
  intros (I1 & (D1 & E1 & S1 & W1) & K1 & N1) (I2 & (D2 & E2 & S2 & W2) & K2 & N2).
  split; [exact I2|]. split; [|split].
  - exists (D1 ++ D2). split; [now rewrite E2, E1, app_assoc|]. split.
    + intros u. rewrite S2, S1, in_app_iff. tauto.
    + intros u I. apply in_app_iff in I as [I|I]; [destruct (W1 u I) as (t & A & B)|destruct (W2 u I) as (t & A & B)];
        exists t; rewrite in_app_iff; tauto.
  - intros t I Ct. apply in_app_iff in I as [I|I]; [|now apply K2]. rewrite E2. apply in_app_iff. left. now apply K1.
  - intros u Cu. specialize (N1 u Cu). specialize (N2 u Cu). rewrite cnt_app. lia.
Qed.

(** Terms that are seen but not done are around the term. *)
Definition around (ts : list term) (V L : list term) : Prop :=
  forall u, In u V -> In u L \/ forall t, In t ts -> ~ within E u t.

Lemma existsb_mem t l : existsb (term_eqb t) l = true <-> In t l.
Proof.
  rewrite existsb_exists. split; [intros (u & I & H); apply term_eqb_eq in H; now subst|].
  intros I. exists t. split; [exact I|apply term_eqb_refl].
Qed.

Lemma count_list ts : (forall t, In t ts -> forall V C L, inv V C L -> around [t] V L ->
    exists k V' C' L', counted [t] V C L V' C' L' /\ forall n rest, countLoop E (k + n) (t :: rest) V C L = countLoop E n rest V' C' L') ->
  forall V C L, inv V C L -> around ts V L ->
    exists k V' C' L', counted ts V C L V' C' L' /\ forall n rest, countLoop E (k + n) (ts ++ rest) V C L = countLoop E n rest V' C' L'.
Proof.
  induction ts as [|t ts IH]; intros H V C L I A.
  { exists 0, V, C, L. split; [now apply counted_nil|reflexivity]. }
  destruct (H t ltac:(now left) V C L I) as (k1 & V1 & C1 & L1 & P1 & R1).
  { intros u Iu. destruct (A u Iu) as [X|X]; [now left|]. right. intros v [<-|[]]. apply X. now left. }
  destruct (IH ltac:(intros; apply H; [now right|assumption|assumption]) V1 C1 L1) as (k2 & V2 & C2 & L2 & P2 & R2).
  { apply P1. }
  { destruct P1 as (_ & (D & E1 & S1 & _) & _ & _). intros u Iu. apply S1 in Iu as [Iu|Iu].
    - destruct (A u Iu) as [X|X]; [left; rewrite E1; apply in_app_iff; now left|]. right. intros v Iv. apply X. now right.
    - left. rewrite E1. apply in_app_iff. now right. }
  exists (k1 + k2), V2, C2, L2. split.
  - exact (counted_app [t] ts _ _ _ _ _ _ _ _ _ P1 P2).
  - intros n rest. cbn [app]. rewrite <- Nat.add_assoc, R1. apply R2.
Qed.

Lemma count_term t : fin t -> forall V C L, inv V C L -> around [t] V L ->
  exists k V' C' L', counted [t] V C L V' C' L' /\ forall n rest, countLoop E (k + n) (t :: rest) V C L = countLoop E n rest V' C' L'.
Proof.
  induction 1 as [t P Fc IH]. intros V C L I A. assert (F : fin t) by now constructor.
  destruct (kids t) as [|c cs] eqn:K.
  { exists 1, V, C, L. split.
    - split; [exact I|]. split; [exists []; rewrite app_nil_r; split; [reflexivity|]; split; [cbn; tauto|intros u []]|]. split.
      + intros u [<-|[]] Cu. apply compound_kids in Cu; [|exact F]. congruence.
      + intros u Cu. rewrite cnt_cons, one_other; [cbn; lia|]. intros <-. apply compound_kids in Cu; [|exact F]. congruence.
    - intros n rest. cbn [Nat.add countLoop]. rewrite (fin_get _ F), K. reflexivity. }
  assert (Ct : compound E t) by (apply compound_kids; [exact F|congruence]).
  destruct (existsb (term_eqb t) V) eqn:M.
  { assert (It : In t L).
    { apply existsb_mem in M. destruct (A t M) as [X|X]; [exact X|]. elim (X t); [now left|constructor]. }
    exists 1, V, (lincr C t), L. split.
    - split; [|split; [|split]].
      + destruct I as [I1 I2 I3 I4 I5]. constructor; auto. intros u. rewrite lfind_incr, I1. split; [intros [->|X]; assumption|tauto].
      + exists []. rewrite app_nil_r. split; [reflexivity|]. split; [cbn; tauto|intros u []].
      + intros u [<-|[]] _. exact It.
      + intros u _. rewrite cval_incr, cnt_cons. cbn. lia.
    - intros n rest. cbn [Nat.add countLoop]. rewrite (fin_get _ F), K. cbn [bind]. rewrite M.
      destruct (lfind C t) eqn:X; [reflexivity|]. apply (i_keys _ _ _ I) in It. contradiction. }
  assert (NV : ~ In t V) by (rewrite <- existsb_mem; congruence).
  assert (NL : ~ In t L) by (intros X; apply NV, (i_seen _ _ _ I), X).
  destruct (count_list (rev (c :: cs)) ltac:(intros d Id; apply IH; now apply in_rev in Id) (t :: V) C L) as (k & V1 & C1 & L1 & P1 & R1).
  { destruct I as [I1 I2 I3 I4 I5]. constructor; auto. intros u Iu. right. now apply I2. }
  { intros u [<-|Iu].
    - right. intros d Id. apply acyclic; [exact F|]. rewrite K. now apply in_rev in Id.
    - destruct (A u Iu) as [X|X]; [now left|]. right. intros d Id W. apply (X t); [now left|].
      apply (within_trans _ d _ W), within_kid; [exact F|]. rewrite K. now apply in_rev in Id. }
  destruct P1 as (I1 & (D & E1 & S1 & W1) & K1 & N1).
  assert (ND : ~ In t D).
  { intros X. destruct (W1 t X) as (d & Id & W). apply (acyclic t F d); [|exact W]. rewrite K. now apply in_rev in Id. }
  assert (NL1 : ~ In t L1) by (rewrite E1, in_app_iff; tauto).
  exists (S (k + 1)), V1, (lincr C1 t), (L1 ++ [t]). split.
  - split; [|split; [|split]].
    + destruct I1 as [J1 J2 J3 J4 J5]. constructor.
      * intros u. rewrite lfind_incr, J1, in_app_iff. cbn. intuition.
      * intros u Iu. apply in_app_iff in Iu as [Iu|[<-|[]]]; [now apply J2|]. apply S1. left. now left.
      * intros u Iu. apply in_app_iff in Iu as [Iu|[<-|[]]]; [now apply J3|]. now split.
      * apply (Permutation_NoDup (Permutation_cons_append L1 t)). now constructor.
      * intros pre u post X d Id Cd. destruct post as [|p post] using rev_ind.
        -- apply app_inj_tail in X as [<- <-]. apply K1; [|exact Cd]. rewrite <- in_rev, <- K. exact Id.
        -- clear IHpost. rewrite app_comm_cons, app_assoc in X. apply app_inj_tail in X as [X _]. exact (J5 _ _ _ X d Id Cd).
    + exists (D ++ [t]). split; [now rewrite E1, app_assoc|]. split.
      * intros u. rewrite S1, in_app_iff. cbn. tauto.
      * intros u Iu. exists t. split; [now left|]. apply in_app_iff in Iu as [Iu|[<-|[]]]; [|constructor].
        destruct (W1 u Iu) as (d & Id & W). apply (within_trans _ d _ W), within_kid; [exact F|]. rewrite K. now apply in_rev in Id.
    + intros u [<-|[]] _. apply in_app_iff. right. now left.
    + intros u Cu. specialize (N1 u Cu). rewrite cval_incr, cnt_cons, flat_map_app, cnt_app. cbn [flat_map].
      rewrite app_nil_r, K. rewrite cnt_rev in N1. change (cnt [] u) with 0. lia.
  - intros n rest. replace (S (k + 1) + n) with (S (k + S n)) by lia. cbn [countLoop]. rewrite (fin_get _ F), K. cbn [bind]. rewrite M.
    rewrite R1. cbn [countLoop]. rewrite (fin_get _ F), K. cbn [bind].
    assert (M1 : existsb (term_eqb t) V1 = true) by (apply existsb_mem, S1; left; now left). rewrite M1.
    destruct (lfind C1 t) eqn:X; [|reflexivity]. elim NL1. apply (i_keys _ _ _ I1). congruence.
Qed.

Lemma countLoop_more : forall n k vs V C L r, countLoop E n vs V C L = Ok r -> countLoop E (k + n) vs V C L = Ok r.
Proof.
  induction n as [|n IH]; intros k vs V C L r H; [discriminate|]. rewrite Nat.add_succ_r. cbn [countLoop] in *.
  destruct vs as [|t vs]; [exact H|]. destruct (getPrintChildren E t) as [[|c cs]| | |]; try discriminate; cbn [bind] in *.
  - now apply IH.
  - destruct (existsb (term_eqb t) V); now apply IH.
Qed.

(** The terms of [L], in an order in which parts come first, are the compound terms in [t];
    [C] counts where they occur. *)
Record all_counted (t : term) (C : lmap) (L : list term) : Prop := mkAll {
  ac_in : forall u, In u L <-> compound E u /\ within E u t;
  ac_nodup : NoDup L;
  ac_order : forall pre u post, L = pre ++ u :: post -> forall c, In c (kids u) -> compound E c -> In c pre;
  ac_count : forall u, compound E u -> cval C u = cnt (flat_map kids L) u + one t u }.
Lemma count_all t : fin t -> exists N C L, all_counted t C L /\
  forall n, N <= n -> countLoop E n [t] [] [] [] = Ok (C, L).
Proof.
  intros F. destruct (count_term t F [] [] []) as (k & V & C & L & (I & (D & E1 & S1 & W1) & K1 & N1) & R).
  - constructor.
    + intros u. cbn. tauto.
    + intros u [].
    + intros u [].
    + constructor.
    + intros pre u post X. now destruct pre.
  - intros u [].
  - exists (k + 1), C, L. split.
    + constructor.
      * intros u. split.
        -- intros Iu. split; [apply (i_fin _ _ _ I u Iu)|]. cbn in E1. subst D. destruct (W1 u Iu) as (d & [<-|[]] & W). exact W.
        -- intros [Cu W]. assert (G : forall v, fin v -> In v L -> within E u v -> In u L).
           { clear - I Cu. intros v Fv. induction Fv as [v P Fc IH]. intros Iv W. assert (F : fin v) by now constructor.
             destruct (within_inv _ _ F W) as [->|(c & Ic & Wc)]; [exact Iv|].
             apply (IH c Ic); [|exact Wc]. apply in_split in Iv as (pre & post & X).
             assert (Cc : compound E c).
             { destruct (within_inv _ _ (Fc _ Ic) Wc) as [<-|(d & Id & _)]; [exact Cu|]. apply compound_kids; [now apply Fc|]. intros Y. now rewrite Y in Id. }
             rewrite X. apply in_app_iff. left. exact (i_order _ _ _ I _ _ _ X c Ic Cc). }
           apply (G t F); [|exact W]. apply K1; [now left|].
           destruct (within_inv _ _ F W) as [<-|(d & Id & _)]; [exact Cu|]. apply compound_kids; [exact F|]. intros Y. now rewrite Y in Id.
      * apply I.
      * apply (i_order _ _ _ I).
      * intros u Cu. specialize (N1 u Cu). cbn [flat_map] in N1. rewrite cnt_cons in N1. unfold cval at 2 in N1. cbn in N1. lia.
    + intros n L1. replace n with (k + S (n - k - 1)) by lia. rewrite R. reflexivity.
Qed.

(** * The terms that are kept *)
Definition shared_by (C : lmap) (u : term) : bool := match lfind C u with Some (S (S _)) => true | _ => false end.
Lemma naming_none i ls u : naming i ls u = None <-> ~ In u ls.
Proof.
  revert i. induction ls as [|l ls IH]; intros i; cbn; [tauto|]. destruct (term_eqb l u) eqn:X.
  - apply term_eqb_eq in X as ->. split; [discriminate|tauto].
  - rewrite IH. split; [|tauto]. intros N [->|I]; [rewrite term_eqb_refl in X; discriminate|contradiction].
Qed.
Lemma naming_app i a b u : naming i (a ++ b) u = match naming i a u with Some w => Some w | None => naming (i + length a) b u end.
Proof.
  revert i. induction a as [|l a IH]; intros i; cbn; [now rewrite Nat.add_0_r|].
  destruct (term_eqb l u); [reflexivity|]. rewrite IH. now rewrite <- Nat.add_succ_comm.
Qed.
Lemma keep_spec C L : NoDup L ->
  exists m, keepShared C L = (m, filter (shared_by C) L) /\
    forall u, option_map letName (lfind m u) = naming 0 (filter (shared_by C) L) u.
Proof.
  unfold keepShared.
  induction L as [|l L IH] using rev_ind; intros ND.
  { exists []. split; reflexivity. }
  assert (ND' : NoDup L /\ ~ In l L).
  { apply (Permutation_NoDup (Permutation_sym (Permutation_cons_append L l))) in ND. now inversion ND. }
  destruct ND' as [ND' NI]. destruct (IH ND') as (m & H & N). rewrite fold_left_app, H. cbn [fold_left]. rewrite filter_app. cbn [filter].
  destruct (shared_by C l) eqn:X; unfold shared_by in X.
  - destruct (lfind C l) as [[|[|j]]|]; try discriminate.
    eexists. split; [reflexivity|]. intros u. rewrite lfind_set, naming_app. cbn [naming].
    destruct (term_eq_dec l u) as [->|Y].
    + rewrite (proj2 (naming_none _ _ _)); [rewrite term_eqb_refl; reflexivity|]. rewrite filter_In. tauto.
    + rewrite N. destruct (naming 0 (filter (shared_by C) L) u); [reflexivity|].
      destruct (term_eqb l u) eqn:Z; [apply term_eqb_eq in Z; contradiction|reflexivity].
  - exists m. rewrite app_nil_r. destruct (lfind C l) as [[|[|j]]|]; try discriminate; now split.
Qed.
End Print.
