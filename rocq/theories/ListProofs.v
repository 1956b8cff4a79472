(** Proofs about f-lists. *)
From Coq Require Import ZArith List Bool Lia Permutation Arith.
From Verif Require Import Base Kind Literal Term SpecTerm TermProofs ListOps SpecList.
Import ListNotations.

Definition seqof {A} (left : bool) (xs : list A) : list A := if left then rev xs else xs.
Lemma seqof_inv : forall A left (xs : list A), seqof left (seqof left xs) = xs.
Proof. destruct left; intros; [apply rev_involutive|reflexivity]. Qed.

Lemma llist_snoc : forall f xs nl x, llist f nl (xs ++ [x]) = app2 f (llist f nl xs) x.
Proof. induction xs as [|y xs IH]; intros; [reflexivity|]. cbn. apply IH. Qed.
Lemma llist_app : forall f xs ys nl, llist f nl (xs ++ ys) = llist f (llist f nl xs) ys.
Proof. induction xs as [|y xs IH]; intros; [reflexivity|]. cbn. apply IH. Qed.
Lemma rlist_app : forall f xs ys nl, rlist f nl (xs ++ ys) = rlist f (rlist f nl ys) xs.
Proof. induction xs as [|y xs IH]; intros; [reflexivity|]. cbn. rewrite IH. reflexivity. Qed.

Lemma mkApply2_app2 : forall f x y, mkApply2 f x y = app2 f x y.
Proof. reflexivity. Qed.

Lemma curried_child : forall f k cs c, curried f (Node k cs) -> In c cs -> curried f c.
Proof.
  intros f k cs c H Hc ds Ho. apply H. eapply occ_child; eassumption.
Qed.
Lemma curried_app2 : forall f x y, curried f (app2 f x y) -> curried f x /\ curried f y.
Proof.
  intros f x y H. split.
  - eapply curried_child; [eapply curried_child; [exact H|left; reflexivity]|right; left; reflexivity].
  - eapply curried_child; [exact H|right; left; reflexivity].
Qed.

Lemma nary_loop_app2 : forall left f x y,
  nary_loop left f (app2 f x y) =
  if left then let* (l, t) := nary_loop left f x in Ok (y :: l, t)
  else let* (l, t) := nary_loop left f y in Ok (x :: l, t).
Proof. intros. cbn [app2 nary_loop]. rewrite term_eqb_refl. destruct left; reflexivity. Qed.
Lemma isNAryList_app2 : forall left f x y nl,
  isNAryList (app2 f x y) f nl left = isNAryList (if left then x else y) f nl left.
Proof. intros. cbn [app2 isNAryList]. rewrite term_eqb_refl. destruct left; reflexivity. Qed.

(** An application of [f] to two arguments, or a term where the loop stops. *)
Lemma nary_cases : forall f e, curried f e ->
  (exists x y, e = app2 f x y) \/
  (not_app2 f e /\ (forall left, nary_loop left f e = Ok ([], e)) /\
   (forall left nl, isNAryList e f nl left = Ok (term_eqb e nl))).
Proof.
  intros f e C. destruct e as [k i|l|k cs].
  - right. repeat split; try reflexivity. intros x y E; discriminate.
  - right. repeat split; try reflexivity. intros x y E; discriminate.
  - destruct (kind_eqb k K_APPLY) eqn:Ek.
    2:{ right. assert (k <> K_APPLY) by (intros ->; discriminate).
        repeat split; [intros x y E; unfold app2 in E; injection E as E _; contradiction| |]; intros;
          destruct k; try reflexivity; contradiction. }
    apply kind_eqb_eq in Ek. subst k.
    destruct (C cs (occ_here _)) as (h & rest & -> & Hr).
    destruct h as [hk hi|hl|hk ds].
    + right. repeat split; try reflexivity. intros x y E; discriminate.
    + right. repeat split; try reflexivity. intros x y E; discriminate.
    + destruct (kind_eqb hk K_APPLY) eqn:Ek.
      2:{ right. assert (hk <> K_APPLY) by (intros ->; discriminate).
          repeat split; [intros x y E; unfold app2 in E; injection E as E _; contradiction| |]; intros;
            destruct hk; try reflexivity; contradiction. }
      apply kind_eqb_eq in Ek. subst hk.
      destruct (C ds) as (h' & rest' & -> & Hr').
      { eapply occ_child; [left; reflexivity|apply occ_here]. }
      destruct (term_eqb h' f) eqn:Eh.
      * apply term_eqb_eq in Eh. subst h'. left.
        assert (L1 : length rest = 1%nat) by (apply Hr; right; eexists; reflexivity).
        assert (L2 : length rest' = 1%nat) by (apply Hr'; left; reflexivity).
        destruct rest as [|y [|]]; try discriminate. destruct rest' as [|x [|]]; try discriminate.
        exists x, y. reflexivity.
      * right. repeat split; intros; cbn [nary_loop isNAryList]; rewrite ?Eh; try reflexivity.
        intros x y E. unfold app2 in E. injection E as E _ _. subst. rewrite term_eqb_refl in Eh. discriminate.
Qed.

Lemma nary_spec : forall left f n e, (tsize e <= n)%nat -> curried f e ->
  exists xs t, nary_loop left f e = Ok (xs, t) /\ e = flist left f t (seqof left xs) /\
    not_app2 f t /\ curried f t /\ (forall nl, isNAryList e f nl left = Ok (term_eqb t nl)).
Proof.
  intros left f n. induction n as [|n IH]; intros e Hn C.
  - pose proof (tsize_pos e). lia.
  - destruct (nary_cases f e C) as [(x & y & ->)|(Hno & Hl & Hi)].
    + destruct (curried_app2 _ _ _ C) as [Cx Cy].
      assert (Sx : (tsize x <= n /\ tsize y <= n)%nat).
      { unfold app2 in Hn. rewrite !tsize_node in Hn. cbn [tsizes] in Hn.
        pose proof (tsizes_In y [Node K_APPLY [f; x]; y] (or_intror (or_introl eq_refl))).
        pose proof (tsizes_In (Node K_APPLY [f; x]) [Node K_APPLY [f; x]; y] (or_introl eq_refl)).
        pose proof (tsizes_In x [f; x] (or_intror (or_introl eq_refl))).
        rewrite tsize_node in *. lia. }
      destruct Sx as [Sx Sy]. rewrite nary_loop_app2. destruct left.
      * destruct (IH x Sx Cx) as (xs & t & E1 & E2 & E3 & E4 & E5). exists (y :: xs), t. rewrite E1. cbn [bind].
        split; [reflexivity|]. split.
        { cbn [flist seqof rev] in *. rewrite llist_snoc, <- E2. reflexivity. }
        split; [exact E3|]. split; [exact E4|]. intro nl. rewrite isNAryList_app2. apply E5.
      * destruct (IH y Sy Cy) as (xs & t & E1 & E2 & E3 & E4 & E5). exists (x :: xs), t. rewrite E1. cbn [bind].
        split; [reflexivity|]. split.
        { cbn [flist seqof] in *. cbn [rlist]. rewrite <- E2. reflexivity. }
        split; [exact E3|]. split; [exact E4|]. intro nl. rewrite isNAryList_app2. apply E5.
    + exists [], e. split; [apply Hl|]. split; [destruct left; reflexivity|]. split; [exact Hno|].
      split; [exact C|]. intro nl. apply Hi.
Qed.

Lemma curried_flist : forall left f nl xs, curried f (flist left f nl xs) -> curried f nl /\ Forall (curried f) xs.
Proof.
  intros [|] f nl xs; cbn [flist].
  - revert nl. induction xs as [|x xs IH]; intros nl C; [split; [exact C|constructor]|].
    cbn in C. apply IH in C. destruct C as [C1 C2]. apply curried_app2 in C1. destruct C1. split; [assumption|].
    constructor; assumption.
  - induction xs as [|x xs IH]; intros C; [split; [exact C|constructor]|].
    cbn in C. apply curried_app2 in C. destruct C as [C1 C2]. apply IH in C2. destruct C2. split; [assumption|].
    constructor; assumption.
Qed.

Lemma nary_loop_flist : forall left f nl xs, curried f nl -> not_app2 f nl ->
  nary_loop left f (flist left f nl xs) = Ok (seqof left xs, nl).
Proof.
  intros left f nl xs C N.
  assert (Z : nary_loop left f nl = Ok ([], nl)).
  { destruct (nary_cases f nl C) as [(x & y & ->)|(_ & H & _)]; [exfalso; eapply N; reflexivity|apply H]. }
  destruct left; cbn [flist seqof].
  - induction xs as [|x xs IH] using rev_ind; [exact Z|].
    rewrite llist_snoc, nary_loop_app2, IH. cbn [bind]. rewrite rev_app_distr. reflexivity.
  - induction xs as [|x xs IH]; [exact Z|]. cbn [rlist]. rewrite nary_loop_app2, IH. reflexivity.
Qed.

(** What getNAryChildren and isNAryList answer. *)
Lemma getNAry_yes : forall left f nl xs, curried f nl -> not_app2 f nl ->
  getNAryChildren (flist left f nl xs) f (Some nl) left = Ok (Some (seqof left xs)).
Proof.
  intros. unfold getNAryChildren. rewrite nary_loop_flist by assumption. cbn [bind].
  rewrite term_eqb_refl. reflexivity.
Qed.
Lemma getNAry_exact : forall left f nl e, curried f e ->
  (exists xs, e = flist left f nl xs /\ curried f nl /\ not_app2 f nl /\
     getNAryChildren e f (Some nl) left = Ok (Some (seqof left xs)) /\
     isNAryList e f nl left = Ok true) \/
  ((not_app2 f nl -> forall xs, e <> flist left f nl xs) /\
     getNAryChildren e f (Some nl) left = Ok None /\ isNAryList e f nl left = Ok false).
Proof.
  intros left f nl e C. destruct (nary_spec left f (tsize e) e (le_n _) C) as (xs & t & E1 & E2 & E3 & E4 & E5).
  unfold getNAryChildren. rewrite E1. cbn [bind]. rewrite (E5 nl).
  destruct (term_eqb t nl) eqn:Et.
  - apply term_eqb_eq in Et. subst t. left. exists (seqof left xs). rewrite seqof_inv. auto.
  - right. split; [|split; reflexivity]. intros N ys ->. pose proof C as C'. apply curried_flist in C'.
    destruct C' as [C' _]. rewrite (nary_loop_flist left f nl ys C' N) in E1. injection E1 as _ <-.
    rewrite term_eqb_refl in Et. discriminate.
Qed.

Lemma prepend_right : forall f nl xs ys,
  prependNAryChildren f (rlist f nl ys) xs false = rlist f nl (xs ++ ys).
Proof. intros. rewrite rlist_app. cbn [prependNAryChildren]. induction xs as [|x xs IH]; [reflexivity|]. cbn. rewrite IH. reflexivity. Qed.
Lemma prepend_left : forall f nl xs ys,
  prependNAryChildren f (llist f nl ys) xs true = llist f nl (ys ++ xs).
Proof.
  intros. rewrite llist_app. cbn [prependNAryChildren]. generalize (llist f nl ys) as t.
  induction xs as [|x xs IH]; intro t; [reflexivity|]. cbn. rewrite IH. reflexivity.
Qed.

Lemma nthTail_right : forall f nl xs n, (n <= length xs)%nat ->
  getNAryNthTail (rlist f nl xs) false n = Ok (rlist f nl (skipn n xs)).
Proof.
  intros f nl xs. induction xs as [|x xs IH]; intros n Hn.
  - cbn in Hn. destruct n; [reflexivity|lia].
  - destruct n as [|n]; [reflexivity|]. cbn in Hn. cbn [rlist app2 getNAryNthTail tchildren].
    cbn [vec_at nth_error bind skipn]. apply IH. lia.
Qed.

(** The bookkeeping of the last position that changed. *)
Definition book (p R : list term) (ci cz : nat) : Prop :=
  (ci <= length p)%nat /\ firstn cz R ++ skipn ci p = R /\ (ci = 0%nat -> R = p).
Lemma book_start : book [] [] 0 0.
Proof. repeat split; auto. Qed.
Lemma book_keep : forall p R ci cz x, book p R ci cz -> (cz <= length R)%nat ->
  book (p ++ [x]) (R ++ [x]) ci cz.
Proof.
  intros p R ci cz x (H1 & H2 & H3) Hz. split; [rewrite app_length; lia|]. split.
  - rewrite skipn_app, firstn_app. replace (cz - length R)%nat with 0%nat by lia.
    replace (ci - length p)%nat with 0%nat by lia. cbn. rewrite app_nil_r, app_assoc, H2. reflexivity.
  - intro E. rewrite H3; auto.
Qed.
Lemma book_drop : forall p R x, book (p ++ [x]) R (S (length p)) (length R).
Proof.
  intros p R x. split; [rewrite app_length; cbn; lia|]. split; [|discriminate].
  rewrite firstn_all, skipn_all2 by (rewrite app_length; cbn; lia). apply app_nil_r.
Qed.
Lemma finish_right : forall f nl xs R ci cz, book xs R ci cz ->
  finish_list f (rlist f nl xs) false true (R, ci, cz) = Ok (Some (rlist f nl R)).
Proof.
  intros f nl xs R ci cz (H1 & H2 & H3). unfold finish_list.
  destruct (Nat.eqb_spec ci 0) as [->|Hc]; [rewrite H3; reflexivity|].
  rewrite nthTail_right by exact H1. cbn [bind]. rewrite prepend_right, H2. reflexivity.
Qed.

(** erase *)
Lemma erase_one_loop : forall x hs i R ci cz,
  erase_loop false x hs i R ci cz =
  match find_term hs x 0 with
  | None => (R ++ hs, ci, cz)
  | Some z => (R ++ firstn (Z.to_nat z) hs, S (i + Z.to_nat z), cz)
  end.
Proof.
  assert (F : forall x hs z, find_term hs x z = option_map (fun w => (w + z)%Z) (find_term hs x 0)).
  { intros x hs. induction hs as [|h hs IH]; intro z; [reflexivity|]. cbn. destruct (term_eqb h x); [reflexivity|].
    rewrite (IH (z + 1)%Z), (IH 1%Z). destruct (find_term hs x 0); cbn; [f_equal; lia|reflexivity]. }
  assert (P : forall x hs z, find_term hs x 0 = Some z -> (0 <= z)%Z).
  { intros x hs. induction hs as [|h hs IH]; intros z; cbn; [discriminate|]. destruct (term_eqb h x); [intro E; injection E; lia|].
    rewrite F. destruct (find_term hs x 0) eqn:E; cbn; [|discriminate]. intro E'; injection E' as <-. specialize (IH _ eq_refl). lia. }
  intros x hs. induction hs as [|h hs IH]; intros i R ci cz.
  - cbn. rewrite app_nil_r. reflexivity.
  - cbn. destruct (term_eqb h x) eqn:E.
    + cbn. rewrite app_nil_r, Nat.add_0_r. reflexivity.
    + rewrite IH. rewrite (F x hs 1%Z). destruct (find_term hs x 0) as [z|] eqn:Ez; cbn.
      * specialize (P _ _ _ Ez). replace (Z.to_nat (z + 1)) with (S (Z.to_nat z)) by lia. cbn.
        rewrite <- app_assoc. cbn. repeat f_equal. lia.
      * rewrite <- app_assoc. reflexivity.
Qed.
Lemma find_term_position : forall x xs z, find_term xs x z =
  match find_term xs x 0 with Some w => Some (w + z)%Z | None => None end.
Proof.
  intros x hs. induction hs as [|h hs IH]; intro z; [reflexivity|]. cbn. destruct (term_eqb h x); [reflexivity|].
  rewrite (IH (z + 1)%Z), (IH 1%Z). destruct (find_term hs x 0); [f_equal; lia|reflexivity].
Qed.
Lemma find_term_spec : forall x xs,
  match find_term xs x 0 with
  | Some z => exists a b, xs = a ++ x :: b /\ ~ In x a /\ z = Z.of_nat (length a)
  | None => ~ In x xs
  end.
Proof.
  intros x xs. induction xs as [|h xs IH]; [intros []|]. cbn. destruct (term_eqb h x) eqn:E.
  - apply term_eqb_eq in E. subst h. exists [], xs. auto.
  - apply term_eqb_neq in E. rewrite find_term_position. destruct (find_term xs x 0) as [z|].
    + destruct IH as (a & b & -> & Hn & ->). exists (h :: a), b. split; [reflexivity|]. split.
      * intros [H|H]; auto.
      * cbn [length]. lia.
    + intros [H|H]; auto.
Qed.

Lemma erase_all_loop : forall x hs p R ci cz, book p R ci cz -> (cz <= length R)%nat ->
  exists R' ci' cz', erase_loop true x hs (length p) R ci cz = (R', ci', cz') /\ book (p ++ hs) R' ci' cz' /\
    exists ys, R' = R ++ ys /\ erased_all x hs ys.
Proof.
  intros x hs. induction hs as [|h hs IH]; intros p R ci cz B Hz.
  - exists R, ci, cz. rewrite !app_nil_r. split; [reflexivity|]. split; [exact B|]. exists []. rewrite app_nil_r. split; [reflexivity|constructor].
  - cbn. destruct (term_eqb h x) eqn:E.
    + apply term_eqb_eq in E. subst h.
      destruct (IH (p ++ [x]) R (S (length p)) (length R) (book_drop p R x) (le_n _)) as (R' & ci' & cz' & E1 & E2 & ys & E3 & E4).
      rewrite app_length in E1. cbn in E1. replace (length p + 1)%nat with (S (length p)) in E1 by lia.
      rewrite <- app_assoc in E2. exists R', ci', cz'. split; [exact E1|]. split; [exact E2|]. exists ys. split; [exact E3|]. constructor; exact E4.
    + apply term_eqb_neq in E.
      destruct (IH (p ++ [h]) (R ++ [h]) ci cz (book_keep _ _ _ _ _ B Hz)) as (R' & ci' & cz' & E1 & E2 & ys & E3 & E4).
      { rewrite app_length. lia. }
      rewrite app_length in E1. cbn in E1. replace (length p + 1)%nat with (S (length p)) in E1 by lia.
      rewrite <- app_assoc in E2. exists R', ci', cz'. split; [exact E1|]. split; [exact E2|]. exists (h :: ys).
      rewrite E3, <- app_assoc. split; [reflexivity|]. constructor; assumption.
Qed.

Lemma setof_loop_spec : forall hs seen p R ci cz, book p R ci cz -> (cz <= length R)%nat ->
  exists R' ci' cz', setof_loop hs seen (length p) R ci cz = (R', ci', cz') /\ book (p ++ hs) R' ci' cz' /\
    exists ys, R' = R ++ ys /\ firsts seen hs ys.
Proof.
  intros hs. induction hs as [|h hs IH]; intros seen p R ci cz B Hz.
  - exists R, ci, cz. rewrite !app_nil_r. split; [reflexivity|]. split; [exact B|]. exists []. rewrite app_nil_r. split; [reflexivity|constructor].
  - cbn. destruct (mem_term h seen) eqn:E.
    + apply mem_term_In in E.
      destruct (IH seen (p ++ [h]) R (S (length p)) (length R) (book_drop p R h) (le_n _)) as (R' & ci' & cz' & E1 & E2 & ys & E3 & E4).
      rewrite app_length in E1. cbn in E1. replace (length p + 1)%nat with (S (length p)) in E1 by lia.
      rewrite <- app_assoc in E2. exists R', ci', cz'. split; [exact E1|]. split; [exact E2|]. exists ys. split; [exact E3|]. constructor; assumption.
    + apply mem_term_not_In in E.
      destruct (IH (h :: seen) (p ++ [h]) (R ++ [h]) ci cz (book_keep _ _ _ _ _ B Hz)) as (R' & ci' & cz' & E1 & E2 & ys & E3 & E4).
      { rewrite app_length. lia. }
      rewrite app_length in E1. cbn in E1. replace (length p + 1)%nat with (S (length p)) in E1 by lia.
      rewrite <- app_assoc in E2. exists R', ci', cz'. split; [exact E1|]. split; [exact E2|]. exists (h :: ys).
      rewrite E3, <- app_assoc. split; [reflexivity|]. constructor; assumption.
Qed.

(** Counting. *)
Lemma term_eq_dec : forall a b : term, {a = b} + {a <> b}.
Proof.
  intros a b. destruct (term_eqb a b) eqn:E.
  - left. apply term_eqb_eq. exact E.
  - right. apply term_eqb_neq. exact E.
Qed.
Definition occ (l : list term) (t : term) : nat := count_occ term_eq_dec l t.

(** [m] counts the elements of [l]. *)
Definition counts_ok (m : counts) (l : list term) : Prop :=
  NoDup (map fst m) /\
  (forall t, count_find m t = if (occ l t =? 0)%nat then None else Some (Z.of_nat (occ l t))).

Lemma count_find_In : forall m t n, count_find m t = Some n -> In (t, n) m.
Proof.
  induction m as [|(u, k) m IH]; intros t n; cbn; [discriminate|]. destruct (term_eqb u t) eqn:E.
  - apply term_eqb_eq in E. subst. intro H; injection H as ->. auto.
  - intro H. auto.
Qed.
Lemma count_find_None : forall m t, count_find m t = None <-> ~ In t (map fst m).
Proof.
  induction m as [|(u, k) m IH]; intros t; cbn; [tauto|]. destruct (term_eqb u t) eqn:E.
  - apply term_eqb_eq in E. subst. split; [discriminate|tauto].
  - apply term_eqb_neq in E. rewrite IH. tauto.
Qed.
Lemma In_count_find : forall m t n, NoDup (map fst m) -> In (t, n) m -> count_find m t = Some n.
Proof.
  induction m as [|(u, k) m IH]; intros t n ND H; cbn; [destruct H|]. cbn in ND. inversion ND; subst.
  destruct H as [H|H].
  - injection H as -> ->. rewrite term_eqb_refl. reflexivity.
  - destruct (term_eqb u t) eqn:E; [|auto]. apply term_eqb_eq in E. subst.
    exfalso. apply H2. apply in_map_iff. exists (t, n). auto.
Qed.
Lemma count_of_find : forall m t, count_of m t = match count_find m t with Some n => n | None => 0%Z end.
Proof. induction m as [|(u, k) m IH]; intros t; cbn; [reflexivity|]. destruct (term_eqb u t); auto. Qed.

Lemma count_inc_find : forall m t u, count_find (count_inc m t) u =
  if term_eqb t u then Some (u32 (match count_find m t with Some n => n | None => 0 end + 1)) else count_find m u.
Proof.
  induction m as [|(v, k) m IH]; intros t u; cbn.
  - destruct (term_eqb t u); reflexivity.
  - destruct (term_eqb v t) eqn:E.
    + apply term_eqb_eq in E. subst v. cbn. destruct (term_eqb t u); reflexivity.
    + cbn. rewrite IH. destruct (term_eqb v u) eqn:E2; [|reflexivity].
      apply term_eqb_eq in E2. subst v. destruct (term_eqb t u) eqn:E3; [|reflexivity].
      apply term_eqb_eq in E3. subst. rewrite term_eqb_refl in E. discriminate.
Qed.
Lemma count_inc_keys : forall m t u, In u (map fst (count_inc m t)) <-> t = u \/ In u (map fst m).
Proof.
  induction m as [|(v, k) m IH]; intros t u; cbn; [tauto|].
  destruct (term_eqb v t) eqn:E; cbn.
  - apply term_eqb_eq in E. subst. tauto.
  - rewrite IH. tauto.
Qed.
Lemma count_inc_nodup : forall m t, NoDup (map fst m) -> NoDup (map fst (count_inc m t)).
Proof.
  induction m as [|(v, k) m IH]; intros t H; cbn.
  - repeat constructor. intros [].
  - cbn in H. inversion H; subst. destruct (term_eqb v t) eqn:E; cbn.
    + exact H.
    + constructor; [|auto]. rewrite count_inc_keys. intros [->|X]; [|contradiction]. rewrite term_eqb_refl in E. discriminate.
Qed.
Lemma count_list_aux : forall l m p, counts_ok m p -> (Z.of_nat (length (p ++ l)) < 2 ^ 32)%Z ->
  counts_ok (fold_left count_inc l m) (rev l ++ p).
Proof.
  induction l as [|x l IH]; intros m p H Hl; [exact H|].
  cbn [fold_left rev]. rewrite <- app_assoc. cbn. apply IH.
  2:{ rewrite app_length in *. cbn in *. lia. }
  destruct H as [H1 H2]. split; [apply count_inc_nodup; exact H1|]. intro t. rewrite count_inc_find.
  unfold occ in *. cbn [count_occ]. destruct (term_eqb x t) eqn:E.
  - apply term_eqb_eq in E. subst t. destruct (term_eq_dec x x) as [_|C]; [|contradiction].
    rewrite H2. cbn [Nat.eqb]. f_equal.
    assert (B : (count_occ term_eq_dec p x <= length p)%nat) by apply count_occ_bound.
    rewrite app_length in Hl. cbn in Hl.
    destruct (Nat.eqb_spec (count_occ term_eq_dec p x) 0) as [->|N].
    + unfold u32. rewrite Z.mod_small; cbn; lia.
    + unfold u32. rewrite Z.mod_small; lia.
  - apply term_eqb_neq in E. destruct (term_eq_dec x t) as [C|_]; [contradiction|]. apply H2.
Qed.
Lemma occ_perm : forall a b t, Permutation a b -> occ a t = occ b t.
Proof. intros a b t H. unfold occ. apply (proj1 (Permutation_count_occ term_eq_dec a b) H). Qed.
Lemma counts_perm : forall m a b, Permutation a b -> counts_ok m a -> counts_ok m b.
Proof.
  intros m a b H [H1 H2]. split; [exact H1|]. intro t. rewrite H2, (occ_perm a b t H). reflexivity.
Qed.
Lemma count_list_ok : forall l, (Z.of_nat (length l) < 2 ^ 32)%Z -> counts_ok (count_list l) l.
Proof.
  intros l H. eapply counts_perm; [|apply (count_list_aux l [] [])].
  - rewrite app_nil_r. symmetry. apply Permutation_rev.
  - split; [constructor|]. reflexivity.
  - exact H.
Qed.

Lemma occ_In : forall l t, (occ l t =? 0)%nat = false <-> In t l.
Proof.
  intros l t. unfold occ. rewrite (count_occ_In term_eq_dec). destruct (Nat.eqb_spec (count_occ term_eq_dec l t) 0); split; try lia; congruence.
Qed.

(** Removing one copy. *)
Lemma count_dec_find : forall m t u, NoDup (map fst m) ->
  count_find (count_dec m t) u =
  if term_eqb t u then
    match count_find m t with
    | Some n => if (u32 (n - 1) =? 0)%Z then None else Some (u32 (n - 1))
    | None => None
    end
  else count_find m u.
Proof.
  induction m as [|(v, k) m IH]; intros t u ND; cbn.
  - destruct (term_eqb t u); reflexivity.
  - cbn in ND. inversion ND; subst. destruct (term_eqb v t) eqn:E.
    + apply term_eqb_eq in E. subst v. destruct (u32 (k - 1) =? 0)%Z eqn:Ez.
      * destruct (term_eqb t u) eqn:E2; [|reflexivity]. apply term_eqb_eq in E2. subst u. apply count_find_None. assumption.
      * cbn. destruct (term_eqb t u); reflexivity.
    + cbn. rewrite IH by assumption. destruct (term_eqb v u) eqn:E2; [|reflexivity].
      apply term_eqb_eq in E2. subst v. destruct (term_eqb t u) eqn:E3; [|reflexivity].
      apply term_eqb_eq in E3. subst. rewrite term_eqb_refl in E. discriminate.
Qed.
Lemma count_dec_keys : forall m t u, In u (map fst (count_dec m t)) -> In u (map fst m).
Proof.
  induction m as [|(v, k) m IH]; intros t u; cbn; [tauto|].
  destruct (term_eqb v t); cbn; [destruct (u32 (k - 1) =? 0)%Z; cbn; tauto|]. intros [H|H]; [tauto|right; eapply IH; exact H].
Qed.
Lemma count_dec_nodup : forall m t, NoDup (map fst m) -> NoDup (map fst (count_dec m t)).
Proof.
  induction m as [|(v, k) m IH]; intros t H; cbn; [constructor|].
  cbn in H. inversion H; subst. destruct (term_eqb v t); cbn.
  - destruct (u32 (k - 1) =? 0)%Z; cbn; assumption.
  - constructor; [|auto]. intro X. apply count_dec_keys in X. contradiction.
Qed.
Lemma counts_remove : forall m a x b, (Z.of_nat (length (a ++ x :: b)) < 2 ^ 32)%Z ->
  counts_ok m (a ++ x :: b) -> counts_ok (count_dec m x) (a ++ b).
Proof.
  intros m a x b Hl [H1 H2]. split; [apply count_dec_nodup; exact H1|].
  intro t. rewrite count_dec_find by exact H1. rewrite !H2.
  assert (O : forall t, occ (a ++ x :: b) t = if term_eq_dec x t then S (occ (a ++ b) t) else occ (a ++ b) t).
  { intro u. rewrite (occ_perm (a ++ x :: b) (x :: a ++ b)) by (symmetry; apply Permutation_middle). unfold occ. cbn. reflexivity. }
  rewrite !O. destruct (term_eqb x t) eqn:E.
  - apply term_eqb_eq in E. subst t. destruct (term_eq_dec x x) as [_|C]; [|contradiction]. cbn [Nat.eqb].
    assert (B : (occ (a ++ b) x <= length (a ++ b))%nat) by apply count_occ_bound.
    rewrite app_length in *. cbn [length] in *.
    unfold u32. rewrite Z.mod_small by lia.
    destruct (Nat.eqb_spec (occ (a ++ b) x) 0) as [->|N]; [reflexivity|].
    destruct (Z.eqb_spec (Z.of_nat (S (occ (a ++ b) x)) - 1) 0) as [C|_]; [lia|]. f_equal. lia.
  - apply term_eqb_neq in E. destruct (term_eq_dec x t) as [C|_]; [contradiction|]. reflexivity.
Qed.

Lemma diffinter_spec : forall isDiff hs ys m p R ci cz, (Z.of_nat (length ys) < 2 ^ 32)%Z -> counts_ok m ys ->
  book p R ci cz -> (cz <= length R)%nat ->
  exists R' ci' cz', diffinter_loop isDiff hs m (length p) R ci cz = (R', ci', cz') /\ book (p ++ hs) R' ci' cz' /\
    exists zs, R' = R ++ zs /\ (if isDiff then difference hs ys zs else intersection hs ys zs).
Proof.
  intros isDiff hs. induction hs as [|h hs IH]; intros ys m p R ci cz Hl Hm B Hz.
  - exists R, ci, cz. rewrite !app_nil_r. split; [reflexivity|]. split; [exact B|]. exists []. rewrite app_nil_r.
    split; [reflexivity|]. destruct isDiff; constructor.
  - cbn [diffinter_loop]. pose proof Hm as Hm0. destruct Hm as [N Hf]. rewrite Hf.
    destruct (occ ys h =? 0)%nat eqn:Eo.
    + assert (Hn : ~ In h ys) by (rewrite <- occ_In, Eo; discriminate).
      destruct isDiff; cbn [Bool.eqb].
      * destruct (IH ys m (p ++ [h]) (R ++ [h]) ci cz Hl Hm0 (book_keep _ _ _ _ _ B Hz)) as (R' & ci' & cz' & E1 & E2 & zs & E3 & E4).
        { rewrite app_length. lia. }
        rewrite app_length in E1. cbn in E1. replace (length p + 1)%nat with (S (length p)) in E1 by lia.
        rewrite <- app_assoc in E2. exists R', ci', cz'. split; [exact E1|]. split; [exact E2|]. exists (h :: zs).
        rewrite E3, <- app_assoc. split; [reflexivity|]. constructor; assumption.
      * destruct (IH ys m (p ++ [h]) R (S (length p)) (length R) Hl Hm0 (book_drop _ _ _) (le_n _)) as (R' & ci' & cz' & E1 & E2 & zs & E3 & E4).
        rewrite app_length in E1. cbn in E1. replace (length p + 1)%nat with (S (length p)) in E1 by lia.
        rewrite <- app_assoc in E2. exists R', ci', cz'. split; [exact E1|]. split; [exact E2|]. exists zs.
        split; [exact E3|]. constructor; assumption.
    + apply occ_In in Eo. apply in_split in Eo. destruct Eo as (a & b & ->).
      assert (Hl' : (Z.of_nat (length (a ++ b)) < 2 ^ 32)%Z) by (rewrite app_length in *; cbn in Hl; lia).
      pose proof (counts_remove m a h b Hl Hm0) as Hm'.
      destruct isDiff; cbn [Bool.eqb].
      * destruct (IH (a ++ b) (count_dec m h) (p ++ [h]) R (S (length p)) (length R) Hl' Hm' (book_drop _ _ _) (le_n _)) as (R' & ci' & cz' & E1 & E2 & zs & E3 & E4).
        rewrite app_length in E1. cbn in E1. replace (length p + 1)%nat with (S (length p)) in E1 by lia.
        rewrite <- app_assoc in E2. exists R', ci', cz'. split; [exact E1|]. split; [exact E2|]. exists zs.
        split; [exact E3|]. constructor; assumption.
      * destruct (IH (a ++ b) (count_dec m h) (p ++ [h]) (R ++ [h]) ci cz Hl' Hm' (book_keep _ _ _ _ _ B Hz)) as (R' & ci' & cz' & E1 & E2 & zs & E3 & E4).
        { rewrite app_length. lia. }
        rewrite app_length in E1. cbn in E1. replace (length p + 1)%nat with (S (length p)) in E1 by lia.
        rewrite <- app_assoc in E2. exists R', ci', cz'. split; [exact E1|]. split; [exact E2|]. exists (h :: zs).
        rewrite E3, <- app_assoc. split; [reflexivity|]. constructor; assumption.
Qed.

(** Inclusion through counting. *)
Lemma included_occ : forall xs ys, included xs ys <-> forall t, (occ xs t <= occ ys t)%nat.
Proof.
  intros xs ys. split.
  - intros (rest & H) t. rewrite <- (occ_perm _ _ t H). unfold occ. rewrite count_occ_app. lia.
  - revert ys. induction xs as [|x xs IH]; intros ys H.
    + exists ys. reflexivity.
    + assert (Hx : In x ys).
      { apply (count_occ_In term_eq_dec). specialize (H x). unfold occ in H. cbn in H. destruct (term_eq_dec x x); [lia|contradiction]. }
      apply in_split in Hx. destruct Hx as (a & b & ->). destruct (IH (a ++ b)) as (rest & Hr).
      * intro t. specialize (H t). rewrite (occ_perm (a ++ x :: b) (x :: a ++ b)) in H by (symmetry; apply Permutation_middle).
        unfold occ in *. cbn in H. destruct (term_eq_dec x t); lia.
      * exists rest. cbn. rewrite Hr. apply Permutation_middle.
Qed.
Lemma perm_occ : forall xs ys, Permutation xs ys <-> forall t, occ xs t = occ ys t.
Proof. intros. unfold occ. apply (Permutation_count_occ term_eq_dec). Qed.

Lemma counts_of : forall m l t, counts_ok m l -> count_of m t = Z.of_nat (occ l t).
Proof.
  intros m l t [_ H]. rewrite count_of_find, H. destruct (Nat.eqb_spec (occ l t) 0) as [->|]; reflexivity.
Qed.
Lemma counts_entries : forall m l e, counts_ok m l -> In e m -> snd e = Z.of_nat (occ l (fst e)) /\ In (fst e) l.
Proof.
  intros m l (t, n) [H1 H2] He. apply (In_count_find m t n H1) in He. rewrite H2 in He. cbn.
  destruct (occ l t =? 0)%nat eqn:E; [discriminate|]. apply occ_In in E. injection He as <-. auto.
Qed.
Lemma counts_keys : forall m l t, counts_ok m l -> (In t (map fst m) <-> In t l).
Proof.
  intros m l t [H1 H2]. rewrite <- (occ_In l t). specialize (H2 t).
  destruct (occ l t =? 0)%nat eqn:E.
  - split; [|discriminate]. intro X. exfalso. apply count_find_None in H2. contradiction.
  - split; [reflexivity|]. intros _. destruct (in_dec term_eq_dec t (map fst m)) as [X|X]; [exact X|].
    apply count_find_None in X. rewrite X in H2. discriminate.
Qed.

Lemma forallb_le : forall m1 m2 xs ys, counts_ok m1 xs -> counts_ok m2 ys ->
  (forallb (fun e => snd e <=? count_of m2 (fst e))%Z m1 = true <-> included xs ys).
Proof.
  intros m1 m2 xs ys H1 H2. rewrite forallb_forall, included_occ. split; intro H.
  - intro t. destruct (occ xs t =? 0)%nat eqn:E; [apply Nat.eqb_eq in E; lia|]. apply occ_In in E.
    apply (counts_keys m1 xs t H1) in E. apply in_map_iff in E. destruct E as (e & <- & He).
    specialize (H e He). destruct (counts_entries _ _ _ H1 He) as [E _]. rewrite E, (counts_of _ _ _ H2) in H. apply Z.leb_le in H. lia.
  - intros e He. destruct (counts_entries _ _ _ H1 He) as [E _]. rewrite E, (counts_of _ _ _ H2). apply Z.leb_le.
    specialize (H (fst e)). lia.
Qed.
Lemma forallb_eq : forall m1 m2 xs ys, counts_ok m1 xs -> counts_ok m2 ys ->
  (negb (Nat.eqb (length m1) (length m2)) = false /\
   forallb (fun e => count_of m2 (fst e) =? snd e)%Z m1 = true <-> Permutation xs ys).
Proof.
  intros m1 m2 xs ys H1 H2. rewrite forallb_forall, perm_occ. split.
  - intros [L H]. apply negb_false_iff, Nat.eqb_eq in L.
    assert (A : forall t, In t xs -> occ xs t = occ ys t).
    { intros t E. apply (counts_keys m1 xs t H1) in E. apply in_map_iff in E. destruct E as (e & <- & He).
      specialize (H e He). destruct (counts_entries _ _ _ H1 He) as [E _]. rewrite E, (counts_of _ _ _ H2) in H. apply Z.eqb_eq in H. lia. }
    assert (I : incl (map fst m1) (map fst m2)).
    { intros t Ht. apply (counts_keys _ _ _ H1) in Ht. apply (counts_keys _ _ _ H2). rewrite <- occ_In, <- (A t Ht), occ_In. exact Ht. }
    assert (J : incl (map fst m2) (map fst m1)).
    { apply NoDup_length_incl; [apply H1|rewrite !map_length; lia|exact I]. }
    intro t. destruct (in_dec term_eq_dec t xs) as [X|X]; [apply A; exact X|].
    assert (~ In t ys). { intro Y. apply X. apply (counts_keys _ _ _ H1). apply J. apply (counts_keys _ _ _ H2). exact Y. }
    unfold occ. rewrite (proj1 (count_occ_not_In term_eq_dec xs t) X), (proj1 (count_occ_not_In term_eq_dec ys t) H0). reflexivity.
  - intro H. split.
    + apply negb_false_iff, Nat.eqb_eq.
      assert (I : forall t, In t (map fst m1) <-> In t (map fst m2)).
      { intro t. rewrite (counts_keys _ _ _ H1), (counts_keys _ _ _ H2), <- !occ_In, H. reflexivity. }
      rewrite <- (map_length fst m1), <- (map_length fst m2).
      apply Nat.le_antisymm; apply NoDup_incl_length; try apply H1; try apply H2; intros t Ht; apply I; exact Ht.
    + intros e He. destruct (counts_entries _ _ _ H1 He) as [E _]. rewrite E, (counts_of _ _ _ H2). apply Z.eqb_eq. rewrite H. reflexivity.
Qed.
