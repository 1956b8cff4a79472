(** Matching (C18), selection of cases (C19), bound parameters (C48). *)
From Coq Require Import ZArith List Bool Lia.
From Verif Require Import Base Kind Literal Term Match SpecTerm TermProofs VarsProofs.
Import ListNotations.

Lemma ctx_find_emplace : forall c p v q,
  ctx_find (ctx_emplace c p v) q = if term_eqb p q then Some v else ctx_find c q.
Proof. reflexivity. Qed.

Lemma mem_pair_In : forall a b l, mem_pair a b l = true <-> In (a, b) l.
Proof.
  intros a b l. induction l as [|[x y] l IH]; [split; [discriminate|intros []]|].
  cbn [mem_pair In]. rewrite orb_true_iff, andb_true_iff, !term_eqb_eq, IH.
  split; intros [H|H]; auto; left; [destruct H; congruence|injection H; auto].
Qed.

Lemma tsubst_id : forall f t, twf t -> (forall p, is_param p -> occurs p t -> f p = None) -> tsubst f t = t.
Proof.
  intros f t. induction t as [k i|l|k cs IH] using term_ind2; intros W H.
  - cbn [tsubst]. destruct k; try reflexivity. rewrite H; [reflexivity|exists i; reflexivity|apply occ_here].
  - reflexivity.
  - cbn [tsubst]. f_equal. rewrite <- (map_id cs) at 2. apply map_ext_in. intros c Hc.
    rewrite Forall_forall in IH. apply IH; [exact Hc|eapply twf_child; eauto|].
    intros p Hp Ho. apply H; [exact Hp|]. eapply occ_child; eauto.
Qed.

Lemma tsubst_ground : forall f t, twf t -> isGround t = true -> tsubst f t = t.
Proof.
  intros f t. induction t as [k i|l|k cs IH] using term_ind2; intros W H.
  - cbn [tsubst]. destruct k; try reflexivity. discriminate.
  - reflexivity.
  - cbn [tsubst]. f_equal. rewrite <- (map_id cs) at 2. apply map_ext_in. intros c Hc.
    rewrite Forall_forall in IH. apply IH; [exact Hc|eapply twf_child; eauto|].
    unfold isGround in *. apply negb_true_iff in H. apply negb_true_iff.
    rewrite nonGround_node in H by (cbn; destruct cs; [destruct Hc|discriminate]).
    cbn [tchildren] in H. destruct (nonGround c) eqn:E; [|reflexivity].
    assert (existsb nonGround cs = true) by (apply existsb_exists; exists c; auto). congruence.
Qed.

Lemma tsubst_ext : forall f g t, (forall p, is_param p -> occurs p t -> f p = g p) ->
  tsubst f t = tsubst g t.
Proof.
  intros f g t. induction t as [k i|l|k cs IH] using term_ind2; intro H.
  - cbn [tsubst]. destruct k; try reflexivity. rewrite H; [reflexivity|exists i; reflexivity|apply occ_here].
  - reflexivity.
  - cbn [tsubst]. f_equal. apply map_ext_in. intros c Hc. rewrite Forall_forall in IH.
    apply IH; [exact Hc|]. intros p Hp Ho. apply H; [exact Hp|]. eapply occ_child; eauto.
Qed.

Lemma tsubst_param : forall f p, is_param p -> tsubst f p = match f p with Some u => u | None => p end.
Proof. intros f p (i & ->). reflexivity. Qed.

(** * Soundness *)

Definition groundeq (a b : term) : Prop := isGround a = true /\ a = b.

Record MInv (a0 b0 : term) (c0 : ctx) (stack visited : list (term * term)) (c : ctx) : Prop := mkMInv {
  mi_root : In (a0, b0) visited \/ In (a0, b0) stack \/ groundeq a0 b0;
  mi_vis : forall x y, In (x, y) visited ->
     (is_param x /\ ctx_find c x = Some y) \/
     (tchildren x <> [] /\ tkind x = tkind y /\ length (tchildren x) = length (tchildren y) /\
      forall x' y', In (x', y') (combine (tchildren x) (tchildren y)) ->
        In (x', y') visited \/ In (x', y') stack \/ groundeq x' y');
  mi_sub : forall p v, ctx_find c0 p = Some v -> ctx_find c p = Some v;
  mi_dom : forall p v, ctx_find c p = Some v ->
     ctx_find c0 p = Some v \/ (is_param p /\ occurs p a0);
  mi_occ : forall x y, In (x, y) stack -> occurs x a0 }.

Definition psize (l : list (term * term)) : nat := tsizes (map fst l).

Lemma psize_cons : forall a b l, psize ((a, b) :: l) = (tsize a + psize l)%nat.
Proof. reflexivity. Qed.

Lemma map_fst_combine : forall (A B : Type) (l : list A) (l' : list B),
  length l = length l' -> map fst (combine l l') = l.
Proof.
  intros A B l. induction l as [|x l IH]; intros [|y l'] H; try discriminate; [reflexivity|].
  cbn. rewrite IH; [reflexivity|]. injection H; auto.
Qed.

Lemma psize_children : forall cs ds rest, length cs = length ds ->
  psize (rev (combine cs ds) ++ rest) = (tsizes cs + psize rest)%nat.
Proof.
  intros cs ds rest H. unfold psize. rewrite map_app, tsizes_app, map_rev, tsizes_rev.
  rewrite map_fst_combine by exact H. reflexivity.
Qed.

Lemma MInv_pop : forall a0 b0 c0 a b rest visited c,
  MInv a0 b0 c0 ((a, b) :: rest) visited c ->
  (In (a, b) visited \/ groundeq a b) -> MInv a0 b0 c0 rest visited c.
Proof.
  intros a0 b0 c0 a b rest visited c [M1 M2 M3 M4 M5] H.
  assert (X : forall x y, In (x, y) visited \/ In (x, y) ((a, b) :: rest) \/ groundeq x y ->
              In (x, y) visited \/ In (x, y) rest \/ groundeq x y).
  { intros x y [Y|[[Y|Y]|Y]]; auto. injection Y as -> ->. destruct H; auto. }
  constructor; auto.
  - intros x y Hv. destruct (M2 x y Hv) as [Y|(Y1 & Y2 & Y3 & Y4)]; [left; exact Y|right].
    repeat (split; [assumption|]). intros x' y' Hc. apply X. apply Y4. exact Hc.
  - intros x y Hin. apply (M5 x y). right; exact Hin.
Qed.

Lemma leaf_nonground_param : forall a, twf a -> tchildren a = [] -> isGround a = false ->
  (kind_eqb (tkind a) K_PARAM = true /\ is_param a) \/
  (kind_eqb (tkind a) K_PARAM = false /\ is_any a).
Proof.
  intros a W H G. unfold isGround in G. apply negb_false_iff in G.
  rewrite nonGround_leaf in G by exact H. apply leaf_nonground_spec in G; [|exact W|exact H].
  destruct G as [G|G]; [left|right].
  - split; [apply param_kind; assumption|exact G].
  - split; [rewrite G; reflexivity|exact G].
Qed.

Lemma match_loop_total : forall a0, twf a0 -> forall fuel stack visited c,
  (forall x y, In (x, y) stack -> occurs x a0) ->
  (psize stack < fuel)%nat -> exists r, match_loop fuel stack visited c = Ok r.
Proof.
  intros a0 W fuel. induction fuel as [|n IH]; intros stack visited c Ho Hf; [lia|].
  cbn [match_loop]. destruct stack as [|[a b] rest]; [eexists; reflexivity|].
  rewrite psize_cons in Hf. pose proof (tsize_pos a) as Hp.
  assert (Ho' : forall x y, In (x, y) rest -> occurs x a0) by (intros x y Hin; apply (Ho x y); right; exact Hin).
  destruct (isGround a) eqn:G.
  { destruct (term_eqb a b); [apply IH; [exact Ho'|lia]|eexists; reflexivity]. }
  destruct (mem_pair a b visited); [apply IH; [exact Ho'|lia]|].
  destruct (tchildren a) as [|c1 cs] eqn:Ec.
  { destruct (kind_eqb (tkind a) K_PARAM); [|eexists; reflexivity].
    destruct (ctx_find c a) as [v|].
    - destruct (term_eqb v b); [apply IH; [exact Ho'|lia]|eexists; reflexivity].
    - apply IH; [exact Ho'|lia]. }
  destruct (Nat.eqb (length (c1 :: cs)) (length (tchildren b))) eqn:El; [|eexists; reflexivity].
  destruct (kind_eqb (tkind a) (tkind b)); [|eexists; reflexivity].
  cbn [negb orb]. apply Nat.eqb_eq in El. apply IH.
  - intros x y Hin. apply in_app_or in Hin. destruct Hin as [Hin|Hin]; [|eapply Ho'; eauto].
    apply in_rev in Hin. apply in_combine_l in Hin.
    eapply occurs_trans; [|apply (Ho a b); left; reflexivity].
    apply occurs_child. rewrite Ec. exact Hin.
  - rewrite psize_children by exact El. pose proof (tsize_children a) as X. rewrite Ec in X. lia.
Qed.

Lemma match_loop_sound : forall a0 b0 c0, twf a0 -> forall fuel stack visited c c',
  MInv a0 b0 c0 stack visited c ->
  match_loop fuel stack visited c = Ok (Some c') ->
  exists visited', MInv a0 b0 c0 [] visited' c'.
Proof.
  intros a0 b0 c0 W fuel. induction fuel as [|n IH]; intros stack visited c c' M E; [discriminate|].
  cbn [match_loop] in E. destruct stack as [|[a b] rest].
  { injection E as <-. exists visited; exact M. }
  assert (Wa : twf a).
  { eapply twf_occurs; [exact W|]. apply (mi_occ _ _ _ _ _ _ M a b). left; reflexivity. }
  destruct (isGround a) eqn:G.
  { destruct (term_eqb a b) eqn:Eq; [|discriminate]. apply term_eqb_eq in Eq.
    eapply IH; [|exact E]. eapply MInv_pop; [exact M|]. right. split; assumption. }
  destruct (mem_pair a b visited) eqn:Hm.
  { apply mem_pair_In in Hm. eapply IH; [|exact E]. eapply MInv_pop; [exact M|left; exact Hm]. }
  destruct (tchildren a) as [|c1 cs] eqn:Ec.
  { destruct (leaf_nonground_param a Wa Ec G) as [[Ek Hp]|[Ek _]]; rewrite Ek in E; [|discriminate].
    destruct (ctx_find c a) as [v|] eqn:Ef.
    - destruct (term_eqb v b) eqn:Eq; [|discriminate]. apply term_eqb_eq in Eq. subst v.
      eapply IH; [|exact E]. eapply MInv_pop; [|left; left; reflexivity].
      destruct M as [M1 M2 M3 M4 M5]. constructor; auto.
      + destruct M1 as [X|[X|X]]; auto. left; right; exact X.
      + intros x y [X|X].
        * injection X as <- <-. left. split; assumption.
        * destruct (M2 x y X) as [Y|(Y1 & Y2 & Y3 & Y4)]; [left; exact Y|right].
          repeat (split; [assumption|]). intros x' y' Hc.
          destruct (Y4 x' y' Hc) as [Z|[Z|Z]]; auto. left; right; exact Z.
    - eapply IH; [|exact E]. eapply MInv_pop; [|left; left; reflexivity].
      destruct M as [M1 M2 M3 M4 M5]. constructor; auto.
      + destruct M1 as [X|[X|X]]; auto. left; right; exact X.
      + intros x y [X|X].
        * injection X as <- <-. left. split; [exact Hp|].
          rewrite ctx_find_emplace, term_eqb_refl. reflexivity.
        * destruct (M2 x y X) as [[Y1 Y2]|(Y1 & Y2 & Y3 & Y4)]; [left|right].
          -- split; [exact Y1|]. rewrite ctx_find_emplace.
             destruct (term_eqb a x) eqn:Eax; [|exact Y2].
             apply term_eqb_eq in Eax. subst x. congruence.
          -- repeat (split; [assumption|]). intros x' y' Hc.
             destruct (Y4 x' y' Hc) as [Z|[Z|Z]]; auto. left; right; exact Z.
      + intros p v Hpv. rewrite ctx_find_emplace. destruct (term_eqb a p) eqn:Eap; [|auto].
        apply term_eqb_eq in Eap. subst p. apply M3 in Hpv. congruence.
      + intros p v Hpv. rewrite ctx_find_emplace in Hpv. destruct (term_eqb a p) eqn:Eap; [|auto].
        apply term_eqb_eq in Eap. subst p. right. split; [exact Hp|].
        apply (M5 a b). left; reflexivity. }
  destruct (Nat.eqb (length (c1 :: cs)) (length (tchildren b))) eqn:El; [|discriminate].
  destruct (kind_eqb (tkind a) (tkind b)) eqn:Ek; [|discriminate].
  cbn [negb orb] in E. apply Nat.eqb_eq in El. apply kind_eqb_eq in Ek.
  eapply IH; [|exact E].
  destruct M as [M1 M2 M3 M4 M5].
  assert (X : forall x y, In (x, y) visited \/ In (x, y) ((a, b) :: rest) \/ groundeq x y ->
     In (x, y) ((a, b) :: visited) \/
     In (x, y) (rev (combine (c1 :: cs) (tchildren b)) ++ rest) \/ groundeq x y).
  { intros x y [Y|[[Y|Y]|Y]]; auto.
    - left; right; exact Y.
    - left; left; exact Y.
    - right; left. apply in_or_app; right; exact Y. }
  constructor; auto.
  - intros x y [Y|Y].
    + injection Y as <- <-. right. split; [rewrite Ec; discriminate|]. split; [exact Ek|].
      split; [rewrite Ec; exact El|]. intros x' y' Hc. right; left. apply in_or_app; left.
      rewrite Ec in Hc. apply in_rev in Hc. exact Hc.
    + destruct (M2 x y Y) as [Z|(Y1 & Y2 & Y3 & Y4)]; [left; exact Z|right].
      repeat (split; [assumption|]). intros x' y' Hc. apply X. apply Y4; exact Hc.
  - intros x y Hin. apply in_app_or in Hin. destruct Hin as [Hin|Hin].
    + apply in_rev in Hin. apply in_combine_l in Hin.
      eapply occurs_trans; [|apply (M5 a b); left; reflexivity].
      apply occurs_child. rewrite Ec. exact Hin.
    + apply (M5 x y). right; exact Hin.
Qed.

Lemma node_shape : forall t, tchildren t <> [] -> t = Node (tkind t) (tchildren t).
Proof. intros [k i|l|k cs] H; try (exfalso; apply H; reflexivity). reflexivity. Qed.

(** A closed set of processed pairs is a set of instances. *)
Lemma closed_instance : forall visited c,
  (forall x y, In (x, y) visited ->
     (is_param x /\ ctx_find c x = Some y) \/
     (tchildren x <> [] /\ tkind x = tkind y /\ length (tchildren x) = length (tchildren y) /\
      forall x' y', In (x', y') (combine (tchildren x) (tchildren y)) ->
        In (x', y') visited \/ groundeq x' y')) ->
  forall x y, twf x -> In (x, y) visited \/ groundeq x y ->
  tsubst (ctx_find c) x = y /\
  (forall p, is_param p -> occurs p x -> ctx_find c p <> None) /\ no_any x.
Proof.
  intros visited c Hcl x. induction x as [k i|l|k cs IH] using term_ind2; intros y W [Hin|[G E]].
  - destruct (Hcl _ _ Hin) as [[(j & Hp) Hf]|(X & _)]; [|exfalso; apply X; reflexivity].
    injection Hp as -> ->. cbn [tsubst]. rewrite Hf. split; [reflexivity|]. split.
    + intros p _ Ho. inversion Ho; subst. rewrite Hf. discriminate.
    + intros s Ho. inversion Ho; subst. discriminate.
  - subst y. split; [apply tsubst_ground; assumption|]. split.
    + intros p Hp Ho. exfalso. eapply ground_no_param; eauto.
    + intros s Ho. inversion Ho; subst. discriminate.
  - destruct (Hcl _ _ Hin) as [[(j & Hp) Hf]|(X & _)]; [discriminate|exfalso; apply X; reflexivity].
  - subst y. split; [reflexivity|]. split.
    + intros p (j & ->) Ho. inversion Ho.
    + intros s Ho. inversion Ho; subst. discriminate.
  - destruct (Hcl _ _ Hin) as [[(j & Hp) Hf]|(Hne & Hk & Hlen & Hch)]; [discriminate|].
    cbn [tchildren tkind] in *.
    assert (Hy : y = Node k (tchildren y)).
    { rewrite Hk. apply node_shape. intro X. rewrite X in Hlen. destruct cs; [apply Hne; reflexivity|discriminate]. }
    assert (Hall : forall c1, In c1 cs -> exists d, In (c1, d) (combine cs (tchildren y))).
    { intros c1 Hc. clear -Hc Hlen. revert Hlen. generalize (tchildren y) as ds. revert Hc.
      induction cs as [|c2 cs IHc]; [intros []|]. intros [->|Hc] [|d ds] Hl; try discriminate.
      - exists d; left; reflexivity.
      - destruct (IHc Hc ds) as (d' & Hd'); [injection Hl; auto|]. exists d'. right; exact Hd'. }
    rewrite Forall_forall in IH.
    split; [|split].
    + rewrite Hy. cbn [tsubst]. f_equal.
      assert (HH : forall c1 d, In (c1, d) (combine cs (tchildren y)) -> tsubst (ctx_find c) c1 = d).
      { intros c1 d Hcd. pose proof (in_combine_l _ _ _ _ Hcd) as Hc1.
        apply (IH c1 Hc1 d); [eapply twf_child; [exact W|exact Hc1]|]. apply Hch; exact Hcd. }
      clear -HH Hlen. revert HH Hlen. generalize (tchildren y) as ds.
      induction cs as [|c1 cs IHc]; intros [|d ds] HH Hlen; try discriminate; [reflexivity|].
      cbn [map]. f_equal; [apply HH; left; reflexivity|].
      apply IHc; [|injection Hlen; auto]. intros c2 d2 H2. apply HH. right; exact H2.
    + intros p Hp Ho. apply occurs_inv in Ho. destruct Ho as [->|(c1 & Hc1 & Ho)].
      { destruct Hp as (j & Hp); discriminate. }
      cbn [tchildren] in Hc1. destruct (Hall c1 Hc1) as (d & Hd).
      destruct (IH c1 Hc1 d) as (_ & R & _); [eapply twf_child; [exact W|exact Hc1]|apply Hch; exact Hd|].
      apply R; assumption.
    + intros s Ho Ha. apply occurs_inv in Ho. destruct Ho as [->|(c1 & Hc1 & Ho)].
      { unfold is_any in Ha. injection Ha as -> E. contradiction. }
      cbn [tchildren] in Hc1. destruct (Hall c1 Hc1) as (d & Hd).
      destruct (IH c1 Hc1 d) as (_ & _ & R); [eapply twf_child; [exact W|exact Hc1]|apply Hch; exact Hd|].
      exact (R s Ho Ha).
  - subst y. split; [apply tsubst_ground; assumption|]. split.
    + intros p Hp Ho. exfalso. eapply ground_no_param; eauto.
    + intros s Ho Ha. unfold isGround in G. apply negb_true_iff in G.
      assert (nonGround (Node k cs) = true) by (apply nonGround_spec; [exact W|]; exists s; auto).
      congruence.
Qed.

Lemma MInv_init : forall a b c, MInv a b c [(a, b)] [] c.
Proof.
  intros a b c. constructor; auto.
  - right; left; left; reflexivity.
  - intros x y [].
  - intros x y [X|[]]. injection X as <- <-. apply occ_here.
Qed.

Theorem match_term_total : forall a b c, twf a -> exists r, match_term a b c = Ok r.
Proof.
  intros a b c W. unfold match_term. apply (match_loop_total a W).
  - intros x y [X|[]]. injection X as <- <-. apply occ_here.
  - rewrite psize_cons. unfold psize. cbn [map]. rewrite tsizes_nil. lia.
Qed.

Theorem match_term_sound : forall a b c c', twf a -> match_term a b c = Ok (Some c') ->
  (forall p v, ctx_find c p = Some v -> ctx_find c' p = Some v) /\
  (forall p v, ctx_find c' p = Some v -> ctx_find c p = Some v \/ (is_param p /\ occurs p a)) /\
  tsubst (ctx_find c') a = b /\
  (forall p, is_param p -> occurs p a -> ctx_find c' p <> None) /\ no_any a.
Proof.
  intros a b c c' W E. unfold match_term in E.
  destruct (match_loop_sound a b c W _ _ _ _ _ (MInv_init a b c) E) as (v' & M).
  split; [exact (mi_sub _ _ _ _ _ _ M)|]. split; [exact (mi_dom _ _ _ _ _ _ M)|].
  apply (closed_instance v').
  - intros x y Hin. destruct (mi_vis _ _ _ _ _ _ M x y Hin) as [X|(X1 & X2 & X3 & X4)]; [left; exact X|].
    right. repeat (split; [assumption|]). intros x' y' Hc.
    destruct (X4 x' y' Hc) as [Z|[[]|Z]]; auto.
  - exact W.
  - destruct (mi_root _ _ _ _ _ _ M) as [Z|[[]|Z]]; auto.
Qed.

(** * Completeness *)

Lemma match_loop_complete : forall f fuel stack visited c,
  (psize stack < fuel)%nat ->
  (forall x y, In (x, y) stack -> twf x /\ no_any x /\ tsubst f x = y /\
     forall p, is_param p -> occurs p x -> f p <> None) ->
  (forall p v, ctx_find c p = Some v -> f p = Some v) ->
  exists c', match_loop fuel stack visited c = Ok (Some c') /\
    (forall p v, ctx_find c' p = Some v -> f p = Some v).
Proof.
  intros f fuel. induction fuel as [|n IH]; intros stack visited c Hf Hst Hc; [lia|].
  cbn [match_loop]. destruct stack as [|[a b] rest].
  { exists c. auto. }
  rewrite psize_cons in Hf. pose proof (tsize_pos a) as Hpos.
  destruct (Hst a b (or_introl eq_refl)) as (Wa & Na & Sa & Pa).
  assert (Hr : forall x y, In (x, y) rest -> twf x /\ no_any x /\ tsubst f x = y /\
     forall p, is_param p -> occurs p x -> f p <> None).
  { intros x y Hin. apply Hst. right; exact Hin. }
  destruct (isGround a) eqn:G.
  { rewrite tsubst_ground in Sa by assumption. subst b. rewrite term_eqb_refl.
    apply IH; [lia|exact Hr|exact Hc]. }
  destruct (mem_pair a b visited); [apply IH; [lia|exact Hr|exact Hc]|].
  destruct (tchildren a) as [|c1 cs] eqn:Ec.
  { destruct (leaf_nonground_param a Wa Ec G) as [[Ek Hp]|[Ek Ha]];
      [|exfalso; exact (Na a (occ_here a) Ha)].
    rewrite Ek. rewrite tsubst_param in Sa by exact Hp.
    assert (Fa : f a = Some b).
    { pose proof (Pa a Hp (occ_here a)) as X. destruct (f a); [congruence|contradiction]. }
    destruct (ctx_find c a) as [v|] eqn:Ef.
    - pose proof (Hc a v Ef) as X. rewrite Fa in X. injection X as ->.
      rewrite term_eqb_refl. apply IH; [lia|exact Hr|exact Hc].
    - apply IH; [lia|exact Hr|]. intros p v. rewrite ctx_find_emplace.
      destruct (term_eqb a p) eqn:Eap; [|apply Hc].
      apply term_eqb_eq in Eap. subst p. intros [= <-]. exact Fa. }
  assert (Ha : a = Node (tkind a) (c1 :: cs)).
  { rewrite <- Ec. apply node_shape. rewrite Ec. discriminate. }
  assert (Hb : b = Node (tkind a) (map (tsubst f) (c1 :: cs))).
  { rewrite <- Sa. rewrite Ha at 1. reflexivity. }
  rewrite Hb. cbn [tchildren tkind]. rewrite map_length, Nat.eqb_refl, kind_eqb_refl. cbn [negb orb].
  apply IH.
  - rewrite psize_children by (rewrite map_length; reflexivity).
    pose proof (tsize_children a) as X. rewrite Ec in X. lia.
  - intros x y Hin. apply in_app_or in Hin. destruct Hin as [Hin|Hin]; [|apply Hr; exact Hin].
    apply in_rev in Hin.
    assert (Hx : In x (c1 :: cs)) by (eapply in_combine_l; exact Hin).
    assert (Hx' : In x (tchildren a)) by (rewrite Ec; exact Hx).
    split; [eapply twf_child; eauto|]. split; [|split].
    + intros s Ho. apply Na. eapply occurs_trans; [exact Ho|]. apply occurs_child; exact Hx'.
    + clear -Hin. revert Hin. generalize (c1 :: cs) as l. induction l as [|z l IHl]; [intros []|].
      cbn [map combine]. intros [X|X]; [congruence|auto].
    + intros p Hp Ho. apply Pa; [exact Hp|]. eapply occurs_trans; [exact Ho|].
      apply occurs_child; exact Hx'.
  - exact Hc.
Qed.

Theorem match_term_complete : forall f a b c, twf a -> no_any a ->
  (forall p v, ctx_find c p = Some v -> f p = Some v) ->
  tsubst f a = b -> (forall p, is_param p -> occurs p a -> f p <> None) ->
  exists c', match_term a b c = Ok (Some c') /\
    (forall p v, ctx_find c' p = Some v -> f p = Some v).
Proof.
  intros f a b c W N Hc Hs Hp. unfold match_term. apply match_loop_complete.
  - rewrite psize_cons. unfold psize. cbn [map]. rewrite tsizes_nil. lia.
  - intros x y [X|[]]. injection X as <- <-. auto.
  - exact Hc.
Qed.
