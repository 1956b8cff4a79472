(** Free parameters (C50). *)
From Coq Require Import ZArith List Bool Lia.
From Verif Require Import Base Kind Literal Term SpecTerm TermProofs.
Import ListNotations.

Lemma ground_no_param : forall t p, twf t -> isGround t = true -> is_param p -> ~ occurs p t.
Proof.
  intros t p W G Hp Ho. unfold isGround in G. apply negb_true_iff in G.
  assert (nonGround t = true) by (apply nonGround_spec; [exact W|]; exists p; auto).
  congruence.
Qed.

Lemma param_kind : forall t, twf t -> (kind_eqb (tkind t) K_PARAM = true <-> is_param t).
Proof.
  intros t W. rewrite kind_eqb_eq. split.
  - intro E. inversion W as [k i Hk|l|k cs H1 H2 H3]; subst; cbn [tkind] in E; subst.
    + exists i; reflexivity.
    + destruct l; discriminate.
    + discriminate.
  - intros (i & ->). reflexivity.
Qed.

Lemma param_leaf : forall p, is_param p -> tchildren p = [].
Proof. intros p (i & ->). reflexivity. Qed.

Lemma occurs_param : forall p q, is_param q -> occurs p q -> p = q.
Proof.
  intros p q Hq Ho. apply occurs_inv in Ho. destruct Ho as [E|(c & Hin & _)]; [exact E|].
  rewrite (param_leaf q Hq) in Hin. destruct Hin.
Qed.

Record GInv (es toVisit visited ret : list term) : Prop := mkGInv {
  gi_root : forall e, In e es -> In e visited \/ In e toVisit \/ isGround e = true;
  gi_child : forall v c, In v visited -> ~ is_param v -> In c (tchildren v) ->
      In c visited \/ In c toVisit \/ isGround c = true;
  gi_par : forall v, In v visited -> is_param v -> In v ret;
  gi_ret : forall p, In p ret -> is_param p /\ In p visited;
  gi_occ : forall v, In v visited \/ In v toVisit -> exists e, In e es /\ occurs v e;
  gi_nodup : NoDup ret }.

Lemma getVariables_loop_ok : forall es, Forall twf es ->
  forall fuel toVisit visited ret,
  (tsizes toVisit < fuel)%nat -> GInv es toVisit visited ret ->
  exists r, getVariables_loop fuel toVisit visited ret = Ok r /\
    exists visited', GInv es [] visited' r.
Proof.
  intros es Wes fuel. induction fuel as [|n IH]; intros toVisit visited ret Hf G; [lia|].
  cbn [getVariables_loop]. destruct toVisit as [|cur rest].
  { exists ret. split; [reflexivity|]. exists visited. exact G. }
  rewrite tsizes_cons in Hf. pose proof (tsize_pos cur) as Hp.
  assert (Wc : twf cur).
  { destruct (gi_occ _ _ _ _ G cur (or_intror (or_introl eq_refl))) as (e & He & Ho).
    rewrite Forall_forall in Wes. eapply twf_occurs; eauto. }
  destruct (isGround cur) eqn:Hg.
  { apply IH; [lia|]. destruct G as [G1 G2 G3 G4 G5 G6]. constructor; auto.
    - intros e He. destruct (G1 e He) as [H|[[->|H]|H]]; auto.
    - intros v c Hv Hn Hc. destruct (G2 v c Hv Hn Hc) as [H|[[->|H]|H]]; auto.
    - intros v [H|H]; apply G5; [left|right; right]; exact H. }
  destruct (mem_term cur visited) eqn:Hm.
  { apply mem_term_In in Hm. apply IH; [lia|].
    destruct G as [G1 G2 G3 G4 G5 G6]. constructor; auto.
    - intros e He. destruct (G1 e He) as [H|[[<-|H]|H]]; auto.
    - intros v c Hv Hn Hc. destruct (G2 v c Hv Hn Hc) as [H|[[<-|H]|H]]; auto.
    - intros v [H|H]; apply G5; [left|right; right]; exact H. }
  apply mem_term_not_In in Hm.
  destruct (kind_eqb (tkind cur) K_PARAM) eqn:Hk.
  { apply (param_kind cur Wc) in Hk. apply IH; [lia|].
    destruct G as [G1 G2 G3 G4 G5 G6]. constructor.
    - intros e He. destruct (G1 e He) as [H|[[<-|H]|H]]; auto; left; [right|left]; auto.
    - intros v c [<-|Hv] Hn Hc; [contradiction|].
      destruct (G2 v c Hv Hn Hc) as [H|[[<-|H]|H]]; auto; left; [right|left]; auto.
    - intros v [<-|Hv] Hvp; apply in_or_app; [right; left; reflexivity|left; auto].
    - intros p Hin. apply in_app_or in Hin. destruct Hin as [Hin|[<-|[]]].
      + destruct (G4 p Hin) as [A B]. split; [exact A|right; exact B].
      + split; [exact Hk|left; reflexivity].
    - intros v [[<-|Hv]|Hv]; apply G5; [right; left; reflexivity|left; exact Hv|right; right; exact Hv].
    - apply NoDup_rev in G6. rewrite <- (rev_involutive (ret ++ [cur])). apply NoDup_rev.
      rewrite rev_app_distr. cbn [rev app]. constructor; [|exact G6].
      intro X. apply in_rev in X. apply Hm. apply (G4 cur X). }
  assert (Hk' : ~ is_param cur).
  { intro X. apply (param_kind cur Wc) in X. congruence. }
  apply IH.
  { rewrite tsizes_app, tsizes_rev. pose proof (tsize_children cur). lia. }
  destruct G as [G1 G2 G3 G4 G5 G6]. constructor.
  - intros e He. destruct (G1 e He) as [H|[[<-|H]|H]]; auto.
    + left; right; exact H.
    + left; left; reflexivity.
    + right; left. apply in_or_app. right; exact H.
  - intros v c [<-|Hv] Hn Hc.
    + right; left. apply in_or_app; left. apply in_rev in Hc. exact Hc.
    + destruct (G2 v c Hv Hn Hc) as [H|[[<-|H]|H]]; auto.
      * left; right; exact H.
      * left; left; reflexivity.
      * right; left. apply in_or_app. right; exact H.
  - intros v [<-|Hv] Hvp; [contradiction|auto].
  - intros p Hin. destruct (G4 p Hin) as [A B]. split; [exact A|right; exact B].
  - intros v [[<-|Hv]|Hv].
    + apply G5. right; left; reflexivity.
    + apply G5. left; exact Hv.
    + apply in_app_or in Hv. destruct Hv as [Hv|Hv].
      * apply in_rev in Hv. destruct (G5 cur (or_intror (or_introl eq_refl))) as (e & He & Ho).
        exists e. split; [exact He|]. eapply occurs_trans; [|exact Ho]. apply occurs_child; exact Hv.
      * apply G5. right; right; exact Hv.
  - exact G6.
Qed.

Theorem getVariables_spec : forall es, Forall twf es ->
  exists l, getVariables es = Ok l /\ NoDup l /\
    forall p, In p l <-> is_param p /\ exists e, In e es /\ occurs p e.
Proof.
  intros es W. unfold getVariables.
  destruct (getVariables_loop_ok es W (stack_fuel (rev es)) (rev es) [] [])
    as (r & E & v' & G).
  { rewrite stack_fuel_eq. lia. }
  { constructor; try (intros; contradiction).
    - intros e He. right; left. apply in_rev in He. exact He.
    - intros v [[]|Hv]. apply in_rev in Hv. exists v. split; [exact Hv|apply occ_here].
    - constructor. }
  exists r. split; [exact E|]. split; [exact (gi_nodup _ _ _ _ G)|].
  intro p. split.
  - intro Hin. destruct (gi_ret _ _ _ _ G p Hin) as [A B]. split; [exact A|].
    apply (gi_occ _ _ _ _ G). left; exact B.
  - intros (Hp & e & He & Ho).
    assert (We : twf e) by (rewrite Forall_forall in W; auto).
    assert (Hv : In e v').
    { destruct (gi_root _ _ _ _ G e He) as [H|[[]|H]]; [exact H|].
      exfalso. eapply ground_no_param; eauto. }
    apply (gi_par _ _ _ _ G); [|exact Hp]. clear E He.
    induction Ho as [|k cs c Hin Ho IH]; [exact Hv|].
    assert (Wc : twf c) by (eapply twf_child; eauto).
    apply IH; [exact Wc|].
    destruct (gi_child _ _ _ _ G (Node k cs) c Hv) as [H|[[]|H]]; [| |exact H|].
    + intros (i & X). discriminate.
    + exact Hin.
    + exfalso. eapply ground_no_param; eauto.
Qed.

Record HInv (e : term) (vars toVisit visited : list term) : Prop := mkHInv {
  hi_root : In e visited \/ In e toVisit;
  hi_child : forall v c, In v visited -> In c (tchildren v) -> In c visited \/ In c toVisit;
  hi_par : forall v, In v visited -> is_param v -> ~ In v vars;
  hi_occ : forall v, In v toVisit -> occurs v e }.

Lemma hasVariable_loop_ok : forall e vars, twf e ->
  forall fuel toVisit visited,
  (tsizes toVisit < fuel)%nat -> HInv e vars toVisit visited ->
  (exists p, hasVariable_loop fuel false vars toVisit visited = Ok true /\
             In p vars /\ is_param p /\ occurs p e) \/
  (hasVariable_loop fuel false vars toVisit visited = Ok false /\
   exists visited', HInv e vars [] visited').
Proof.
  intros e vars W fuel. induction fuel as [|n IH]; intros toVisit visited Hf G; [lia|].
  cbn [hasVariable_loop]. destruct toVisit as [|cur rest].
  { right. split; [reflexivity|]. exists visited. exact G. }
  rewrite tsizes_cons in Hf. pose proof (tsize_pos cur) as Hp.
  assert (Wc : twf cur).
  { eapply twf_occurs; [exact W|]. apply (hi_occ _ _ _ _ G). left; reflexivity. }
  destruct (mem_term cur visited) eqn:Hm.
  { apply mem_term_In in Hm. apply IH; [lia|].
    destruct G as [G1 G2 G3 G4]. constructor; auto.
    - destruct G1 as [H|[<-|H]]; auto.
    - intros v c Hv Hc. destruct (G2 v c Hv Hc) as [H|[<-|H]]; auto.
    - intros v H; apply G4; right; exact H. }
  destruct (kind_eqb (tkind cur) K_PARAM && mem_term cur vars) eqn:Hk.
  { apply andb_true_iff in Hk. destruct Hk as [Hk Hin]. left. exists cur.
    split; [reflexivity|]. split; [apply mem_term_In; exact Hin|].
    split; [apply param_kind; assumption|]. apply (hi_occ _ _ _ _ G). left; reflexivity. }
  apply IH.
  { rewrite tsizes_app, tsizes_rev. pose proof (tsize_children cur). lia. }
  destruct G as [G1 G2 G3 G4]. constructor.
  - destruct G1 as [H|[<-|H]]; [left; right; exact H|left; left; reflexivity|].
    right. apply in_or_app; right; exact H.
  - intros v c [<-|Hv] Hc.
    + right. apply in_or_app; left. apply in_rev in Hc. exact Hc.
    + destruct (G2 v c Hv Hc) as [H|[<-|H]]; [left; right; exact H|left; left; reflexivity|].
      right. apply in_or_app; right; exact H.
  - intros v [<-|Hv] Hvp; [|auto].
    apply (param_kind cur Wc) in Hvp. rewrite Hvp in Hk. cbn [andb] in Hk.
    apply mem_term_not_In. exact Hk.
  - intros v Hv. apply in_app_or in Hv. destruct Hv as [Hv|Hv].
    + apply in_rev in Hv. eapply occurs_trans; [apply occurs_child; exact Hv|].
      apply G4. left; reflexivity.
    + apply G4. right; exact Hv.
Qed.

Theorem hasVariable_spec : forall e vars, twf e ->
  exists b, hasVariable e vars = Ok b /\
    (b = true <-> exists p, In p vars /\ is_param p /\ occurs p e).
Proof.
  intros e vars W. unfold hasVariable. destruct vars as [|w vars].
  { exists false. split; [reflexivity|]. split; [discriminate|intros (p & [] & _)]. }
  destruct (isGround e) eqn:Hg.
  { exists false. split.
    - rewrite stack_fuel_eq. rewrite tsizes_cons, tsizes_nil. pose proof (tsize_pos e).
      destruct (tsize e) as [|m]; [lia|]. rewrite Nat.add_0_r. reflexivity.
    - split; [discriminate|]. intros (p & _ & Hp & Ho). exfalso.
      eapply ground_no_param; eauto. }
  destruct (hasVariable_loop_ok e (w :: vars) W (stack_fuel [e]) [e] [])
    as [(p & E & Hp)|(E & v' & G)].
  { rewrite stack_fuel_eq. lia. }
  { constructor; try (intros; contradiction).
    - right; left; reflexivity.
    - intros v [<-|[]]. apply occ_here. }
  - exists true. split; [exact E|]. split; [intros _; exists p; exact Hp|reflexivity].
  - exists false. split; [exact E|]. split; [discriminate|].
    intros (p & Hin & Hp & Ho). exfalso.
    assert (Hv : In e v') by (destruct (hi_root _ _ _ _ G) as [H|[]]; exact H).
    apply (hi_par _ _ _ _ G p); [|exact Hp|exact Hin]. 
    assert (HC : forall v, In v v' -> forall q, occurs q v -> In q v').
    { intros v Hvv q Hq. induction Hq as [|k cs c Hinc Hq IH]; [exact Hvv|].
      apply IH. destruct (hi_child _ _ _ _ G (Node k cs) c Hvv Hinc) as [H|[]]. exact H. }
    eapply HC; eauto.
Qed.
