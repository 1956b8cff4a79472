(** Matching of argument lists, selection of the first matching case (C19) and
    groundness of the result (C48). *)
From Coq Require Import ZArith List Bool Lia.
From Verif Require Import Base Kind Literal Term Match SpecTerm TermProofs VarsProofs MatchProofs.
Import ListNotations.

Lemma match_args_total : forall ps xs c, Forall twf ps -> exists r, match_args ps xs c = Ok r.
Proof.
  intro ps. induction ps as [|p ps IH]; intros [|x xs] c W; try (eexists; reflexivity).
  inversion W as [|p' ps' Wp Wps]; subst. cbn [match_args].
  destruct (match_term_total p x c Wp) as ([c'|] & ->); cbn [bind]; [|eexists; reflexivity].
  apply IH; exact Wps.
Qed.

Lemma match_args_sound : forall ps xs c c', Forall twf ps -> length ps = length xs ->
  match_args ps xs c = Ok (Some c') ->
  (forall p v, ctx_find c p = Some v -> ctx_find c' p = Some v) /\
  (forall p v, ctx_find c' p = Some v ->
     ctx_find c p = Some v \/ (is_param p /\ exists q, In q ps /\ occurs p q)) /\
  instance (ctx_find c') ps xs /\ Forall no_any ps.
Proof.
  intro ps. induction ps as [|p ps IH]; intros [|x xs] c c' W Hl E; try discriminate.
  - injection E as <-. split; [auto|]. split; [auto|]. split; [split; [reflexivity|intros q r []]|constructor].
  - inversion W as [|p' ps' Wp Wps]; subst. cbn [match_args] in E.
    destruct (match_term p x c) as [[c1|]| | |] eqn:Em; cbn [bind] in E; try discriminate.
    destruct (match_term_sound p x c c1 Wp Em) as (A1 & A2 & A3 & A4 & A5).
    destruct (IH xs c1 c' Wps ltac:(injection Hl; auto) E) as (B1 & B2 & [B3 B4] & B5).
    split; [auto|]. split; [|split; [split|constructor; assumption]].
    + intros r v Hr. destruct (B2 r v Hr) as [H|(H1 & q & H2 & H3)].
      * destruct (A2 r v H) as [H'|[H1 H2]]; [left; exact H'|].
        right. split; [exact H1|]. exists p. split; [left; reflexivity|exact H2].
      * right. split; [exact H1|]. exists q. split; [right; exact H2|exact H3].
    + cbn [map]. f_equal; [|exact B3]. rewrite <- A3. apply tsubst_ext. intros r Hr Ho.
      destruct (ctx_find c1 r) as [v|] eqn:Ef; [apply B1; exact Ef|].
      exfalso. exact (A4 r Hr Ho Ef).
    + intros q r [<-|Hq] Hr Ho; [|eapply B4; eauto].
      destruct (ctx_find c1 r) as [v|] eqn:Ef; [rewrite (B1 r v Ef); discriminate|].
      exfalso. exact (A4 r Hr Ho Ef).
Qed.

Lemma match_args_complete : forall f ps xs c, Forall twf ps -> Forall no_any ps ->
  (forall p v, ctx_find c p = Some v -> f p = Some v) -> instance f ps xs ->
  exists c', match_args ps xs c = Ok (Some c') /\
    (forall p v, ctx_find c' p = Some v -> f p = Some v).
Proof.
  intros f ps. induction ps as [|p ps IH]; intros xs c W N Hc [Hm Hp].
  - exists c. cbn [match_args]. auto.
  - inversion W as [|p' ps' Wp Wps]; subst. inversion N as [|p' ps' Np Nps]; subst.
    cbn [map match_args].
    destruct (match_term_complete f p (tsubst f p) c Wp Np Hc eq_refl) as (c1 & E1 & H1).
    { intros r Hr Ho. apply (Hp p r); [left; reflexivity|exact Hr|exact Ho]. }
    rewrite E1. cbn [bind]. apply IH; auto. split; [reflexivity|].
    intros q r Hq. apply Hp. right; exact Hq.
Qed.

(** Two instantiations of the same patterns to the same terms agree. *)
Lemma instance_unique : forall f g q, tsubst f q = tsubst g q ->
  forall p, is_param p -> occurs p q -> f p <> None -> g p <> None -> f p = g p.
Proof.
  intros f g q E p Hp Ho. revert E.
  induction Ho as [|k cs c Hin Ho IH]; intros E Hf Hg.
  - rewrite !tsubst_param in E by exact Hp.
    destruct (f p), (g p); congruence.
  - cbn [tsubst] in E. injection E as E. apply IH; auto.
    clear -E Hin. induction cs as [|d cs IHc]; [destruct Hin|]. cbn [map] in E. injection E as E1 E2.
    destruct Hin as [->|Hin]; auto.
Qed.

Theorem match_args_exact : forall ps xs c', Forall twf ps -> length ps = length xs ->
  match_args ps xs [] = Ok (Some c') -> exact_instance (ctx_find c') ps xs.
Proof.
  intros ps xs c' W Hl E. destruct (match_args_sound ps xs [] c' W Hl E) as (_ & B & C & _).
  split; [exact C|]. intros p Hp. destruct (ctx_find c' p) as [v|] eqn:Ef; [|contradiction].
  destruct (B p v Ef) as [X|X]; [discriminate|exact X].
Qed.

Definition arity_ok (args : list term) (cases : list pcase) : Prop :=
  Forall (fun pc => length (fst pc) = length args) cases.
Definition cases_wf (cases : list pcase) : Prop :=
  Forall (fun pc => Forall twf (fst pc) /\ Forall no_any (fst pc)) cases.

Lemma match_cases_spec : forall hd args cases, cases_wf cases -> arity_ok args cases ->
  (exists i ps rhs c, nth_error cases i = Some (ps, rhs) /\
     match_cases (map (case_term hd) cases) (hd :: args) = Ok (Some (rhs, c)) /\
     exact_instance (ctx_find c) ps args /\
     forall j ps' rhs', (j < i)%nat -> nth_error cases j = Some (ps', rhs') ->
       forall f, ~ instance f ps' args) \/
  (match_cases (map (case_term hd) cases) (hd :: args) = Ok None /\
   forall j ps' rhs', nth_error cases j = Some (ps', rhs') -> forall f, ~ instance f ps' args).
Proof.
  intros hd args cases. induction cases as [|[ps rhs] cases IH]; intros W A.
  - right. split; [reflexivity|]. intros [|j]; discriminate.
  - inversion W as [|pc' cs' [Wp Np] Wcs]; subst. inversion A as [|pc' cs' Ap Acs]; subst.
    cbn [fst] in *. cbn [map match_cases case_term fst snd tchildren vec_at nth_error bind length tl].
    rewrite Ap, Nat.eqb_refl. cbn [negb].
    destruct (match_args_total ps args [] Wp) as ([c|] & E); rewrite E; cbn [bind].
    + left. exists O, ps, rhs, c. split; [reflexivity|]. split; [reflexivity|].
      split; [apply match_args_exact; assumption|]. intros j ps' rhs' Hj. lia.
    + assert (Hno : forall f, ~ instance f ps args).
      { intros f Hf. destruct (match_args_complete f ps args [] Wp Np) as (c' & E' & _); auto.
        - discriminate.
        - congruence. }
      destruct (IH Wcs Acs) as [(i & ps1 & rhs1 & c & H1 & H2 & H3 & H4)|[H1 H2]].
      * left. exists (S i), ps1, rhs1, c. split; [exact H1|]. split; [exact H2|]. split; [exact H3|].
        intros [|j] ps' rhs' Hj Hn; [cbn in Hn; injection Hn as <- <-; exact Hno|].
        apply (H4 j ps' rhs'); [lia|exact Hn].
      * right. split; [exact H1|]. intros [|j] ps' rhs' Hn; [cbn in Hn; injection Hn as <- <-; exact Hno|].
        apply (H2 j ps' rhs'); exact Hn.
Qed.

Theorem program_first_case : forall prog hd args cases,
  prog hd = Some (program_term hd cases) -> cases_wf cases -> arity_ok args cases ->
  isGround hd = true -> forallb isGround args = true -> existsb isEvaluatable args = false ->
  (exists i ps rhs c, nth_error cases i = Some (ps, rhs) /\
     evaluateProgramInternal prog (hd :: args) = Ok (Some (rhs, c)) /\
     exact_instance (ctx_find c) ps args /\
     forall j ps' rhs', (j < i)%nat -> nth_error cases j = Some (ps', rhs') ->
       forall f, ~ instance f ps' args) \/
  (evaluateProgramInternal prog (hd :: args) = Ok None /\
   forall j ps' rhs', nth_error cases j = Some (ps', rhs') -> forall f, ~ instance f ps' args).
Proof.
  intros prog hd args cases Hp W A Gh Ga Ea. unfold evaluateProgramInternal.
  cbn [forallb]. rewrite Gh, Ga. cbn [andb negb tl]. rewrite Ea.
  cbn [vec_at nth_error bind]. rewrite Hp. unfold program_term. cbn [tchildren].
  apply match_cases_spec; assumption.
Qed.

Theorem program_stuck_args : forall prog hd args,
  existsb isEvaluatable args = true \/ forallb isGround (hd :: args) = false ->
  evaluateProgramInternal prog (hd :: args) = Ok None.
Proof.
  intros prog hd args H. unfold evaluateProgramInternal.
  destruct (forallb isGround (hd :: args)) eqn:E; [|reflexivity].
  cbn [negb tl]. destruct H as [->|H]; [reflexivity|discriminate].
Qed.

(** * Groundness of the result *)

Lemma typeCheck_bound : forall self pat ret, twf pat -> twf ret ->
  typeCheckProgramPair self pat ret = Ok tt ->
  (forall p, is_param p -> occurs p ret -> p = self \/ occurs p pat) /\
  existsb isEvaluatable (tl (tchildren pat)) = false.
Proof.
  intros self pat ret Wp Wr E. unfold typeCheckProgramPair, ensureBound, findFreeVar in E.
  destruct (getVariables_spec [pat]) as (bvs & E1 & _ & S1); [constructor; auto|].
  destruct (getVariables_spec [ret]) as (efv & E2 & _ & S2); [constructor; auto|].
  rewrite E1, E2 in E. cbn [bind] in E.
  destruct (find _ efv) as [v|] eqn:Ef; [discriminate|]. cbn [bind] in E.
  destruct (existsb isEvaluatable (tl (tchildren pat))) eqn:Ee; [discriminate|].
  split; [|reflexivity]. intros p Hp Ho.
  assert (Hin : In p efv) by (apply S2; split; [exact Hp|]; exists ret; split; [left; reflexivity|exact Ho]).
  pose proof (find_none _ _ Ef p Hin) as X. cbn beta in X.
  apply andb_false_iff in X. destruct X as [X|X]; apply negb_false_iff in X.
  - right. apply mem_term_In in X. apply S1 in X. destruct X as (_ & e & [<-|[]] & X). exact X.
  - left. apply term_eqb_eq in X. exact X.
Qed.

Lemma tsubst_occurs : forall f q p u, is_param p -> occurs p q -> f p = Some u -> occurs u (tsubst f q).
Proof.
  intros f q p u Hp Ho Hf. induction Ho as [|k cs c Hin Ho IH].
  - rewrite tsubst_param by exact Hp. rewrite Hf. apply occ_here.
  - cbn [tsubst]. eapply occ_child; [|exact IH]. apply in_map; exact Hin.
Qed.

Lemma nonGround_tsubst : forall f t,
  (forall p, is_param p -> occurs p t -> exists u, f p = Some u /\ nonGround u = false) ->
  no_any t -> twf t -> nonGround (tsubst f t) = false.
Proof.
  intros f t. induction t as [k i|l|k cs IH] using term_ind2; intros H N W.
  - destruct (kind_eq_dec k K_PARAM) as [->|Hk].
    + destruct (H (Sym K_PARAM i)) as (u & Hu & Hg); [exists i; reflexivity|apply occ_here|].
      cbn [tsubst]. rewrite Hu. exact Hg.
    + assert (E : tsubst f (Sym k i) = Sym k i) by (destruct k; try reflexivity; contradiction).
      rewrite E. cbn [nonGround]. unfold leaf_nonground. apply orb_false_iff.
      split; apply kind_eqb_neq; [exact Hk|]. intros ->. inversion W; discriminate.
  - cbn [tsubst nonGround]. apply lit_leaf.
  - cbn [tsubst]. destruct cs as [|c cs].
    + cbn [map nonGround]. unfold leaf_nonground. apply orb_false_iff.
      split; apply kind_eqb_neq; intros ->.
      * inversion W; discriminate.
      * apply (N (Node K_ANY [])); [apply occ_here|reflexivity].
    + rewrite nonGround_node by discriminate. cbn [tchildren].
      destruct (existsb nonGround (map (tsubst f) (c :: cs))) eqn:E; [|reflexivity].
      apply existsb_exists in E. destruct E as (d & Hd & Hg). apply in_map_iff in Hd.
      destruct Hd as (x & <- & Hx). rewrite Forall_forall in IH.
      rewrite (IH x Hx) in Hg; [discriminate| | |].
      * intros p Hp Ho. apply H; [exact Hp|]. eapply occ_child; eauto.
      * intros s Ho. apply N. eapply occ_child; eauto.
      * eapply twf_child; [exact W|exact Hx].
Qed.

Lemma nonGround_occurs : forall u t, occurs u t -> nonGround t = false -> nonGround u = false.
Proof.
  intros u t Ho. induction Ho as [|k cs c Hin Ho IH]; intro H; [exact H|].
  apply IH. rewrite nonGround_node in H by (cbn; destruct cs; [destruct Hin|discriminate]).
  cbn [tchildren] in H. destruct (nonGround c) eqn:E; [|reflexivity].
  assert (existsb nonGround cs = true) by (apply existsb_exists; exists c; auto). congruence.
Qed.

(** If a case was accepted, the right hand side of a successful call is ground
    after substitution. *)
Theorem accepted_case_ground : forall self hd ps rhs args c,
  twf (Node K_APPLY (hd :: ps)) -> twf rhs -> no_any rhs -> ~ occurs self rhs ->
  isGround hd = true ->
  typeCheckProgramPair self (Node K_APPLY (hd :: ps)) rhs = Ok tt ->
  length ps = length args -> forallb isGround args = true ->
  match_args ps args [] = Ok (Some c) ->
  isGround (tsubst (ctx_find c) rhs) = true.
Proof.
  intros self hd ps rhs args c Wp Wr Na Ns Gh Et Hl Ga Em.
  destruct (typeCheck_bound _ _ _ Wp Wr Et) as [Hb _].
  assert (Wps : Forall twf ps).
  { apply Forall_forall. intros q Hq. eapply twf_child; [exact Wp|]. right; exact Hq. }
  assert (Wh : twf hd) by (eapply twf_child; [exact Wp|left; reflexivity]).
  destruct (match_args_sound ps args [] c Wps Hl Em) as (_ & _ & [Hi1 Hi2] & _).
  unfold isGround. apply negb_true_iff. apply nonGround_tsubst; [|exact Na|exact Wr].
  intros p Hp Ho. destruct (Hb p Hp Ho) as [->|Hop]; [contradiction|].
  apply occurs_inv in Hop. destruct Hop as [->|(q & [<-|Hq] & Hop)].
  - destruct Hp as (i & X); discriminate.
  - exfalso. eapply ground_no_param; eauto.
  - destruct (ctx_find c p) as [u|] eqn:Ef; [|exfalso; exact (Hi2 q p Hq Hp Hop Ef)].
    exists u. split; [reflexivity|].
    assert (Hin : In (tsubst (ctx_find c) q) args).
    { rewrite <- Hi1. apply in_map; exact Hq. }
    eapply nonGround_occurs; [eapply tsubst_occurs; eauto|].
    rewrite forallb_forall in Ga. apply Ga in Hin. apply negb_true_iff in Hin. exact Hin.
Qed.

Theorem typeCheck_exact : forall self pat ret, twf pat -> twf ret ->
  (typeCheckProgramPair self pat ret = Ok tt \/ typeCheckProgramPair self pat ret = Err) /\
  (typeCheckProgramPair self pat ret = Ok tt <->
   (forall p, is_param p -> occurs p ret -> p = self \/ occurs p pat) /\
   (forall a u, In a (tl (tchildren pat)) -> occurs u a -> ~ computes u)).
Proof.
  intros self pat ret Wp Wr.
  assert (Wc : forall a, In a (tl (tchildren pat)) -> twf a).
  { intros a Ha. destruct pat as [k i|l|k cs]; try destruct Ha. cbn in Ha.
    eapply twf_child; [exact Wp|]. destruct cs; [destruct Ha|right; exact Ha]. }
  assert (EV : existsb isEvaluatable (tl (tchildren pat)) = false <->
     forall a u, In a (tl (tchildren pat)) -> occurs u a -> ~ computes u).
  { split.
    - intros E a u Ha Ho Hc.
      assert (X : existsb isEvaluatable (tl (tchildren pat)) = true)
        by (apply existsb_exists; exists a; split; [exact Ha|apply isEvaluatable_spec; [auto|exists u; auto]]).
      congruence.
    - intro H. destruct (existsb _ _) eqn:E; [|reflexivity]. apply existsb_exists in E.
      destruct E as (a & Ha & E). apply isEvaluatable_spec in E; [|auto].
      destruct E as (u & Ho & Hc). exfalso. exact (H a u Ha Ho Hc). }
  split.
  - unfold typeCheckProgramPair, ensureBound, findFreeVar.
    destruct (getVariables_spec [pat]) as (bvs & E1 & _); [constructor; auto|].
    destruct (getVariables_spec [ret]) as (efv & E2 & _); [constructor; auto|].
    rewrite E1, E2. cbn [bind]. destruct (find _ efv); cbn [bind]; auto.
    destruct (existsb _ _); auto.
  - split.
    + intro E. destruct (typeCheck_bound self pat ret Wp Wr E) as [H1 H2]. split; [exact H1|].
      apply EV; exact H2.
    + intros [H1 H2]. apply EV in H2. unfold typeCheckProgramPair, ensureBound, findFreeVar.
      destruct (getVariables_spec [pat]) as (bvs & E1 & _ & S1); [constructor; auto|].
      destruct (getVariables_spec [ret]) as (efv & E2 & _ & S2); [constructor; auto|].
      rewrite E1, E2. cbn [bind]. destruct (find _ efv) as [v|] eqn:Ef; cbn [bind].
      * exfalso. apply find_some in Ef. destruct Ef as [Hin X]. apply S2 in Hin.
        destruct Hin as (Hp & e & [<-|[]] & Ho). apply andb_true_iff in X. destruct X as [X Y].
        apply negb_true_iff in X. apply negb_true_iff in Y.
        destruct (H1 v Hp Ho) as [->|Ho'].
        -- rewrite (proj2 (term_eqb_eq self self) eq_refl) in Y. discriminate.
        -- assert (Z : mem_term v bvs = true).
           { apply mem_term_In. apply S1. split; [exact Hp|]. exists pat. split; [left; reflexivity|exact Ho']. }
           congruence.
      * rewrite H2. reflexivity.
Qed.
