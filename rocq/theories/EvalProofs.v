(** The evaluator computes the relation [ev] (C20-C22). *)
From Coq Require Import ZArith List Bool Lia.
From Verif Require Import Base Kind Literal Term Match Eval SpecTerm SpecEval TermProofs
  VarsProofs MatchProofs ProgProofs.
Import ListNotations.

(** * Closed and inert terms *)

Lemma ground_closed : forall t, twf t -> (isGround t = true <-> closed t).
Proof.
  intros t W. unfold isGround. rewrite negb_true_iff. split.
  - intros G u Ho. split; intro H.
    + assert (X : nonGround t = true) by (apply nonGround_spec; [exact W|exists u; auto]). congruence.
    + assert (X : nonGround t = true) by (apply nonGround_spec; [exact W|exists u; auto]). congruence.
  - intro C. destruct (nonGround t) eqn:E; [|reflexivity].
    apply nonGround_spec in E; [|exact W]. destruct E as (u & Ho & [H|H]); destruct (C u Ho); contradiction.
Qed.
Lemma eval_inert : forall t, twf t -> (isEvaluatable t = false <-> inert t).
Proof.
  intros t W. split.
  - intros G u Ho Hc.
    assert (X : isEvaluatable t = true) by (apply isEvaluatable_spec; [exact W|exists u; auto]). congruence.
  - intro C. destruct (isEvaluatable t) eqn:E; [|reflexivity].
    apply isEvaluatable_spec in E; [|exact W]. destruct E as (u & Ho & H). exfalso. exact (C u Ho H).
Qed.
Lemma inert_child : forall t c, inert t -> In c (tchildren t) -> inert c.
Proof.
  intros t c H Hc u Ho. apply H. eapply occurs_trans; [exact Ho|]. apply occurs_child; exact Hc.
Qed.
Lemma closed_child : forall t c, closed t -> In c (tchildren t) -> closed c.
Proof.
  intros t c H Hc u Ho. apply H. eapply occurs_trans; [exact Ho|]. apply occurs_child; exact Hc.
Qed.
Lemma ctx_empty_find : forall c, empty_sub (ctx_find c) <-> c = [].
Proof.
  intros [|[p v] c]; split; intro H; try discriminate; [reflexivity|intro p; reflexivity|].
  specialize (H p). cbn in H. rewrite term_eqb_refl in H. discriminate.
Qed.

(** * Maps *)

Lemma vfind_cons : forall u v m t,
  vfind ((u, v) :: m) t = if term_eqb u t then Some v else vfind m t.
Proof. reflexivity. Qed.
Lemma vfind_same : forall u v m, vfind ((u, v) :: m) u = Some v.
Proof. intros. rewrite vfind_cons, term_eqb_refl. reflexivity. Qed.
Lemma vfind_other : forall u v m t, u <> t -> vfind ((u, v) :: m) t = vfind m t.
Proof. intros u v m t H. rewrite vfind_cons. apply term_eqb_neq in H. rewrite H. reflexivity. Qed.
Lemma path_eqb_eq : forall a b, path_eqb a b = true <-> a = b.
Proof.
  intro a. induction a as [|x a IH]; intros [|y b]; cbn; split; intro H; try congruence; try reflexivity.
  - apply andb_true_iff in H. destruct H as [H1 H2]. apply term_eqb_eq in H1. apply IH in H2. congruence.
  - injection H as -> ->. rewrite term_eqb_refl. apply IH. reflexivity.
Qed.
Lemma tr_find_cons : forall k v m t,
  tr_find ((k, v) :: m) t = if path_eqb k t then Some v else tr_find m t.
Proof. reflexivity. Qed.

Definition done (m : vmap) (c : term) : Prop := exists v, vfind m c = Some (Some v).

Lemma collect_done : forall m cs, (forall c, In c cs -> done m c) ->
  exists vs, collect m cs = Ok (map Some vs) /\
    Forall2 (fun c v => vfind m c = Some (Some v)) cs vs.
Proof.
  intros m cs. induction cs as [|c cs IH]; intro H.
  - exists []. split; [reflexivity|constructor].
  - destruct (H c (or_introl eq_refl)) as (v & Hv).
    destruct IH as (vs & E & F); [intros d Hd; apply H; right; exact Hd|].
    exists (v :: vs). cbn [collect]. rewrite Hv, E. split; [reflexivity|constructor; assumption].
Qed.
Lemma all_present_some : forall vs, all_present (map Some vs) = Ok vs.
Proof. intro vs. induction vs as [|v vs IH]; [reflexivity|]. cbn [map all_present]. rewrite IH. reflexivity. Qed.

Section Proofs.
Variable lop : kind -> list term -> res (option term).
Variable progs : term -> option (list pcase).
Variable prog : term -> option term.
Variable stop : term -> sub -> Prop.
Hypothesis Hstop : forall b f g, (forall p, f p = g p) -> stop b f -> stop b g.
Hypothesis Hlop : lop_wf lop.
Hypothesis Hprogs : progs_wf progs.
Hypothesis Hprog : forall hd, prog hd = option_map (program_term hd) (progs hd).

Notation ev := (ev lop progs stop).
Notation evs := (evs lop progs stop).
Notation calls := (calls progs).

Scheme ev_mind := Induction for SpecEval.ev Sort Prop
  with evs_mind := Induction for SpecEval.evs Sort Prop.
Combined Scheme ev_evs_ind from ev_mind, evs_mind.

(** * Calls *)

Lemma any_subst : forall f q u, is_any u -> occurs u q -> occurs u (tsubst f q).
Proof.
  intros f q u A O. induction O as [|k cs c Hin O IH].
  - unfold is_any in A. subst u. apply occ_here.
  - cbn [tsubst]. eapply occ_child; [|exact IH]. apply in_map. exact Hin.
Qed.
Lemma instance_plain : forall f ps xs, Forall closed xs -> instance f ps xs -> Forall no_any ps.
Proof.
  intros f ps xs C [M _]. rewrite Forall_forall in *. intros q Hq u O A.
  assert (I : In (tsubst f q) xs) by (rewrite <- M; apply in_map; exact Hq).
  destruct (C _ I u (any_subst f q u A O)) as [_ X]. exact (X A).
Qed.

Lemma selects_exec : forall hd args cases, Forall closed args ->
  Forall (fun pc => Forall twf (fst pc) /\ twf (snd pc)) cases ->
  exists r, match_cases (map (case_term hd) cases) (hd :: args) = Ok r /\
    match r with
    | None => selects args cases None
    | Some (b, c) => selects args cases (Some (b, ctx_find c))
    end.
Proof.
  intros hd args cases CA. induction cases as [|[ps rhs] cases IH]; intro W.
  - exists None. split; [reflexivity|constructor].
  - inversion W as [|pc cs (Wp & Wr) Wcs]; subst. cbn [fst snd] in *.
    cbn [map match_cases case_term fst snd tchildren vec_at nth_error bind length tl].
    destruct (Nat.eqb (S (length args)) (S (length ps))) eqn:El; cbn [negb].
    + apply Nat.eqb_eq in El. injection El as El.
      destruct (match_args_total ps args [] Wp) as ([c|] & E); rewrite E; cbn [bind].
      * exists (Some (rhs, c)). split; [reflexivity|]. apply sel_hit.
        apply match_args_exact; auto.
      * destruct (IH Wcs) as (r & E' & H). exists r. split; [exact E'|].
        assert (Hno : forall f, ~ instance f ps args).
        { intros f Hf. destruct (match_args_complete f ps args [] Wp (instance_plain f ps args CA Hf)) as (c' & E2 & _); auto.
          - discriminate.
          - congruence. }
        destruct r as [[b c]|]; (apply sel_next; [auto|exact Hno|exact H]).
    + apply Nat.eqb_neq in El. exists None. split; [reflexivity|]. apply sel_arity. congruence.
Qed.

Lemma program_ground : forall hd, is_program hd -> isGround hd = true.
Proof. intros hd (i & ->). reflexivity. Qed.

Lemma calls_exec : forall hd args, is_program hd -> Forall twf args ->
  exists r, evaluateProgramInternal prog (hd :: args) = Ok r /\
    match r with
    | None => calls hd args None
    | Some (b, c) => calls hd args (Some (b, ctx_find c))
    end.
Proof.
  intros hd args Hh Wa. unfold evaluateProgramInternal. cbn [forallb tl].
  rewrite (program_ground hd Hh). cbn [andb].
  destruct (forallb isGround args) eqn:G; cbn [negb].
  2:{ exists None. split; [reflexivity|]. apply call_stuck. intros [C _].
      rewrite Forall_forall in C, Wa.
      assert (X : forallb isGround args = true).
      { apply forallb_forall. intros x Hx. apply ground_closed; auto. }
      congruence. }
  destruct (existsb isEvaluatable args) eqn:E.
  { exists None. split; [reflexivity|]. apply call_stuck. intros [_ C].
    apply existsb_exists in E. destruct E as (x & Hx & E). rewrite Forall_forall in C, Wa.
    apply C in Hx as Hi. apply eval_inert in Hi; [congruence|auto]. }
  assert (C : Forall closed args).
  { rewrite Forall_forall in *. rewrite forallb_forall in G. intros x Hx. apply ground_closed; auto. }
  assert (I : Forall inert args).
  { rewrite Forall_forall in *. intros x Hx. apply eval_inert; [auto|].
    destruct (isEvaluatable x) eqn:Ex; [|reflexivity].
    assert (existsb isEvaluatable args = true) by (apply existsb_exists; exists x; auto). congruence. }
  cbn [vec_at nth_error bind]. rewrite Hprog. destruct (progs hd) as [cases|] eqn:Ep; cbn [option_map].
  - unfold program_term. cbn [tchildren].
    destruct (selects_exec hd args cases C (Hprogs hd cases Ep)) as (r & Er & H).
    exists r. split; [exact Er|]. destruct r as [[b c]|]; (eapply call_case; eauto).
  - exists None. split; [reflexivity|]. apply call_undefined; auto.
Qed.

(** Two results of a call or a selection agree. *)
Definition agree (a b : option (term * sub)) : Prop :=
  match a, b with
  | None, None => True
  | Some (x, f), Some (y, g) => x = y /\ forall p, f p = g p
  | _, _ => False
  end.

Lemma param_dec : forall p, is_param p \/ ~ is_param p.
Proof.
  intros [k i|l|k cs]; try (right; intros (j & E); discriminate).
  destruct (kind_eqb k K_PARAM) eqn:E.
  - apply kind_eqb_eq in E. subst. left. exists i. reflexivity.
  - right. intros (j & X). injection X as -> ->. discriminate.
Qed.

Lemma exact_unique : forall f g ps args, exact_instance f ps args -> exact_instance g ps args ->
  forall p, f p = g p.
Proof.
  intros f g ps args [[F1 F2] F3] [[G1 G2] G3] p.
  assert (K : forall q, In q ps -> tsubst f q = tsubst g q).
  { intros q Hq. rewrite <- G1 in F1. clear -F1 Hq. induction ps as [|x ps IH]; [destruct Hq|].
    cbn in F1. injection F1 as E1 E2. destruct Hq as [->|Hq]; auto. }
  destruct (f p) as [v|] eqn:Ef.
  - destruct (F3 p ltac:(congruence)) as [Hp (q & Hq & Ho)].
    pose proof (instance_unique f g q (K q Hq) p Hp Ho ltac:(congruence) (G2 q p Hq Hp Ho)). congruence.
  - destruct (g p) as [v|] eqn:Eg; [|reflexivity].
    destruct (G3 p ltac:(congruence)) as [Hp (q & Hq & Ho)]. exfalso. exact (F2 q p Hq Hp Ho Ef).
Qed.
Lemma instance_length : forall f ps args, instance f ps args -> length ps = length args.
Proof. intros f ps args [H _]. rewrite <- H. symmetry. apply map_length. Qed.

Lemma selects_det : forall args cases a b, selects args cases a -> selects args cases b -> agree a b.
Proof.
  intros args cases a b H. revert b. induction H as [|ps rhs cases Hl|ps rhs cases f Hf|ps rhs cases r Hl Hn Hs IH];
    intros b Hb; inversion Hb; subst; cbn; auto; try congruence;
    try (match goal with
         | X : exact_instance _ ?ps ?args, Y : length ?ps <> length ?args |- _ =>
             exfalso; apply Y; eapply instance_length; exact (proj1 X)
         | X : exact_instance ?f ?ps ?args, Y : forall f, ~ instance f ?ps ?args |- _ =>
             exfalso; exact (Y f (proj1 X))
         end).
  split; [reflexivity|]. eapply exact_unique; eauto.
Qed.
Lemma calls_det : forall hd args a b, calls hd args a -> calls hd args b -> agree a b.
Proof.
  intros hd args a b H1 H2. inversion H1; subst; inversion H2; subst; cbn; auto; try tauto; try congruence.
  assert (cases = cases0) by congruence. subst. eapply selects_det; eauto.
Qed.

Lemma selects_wf : forall args cases b f, Forall twf args ->
  Forall (fun pc => Forall twf (fst pc) /\ twf (snd pc)) cases ->
  selects args cases (Some (b, f)) -> twf b /\ sub_wf f.
Proof.
  intros args cases b f Wa W H. remember (Some (b, f)) as r eqn:Er. revert Er.
  induction H as [|ps rhs cases Hl|ps rhs cases g Hg|ps rhs cases r Hl Hn Hs IH]; intro Er; try discriminate.
  - injection Er as -> ->. inversion W as [|x y (_ & Wr) _]; subst. split; [exact Wr|].
    intros p v Hp. destruct Hg as [[G1 G2] G3]. destruct (G3 p ltac:(congruence)) as [Hpp (q & Hq & Ho)].
    assert (Hin : In (tsubst f q) args) by (rewrite <- G1; apply in_map; exact Hq).
    rewrite Forall_forall in Wa. apply Wa in Hin. eapply twf_occurs; [exact Hin|].
    eapply tsubst_occurs; eauto.
  - inversion W; subst. auto.
Qed.
Lemma calls_wf : forall hd args b f, Forall twf args -> calls hd args (Some (b, f)) -> twf b /\ sub_wf f.
Proof.
  intros hd args b f Wa H. inversion H; subst.
  eapply selects_wf; [exact Wa|eapply Hprogs; eassumption|eassumption].
Qed.

(** * The relation [ev] *)

Lemma ev_evs_ext :
  (forall s t r, ev s t r -> forall s', (forall p, s p = s' p) -> ev s' t r) /\
  (forall s cs ds, evs s cs ds -> forall s', (forall p, s p = s' p) -> evs s' cs ds).
Proof.
  apply ev_evs_ind; intros; try (econstructor; eauto; fail).
  rewrite H. apply SpecEval.ev_param.
Qed.
Lemma ev_ext : forall s s' t r, (forall p, s p = s' p) -> ev s t r -> ev s' t r.
Proof. intros s s' t r H E. eapply (proj1 ev_evs_ext); eauto. Qed.

Lemma app_not_op : forall k, is_application k -> isLiteralOp k = false.
Proof. intros k [->| ->]; reflexivity. Qed.

Lemma evs_nil_inv : forall s ds, evs s [] ds -> ds = [].
Proof. intros s ds H. inversion H. reflexivity. Qed.

Ltac ite_app H := destruct H as [H|H]; discriminate H.

Lemma ev_evs_det :
  (forall s t r, ev s t r -> forall r', ev s t r' -> r = r') /\
  (forall s cs ds, evs s cs ds -> forall ds', evs s cs ds' -> ds = ds').
Proof.
  apply ev_evs_ind.
  - intros s i r' H. inversion H; subst; try reflexivity. exfalso. apply H1. exists i. reflexivity.
  - intros s t Hc Hp r' H. inversion H; subst; try reflexivity; cbn in Hc; try discriminate; subst;
      try congruence; try (exfalso; apply Hp; eexists; reflexivity);
      match goal with X : SpecEval.evs _ _ _ _ [] (_ :: _) |- _ => inversion X end.
  - intros s cs Hl r' H. inversion H; subst; try reflexivity; cbn in Hl; try congruence;
      try (match goal with X : is_application _ |- _ => ite_app X end).
    match goal with X : isLiteralOp _ = false |- _ => discriminate X end.
  - intros s c a b r H1 IH1 H2 IH2 r' H. inversion H; subst; auto;
      try (match goal with X : is_application _ |- _ => ite_app X end); try discriminate; try congruence.
    + exfalso. apply H4. reflexivity.
    + match goal with X : ev s c (Lit (LBool false)) |- _ => apply IH1 in X; discriminate end.
    + exfalso. match goal with X : ev s c ?c', Y : ~ is_bool ?c' |- _ => apply IH1 in X; subst; apply Y; exists true; reflexivity end.
  - intros s c a b r H1 IH1 H2 IH2 r' H. inversion H; subst; auto;
      try (match goal with X : is_application _ |- _ => ite_app X end); try discriminate; try congruence.
    + exfalso. apply H4. reflexivity.
    + match goal with X : ev s c (Lit (LBool true)) |- _ => apply IH1 in X; discriminate end.
    + exfalso. match goal with X : ev s c ?c', Y : ~ is_bool ?c' |- _ => apply IH1 in X; subst; apply Y; exists false; reflexivity end.
  - intros s c a b c' a' b' H1 IH1 Hn H2 IH2 H3 IH3 r' H. inversion H; subst; auto;
      try (match goal with X : is_application _ |- _ => ite_app X end); try discriminate; try congruence.
    + exfalso. apply H5. reflexivity.
    + exfalso. apply Hn. match goal with X : ev s c (Lit _) |- _ => apply IH1 in X; rewrite X end. eexists; reflexivity.
    + exfalso. apply Hn. match goal with X : ev s c (Lit _) |- _ => apply IH1 in X; rewrite X end. eexists; reflexivity.
    + repeat match goal with X : ev s c ?x |- _ => apply IH1 in X | X : ev s a ?x |- _ => apply IH2 in X
        | X : ev s b ?x |- _ => apply IH3 in X end; subst; reflexivity.
  - intros s k cs hd args body f r Ha H1 IH1 Hh Hc Hn H2 IH2 r' H.
    pose proof (app_not_op k Ha) as Hop.
    inversion H; subst; try (ite_app Ha); try congruence; try contradiction.
    + exfalso. match goal with X : tchildren _ = [] |- _ => cbn in X; subst end. inversion H1.
    + match goal with X : SpecEval.evs _ _ _ s cs _ |- _ => apply IH1 in X; injection X as <- <- end.
      match goal with X : SpecEval.calls _ _ _ (Some (body0, f0)) |- _ => pose proof (calls_det _ _ _ _ Hc X) as [<- Hf] end.
      apply IH2. eapply ev_ext; [|eassumption]. intro p. symmetry. apply Hf.
    + match goal with X : SpecEval.evs _ _ _ s cs _ |- _ => apply IH1 in X; injection X as <- <- end.
      exfalso. apply Hn.
      match goal with X : SpecEval.calls _ _ _ (Some (r', f0)) |- _ => pose proof (calls_det _ _ _ _ Hc X) as [<- Hf] end.
      eapply Hstop; [|eassumption]. intro p. symmetry. apply Hf.
    + match goal with X : SpecEval.evs _ _ _ s cs _ |- _ => apply IH1 in X; injection X as <- <- end.
      match goal with X : SpecEval.calls _ _ _ None |- _ => destruct (calls_det _ _ _ _ Hc X) end.
    + match goal with X : SpecEval.evs _ _ _ s cs _ |- _ => apply IH1 in X; injection X as <- <- end. contradiction.
  - intros s k cs hd args body f Ha H1 IH1 Hh Hc Hn r' H.
    pose proof (app_not_op k Ha) as Hop.
    inversion H; subst; try (ite_app Ha); try congruence; try contradiction.
    + exfalso. match goal with X : tchildren _ = [] |- _ => cbn in X; subst end. inversion H1.
    + match goal with X : SpecEval.evs _ _ _ s cs _ |- _ => apply IH1 in X; injection X as <- <- end.
      match goal with X : SpecEval.calls _ _ _ (Some (body0, f0)) |- _ => pose proof (calls_det _ _ _ _ Hc X) as [<- Hf] end.
      exfalso. match goal with X : ~ stop _ _ |- _ => apply X end.
      eapply Hstop; [exact Hf|exact Hn].
    + match goal with X : SpecEval.evs _ _ _ s cs _ |- _ => apply IH1 in X; injection X as <- <- end.
      match goal with X : SpecEval.calls _ _ _ (Some (r', f0)) |- _ => pose proof (calls_det _ _ _ _ Hc X) as [<- Hf] end.
      reflexivity.
    + match goal with X : SpecEval.evs _ _ _ s cs _ |- _ => apply IH1 in X; injection X as <- <- end.
      match goal with X : SpecEval.calls _ _ _ None |- _ => destruct (calls_det _ _ _ _ Hc X) end.
    + match goal with X : SpecEval.evs _ _ _ s cs _ |- _ => apply IH1 in X; injection X as <- <- end. contradiction.
  - intros s k cs hd args Ha H1 IH1 Hh Hc r' H.
    pose proof (app_not_op k Ha) as Hop.
    inversion H; subst; try (ite_app Ha); try congruence; try contradiction.
    + exfalso. match goal with X : tchildren _ = [] |- _ => cbn in X; subst end. inversion H1.
    + match goal with X : SpecEval.evs _ _ _ s cs _ |- _ => apply IH1 in X; injection X as <- <- end.
      match goal with X : SpecEval.calls _ _ _ (Some _) |- _ => destruct (calls_det _ _ _ _ Hc X) end.
    + match goal with X : SpecEval.evs _ _ _ s cs _ |- _ => apply IH1 in X; injection X as <- <- end.
      match goal with X : SpecEval.calls _ _ _ (Some _) |- _ => destruct (calls_det _ _ _ _ Hc X) end.
    + match goal with X : SpecEval.evs _ _ _ s cs _ |- _ => apply IH1 in X; injection X as <- <- end. reflexivity.
    + match goal with X : SpecEval.evs _ _ _ s cs _ |- _ => apply IH1 in X; injection X as <- <- end. reflexivity.
  - intros s k cs hd args Ha H1 IH1 Hh r' H.
    pose proof (app_not_op k Ha) as Hop.
    inversion H; subst; try (ite_app Ha); try congruence; try contradiction.
    + exfalso. match goal with X : tchildren _ = [] |- _ => cbn in X; subst end. inversion H1.
    + match goal with X : SpecEval.evs _ _ _ s cs _ |- _ => apply IH1 in X; injection X as <- <- end. contradiction.
    + match goal with X : SpecEval.evs _ _ _ s cs _ |- _ => apply IH1 in X; injection X as <- <- end. contradiction.
    + match goal with X : SpecEval.evs _ _ _ s cs _ |- _ => apply IH1 in X; injection X as <- <- end. reflexivity.
    + match goal with X : SpecEval.evs _ _ _ s cs _ |- _ => apply IH1 in X; injection X as <- <- end. reflexivity.
  - intros s k cs ds r Ho Hk Hne H1 IH1 El r' H. inversion H; subst; try congruence; try contradiction;
      try (match goal with X : is_application k |- _ => apply app_not_op in X; congruence end).
    + match goal with X : SpecEval.evs _ _ _ s cs _ |- _ => apply IH1 in X; subst end. congruence.
    + match goal with X : SpecEval.evs _ _ _ s cs _ |- _ => apply IH1 in X; subst end. congruence.
  - intros s k cs ds Ho Hk Hne H1 IH1 El r' H. inversion H; subst; try congruence; try contradiction;
      try (match goal with X : is_application k |- _ => apply app_not_op in X; congruence end).
    + match goal with X : SpecEval.evs _ _ _ s cs _ |- _ => apply IH1 in X; subst end. congruence.
    + match goal with X : SpecEval.evs _ _ _ s cs _ |- _ => apply IH1 in X; subst end. reflexivity.
  - intros s k cs ds Ho Ha Hne H1 IH1 r' H. inversion H; subst; try congruence; try contradiction; try discriminate.
    match goal with X : SpecEval.evs _ _ _ s cs _ |- _ => apply IH1 in X; subst end. reflexivity.
  - intros s ds' H. inversion H. reflexivity.
  - intros s c cs d ds H1 IH1 H2 IH2 ds' H. inversion H; subst. f_equal; auto.
Qed.
Lemma ev_det : forall s t r r', ev s t r -> ev s t r' -> r = r'.
Proof. intros s t r r' H1 H2. eapply (proj1 ev_evs_det); eauto. Qed.

Lemma ev_evs_wf :
  (forall s t r, ev s t r -> twf t -> sub_wf s -> twf r) /\
  (forall s cs ds, evs s cs ds -> Forall twf cs -> sub_wf s -> Forall twf ds).
Proof.
  assert (N : forall k cs, twf (Node k cs) -> isSymbol k = false /\ isLiteral k = false /\ Forall twf cs).
  { intros k cs W. inversion W. auto. }
  apply ev_evs_ind.
  - intros s i W Hs. destruct (s (Sym K_PARAM i)) eqn:E; [eapply Hs; eauto|exact W].
  - auto.
  - auto.
  - intros s c a b r _ _ _ IH W Hs. apply N in W. destruct W as (_ & _ & W).
    inversion W as [|x y W1 W2]; subst. inversion W2; subst. auto.
  - intros s c a b r _ _ _ IH W Hs. apply N in W. destruct W as (_ & _ & W).
    inversion W as [|x y W1 W2]; subst. inversion W2 as [|x y W3 W4]; subst. inversion W4; subst. auto.
  - intros s c a b c' a' b' _ IH1 _ _ IH2 _ IH3 W Hs. apply N in W. destruct W as (W0 & W0' & W).
    inversion W as [|x y W1 W2]; subst. inversion W2 as [|x y W3 W4]; subst. inversion W4; subst.
    constructor; auto.
  - intros s k cs hd args body f r Ha _ IH1 Hh Hc _ _ IH2 W Hs. apply N in W. destruct W as (W0 & W0' & W).
    specialize (IH1 W Hs). inversion IH1; subst.
    destruct (calls_wf hd args body f) as [X Y]; auto.
  - intros s k cs hd args body f Ha _ IH1 Hh Hc _ W Hs. apply N in W. destruct W as (W0 & W0' & W).
    specialize (IH1 W Hs). inversion IH1; subst.
    destruct (calls_wf hd args body f) as [X Y]; auto.
  - intros s k cs hd args Ha _ IH1 Hh Hc W Hs. apply N in W. destruct W as (W0 & W0' & W). constructor; auto.
  - intros s k cs hd args Ha _ IH1 Hh W Hs. apply N in W. destruct W as (W0 & W0' & W). constructor; auto.
  - intros s k cs ds r Ho Hk Hne _ IH1 El W Hs. apply N in W. destruct W as (W0 & W0' & W).
    exact (Hlop k ds r (IH1 W Hs) El).
  - intros s k cs ds Ho Hk Hne _ IH1 El W Hs. apply N in W. destruct W as (W0 & W0' & W). constructor; auto.
  - intros s k cs ds Ho Hk Hne _ IH1 W Hs. apply N in W. destruct W as (W0 & W0' & W). constructor; auto.
  - constructor.
  - intros s c cs d ds _ IH1 _ IH2 W Hs. inversion W; subst. constructor; auto.
Qed.
Lemma ev_wf : forall s t r, ev s t r -> twf t -> sub_wf s -> twf r.
Proof. exact (proj1 ev_evs_wf). Qed.

(** Terms with nothing to do evaluate to themselves. *)
Lemma ev_static : forall s t, twf t -> inert t -> closed t \/ empty_sub s -> ev s t t.
Proof.
  intros s t. induction t as [k i|l|k cs IH] using term_ind2; intros W I C.
  - destruct (param_dec (Sym k i)) as [Hp|Hp].
    + destruct Hp as (j & E). injection E as -> ->.
      destruct C as [C|C].
      * destruct (C (Sym K_PARAM j) (occ_here _)) as [X _]. exfalso. apply X. exists j. reflexivity.
      * pose proof (SpecEval.ev_param lop progs stop s j) as X. rewrite (C (Sym K_PARAM j)) in X. exact X.
    + apply SpecEval.ev_const; [reflexivity|exact Hp].
  - apply SpecEval.ev_const; [reflexivity|]. intros (j & E). discriminate.
  - destruct cs as [|c0 cs0] eqn:Ecs.
    { apply SpecEval.ev_const; [reflexivity|]. intros (j & E). discriminate. }
    rewrite <- Ecs in *. assert (Hne : cs <> []) by (rewrite Ecs; discriminate).
    assert (Ho : isLiteralOp k = false).
    { destruct (isLiteralOp k) eqn:E; [|reflexivity]. exfalso. apply (I _ (occ_here _)).
      right; right. exists k, cs. auto. }
    assert (S : evs s cs cs).
    { assert (X : forall l, (forall c, In c l -> In c cs) -> evs s l l).
      { intro l. induction l as [|c l IHl]; intro Hl; [constructor|]. constructor.
        - rewrite Forall_forall in IH. apply IH; [apply Hl; left; reflexivity| | |].
          + eapply twf_child; [exact W|]. apply Hl; left; reflexivity.
          + eapply inert_child; [exact I|]. apply Hl; left; reflexivity.
          + destruct C as [C|C]; [left|right; exact C]. eapply closed_child; [exact C|]. apply Hl; left; reflexivity.
        - apply IHl. intros d Hd. apply Hl. right; exact Hd. }
      apply X. auto. }
    assert (D : is_application k \/ ~ is_application k).
    { destruct (kind_eqb k K_APPLY) eqn:E1; [apply kind_eqb_eq in E1; left; left; exact E1|].
      destruct (kind_eqb k K_APPLY_OPAQUE) eqn:E2; [apply kind_eqb_eq in E2; left; right; exact E2|].
      right. intros [X|X]; subst; discriminate. }
    destruct D as [D|D].
    + rewrite Ecs in S |- *. apply SpecEval.ev_apply; [exact D|exact S|].
      intros (i & E). subst c0. apply (I (Sym K_PROGRAM_CONST i)).
      * eapply occ_child; [|apply occ_here]. rewrite Ecs. left; reflexivity.
      * left. exists i. reflexivity.
    + apply SpecEval.ev_other; auto.
Qed.
End Proofs.

Lemma shortcut_ext : forall b f g, (forall p, f p = g p) -> shortcut b f -> shortcut b g.
Proof.
  intros b f g H [X|X]; [left; exact X|right]. intro p. rewrite <- H. apply X.
Qed.
Lemma never_ext : forall b f g, (forall p, f p = g p) -> never b f -> never b g.
Proof. intros b f g _ []. Qed.
