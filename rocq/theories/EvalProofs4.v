(** The main theorems about the evaluator (C20-C22). *)
From Coq Require Import ZArith List Bool Lia.
From Verif Require Import Base Kind Literal Term Match Eval SpecTerm SpecEval TermProofs
  VarsProofs MatchProofs ProgProofs EvalProofs EvalProofs2 EvalProofs3.
Import ListNotations.

Section Main.
Variable lop : kind -> list term -> res (option term).
Variable progs : term -> option (list pcase).
Variable prog : term -> option term.
Hypothesis Hlop : lop_wf lop.
Hypothesis Hprogs : progs_wf progs.
Hypothesis Hprog : forall hd, prog hd = option_map (program_term hd) (progs hd).

Theorem evaluate_exact : forall e c r, twf e -> sub_wf (ctx_find c) ->
  (exists n, forall fuel, (n <= fuel)%nat -> evaluate lop prog fuel e c = Ok (Some r)) <->
  ev lop progs shortcut (ctx_find c) e r.
Proof.
  intros e c r W S. split.
  - intros (n & H). specialize (H n (le_n n)).
    destruct (run_sound lop progs prog Hlop Hprogs Hprog e c n [new_frame e c None] []
      (GI_init lop progs e c W S)) as [X|[(r' & X & Y & _)|(k & ds & _ & X)]];
      unfold evaluate in H; try congruence.
    destruct X as [[_ X]|[[_ X]|[_ X]]]; congruence.
  - apply run_complete; assumption.
Qed.

(** Any outcome other than a correct result comes from an operator. *)
Theorem evaluate_outcomes : forall e c fuel, twf e -> sub_wf (ctx_find c) ->
  evaluate lop prog fuel e c = Fuel \/
  (exists r, evaluate lop prog fuel e c = Ok (Some r) /\ ev lop progs shortcut (ctx_find c) e r /\ twf r) \/
  (exists k ds, Forall twf ds /\
     (lop k ds = Err /\ evaluate lop prog fuel e c = Err \/
      lop k ds = UB /\ evaluate lop prog fuel e c = UB)).
Proof.
  intros e c fuel W S.
  destruct (run_sound lop progs prog Hlop Hprogs Hprog e c fuel [new_frame e c None] []
      (GI_init lop progs e c W S)) as [X|[(r & X & Y)|(k & ds & Wd & X)]]; auto.
  - right; left. exists r. auto.
  - unfold evaluate. destruct X as [X|[X|[_ X]]]; [right; right; exists k, ds; tauto..|left; exact X].
Qed.

(** * Substitution *)
Theorem ev_subst : forall stop s t, twf t -> inert t ->
  (forall p i, s p <> Some (Sym K_PROGRAM_CONST i)) -> ev lop progs stop s t (tsubst s t).
Proof.
  intros stop s t W I N. revert W I. induction t as [k i|l|k cs IH] using term_ind2; intros W I.
  - destruct (param_dec (Sym k i)) as [(j & E)|Hp].
    + injection E as -> ->. rewrite tsubst_param by (exists j; reflexivity). apply SpecEval.ev_param.
    + replace (tsubst s (Sym k i)) with (Sym k i).
      * apply SpecEval.ev_const; [reflexivity|exact Hp].
      * destruct k; try reflexivity. exfalso. apply Hp. exists i. reflexivity.
  - apply SpecEval.ev_const; [reflexivity|]. intros (j & E). discriminate.
  - cbn [tsubst]. destruct cs as [|c0 cs0] eqn:Ecs.
    { apply SpecEval.ev_const; [reflexivity|]. intros (j & E). discriminate. }
    rewrite <- Ecs in *. assert (Hne : cs <> []) by (rewrite Ecs; discriminate).
    assert (Ho : isLiteralOp k = false).
    { destruct (isLiteralOp k) eqn:E; [|reflexivity]. exfalso. apply (I _ (occ_here _)).
      right; right. exists k, cs. auto. }
    assert (S : evs lop progs stop s cs (map (tsubst s) cs)).
    { assert (X : forall l, (forall c, In c l -> In c cs) -> evs lop progs stop s l (map (tsubst s) l)).
      { intro l. induction l as [|c l IHl]; intro Hl; [constructor|]. cbn [map]. constructor.
        - rewrite Forall_forall in IH. apply IH; [apply Hl; left; reflexivity| |].
          + eapply twf_child; [exact W|]. apply Hl; left; reflexivity.
          + eapply inert_child; [exact I|]. apply Hl; left; reflexivity.
        - apply IHl. intros d Hd. apply Hl. right; exact Hd. }
      apply X. auto. }
    destruct (app_dec k) as [D|D].
    + rewrite Ecs in S |- *. cbn [map] in *. apply SpecEval.ev_apply; [exact D|exact S|].
      intros (i & E). destruct c0 as [k0 j|l|k0 ds]; cbn in E; try discriminate.
      assert (Hin : In (Sym k0 j) cs) by (rewrite Ecs; left; reflexivity).
      destruct k0; try discriminate.
      * destruct (s (Sym K_PARAM j)) as [u|] eqn:Es; [|discriminate].
        subst u. exact (N _ _ Es).
      * apply (I (Sym K_PROGRAM_CONST j)); [eapply occ_child; [exact Hin|apply occ_here]|].
        left. exists j. reflexivity.
    + apply SpecEval.ev_other; auto.
Qed.

Theorem evaluate_subst : forall e c, twf e -> sub_wf (ctx_find c) -> inert e ->
  (forall p i, ctx_find c p <> Some (Sym K_PROGRAM_CONST i)) ->
  exists n, forall fuel, (n <= fuel)%nat -> evaluate lop prog fuel e c = Ok (Some (tsubst (ctx_find c) e)).
Proof.
  intros e c W S I N. apply evaluate_exact; auto. apply ev_subst; auto.
Qed.

(** * Right hand sides *)

Lemma selects_live : forall args cases b f, Forall rhs_live cases ->
  selects args cases (Some (b, f)) -> shortcut b f -> inert b.
Proof.
  intros args cases b f L H Hs. remember (Some (b, f)) as r eqn:Er. revert Er.
  induction H as [|ps rhs cases Hl|ps rhs cases g Hg|ps rhs cases r Hl Hn _ IH]; intro Er; try discriminate.
  - injection Er as -> ->. inversion L as [|x y H1 _]; subst. destruct H1 as [H1|(p & q & Hp & Ho & Hq & Hoq)]; [exact H1|].
    cbn [fst snd] in *. exfalso. destruct Hs as [Hs|Hs].
    + destruct (Hs p Ho) as [X _]. contradiction.
    + destruct Hg as [[_ G] _]. exact (G q p Hq Hp Hoq (Hs p)).
  - inversion L; subst. auto.
Qed.
Lemma calls_live : forall hd args b f,
  (forall h cases, progs h = Some cases -> Forall rhs_live cases) ->
  calls progs hd args (Some (b, f)) -> shortcut b f -> inert b.
Proof.
  intros hd args b f L H Hs. inversion H; subst.
  eapply selects_live; [eapply L; eassumption|eassumption|exact Hs].
Qed.

Lemma short_full : (forall h cases, progs h = Some cases -> Forall rhs_live cases) ->
  (forall s t r, ev lop progs shortcut s t r -> twf t -> sub_wf s -> ev lop progs never s t r) /\
  (forall s cs ds, evs lop progs shortcut s cs ds -> Forall twf cs -> sub_wf s -> evs lop progs never s cs ds).
Proof.
  intro L.
  assert (N : forall k cs, twf (Node k cs) -> Forall twf cs) by (intros k cs W; inversion W; assumption).
  assert (N3 : forall k a b c, twf (Node k [a; b; c]) -> twf a /\ twf b /\ twf c).
  { intros k a b c W. apply N in W. inversion W as [|x y W1 W2]; subst. inversion W2 as [|x y W3 W4]; subst.
    inversion W4; subst. auto. }
  apply ev_evs_ind.
  - intros. apply SpecEval.ev_param.
  - intros. apply SpecEval.ev_const; assumption.
  - intros. apply SpecEval.ev_ite_odd; assumption.
  - intros s c a b r _ IH1 _ IH2 W S. apply N3 in W. destruct W as (W1 & W2 & W3). apply SpecEval.ev_ite_true; auto.
  - intros s c a b r _ IH1 _ IH2 W S. apply N3 in W. destruct W as (W1 & W2 & W3). apply SpecEval.ev_ite_false; auto.
  - intros s c a b c' a' b' _ IH1 Hn _ IH2 _ IH3 W S. apply N3 in W. destruct W as (W1 & W2 & W3).
    apply SpecEval.ev_ite_stuck; auto.
  - intros s k cs hd args body f r Ha He IH1 Hh Hc _ _ IH2 W S. apply N in W.
    pose proof (proj2 (ev_evs_wf lop progs shortcut Hlop Hprogs) _ _ _ He W S) as Wd. inversion Wd; subst.
    destruct (calls_wf progs Hprogs hd args body f) as [Wb Wf]; auto.
    eapply SpecEval.ev_call_run; eauto.
  - intros s k cs hd args body f Ha He IH1 Hh Hc Hs W S. apply N in W.
    pose proof (proj2 (ev_evs_wf lop progs shortcut Hlop Hprogs) _ _ _ He W S) as Wd. inversion Wd; subst.
    destruct (calls_wf progs Hprogs hd args body f) as [Wb Wf]; auto.
    eapply SpecEval.ev_call_run; eauto. apply ev_static; auto. eapply calls_live; eauto.
  - intros. eapply SpecEval.ev_call_stuck; eauto.
  - intros. eapply SpecEval.ev_apply; eauto.
  - intros. eapply SpecEval.ev_op; eauto.
  - intros. eapply SpecEval.ev_op_stuck; eauto.
  - intros. eapply SpecEval.ev_other; eauto.
  - constructor.
  - intros s c cs d ds _ IH1 _ IH2 W S. inversion W; subst. constructor; auto.
Qed.

Lemma full_short : (forall h cases, progs h = Some cases -> Forall rhs_live cases) ->
  (forall s t r, ev lop progs never s t r -> twf t -> sub_wf s -> ev lop progs shortcut s t r) /\
  (forall s cs ds, evs lop progs never s cs ds -> Forall twf cs -> sub_wf s -> evs lop progs shortcut s cs ds).
Proof.
  intro L.
  assert (N : forall k cs, twf (Node k cs) -> Forall twf cs) by (intros k cs W; inversion W; assumption).
  assert (N3 : forall k a b c, twf (Node k [a; b; c]) -> twf a /\ twf b /\ twf c).
  { intros k a b c W. apply N in W. inversion W as [|x y W1 W2]; subst. inversion W2 as [|x y W3 W4]; subst.
    inversion W4; subst. auto. }
  apply ev_evs_ind.
  - intros. apply SpecEval.ev_param.
  - intros. apply SpecEval.ev_const; assumption.
  - intros. apply SpecEval.ev_ite_odd; assumption.
  - intros s c a b r _ IH1 _ IH2 W S. apply N3 in W. destruct W as (W1 & W2 & W3). apply SpecEval.ev_ite_true; auto.
  - intros s c a b r _ IH1 _ IH2 W S. apply N3 in W. destruct W as (W1 & W2 & W3). apply SpecEval.ev_ite_false; auto.
  - intros s c a b c' a' b' _ IH1 Hn _ IH2 _ IH3 W S. apply N3 in W. destruct W as (W1 & W2 & W3).
    apply SpecEval.ev_ite_stuck; auto.
  - intros s k cs hd args body f r Ha He IH1 Hh Hc _ Hb IH2 W S. apply N in W.
    pose proof (proj2 (ev_evs_wf lop progs never Hlop Hprogs) _ _ _ He W S) as Wd. inversion Wd; subst.
    destruct (calls_wf progs Hprogs hd args body f) as [Wb Wf]; auto.
    assert (D : shortcut body f \/ ~ shortcut body f).
    { destruct (isGround body) eqn:G.
      - left; left. apply ground_closed; auto.
      - assert (Hcl : ~ closed body) by (intro X; apply ground_closed in X; [congruence|exact Wb]).
        assert (E : empty_sub f \/ ~ empty_sub f).
        { assert (H7 : exists cases, selects args cases (Some (body, f))) by (inversion Hc; subst; eauto).
          clear -H7. destruct H7 as (cases & H7). remember (Some (body, f)) as rr eqn:Er.
          induction H7 as [|ps rhs cases Hl|ps rhs cases g Hg|ps rhs cases r Hl Hn _ IH]; try discriminate; [|auto].
          injection Er as -> ->. destruct Hg as [[_ G] G3].
          assert (Q : (exists p, is_param p /\ exists q, In q ps /\ occurs p q) \/
                      ~ exists p, is_param p /\ exists q, In q ps /\ occurs p q).
          { clear. assert (T : forall t, (exists p, is_param p /\ occurs p t) \/ ~ exists p, is_param p /\ occurs p t).
            { intro t. induction t as [k i|l|k cs IH] using term_ind2.
              - destruct (param_dec (Sym k i)) as [X|X]; [left; eexists; split; [exact X|apply occ_here]|].
                right. intros (p & Hp & Ho). inversion Ho; subst. contradiction.
              - right. intros (p & (j & ->) & Ho). inversion Ho.
              - assert (C : (exists c, In c cs /\ exists p, is_param p /\ occurs p c) \/
                            ~ exists c, In c cs /\ exists p, is_param p /\ occurs p c).
                { induction IH as [|c cs Hc _ IHc]; [right; intros (c & [] & _)|].
                  destruct Hc as [Hc|Hc]; [left; exists c; split; [left; reflexivity|exact Hc]|].
                  destruct IHc as [(d & Hd & X)|X]; [left; exists d; split; [right; exact Hd|exact X]|].
                  right. intros (d & [<-|Hd] & Y); [contradiction|]. apply X. exists d; auto. }
                destruct C as [(c & Hc & p & Hp & Ho)|C].
                + left. exists p. split; [exact Hp|]. eapply occ_child; eauto.
                + right. intros (p & Hp & Ho). apply occurs_inv in Ho.
                  destruct Ho as [->|(c & Hc & Ho)]; [destruct Hp as (j & E); discriminate|].
                  apply C. exists c. split; [exact Hc|]. exists p; auto. }
            induction ps as [|q ps IH]; [right; intros (p & _ & q & [] & _)|].
            destruct (T q) as [(p & Hp & Ho)|X]; [left; exists p; split; [exact Hp|]; exists q; split; [left; reflexivity|exact Ho]|].
            destruct IH as [(p & Hp & q' & Hq & Ho)|Y];
              [left; exists p; split; [exact Hp|]; exists q'; split; [right; exact Hq|exact Ho]|].
            right. intros (p & Hp & q' & [<-|Hq] & Ho); [apply X; exists p; auto|apply Y; exists p; eauto]. }
          destruct Q as [(p & Hp & q & Hq & Ho)|Q].
          - right. intro X. exact (G q p Hq Hp Ho (X p)).
          - left. intro p. destruct (f p) eqn:Ef; [|reflexivity]. exfalso. apply Q.
            destruct (G3 p ltac:(congruence)) as [Hp X]. exists p. auto. }
        destruct E as [E|E]; [left; right; exact E|right]. intros [X|X]; contradiction. }
    destruct D as [D|D].
    + assert (X : r = body).
      { eapply ev_det; [exact never_ext|exact Hb|]. apply ev_static; auto. eapply calls_live; eauto. }
      subst r. eapply SpecEval.ev_call_done; eauto.
    + eapply SpecEval.ev_call_run; eauto.
  - intros s k cs hd args body f Ha He IH1 Hh Hc [].
  - intros. eapply SpecEval.ev_call_stuck; eauto.
  - intros. eapply SpecEval.ev_apply; eauto.
  - intros. eapply SpecEval.ev_op; eauto.
  - intros. eapply SpecEval.ev_op_stuck; eauto.
  - intros. eapply SpecEval.ev_other; eauto.
  - constructor.
  - intros s c cs d ds _ IH1 _ IH2 W S. inversion W; subst. constructor; auto.
Qed.

Theorem evaluate_full : (forall h cases, progs h = Some cases -> Forall rhs_live cases) ->
  forall e c r, twf e -> sub_wf (ctx_find c) ->
  (exists n, forall fuel, (n <= fuel)%nat -> evaluate lop prog fuel e c = Ok (Some r)) <->
  ev lop progs never (ctx_find c) e r.
Proof.
  intros L e c r W S. rewrite evaluate_exact by assumption. split; intro H.
  - exact (proj1 (short_full L) _ _ _ H W S).
  - exact (proj1 (full_short L) _ _ _ H W S).
Qed.

(** * Conditionals *)
Theorem evaluate_ite : forall (b : bool) e0 e1 e2 c r,
  twf (Node K_EVAL_IF_THEN_ELSE [e0; e1; e2]) -> sub_wf (ctx_find c) ->
  (exists n, forall fuel, (n <= fuel)%nat -> evaluate lop prog fuel e0 c = Ok (Some (Lit (LBool b)))) ->
  (exists n, forall fuel, (n <= fuel)%nat ->
     evaluate lop prog fuel (Node K_EVAL_IF_THEN_ELSE [e0; e1; e2]) c = Ok (Some r)) <->
  (exists n, forall fuel, (n <= fuel)%nat -> evaluate lop prog fuel (if b then e1 else e2) c = Ok (Some r)).
Proof.
  intros b e0 e1 e2 c r W S H.
  assert (W3 : twf e0 /\ twf e1 /\ twf e2).
  { inversion W as [| |k cs _ _ Wc]; subst. inversion Wc as [|x y W1 W2]; subst.
    inversion W2 as [|x y W3 W4]; subst. inversion W4; subst. auto. }
  destruct W3 as (W0 & W1 & W2).
  rewrite evaluate_exact in H by assumption.
  rewrite !evaluate_exact by (try destruct b; assumption). split; intro E.
  - assert (X : forall x, ev lop progs shortcut (ctx_find c) e0 x -> x = Lit (LBool b))
      by (intros x Hx; eapply ev_det; [exact shortcut_ext|exact Hx|exact H]).
    inversion E; subst; try (match goal with Y : is_application _ |- _ => destruct Y; discriminate end);
      try discriminate; try congruence.
    + exfalso. match goal with Y : length _ <> _ |- _ => apply Y; reflexivity end.
    + match goal with Y : SpecEval.ev _ _ _ _ e0 (Lit (LBool true)) |- _ => apply X in Y; injection Y as <- end. assumption.
    + match goal with Y : SpecEval.ev _ _ _ _ e0 (Lit (LBool false)) |- _ => apply X in Y; injection Y as <- end. assumption.
    + exfalso. match goal with Y : SpecEval.ev _ _ _ _ e0 ?x, Z : ~ is_bool ?x |- _ => apply X in Y; subst; apply Z; eexists; reflexivity end.
  - destruct b; [apply SpecEval.ev_ite_true|apply SpecEval.ev_ite_false]; assumption.
Qed.

Theorem evaluate_ite_stuck : forall e0 e1 e2 c v0 v1 v2,
  twf (Node K_EVAL_IF_THEN_ELSE [e0; e1; e2]) -> sub_wf (ctx_find c) -> ~ is_bool v0 ->
  (exists n, forall fuel, (n <= fuel)%nat -> evaluate lop prog fuel e0 c = Ok (Some v0)) ->
  (exists n, forall fuel, (n <= fuel)%nat -> evaluate lop prog fuel e1 c = Ok (Some v1)) ->
  (exists n, forall fuel, (n <= fuel)%nat -> evaluate lop prog fuel e2 c = Ok (Some v2)) ->
  (exists n, forall fuel, (n <= fuel)%nat ->
     evaluate lop prog fuel (Node K_EVAL_IF_THEN_ELSE [e0; e1; e2]) c
     = Ok (Some (Node K_EVAL_IF_THEN_ELSE [v0; v1; v2]))).
Proof.
  intros e0 e1 e2 c v0 v1 v2 W S N.
  assert (W3 : twf e0 /\ twf e1 /\ twf e2).
  { inversion W as [| |k cs _ _ Wc]; subst. inversion Wc as [|x y W1 W2]; subst.
    inversion W2 as [|x y W3 W4]; subst. inversion W4; subst. auto. }
  destruct W3 as (W0 & W1 & W2).
  rewrite !evaluate_exact by assumption. intros. apply SpecEval.ev_ite_stuck; assumption.
Qed.

(** * Calls at the top level *)
Theorem evaluateProgramApp_full : forall hd args r, is_program hd -> Forall twf args ->
  (exists n, forall fuel, (n <= fuel)%nat -> evaluateProgramApp lop prog fuel (hd :: args) = Ok (Some r)) <->
  ((calls progs hd args None /\ r = Node K_APPLY (hd :: args)) \/
   exists body f, calls progs hd args (Some (body, f)) /\ ev lop progs shortcut f body r).
Proof.
  intros hd args r Hh Wa. unfold evaluateProgramApp.
  destruct (calls_exec progs prog Hprogs Hprog hd args Hh Wa) as (x & E & Hx). rewrite E. cbn [bind].
  destruct x as [[body c]|].
  - destruct (calls_wf progs Hprogs hd args body (ctx_find c) Wa Hx) as [Wb Wc].
    rewrite evaluate_exact by assumption. split; intro H.
    + right. exists body, (ctx_find c). auto.
    + destruct H as [[H _]|(b & f & H & He)]; [destruct (calls_det progs _ _ _ _ Hx H)|].
      destruct (calls_det progs _ _ _ _ Hx H) as [<- Hf]. eapply ev_ext; [|exact He].
      intro p. symmetry. apply Hf.
  - split; intro H.
    + left. split; [exact Hx|]. destruct H as (n & H). specialize (H n (le_n n)). congruence.
    + destruct H as [[_ ->]|(b & f & H & _)]; [exists O; reflexivity|]. destruct (calls_det progs _ _ _ _ Hx H).
Qed.
End Main.
