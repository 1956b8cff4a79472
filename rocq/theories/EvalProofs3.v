(** The evaluator finds every result of [ev] (C20), and consequences (C21, C22). *)
From Coq Require Import ZArith List Bool Lia.
From Verif Require Import Base Kind Literal Term Match Eval SpecTerm SpecEval TermProofs
  VarsProofs MatchProofs ProgProofs EvalProofs EvalProofs2.
Import ListNotations.

Section Complete.
Variable lop : kind -> list term -> res (option term).
Variable progs : term -> option (list pcase).
Variable prog : term -> option term.
Hypothesis Hlop : lop_wf lop.
Hypothesis Hprogs : progs_wf progs.
Hypothesis Hprog : forall hd, prog hd = option_map (program_term hd) (progs hd).
Variable e0 : term.
Variable c0 : ctx.

Notation ev := (ev lop progs shortcut).
Notation evs := (evs lop progs shortcut).
Notation calls := (calls progs).
Notation fsub fr := (ctx_find (fr_ctx fr)).
Notation GI := (GI lop progs e0 c0).
Notation FI := (FI lop progs).
Notation step := (ev_step lop prog).

Inductive reach : list frame -> trie -> list frame -> trie -> Prop :=
| reach_refl : forall st tr, reach st tr st tr
| reach_step : forall st tr st1 tr1 st2 tr2, step st tr = Ok (Next st1 tr1) ->
    reach st1 tr1 st2 tr2 -> reach st tr st2 tr2.

Lemma reach_one : forall st tr st1 tr1, step st tr = Ok (Next st1 tr1) -> reach st tr st1 tr1.
Proof. intros. eapply reach_step; [eassumption|apply reach_refl]. Qed.
Lemma reach_trans : forall a ta b tb c tc, reach a ta b tb -> reach b tb c tc -> reach a ta c tc.
Proof. intros a ta b tb c tc H. induction H; intro H2; [exact H2|]. eapply reach_step; eauto. Qed.
Lemma reach_GI : forall a ta b tb, reach a ta b tb -> GI a ta -> GI b tb.
Proof.
  intros a ta b tb H. induction H as [|st tr st1 tr1 st2 tr2 E _ IH]; intro G; [exact G|].
  apply IH. destruct (step_ok lop progs prog Hlop Hprogs Hprog e0 c0 st tr G)
    as [(st' & tr' & E' & G')|[(r & E' & _)|(k & ds & _ & H)]].
  - rewrite E in E'. injection E' as <- <-. exact G'.
  - congruence.
  - destruct H as [[_ H]|[[_ H]|[_ H]]]; congruence.
Qed.
Lemma reach_run : forall a ta b tb, reach a ta b tb -> forall n x,
  (forall fuel, (n <= fuel)%nat -> ev_run lop prog fuel b tb = x) ->
  exists n', forall fuel, (n' <= fuel)%nat -> ev_run lop prog fuel a ta = x.
Proof.
  intros a ta b tb H. induction H as [|st tr st1 tr1 st2 tr2 E _ IH]; intros n x Hx.
  - exists n. exact Hx.
  - destruct (IH n x Hx) as (n' & Hn). exists (S n'). intros [|fuel] Hf; [lia|].
    cbn [ev_run]. rewrite E. cbn [bind]. apply Hn. lia.
Qed.

(** Progress of the visited map. *)
Definition ext (m m' : vmap) : Prop :=
  (forall u, done m u -> done m' u) /\
  (forall p, vfind m' p = Some None -> vfind m p = Some None) /\
  (forall u, vfind m u <> None -> vfind m' u <> None).
Lemma ext_refl : forall m, ext m m.
Proof. intro m. repeat split; auto. Qed.
Lemma ext_trans : forall a b c, ext a b -> ext b c -> ext a c.
Proof. intros a b c (A1 & A2 & A3) (B1 & B2 & B3). repeat split; auto. Qed.
Lemma ext_finish : forall m t v, ext m ((t, Some v) :: m).
Proof.
  intros m t v. repeat split.
  - intros u (w & H). unfold done. rewrite vfind_cons. destruct (term_eqb t u); eauto.
  - intros p H. rewrite vfind_cons in H. destruct (term_eqb t p); [discriminate|exact H].
  - intros u H. rewrite vfind_cons. destruct (term_eqb t u); [discriminate|exact H].
Qed.

Definition goes (s : sub) (t : term) : Prop := forall fr below tr rest,
  GI (fr :: below) tr -> fr_visit fr = t :: rest -> (forall p, fsub fr p = s p) ->
  (forall p, vfind (fr_visited fr) p = Some None -> (tsize t < tsize p)%nat) ->
  exists m' tr', reach (fr :: below) tr (upd fr m' rest :: below) tr' /\ done m' t /\
    ext (fr_visited fr) m'.

Lemma goes_ext : forall s s' t, (forall p, s p = s' p) -> goes s t -> goes s' t.
Proof.
  intros s s' t H G fr below tr rest I V S B. apply (G fr below tr rest I V); [|exact B].
  intro p. rewrite H. apply S.
Qed.

Lemma upd_same : forall fr, upd fr (fr_visited fr) (fr_visit fr) = fr.
Proof. intros []. reflexivity. Qed.
Lemma upd_upd : forall fr m v m' v', upd (upd fr m v) m' v' = upd fr m' v'.
Proof. reflexivity. Qed.

Lemma list_goes : forall s xs, (forall x, In x xs -> goes s x) -> forall fr below tr rest,
  GI (fr :: below) tr -> fr_visit fr = xs ++ rest -> (forall p, fsub fr p = s p) ->
  (forall x p, In x xs -> vfind (fr_visited fr) p = Some None -> (tsize x < tsize p)%nat) ->
  exists m' tr', reach (fr :: below) tr (upd fr m' rest :: below) tr' /\
    (forall x, In x xs -> done m' x) /\ ext (fr_visited fr) m'.
Proof.
  intros s xs. induction xs as [|x xs IH]; intros Hg fr below tr rest G V S B.
  - exists (fr_visited fr), tr. cbn in V. rewrite <- V, upd_same.
    split; [apply reach_refl|]. split; [intros x []|apply ext_refl].
  - destruct (Hg x (or_introl eq_refl) fr below tr (xs ++ rest) G V S) as (m1 & tr1 & R1 & D1 & E1).
    { intros p Hp. apply B; [left; reflexivity|exact Hp]. }
    destruct (IH (fun y Hy => Hg y (or_intror Hy)) (upd fr m1 (xs ++ rest)) below tr1 rest)
      as (m2 & tr2 & R2 & D2 & E2).
    + eapply reach_GI; eauto.
    + reflexivity.
    + exact S.
    + intros y p Hy Hp. cbn in Hp. apply B; [right; exact Hy|]. apply E1; exact Hp.
    + exists m2, tr2. rewrite upd_upd in R2. cbn [upd fr_visited] in E2.
      split; [eapply reach_trans; eauto|]. split; [|eapply ext_trans; eauto].
      intros y [<-|Hy]; [apply E2; exact D1|apply D2; exact Hy].
Qed.

(** The first visit of a term. *)
Definition fresh_ok (fr : frame) (below : list frame) (tr : trie) (t : term) (rest : list term) : Prop :=
  exists m' tr', reach (fr :: below) tr (upd fr m' rest :: below) tr' /\ done m' t /\
    ext (fr_visited fr) m'.

Lemma finish_ok : forall fr below tr t rest v tr',
  step (fr :: below) tr = Ok (Next (upd fr ((t, Some v) :: fr_visited fr) rest :: below) tr') ->
  fresh_ok fr below tr t rest.
Proof.
  intros fr below tr t rest v tr' E. exists ((t, Some v) :: fr_visited fr), tr'.
  split; [apply reach_one; exact E|]. split; [exists v; apply vfind_same|apply ext_finish].
Qed.

Lemma pop_done : forall fr below tr t rest, fr_visit fr = t :: rest -> done (fr_visited fr) t ->
  fresh_ok fr below tr t rest.
Proof.
  intros fr below tr t rest V (w & D).
  assert (E : exists m', (m' = fr_visited fr \/ exists v, m' = (t, Some v) :: fr_visited fr) /\
     step (fr :: below) tr = Ok (Next (upd fr m' rest :: below) tr)).
  { cbn [ev_step]. rewrite V. unfold inner_step. fold (static (fr_ctx fr) t).
    destruct (static (fr_ctx fr) t); [eexists; split; [right; eexists; reflexivity|reflexivity]|].
    destruct (kind_eqb (tkind t) K_PARAM).
    - destruct (ctx_find (fr_ctx fr) t); (eexists; split; [right; eexists; reflexivity|reflexivity]).
    - rewrite D. eexists; split; [left; reflexivity|reflexivity]. }
  destruct E as (m' & [->|(v & ->)] & E).
  - exists (fr_visited fr), tr. split; [apply reach_one; exact E|]. split; [exists w; exact D|apply ext_refl].
  - eapply finish_ok; exact E.
Qed.

Lemma goes_intro : forall s t,
  (forall fr below tr rest, GI (fr :: below) tr -> fr_visit fr = t :: rest ->
     (forall p, fsub fr p = s p) ->
     (forall p, vfind (fr_visited fr) p = Some None -> (tsize t < tsize p)%nat) ->
     twf t -> static (fr_ctx fr) t = false -> tkind t <> K_PARAM -> vfind (fr_visited fr) t = None ->
     fresh_ok fr below tr t rest) -> goes s t.
Proof.
  intros s t H fr below tr rest G V S B.
  assert (W : twf t).
  { destruct G as (F & _). inversion F as [|x y F1 _]; subst.
    pose proof (fi_wf _ _ fr F1) as X. rewrite V in X. inversion X; assumption. }
  destruct (vfind (fr_visited fr) t) as [[w|]|] eqn:Ef.
  - apply pop_done; [exact V|exists w; exact Ef].
  - specialize (B t Ef). lia.
  - destruct (static (fr_ctx fr) t) eqn:Es.
    { eapply finish_ok. cbn [ev_step]. rewrite V. unfold inner_step. fold (static (fr_ctx fr) t).
      rewrite Es. reflexivity. }
    destruct (kind_eqb (tkind t) K_PARAM) eqn:Ek.
    { destruct (ctx_find (fr_ctx fr) t) as [v|] eqn:Ec;
        (eapply finish_ok; cbn [ev_step]; rewrite V; unfold inner_step; fold (static (fr_ctx fr) t);
         rewrite Es, Ek, Ec; reflexivity). }
    apply H; auto. intro X. rewrite X in Ek. discriminate.
Qed.

Lemma step_start : forall fr below tr t rest, fr_visit fr = t :: rest ->
  static (fr_ctx fr) t = false -> tkind t <> K_PARAM -> vfind (fr_visited fr) t = None ->
  tkind t <> K_EVAL_IF_THEN_ELSE ->
  step (fr :: below) tr =
    Ok (Next (upd fr ((t, None) :: fr_visited fr) (rev (tchildren t) ++ t :: rest) :: below) tr).
Proof.
  intros fr below tr t rest V S P F K. cbn [ev_step]. rewrite V. unfold inner_step.
  fold (static (fr_ctx fr) t). rewrite S.
  destruct (kind_eqb (tkind t) K_PARAM) eqn:E; [apply kind_eqb_eq in E; contradiction|]. rewrite F.
  destruct (kind_eqb (tkind t) K_EVAL_IF_THEN_ELSE) eqn:E2; [apply kind_eqb_eq in E2; contradiction|].
  reflexivity.
Qed.

Lemma busy_step : forall fr below tr t rest, GI (fr :: below) tr -> fr_visit fr = t :: rest ->
  vfind (fr_visited fr) t = Some None ->
  step (fr :: below) tr =
    (let* ccs := collect (fr_visited fr) (tchildren t) in
     let* a := eval_switch lop prog tr (tkind t) (tchildren t) ccs in
     match a with
     | APush body c key => Ok (Next (new_frame body c (Some key) :: fr :: below) tr)
     | AWait ts => Ok (Next (upd fr (fr_visited fr) (ts ++ t :: rest) :: below) tr)
     | AVal (Some v) tr' => Ok (Next (upd fr ((t, Some v) :: fr_visited fr) rest :: below) tr')
     | AVal None tr' => let* vs := all_present ccs in
         Ok (Next (upd fr ((t, Some (rebuild t vs)) :: fr_visited fr) rest :: below) tr')
     end).
Proof.
  intros fr below tr t rest (F & _) V B. inversion F as [|x y F1 _]; subst.
  destruct (fi_busy _ _ fr F1 t B) as (S & P & _).
  cbn [ev_step]. rewrite V. apply inner_busy; assumption.
Qed.

(** Children first, then the term itself. *)
Lemma goes_node : forall s t, tkind t <> K_EVAL_IF_THEN_ELSE ->
  (forall c, In c (tchildren t) -> goes s c) ->
  (forall fr below tr rest, GI (fr :: below) tr -> fr_visit fr = t :: rest ->
     (forall p, fsub fr p = s p) ->
     (forall p, vfind (fr_visited fr) p = Some None -> (tsize t <= tsize p)%nat) ->
     vfind (fr_visited fr) t = Some None -> fresh_ok fr below tr t rest) -> goes s t.
Proof.
  intros s t Hk Hc H. apply goes_intro. intros fr below tr rest G V S B W Hs Hp Hf.
  pose proof (step_start fr below tr t rest V Hs Hp Hf Hk) as E1.
  pose proof (reach_one _ _ _ _ E1) as R1. pose proof (reach_GI _ _ _ _ R1 G) as G1.
  assert (BB : forall p, vfind ((t, None) :: fr_visited fr) p = Some None -> (tsize t <= tsize p)%nat).
  { intros p X. rewrite vfind_cons in X. destruct (term_eqb t p) eqn:E.
    - apply term_eqb_eq in E. subst. lia.
    - specialize (B p X). lia. }
  destruct (list_goes s (rev (tchildren t))) with (fr := upd fr ((t, None) :: fr_visited fr) (rev (tchildren t) ++ t :: rest))
    (below := below) (tr := tr) (rest := t :: rest) as (m2 & tr2 & R2 & D2 & X2); auto.
  { intros x Hx. apply Hc. apply in_rev in Hx. exact Hx. }
  { intros x p Hx Hb. cbn [upd fr_visited] in Hb. apply in_rev in Hx. apply tsize_child in Hx.
    specialize (BB p Hb). lia. }
  rewrite upd_upd in R2. cbn [upd fr_visited] in X2. destruct X2 as (X2a & X2b & X2c).
  pose proof (reach_GI _ _ _ _ R2 G1) as G2.
  assert (K : fresh_ok (upd fr m2 (t :: rest)) below tr2 t rest).
  { destruct (vfind m2 t) as [[w|]|] eqn:Ef.
    - apply pop_done; [reflexivity|exists w; exact Ef].
    - apply H; auto.
    - exfalso. apply (X2c t); [rewrite vfind_same; discriminate|exact Ef]. }
  destruct K as (m3 & tr3 & R3 & D3 & X3). rewrite upd_upd in R3. cbn [upd fr_visited] in X3.
  exists m3, tr3. split; [eapply reach_trans; [exact R1|eapply reach_trans; eauto]|]. split; [exact D3|].
  destruct X3 as (X3a & X3b & X3c). repeat split.
  - intros u Hu. apply X3a, X2a. destruct Hu as (w & Hu). exists w. rewrite vfind_cons.
    destruct (term_eqb t u) eqn:E; [|exact Hu]. apply term_eqb_eq in E. subst. congruence.
  - intros p Hb. pose proof (X2b p (X3b p Hb)) as Y. rewrite vfind_cons in Y.
    destruct (term_eqb t p) eqn:E; [|exact Y]. apply term_eqb_eq in E. subst.
    destruct D3 as (w & D3). congruence.
  - intros u Hu. apply X3c, X2c. rewrite vfind_cons. destruct (term_eqb t u); [discriminate|exact Hu].
Qed.

Lemma values : forall s fr t rest ds, FI fr -> fr_visit fr = t :: rest -> (forall p, fsub fr p = s p) ->
  vfind (fr_visited fr) t = Some None -> tkind t <> K_EVAL_IF_THEN_ELSE ->
  evs s (tchildren t) ds ->
  collect (fr_visited fr) (tchildren t) = Ok (map Some ds) /\ Forall twf ds.
Proof.
  intros s fr t rest ds F V S B K E.
  destruct (busy_children lop progs fr t rest F V B K) as (vs & Ec & Fv).
  destruct (values_evs lop progs fr _ vs F Fv) as [E' W].
  assert (vs = ds).
  { eapply (proj2 (ev_evs_det lop progs shortcut shortcut_ext)); [exact E'|].
    eapply (proj2 (ev_evs_ext lop progs shortcut)); [exact E|]. intro p. symmetry. apply S. }
  subst. auto.
Qed.

Lemma GI_FI : forall fr below tr, GI (fr :: below) tr -> FI fr.
Proof. intros fr below tr (F & _). inversion F; assumption. Qed.
Lemma GI_TI : forall st tr, GI st tr -> TI lop progs tr.
Proof. intros st tr (_ & _ & T). exact T. Qed.

Lemma goes_app : forall s k cs hd args, is_application k -> evs s cs (hd :: args) ->
  (forall c, In c cs -> goes s c) ->
  (forall body f, is_program hd -> calls hd args (Some (body, f)) -> ~ (closed body \/ empty_sub f) -> goes f body) ->
  goes s (Node k cs).
Proof.
  intros s k cs hd args Ha He Hc Hr.
  assert (Hk : k <> K_EVAL_IF_THEN_ELSE) by (destruct Ha as [->| ->]; discriminate).
  apply goes_node; [exact Hk|exact Hc|].
  intros fr below tr rest G V S B Hb.
  destruct (values s fr _ rest (hd :: args) (GI_FI _ _ _ G) V S Hb Hk He) as [Ec Ws].
  pose proof (busy_step fr below tr _ rest G V Hb) as E. cbn [tkind tchildren] in *.
  rewrite Ec in E. cbn [bind] in E. inversion Ws as [|x y Wh Wa]; subst.
  assert (FIN : forall v tr', eval_switch lop prog tr k cs (map Some (hd :: args)) = Ok (AVal v tr') ->
     fresh_ok fr below tr (Node k cs) rest).
  { intros v tr' X. rewrite X in E. cbn [bind] in E. destruct v as [v|].
    - eapply finish_ok; exact E.
    - rewrite all_present_some in E. cbn [bind] in E. eapply finish_ok; exact E. }
  destruct (switch_app lop progs prog Hprogs Hprog tr k cs hd args Ha (GI_TI _ _ G) Wh Wa)
    as [H|[[_ H]|(Hp & body & c & H & Hcall & Hx)]].
  - destruct (kind_eqb (tkind hd) K_PROGRAM_CONST) eqn:Eh.
    + apply program_kind in Eh; [|exact Wh]. destruct (H Eh) as (v & tr' & X & _). eapply FIN; exact X.
    + apply (FIN None tr). destruct Ha as [->| ->]; unfold eval_switch; rewrite all_present_some;
        cbn [bind vec_at nth_error]; rewrite Eh; reflexivity.
  - eapply FIN; exact H.
  - rewrite H in E. cbn [bind] in E.
    pose proof (reach_one _ _ _ _ E) as R1. pose proof (reach_GI _ _ _ _ R1 G) as G1.
    destruct (Hr body (ctx_find c) Hp Hcall Hx (new_frame body c (Some (hd :: args))) (fr :: below) tr [] G1)
      as (m2 & tr2 & R2 & (w & D2) & X2); [reflexivity|reflexivity|discriminate|].
    assert (E3 : step (upd (new_frame body c (Some (hd :: args))) m2 [] :: fr :: below) tr2 =
       Ok (Next (upd fr ((Node k cs, Some w) :: fr_visited fr) rest :: below) ((hd :: args, Some w) :: tr2))).
    { cbn [ev_step upd fr_visit]. unfold end_frame. cbn [upd new_frame fr_init fr_visited fr_result].
      rewrite D2, V. reflexivity. }
    exists ((Node k cs, Some w) :: fr_visited fr), ((hd :: args, Some w) :: tr2).
    split; [eapply reach_trans; [exact R1|eapply reach_trans; [exact R2|apply reach_one; exact E3]]|].
    split; [exists w; apply vfind_same|apply ext_finish].
Qed.

(** Conditionals. *)
Lemma goes_ite : forall s c a b v, ev s c v -> goes s c ->
  (v = Lit (LBool true) -> goes s a) -> (v = Lit (LBool false) -> goes s b) ->
  (~ is_bool v -> goes s a /\ goes s b) -> goes s (Node K_EVAL_IF_THEN_ELSE [c; a; b]).
Proof.
  intros s c a b v Hv Gc Ga Gb Gn. set (t := Node K_EVAL_IF_THEN_ELSE [c; a; b]).
  assert (SZ : forall x, In x [c; a; b] -> (tsize x < tsize t)%nat)
    by (intros x Hx; apply tsize_child; exact Hx).
  (* once the condition has its value *)
  assert (BR : forall n fr below tr rest, GI (fr :: below) tr -> fr_visit fr = t :: rest ->
     (forall p, fsub fr p = s p) ->
     (forall p, vfind (fr_visited fr) p = Some None -> (tsize t <= tsize p)%nat) ->
     vfind (fr_visited fr) t <> None ->
     ((if vfind (fr_visited fr) a then 0 else 1) + (if vfind (fr_visited fr) b then 0 else 1) < n)%nat ->
     fresh_ok fr below tr t rest).
  { intro n. induction n as [|n IH]; intros fr below tr rest G V S B Hb Hn; [lia|].
    destruct (vfind (fr_visited fr) t) as [[w|]|] eqn:Ef; [|clear Hb|contradiction].
    { apply pop_done; [exact V|exists w; exact Ef]. }
    pose proof (GI_FI _ _ _ G) as F1.
    destruct (ite_cond lop progs fr c a b rest F1 V Ef) as (v' & Hc).
    destruct (fi_val _ _ fr F1 _ _ Hc) as [He _].
    assert (v' = v).
    { eapply ev_det; [exact shortcut_ext|exact He|]. eapply ev_ext; [|exact Hv]. intro p. symmetry. apply S. }
    subst v'.
    destruct (child_state_ex lop progs fr t rest a F1 V) as (xa & Sa); [right; left; reflexivity|].
    destruct (child_state_ex lop progs fr t rest b F1 V) as (xb & Sb); [right; right; left; reflexivity|].
    pose proof (busy_step fr below tr t rest G V Ef) as E. 
    change (tchildren t) with [c; a; b] in E. change (tkind t) with K_EVAL_IF_THEN_ELSE in E.
    rewrite (collect_state (fr_visited fr) [c; a; b] [Some v; xa; xb]) in E
      by (repeat constructor; assumption).
    cbn [bind] in E.
    assert (WAIT : forall ts, (forall x, In x ts -> In x [a; b] /\ goes s x /\ vfind (fr_visited fr) x = None) ->
        ts <> [] ->
        eval_switch lop prog tr K_EVAL_IF_THEN_ELSE [c; a; b] [Some v; xa; xb] = Ok (AWait ts) ->
        fresh_ok fr below tr t rest).
    { intros ts Ht Hne Es. rewrite Es in E. cbn [bind] in E.
      pose proof (reach_one _ _ _ _ E) as R1. pose proof (reach_GI _ _ _ _ R1 G) as G1.
      destruct (list_goes s ts) with (fr := upd fr (fr_visited fr) (ts ++ t :: rest))
        (below := below) (tr := tr) (rest := t :: rest) as (m2 & tr2 & R2 & D2 & X2); auto.
      { intros x Hx. apply Ht; exact Hx. }
      { intros x p Hx Hp. cbn [upd fr_visited] in Hp. specialize (B p Hp).
        assert (In x [c; a; b]) by (right; apply Ht; exact Hx). specialize (SZ x H). lia. }
      rewrite upd_upd in R2. cbn [upd fr_visited] in X2. pose proof (reach_GI _ _ _ _ R2 G1) as G2.
      destruct (IH (upd fr m2 (t :: rest)) below tr2 rest G2) as (m3 & tr3 & R3 & D3 & X3); auto.
      { cbn [upd fr_visited]. intros p Hp. apply B. apply X2; exact Hp. }
      { cbn [upd fr_visited]. apply X2. congruence. }
      { cbn [upd fr_visited]. destruct X2 as (_ & _ & X2c).
        assert (KA : forall u, ((if vfind m2 u then 0 else 1) <= (if vfind (fr_visited fr) u then 0 else 1))%nat).
        { intro u. specialize (X2c u). destruct (vfind (fr_visited fr) u); [|destruct (vfind m2 u); lia].
          destruct (vfind m2 u); [lia|]. exfalso. apply X2c; congruence. }
        destruct ts as [|x ts]; [contradiction|]. destruct (Ht x (or_introl eq_refl)) as (Hin & _ & Hx).
        destruct (D2 x (or_introl eq_refl)) as (w & Dx).
        pose proof (KA a) as K1. pose proof (KA b) as K2.
        destruct Hin as [<-|[<-|[]]]; rewrite Hx in *; rewrite Dx in *; lia. }
      rewrite upd_upd in R3. exists m3, tr3.
      split; [eapply reach_trans; [exact R1|eapply reach_trans; eauto]|]. split; [exact D3|].
      eapply ext_trans; [exact X2|exact X3]. }
    destruct (bool_cases v) as [(x & ->)|Hnb].
    - rewrite switch_ite_bool in *. destruct (if x then xa else xb) as [w|] eqn:Ew.
      + cbn [bind] in E. eapply finish_ok; exact E.
      + destruct x; cbn [vec_at nth_error bind] in WAIT.
        * apply (WAIT [a]); [|discriminate|reflexivity]. intros x [<-|[]]. subst xa.
          split; [left; reflexivity|]. split; [apply Ga; reflexivity|exact Sa].
        * apply (WAIT [b]); [|discriminate|reflexivity]. intros x [<-|[]]. subst xb.
          split; [right; left; reflexivity|]. split; [apply Gb; reflexivity|exact Sb].
    - destruct (Gn Hnb) as [Ga' Gb']. rewrite switch_ite_stuck in * by exact Hnb.
      destruct xa as [wa|], xb as [wb|].
      + cbn [bind all_present] in E. eapply finish_ok; exact E.
      + apply (WAIT [b]); [|discriminate|reflexivity]. intros x [<-|[]].
        split; [right; left; reflexivity|]. split; [exact Gb'|exact Sb].
      + apply (WAIT [a]); [|discriminate|reflexivity]. intros x [<-|[]].
        split; [left; reflexivity|]. split; [exact Ga'|exact Sa].
      + apply (WAIT [b; a]); [|discriminate|reflexivity]. intros x [<-|[<-|[]]].
        * split; [right; left; reflexivity|]. split; [exact Gb'|exact Sb].
        * split; [left; reflexivity|]. split; [exact Ga'|exact Sa]. }
  apply goes_intro. intros fr below tr rest G V S B W Hs Hp Hf.
  assert (E1 : step (fr :: below) tr =
    Ok (Next (upd fr ((t, None) :: fr_visited fr) ([c] ++ t :: rest) :: below) tr)).
  { cbn [ev_step]. rewrite V. unfold inner_step. fold (static (fr_ctx fr) t). rewrite Hs, Hf. reflexivity. }
  pose proof (reach_one _ _ _ _ E1) as R1. pose proof (reach_GI _ _ _ _ R1 G) as G1.
  assert (BB : forall p, vfind ((t, None) :: fr_visited fr) p = Some None -> (tsize t <= tsize p)%nat).
  { intros p X. rewrite vfind_cons in X. destruct (term_eqb t p) eqn:E.
    - apply term_eqb_eq in E. subst p. lia.
    - specialize (B p X). lia. }
  destruct (list_goes s [c]) with (fr := upd fr ((t, None) :: fr_visited fr) ([c] ++ t :: rest))
    (below := below) (tr := tr) (rest := t :: rest) as (m2 & tr2 & R2 & D2 & X2); auto.
  { intros x [<-|[]]. exact Gc. }
  { intros x p [<-|[]] Hb. cbn [upd fr_visited] in Hb. specialize (BB p Hb).
    specialize (SZ c (or_introl eq_refl)). lia. }
  rewrite upd_upd in R2. cbn [upd fr_visited] in X2. destruct X2 as (X2a & X2b & X2c).
  pose proof (reach_GI _ _ _ _ R2 G1) as G2.
  destruct (BR 3%nat (upd fr m2 (t :: rest)) below tr2 rest G2) as (m3 & tr3 & R3 & D3 & X3); auto.
  { cbn [upd fr_visited]. apply X2c. rewrite vfind_same. discriminate. }
  { cbn [upd fr_visited]. destruct (vfind m2 a), (vfind m2 b); lia. }
  rewrite upd_upd in R3. cbn [upd fr_visited] in X3.
  exists m3, tr3. split; [eapply reach_trans; [exact R1|eapply reach_trans; eauto]|]. split; [exact D3|].
  destruct X3 as (X3a & X3b & X3c). repeat split.
  - intros u Hu. apply X3a, X2a. destruct Hu as (w & Hu). exists w. rewrite vfind_cons.
    destruct (term_eqb t u) eqn:E; [|exact Hu]. apply term_eqb_eq in E. subst. congruence.
  - intros p Hb. pose proof (X2b p (X3b p Hb)) as Y. rewrite vfind_cons in Y.
    destruct (term_eqb t p) eqn:E; [|exact Y]. apply term_eqb_eq in E. subst p.
    destruct D3 as (w & D3). congruence.
  - intros u Hu. apply X3c, X2c. rewrite vfind_cons. destruct (term_eqb t u); [discriminate|exact Hu].
Qed.

Lemma goes_simple : forall s k cs ds, evs s cs ds -> k <> K_EVAL_IF_THEN_ELSE ->
  (forall c, In c cs -> goes s c) ->
  (forall tr, exists v, eval_switch lop prog tr k cs (map Some ds) = Ok (AVal v tr)) ->
  goes s (Node k cs).
Proof.
  intros s k cs ds He Hk Hc Hsw. apply goes_node; [exact Hk|exact Hc|].
  intros fr below tr rest G V S B Hb.
  destruct (values s fr _ rest ds (GI_FI _ _ _ G) V S Hb Hk He) as [Ec Ws].
  pose proof (busy_step fr below tr _ rest G V Hb) as E. cbn [tkind tchildren] in *.
  rewrite Ec in E. cbn [bind] in E. destruct (Hsw tr) as (v & X). rewrite X in E. cbn [bind] in E.
  destruct v as [v|].
  - eapply finish_ok; exact E.
  - rewrite all_present_some in E. cbn [bind] in E. eapply finish_ok; exact E.
Qed.

Theorem ev_goes :
  (forall s t r, ev s t r -> goes s t) /\
  (forall s cs ds, evs s cs ds -> forall c, In c cs -> goes s c).
Proof.
  apply ev_evs_ind.
  - intros s i. apply goes_intro. intros fr below tr rest _ _ _ _ _ _ Hp _. exfalso. apply Hp. reflexivity.
  - intros s t Hc Hp. apply goes_intro. intros fr below tr rest G V S B W Hs Hk Hf.
    destruct (static_false_leaf _ t W Hs Hc Hk) as [(i & ->)| ->].
    + assert (X : goes s (Sym K_PROGRAM_CONST i)).
      { apply goes_node; [discriminate|intros c []|].
        intros fr' below' tr' rest' G' V' S' B' Hb'.
        pose proof (busy_step fr' below' tr' _ rest' G' V' Hb') as E.
        cbn [tkind tchildren collect bind eval_switch isLiteralOp all_present] in E.
        eapply finish_ok; exact E. }
      exact (X fr below tr rest G V S B).
    + assert (X : goes s (Node K_ANY [])).
      { apply goes_node; [discriminate|intros c []|].
        intros fr' below' tr' rest' G' V' S' B' Hb'.
        pose proof (busy_step fr' below' tr' _ rest' G' V' Hb') as E.
        cbn [tkind tchildren collect bind eval_switch isLiteralOp all_present] in E.
        eapply finish_ok; exact E. }
      exact (X fr below tr rest G V S B).
  - intros s cs Hl. apply goes_intro. intros fr below tr rest G V S B W Hs Hk Hf.
    eapply finish_ok. cbn [ev_step]. rewrite V. unfold inner_step.
    match goal with |- context[negb ?x && ?y] => change (negb x && y) with (static (fr_ctx fr) (Node K_EVAL_IF_THEN_ELSE cs)) end.
    rewrite Hs, Hf. cbn [tkind tchildren kind_eqb].
    apply Nat.eqb_neq in Hl. rewrite Hl. reflexivity.
  - intros s c a b r H1 G1 H2 G2. eapply goes_ite; eauto; try discriminate.
    intro X. exfalso. apply X. eexists; reflexivity.
  - intros s c a b r H1 G1 H2 G2. eapply goes_ite; eauto; try discriminate.
    intro X. exfalso. apply X. eexists; reflexivity.
  - intros s c a b c' a' b' H1 G1 Hn H2 G2 H3 G3. eapply goes_ite; eauto.
  - intros s k cs hd args body f r Ha He Hc Hh Hcall Hx Hr Gr. eapply goes_app; eauto.
    intros body' f' _ Hcall' _. destruct (calls_det progs _ _ _ _ Hcall Hcall') as [<- Hf].
    eapply goes_ext; [exact Hf|exact Gr].
  - intros s k cs hd args body f Ha He Hc Hh Hcall Hx. eapply goes_app; eauto.
    intros body' f' _ Hcall' Hx'. destruct (calls_det progs _ _ _ _ Hcall Hcall') as [<- Hf].
    exfalso. apply Hx'. destruct Hx as [X|X]; [left; exact X|right; intro p; rewrite <- Hf; apply X].
  - intros s k cs hd args Ha He Hc Hh Hcall. eapply goes_app; eauto.
    intros body' f' _ Hcall' _. destruct (calls_det progs _ _ _ _ Hcall Hcall').
  - intros s k cs hd args Ha He Hc Hh. eapply goes_app; eauto. intros body' f' X. contradiction.
  - intros s k cs ds r Ho Hk Hne He Hc El. eapply goes_simple; eauto. intro tr.
    rewrite switch_op by assumption. rewrite El. eexists; reflexivity.
  - intros s k cs ds Ho Hk Hne He Hc El. eapply goes_simple; eauto. intro tr.
    rewrite switch_op by assumption. rewrite El. eexists; reflexivity.
  - intros s k cs ds Ho Ha Hne He Hc. eapply goes_simple; eauto.
    + intros ->. discriminate.
    + intro tr. rewrite switch_other by assumption. eexists; reflexivity.
  - intros s c [].
  - intros s c cs d ds H1 G1 H2 G2 x [<-|Hx]; auto.
Qed.

Theorem run_complete : forall r, twf e0 -> sub_wf (ctx_find c0) -> ev (ctx_find c0) e0 r ->
  exists n, forall fuel, (n <= fuel)%nat -> evaluate lop prog fuel e0 c0 = Ok (Some r).
Proof.
  intros r W S H. pose proof (GI_init lop progs e0 c0 W S) as G.
  destruct (proj1 ev_goes _ _ _ H (new_frame e0 c0 None) [] [] [] G) as (m & tr & R & (w & D) & _);
    [reflexivity|reflexivity|discriminate|].
  pose proof (reach_GI _ _ _ _ R G) as G1. pose proof (GI_FI _ _ _ G1) as F1.
  destruct (fi_val _ _ _ F1 e0 w D) as [He _]. cbn [upd new_frame fr_ctx] in He.
  assert (w = r) by (eapply ev_det; [exact shortcut_ext|exact He|exact H]). subst w.
  apply (reach_run _ _ _ _ R 1%nat). intros [|fuel] Hf; [lia|].
  cbn [ev_run ev_step upd new_frame fr_visit]. unfold end_frame.
  cbn [upd new_frame fr_visited fr_init fr_result]. rewrite D. reflexivity.
Qed.
End Complete.
