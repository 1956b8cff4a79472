(** Parameters, and what is done with them. *)
From Coq Require Import String ZArith List Bool Lia.
From Verif Require Import Base Kind Ints Str Literal Arity Term TermProofs Match Eval ListOps Typing Build Scope Lexer Parse Check
  SpecRead SpecCmd FrontProofs CheckProofs ReadProofs CmdProofs CmdProofs2 CmdProofs3.
Import ListNotations.
Open Scope Z_scope.

(** ** What reading leaves as it is *)
Definition same (s s' : st) : Prop := s' = set_scope (s_scope s') s.
Lemma same_refl s : same s s. Proof. destruct s; reflexivity. Qed.
Lemma same_trans a b c : same a b -> same b c -> same a c.
Proof. unfold same. intros -> ->. destruct a; reflexivity. Qed.
Lemma same_set c s : same s (set_scope c s). Proof. destruct s; reflexivity. Qed.
Lemma same_left s s' : left_scope s s' -> same s s'.
Proof. intros (c & _ & ->). apply same_set. Qed.
Lemma same_named s l s' : named_in s l s' -> same s s'.
Proof. induction 1; [apply same_refl|]. eapply same_trans; [apply same_set | exact IHnamed_in]. Qed.
Lemma same_bound s n e s' : bound s n e s' -> same s s'.
Proof. intros (c & _ & ->). apply same_set. Qed.
Lemma same_next s s' : same s s' -> s_next s' = s_next s. Proof. intros ->. reflexivity. Qed.
Lemma same_names s s' : same s s' -> s_names s' = s_names s. Proof. intros ->. reflexivity. Qed.
Lemma reads_same G sig :
  (forall s x t s1, SpecRead.reads G sig s x t s1 -> same s s1) /\ (forall s xs ts s1, reads_args G sig s xs ts s1 -> same s s1) /\
  (forall s xs vs s1, reads_vars G sig s xs vs s1 -> same s s1) /\ (forall s xs ds s1, reads_defs G sig s xs ds s1 -> same s s1) /\
  (forall s xs ds s1, reads_lets G sig s xs ds s1 -> same s s1).
Proof.
  apply (reads_minds G sig (fun s _ _ s1 => same s s1) (fun s _ _ s1 => same s s1) (fun s _ _ s1 => same s s1) (fun s _ _ s1 => same s s1) (fun s _ _ s1 => same s s1));
    intros; try apply same_refl; eauto using same_trans, same_left, same_named, same_set.
  - apply (same_trans _ _ _ (same_set _ _ : same s (entered s))). eapply same_trans; [eassumption|]. eapply same_trans; [eapply same_named; eassumption|].
    eauto using same_trans, same_left.
  - eapply same_trans; [eassumption|]. apply (same_trans _ _ _ (same_set _ _ : same s1 (entered s1))). eapply same_trans; [eapply same_named; eassumption|].
    eauto using same_trans, same_left.
Qed.

(** ** Attributes that say how a constant is used *)
Lemma kind_attrs_eq : filter isConstructorKindAttr all_attrs = kind_attrs. Proof. reflexivity. Qed.
Lemma find_flat {B} (P : attr -> bool) (f : attr -> list B) l :
  find (fun p => P (fst p)) (flat_map (fun a => map (fun v => (a, v)) (f a)) l) = hd_error (flat_map (fun a => map (fun v => (a, v)) (f a)) (filter P l)).
Proof.
  induction l as [|a l IH]; [reflexivity|]. cbn [flat_map filter].
  assert (E : forall (r : list (attr * B)) q, find (fun p => P (fst p)) (map (fun v => (a, v)) q ++ r) = if P a then hd_error (map (fun v => (a, v)) q ++ match q with [] => match find (fun p => P (fst p)) r with Some x => [x] | None => [] end | _ => [] end) else find (fun p => P (fst p)) r).
  { intros r q. induction q as [|v q IHq]; cbn [map app find].
    - destruct (P a); [|reflexivity]. destruct (find (fun p => P (fst p)) r); reflexivity.
    - cbn [fst]. destruct (P a); [reflexivity | exact IHq]. }
  rewrite E, IH. destruct (P a); [|reflexivity]. cbn [flat_map]. destruct (f a); [|reflexivity]. cbn [map app].
  destruct (flat_map (fun a0 => map (fun v => (a0, v)) (f a0)) (filter P l)); reflexivity.
Qed.
Lemma hd_flat {B} (f : attr -> list B) l a v : hd_error (flat_map (fun a => map (fun v => (a, v)) (f a)) l) = Some (a, v) <->
  exists before after, l = before ++ a :: after /\ Forall (fun b => f b = []) before /\ hd_error (f a) = Some v.
Proof.
  split.
  - induction l as [|b l IH]; intros H; [discriminate H|]. cbn [flat_map] in H. destruct (f b) as [|w q] eqn:E; cbn [map app] in H.
    + destruct (IH H) as (x & y & -> & X & Y). exists (b :: x), y. auto.
    + injection H as -> ->. exists [], l. rewrite E. auto.
  - intros (x & y & -> & X & Y). induction X as [|b x E X IH]; cbn [app flat_map]; [destruct (f a); [discriminate Y|]; cbn in *; now injection Y as -> | now rewrite E].
Qed.
Lemma hd_none {B} (f : attr -> list B) l : hd_error (flat_map (fun a => map (fun v => (a, v)) (f a)) l) = None <-> Forall (fun b => f b = []) l.
Proof.
  split.
  - induction l as [|b l IH]; intros H; [constructor|]. cbn [flat_map] in H. destruct (f b) as [|w q] eqn:E; [|discriminate H]. constructor; auto.
  - induction 1 as [|b l E H IH]; [reflexivity|]. cbn [flat_map]. now rewrite E.
Qed.
Lemma attr_eqb_same a : attr_eqb a a = true. Proof. now apply attr_eqb_eq. Qed.
Lemma values_nil m a : attr_values m a = [] <-> forall v, ~ In (a, v) m.
Proof.
  unfold attr_values. induction m as [|[b w] m IH]; [split; [intros _ v [] | reflexivity]|]. cbn [filter fst]. destruct (attr_eqb b a) eqn:E.
  - apply attr_eqb_eq in E. subst b. split; [discriminate|]. intros H. exfalso. apply (H w). now left.
  - rewrite IH. split; [|intros H v X; apply (H v); now right]. intros H v [X|X]; [|exact (H v X)]. injection X as -> _. rewrite attr_eqb_same in E. discriminate E.
Qed.
Lemma values_hd m a v : hd_error (attr_values m a) = Some v <-> exists m1 m2, m = m1 ++ (a, v) :: m2 /\ forall w, ~ In (a, w) m1.
Proof.
  unfold attr_values. split.
  - induction m as [|[b w] m IH]; intros H; [discriminate H|]. cbn [filter fst] in H. destruct (attr_eqb b a) eqn:E.
    + apply attr_eqb_eq in E. subst b. injection H as ->. exists [], m. split; [reflexivity | intros w' []].
    + destruct (IH H) as (m1 & m2 & -> & X). exists ((b, w) :: m1), m2. split; [reflexivity|]. intros w' [Y|Y]; [|exact (X w' Y)].
      injection Y as -> _. rewrite attr_eqb_same in E. discriminate E.
  - intros (m1 & m2 & -> & X). induction m1 as [|[b w] m1 IH]; cbn [app filter fst]; [now rewrite attr_eqb_same|].
    destruct (attr_eqb b a) eqn:E; [apply attr_eqb_eq in E; subst b; exfalso; apply (X w); now left|]. apply IH. intros w' Y. apply (X w'). now right.
Qed.
Lemma usage_iff m u : processAttributeMap m = Ok u <-> usage m u.
Proof.
  unfold processAttributeMap. rewrite find_flat, kind_attrs_eq.
  destruct (hd_error (flat_map (fun a => map (fun v => (a, v)) (attr_values m a)) kind_attrs)) as [[a v]|] eqn:E.
  - apply hd_flat in E. destruct E as (x & y & E & X & Y). split.
    + intros H. assert (Q : exists ct, u = Some (a, ct) /\ closed_over v ct).
      { destruct v as [v|]; [|injection H as <-; eexists; split; [reflexivity | constructor]]. destruct (isGround v) eqn:Gr.
        - injection H as <-. eexists. split; [reflexivity | now constructor].
        - apply bind_ok in H. destruct H as (ps & P & H). injection H as <-. eexists. split; [reflexivity | now constructor]. }
      destruct Q as (ct & -> & Q). apply values_hd in Y. destruct Y as (m1 & m2 & -> & Y).
      eapply us_some; [exact E | | reflexivity | exact Y | exact Q]. intros b w I J. rewrite Forall_forall in X. specialize (X b J). apply values_nil with (v := w) in X. now apply X.
    + intros [N|before a0 after m1 v0 m2 ct E0 B0 -> A0 C0].
      * exfalso. apply values_hd in Y. destruct Y as (m1 & m2 & -> & Y). apply (N a v); [apply in_or_app; right; now left|]. rewrite E. apply in_or_app. right. now left.
      * assert (Q : (a0, v0) = (a, v)).
        { assert (H1 : hd_error (flat_map (fun a => map (fun v => (a, v)) (attr_values (m1 ++ (a0, v0) :: m2) a)) kind_attrs) = Some (a, v)) by (apply hd_flat; eauto).
          assert (H2 : hd_error (flat_map (fun a => map (fun v => (a, v)) (attr_values (m1 ++ (a0, v0) :: m2) a)) kind_attrs) = Some (a0, v0)).
          { apply hd_flat. exists before, after. split; [exact E0|]. split.
            - apply Forall_forall. intros b J. apply values_nil. intros w I. exact (B0 b w I J).
            - apply values_hd. eauto. }
          rewrite H1 in H2. now injection H2 as -> ->. }
        injection Q as -> ->. destruct C0 as [|t Gr|t ps Gr V]; [reflexivity | now rewrite Gr|]. rewrite Gr, V. reflexivity.
  - rewrite hd_none in E. rewrite Forall_forall in E. split.
    + intros H. injection H as <-. apply us_none. intros a v I J. specialize (E a J). apply values_nil with (v := v) in E. now apply E.
    + intros [N|before a after m1 v m2 ct E0 _ -> _ _]; [reflexivity|]. exfalso.
      assert (J : In a kind_attrs) by (rewrite E0; apply in_or_app; right; now left).
      specialize (E a J). rewrite values_nil in E. apply (E v). apply in_or_app. right. now left.
Qed.

(** ** Parameters *)
Definition amap_of (ps : list (text * term * attrs)) : list (term * attrs) :=
  map (fun p => (snd (fst p), if is_implicit p then attr_erase (snd p) A_IMPLICIT else snd p)) ps.
Definition padd (acc : list term * list (term * attrs)) (p : text * term * attrs) : list term * list (term * attrs) :=
  if is_implicit p then (fst acc, (snd (fst p), attr_erase (snd p) A_IMPLICIT) :: snd acc) else (snd (fst p) :: fst acc, (snd (fst p), snd p) :: snd acc).
Lemma fold_padd ps : forall vs am, fold_left padd ps (vs, am) = (rev (terms_of (explicit ps)) ++ vs, rev (amap_of ps) ++ am).
Proof.
  induction ps as [|p ps IH]; intros vs am; [reflexivity|]. cbn [fold_left]. unfold padd at 2. unfold explicit, amap_of. cbn [filter map].
  destruct (is_implicit p); cbn [negb fst snd]; rewrite IH; cbn [terms_of map rev]; rewrite <- ?app_assoc; reflexivity.
Qed.

Section Parts.
Variable G : config.
Variable sig : bool.
Hypothesis HC : forall n t, g_varinfo G (g_bvar G n t) = Some (n, t).
Notation reads := (SpecRead.reads G sig).
Notation applied := (SpecRead.applied G).
Notation of_type := (SpecRead.of_type G).
Notation pe := (parseExpr G sig (g_fuel G)).

Definition pvbody (k : kind) (acc : list term * list (term * attrs)) : M ((list term * list (term * attrs)) + (list term * list (term * attrs))) :=
  let! name := parseSymbol in
  let! t := parseType G pe false false in
  let! v := mkSymbol K_PARAM name (Some t) in
  bindM name v ;;
  let! attrs := parseAttributeList G pe K_PARAM v k in
  eat T_RPAREN ;;
  mret (inl (padd acc (name, v, attrs))).
Lemma p_params c k d : k <> K_NONE -> parses c (S d) (parseVarListMap G pe k)
  (r_item (fun s x r s1 => exists ps, list_in (param_in G sig k) s x ps s1 /\ r = (terms_of (explicit ps), amap_of ps))) (fun _ => CF) (fun _ => S d).
Proof.
  intros NK. apply p_any.
  eapply parses_ext; [|eapply parses_iff; [eapply p_bind; [apply p_open|]; intros u0;
    apply (p_cloop G (pvbody k) (param_in G sig k) padd (fun acc => (rev (fst acc), rev (snd acc))) d)|]].
  - intros p. unfold parseVarListMap. apply mbind_ext. intros [] q. apply mloop_ext. intros [vars amap] q1. unfold cbody, pvbody. apply mbind_ext. intros [|] q2; [|reflexivity].
    apply mbind_ext. intros name q3. apply mbind_ext. intros t q4.
    assert (E : forall A (x y : A), match k with K_NONE => x | _ => y end = y) by (intros A x y; destruct k; try reflexivity; now contradiction NK).
    rewrite E. apply mbind_ext. intros v q5. apply mbind_ext. intros [] q6. apply mbind_ext. intros m q7. apply mbind_ext. intros [] q8. unfold padd.
    change (is_implicit (name, v, m)) with (attr_mem m A_IMPLICIT). destruct (attr_mem m A_IMPLICIT); reflexivity.
  - intros s x b s1 H. inversion H; subst. eauto.
  - intros acc. eapply parses_iff; [eapply p_bind; [apply p_symbol|]; intros n; eapply p_bind; [apply p_type; exact HC|]; intros t;
      eapply p_bind; [apply p_only; apply only_new|]; intros v; eapply p_bind; [apply p_only; apply only_bound|]; intros u1;
      eapply p_bind; [apply p_attrs; [exact HC | reflexivity]|]; intros m; eapply p_bind; [apply p_close_o|]; intros u2; apply p_ret|].
    intros s i r s1 i1 _. split.
    + intros (n & s2 & i2 & (y & ys & i' & -> & (N & ->) & ->) & t & s3 & i3 & (x & xs & i'' & E & T & ->) & v & s4 & i4 & (V & ->) & u & s5 & i5 & (B & ->) &
        m & s6 & i6 & (as_ & i7 & E2 & A & ->) & u2 & s7 & i8 & (-> & E3) & -> & -> & ->).
      injection E as -> <-. injection E2 as -> <-. injection E3 as <-. exists (y :: x :: as_), (n, v, m). split; [reflexivity|]. split; [|reflexivity].
      econstructor; eassumption.
    + intros (ys & b & -> & H & ->). inversion H as [y n x ty s2 v s3 s4 as_ m s5 N T V B A]; subst.
      exists n, s, ((x :: as_) :: i1). split; [eexists _, _, _; split; [reflexivity|]; split; [split; [exact N | reflexivity] | reflexivity]|].
      exists ty, s2, (as_ :: i1). split; [eexists _, _, _; eauto|]. exists v, s3, (as_ :: i1). split; [split; auto|]. exists tt, s4, (as_ :: i1). split; [split; auto|].
      exists m, s1, ([] :: i1). split; [eauto|]. exists tt, s1, i1. auto.
  - intros s i a s1 i1 _. split.
    + intros (u & s2 & i2 & (-> & ys & xs & i' & -> & ->) & bs & (zs & E & H) & ->). injection E as <- <-. exists (XL ys), xs, i'. split; [reflexivity|].
      split; [|reflexivity]. exists bs. split; [exists ys; auto|]. rewrite fold_padd, !app_nil_r. cbn [fst snd]. now rewrite !rev_involutive.
    + intros (x & xs & i' & -> & (ps & (ys & -> & H) & ->) & ->). exists tt, s, (ys :: xs :: i'). split; [split; [reflexivity | eauto 6]|]. exists ps.
      split; [exists ys; auto|]. rewrite fold_padd, !app_nil_r. cbn [fst snd]. now rewrite !rev_involutive.
Qed.
(** Parameters have no attribute that says how they are used. *)
Lemma param_form of a f : attr_form K_PARAM of a = Some f -> f <> ListMark -> ~ In a kind_attrs.
Proof. intros H N J. cbn in J. repeat (destruct J as [<-|J]; [cbn in H; congruence|]). destruct J. Qed.
Lemma none_kind : ~ In A_NONE kind_attrs.
Proof. intros J. cbn in J. repeat (destruct J as [J|J]; [discriminate J|]). destruct J. Qed.
Lemma param_attrs of e s as_ m s1 : attrs_in G sig K_PARAM of e s as_ m s1 -> forall a v, In (a, v) m -> ~ In a kind_attrs.
Proof.
  induction 1; intros b v' I; try (now destruct I); try exact (IHattrs_in b v' I); (destruct I as [I|I]; [|exact (IHattrs_in b v' I)]); injection I as <- <-;
    try apply none_kind; (eapply param_form; [eassumption | discriminate]).
Qed.
End Parts.
