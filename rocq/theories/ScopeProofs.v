(** Proofs about symbol tables and scopes. *)
From Coq Require Import ZArith List Bool Lia.
From Verif Require Import Base Kind Ints Str Literal Arity Term TermProofs Scope SpecScope.
Import ListNotations.
Open Scope Z_scope.

Lemma text_eqb_refl : forall a, text_eqb a a = true.
Proof. intros a. apply text_eqb_eq. reflexivity. Qed.
Lemma text_eqb_neq : forall a b, text_eqb a b = false <-> a <> b.
Proof.
  intros a b. destruct (text_eqb a b) eqn:E; split; intros H; try congruence.
  - apply text_eqb_eq in E. contradiction.
  - intros ->. rewrite text_eqb_refl in E. discriminate.
Qed.
Lemma text_dec : forall a b : text, {a = b} + {a <> b}.
Proof.
  intros a b. destruct (text_eqb a b) eqn:E.
  - left. now apply text_eqb_eq.
  - right. now apply text_eqb_neq.
Qed.

Lemma named_cons_same : forall n e ds, named n ((n, e) :: ds) = e :: named n ds.
Proof. intros. unfold named. cbn [filter fst]. now rewrite text_eqb_refl. Qed.
Lemma named_cons_other : forall n m e ds, n <> m -> named m ((n, e) :: ds) = named m ds.
Proof. intros n m e ds H. unfold named. cbn [filter fst]. now rewrite (proj2 (text_eqb_neq n m) H). Qed.
Lemma tset_same : forall A (m : text -> A) n a, tset m n a n = a.
Proof. intros. unfold tset. now rewrite text_eqb_refl. Qed.
Lemma tset_other : forall A (m : text -> A) n a n', n <> n' -> tset m n a n' = m n'.
Proof. intros. unfold tset. now rewrite (proj2 (text_eqb_neq n n')). Qed.

(** Names in open scopes that were visible already when declared. *)
Fixpoint redeclared (nb g : list decl) : list text :=
  match nb with
  | [] => []
  | (n, _) :: nb' =>
      match named n (nb' ++ g) with
      | [] => redeclared nb' g
      | _ => n :: redeclared nb' g
      end
  end.
Fixpoint sizes (fs : list (list decl)) : list nat :=
  match fs with
  | [] => []
  | _ :: fs' => length (concat fs') :: sizes fs'
  end.

Record core (nb g : list decl) (s : scope) : Prop := {
  co_sym : forall n, c_sym s n = hd_error (named n (nb ++ g));
  co_over : forall n, c_over s n = alternatives (named n (nb ++ g));
  co_ovd : c_ovd s = redeclared nb g }.
Record rel (F : frames) (s : scope) : Prop := {
  re_core : core (concat (fst F)) (snd F) s;
  re_decls : c_decls s = map fst (concat (fst F));
  re_ctx : c_ctx s = sizes (fst F) }.

Lemma redeclared_named : forall nb g n, In n (redeclared nb g) -> named n (nb ++ g) <> [].
Proof.
  induction nb as [|[m e] nb IH]; intros g n H; [destruct H|].
  cbn [redeclared] in H. cbn [app].
  destruct (text_dec m n) as [-> | D]; [rewrite named_cons_same; discriminate|].
  rewrite named_cons_other by exact D.
  destruct (named m (nb ++ g)); [now apply IH|].
  destruct H as [H | H]; [contradiction | now apply IH].
Qed.

Lemma alternatives_cons : forall e x ts, alternatives (e :: x :: ts) = rev (x :: ts) ++ [e].
Proof. reflexivity. Qed.
Lemma alternatives_spec : forall ts, alternatives ts = match ts with [] => [] | [_] => [] | _ => rev ts end.
Proof. intros [|a [|b ts]]; reflexivity. Qed.

Lemma undo_core : forall n e nb g s, core ((n, e) :: nb) g s ->
  exists s', undo s n = Ok s' /\ core nb g s' /\ c_decls s' = c_decls s /\ c_ctx s' = c_ctx s
    /\ c_rules s' = c_rules s /\ c_mark s' = c_mark s.
Proof.
  intros n e nb g s [HS HO HV].
  assert (SS : forall m, n <> m -> c_sym s m = hd_error (named m (nb ++ g))).
  { intros m D. rewrite HS. cbn [app]. now rewrite named_cons_other. }
  assert (OO : forall m, n <> m -> c_over s m = alternatives (named m (nb ++ g))).
  { intros m D. rewrite HO. cbn [app]. now rewrite named_cons_other. }
  pose proof (HS n) as Sn. pose proof (HO n) as On. cbn [app] in Sn, On.
  rewrite named_cons_same in Sn, On. cbn [redeclared] in HV.
  unfold undo. rewrite HV.
  destruct (named n (nb ++ g)) as [|x ts] eqn:E.
  - assert (NOT : forall o ovd', redeclared nb g = o :: ovd' -> text_eqb o n = false).
    { intros o ovd' R. apply text_eqb_neq. intros ->.
      apply (redeclared_named nb g n); [rewrite R; now left | exact E]. }
    assert (Q : core nb g (mkScope (tset (c_sym s) n None) (c_rules s) (c_over s) (c_mark s) (redeclared nb g) (c_decls s) (c_ctx s))).
    { constructor; cbn [c_sym c_over c_ovd]; try reflexivity.
      - intros m. destruct (text_dec n m) as [-> | D].
        + rewrite tset_same, E. reflexivity.
        + rewrite tset_other by exact D. now apply SS.
      - intros m. destruct (text_dec n m) as [-> | D].
        + rewrite On, E. reflexivity.
        + now apply OO. }
    destruct (redeclared nb g) as [|o ovd'] eqn:R.
    + eexists. split; [reflexivity|]. auto 10.
    + rewrite (NOT o ovd' eq_refl). eexists. split; [reflexivity|]. auto 10.
  - rewrite text_eqb_refl. rewrite Sn. cbn [hd_error].
    rewrite On, alternatives_cons, rev_app_distr, rev_involutive. cbn [rev app].
    eexists. split; [reflexivity|]. split; [|auto 10].
    constructor; cbn [c_sym c_over c_ovd]; try reflexivity.
    + intros m. destruct (text_dec n m) as [-> | D].
      * rewrite tset_same, E. reflexivity.
      * rewrite tset_other by exact D. now apply SS.
    + intros m. destruct (text_dec n m) as [-> | D].
      * rewrite tset_same, E. destruct ts; reflexivity.
      * rewrite tset_other by exact D. now apply OO.
Qed.

Lemma undo_list_core : forall top nb g s, core (top ++ nb) g s ->
  exists s', undo_list s (map fst top) = Ok s' /\ core nb g s' /\ c_decls s' = c_decls s /\ c_ctx s' = c_ctx s
    /\ c_rules s' = c_rules s /\ c_mark s' = c_mark s.
Proof.
  induction top as [|[n e] top IH]; intros nb g s C.
  - exists s. cbn [map undo_list]. auto 10.
  - cbn [app] in C. destruct (undo_core _ _ _ _ _ C) as (s1 & U & C1 & D1 & X1 & R1 & M1).
    destruct (IH nb g s1 C1) as (s2 & U2 & C2 & D2 & X2 & R2 & M2).
    exists s2. cbn [map fst undo_list]. rewrite U. cbn [bind].
    repeat split; auto; congruence || apply C2.
Qed.

Lemma pop_rel : forall f fs g s, rel (f :: fs, g) s ->
  exists s', popScope s = Ok s' /\ rel (fs, g) s' /\ c_rules s' = c_rules s /\ c_mark s' = c_mark s.
Proof.
  intros f fs g s [C D X]. cbn [fst snd concat sizes] in *.
  unfold popScope. rewrite X.
  assert (L : (length (c_decls s) - length (concat fs))%nat = length (map fst f)).
  { rewrite D, map_app, app_length, !map_length. lia. }
  assert (L2 : (length (concat fs) - length (c_decls s))%nat = 0%nat).
  { rewrite D, map_app, app_length, !map_length. lia. }
  rewrite L, L2, D, map_app, firstn_app, Nat.sub_diag, firstn_all, firstn_O, app_nil_r.
  destruct (undo_list_core f (concat fs) g s C) as (s1 & U & C1 & D1 & X1 & R1 & M1).
  rewrite U. cbn [bind repeat app]. eexists. split; [reflexivity|].
  split; [|cbn [c_rules c_mark]; auto].
  constructor; cbn [c_decls c_ctx fst snd].
  - destruct C1 as [HS HO HV]. constructor; cbn [c_sym c_over c_ovd]; auto.
  - rewrite skipn_app, Nat.sub_diag, skipn_all. reflexivity.
  - reflexivity.
Qed.

Lemma push_rel : forall fs g s, rel (fs, g) s -> rel ([] :: fs, g) (pushScope s).
Proof.
  intros fs g s [[HS HO HV] D X]. cbn [fst snd] in *. unfold pushScope.
  constructor; cbn [c_decls c_ctx fst snd concat app sizes].
  - constructor; cbn [c_sym c_over c_ovd]; auto.
  - exact D.
  - now rewrite D, X, map_length.
Qed.

Lemma over_step : forall x ts (e : term),
  (match alternatives (x :: ts) with [] => [x] | ov => ov end) ++ [e] = alternatives (e :: x :: ts).
Proof.
  intros x ts e. rewrite alternatives_cons. destruct ts as [|y ts]; [reflexivity|].
  cbn [alternatives]. destruct (rev (x :: y :: ts)) eqn:E; [|reflexivity].
  apply (f_equal (@length term)) in E. rewrite rev_length in E. discriminate.
Qed.

Lemma bind_rel : forall rt F s n e, rel F s -> is_rule rt e = false ->
  exists s', bind_sym rt s n e = Some s' /\ rel (declare F (n, e)) s' /\ c_rules s' = c_rules s
   /\ c_mark s' = match named n (visible F) with
                  | [] => c_mark s
                  | _ => fun t => if term_eqb e t then Some n else c_mark s t
                  end.
Proof.
  intros rt [fs g] s n e [[HS HO HV] D X] R. cbn [fst snd] in *.
  unfold bind_sym. unfold is_rule in R. rewrite R. unfold visible. cbn [fst snd].
  pose proof (HS n) as Sn. pose proof (HO n) as On.
  destruct fs as [|f fs].
  - cbn [sizes concat app map] in *. rewrite X, Sn, On.
    destruct (named n g) as [|x ts] eqn:E; cbn [hd_error].
    + eexists. split; [reflexivity|]. split; [|cbn [c_rules c_mark]; auto].
      constructor; cbn [c_decls c_ctx fst snd declare concat map sizes]; auto.
      constructor; cbn [c_sym c_over c_ovd redeclared app]; auto.
      * intros m. destruct (text_dec n m) as [-> | DD].
        -- now rewrite tset_same, named_cons_same.
        -- rewrite tset_other, named_cons_other by exact DD. apply HS.
      * intros m. destruct (text_dec n m) as [-> | DD].
        -- rewrite named_cons_same, E, On. reflexivity.
        -- rewrite named_cons_other by exact DD. apply HO.
    + eexists. split; [reflexivity|]. split; [|cbn [c_rules c_mark]; auto].
      constructor; cbn [c_decls c_ctx fst snd declare concat map sizes]; auto.
      constructor; cbn [c_sym c_over c_ovd redeclared app]; auto.
      * intros m. destruct (text_dec n m) as [-> | DD].
        -- now rewrite tset_same, named_cons_same.
        -- rewrite tset_other, named_cons_other by exact DD. apply HS.
      * intros m. destruct (text_dec n m) as [-> | DD].
        -- rewrite tset_same, named_cons_same, E. apply over_step.
        -- rewrite tset_other, named_cons_other by exact DD. apply HO.
  - cbn [sizes concat] in *. rewrite X, Sn, On.
    destruct (named n ((f ++ concat fs) ++ g)) as [|x ts] eqn:E; cbn [hd_error].
    + eexists. split; [reflexivity|]. split; [|cbn [c_rules c_mark]; auto].
      constructor; cbn [c_decls c_ctx fst snd declare concat map sizes app].
      * constructor; cbn [c_sym c_over c_ovd redeclared app].
        -- intros m. destruct (text_dec n m) as [-> | DD].
           ++ now rewrite tset_same, named_cons_same.
           ++ rewrite tset_other, named_cons_other by exact DD. apply HS.
        -- intros m. destruct (text_dec n m) as [-> | DD].
           ++ rewrite named_cons_same, E, On. reflexivity.
           ++ rewrite named_cons_other by exact DD. apply HO.
        -- now rewrite E.
      * now rewrite D.
      * reflexivity.
    + eexists. split; [reflexivity|]. split; [|cbn [c_rules c_mark]; auto].
      constructor; cbn [c_decls c_ctx fst snd declare concat map sizes app].
      * constructor; cbn [c_sym c_over c_ovd redeclared app].
        -- intros m. destruct (text_dec n m) as [-> | DD].
           ++ now rewrite tset_same, named_cons_same.
           ++ rewrite tset_other, named_cons_other by exact DD. apply HS.
        -- intros m. destruct (text_dec n m) as [-> | DD].
           ++ rewrite tset_same, named_cons_same, E. apply over_step.
           ++ rewrite tset_other, named_cons_other by exact DD. apply HO.
        -- rewrite E, HV. reflexivity.
      * now rewrite D.
      * reflexivity.
Qed.

Lemma empty_rel : rel ([], []) scope_empty.
Proof. repeat constructor. Qed.

Lemma rule_rel : forall rt F s n e s', rel F s -> is_rule rt e = true -> bind_sym rt s n e = Some s' ->
  rel F s' /\ c_mark s' = c_mark s.
Proof.
  intros rt F s n e s' [[HS HO HV] D X] R H. unfold bind_sym in H. unfold is_rule in R. rewrite R in H.
  destruct (c_rules s n); [discriminate|]. injection H as <-. split; [|reflexivity].
  constructor; auto. constructor; auto.
Qed.

Lemma exec_rel : forall rt cs F s s', no_reset cs -> rel F s -> sexec rt s cs = Ok s' ->
  exists F', scopes rt F cs F' /\ rel F' s'.
Proof.
  intros rt. induction cs as [|c cs IH]; intros F s s' NR R H.
  - injection H as <-. exists F. split; [constructor | exact R].
  - assert (NR' : no_reset cs) by (intros I; apply NR; now right).
    cbn [sexec] in H. destruct c as [n e | | |]; cbn [sexec1] in H.
    + destruct (is_rule rt e) eqn:Q.
      * destruct (bind_sym rt s n e) as [s1|] eqn:B; [|discriminate]. cbn [bind] in H.
        destruct (rule_rel _ _ _ _ _ _ R Q B) as [R1 _].
        destruct (IH F s1 s' NR' R1 H) as (F' & SC & R').
        exists F'. split; [now apply sc_rule | exact R'].
      * destruct (bind_rel rt F s n e R Q) as (s1 & B & R1 & _ & _). rewrite B in H. cbn [bind] in H.
        destruct (IH _ s1 s' NR' R1 H) as (F' & SC & R').
        exists F'. split; [now apply sc_bind | exact R'].
    + cbn [bind] in H. destruct F as [fs g].
      destruct (IH _ _ s' NR' (push_rel _ _ _ R) H) as (F' & SC & R').
      exists F'. split; [now apply sc_push | exact R'].
    + destruct F as [[|f fs] g].
      * pose proof (re_ctx _ _ R) as X. cbn [fst sizes] in X. unfold popScope in H. rewrite X in H. discriminate.
      * destruct (pop_rel _ _ _ _ R) as (s1 & P & R1 & _). rewrite P in H. cbn [bind] in H.
        destruct (IH _ _ s' NR' R1 H) as (F' & SC & R').
        exists F'. split; [now apply sc_pop | exact R'].
    + exfalso. apply NR. now left.
Qed.

Lemma exec_no_ub : forall rt cs F s, no_reset cs -> rel F s -> sexec rt s cs <> UB /\ sexec rt s cs <> Fuel.
Proof.
  intros rt. induction cs as [|c cs IH]; intros F s NR R.
  - split; discriminate.
  - assert (NR' : no_reset cs) by (intros I; apply NR; now right).
    cbn [sexec]. destruct c as [n e | | |]; cbn [sexec1].
    + destruct (is_rule rt e) eqn:Q.
      * destruct (bind_sym rt s n e) as [s1|] eqn:B; [|split; discriminate]. cbn [bind].
        destruct (rule_rel _ _ _ _ _ _ R Q B) as [R1 _]. now apply IH with F.
      * destruct (bind_rel rt F s n e R Q) as (s1 & B & R1 & _ & _). rewrite B. cbn [bind].
        now apply IH with (declare F (n, e)).
    + cbn [bind]. destruct F as [fs g]. apply IH with ([] :: fs, g); auto using push_rel.
    + destruct F as [[|f fs] g].
      * pose proof (re_ctx _ _ R) as X. cbn [fst sizes] in X. unfold popScope. rewrite X. split; discriminate.
      * destruct (pop_rel _ _ _ _ R) as (s1 & P & R1 & _). rewrite P. cbn [bind]. now apply IH with (fs, g).
    + exfalso. apply NR. now left.
Qed.

(** With no command that can fail the sequence is accepted. *)
Lemma exec_accepted : forall rt cs F s F',
  (forall n e, In (SBind n e) cs -> is_rule rt e = false) ->
  rel F s -> scopes rt F cs F' -> exists s', sexec rt s cs = Ok s' /\ rel F' s'.
Proof.
  intros rt cs F s F' NR R SC. revert s R. induction SC as [F | F n e cs F' Q SC IH | F n e cs F' Q SC IH | fs g cs F' SC IH | f fs g cs F' SC IH]; intros s R.
  - exists s. auto.
  - destruct (bind_rel rt F s n e R Q) as (s1 & B & R1 & _ & _). cbn [sexec sexec1]. rewrite B. cbn [bind].
    apply IH; [|exact R1]. intros n' e' I. apply (NR n' e'). now right.
  - rewrite (NR n e) in Q by now left. discriminate.
  - cbn [sexec sexec1 bind]. apply IH; [|now apply push_rel]. intros n' e' I. apply (NR n' e'). now right.
  - destruct (pop_rel _ _ _ _ R) as (s1 & P & R1 & _). cbn [sexec sexec1]. rewrite P. cbn [bind].
    apply IH; [|exact R1]. intros n' e' I. apply (NR n' e'). now right.
Qed.

Lemma sexec_app : forall rt a b s, sexec rt s (a ++ b) = (let* s' := sexec rt s a in sexec rt s' b).
Proof.
  intros rt. induction a as [|c a IH]; intros b s; [reflexivity|].
  cbn [app sexec]. destruct (sexec1 rt s c); cbn [bind]; auto.
Qed.

Lemma scopes_app : forall rt a b F F', scopes rt F (a ++ b) F' -> exists F1, scopes rt F a F1 /\ scopes rt F1 b F'.
Proof.
  intros rt. induction a as [|c a IH]; intros b F F' H.
  - exists F. split; [constructor | exact H].
  - cbn [app] in H. inversion H; subst;
      match goal with X : scopes rt _ (a ++ b) F' |- _ => destruct (IH _ _ _ X) as (F1 & S1 & S2) end;
      exists F1; (split; [constructor; assumption | exact S2]).
Qed.

(** A balanced block changes the innermost scope only. *)
Lemma balanced_top : forall b, balanced b -> forall rt f fs g F',
  scopes rt (f :: fs, g) b F' -> exists f', F' = (f' :: fs, g).
Proof.
  intros b B. induction B as [| n e b B IH | a b Ba IHa Bb IHb]; intros rt f fs g F' H.
  - inversion H; subst. now exists f.
  - inversion H; subst; [cbn [declare] in *|]; eapply IH; eassumption.
  - inversion H; subst.
    match goal with X : scopes _ _ (a ++ _) _ |- _ => destruct (scopes_app _ _ _ _ _ X) as (F1 & S1 & S2) end.
    destruct (IHa _ _ _ _ _ S1) as (f' & ->). inversion S2; subst. eapply IHb; eassumption.
Qed.

Lemma restores : forall rt cs b s, no_reset cs -> balanced b -> no_reset b ->
  sexec rt scope_empty (cs ++ SPush :: b ++ [SPop]) = Ok s ->
  exists s0, sexec rt scope_empty cs = Ok s0
    /\ (forall n, getVar s n = getVar s0 n) /\ (forall n, c_over s n = c_over s0 n)
    /\ c_decls s = c_decls s0 /\ c_ctx s = c_ctx s0 /\ c_ovd s = c_ovd s0.
Proof.
  intros rt cs b s NR B NB H. rewrite sexec_app in H.
  destruct (sexec rt scope_empty cs) as [s0| | |] eqn:E; try discriminate. cbn [bind] in H.
  exists s0. split; [reflexivity|].
  destruct (exec_rel _ _ _ _ _ NR empty_rel E) as ([fs g] & SC & R).
  assert (NR2 : no_reset (SPush :: b ++ [SPop])).
  { intros [I | I]; [discriminate|]. apply in_app_or in I. destruct I as [I | [I | []]]; [now apply NB | discriminate]. }
  destruct (exec_rel _ _ _ _ _ NR2 R H) as (F' & SC2 & R2).
  inversion SC2; subst.
  match goal with X : scopes _ _ (b ++ _) _ |- _ => destruct (scopes_app _ _ _ _ _ X) as (F1 & S1 & S2) end.
  destruct (balanced_top b B _ _ _ _ _ S1) as (f' & ->). inversion S2; subst.
  match goal with X : scopes _ _ [] _ |- _ => inversion X; subst end.
  destruct R as [[HS HO HV] D X], R2 as [[HS2 HO2 HV2] D2 X2]. unfold getVar.
  repeat split; intros; congruence.
Qed.

(** ** Overload marks *)
Lemma undo_list_mark : forall l s s', undo_list s l = Ok s' -> c_mark s' = c_mark s.
Proof.
  induction l as [|x l IH]; intros s s' U; [now injection U as <-|].
  cbn [undo_list] in U. destruct (undo s x) as [s1| | |] eqn:V; try discriminate. cbn [bind] in U.
  rewrite (IH _ _ U). unfold undo in V. destruct (c_ovd s) as [|o ov]; [now injection V as <-|].
  destruct (text_eqb o x).
  - destruct (c_sym s x), (rev (c_over s x)) as [|? [|? ?]]; try discriminate. now injection V as <-.
  - now injection V as <-.
Qed.
Lemma mark_bound : forall rt cs pre s, 
  (forall t n, c_mark s t = Some n -> bound_to pre n t) ->
  forall s', sexec rt s cs = Ok s' -> forall t n, c_mark s' t = Some n -> bound_to (pre ++ cs) n t.
Proof.
  intros rt. induction cs as [|c cs IH]; intros pre s M s' H t n Mt.
  - injection H as <-. rewrite app_nil_r. now apply M.
  - cbn [sexec] in H. destruct (sexec1 rt s c) as [s1| | |] eqn:E; try discriminate. cbn [bind] in H.
    replace (pre ++ c :: cs) with ((pre ++ [c]) ++ cs) by now rewrite <- app_assoc.
    apply (IH (pre ++ [c]) s1) with s'; auto.
    clear - E M. intros t n Mt. unfold bound_to. apply in_or_app.
    destruct c as [m e | | |]; cbn [sexec1] in E.
    + destruct (bind_sym rt s m e) as [s2|] eqn:B; [|discriminate]. injection E as <-.
      unfold bind_sym in B. destruct (rt && _).
      * destruct (c_rules s m); [discriminate|]. injection B as <-. left. now apply M.
      * destruct (c_sym s m).
        -- injection B as <-. cbn [c_mark] in Mt. destruct (term_eqb e t) eqn:T.
           ++ apply term_eqb_eq in T. subst. injection Mt as ->. right. now left.
           ++ left. now apply M.
        -- injection B as <-. left. now apply M.
    + injection E as <-. left. now apply M.
    + unfold popScope in E. destruct (c_ctx s) as [|k ctx]; [discriminate|].
      destruct (undo_list s _) as [s2| | |] eqn:U; try discriminate. injection E as <-. cbn [c_mark] in Mt.
      left. apply M. rewrite <- Mt. rewrite (undo_list_mark _ _ _ U). reflexivity.
    + injection E as <-. left. now apply M.
Qed.

Lemma scopes_bound : forall rt cs F F', scopes rt F cs F' ->
  forall n e, In (n, e) (visible F') -> In (n, e) (visible F) \/ bound_to cs n e.
Proof.
  intros rt cs F F' SC. induction SC as [F | F n e cs F' Q SC IH | F n e cs F' Q SC IH | fs g cs F' SC IH | f fs g cs F' SC IH]; intros m t I.
  - now left.
  - destruct (IH m t I) as [J | J].
    + destruct F as [[|f fs] g]; cbn [declare] in J; unfold visible in *; cbn [fst snd concat app] in *;
        (destruct J as [J | J]; [injection J as <- <-; right; now left | now left]).
    + right. now right.
  - destruct (IH m t I) as [J | J]; [now left | right; now right].
  - destruct (IH m t I) as [J | J]; [now left | right; now right].
  - destruct (IH m t I) as [J | J]; [left | right; now right].
    unfold visible in *. cbn [fst snd concat] in *. rewrite <- app_assoc. apply in_or_app. now right.
Qed.

Lemma named_in : forall n ds e, In e (named n ds) <-> In (n, e) ds.
Proof.
  intros n ds e. unfold named. rewrite in_map_iff. split.
  - intros ([m t] & <- & I). apply filter_In in I. destruct I as [I T]. cbn [fst snd] in *.
    apply text_eqb_eq in T. now subst.
  - intros I. exists (n, e). split; [reflexivity|]. apply filter_In. split; [exact I | apply text_eqb_refl].
Qed.
Lemma alternatives_in : forall ts e, In e (alternatives ts) -> In e ts.
Proof.
  intros [|a [|b ts]] e H; try contradiction. cbn [alternatives] in H. now apply in_rev.
Qed.

Lemma own_alternatives : forall rt cs s n t ov, no_reset cs -> one_name_each cs ->
  sexec rt scope_empty cs = Ok s -> getVar s n = Some t -> overloads_of s t = Some ov ->
  forall e, In e ov -> bound_to cs n e.
Proof.
  intros rt cs s n t ov NR ON H V O e I.
  destruct (exec_rel _ _ _ _ _ NR empty_rel H) as (F & SC & [[HS HO HV] D X]).
  unfold overloads_of in O. destruct (c_mark s t) as [m|] eqn:M; [|discriminate]. injection O as <-.
  assert (B1 : bound_to cs m t).
  { apply (mark_bound rt cs [] scope_empty) with s; auto. intros ? ? Q. discriminate. }
  assert (VB : forall k x, In (k, x) (visible F) -> bound_to cs k x).
  { intros k x J. destruct (scopes_bound _ _ _ _ SC k x J) as [[] | J']. exact J'. }
  assert (B2 : bound_to cs n t).
  { apply VB. apply named_in. unfold getVar in V. rewrite HS in V. unfold visible.
    destruct (named n _); [discriminate|]. injection V as ->. now left. }
  rewrite (ON _ _ _ B2 B1). apply VB. apply named_in. rewrite HO in I. now apply alternatives_in.
Qed.

(** ** Reset *)
Lemma named_distinct : forall ds, NoDup (map fst ds) -> forall n, (length (named n ds) <= 1)%nat.
Proof.
  induction ds as [|[m e] ds IH]; intros ND n; [cbn; lia|].
  inversion ND as [|x l NI ND']; subst. destruct (text_dec m n) as [-> | D].
  - rewrite named_cons_same. destruct (named n ds) as [|y ts] eqn:E; [cbn; lia|].
    exfalso. apply NI. apply in_map_iff. exists (n, y). split; [reflexivity|].
    apply named_in. rewrite E. now left.
  - rewrite named_cons_other by exact D. now apply IH.
Qed.
Lemma redeclared_distinct : forall nb g, NoDup (map fst (nb ++ g)) -> redeclared nb g = [].
Proof.
  induction nb as [|[m e] nb IH]; intros g ND; [reflexivity|].
  cbn [app map fst] in ND. inversion ND as [|x l NI ND']; subst. cbn [redeclared].
  destruct (named m (nb ++ g)) as [|y ts] eqn:E; [now apply IH|].
  exfalso. apply NI. apply in_map_iff. exists (m, y). split; [reflexivity|]. apply named_in. rewrite E. now left.
Qed.

Lemma reset_fresh : forall F s, rel F s -> NoDup (map fst (visible F)) -> rel ([], []) (resetScope s).
Proof.
  intros F s [[HS HO HV] D X] ND. constructor; cbn; auto. constructor; cbn; auto.
  - intros n. rewrite HO. pose proof (named_distinct _ ND n) as L. unfold visible in L.
    destruct (named n _) as [|a [|b ts]]; cbn in *; auto; lia.
  - rewrite HV. now apply redeclared_distinct.
Qed.

(** ** Settings made once *)
Lemma kind_eqb_refl' : forall k, kind_eqb k k = true.
Proof. intros k. now apply kind_eqb_eq. Qed.
Lemma term_eqb_refl' : forall t, term_eqb t t = true.
Proof. intros t. now apply term_eqb_eq. Qed.

Lemma arun_app : forall a b s, arun s (a ++ b) =
  (let* (s1, ra) := arun s a in let* (s2, rb) := arun s1 b in Ok (s2, ra ++ rb)).
Proof.
  induction a as [|o a IH]; intros b s.
  - cbn [app arun bind]. destruct (arun s b) as [[s2 rb]| | |]; reflexivity.
  - cbn [app arun]. destruct (arun1 s o) as [[s1 r]| | |]; cbn [bind]; try reflexivity.
    rewrite IH. destruct (arun s1 a) as [[s2 ra]| | |]; cbn [bind]; try reflexivity.
    destruct (arun s2 b) as [[s3 rb]| | |]; reflexivity.
Qed.

(** Once set, a rule stays. *)
Lemma rule_kept1 : forall m c o m' c' r k t, m k = Some t -> arun1 (m, c) o = Ok ((m', c'), r) -> m' k = Some t.
Proof.
  intros m c o m' c' r k t K H. destruct o as [k2 t2 | k2 | v a ct | v]; cbn [arun1] in H.
  - unfold setLiteralTypeRule in H. destruct (existsb _ _); [|discriminate].
    destruct (m k2) as [t3|] eqn:M.
    + destruct (term_eqb t3 t2) eqn:T; [|discriminate]. cbn [bind] in H. injection H as <- <- <-.
      destruct (kind_eqb k2 k) eqn:Q; [|exact K]. apply kind_eqb_eq in Q. apply term_eqb_eq in T. congruence.
    + cbn [bind] in H. injection H as <- <- <-. destruct (kind_eqb k2 k) eqn:Q; [|exact K].
      apply kind_eqb_eq in Q. congruence.
  - unfold getOrSetLiteralTypeRule in H. destruct (existsb _ _); [|discriminate].
    destruct (m k2) as [t3|] eqn:M; cbn [bind] in H; injection H as <- <- <-; [exact K|].
    destruct (kind_eqb k2 k) eqn:Q; [|exact K]. apply kind_eqb_eq in Q. congruence.
  - destruct (markConstructorKind c v a ct) as [c1 b]. injection H as <- <- <-. exact K.
  - injection H as <- <- <-. exact K.
Qed.
Lemma rule_kept : forall os m c m' c' rs k t, m k = Some t -> arun (m, c) os = Ok ((m', c'), rs) -> m' k = Some t.
Proof.
  induction os as [|o os IH]; intros m c m' c' rs k t K H.
  - injection H as <- <- <-. exact K.
  - cbn [arun] in H. destruct (arun1 (m, c) o) as [[[m1 c1] r]| | |] eqn:E; try discriminate. cbn [bind] in H.
    destruct (arun (m1, c1) os) as [[[m2 c2] rs2]| | |] eqn:F; try discriminate. cbn [bind] in H.
    injection H as <- <- <-. eapply IH; [|exact F]. eapply rule_kept1; eassumption.
Qed.
Lemma mark_kept1 : forall m c o m' c' r v x, c v = Some x -> arun1 (m, c) o = Ok ((m', c'), r) -> c' v = Some x.
Proof.
  intros m c o m' c' r v x K H. destruct o as [k2 t2 | k2 | w a ct | w]; cbn [arun1] in H.
  - destruct (setLiteralTypeRule m k2 t2) as [m1| | |]; try discriminate. injection H as <- <- <-. exact K.
  - destruct (getOrSetLiteralTypeRule m k2) as [[m1 t1]| | |]; try discriminate. injection H as <- <- <-. exact K.
  - unfold markConstructorKind in H. destruct (c w) eqn:W; injection H as <- <- <-; [exact K|].
    destruct (term_eqb w v) eqn:Q; [|exact K]. apply term_eqb_eq in Q. congruence.
  - injection H as <- <- <-. exact K.
Qed.
Lemma mark_kept : forall os m c m' c' rs v x, c v = Some x -> arun (m, c) os = Ok ((m', c'), rs) -> c' v = Some x.
Proof.
  induction os as [|o os IH]; intros m c m' c' rs v x K H.
  - injection H as <- <- <-. exact K.
  - cbn [arun] in H. destruct (arun1 (m, c) o) as [[[m1 c1] r]| | |] eqn:E; try discriminate. cbn [bind] in H.
    destruct (arun (m1, c1) os) as [[[m2 c2] rs2]| | |] eqn:F; try discriminate. cbn [bind] in H.
    injection H as <- <- <-. eapply IH; [|exact F]. eapply mark_kept1; eassumption.
Qed.
Lemma arun_split : forall os s s' rs i o r, arun s os = Ok (s', rs) -> answered os rs i o r ->
  exists a b ra rb s1 s2, os = a ++ o :: b /\ rs = ra ++ r :: rb /\ length a = i /\ length ra = i /\
    arun s a = Ok (s1, ra) /\ arun1 s1 o = Ok (s2, r) /\ arun s2 b = Ok (s', rb).
Proof.
  induction os as [|p os IH]; intros s s' rs i o r H [A1 A2].
  - destruct i; discriminate.
  - cbn [arun] in H. destruct (arun1 s p) as [[s1 q]| | |] eqn:E; try discriminate. cbn [bind] in H.
    destruct (arun s1 os) as [[s2 qs]| | |] eqn:F; try discriminate. cbn [bind] in H. injection H as <- <-.
    destruct i as [|i].
    + injection A1 as ->. injection A2 as ->. exists [], os, [], qs, s, s1. repeat split; auto.
    + destruct (IH _ _ _ i o r F (conj A1 A2)) as (a & b & ra & rb & t1 & t2 & -> & -> & L1 & L2 & R1 & R2 & R3).
      exists (p :: a), b, (q :: ra), rb, t1, t2. cbn [length app arun]. rewrite E. cbn [bind]. rewrite R1. cbn [bind].
      repeat split; auto.
Qed.

(** What a request says holds afterwards. *)
Lemma says_after : forall m c o m' c' r k t, arun1 (m, c) o = Ok ((m', c'), r) -> says o r k t -> m' k = Some t.
Proof.
  intros m c o m' c' r k t H [[-> ->] | [-> ->]]; cbn [arun1] in H.
  - unfold setLiteralTypeRule in H. destruct (existsb _ _); [|discriminate].
    destruct (m k) as [t3|] eqn:M.
    + destruct (term_eqb t3 t); [|discriminate]. cbn [bind] in H. injection H as <- <-. now rewrite kind_eqb_refl'.
    + cbn [bind] in H. injection H as <- <-. now rewrite kind_eqb_refl'.
  - unfold getOrSetLiteralTypeRule in H. destruct (existsb _ _); [|discriminate].
    destruct (m k) as [t3|] eqn:M; cbn [bind] in H.
    + injection H as <- <- <-. exact M.
    + injection H as <- <- <-. now rewrite kind_eqb_refl'.
Qed.
Lemma says_attr_after : forall m c o m' c' r v a ct, arun1 (m, c) o = Ok ((m', c'), r) -> says_attr o r v a ct ->
  c' v = Some (a, ct).
Proof.
  intros m c o m' c' r v a ct H [[-> ->] | [-> ->]]; cbn [arun1] in H.
  - unfold markConstructorKind in H. destruct (c v); [discriminate|]. injection H as <- <-. now rewrite term_eqb_refl'.
  - injection H as <- <- K. exact K.
Qed.

(** Two requests, one after the other. *)
Lemma arun_two : forall os s s' rs i j o r o' r', arun s os = Ok (s', rs) -> (i < j)%nat ->
  answered os rs i o r -> answered os rs j o' r' ->
  exists a ra s1 s2 mid rmid s3 s4, arun s a = Ok (s1, ra) /\ arun1 s1 o = Ok (s2, r) /\
    arun s2 mid = Ok (s3, rmid) /\ arun1 s3 o' = Ok (s4, r').
Proof.
  intros os s s' rs i j o r o' r' H L A1 A2.
  destruct (arun_split _ _ _ _ _ _ _ H A1) as (a & b & ra & rb & s1 & s2 & -> & -> & L1 & L2 & R1 & R2 & R3).
  assert (A3 : answered b rb (j - S i) o' r').
  { destruct A2 as [X Y].
    rewrite nth_error_app2 in X by lia. rewrite nth_error_app2 in Y by lia. rewrite L1 in X. rewrite L2 in Y.
    replace (j - i)%nat with (S (j - S i)) in X, Y by lia. split; [exact X | exact Y]. }
  destruct (arun_split _ _ _ _ _ _ _ R3 A3) as (a2 & b2 & ra2 & rb2 & t1 & t2 & -> & -> & M1 & M2 & Q1 & Q2 & Q3).
  exists a, ra, s1, s2, a2, ra2, t1, t2. auto.
Qed.

Lemma one_rule_lt : forall os rs i j o o' r r' k t t', settings os rs -> (i < j)%nat ->
  answered os rs i o r -> answered os rs j o' r' -> says o r k t -> says o' r' k t' -> t = t'.
Proof.
  intros os rs i j o o' r r' k t t' [s' H] L A1 A2 S1 S2.
  destruct (arun_two _ _ _ _ _ _ _ _ _ _ H L A1 A2) as (a & ra & [m1 c1] & [m2 c2] & mid & rmid & [m3 c3] & [m4 c4] & R1 & R2 & R3 & R4).
  pose proof (says_after _ _ _ _ _ _ _ _ R2 S1) as K2. pose proof (rule_kept _ _ _ _ _ _ _ _ K2 R3) as K3.
  pose proof (rule_kept1 _ _ _ _ _ _ _ _ K3 R4) as K4. pose proof (says_after _ _ _ _ _ _ _ _ R4 S2) as K5. congruence.
Qed.
Lemma one_rule : forall os rs i j o o' r r' k t t', settings os rs ->
  answered os rs i o r -> answered os rs j o' r' -> says o r k t -> says o' r' k t' -> t = t'.
Proof.
  intros os rs i j o o' r r' k t t' H A1 A2 S1 S2.
  destruct (Nat.lt_trichotomy i j) as [L | [-> | L]].
  - eapply one_rule_lt with (i := i) (j := j); eassumption.
  - destruct A1 as [X1 Y1], A2 as [X2 Y2]. rewrite X1 in X2. injection X2 as <-. rewrite Y1 in Y2. injection Y2 as <-.
    destruct S1 as [[-> ->] | [-> ->]], S2 as [[X Y] | [X Y]]; congruence.
  - symmetry. eapply one_rule_lt with (i := j) (j := i); eassumption.
Qed.
Lemma one_attr_lt : forall os rs i j o o' r r' v a ct a' ct', settings os rs -> (i < j)%nat ->
  answered os rs i o r -> answered os rs j o' r' -> says_attr o r v a ct -> says_attr o' r' v a' ct' -> a = a' /\ ct = ct'.
Proof.
  intros os rs i j o o' r r' v a ct a' ct' [s' H] L A1 A2 S1 S2.
  destruct (arun_two _ _ _ _ _ _ _ _ _ _ H L A1 A2) as (p & rp & [m1 c1] & [m2 c2] & mid & rmid & [m3 c3] & [m4 c4] & R1 & R2 & R3 & R4).
  pose proof (says_attr_after _ _ _ _ _ _ _ _ _ R2 S1) as K2. pose proof (mark_kept _ _ _ _ _ _ _ _ K2 R3) as K3.
  pose proof (mark_kept1 _ _ _ _ _ _ _ _ K3 R4) as K4. pose proof (says_attr_after _ _ _ _ _ _ _ _ _ R4 S2) as K5.
  rewrite K4 in K5. injection K5 as <- <-. auto.
Qed.
Lemma one_attr : forall os rs i j o o' r r' v a ct a' ct', settings os rs ->
  answered os rs i o r -> answered os rs j o' r' -> says_attr o r v a ct -> says_attr o' r' v a' ct' -> a = a' /\ ct = ct'.
Proof.
  intros os rs i j o o' r r' v a ct a' ct' H A1 A2 S1 S2.
  destruct (Nat.lt_trichotomy i j) as [L | [-> | L]].
  - eapply one_attr_lt with (i := i) (j := j); eassumption.
  - destruct A1 as [X1 Y1], A2 as [X2 Y2]. rewrite X1 in X2. injection X2 as <-. rewrite Y1 in Y2. injection Y2 as <-.
    destruct S1 as [[-> ->] | [-> ->]], S2 as [[X Y] | [X Y]]; try discriminate.
    + injection X as <- <-. auto.
    + injection Y as <- <-. auto.
  - destruct (one_attr_lt _ _ _ _ _ _ _ _ _ _ _ _ _ H L A2 A1 S2 S1) as [-> ->]. auto.
Qed.
(** A mark is accepted exactly once. *)
Lemma mark_once : forall os rs i j o r v a ct b a' ct', settings os rs -> (i < j)%nat ->
  answered os rs i o r -> says_attr o r v a ct -> answered os rs j (AMark v a' ct') (AAccepted b) -> b = false.
Proof.
  intros os rs i j o r v a ct b a' ct' [s' H] L A1 S1 A2.
  destruct (arun_two _ _ _ _ _ _ _ _ _ _ H L A1 A2) as (p & rp & [m1 c1] & [m2 c2] & mid & rmid & [m3 c3] & [m4 c4] & R1 & R2 & R3 & R4).
  pose proof (says_attr_after _ _ _ _ _ _ _ _ _ R2 S1) as K2. pose proof (mark_kept _ _ _ _ _ _ _ _ K2 R3) as K3.
  cbn [arun1] in R4. unfold markConstructorKind in R4. rewrite K3 in R4. now injection R4 as <- <- <-.
Qed.
(** A conflicting rule stops the run. *)
Lemma conflict_stops : forall os rs i o r k t t', settings os rs -> answered os rs i o r -> says o r k t -> t <> t' ->
  arun (lrules_init, fun _ => None) (os ++ [ASetRule k t']) = Err.
Proof.
  intros os rs i o r k t t' [[m c] H] A S D. rewrite arun_app, H. cbn [bind arun arun1].
  assert (K : m k = Some t).
  { destruct (arun_split _ _ _ _ _ _ _ H A) as (a & b & ra & rb & [m1 c1] & [m2 c2] & -> & -> & L1 & L2 & R1 & R2 & R3).
    pose proof (says_after _ _ _ _ _ _ _ _ R2 S) as K2. eapply rule_kept; eassumption. }
  unfold setLiteralTypeRule. destruct (existsb _ _); [|reflexivity]. rewrite K.
  destruct (term_eqb t t') eqn:T; [|reflexivity]. apply term_eqb_eq in T. contradiction.
Qed.
