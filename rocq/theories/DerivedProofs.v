(** Proofs about the programs of tests/eo-definitions.eo. *)
From Coq Require Import String ZArith List Bool Lia Permutation.
From Verif Require Import Base Kind Ints Str Literal Arity Term SpecTerm SpecEval SpecList TermProofs Match MatchProofs Eval EvalProofs ListOps Typing SpecDerived.
Import ListNotations. Open Scope Z_scope.

(** Finite substitutions. *)
Fixpoint look (i : Z) (l : list (Z * term)) : option term :=
  match l with [] => None | (j, v) :: l' => if i =? j then Some v else look i l' end.
Definition subl (l : list (Z * term)) : sub :=
  fun t => match t with Sym K_PARAM i => look i l | _ => None end.

Ltac nodup := repeat match goal with
  | H : NoDup (_ :: _) |- _ => inversion H; clear H; subst
  | H : NoDup [] |- _ => clear H
  | H : ~ In _ (_ :: _) |- _ => cbn [In] in H
  | H : ~ (_ \/ _) |- _ => apply Decidable.not_or in H; destruct H
  | H : ~ False |- _ => clear H
  | H : ~ In _ [] |- _ => clear H
  end.
Ltac lk := cbn [subl look par]; repeat first
  [ rewrite Z.eqb_refl
  | match goal with |- context [?a =? ?b] => rewrite (proj2 (Z.eqb_neq a b)) by (first [assumption | apply not_eq_sym; assumption]) end ].

Lemma occurs_par : forall p i, is_param p -> occurs p (par i) -> p = par i.
Proof. intros p i _ H. inversion H; reflexivity. Qed.

Lemma app_plain : forall cs, ~ is_param (Node K_APPLY cs) /\ ~ is_any (Node K_APPLY cs).
Proof. intro cs. split; [intros [i H]; discriminate|intro H; discriminate H]. Qed.
Lemma occurs_app2 : forall u f x y, occurs u (app2 f x y) ->
  (exists cs, u = Node K_APPLY cs) \/ occurs u f \/ occurs u x \/ occurs u y.
Proof.
  intros u f x y H. inversion H as [|k cs c Hc Ho]; subst; [left; eexists; reflexivity|].
  destruct Hc as [<-|[<-|[]]]; [|auto].
  inversion Ho as [|k cs c Hc Ho2]; subst; [left; eexists; reflexivity|].
  destruct Hc as [<-|[<-|[]]]; auto.
Qed.
Lemma val_app : forall f x y, value f -> value x -> value y -> value (app2 f x y).
Proof.
  intros f x y (W1 & C1 & I1) (W2 & C2 & I2) (W3 & C3 & I3). split; [|split].
  - repeat constructor; assumption.
  - intros u Hu. apply occurs_app2 in Hu. destruct Hu as [[cs ->]|[Hu|[Hu|Hu]]]; auto using app_plain.
  - intros u Hu. apply occurs_app2 in Hu. destruct Hu as [[cs ->]|[Hu|[Hu|Hu]]]; auto.
    intros [[i E]|[E|[k [ds [E [_ F]]]]]]; try discriminate. injection E as <- <-. discriminate F.
Qed.
Lemma val_rlist : forall f nl xs, value f -> value nl -> Forall value xs -> value (rlist f nl xs).
Proof. intros f nl xs Hf Hn. induction 1; cbn [rlist]; [assumption|]. apply val_app; assumption. Qed.
Lemma val_lit : forall l, value (Lit l).
Proof.
  intro l. split; [constructor|split].
  - intros u Hu. inversion Hu; subst. split; [intros [i H]; discriminate|intro H; discriminate H].
  - intros u Hu. inversion Hu; subst. intros [[i E]|[E|[k [ds [E [_ F]]]]]]; discriminate.
Qed.
Lemma val_not_prog : forall v, value v -> ~ is_program v.
Proof. intros v (_ & _ & I) [i ->]. apply (I (Sym K_PROGRAM_CONST i)); [constructor|]. left. eexists. reflexivity. Qed.
Lemma app_not_prog : forall cs, ~ is_program (Node K_APPLY cs).
Proof. intros cs [i E]. discriminate. Qed.

Section Run.
Variable E : env.
Variable n : nat.
Variable progs : term -> option (list pcase).
Local Notation lop := (tc_lop (tc E (S n))).
Local Notation EV := (ev lop progs shortcut).
Local Notation EVS := (evs lop progs shortcut).

Lemma ev_var : forall s i v, s (par i) = Some v -> EV s (par i) v.
Proof. intros s i v H. pose proof (ev_param lop progs shortcut s i) as A. unfold par in *. rewrite H in A. exact A. Qed.
Lemma ev_lit : forall s l, EV s (Lit l) (Lit l).
Proof. intros s l. apply ev_const; [reflexivity|]. intros [i H]. discriminate. Qed.
Lemma ev_prog : forall s i, EV s (prog i) (prog i).
Proof. intros s i. apply ev_const; [reflexivity|]. intros [j H]. discriminate. Qed.
Lemma ev_app2 : forall s f x y f' x' y', EV s f f' -> EV s x x' -> EV s y y' -> ~ is_program f' ->
  EV s (app2 f x y) (app2 f' x' y').
Proof.
  intros s f x y f' x' y' Hf Hx Hy N. apply ev_apply; [left; reflexivity| |apply app_not_prog].
  constructor; [|constructor; [exact Hy|constructor]].
  apply ev_apply; [left; reflexivity| |exact N]. constructor; [exact Hf|]. constructor; [exact Hx|constructor].
Qed.
Lemma ev_plus : forall s a b x y, EV s a (num x) -> EV s b (num y) -> EV s (plus a b) (num (x + y)).
Proof.
  intros s a b x y Ha Hb. eapply ev_op; [reflexivity|discriminate|discriminate| |].
  - constructor; [exact Ha|]. constructor; [exact Hb|constructor].
  - reflexivity.
Qed.
Lemma ev_required : forall s c r v, EV s c (boolean true) -> EV s r v -> EV s (required c r) v.
Proof.
  intros s c r v Hc Hr. eapply ev_op; [reflexivity|discriminate|discriminate| |].
  - constructor; [exact Hc|]. constructor; [apply ev_lit|]. constructor; [exact Hr|constructor].
  - reflexivity.
Qed.
Lemma ev_not_required : forall s c r v, EV s c (boolean false) -> EV s r v ->
  EV s (required c r) (required (boolean false) v).
Proof.
  intros s c r v Hc Hr. eapply ev_op_stuck; [reflexivity|discriminate|discriminate| |].
  - constructor; [exact Hc|]. constructor; [apply ev_lit|]. constructor; [exact Hr|constructor].
  - reflexivity.
Qed.

(** A call that selects a case whose right hand side mentions a parameter. *)
Lemma run_call : forall s p ts args cases body f r i q,
  EVS s ts args -> Forall value args -> progs (prog p) = Some cases ->
  selects args cases (Some (body, f)) -> occurs (par i) body -> f q <> None ->
  EV f body r -> EV s (call p ts) r.
Proof.
  intros s p ts args cases body f r i q Ha Hv Hp Hs Ho Hq He.
  eapply ev_call_run; [left; reflexivity| |eexists; reflexivity| | |exact He].
  - constructor; [apply ev_prog|exact Ha].
  - apply (call_case _ _ _ cases); [| |exact Hp|exact Hs].
    + eapply Forall_impl; [|exact Hv]. intros a (_ & C & _). exact C.
    + eapply Forall_impl; [|exact Hv]. intros a (_ & _ & I). exact I.
  - intros [C|F]; [|exact (Hq (F q))]. destruct (C _ Ho) as [X _]. apply X. eexists. reflexivity.
Qed.
Lemma run_call_done : forall s p ts args cases body f,
  EVS s ts args -> Forall value args -> progs (prog p) = Some cases ->
  selects args cases (Some (body, f)) -> closed body -> EV s (call p ts) body.
Proof.
  intros s p ts args cases body f Ha Hv Hp Hs Hc.
  eapply ev_call_done; [left; reflexivity| |eexists; reflexivity| |left; exact Hc].
  - constructor; [apply ev_prog|exact Ha].
  - apply (call_case _ _ _ cases); [| |exact Hp|exact Hs].
    + eapply Forall_impl; [|exact Hv]. intros a (_ & C & _). exact C.
    + eapply Forall_impl; [|exact Hv]. intros a (_ & _ & I). exact I.
Qed.
End Run.


(** The parameters of a term. *)
Fixpoint pars (t : term) : list Z :=
  match t with
  | Sym k i => match k with K_PARAM => [i] | _ => [] end
  | Lit _ => []
  | Node _ cs => flat_map pars cs
  end.
Lemma pars_occurs : forall t i, In i (pars t) <-> occurs (par i) t.
Proof.
  induction t as [k j|l|k cs IH] using term_ind2; intro i.
  - split.
    + destruct k; cbn; try contradiction. intros [->|[]]. constructor.
    + intro H. inversion H; subst. left. reflexivity.
  - split; [contradiction|]. intro H. inversion H.
  - cbn [pars]. rewrite in_flat_map. rewrite Forall_forall in IH. split.
    + intros (c & Hc & Hi). apply (occ_child _ _ _ c); [exact Hc|]. apply IH; assumption.
    + intro H. inversion H; subst. exists c. split; [assumption|]. apply IH; assumption.
Qed.
Lemma look_dom : forall i l, look i l <> None <-> In i (map fst l).
Proof.
  induction l as [|[j v] l IH]; cbn [look map fst In]; [tauto|]. destruct (Z.eqb_spec i j) as [->|H].
  - split; [auto|discriminate].
  - rewrite IH. intuition congruence.
Qed.
Lemma exact_subl : forall l ps args, map (tsubst (subl l)) ps = args ->
  (forall i, In i (flat_map pars ps) <-> In i (map fst l)) -> exact_instance (subl l) ps args.
Proof.
  intros l ps args Hm Hd. split; [split; [exact Hm|]|].
  - intros q p Hq [i ->] Ho. cbn [subl]. apply look_dom. apply Hd. apply in_flat_map. exists q.
    split; [exact Hq|]. apply pars_occurs. exact Ho.
  - intros p Hp. destruct p as [k i| |]; try (exfalso; apply Hp; reflexivity).
    destruct k; try (exfalso; apply Hp; reflexivity). cbn [subl] in Hp. apply look_dom in Hp.
    apply Hd in Hp. apply in_flat_map in Hp. destruct Hp as (q & Hq & Hi).
    split; [eexists; reflexivity|]. exists q. split; [exact Hq|]. apply pars_occurs. exact Hi.
Qed.
Ltac inst := apply exact_subl;
  [unfold app2, num, par; cbn [map tsubst]; lk; reflexivity
  |intro; cbn [app2 par num pars flat_map map fst app In]; tauto].

Section Run2.
Variable E : env.
Variable n : nat.
Variable progs : term -> option (list pcase).
Variable L : library.
Hypothesis D : derived L progs.
Local Notation lop := (tc_lop (tc E (S n))).
Local Notation EV := (ev lop progs shortcut).
Local Notation EVS := (evs lop progs shortcut).

Ltac args := repeat (first [apply evs_nil | eapply evs_cons; [first [eassumption | apply ev_lit | apply ev_var; lk; reflexivity]|]]).
Ltac vals := repeat (first [apply Forall_nil | apply Forall_cons; [first [assumption | apply val_lit]|]]).

Lemma run_eq : forall s a b v w, EV s a v -> EV s b w -> value v -> value w ->
  EV s (call (l_eq L) [a; b]) (boolean (term_eqb v w)).
Proof.
  intros s a b v w Ha Hb Hv Hw. destruct D as [(t & u & N & P) _]. nodup.
  destruct (term_eqb v w) eqn:Q.
  - apply term_eqb_eq in Q. subst w.
    eapply run_call_done; [args|vals|exact P| |apply val_lit].
    apply sel_hit with (f := subl [(t, v)]). inst.
  - assert (Hn : v <> w) by (intro X; apply term_eqb_eq in X; congruence).
    eapply run_call_done; [args|vals|exact P| |apply val_lit].
    apply sel_next; [reflexivity| |].
    + intros g [Hm _]. cbn [map] in Hm. injection Hm as X Y. congruence.
    + apply sel_hit with (f := subl [(t, v); (u, w)]). inst.
Qed.

(** Every term is a list that ends in something else. *)
Lemma rlist_split : forall op l, exists xs e, l = rlist op e xs /\ not_app2 op e.
Proof.
  intros op l. induction l as [k j|l|k cs IH] using term_ind2.
  - exists [], (Sym k j). split; [reflexivity|]. intros x y H. discriminate.
  - exists [], (Lit l). split; [reflexivity|]. intros x y H. discriminate.
  - assert (Z : (exists x y, Node k cs = app2 op x y) \/ not_app2 op (Node k cs)).
    { destruct cs as [|c [|y [|]]]; try (right; intros u v H; discriminate).
      destruct c as [|?|k' ds]; try (right; intros u v H; discriminate).
      destruct ds as [|o [|x [|]]]; try (right; intros u v H; discriminate).
      destruct (kind_eqb k K_APPLY) eqn:K1; [|right; intros u v H; injection H as -> H; discriminate].
      destruct (kind_eqb k' K_APPLY) eqn:K2; [|right; intros u v H; injection H as _ -> H; discriminate].
      apply kind_eqb_eq in K1. apply kind_eqb_eq in K2. subst.
      destruct (term_eqb o op) eqn:K3.
      - apply term_eqb_eq in K3. subst. left. exists x, y. reflexivity.
      - right. intros u v H. injection H as -> _ _. assert (term_eqb op op = true) by (apply term_eqb_eq; reflexivity). congruence. }
    destruct Z as [(x & y & Z)|Z].
    + rewrite Z in *. injection Z as -> ->. rewrite Forall_forall in IH. destruct (IH y) as (xs & e & -> & He); [right; left; reflexivity|].
      exists (x :: xs), e. split; [reflexivity|exact He].
    + exists [], (Node k cs). split; [reflexivity|exact Z].
Qed.
Lemma val_sub : forall f x y, value (app2 f x y) -> value x /\ value y.
Proof.
  intros f x y (W & C & I). assert (W2 : twf x /\ twf y).
  { inversion W as [| |k cs _ _ Hc]; subst. rewrite Forall_forall in Hc. split; [|apply Hc; right; left; reflexivity].
    assert (Wi : twf (Node K_APPLY [f; x])) by (apply Hc; left; reflexivity).
    inversion Wi as [| |k cs _ _ Hd]; subst. rewrite Forall_forall in Hd. apply Hd. right; left; reflexivity. }
  destruct W2. split; split; try assumption; split; intros u Hu.
  - apply C. apply (occ_child _ _ _ (Node K_APPLY [f; x])); [left; reflexivity|]. apply (occ_child _ _ _ x); [right; left; reflexivity|exact Hu].
  - apply I. apply (occ_child _ _ _ (Node K_APPLY [f; x])); [left; reflexivity|]. apply (occ_child _ _ _ x); [right; left; reflexivity|exact Hu].
  - apply C. apply (occ_child _ _ _ y); [right; left; reflexivity|exact Hu].
  - apply I. apply (occ_child _ _ _ y); [right; left; reflexivity|exact Hu].
Qed.
Lemma val_parts : forall op e xs, value (rlist op e xs) -> value e /\ Forall value xs.
Proof.
  intros op e xs. induction xs as [|x xs IH]; cbn [rlist]; intro H; [split; [exact H|constructor]|].
  apply val_sub in H. destruct H as [Hx H]. destruct (IH H) as [He Hs]. split; [exact He|constructor; assumption].
Qed.

Section Op.
Variable op nl : term.
Hypothesis Vop : value op.
Hypothesis Vnl : value nl.

Lemma run_is_list : forall xs e s f u l, EV s f op -> EV s u nl -> EV s l (rlist op e xs) ->
  not_app2 op e -> value (rlist op e xs) ->
  EV s (call (l_is_list L) [f; u; l]) (boolean (term_eqb nl e)).
Proof.
  pose proof D as DD. destruct DD as (_ & (f0 & x0 & y0 & z0 & n0 & N & P) & _). nodup.
  induction xs as [|x xs IH]; intros e s f u l Hf Hu Hl He V; cbn [rlist] in *.
  - eapply (run_call E n progs _ _ _ _ _ _ (subl [(f0, op); (n0, nl); (z0, e)]) _ n0 (par n0)); [args|vals|exact P| | | |].
    + apply sel_next; [reflexivity| |].
      * intros g [Hm _]. cbn [map] in Hm. injection Hm as X _ Y. apply (He (tsubst g (par x0)) (tsubst g (par y0))). rewrite <- Y.
        unfold app2. cbn [tsubst map]. cbn [tsubst] in X. rewrite X. reflexivity.
      * apply sel_hit. inst.
    + apply (occ_child _ _ _ (par n0)); [right; left; reflexivity|constructor].
    + lk. discriminate.
    + apply run_eq; [apply ev_var; lk; reflexivity|apply ev_var; lk; reflexivity|assumption|assumption].
  - pose proof (val_sub _ _ _ V) as [Vx Vy].
    eapply (run_call E n progs _ _ _ _ _ _ (subl [(f0, op); (n0, nl); (x0, x); (y0, rlist op e xs)]) _ n0 (par n0)); [args|vals|exact P| | | |].
    + apply sel_hit. inst.
    + apply (occ_child _ _ _ (par n0)); [right; right; left; reflexivity|constructor].
    + lk. discriminate.
    + apply IH; try assumption; apply ev_var; lk; reflexivity.
Qed.
Hypothesis Nnl : not_app2 op nl.
Ltac vals2 := repeat (first [apply Forall_nil | apply Forall_cons; [first [assumption | apply val_lit | apply val_app; [assumption|assumption|apply val_rlist; assumption] | apply val_rlist; assumption ]|]]).
Ltac occ := apply pars_occurs; cbn; tauto.
Ltac noinst x0 y0 :=
  let g := fresh in let Hm := fresh in let X := fresh in let Y := fresh in
  apply sel_next; [reflexivity|intros g [Hm _]; cbn [map] in Hm; injection Hm as X Y;
    apply (Nnl (tsubst g (par x0)) (tsubst g (par y0))); rewrite <- Y; unfold app2; cbn [tsubst map]; cbn [tsubst] in X; rewrite X; reflexivity|apply sel_hit; inst].
Ltac var := apply ev_var; lk; reflexivity.

Lemma run_len : forall xs s f l, EV s f op -> EV s l (rlist op nl xs) -> Forall value xs ->
  EV s (call (l_len L) [f; l]) (num (Z.of_nat (length xs))).
Proof.
  pose proof D as DD. destruct DD as (_ & _ & (f0 & x0 & y0 & n0 & N & P) & _). nodup.
  induction xs as [|x xs IH]; intros s f l Hf Hl V; cbn [rlist] in *.
  - eapply (run_call_done E n progs _ _ _ _ _ _ (subl [(f0, op); (n0, nl)])); [args|vals2|exact P|noinst x0 y0|apply val_lit].
  - inversion V; subst.
    eapply (run_call E n progs _ _ _ _ _ _ (subl [(f0, op); (x0, x); (y0, rlist op nl xs)]) _ f0 (par f0));
      [args|vals2|exact P|apply sel_hit; inst|occ|lk; discriminate|].
    replace (Z.of_nat (length (x :: xs))) with (1 + Z.of_nat (length xs)) by (cbn [length]; lia).
    apply ev_plus; [apply ev_lit|]. apply IH; [var|var|assumption].
Qed.
Lemma run_concat : forall xs s f l m ys, EV s f op -> EV s l (rlist op nl xs) -> EV s m (rlist op nl ys) ->
  Forall value xs -> Forall value ys ->
  EV s (call (l_concat L) [f; l; m]) (rlist op nl (xs ++ ys)).
Proof.
  pose proof D as DD. destruct DD as (_ & _ & _ & (f0 & x0 & y0 & z0 & n0 & N & P) & _). nodup.
  induction xs as [|x xs IH]; intros s f l m ys Hf Hl Hm V W; cbn [rlist app] in *.
  - eapply (run_call E n progs _ _ _ _ _ _ (subl [(f0, op); (n0, nl); (z0, rlist op nl ys)]) _ z0 (par f0));
      [args|vals2|exact P|noinst x0 y0|occ|lk; discriminate|var].
  - inversion V; subst.
    eapply (run_call E n progs _ _ _ _ _ _ (subl [(f0, op); (x0, x); (y0, rlist op nl xs); (z0, rlist op nl ys)]) _ f0 (par f0));
      [args|vals2|exact P|apply sel_hit; inst|occ|lk; discriminate|].
    apply ev_app2; [var|var| |apply val_not_prog; assumption]. apply IH; [var|var|var|assumption|assumption].
Qed.
Lemma run_rev : forall xs s f l m ys, EV s f op -> EV s l (rlist op nl xs) -> EV s m (rlist op nl ys) ->
  Forall value xs -> Forall value ys ->
  EV s (call (l_rev L) [f; l; m]) (rlist op nl (rev xs ++ ys)).
Proof.
  pose proof D as DD. destruct DD as (_ & _ & _ & _ & _ & _ & (f0 & x0 & y0 & z0 & n0 & N & P) & _). nodup.
  induction xs as [|x xs IH]; intros s f l m ys Hf Hl Hm V W; cbn [rlist rev app] in *.
  - eapply (run_call E n progs _ _ _ _ _ _ (subl [(f0, op); (n0, nl); (z0, rlist op nl ys)]) _ z0 (par f0));
      [args|vals2|exact P|noinst x0 y0|occ|lk; discriminate|var].
  - inversion V; subst.
    eapply (run_call E n progs _ _ _ _ _ _ (subl [(f0, op); (x0, x); (y0, rlist op nl xs); (z0, rlist op nl ys)]) _ f0 (par f0));
      [args|vals2|exact P|apply sel_hit; inst|occ|lk; discriminate|].
    rewrite <- app_assoc. cbn [app]. apply IH; [var|var| |assumption|constructor; assumption].
    cbn [rlist]. apply ev_app2; [var|var|var|apply val_not_prog; assumption].
Qed.
Lemma run_nth : forall xs s f l m i x, EV s f op -> EV s l (rlist op nl xs) -> EV s m (num (Z.of_nat i)) ->
  Forall value xs -> nth_error xs i = Some x ->
  EV s (call (l_nth L) [f; l; m]) x.
Proof.
  pose proof D as DD. destruct DD as (_ & _ & _ & _ & (f0 & x0 & y0 & n0 & N & P) & _). nodup.
  induction xs as [|y xs IH]; intros s f l m i x Hf Hl Hm V W; cbn [rlist] in *; [destruct i; discriminate|].
  inversion V; subst. destruct i as [|i]; cbn [nth_error] in W.
  - injection W as ->.
    eapply (run_call E n progs _ _ _ _ _ _ (subl [(f0, op); (x0, x); (y0, rlist op nl xs)]) _ x0 (par f0));
      [args|vals2|exact P|apply sel_hit; inst|occ|lk; discriminate|var].
  - eapply (run_call E n progs _ _ _ _ _ _ (subl [(f0, op); (x0, y); (y0, rlist op nl xs); (n0, num (Z.of_nat (S i)))]) _ f0 (par f0));
      [args|vals2|exact P|apply sel_next; [reflexivity| |apply sel_hit; inst]|occ|lk; discriminate|].
    + intros g [Hg _]. cbn [map tsubst] in Hg. unfold num in Hg. cbn [tsubst] in Hg. injection Hg as _ _ Hg. lia.
    + apply (IH _ _ _ _ i); [var|var| |assumption|assumption].
      replace (Z.of_nat i) with (Z.of_nat (S i) + -1) by lia. apply ev_plus; [var|apply ev_lit].
Qed.
(** No such element: the program is stuck at the end of the list. *)
Lemma run_nth_none : forall xs s f l m i, EV s f op -> EV s l (rlist op nl xs) -> EV s m (num i) ->
  Forall value xs -> i < 0 \/ Z.of_nat (length xs) <= i ->
  EV s (call (l_nth L) [f; l; m]) (call (l_nth L) [op; nl; num (i - Z.of_nat (length xs))]).
Proof.
  pose proof D as DD. destruct DD as (_ & _ & _ & _ & (f0 & x0 & y0 & n0 & N & P) & _). nodup.
  induction xs as [|y xs IH]; intros s f l m i Hf Hl Hm V W; cbn [rlist length] in *.
  - assert (Hq : forall g p, ~ instance g [par f0; app2 (par f0) (par x0) (par y0); p] [op; nl; num i]).
    { intros g p [Hg _]. cbn [map] in Hg. injection Hg as X Y _. apply (Nnl (tsubst g (par x0)) (tsubst g (par y0))).
      rewrite <- Y. unfold app2. cbn [tsubst map]. cbn [tsubst] in X. rewrite X. reflexivity. }
    rewrite Z.sub_0_r. eapply ev_call_stuck; [left; reflexivity|eapply evs_cons; [apply ev_prog|args]|eexists; reflexivity|].
    assert (Va : Forall value [op; nl; num i]) by vals2.
    apply (call_case _ _ _ (c_nth L (par f0) (par x0) (par y0) (par n0))); [| |exact P|].
    + eapply Forall_impl; [|exact Va]. intros z (_ & C & _). exact C.
    + eapply Forall_impl; [|exact Va]. intros z (_ & _ & I). exact I.
    + apply sel_next; [reflexivity|intro g; apply Hq|]. apply sel_next; [reflexivity|intro g; apply Hq|]. apply sel_none.
  - inversion V; subst.
    eapply (run_call E n progs _ _ _ _ _ _ (subl [(f0, op); (x0, y); (y0, rlist op nl xs); (n0, num i)]) _ f0 (par f0));
      [args|vals2|exact P|apply sel_next; [reflexivity| |apply sel_hit; inst]|occ|lk; discriminate|].
    + intros g [Hg _]. cbn [map tsubst] in Hg. unfold num in Hg. cbn [tsubst] in Hg. injection Hg as _ _ Hg. lia.
    + replace (i - Z.of_nat (S (length xs))) with (i + -1 - Z.of_nat (length xs)) by lia.
      apply IH; [var|var| |assumption|lia]. apply ev_plus; [var|apply ev_lit].
Qed.
Lemma run_find : forall xs s f l e m x i, EV s f op -> EV s l (rlist op nl xs) -> EV s e x -> EV s m (num i) ->
  Forall value xs -> value x ->
  exists j, position x xs j /\ EV s (call (l_find L) [f; l; e; m]) (num (if j =? -1 then -1 else i + j)).
Proof.
  pose proof D as DD. destruct DD as (_ & _ & _ & _ & _ & (f0 & x0 & y0 & z0 & m0 & n0 & N & P) & _). nodup.
  induction xs as [|y xs IH]; intros s f l e m x i Hf Hl He Hm V W; cbn [rlist] in *.
  - exists (-1). split; [right; split; [tauto|reflexivity]|].
    eapply (run_call_done E n progs _ _ _ _ _ _ (subl [(f0, op); (n0, nl); (z0, x); (m0, num i)])); [args|vals2|exact P|noinst x0 y0|apply val_lit].
  - inversion V as [|? ? Vy Vs]; subst.
    assert (R : forall r, EV (subl [(f0, op); (x0, y); (y0, rlist op nl xs); (z0, x); (m0, num i)])
        (ite (call (l_eq L) [par x0; par z0]) (par m0) (call (l_find L) [par f0; par y0; par z0; plus (par m0) (num 1)])) r ->
        EV s (call (l_find L) [f; l; e; m]) r).
    { intros r Hr. eapply (run_call E n progs _ _ _ _ _ _ (subl [(f0, op); (x0, y); (y0, rlist op nl xs); (z0, x); (m0, num i)]) _ f0 (par f0));
      [args|vals2|exact P|apply sel_hit; inst|occ|lk; discriminate|exact Hr]. }
    assert (Q : EV (subl [(f0, op); (x0, y); (y0, rlist op nl xs); (z0, x); (m0, num i)]) (call (l_eq L) [par x0; par z0]) (boolean (term_eqb y x)))
      by (apply run_eq; [var|var|assumption|assumption]).
    destruct (term_eqb y x) eqn:Eq.
    + apply term_eqb_eq in Eq. subst y. exists 0. split; [left; exists [], xs; repeat split; tauto|].
      apply R. apply ev_ite_true; [exact Q|]. rewrite Z.add_0_r. var.
    + assert (Hn : y <> x) by (intro X; apply term_eqb_eq in X; congruence).
      destruct (IH (subl [(f0, op); (x0, y); (y0, rlist op nl xs); (z0, x); (m0, num i)]) (par f0) (par y0) (par z0) (plus (par m0) (num 1)) x (i + 1)) as (j & Hj & Ej);
        [var|var|var|apply ev_plus; [var|apply ev_lit]|assumption|assumption|].
      destruct Hj as [(a & b & -> & Na & ->)|[Na ->]].
      * exists (1 + Z.of_nat (length a)). split.
        { left. exists (y :: a), b. cbn [app length In]. repeat split; [|lia]. intros [X|X]; [exact (Hn X)|exact (Na X)]. }
        apply R. apply ev_ite_false; [exact Q|].
        destruct (Z.eqb_spec (Z.of_nat (length a)) (-1)) as [X|X]; [lia|].
        destruct (Z.eqb_spec (1 + Z.of_nat (length a)) (-1)) as [X2|X2]; [lia|].
        replace (i + (1 + Z.of_nat (length a))) with (i + 1 + Z.of_nat (length a)) by lia. exact Ej.
      * exists (-1). split; [right; split; [|reflexivity]; intros [X|X]; [exact (Hn X)|exact (Na X)]|].
        apply R. apply ev_ite_false; [exact Q|exact Ej].
Qed.
Lemma run_erase : forall xs s f l e x, EV s f op -> EV s l (rlist op nl xs) -> EV s e x ->
  Forall value xs -> value x ->
  exists ys, erased x xs ys /\ EV s (call (l_erase L) [f; l; e]) (rlist op nl ys).
Proof.
  pose proof D as DD. destruct DD as (_ & _ & _ & _ & _ & _ & _ & (f0 & x0 & y0 & z0 & n0 & N & P) & _). nodup.
  induction xs as [|y xs IH]; intros s f l e x Hf Hl He V W; cbn [rlist] in *.
  - exists []. split; [left; split; [tauto|reflexivity]|].
    eapply (run_call E n progs _ _ _ _ _ _ (subl [(f0, op); (n0, nl); (z0, x)]) _ n0 (par f0)); [args|vals2|exact P|noinst x0 y0|occ|lk; discriminate|var].
  - inversion V as [|? ? Vy Vs]; subst.
    set (g := subl [(f0, op); (x0, y); (y0, rlist op nl xs); (z0, x)]).
    assert (R : forall r, EV g (ite (call (l_eq L) [par z0; par x0]) (par y0) (app2 (par f0) (par x0) (call (l_erase L) [par f0; par y0; par z0]))) r ->
        EV s (call (l_erase L) [f; l; e]) r).
    { intros r Hr. eapply (run_call E n progs _ _ _ _ _ _ g _ f0 (par f0));
      [args|vals2|exact P|apply sel_hit; subst g; inst|occ|subst g; lk; discriminate|exact Hr]. }
    assert (Q : EV g (call (l_eq L) [par z0; par x0]) (boolean (term_eqb x y)))
      by (subst g; apply run_eq; [var|var|assumption|assumption]).
    destruct (term_eqb x y) eqn:Eq.
    + apply term_eqb_eq in Eq. subst y. exists xs. split; [right; exists [], xs; repeat split; tauto|].
      apply R. apply ev_ite_true; [exact Q|]. subst g. var.
    + assert (Hn : y <> x) by (intro X; symmetry in X; apply term_eqb_eq in X; congruence).
      destruct (IH g (par f0) (par y0) (par z0) x) as (ys & Hy & Ey); [subst g; var|subst g; var|subst g; var|assumption|assumption|].
      exists (y :: ys). split.
      * destruct Hy as [[Na ->]|(a & b & -> & Na & ->)].
        { left. split; [|reflexivity]. intros [X|X]; [exact (Hn X)|exact (Na X)]. }
        right. exists (y :: a), b. repeat split. intros [X|X]; [exact (Hn X)|exact (Na X)].
      * apply R. apply ev_ite_false; [exact Q|]. cbn [rlist]. apply ev_app2; [subst g; var|subst g; var|exact Ey|apply val_not_prog; assumption].
Qed.
Lemma run_erase_all : forall xs s f l e x, EV s f op -> EV s l (rlist op nl xs) -> EV s e x ->
  Forall value xs -> value x ->
  exists ys, erased_all x xs ys /\ EV s (call (l_erase_all L) [f; l; e]) (rlist op nl ys).
Proof.
  pose proof D as DD. destruct DD as (_ & _ & _ & _ & _ & _ & _ & _ & (f0 & x0 & y0 & z0 & n0 & N & P) & _). nodup.
  induction xs as [|y xs IH]; intros s f l e x Hf Hl He V W; cbn [rlist] in *.
  - exists []. split; [constructor|].
    eapply (run_call E n progs _ _ _ _ _ _ (subl [(f0, op); (n0, nl); (z0, x)]) _ n0 (par f0)); [args|vals2|exact P|noinst x0 y0|occ|lk; discriminate|var].
  - inversion V as [|? ? Vy Vs]; subst.
    set (g := subl [(f0, op); (x0, y); (y0, rlist op nl xs); (z0, x)]).
    assert (R : forall r, EV g (ite (call (l_eq L) [par z0; par x0]) (call (l_erase_all L) [par f0; par y0; par z0]) (app2 (par f0) (par x0) (call (l_erase_all L) [par f0; par y0; par z0]))) r ->
        EV s (call (l_erase_all L) [f; l; e]) r).
    { intros r Hr. eapply (run_call E n progs _ _ _ _ _ _ g _ f0 (par f0));
      [args|vals2|exact P|apply sel_hit; subst g; inst|occ|subst g; lk; discriminate|exact Hr]. }
    assert (Q : EV g (call (l_eq L) [par z0; par x0]) (boolean (term_eqb x y)))
      by (subst g; apply run_eq; [var|var|assumption|assumption]).
    destruct (IH g (par f0) (par y0) (par z0) x) as (ys & Hy & Ey); [subst g; var|subst g; var|subst g; var|assumption|assumption|].
    destruct (term_eqb x y) eqn:Eq.
    + apply term_eqb_eq in Eq. subst y. exists ys. split; [constructor; exact Hy|].
      apply R. apply ev_ite_true; [exact Q|exact Ey].
    + assert (Hn : y <> x) by (intro X; symmetry in X; apply term_eqb_eq in X; congruence).
      exists (y :: ys). split; [apply ea_keep; assumption|].
      apply R. apply ev_ite_false; [exact Q|]. cbn [rlist]. apply ev_app2; [subst g; var|subst g; var|exact Ey|apply val_not_prog; assumption].
Qed.
Lemma run_single : forall xs s f u l, EV s f op -> EV s u nl -> EV s l (rlist op nl xs) -> Forall value xs ->
  EV s (call (l_single L) [f; u; l]) (match xs with [x] => x | _ => rlist op nl xs end).
Proof.
  pose proof D as DD. destruct DD as (_ & _ & _ & _ & _ & _ & _ & _ & _ & _ & _ & _ & (f0 & x0 & z0 & n0 & N & P)). nodup.
  intros xs s f u l Hf Hu Hl V.
  assert (Hone : (exists x, xs = [x]) \/ (forall x, xs <> [x])).
  { destruct xs as [|x [|y xs]]; [right; discriminate|left; exists x; reflexivity|right; discriminate]. }
  destruct Hone as [[x ->]|Ho].
  - inversion V; subst. cbn [rlist] in Hl.
    eapply (run_call E n progs _ _ _ _ _ _ (subl [(f0, op); (n0, nl); (x0, x)]) _ x0 (par f0));
      [args|repeat (constructor; [first [assumption|apply val_app; assumption]|]); constructor|exact P|apply sel_hit; inst|occ|lk; discriminate|var].
  - replace (match xs with [x] => x | _ => rlist op nl xs end) with (rlist op nl xs)
      by (destruct xs as [|x [|y xs]]; try reflexivity; exfalso; exact (Ho x eq_refl)).
    eapply (run_call E n progs _ _ _ _ _ _ (subl [(f0, op); (n0, nl); (z0, rlist op nl xs)]) _ z0 (par f0));
      [args|vals2|exact P|apply sel_next; [reflexivity| |apply sel_hit; inst]|occ|lk; discriminate|var].
    intros g [Hg _]. cbn [map] in Hg. injection Hg as X Y Z0.
    assert (Z1 : app2 op (tsubst g (par x0)) nl = rlist op nl xs).
    { rewrite <- Z0. unfold app2. cbn [tsubst map]. cbn [tsubst] in X, Y. rewrite X, Y. reflexivity. }
    destruct xs as [|x [|y xs]]; cbn [rlist] in Z1.
    + exact (Nnl _ _ (eq_sym Z1)).
    + exact (Ho x eq_refl).
    + injection Z1 as _ Z1. exact (Nnl _ _ Z1).
Qed.

(** The macros: the type of a list determines its end. *)
Variable T : term.
Hypothesis VT : value T.
Hypothesis Hnil : exists cases g, progs (prog (l_nil L)) = Some cases /\ selects [op; T] cases (Some (nl, g)).
Definition typed_as (v : term) : Prop := lop K_EVAL_TYPE_OF [v] = Ok (Some T).
Definition typed_over (xs : list term) : Prop := forall ys, incl ys xs -> (length ys <= length xs)%nat -> typed_as (rlist op nl ys).

Lemma run_nil : forall s f a v, EV s f op -> EV s a v -> typed_as v -> EV s (d_nil L f a) nl.
Proof.
  intros s f a v Hf Ha Ht. destruct Hnil as (cases & g & P & Sl).
  eapply (run_call_done E n progs _ _ _ [op; T] _ _ g); [|vals2|exact P|exact Sl|apply Vnl].
  eapply evs_cons; [exact Hf|]. eapply evs_cons; [|apply evs_nil].
  eapply ev_op; [reflexivity|discriminate|discriminate|eapply evs_cons; [exact Ha|apply evs_nil]|exact Ht].
Qed.
Lemma run_d_is_list : forall s f a e xs, EV s f op -> EV s a (rlist op e xs) -> typed_as (rlist op e xs) ->
  not_app2 op e -> value (rlist op e xs) -> EV s (d_is_list L f a) (boolean (term_eqb nl e)).
Proof.
  intros s f a e xs Hf Ha Ht Ne V. apply (run_is_list xs); try assumption. apply (run_nil _ _ _ (rlist op e xs)); assumption.
Qed.
Lemma run_checked : forall s f a xs r v, EV s f op -> EV s a (rlist op nl xs) -> typed_over xs -> Forall value xs ->
  EV s r v -> EV s (required (d_is_list L f a) r) v.
Proof.
  intros s f a xs r v Hf Ha Ht V Hr. apply ev_required; [|exact Hr].
  replace (boolean true) with (boolean (term_eqb nl nl)) by (f_equal; f_equal; apply term_eqb_eq; reflexivity).
  apply (run_d_is_list _ _ _ _ xs); try assumption; [apply Ht; [apply incl_refl|lia]|apply val_rlist; assumption].
Qed.

Lemma run_d_erase : forall xs s f l e x, EV s f op -> EV s l (rlist op nl xs) -> EV s e x -> typed_over xs ->
  Forall value xs -> value x ->
  exists ys, erased x xs ys /\ EV s (d_erase L f l e) (rlist op nl ys).
Proof.
  intros xs s f l e x Hf Hl He Ht V W. destruct (run_erase xs s f l e x) as (ys & Hy & Ey); try assumption.
  exists ys. split; [exact Hy|]. apply (run_checked _ _ _ xs); assumption.
Qed.
Lemma run_d_erase_all : forall xs s f l e x, EV s f op -> EV s l (rlist op nl xs) -> EV s e x -> typed_over xs ->
  Forall value xs -> value x ->
  exists ys, erased_all x xs ys /\ EV s (d_erase_all L f l e) (rlist op nl ys).
Proof.
  intros xs s f l e x Hf Hl He Ht V W. destruct (run_erase_all xs s f l e x) as (ys & Hy & Ey); try assumption.
  exists ys. split; [exact Hy|]. apply (run_checked _ _ _ xs); assumption.
Qed.

Lemma erased_all_incl : forall x xs ys, erased_all x xs ys -> incl ys xs /\ (length ys <= length xs)%nat.
Proof.
  induction 1 as [|xs ys H [I J]|z xs ys Hn H [I J]]; cbn [length].
  - split; [apply incl_refl|lia].
  - split; [apply incl_tl; exact I|lia].
  - split; [|lia]. apply incl_cons; [left; reflexivity|apply incl_tl; exact I].
Qed.
Lemma erased_incl : forall x xs ys, erased x xs ys -> incl ys xs /\ (length ys <= length xs)%nat.
Proof.
  intros x xs ys [[_ ->]|(a & b & -> & _ & ->)]; [split; [apply incl_refl|lia]|].
  split; [|rewrite !app_length; cbn [length]; lia].
  intros z Hz. apply in_app_iff in Hz. apply in_app_iff. cbn [In]. tauto.
Qed.
Lemma incl_vals : forall xs ys, incl ys xs -> Forall value xs -> Forall value ys.
Proof. intros xs ys I V. rewrite Forall_forall in *. intros y Hy. apply V. apply I. exact Hy. Qed.
Lemma typed_incl : forall xs ys, incl ys xs -> (length ys <= length xs)%nat -> typed_over xs -> typed_over ys.
Proof. intros xs ys I J Ht zs Hz Hl. apply Ht; [|lia]. intros z Hi. apply I. apply Hz. exact Hi. Qed.

Lemma firsts_erased : forall x xs ys seen r, erased_all x xs ys -> firsts seen ys r -> ~ In x ys -> firsts (x :: seen) xs r.
Proof.
  intros x xs ys seen r H. revert seen r. induction H as [|xs ys H IH|z xs ys Hn H IH]; intros seen r F Nx.
  - inversion F; subst. constructor.
  - apply fi_drop; [left; reflexivity|]. apply IH; assumption.
  - assert (Nx2 : ~ In x ys) by (intro X; apply Nx; right; exact X).
    inversion F as [|? ? ? Hi F2|? ? ? Hi F2]; subst.
    + apply fi_drop; [right; exact Hi|]. apply IH; assumption.
    + apply fi_keep; [intros [X|X]; [exact (Hn (eq_sym X))|exact (Hi X)]|].
      assert (G : firsts (x :: z :: seen) xs ys0) by (apply IH; assumption).
      clear - G. assert (Hp : forall s1 s2 l r, (forall u, In u s1 <-> In u s2) -> firsts s1 l r -> firsts s2 l r).
      { intros s1 s2 l r HH F. revert s2 HH. induction F as [|s w l r Hi F IH|s w l r Hi F IH]; intros s2 HH.
        - constructor.
        - apply fi_drop; [apply HH; exact Hi|apply IH; exact HH].
        - apply fi_keep; [rewrite <- HH; exact Hi|]. apply IH. intro u. cbn [In]. rewrite HH. tauto. }
      apply (Hp (x :: z :: seen)); [|exact G]. intro u. cbn [In]. tauto.
Qed.
Lemma erased_all_not : forall x xs ys, erased_all x xs ys -> ~ In x ys.
Proof. induction 1 as [|xs ys H IH|z xs ys Hn H IH]; [tauto|exact IH|]. intros [X|X]; [exact (Hn X)|exact (IH X)]. Qed.

Lemma run_setof_n : forall k xs s f l, (length xs <= k)%nat -> EV s f op -> EV s l (rlist op nl xs) -> typed_over xs ->
  Forall value xs -> exists ys, firsts [] xs ys /\ EV s (call (l_setof L) [f; l]) (rlist op nl ys).
Proof.
  pose proof D as DD. destruct DD as (_ & _ & _ & _ & _ & _ & _ & _ & _ & (f0 & x0 & y0 & n0 & N & P) & _). nodup.
  assert (Hz : forall s f l, EV s f op -> EV s l nl -> EV s (call (l_setof L) [f; l]) nl).
  { intros s f l Hf Hl.
    eapply (run_call E n progs _ _ _ _ _ _ (subl [(f0, op); (n0, nl)]) _ n0 (par f0)); [args|vals2|exact P|noinst x0 y0|occ|lk; discriminate|var]. }
  induction k as [|k IH]; intros xs s f l Hk Hf Hl Ht V; destruct xs as [|x xs]; cbn [length] in Hk; try lia.
  - exists []. split; [constructor|]. apply Hz; assumption.
  - exists []. split; [constructor|]. apply Hz; assumption.
  - inversion V as [|? ? Vx Vs]; subst. cbn [rlist] in *.
    set (g := subl [(f0, op); (x0, x); (y0, rlist op nl xs)]).
    assert (Ht2 : typed_over xs) by (apply (typed_incl (x :: xs)); [apply incl_tl; apply incl_refl|cbn [length]; lia|exact Ht]).
    destruct (run_d_erase_all xs g (par f0) (par y0) (par x0) x) as (ys & Hy & Ey);
      [subst g; var|subst g; var|subst g; var|assumption|assumption|assumption|].
    destruct (erased_all_incl _ _ _ Hy) as [I J].
    destruct (IH ys g (par f0) (d_erase_all L (par f0) (par y0) (par x0))) as (zs & Fz & Ez);
      [lia|subst g; var|exact Ey|apply (typed_incl xs); assumption|apply (incl_vals xs); assumption|].
    exists (x :: zs). split.
    + apply fi_keep; [tauto|]. apply (firsts_erased x xs ys); [exact Hy|exact Fz|apply (erased_all_not _ _ _ Hy)].
    + eapply (run_call E n progs _ _ _ _ _ _ g _ f0 (par f0));
        [args|vals2|exact P|apply sel_hit; subst g; inst|occ|subst g; lk; discriminate|].
      cbn [rlist]. apply ev_app2; [subst g; var|subst g; var|exact Ez|apply val_not_prog; assumption].
Qed.

Lemma erased_same : forall x ys zs, erased x ys zs -> zs = ys <-> ~ In x ys.
Proof.
  intros x ys zs [[Hn ->]|(a & b & -> & Hn & ->)]; [tauto|]. split.
  - intro H. apply (f_equal (@length term)) in H. rewrite !app_length in H. cbn [length] in H. lia.
  - intro H. exfalso. apply H. apply in_app_iff. right. left. reflexivity.
Qed.
Lemma rlist_inj : forall ys zs, rlist op nl ys = rlist op nl zs -> ys = zs.
Proof.
  induction ys as [|y ys IH]; intros [|z zs] H; cbn [rlist] in H.
  - reflexivity.
  - exfalso. exact (Nnl _ _ H).
  - exfalso. exact (Nnl _ _ (eq_sym H)).
  - injection H as H1 H2. f_equal; [exact H1|apply IH; exact H2].
Qed.
Lemma rlist_eqb : forall ys zs, term_eqb (rlist op nl ys) (rlist op nl zs) = true <-> ys = zs.
Proof. intros ys zs. rewrite term_eqb_eq. split; [apply rlist_inj|congruence]. Qed.

Lemma run_diff_rec : forall xs ys s f l m, EV s f op -> EV s l (rlist op nl xs) -> EV s m (rlist op nl ys) ->
  typed_over ys -> Forall value xs -> Forall value ys ->
  exists zs, difference xs ys zs /\ EV s (call (l_diff L) [f; l; m]) (rlist op nl zs).
Proof.
  pose proof D as DD. destruct DD as (_ & _ & _ & _ & _ & _ & _ & _ & _ & _ & (f0 & x0 & y0 & z0 & n0 & N & P) & _). nodup.
  induction xs as [|x xs IH]; intros ys s f l m Hf Hl Hm Ht V W; cbn [rlist] in *.
  - exists []. split; [constructor|].
    eapply (run_call E n progs _ _ _ _ _ _ (subl [(f0, op); (n0, nl); (z0, rlist op nl ys)]) _ n0 (par f0));
      [args|vals2|exact P|noinst x0 y0|occ|lk; discriminate|var].
  - inversion V as [|? ? Vx Vs]; subst.
    set (g := subl [(f0, op); (x0, x); (y0, rlist op nl xs); (z0, rlist op nl ys)]).
    destruct (run_d_erase ys g (par f0) (par z0) (par x0) x) as (us & Hu & Eu);
      [subst g; var|subst g; var|subst g; var|assumption|assumption|assumption|].
    destruct (erased_incl _ _ _ Hu) as [Iu Ju].
    destruct (IH us g (par f0) (par y0) (d_erase L (par f0) (par z0) (par x0))) as (zs & Dz & Ez);
      [subst g; var|subst g; var|exact Eu|apply (typed_incl ys); assumption|assumption|apply (incl_vals ys); assumption|].
    assert (Q : EV g (call (l_eq L) [d_erase L (par f0) (par z0) (par x0); par z0]) (boolean (term_eqb (rlist op nl us) (rlist op nl ys)))).
    { apply run_eq; [exact Eu|subst g; var|apply val_rlist; try assumption; apply (incl_vals ys); assumption|apply val_rlist; assumption]. }
    assert (R : forall r, EV g (snd (nth 0 (c_diff L (par f0) (par x0) (par y0) (par z0) (par n0)) ([], par 0))) r ->
        EV s (call (l_diff L) [f; l; m]) r).
    { intros r Hr. eapply (run_call E n progs _ _ _ _ _ _ g _ f0 (par f0));
      [args|vals2|exact P|apply sel_hit; subst g; inst|occ|subst g; lk; discriminate|exact Hr]. }
    cbn [c_diff nth snd] in R. destruct (term_eqb (rlist op nl us) (rlist op nl ys)) eqn:Eq.
    + apply rlist_eqb in Eq. subst us. pose proof (proj1 (erased_same _ _ _ Hu) eq_refl) as Hn.
      exists (x :: zs). split; [apply di_keep; assumption|]. apply R. apply ev_ite_true; [exact Q|].
      cbn [rlist]. apply ev_app2; [subst g; var|subst g; var|exact Ez|apply val_not_prog; assumption].
    + exists zs. split.
      * destruct Hu as [[_ ->]|(a & b & -> & _ & ->)]; [|apply di_drop; exact Dz].
        exfalso. assert (X : term_eqb (rlist op nl ys) (rlist op nl ys) = true) by (apply rlist_eqb; reflexivity). congruence.
      * apply R. apply ev_ite_false; [exact Q|exact Ez].
Qed.
Lemma run_inter_rec : forall xs ys s f l m, EV s f op -> EV s l (rlist op nl xs) -> EV s m (rlist op nl ys) ->
  typed_over ys -> Forall value xs -> Forall value ys ->
  exists zs, intersection xs ys zs /\ EV s (call (l_inter L) [f; l; m]) (rlist op nl zs).
Proof.
  pose proof D as DD. destruct DD as (_ & _ & _ & _ & _ & _ & _ & _ & _ & _ & _ & (f0 & x0 & y0 & z0 & n0 & N & P) & _). nodup.
  induction xs as [|x xs IH]; intros ys s f l m Hf Hl Hm Ht V W; cbn [rlist] in *.
  - exists []. split; [constructor|].
    eapply (run_call E n progs _ _ _ _ _ _ (subl [(f0, op); (n0, nl); (z0, rlist op nl ys)]) _ n0 (par f0));
      [args|vals2|exact P|noinst x0 y0|occ|lk; discriminate|var].
  - inversion V as [|? ? Vx Vs]; subst.
    set (g := subl [(f0, op); (x0, x); (y0, rlist op nl xs); (z0, rlist op nl ys)]).
    destruct (run_d_erase ys g (par f0) (par z0) (par x0) x) as (us & Hu & Eu);
      [subst g; var|subst g; var|subst g; var|assumption|assumption|assumption|].
    destruct (erased_incl _ _ _ Hu) as [Iu Ju].
    destruct (IH us g (par f0) (par y0) (d_erase L (par f0) (par z0) (par x0))) as (zs & Dz & Ez);
      [subst g; var|subst g; var|exact Eu|apply (typed_incl ys); assumption|assumption|apply (incl_vals ys); assumption|].
    assert (Q : EV g (call (l_eq L) [d_erase L (par f0) (par z0) (par x0); par z0]) (boolean (term_eqb (rlist op nl us) (rlist op nl ys)))).
    { apply run_eq; [exact Eu|subst g; var|apply val_rlist; try assumption; apply (incl_vals ys); assumption|apply val_rlist; assumption]. }
    assert (R : forall r, EV g (snd (nth 0 (c_inter L (par f0) (par x0) (par y0) (par z0) (par n0)) ([], par 0))) r ->
        EV s (call (l_inter L) [f; l; m]) r).
    { intros r Hr. eapply (run_call E n progs _ _ _ _ _ _ g _ f0 (par f0));
      [args|vals2|exact P|apply sel_hit; subst g; inst|occ|subst g; lk; discriminate|exact Hr]. }
    cbn [c_inter nth snd] in R. destruct (term_eqb (rlist op nl us) (rlist op nl ys)) eqn:Eq.
    + apply rlist_eqb in Eq. subst us. pose proof (proj1 (erased_same _ _ _ Hu) eq_refl) as Hn.
      exists zs. split; [apply in_drop; assumption|]. apply R. apply ev_ite_true; [exact Q|exact Ez].
    + exists (x :: zs). split.
      * destruct Hu as [[_ ->]|(a & b & -> & _ & ->)]; [|apply in_keep; exact Dz].
        exfalso. assert (X : term_eqb (rlist op nl ys) (rlist op nl ys) = true) by (apply rlist_eqb; reflexivity). congruence.
      * apply R. apply ev_ite_false; [exact Q|].
        cbn [rlist]. apply ev_app2; [subst g; var|subst g; var|exact Ez|apply val_not_prog; assumption].
Qed.
End Op.
End Run2.

(** The results are unique. *)
Lemma erased_det : forall x xs a b, erased x xs a -> erased x xs b -> a = b.
Proof.
  intros x xs a b [[N1 ->]|(a1 & b1 & E1 & N1 & ->)] [[N2 ->]|(a2 & b2 & E2 & N2 & ->)].
  - reflexivity.
  - exfalso. apply N1. rewrite E2. apply in_app_iff. right. left. reflexivity.
  - exfalso. apply N2. rewrite E1. apply in_app_iff. right. left. reflexivity.
  - subst xs. revert a2 N2 E2. induction a1 as [|y a1 IH]; intros [|z a2] N2 E2; cbn [app] in *.
    + injection E2 as E2. exact E2.
    + injection E2 as E2 _. subst. exfalso. apply N2. left. reflexivity.
    + injection E2 as E2 _. subst. exfalso. apply N1. left. reflexivity.
    + injection E2 as -> E2. f_equal. apply IH; [intro X; apply N1; right; exact X|intro X; apply N2; right; exact X|exact E2].
Qed.
Lemma position_det : forall x xs i j, position x xs i -> position x xs j -> i = j.
Proof.
  intros x xs i j [(a1 & b1 & E1 & N1 & ->)|[N1 ->]] [(a2 & b2 & E2 & N2 & ->)|[N2 ->]].
  - subst xs. f_equal. revert a2 N2 E2. induction a1 as [|y a1 IH]; intros [|z a2] N2 E2; cbn [app length] in *.
    + reflexivity.
    + injection E2 as E2 _. subst. exfalso. apply N2. left. reflexivity.
    + injection E2 as E2 _. subst. exfalso. apply N1. left. reflexivity.
    + injection E2 as -> E2. f_equal. apply IH; [intro X; apply N1; right; exact X|intro X; apply N2; right; exact X|exact E2].
  - exfalso. apply N2. rewrite E1. apply in_app_iff. right. left. reflexivity.
  - exfalso. apply N1. rewrite E2. apply in_app_iff. right. left. reflexivity.
  - reflexivity.
Qed.
Lemma erased_all_det : forall x xs a b, erased_all x xs a -> erased_all x xs b -> a = b.
Proof.
  intros x xs a b H. revert b. induction H; intros b Hb; inversion Hb; subst; try congruence; auto.
  f_equal. auto.
Qed.
Lemma firsts_det : forall seen xs a b, firsts seen xs a -> firsts seen xs b -> a = b.
Proof.
  intros seen xs a b H. revert b. induction H; intros b Hb; inversion Hb; subst; try contradiction; auto.
  f_equal. auto.
Qed.
Lemma perm_mid : forall (z : term) a b c d, Permutation (a ++ z :: b) (c ++ z :: d) -> Permutation (a ++ b) (c ++ d).
Proof.
  intros z a b c d H. apply (Permutation_cons_inv (a := z)).
  rewrite Permutation_middle. rewrite H. symmetry. apply Permutation_middle.
Qed.
Lemma perm_in : forall (z : term) a b ys, Permutation (a ++ z :: b) ys -> In z ys.
Proof. intros z a b ys H. apply (Permutation_in _ H). apply in_app_iff. right. left. reflexivity. Qed.
Lemma difference_det : forall xs ys a, difference xs ys a -> forall ys' b, Permutation ys ys' -> difference xs ys' b -> a = b.
Proof.
  intros xs ys a H. induction H as [ys|z xs c d r H IH|z xs ys r Hn H IH]; intros ys' b0 Hp Hd.
  - inversion Hd. reflexivity.
  - inversion Hd as [|z' xs' c' d' r' Hd2|z' xs' ys2 r' Hn2 Hd2]; subst.
    + apply (IH (c' ++ d')); [|exact Hd2]. apply (perm_mid z). exact Hp.
    + exfalso. apply Hn2. exact (perm_in _ _ _ _ Hp).
  - inversion Hd as [|z' xs' c' d' r' Hd2|z' xs' ys2 r' Hn2 Hd2]; subst.
    + exfalso. apply Hn. symmetry in Hp. exact (perm_in _ _ _ _ Hp).
    + f_equal. apply (IH ys'); assumption.
Qed.
Lemma intersection_det : forall xs ys a, intersection xs ys a -> forall ys' b, Permutation ys ys' -> intersection xs ys' b -> a = b.
Proof.
  intros xs ys a H. induction H as [ys|z xs c d r H IH|z xs ys r Hn H IH]; intros ys' b0 Hp Hd.
  - inversion Hd. reflexivity.
  - inversion Hd as [|z' xs' c' d' r' Hd2|z' xs' ys2 r' Hn2 Hd2]; subst.
    + f_equal. apply (IH (c' ++ d')); [|exact Hd2]. apply (perm_mid z). exact Hp.
    + exfalso. apply Hn2. exact (perm_in _ _ _ _ Hp).
  - inversion Hd as [|z' xs' c' d' r' Hd2|z' xs' ys2 r' Hn2 Hd2]; subst.
    + exfalso. apply Hn. symmetry in Hp. exact (perm_in _ _ _ _ Hp).
    + apply (IH ys'); assumption.
Qed.
