(** Proofs about $eo_list_minclude and $eo_list_meq. *)
From Coq Require Import String ZArith List Bool Lia Permutation.
From Verif Require Import Base Kind Ints Str Literal Arity Term SpecTerm SpecEval SpecList TermProofs Match MatchProofs Eval EvalProofs ListOps ListProofs Typing
  SpecDerived SpecDerived2 DerivedProofs DerivedProofs2.
Import ListNotations. Open Scope Z_scope.

Lemma const_value : forall i, value (const i).
Proof.
  intro i. split; [constructor; reflexivity|]. split; intros u Hu; inversion Hu; subst.
  - split; [intros [j X]; discriminate|intro X; discriminate X].
  - intros [[j X]|[X|(k & cs & X & _)]]; discriminate.
Qed.
Lemma included_nil ys : included [] ys.
Proof. exists ys. apply Permutation_refl. Qed.
Lemma included_cons x xs a b : included (x :: xs) (a ++ x :: b) <-> included xs (a ++ b).
Proof.
  split; intros (r & H); exists r.
  - cbn in H. exact (Permutation_cons_app_inv _ _ H).
  - cbn. now apply Permutation_cons_app.
Qed.
Lemma included_in x xs ys : included (x :: xs) ys -> In x ys.
Proof. intros (r & H). eapply Permutation_in; [exact H|]. left. reflexivity. Qed.

Section Run3.
Variable E : env.
Variable n : nat.
Variable progs : term -> option (list pcase).
Variable L : library.
Hypothesis D : derived L progs.
Variable p q lc ln : Z.
Hypothesis D2 : derived_inclusion L p q lc ln progs.
Local Notation lop := (tc_lop (tc E (S n))).
Local Notation EV := (ev lop progs shortcut).
Local Notation EVS := (evs lop progs shortcut).
Local Notation lcons := (const lc).
Local Notation lnil := (const ln).

Ltac args := repeat (first [apply evs_nil | eapply evs_cons; [first [eassumption | apply ev_lit | apply ev_var; lk; reflexivity]|]]).
Ltac vals2 := repeat (first [apply Forall_nil | apply Forall_cons; [first [assumption | apply val_lit | apply val_app; [assumption|assumption|apply val_rlist; assumption] | apply val_rlist; assumption ]|]]).
Ltac inst := apply exact_subl;
  [unfold app2, num, par, const; cbn [map tsubst]; lk; reflexivity
  |intro; cbn [app2 par num const pars flat_map map fst app In]; tauto].
Ltac occ := apply pars_occurs; cbn; tauto.
Ltac var := apply ev_var; lk; reflexivity.

Lemma ev_constant : forall s i, EV s (const i) (const i).
Proof. intros s i. apply ev_const; [reflexivity|]. intros (j & X). discriminate X. Qed.
Lemma lnil_app : not_app2 lcons lnil.
Proof. intros x y H. discriminate H. Qed.

Section Elements.
Variable op nl : term.
Hypothesis Vop : value op.
Hypothesis Vnl : value nl.
Hypothesis Nnl : not_app2 op nl.

Lemma run_elements : forall xs s f u l, EV s f op -> EV s u nl -> EV s l (rlist op nl xs) -> Forall value xs ->
  (forall x ys zs, xs = zs ++ x :: ys -> lop K_EVAL_CONS [lcons; x; rlist lcons lnil ys] = Ok (Some (rlist lcons lnil (x :: ys)))) ->
  EV s (call p [f; u; l]) (rlist lcons lnil xs).
Proof.
  destruct D2 as [(f0 & x0 & y0 & n0 & N & P) _]. nodup.
  induction xs as [|x xs IH]; intros s f u l Hf Hu Hl V C; cbn [rlist] in *.
  - eapply (run_call_done E n progs _ _ _ _ _ _ (subl [(f0, op); (n0, nl)])); [args|vals2|exact P| |apply const_value].
    apply sel_next; [reflexivity| |apply sel_hit; inst].
    intros g [Hm _]. cbn [map] in Hm. injection Hm as X _ Y. apply (Nnl (tsubst g (par x0)) (tsubst g (par y0))). rewrite <- Y.
    unfold app2. cbn [tsubst map]. cbn [tsubst] in X. rewrite X. reflexivity.
  - inversion V; subst.
    eapply (run_call E n progs _ _ _ _ _ _ (subl [(f0, op); (n0, nl); (x0, x); (y0, rlist op nl xs)]) _ f0 (par f0));
      [args|vals2|exact P|apply sel_hit; inst|occ|lk; discriminate|].
    eapply ev_op; [reflexivity|discriminate|discriminate| |exact (C x xs [] eq_refl)].
    eapply evs_cons; [apply ev_constant|]. eapply evs_cons; [var|]. eapply evs_cons; [|apply evs_nil].
    apply IH; [var|var|var|assumption|]. intros y ys zs ->. exact (C y ys (x :: zs) eq_refl).
Qed.
End Elements.

Variable LT : term.
Hypothesis VLT : value LT.
Hypothesis Hnil : exists cases g, progs (prog (l_nil L)) = Some cases /\ selects [lcons; LT] cases (Some (lnil, g)).

Lemma run_minclude_rec : forall xs ys s a b, EV s a (rlist lcons lnil xs) -> EV s b (rlist lcons lnil ys) ->
  lists_typed lop lcons lnil LT ys -> Forall value xs -> Forall value ys ->
  exists r, EV s (call q [a; b]) (boolean r) /\ (r = true <-> included xs ys).
Proof.
  destruct D2 as [_ (x0 & y0 & z0 & N & P)]. nodup.
  pose proof (const_value lc) as Vc. pose proof (const_value ln) as Vn.
  induction xs as [|x xs IH]; intros ys s a b Ha Hb Ht V W; cbn [rlist] in *.
  - exists true. split; [|split; [intros _; apply included_nil|reflexivity]].
    eapply (run_call_done E n progs _ _ _ _ _ _ (subl [(z0, rlist lcons lnil ys)])); [args|vals2|exact P| |apply val_lit].
    apply sel_next; [reflexivity| |apply sel_hit; inst].
    intros g [Hm _]. cbn [map] in Hm. discriminate Hm.
  - inversion V as [|? ? Vx Vs]; subst.
    set (g := subl [(x0, x); (y0, rlist lcons lnil xs); (z0, rlist lcons lnil ys)]).
    destruct (run_d_erase E n progs L D lcons lnil Vc Vn lnil_app LT VLT Hnil ys g lcons (par z0) (par x0) x) as (us & Hu & Eu);
      [apply ev_constant|subst g; var|subst g; var|assumption|assumption|assumption|].
    destruct (erased_incl _ _ _ Hu) as [Iu Ju].
    destruct (IH us g (par y0) (d_erase L lcons (par z0) (par x0))) as (r & Er & Hr);
      [subst g; var|exact Eu|intros zs I1 I2; apply Ht; [exact (incl_tran I1 Iu)|lia]|assumption|exact (incl_vals ys us Iu W)|].
    assert (Q : EV g (call (l_eq L) [d_erase L lcons (par z0) (par x0); par z0]) (boolean (term_eqb (rlist lcons lnil us) (rlist lcons lnil ys)))).
    { apply (run_eq E n progs L D); [exact Eu|subst g; var|apply val_rlist; try assumption; exact (incl_vals ys us Iu W)|apply val_rlist; assumption]. }
    assert (R : forall r, EV g (snd (nth 0 (c_minclude L q lc ln (par x0) (par y0) (par z0)) ([], par 0))) r -> EV s (call q [a; b]) r).
    { intros r0 Hr0. eapply (run_call E n progs _ _ _ _ _ _ g _ x0 (par x0));
      [args|vals2|exact P|apply sel_hit; subst g; inst|occ|subst g; lk; discriminate|exact Hr0]. }
    cbn [c_minclude nth snd] in R. destruct (term_eqb (rlist lcons lnil us) (rlist lcons lnil ys)) eqn:Eq.
    + apply (rlist_eqb lcons lnil lnil_app) in Eq. subst us. pose proof (proj1 (erased_same _ _ _ Hu) eq_refl) as Hn.
      exists false. split; [|split; [discriminate|intros HI; exfalso; apply Hn; exact (included_in _ _ _ HI)]].
      apply R. apply ev_ite_true; [exact Q|apply ev_lit].
    + exists r. split; [apply R; apply ev_ite_false; [exact Q|exact Er]|]. rewrite Hr.
      destruct Hu as [[_ ->]|(c & d & -> & _ & ->)]; [|symmetry; apply included_cons].
      exfalso. assert (X : term_eqb (rlist lcons lnil ys) (rlist lcons lnil ys) = true) by (apply (rlist_eqb lcons lnil lnil_app); reflexivity). congruence.
Qed.

Section Op2.
Variable op nl T : term.
Hypothesis Vop : value op.
Hypothesis Vnl : value nl.
Hypothesis VT : value T.
Hypothesis Nnl : not_app2 op nl.
Hypothesis HnilT : exists cases g, progs (prog (l_nil L)) = Some cases /\ selects [op; T] cases (Some (nl, g)).

Lemma run_minclude : forall xs ys s f a b, EV s f op -> EV s a (rlist op nl xs) -> EV s b (rlist op nl ys) ->
  lists_typed lop op nl T xs -> lists_typed lop op nl T ys -> lists_typed lop lcons lnil LT ys -> Forall value xs -> Forall value ys ->
  (forall x us zs, xs = zs ++ x :: us -> lop K_EVAL_CONS [lcons; x; rlist lcons lnil us] = Ok (Some (rlist lcons lnil (x :: us)))) ->
  (forall x us zs, ys = zs ++ x :: us -> lop K_EVAL_CONS [lcons; x; rlist lcons lnil us] = Ok (Some (rlist lcons lnil (x :: us)))) ->
  exists r, EV s (d_minclude L p q f a b) (boolean r) /\ (r = true <-> included xs ys).
Proof.
  intros xs ys s f a b Hf Ha Hb T1 T2 T3 V W C1 C2.
  assert (El : forall l zs, EV s l (rlist op nl zs) -> lists_typed lop op nl T zs -> Forall value zs ->
    (forall x us ws, zs = ws ++ x :: us -> lop K_EVAL_CONS [lcons; x; rlist lcons lnil us] = Ok (Some (rlist lcons lnil (x :: us)))) ->
    EV s (d_elements L p f l) (rlist lcons lnil zs)).
  { intros l zs Hl Tz Vz Cz. unfold d_elements. apply (run_checked E n progs L D op nl Vop Vnl Nnl T VT HnilT _ _ _ zs); try assumption.
    apply (run_elements op nl Vop Vnl Nnl); try assumption.
    apply (run_nil E n progs L op nl Vop Vnl T VT HnilT _ _ _ (rlist op nl zs)); try assumption. apply Tz; [apply incl_refl|lia]. }
  destruct (run_minclude_rec xs ys s (d_elements L p f a) (d_elements L p f b)) as (r & Er & Hr); auto.
  exists r. split; [|exact Hr]. unfold d_minclude.
  apply (run_checked E n progs L D op nl Vop Vnl Nnl T VT HnilT _ _ _ xs); try assumption.
  apply (run_checked E n progs L D op nl Vop Vnl Nnl T VT HnilT _ _ _ ys); assumption.
Qed.
End Op2.
End Run3.
