(** Built-in lists: proofs. *)
From Coq Require Import String ZArith List Bool Lia Arith.
From Verif Require Import Base Kind Ints Str Literal Arity Term Match Eval SpecTerm SpecEval TermProofs EvalProofs
  ListOps Typing SpecType TypeProofs Build SpecList SpecBuild BuildProofs Scope Lexer Parse SpecRead SpecBuiltin.
Import ListNotations.
Open Scope Z_scope.
Open Scope string_scope.
Open Scope list_scope.
Open Scope Z_scope.

Lemma list_elements E ts r : ts <> [] -> Forall (fun t => ~ marked E t) ts ->
  (desugar_right (e_listCons E) (e_listNil E) (marked E) ts r <-> r = list_of E ts).
Proof.
  intros NE F. revert r NE. induction F as [|t ts N F IH]; intros r NE; [contradiction|].
  destruct ts as [|t2 ts].
  - split; [intros H; inversion H; subst; try contradiction; [reflexivity | match goal with h : desugar_right _ _ _ [] _ |- _ => inversion h end]|].
    intros ->. now apply dr_last.
  - change (list_of E (t :: t2 :: ts)) with (app2 (e_listCons E) t (list_of E (t2 :: ts))). split.
    + intros H. inversion H; subst; try contradiction. f_equal. f_equal. f_equal. apply IH; [discriminate | assumption].
    + intros ->. apply dr_cons; [assumption|]. apply IH; [discriminate | reflexivity].
Qed.
Lemma list_built_any E n m ai t1 ts r : e_info E (e_listCons E) = Some ai -> ai_kind ai = K_NONE -> ai_over ai = None ->
  ai_cons ai = A_RIGHT_ASSOC_NIL -> ai_cterm ai = Some (e_listNil E) -> tkind (e_listNil E) <> K_PARAMETERIZED ->
  (mkExpr E n (S m) K_APPLY (e_listCons E :: t1 :: ts) = Ok r <-> desugar_right (e_listCons E) (e_listNil E) (marked E) (t1 :: ts) r).
Proof.
  intros I K O C N P. assert (D : declared E (e_listCons E) A_RIGHT_ASSOC_NIL ai) by (repeat split; assumption).
  assert (NF : nil_for E n (e_listCons E) ai t1 (e_listNil E)) by now apply nil_for_plain.
  split; [|exact (build_right_nil E n m (e_listCons E) ai t1 ts _ r D NF)].
  intros H. destruct (desugar_right_total E (e_listCons E) (e_listNil E) (t1 :: ts)) as (r' & H'); [discriminate|].
  rewrite (build_right_nil E n m (e_listCons E) ai t1 ts _ r' D NF H') in H. injection H as <-. exact H'.
Qed.
Lemma list_read G sig s xs r s1 m : g_mk G = S m -> built_in_lists (env_of G s) -> built_in_lists (env_of G s1) ->
  getVar (s_scope s) (txt "eo::List::cons") = Some (e_listCons (env_of G s)) -> overloads_of (s_scope s1) (e_listCons (env_of G s1)) = None ->
  (reads G sig s (XL (XT T_SYMBOL (txt "eo::List::cons") :: xs)) r s1 <->
   exists ts, reads_args G sig s xs ts s1 /\
     (ts = [] /\ applied G s1 [e_listCons (env_of G s1)] r \/
      ts <> [] /\ desugar_right (e_listCons (env_of G s1)) (e_listNil (env_of G s1)) (marked (env_of G s1)) ts r)).
Proof.
  intros MK B B1 V O. pose proof (bl_attr _ B1) as (ai & I1 & I2 & I3 & I4).
  assert (OV : ai_over ai = None).
  { clear - I1 O. cbn [env_of e_info e_listCons] in *. rewrite O in I1. destruct (builtin_kind sym_cons), (s_marks s1 sym_cons) as [[? ?]|]; try discriminate I1; now injection I1 as <-. }
  assert (PN : tkind (e_listNil (env_of G s1)) <> K_PARAMETERIZED) by discriminate.
  assert (A : forall t ts q, applied G s1 (e_listCons (env_of G s1) :: t :: ts) q <->
    desugar_right (e_listCons (env_of G s1)) (e_listNil (env_of G s1)) (marked (env_of G s1)) (t :: ts) q).
  { intros t ts q. unfold applied. rewrite MK. now apply (list_built_any _ _ _ ai). }
  assert (NB : binds (getConstructorKind (env_of G s) (e_listCons (env_of G s))) = false).
  { destruct (bl_attr _ B) as (ai0 & J1 & _ & J3 & _). unfold getConstructorKind. rewrite J1, J3. reflexivity. }
  change (e_listCons (env_of G s)) with sym_cons in *. change (e_listCons (env_of G s1)) with sym_cons in *.
  split.
  - intros H. inversion H; subst.
    all: repeat match goal with h : name_of T_SYMBOL ?x = Some ?y |- _ => change (Some x = Some y) in h; injection h as <- end.
    all: repeat match goal with h : getVar _ _ = Some ?w |- _ => assert (w = sym_cons) by congruence; subst w; clear h end.
    + match goal with h : reads_args _ _ _ _ _ _, h' : applied _ _ _ _ |- _ => rename h into RA; rename h' into AP end.
      exists ts. split; [exact RA|]. destruct ts as [|t0 ts0]; [left; auto|]. right. split; [discriminate|]. apply A. exact AP.
    + match goal with h : getConstructorKind _ _ = _ |- _ => rewrite h in NB; discriminate NB end.
    + match goal with h : getConstructorKind _ _ = _ |- _ => rewrite h in NB; discriminate NB end.
    + discriminate.
  - intros (ts & R & H). eapply rd_app; [reflexivity | exact V | now rewrite NB | exact R|]. destruct H as [(-> & H)|(NE & H)]; [exact H|]. destruct ts as [|t ts]; [contradiction|]. now apply A.
Qed.

Section Lists.
Variable E : env.
Variable progs : term -> option (list pcase).
Hypothesis EW : env_wf E.
Hypothesis PR : programs_of E progs.
Hypothesis BL : built_in_lists E.

Lemma sym_closed i : closed (Sym K_CONST i).
Proof. intros u O. inversion O; subst. split; [intros (j & X); discriminate X|intros X; discriminate X]. Qed.
Lemma sym_inert i : inert (Sym K_CONST i).
Proof. apply eval_inert; [constructor; reflexivity|reflexivity]. Qed.
Lemma arrow_closed i : closed (Node K_FUNCTION_TYPE [Sym K_CONST i; Sym K_CONST i]).
Proof. apply ground_closed; [repeat constructor|reflexivity]. Qed.
Lemma arrow_inert i : inert (Node K_FUNCTION_TYPE [Sym K_CONST i; Sym K_CONST i]).
Proof. apply eval_inert; [repeat constructor|reflexivity]. Qed.

Lemma cons_typed x U : twf x ->
  (typed E progs (Node K_APPLY [e_listCons E; x]) U <->
   (exists T, typed E progs x T) /\ U = Node K_FUNCTION_TYPE [e_listType E; e_listType E]).
Proof.
  intros Wx. destruct (bl_list E BL) as (il & EL & TL). destruct (bl_cons E BL) as (ic & j & EC & TJ & TC).
  assert (Wc : twf (e_listCons E)) by (rewrite EC; constructor; reflexivity).
  assert (HC : typed E progs (e_listCons E) (Node K_FUNCTION_TYPE [Sym K_PARAM j; Node K_FUNCTION_TYPE [e_listType E; e_listType E]])).
  { rewrite EC. apply ht_symbol. rewrite <- EC. exact TC. }
  pose proof (env_wf_ok E EW) as OK. rewrite EL in *.
  assert (V : forall s, evaluates E progs s (Node K_FUNCTION_TYPE [Sym K_CONST il; Sym K_CONST il]) (Node K_FUNCTION_TYPE [Sym K_CONST il; Sym K_CONST il])).
  { intros s. exists O. apply ev_static; [repeat constructor|apply arrow_inert|left; apply arrow_closed]. }
  split.
  - intros H. unfold typed in H. inversion H as [| | |k f' xs fk hs ret ts s T' K HS FK F O EV ST| | | | | |k cs ts ns o T' HS SG]; subst;
      try discriminate SG;
      try (match goal with X : In K_APPLY _ |- _ => cbn in X; repeat (destruct X as [X|X]; [discriminate X|]); destruct X end).
    inversion HS as [|t1 ts1 T1 Ts1 H1 H2]; subst.
    pose proof (typing_unique E progs OK PR _ _ _ Wc HC H1) as EQ. injection EQ as <- EQ.
    inversion H2 as [|t2 ts2 T2 Ts2 H3 H4]; subst. inversion H4; subst.
    destruct hs as [|h [|h' hs]]; try discriminate EQ.
    + injection EQ as <- <-. split; [exists T2; exact H3|]. destruct EV as (n & EV). destruct (V s) as (n' & V').
      assert (X : exists m, ev (tc_lop (tc E m)) progs shortcut s (Node K_FUNCTION_TYPE [Sym K_CONST il; Sym K_CONST il]) (Node K_FUNCTION_TYPE [Sym K_CONST il; Sym K_CONST il])).
      { eexists; exact V'. }
      eapply ev_det; [exact shortcut_ext|exact EV|]. apply ev_static; [repeat constructor|apply arrow_inert|left; apply arrow_closed].
    + destruct hs; discriminate EQ.
  - intros [(T & HX) ->].
    eapply (ht_apply _ _ _ _ _ _ K_APPLY (e_listCons E) [x] K_FUNCTION_TYPE [Sym K_PARAM j] _ [T] (fun p => if term_eqb p (Sym K_PARAM j) then Some T else None)); auto.
    + constructor; [exact HC|]. constructor; [exact HX|constructor].
    + apply fa_plain; [discriminate| |constructor]. split; [intros u Ou; inversion Ou; subst; discriminate|]. split.
      * cbn [tsubst]. now rewrite (proj2 (term_eqb_eq _ _) eq_refl).
      * intros q Hq Oq. inversion Oq; subst. now rewrite (proj2 (term_eqb_eq _ _) eq_refl).
    + intros p N. destruct (term_eqb p (Sym K_PARAM j)) eqn:EP; [|elim N; reflexivity]. apply term_eqb_eq in EP. subst p.
      split; [exists j; reflexivity|]. exists (Sym K_PARAM j). split; [now left|constructor].
    + intros _. apply arrow_inert.
Qed.
Lemma list_cell_typed x l U : twf x -> twf l ->
  (typed E progs (app2 (e_listCons E) x l) U <->
   (exists T, typed E progs x T) /\ typed E progs l (e_listType E) /\ U = e_listType E).
Proof.
  intros Wx Wl. pose proof (bl_list E BL) as (il & EL & TL). pose proof (bl_cons E BL) as (ic & j & EC & TJ & TC).
  assert (Wf : twf (Node K_APPLY [e_listCons E; x])) by (rewrite EC; repeat constructor; exact Wx).
  assert (P : forall T, typed E progs x T -> (typed E progs (app2 (e_listCons E) x l) U <-> typed E progs l (e_listType E) /\ U = e_listType E)).
  { intros T HX. apply (plain_app E progs EW PR); auto.
    - apply cons_typed; [exact Wx|]. split; [exists T; exact HX|reflexivity].
    - rewrite EL. apply sym_closed. - rewrite EL. discriminate. - rewrite EL. apply sym_closed. - rewrite EL. apply sym_inert. }
  split.
  - intros H. assert (X : exists W, typed E progs (Node K_APPLY [e_listCons E; x]) W).
    { unfold typed in H. inversion H as [| | |k f' xs fk hs ret ts s T' K HS FK F O EV ST| | | | | |k cs ts ns o T' HS SG]; subst;
      try discriminate SG;
      try (match goal with X : In K_APPLY _ |- _ => cbn in X; repeat (destruct X as [X|X]; [discriminate X|]); destruct X end).
      inversion HS; subst. eexists. eassumption. }
    destruct X as (W & X). apply cons_typed in X; [|exact Wx]. destruct X as [(T & X) _]. split; [exists T; exact X|]. now apply (P T).
  - intros [(T & X) Y]. now apply (P T).
Qed.
Lemma list_typed ts U : Forall twf ts ->
  (typed E progs (list_of E ts) U <-> Forall (fun t => exists T, typed E progs t T) ts /\ U = e_listType E).
Proof.
  intros W. assert (NT : forall U, typed E progs (e_listNil E) U <-> U = e_listType E).
  { intros V. destruct (bl_nil E BL) as (i & EN & TN). split.
    - intros H. rewrite EN in H. inversion H; subst. congruence.
    - intros ->. rewrite EN. apply ht_symbol. rewrite <- EN. exact TN. }
  assert (WL : forall l, Forall twf l -> twf (list_of E l)).
  { intros l Wl. destruct (bl_cons E BL) as (ic & j & EC & _). destruct (bl_nil E BL) as (i & EN & _). induction Wl as [|a l A Wl IH]; cbn [list_of fold_right].
    - rewrite EN. constructor. reflexivity.
    - constructor; [reflexivity|reflexivity|]. constructor; [|constructor; [exact IH|constructor]].
      rewrite EC. repeat constructor. exact A. }
  revert U. induction W as [|a l A W IH]; intros U.
  - cbn. rewrite NT. split; [intros ->; split; [constructor|reflexivity]|intros [_ ->]; reflexivity].
  - change (list_of E (a :: l)) with (app2 (e_listCons E) a (list_of E l)). rewrite list_cell_typed by auto. rewrite IH. split.
    + intros (X & (Y & _) & ->). split; [constructor; auto|reflexivity].
    + intros (X & ->). inversion X; subst. auto.
Qed.
End Lists.
