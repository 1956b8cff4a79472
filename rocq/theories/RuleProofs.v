(** What a step concludes, in terms of the declaration of its rule. *)
From Coq Require Import String ZArith List Bool Lia.
From Verif Require Import Base Kind Ints Str Literal Arity Term TermProofs Match Eval ListOps Typing Build Scope Lexer Parse Check
  SpecTerm SpecEval SpecCheck EvalProofs EvalProofs2 ListProofs ListProofs2 PropList ClosureProofs FrontProofs CheckProofs CheckProofs2 InvProofs InvProofs2 StepProofs.
Import ListNotations.
Open Scope Z_scope.

Lemma pair_twf a b : twf (Node K_TUPLE [a; b]) -> twf a /\ twf b.
Proof. intros W. inversion W as [| |k cs _ _ C]; subst. inversion C as [|x y X Y]; subst. inversion Y; subst. auto. Qed.
Lemma chain_twf reqs conc ret : chain reqs conc ret -> Forall twf reqs -> twf conc -> twf ret.
Proof.
  intros C. induction C as [c | a b l c r C IH | a l c r Ga Ea C IH]; intros R W; [exact W | |].
  - inversion R as [|x y X Y]; subst. apply pair_twf in X. destruct X as [X1 X2].
    apply twf_node; [reflexivity | reflexivity|]. repeat constructor; auto.
  - inversion R as [|x y X Y]; subst. auto.
Qed.

Section Chain.
Variable E : env.
Variable n : nat.
Notation lop := (tc_lop (tc E n)).
Variable progs : term -> option (list pcase).
Hypothesis LW : lop_wf lop.
Hypothesis PW : progs_wf progs.
Variable f : sub.
Hypothesis SW : sub_wf f.
Lemma requires_ev a b c v : twf a -> twf b -> ev lop progs shortcut f (Node K_EVAL_REQUIRES [a; b; c]) v -> inert v ->
  meets lop progs f (Node K_TUPLE [a; b]) /\ ev lop progs shortcut f c v.
Proof.
  intros Wa Wb H I. inversion H; subst;
    try (match goal with X : is_application _ |- _ => destruct X; discriminate end);
    try (match goal with X : is_param _ |- _ => destruct X; discriminate end);
    try discriminate.
  - (* ev_op *)
    match goal with X : evs _ _ _ _ _ _ |- _ => rename X into V end.
    match goal with X : tc_lop _ _ _ = _ |- _ => rename X into L end.
    inversion V as [|? ? ? a' ds1 Va V1]; subst. inversion V1 as [|? ? ? b' ds2 Vb V2]; subst.
    inversion V2 as [|? ? ? c' ds3 Vc V3]; subst. inversion V3; subst.
    assert (Wa' : twf a') by exact (ev_wf _ _ _ LW PW _ _ _ Va Wa SW).
    assert (Wb' : twf b') by exact (ev_wf _ _ _ LW PW _ _ _ Vb Wb SW).
    destruct n as [|m]; [discriminate L|].
    cbn [tc tc_lop] in L. unfold evaluateLiteralOp in L. cbn [vec_at nth_error bind] in L.
    destruct (isGround a' && negb (isEvaluatable a')) eqn:F1; [|discriminate L].
    destruct (isGround b' && negb (isEvaluatable b') && term_eqb a' b') eqn:F2; [|discriminate L].
    injection L as <-. apply andb_prop in F2. destruct F2 as [_ F2]. apply term_eqb_eq in F2. subst b'.
    apply value_flags in F1; [|exact Wa']. destruct F1 as [F1 F3].
    split; [exists a, b, a'; auto | exact Vc].
  - exfalso. apply (I _ (occ_here _)). right. right. exists K_EVAL_REQUIRES, ds. split; [reflexivity|]. split; [|reflexivity].
    match goal with X : evs _ _ _ _ _ _ |- _ => inversion X; subst end. discriminate.
Qed.
Lemma chain_ev reqs conc ret v : chain reqs conc ret -> Forall twf reqs -> ev lop progs shortcut f ret v -> inert v ->
  Forall (meets lop progs f) reqs /\ ev lop progs shortcut f conc v.
Proof.
  intros C. induction C as [c | a b l c r C IH | a l c r Ga Ea C IH]; intros R H I; [auto | |].
  - inversion R as [|x y X Y]; subst. apply pair_twf in X. destruct X as [X1 X2].
    destruct (requires_ev a b r v X1 X2 H I) as [M H']. destruct (IH Y H' I) as [F H2]. auto.
  - inversion R as [|x y X Y]; subst. apply pair_twf in X. destruct X as [X1 _].
    destruct (IH Y H I) as [F H2]. split; [|exact H2]. constructor; [|exact F].
    assert (V : value a) by (apply value_flags; [exact X1 | now rewrite Ga, Ea]). destruct V as [V1 V2].
    exists a, a, a. split; [reflexivity|]. assert (S0 : ev lop progs shortcut f a a) by (apply ev_static; auto). auto.
Qed.
End Chain.

(** A program has a program type, which is not that of a formula. *)
Lemma program_not_bool G s i tys n ty : s_types s (Sym K_PROGRAM_CONST i) = Some (Node K_PROGRAM_TYPE tys) ->
  tc_type (tc (env_of G s) n) (Sym K_PROGRAM_CONST i) = Ok (Some ty) -> tkind ty <> K_BOOL_TYPE.
Proof.
  intros T H. destruct n as [|n]; [discriminate H|]. cbn [tc tc_type] in H. unfold getType in H. cbn in H. rewrite T in H. cbn in H.
  injection H as <-. discriminate.
Qed.

Theorem step_rule : forall G o incs i v s l1 lv name rule proven prem args asm conc l2,
  run G o incs i = Ok (v, s) -> coherent G -> typed_variables G -> ~ In EvReset (events s) ->
  s_log s = l1 ++ (lv, EvStep name rule proven prem args asm conc) :: l2 ->
  exists dasm dpl dprem dargs dreqs dconc dex s1 progs premises,
    In (EvRule rule dasm dpl dprem dargs dreqs dconc dex) (map snd l2) /\ state_at l2 s1 /\ defined (map snd l2) progs /\
    (is_null dasm = false <-> asm <> None) /\ (dex = true -> is_null proven = false) /\ (is_null proven = false -> conc = proven) /\
    (is_null dpl = true \/ dpl = t_Any -> premises = prem) /\
    (is_null dpl = false -> dpl <> t_Any -> exists F, premises = [Node K_PROOF [F]] /\ gathered G s1 dpl prem F) /\
    let patterns := rule_patterns dasm dprem dargs dconc dex in
    let inputs := args ++ (if dex then [proven] else []) ++ match asm with Some a => [a] | None => [] end ++ premises in
    (patterns <> [] \/ inputs = [] -> exists f, exact_instance f patterns inputs /\
       Forall (meets (tc_lop (tc (env_of G s1) (g_n G))) progs f) dreqs /\
       ev (tc_lop (tc (env_of G s1) (g_n G))) progs shortcut f dconc conc /\ inert conc).
Proof.
  intros G o incs i v s l1 lv name rule proven prem args asm conc l2 H HC TV NR L.
  assert (RM : exists op isAsm isExp prog, marks_of (map snd l2) rule = Some (A_PROOF_RULE, Some (Node K_TUPLE [op; Lit (LBool isAsm); Lit (LBool isExp); prog])) /\
    exists s1, state_at l2 s1 /\ declared s1 rule A_PROOF_RULE (Some (Node K_TUPLE [op; Lit (LBool isAsm); Lit (LBool isExp); prog]))).
  { destruct (run_JS G HC _ _ _ _ _ H NR) as (_ & _ & _ & JS').
    destruct (JS' _ _ _ _ _ _ _ _ _ _ L) as (s1 & lx & isPop & SA & W & A & KR & _ & _ & _ & _ & _ & _ & NS).
    destruct (notifyStep_facts _ _ _ _ _ _ _ _ _ _ NS) as [(ai & t0 & t1 & t2 & prog' & rest & prem' & AI & T & _) _].
    apply info_spec in AI. destruct AI as (_ & _ & AI). destruct (s_marks s1 rule) as [[a ct]|] eqn:M; injection AI as _ X; rewrite X in T; [|discriminate T].
    destruct W as (d & I). pose proof (proj2 (iv_known _ _ _ _ _ I) _ _ _ M KR) as D.
    destruct D as (dasm & pl & dprem & dargs & reqs & dconc & ex & prog & ret & D1 & -> & -> & D). exists (if is_null pl then t_Any else pl), (negb (is_null dasm)), ex, prog.
    split; [rewrite <- (proj1 (proj2 SA)); exact M|]. exists s1. split; [exact SA|]. do 9 eexists. split; [exact D1|]. split; [reflexivity|]. split; [reflexivity|]. exact D. }
  destruct RM as (op & isAsm & isExp & prog & RM & s0 & SA0 & D).
  destruct (step_full _ _ _ _ _ _ _ _ _ _ _ _ _ _ _ _ _ _ _ _ H HC TV NR L RM) as (s1 & progs & premises & SA & DF & (W & KN & WA & LW & PW & TY & PV) & H1 & H2 & H3 & H4 & H5 & H6).
  destruct D as (dasm & pl & dprem & dargs & reqs & dconc & ex & prog' & ret & D1 & _ & D2 & CH & WR & WC & D3 & D4).
  injection D2 as -> -> -> ->. assert (EV : events s0 = map snd l2) by (unfold events; now rewrite (proj1 SA0)). rewrite EV in D1.
  exists dasm, pl, dprem, dargs, reqs, dconc, ex, s1, progs, premises.
  split; [exact D1|]. split; [exact SA|]. split; [exact DF|].
  split. { rewrite <- H1. destruct (is_null dasm); cbn [negb]; split; congruence. }
  split; [exact H2|]. split; [exact PV|].
  split. { intros [N | N]; apply H3; destruct (is_null pl); congruence. }
  split. { intros N N'. rewrite N in H4. exact (H4 N'). }
  intros patterns inputs OK. fold inputs in H5, H6. fold patterns in D3, D4.
  destruct patterns as [|p0 ps] eqn:PT.
  - destruct OK as [OK | OK]; [contradiction|]. destruct (D3 eq_refl) as (-> & GR & ER). specialize (H5 OK). subst conc.
    exists (fun _ => None).
    assert (SW : sub_wf (fun _ => None)) by (intros p u X; discriminate X).
    assert (WRT : twf ret) by exact (chain_twf _ _ _ CH WR WC).
    assert (VR : value ret) by (apply value_flags; [exact WRT | now rewrite GR, ER]). destruct VR as [VC VI].
    destruct (chain_ev (env_of G s1) (g_n G) progs LW PW _ SW _ _ _ ret CH WR) as [F1 F2]; [apply ev_static; auto | exact VI|].
    split; [|auto]. rewrite OK. split; [split; [reflexivity | intros q p []] | intros p X; now elim X].
  - assert (PN : p0 :: ps <> []) by discriminate. destruct (D4 PN) as (j & -> & J & MK & tys & TS).
    assert (MK1 : progs (Sym K_PROGRAM_CONST j) = Some [(p0 :: ps, ret)]).
    { apply DF. rewrite (proj1 (proj2 SA0)) in MK. exact MK. }
    destruct inputs as [|i0 is] eqn:IN.
    + exfalso. specialize (H5 eq_refl). subst conc. destruct TY as (ty & TY & KB).
      refine (program_not_bool _ _ _ tys _ _ _ TY KB). rewrite (proj1 (proj2 (proj2 SA))). rewrite (proj1 (proj2 (proj2 SA0))) in TS. exact TS.
    + destruct H6 as (body & f & C & V & I & SW); [discriminate | eexists; reflexivity|].
      inversion C as [| |cases r' _ _ PC SEL]; subst. rewrite MK1 in PC. injection PC as <-.
      inversion SEL as [| |? ? ? ? EI|? ? ? ? _ _ SEL']; subst; [|inversion SEL'].
      exists f. split; [exact EI|].
      destruct (chain_ev (env_of G s1) (g_n G) progs LW PW _ SW _ _ _ conc CH WR V I) as [F1 F2]. auto.
Qed.
