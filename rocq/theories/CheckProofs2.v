(** Invariants of runs. *)
From Coq Require Import String ZArith List Bool Lia.
From Verif Require Import Base Kind Ints Str Literal Arity Term TermProofs SpecTerm Match Eval SpecEval EvalProofs EvalProofs2 ListOps Typing Build Scope SpecScope ScopeProofs Lexer Parse Check SpecCheck FrontProofs CheckProofs.
Import ListNotations.
Open Scope Z_scope.

(** ** The checks of a step *)
Record step_facts (G : config) (s : st) (rule proven : term) (prem args : list term) (isPop : bool)
  (asm : option term) (conc : term) : Prop := {
  sf_rule : exists ai t0 t1 t2 prog rest prem',
    e_info (env_of G s) rule = Some ai /\ tchildren (or_null (ai_cterm ai)) = t0 :: t1 :: t2 :: prog :: rest /\
    (t1 = Lit (LBool true) <-> isPop = true) /\
    (t2 = Lit (LBool true) -> is_null proven = false) /\
    (t0 = t_Any -> prem' = prem) /\
    (t0 <> t_Any -> exists l ap, prem' = [Node K_PROOF [ap]] /\ collectPremises G t0 prem (l, s) = Ok (Some ap, (l, s))) /\
    let inputs := args ++ (if term_eqb t2 (Lit (LBool true)) then [proven] else [])
                    ++ match asm with Some a => [a] | None => [] end ++ prem' in
    (inputs = [] /\ conc = prog) \/
    (inputs <> [] /\ isEvaluatable conc = false /\
     exists r, evaluateProgramApp (tc_lop (tc (env_of G s) (g_n G))) (getProgram (env_of G s)) (g_n G) (prog :: inputs) = Ok r
               /\ conc = or_null r);
  sf_asm : if isPop then exists a, asm = Some a /\ vec_at (currentAssumptions s) 0 = Ok a else asm = None }.

Lemma vec_at_0 : forall A (l : list A) x, vec_at l 0 = Ok x -> exists l', l = x :: l'.
Proof. intros A [|y l] x H; cbn in H; [discriminate|]. injection H as ->. eauto. Qed.
Lemma vec_at_S : forall A (l : list A) n x, vec_at l (S n) = Ok x -> exists y l', l = y :: l' /\ vec_at l' n = Ok x.
Proof. intros A [|y l] n x H; cbn in H; [discriminate|]. exists y, l. split; [reflexivity|exact H]. Qed.

Lemma notifyStep_facts : forall G rule proven prem args isPop l s conc asm,
  notifyStep G rule proven prem args isPop (l, s) = Ok (Some (conc, asm), (l, s)) ->
  step_facts G s rule proven prem args isPop asm conc.
Proof.
  intros G rule proven prem args isPop l s conc asm H. unfold notifyStep in H. mstep H as s0 p0 E. mstate E. cbn [snd] in H.
  destruct (e_info (env_of G s) rule) as [ai|] eqn:AI; [|apply mret_ok in H; destruct H as [H _]; discriminate H].
  mstep H as prog p1 E1. apply mlift_ok in E1. destruct E1 as [T3 ->].
  mstep H as t0 p1 E1. apply mlift_ok in E1. destruct E1 as [T0 ->].
  mstep H as t1 p1 E1. apply mlift_ok in E1. destruct E1 as [T1 ->].
  mstep H as t2 p1 E1. apply mlift_ok in E1. destruct E1 as [T2 ->].
  assert (X : exists rest, tchildren (or_null (ai_cterm ai)) = t0 :: t1 :: t2 :: prog :: rest).
  { apply vec_at_0 in T0. destruct T0 as (l0 & Q0). rewrite Q0 in *.
    apply vec_at_S in T1. destruct T1 as (y1 & l1 & Q1 & T1). injection Q1 as _ <-. apply vec_at_0 in T1. destruct T1 as (l2 & ->).
    apply vec_at_S in T2. destruct T2 as (y2 & l3 & Q2 & T2). injection Q2 as _ <-. apply vec_at_S in T2.
    destruct T2 as (y3 & l4 & Q3 & T2). injection Q3 as _ <-. apply vec_at_0 in T2. destruct T2 as (l5 & ->).
    do 3 (apply vec_at_S in T3; destruct T3 as (? & ? & Q4 & T3); injection Q4 as _ <-).
    apply vec_at_0 in T3. destruct T3 as (rest & ->). now exists rest. }
  destruct X as (rest & X). clear T0 T1 T2 T3. cbv zeta in H.
  destruct (term_eqb t2 (Lit (LBool true)) && is_null proven) eqn:EXP;
    [apply mret_ok in H; destruct H as [H _]; discriminate H|].
  destruct (Bool.eqb isPop (term_eqb t1 (Lit (LBool true)))) eqn:POP;
    [|apply mret_ok in H; destruct H as [H _]; discriminate H].
  apply eqb_prop in POP.
  mstep H as asm0 p1 EA.
  assert (A : p1 = (l, s) /\ if isPop then exists a, asm0 = Some a /\ vec_at (currentAssumptions s) 0 = Ok a else asm0 = None).
  { destruct isPop.
    - mstep EA as a q Q. apply mlift_ok in Q. destruct Q as [Q ->]. apply mret_ok in EA. destruct EA as [-> ->]. split; eauto.
    - apply mret_ok in EA. destruct EA as [-> ->]. auto. }
  destruct A as [-> A]. clear EA. mstep H as prem0 p1 EP.
  assert (B : p1 = (l, s) /\ (forall prem', prem0 = Some prem' ->
    (t0 = t_Any -> prem' = prem) /\
    (t0 <> t_Any -> exists l ap, prem' = [Node K_PROOF [ap]] /\ collectPremises G t0 prem (l, s) = Ok (Some ap, (l, s))))).
  { destruct (term_eqb t0 t_Any) eqn:TA.
    - apply term_eqb_eq in TA. apply mret_ok in EP. destruct EP as [-> ->]. split; [reflexivity|].
      intros prem' Q. injection Q as <-. split; [auto | contradiction].
    - mstep EP as n q Q. assert (q = (l, s)) as ->.
      { assert (P : pure (collectPremises G t0 prem)) by pure_all. apply (P _ _ _ Q). }
      apply mret_ok in EP. destruct EP as [-> ->]. split; [reflexivity|]. intros prem' R.
      destruct n as [ap|]; [|discriminate R]. injection R as <-. split.
      + intros ->. rewrite term_eqb_refl in TA. discriminate TA.
      + intros _. exists l, ap. auto. }
  destruct B as [-> B]. clear EP. destruct prem0 as [prem'|]; [|apply mret_ok in H; destruct H as [H _]; discriminate H].
  destruct (B _ eq_refl) as [B1 B2]. clear B.
  set (inputs := args ++ (if term_eqb t2 (Lit (LBool true)) then [proven] else [])
                   ++ match asm0 with Some a => [a] | None => [] end ++ prem') in *.
  assert (C : asm0 = asm /\ ((inputs = [] /\ conc = prog) \/
    (inputs <> [] /\ isEvaluatable conc = false /\
     exists r, evaluateProgramApp (tc_lop (tc (env_of G s) (g_n G))) (getProgram (env_of G s)) (g_n G) (prog :: inputs) = Ok r
               /\ conc = or_null r))).
  { destruct inputs as [|i0 inputs'].
    - apply mret_ok in H. destruct H as [H _]. injection H as -> ->. auto.
    - mstep H as r p1 E. apply mlift_ok in E. destruct E as [E ->]. destruct (isEvaluatable (or_null r)) eqn:IE;
        apply mret_ok in H; destruct H as [H _]; [discriminate H|]. injection H as -> ->. split; [reflexivity|]. right.
      split; [discriminate|]. split; [exact IE|]. exists r. auto. }
  destruct C as [-> C]. constructor; [|exact A].
  exists ai, t0, t1, t2, prog, rest, prem'. split; [exact AI|]. split; [exact X|].
  split. { rewrite POP. rewrite <- term_eqb_eq. reflexivity. }
  split. { intros ->. rewrite term_eqb_refl in EXP. exact EXP. }
  auto.
Qed.

(** ** Invariants *)
Fixpoint decreasing (l : list nat) : Prop :=
  match l with
  | [] => True
  | n :: l' => Forall (fun m => (m < n)%nat) l' /\ decreasing l'
  end.
Record inv (cl : bool) (v : view) : Prop := {
  i_used : forall r, In r (v_used v) <-> uses (map snd (v_log v)) r;
  i_sorry : forall r, In r (v_sorry v) <-> trusted (map snd (v_log v)) r;
  i_ctx : Forall2 (fun n F => nth_error (v_asm v) n = Some F) (v_ctx v) (opened (map snd (v_log v)));
  i_dec : decreasing (v_ctx v);
  i_incl : v_incl v = map (fun x => fst (fst x)) (processed (map snd (v_log v)));
  i_nodup : NoDup (v_incl v);
  i_ref : match processed (map snd (v_log v)) with
          | [] => v_hasRef v = false /\ v_refNf v = null_term
          | (_, r, nf) :: _ => v_hasRef v = r /\ v_refNf v = nf
          end;
  i_refs : (forall x, In x (processed (map snd (v_log v))) -> is_null (snd x) = true) ->
           forall F, In F (v_refs v) -> In F (asserted (map snd (v_log v)));
  i_assume : forall l1 name F l2, v_log v = l1 ++ (O, EvAssume name F false) :: l2 ->
    in_reference (map snd l2) -> (forall x, In x (processed (map snd l2)) -> is_null (snd x) = true) ->
    In F (asserted (map snd l2));
  i_second : forall l1 lv f nf l2, v_log v = l1 ++ (lv, EvInclude f true nf) :: l2 -> cl = false ->
    ~ in_reference (map snd l2);
  i_pop : forall l1 lv name rule proven prem args asm conc l2,
    v_log v = l1 ++ (lv, EvStep name rule proven prem args (Some asm) conc) :: l2 ->
    hd_error (opened (map snd l2)) = Some asm;
  i_proven : forall lv name rule proven prem args asm conc,
    In (lv, EvStep name rule proven prem args asm conc) (v_log v) -> is_null proven = true \/ conc = proven;
  i_level : length (v_ctx v) = length (opened (map snd (v_log v)));
  i_levels : forall l1 lv e l2, v_log v = l1 ++ (lv, e) :: l2 -> lv = length (opened (e :: map snd l2)) }.

(** An event that is not about any of these. *)
Definition neutral (e : event) : bool :=
  match e with EvSymbol _ _ | EvMark _ _ _ | EvLiteral _ _ | EvEcho _ | EvPush | EvPop | EvSorry _ | EvAssert _ | EvRule _ _ _ _ _ _ _ _ => true | _ => false end.
Lemma opened_neutral : forall e l, neutral e = true -> opened (e :: l) = opened l.
Proof. intros e l H. destruct e; try discriminate H; reflexivity. Qed.
Lemma processed_neutral : forall e l, neutral e = true -> processed (e :: l) = processed l.
Proof. intros e l H. destruct e; try discriminate H; reflexivity. Qed.
Lemma uses_cons : forall e l r, uses (e :: l) r <->
  (exists name proven prem args asm conc, e = EvStep name r proven prem args asm conc) \/ uses l r.
Proof.
  intros e l r. unfold uses. split.
  - intros (a & b & c & d & f & g & [I | I]); [left | right]; eauto 10.
  - intros [(a & b & c & d & f & g & ->) | (a & b & c & d & f & g & I)]; do 6 eexists; [now left | right; eauto].
Qed.
Lemma trusted_cons : forall e l r, trusted (e :: l) r <-> e = EvSorry r \/ trusted l r.
Proof. reflexivity. Qed.

Lemma split_cons : forall A (x : A) l l1 y l2, x :: l = l1 ++ y :: l2 ->
  (l1 = [] /\ x = y /\ l = l2) \/ (exists l1', l1 = x :: l1' /\ l = l1' ++ y :: l2).
Proof.
  intros A x l [|z l1] y l2 H; cbn [app] in H; injection H as -> ->; [left | right]; eauto.
Qed.
Ltac split_log H :=
  apply split_cons in H; destruct H as [(_ & H & <-) | (? & _ & H)].

Lemma nth_firstn : forall A (l : list A) n m, (m < n)%nat -> nth_error (firstn n l) m = nth_error l m.
Proof.
  intros A l. induction l as [|x l IH]; intros n m L; destruct n; try lia; [reflexivity|].
  destruct m; [reflexivity|]. cbn. apply IH. lia.
Qed.

Ltac vcbn := cbn [view_of v_asm v_ctx v_hasRef v_refNf v_refs v_incl v_sorry v_used v_log with_event map fst snd
  s_scope set_scope s_marks set_marks s_types set_types s_names set_names s_lits set_lits s_next set_next s_opts set_opts s_asm set_asm s_asmctx set_asmctx s_hasRef set_hasRef s_refNf set_refNf s_refs set_refs s_incl set_incl s_input set_input s_sorry set_sorry s_used set_used s_log set_log].
Section Inv.
Variable G : config.
Variable cl : bool.

Lemma inv_init : forall o, inv cl (view_of (st_init o)).
Proof.
  intros o. constructor; cbn; try reflexivity; try (intros; now destruct l1); auto.
  - split; [intros [] | intros (? & ? & ? & ? & ? & ? & [])].
  - constructor.
Qed.

Lemma inv_tstep : forall s s', tstep G cl s s' -> inv cl (view_of s) -> inv cl (view_of s').
Proof.
  intros s s' T [U S C D I N R F A X P PV L V]. cbn [view_of v_asm v_ctx v_hasRef v_refNf v_refs v_incl v_sorry v_used v_log] in *.
  inversion T as [t t' E|t t' e O E|t t' r E|t t' name fo push ctx NF E|t t' u name rule proven prem args asm conc SO E
    |t t' u name rule proven prem args asm conc n ctx SO CT E|t t' a aa NF E|t t' path isRef nf NI HR LV E|t t' E];
    subst t t'; try (rewrite E); clear E.
  - constructor; assumption.
  - assert (NE : neutral e = true) by (destruct e; try discriminate O; reflexivity).
    constructor; vcbn; try assumption; try (rewrite ?processed_neutral, ?opened_neutral by exact NE; assumption).
    + intros r. rewrite uses_cons, U. split; [auto|]. intros [(a & b & c & d & f & g & ->) | H]; [discriminate O | exact H].
    + intros r. rewrite trusted_cons, S. split; [auto|]. intros [-> | H]; [discriminate O | exact H].
    + rewrite processed_neutral by exact NE. intros Q f H. specialize (F Q f H). destruct e; try discriminate O; exact F.
    + intros l1 name f l2 H. split_log H; [injection H as _ ->; discriminate O | eauto].
    + intros l1 lv f nf l2 H. split_log H; [injection H as _ ->; discriminate O | eauto].
    + intros l1 lv name rule proven prem args asm conc l2 H. split_log H; [injection H as _ ->; discriminate O | eauto].
    + intros lv name rule proven prem args asm conc [H | H]; [injection H as _ ->; discriminate O | eauto].
    + intros l1 lv e' l2 H. split_log H; [|eauto]. injection H as <- <-. now rewrite opened_neutral.
  - constructor; vcbn; try assumption; try (intros; split_log H; [discriminate H | eauto]).
    + intros x. rewrite uses_cons, U. split; [auto|]. intros [(a & b & c & d & f & g & Q) | H]; [discriminate Q | exact H].
    + intros x. rewrite trusted_cons, <- S. cbn [In]. intuition congruence.
    + intros lv name' rule' proven' prem' args' asm' conc' [H | H]; [discriminate H | eauto].
    + intros l1 lv e' l2 H. split_log H; [|eauto]. injection H as <- <-. cbn [opened]. exact L.
  - assert (LT : Forall (fun n => (n < length (s_asm s))%nat) (s_asmctx s)).
    { clear - C. induction C as [|n f c l H C IH]; constructor; [|exact IH]. apply nth_error_Some. congruence. }
    assert (LC : length ctx = length (opened (EvAssume name fo push :: map snd (s_log s)))).
    { subst ctx. destruct push; cbn [opened length]; rewrite L; reflexivity. }
    constructor; vcbn; try assumption.
    + intros r. rewrite uses_cons, U. split; [auto|]. intros [(a & b & c & d & f & g & Q) | H]; [discriminate Q | exact H].
    + intros r. rewrite trusted_cons, S. split; [auto|]. intros [Q | H]; [discriminate Q | exact H].
    + assert (C' : Forall2 (fun n f => nth_error (s_asm s ++ [fo]) n = Some f) (s_asmctx s) (opened (map snd (s_log s)))).
      { clear - C LT. induction C as [|n f c l H C IH]; constructor; inversion_clear LT; auto. now rewrite nth_error_app1. }
      subst ctx. destruct push; [|exact C']. constructor; [|exact C'].
      rewrite nth_error_app2 by lia. now rewrite Nat.sub_diag.
    + subst ctx. destruct push; [split|]; assumption.
    + intros l1 n f l2 H. split_log H; [|eauto]. injection H as L0 <- <- ->. intros (f0 & nf & rest & IR) Q.
      rewrite IR in R. destruct R as [R1 R2]. apply length_zero_iff_nil in L0.
      assert (NU : is_null (s_refNf s) = true). { rewrite R2. apply (Q (f0, true, nf)). rewrite IR. now left. }
      apply (F Q). now apply NF.
    + intros l1 lv f nf l2 H. split_log H; [discriminate H | eauto].
    + intros l1 lv n r pr prem args asm conc l2 H. split_log H; [discriminate H | eauto].
    + intros lv name' rule' proven' prem' args' asm' conc' [H | H]; [discriminate H | eauto].
    + intros l1 lv e' l2 H. split_log H; [|eauto]. injection H as <- <-. exact LC.
  - destruct SO as (_ & (lx & NS) & _ & PV'). apply notifyStep_facts in NS. destruct NS as [_ AS]. cbn in AS. subst asm.
    constructor; vcbn; try assumption; try (intros; split_log H; [discriminate H | eauto]).
    + intros r. rewrite uses_cons, <- U. split.
      * intros [-> | H]; [left; eauto 10 | now right].
      * intros [(a & b & c & d & f & g & Q) | H]; [left; congruence | now right].
    + intros r. rewrite trusted_cons, S. split; [auto|]. intros [Q | H]; [discriminate Q | exact H].
    + intros lv name' rule' proven' prem' args' asm' conc' [H | H]; [|eauto]. injection H as _ _ _ <- _ _ _ <-. exact PV'.
    + intros l1 lv e' l2 H. split_log H; [|eauto]. injection H as <- <-. exact L.
  - destruct SO as (_ & (lx & NS) & _ & PV'). apply notifyStep_facts in NS. destruct NS as [_ AS]. destruct AS as (a & -> & AS).
    unfold currentAssumptions in AS. cbn in AS. rewrite CT in *. inversion C as [|n0 f0 c0 l0 C1 C2 Q1 Q2]; subst.
    assert (a = f0).
    { assert (NE : nth_error (s_asm s) n = Some a).
      { clear - AS. apply vec_at_0 in AS. destruct AS as (l' & Q). rewrite <- (firstn_skipn n (s_asm s)) at 1.
        rewrite Q. destruct (Nat.le_gt_cases n (length (s_asm s))) as [LE | GT].
        - rewrite nth_error_app2; rewrite firstn_length_le by exact LE; [now rewrite Nat.sub_diag | lia].
        - rewrite skipn_all2 in Q by lia. discriminate Q. }
      congruence. }
    subst f0. destruct D as [D1 D2].
    constructor; vcbn; try assumption.
    + intros r. rewrite uses_cons, <- U. split.
      * intros [-> | H]; [left; eauto 10 | now right].
      * intros [(a1 & b & c & d & f & g & Q) | H]; [left; congruence | now right].
    + intros r. rewrite trusted_cons, S. split; [auto|]. intros [Q | H]; [discriminate Q | exact H].
    + cbn [opened]. rewrite <- Q2. cbn [tl]. clear - C2 D1. induction C2 as [|m f c l H C IH]; constructor; inversion_clear D1; auto.
      rewrite nth_firstn by assumption. exact H.
    + intros l1 n0 f l2 H. split_log H; [discriminate H | eauto].
    + intros l1 lv f nf l2 H. split_log H; [discriminate H | eauto].
    + intros l1 lv nm r pr pm ar as' cc l2 H. split_log H; [|eauto]. injection H as _ _ _ _ _ _ <- _.
      rewrite <- Q2. reflexivity.
    + intros lv name' rule' proven' prem' args' asm' conc' [H | H]; [|eauto]. injection H as _ _ _ <- _ _ _ <-. exact PV'.
    + cbn [opened]. rewrite <- Q2. cbn [tl]. rewrite <- Q2 in L. cbn in L. lia.
    + intros l1 lv e' l2 H. split_log H; [|eauto]. injection H as <- <-. cbn [opened]. rewrite <- Q2 in *. cbn [tl length] in *. lia.
  - constructor; vcbn; try assumption; try (intros; split_log H; [discriminate H | eauto]).
    + intros r. rewrite uses_cons, U. split; [auto|]. intros [(a1 & b & c & d & f & g & Q) | H]; [discriminate Q | exact H].
    + intros r. rewrite trusted_cons, S. split; [auto|]. intros [Q | H]; [discriminate Q | exact H].
    + cbn [processed flat_map app asserted In]. fold (processed (map snd (s_log s))). fold (asserted (map snd (s_log s))).
      intros Q f [<- | H]; [|right; now apply (F Q)].
      destruct (processed (map snd (s_log s))) as [|[[p r] nf] rest] eqn:PR.
      * left. symmetry. apply NF. destruct R as [_ ->]. reflexivity.
      * left. symmetry. apply NF. destruct R as [_ ->]. apply (Q (p, r, nf)). now left.
    + intros lv name' rule' proven' prem' args' asm' conc' [H | H]; [discriminate H | eauto].
    + intros l1 lv e' l2 H. split_log H; [|eauto]. injection H as <- <-. exact L.
  - rewrite LV in C, L. cbn [length] in *.
    constructor; vcbn; try assumption; try (rewrite LV; first [assumption | solve [constructor] | exact C]).
    + intros r. rewrite uses_cons, U. split; [auto|]. intros [(a1 & b & c & d & f & g & Q) | H]; [discriminate Q | exact H].
    + intros r. rewrite trusted_cons, S. split; [auto|]. intros [Q | H]; [discriminate Q | exact H].
    + change (path :: s_incl s = path :: map (fun x => fst (fst x)) (processed (map snd (s_log s)))). now f_equal.
    + now constructor.
    + split; reflexivity.
    + cbn [processed flat_map app asserted In]. fold (processed (map snd (s_log s))). fold (asserted (map snd (s_log s))).
      intros Q f H. apply F; [|exact H]. intros x Hx. apply Q. now right.
    + intros l1 n0 f l2 H. split_log H; [discriminate H | eauto].
    + intros l1 lv f nf0 l2 H. split_log H; [|eauto]. injection H as _ _ Q1 _. subst isRef. intros CL (f0 & nf1 & rest & IR).
      destruct (HR eq_refl) as [HF | Q]; [|congruence]. rewrite IR in R. destruct R as [R _]. congruence.
    + intros l1 lv nm r pr pm ar as' cc l2 H. split_log H; [discriminate H | eauto].
    + intros lv name' rule' proven' prem' args' asm' conc' [H | H]; [discriminate H | eauto].
    + intros l1 lv e' l2 H. split_log H; [|eauto]. injection H as <- <-. rewrite LV. exact L.
  - constructor; vcbn; try assumption; try (intros; split_log H; [discriminate H | eauto]); auto.
    + intros r. rewrite uses_cons, U. split; [auto|]. intros [(a1 & b & c & d & f & g & Q) | H]; [discriminate Q | exact H].
    + intros r. rewrite trusted_cons, S. split; [auto|]. intros [Q | H]; [discriminate Q | exact H].
    + constructor.
    + exact Coq.Init.Logic.I.
    + intros lv name' rule' proven' prem' args' asm' conc' [H | H]; [discriminate H | eauto].
    + intros l1 lv e' l2 H. split_log H; [|eauto]. injection H as <- <-. reflexivity.
Qed.
Lemma inv_tsteps : forall s s', tsteps G cl s s' -> inv cl (view_of s) -> inv cl (view_of s').
Proof. intros s s' T. induction T as [s | a b c T IH X]; intros I; [exact I|]. apply inv_tstep with b; auto. Qed.
End Inv.

Theorem run_inv : forall G o incs i v s, run G o incs i = Ok (v, s) ->
  inv (match incs with [] => false | _ => true end) (view_of s) /\ v = verdict_of s /\ (closing i -> s_asmctx s = []).
Proof.
  intros G o incs i v s H. apply run_trans in H. destruct H as (T & V & C). split; [|auto].
  apply inv_tsteps with (1 := T), inv_init.
Qed.

(** ** The name of a step *)
Lemma bind_sym_getVar : forall rt c n e c', bind_sym rt c n e = Some c' -> is_rule rt e = false -> getVar c' n = Some e.
Proof.
  intros rt c n e c' H R. unfold bind_sym in H. unfold is_rule in R. rewrite R in H.
  destruct (c_sym c n); injection H as <-; apply tset_same.
Qed.
Lemma cmdStep_binds : forall G sig isPop p u p', cmdStep G sig isPop p = Ok (u, p') ->
  exists lv name rule proven prem args asm conc rest,
    s_log (snd p') = (lv, EvStep name rule proven prem args asm conc) :: rest /\
    getVar (s_scope (snd p')) name = Some (Node K_PROOF [conc]).
Proof.
  intros G sig b p u p' H. unfold cmdStep in H. mstep H as lvl p0 E0. destruct (b && Nat.eqb lvl 0); [discriminate H|].
  mstep H as name p1 E1. mstep H as tok p2 E2. mstep H as proven p3 E3. mstep H as key0 p4 E4.
  destruct (negb _); [discriminate H|]. mstep H as rn p5 E5. mstep H as rule p6 E6. mstep H as x p7 E7.
  mstep H as t1 p8 E8. mstep H as key1 p9 E9. mstep H as pk p10 E10. destruct pk as [premises key2]. cbn beta iota in H.
  mstep H as args p11 E11. mstep H as r p12 E12. destruct r as [[conc asm]|]; [|discriminate H].
  mstep H as ty p13 E13. destruct (negb _); [discriminate H|]. destruct (negb _ && _); [discriminate H|].
  mstep H as y p14 E14. mstep H as z p15 E15. apply mupd_ok in E15.
  unfold bindM, bindState in H. mstep H as ok p16 E16. mstep E16 as s p17 E17. mstate E17.
  destruct (bind_sym _ _ _ _) as [c|] eqn:B.
  - mstep E16 as w p18 E18. apply mupd_ok in E18. apply mret_ok in E16. destruct E16 as [-> ->]. apply mret_ok in H. destruct H as [_ ->].
    subst p18 p15. cbn [snd] in *. do 9 eexists. split; [reflexivity|].
    cbn [s_scope set_scope]. apply (bind_sym_getVar _ _ _ _ _ B). unfold is_rule. cbn [tkind]. now rewrite andb_false_r.
  - apply mret_ok in E16. destruct E16 as [-> ->]. discriminate H.
Qed.

(** ** The conclusion of a step *)
Lemma call_result : forall lop progs prog, lop_wf lop -> progs_wf progs ->
  (forall hd, prog hd = option_map (program_term hd) (progs hd)) ->
  forall fuel hd args r, is_program hd -> Forall twf args -> 
  evaluateProgramApp lop prog fuel (hd :: args) = Ok r ->
  (calls progs hd args None /\ r = Some (Node K_APPLY (hd :: args))) \/
  exists body f v, calls progs hd args (Some (body, f)) /\ ev lop progs shortcut f body v /\ r = Some v /\ twf v.
Proof.
  intros lop progs prog HL HP HE fuel hd args r Hh Wa H. unfold evaluateProgramApp in H.
  destruct (calls_exec progs prog HP HE hd args Hh Wa) as (x & E & Hx). rewrite E in H. cbn [bind] in H.
  destruct x as [[body c]|].
  - right. destruct (calls_wf progs HP hd args body (ctx_find c) Wa Hx) as [Wb Wc].
    destruct (run_sound lop progs prog HL HP HE body c fuel [new_frame body c None] []
      (GI_init lop progs body c Wb Wc)) as [X | [(v & X & Y & Wv) | (k & ds & _ & X)]];
      unfold evaluate in H; try congruence.
    + exists body, (ctx_find c), v. rewrite X in H. injection H as <-. auto.
    + destruct X as [[_ X] | [[_ X] | [_ X]]]; congruence.
  - left. injection H as <-. auto.
Qed.
Lemma env_mark : forall G s t a ct, s_marks s t = Some (a, ct) ->
  exists ai, e_info (env_of G s) t = Some ai /\ ai_cons ai = a /\ ai_cterm ai = ct.
Proof.
  intros G s t a ct H. cbn [env_of e_info]. rewrite H.
  destruct (builtin_kind t); (eexists; split; [reflexivity | split; reflexivity]).
Qed.
Lemma step_evaluated : forall G s l rule proven prem args isPop conc asm progs isAsm isExp prog,
  notifyStep G rule proven prem args isPop (l, s) = Ok (Some (conc, asm), (l, s)) ->
  s_marks s rule = Some (A_PROOF_RULE, Some (Node K_TUPLE [t_Any; Lit (LBool isAsm); Lit (LBool isExp); prog])) ->
  lop_wf (tc_lop (tc (env_of G s) (g_n G))) -> progs_wf progs ->
  (forall hd, getProgram (env_of G s) hd = option_map (program_term hd) (progs hd)) -> is_program prog ->
  let inputs := args ++ (if isExp then [proven] else []) ++ match asm with Some a => [a] | None => [] end ++ prem in
  Forall twf inputs -> inputs <> [] ->
  isPop = isAsm /\ exists body f, calls progs prog inputs (Some (body, f)) /\
    ev (tc_lop (tc (env_of G s) (g_n G))) progs shortcut f body conc /\ inert conc.
Proof.
  intros G s l rule proven prem args isPop conc asm progs isAsm isExp prog H M HL HP HE IP inputs W NE.
  destruct (notifyStep_facts _ _ _ _ _ _ _ _ _ _ H) as [(ai & t0 & t1 & t2 & prog' & rest & prem' & AI & T & POP & EXP & P1 & _ & R) _].
  destruct (env_mark G _ _ _ _ M) as (ai' & AI' & _ & CT). rewrite AI in AI'. injection AI' as <-. rewrite CT in T. cbn in T.
  injection T as <- <- <- <- <-. specialize (P1 eq_refl). subst prem'.
  assert (Q : isPop = isAsm).
  { destruct isPop, isAsm; try reflexivity; destruct POP as [P1 P2];
      [specialize (P2 eq_refl); discriminate P2 | specialize (P1 eq_refl); discriminate P1]. }
  split; [exact Q|]. assert (X : (if term_eqb (Lit (LBool isExp)) (Lit (LBool true)) then [proven] else []) = if isExp then [proven] else [])
    by (destruct isExp; reflexivity).
  rewrite X in R. fold inputs in R. destruct R as [[R _] | (_ & IE & r & R & ->)]; [contradiction|].
  destruct (call_result _ _ _ HL HP HE _ _ _ _ IP W R) as [[C ->] | (body & f & v & C & E & -> & Wv)].
  - exfalso. cbn [or_null] in IE. destruct IP as (i & ->). vm_compute in IE. discriminate IE.
  - exists body, f. cbn [or_null] in *. split; [exact C|]. split; [exact E|]. apply eval_inert; assumption.
Qed.
