(** Rules. *)
From Coq Require Import String ZArith List Bool Lia.
From Verif Require Import Base Kind Ints Str Literal Arity Term TermProofs Match Eval ListOps Typing Build Scope Lexer Parse Check
  SpecRead SpecCmd FrontProofs CheckProofs ReadProofs CmdProofs CmdProofs2 CmdProofs3 CmdProofs4 CmdProofs5 CmdProofs6 CmdProofs7 CmdProofs8.
Import ListNotations.
Open Scope Z_scope.

Lemma p_bindm A X Y B (g : X -> Y -> A) c d (m : M A) (f : A -> M B) (R : rel (X * Y)) Q c1 d1 c2 d2 :
  parses c d m (fun s i a s1 i1 => exists x y, R s i (x, y) s1 i1 /\ a = g x y) (fun _ => c1) (fun _ => d1) -> (forall x y, parses c1 d1 (f (g x y)) (Q x y) c2 d2) ->
  parses c d (mbind m f) (fun s i b s2 i2 => exists x y s1 i1, R s i (x, y) s1 i1 /\ Q x y s1 i1 b s2 i2) c2 d2.
Proof.
  intros H F l s i l' T. destruct (H l s i l' T) as [H1 H2]. split.
  - intros b p P. apply mbind_ok in P. destruct P as (a & p1 & P & P2). destruct (H1 a p1 P) as (l1 & s1 & i1 & -> & (x & y & E & ->) & U).
    destruct (F x y l1 s1 i1 l' U) as [F1 _]. destruct (F1 b p P2) as (l2 & s2 & i2 & -> & Z & V). exists l2, s2, i2. split; [reflexivity|]. split; [|exact V]. exists x, y, s1, i1. auto.
  - intros b s2 i2 (x & y & s1 & i1 & E & Z). destruct (H2 (g x y) s1 i1) as [P|(l1 & P & U)]; [eauto | left; now apply mbind_fuel|].
    destruct (F x y l1 s1 i1 l' U) as [_ F2]. rewrite (mbind_at _ _ _ _ _ _ _ P). exact (F2 b s2 i2 Z).
Qed.

Section Cmds.
Variable G : config.
Variable sig : bool.
Variable isRef : bool.
Variable included : text -> bool -> bool -> term -> st -> st -> Prop.
Hypothesis HC : forall n t, g_varinfo G (g_bvar G n t) = Some (n, t).
Notation reads := (SpecRead.reads G sig).
Notation applied := (SpecRead.applied G).
Notation of_type := (SpecRead.of_type G).
Notation pe := (parseExpr G sig (g_fuel G)).
Notation does := (does G sig isRef included).
Notation is_command := (is_command G sig isRef included).

Ltac skipr := match goal with |- _ = mbind (mret ?a) ?f ?p => change (mbind (mret a) f p) with (f a p); cbv beta iota zeta end.
(** ** Parts *)
Definition r_part {A : Type} (name : string) (R : st -> sx -> A -> st -> Prop) (dflt : A) (key : text) : rel (A * text) := fun s i r s1 i1 =>
  text_eqb key (txt name) = true /\ (exists x w ys i', i = (x :: XT T_KEYWORD w :: ys) :: i' /\ R s x (fst r) s1 /\ snd r = tl w /\ i1 = ys :: i') \/
  text_eqb key (txt name) = false /\ r = (dflt, key) /\ s1 = s /\ i1 = i.
Lemma p_part A name (R : st -> sx -> A -> st -> Prop) dflt key (read : M A) d : parses CF (S d) read (r_item R) (fun _ => CF) (fun _ => S d) ->
  parses CF (S d) (optPart key name read dflt) (r_part name R dflt key) (fun _ => CF) (fun _ => S d).
Proof.
  intros H. eapply parses_iff; [unfold optPart; apply p_if; [eapply p_bind; [exact H|]; intros a; eapply p_bind; [apply p_keyword|]; intros k; apply (p_ret _ CF (S d) (a, k)) | apply p_ret]|].
  intros s i [a k] s1 i1 _. unfold r_part, r_bind, r_item. cbn [fst snd]. split.
  - intros [(E & a0 & s2 & i2 & (x & xs & i' & -> & RX & ->) & k0 & s3 & i3 & (-> & w & ys & i4 & X & KE & ->) & Y & -> & ->)|(E & Y & -> & ->)].
    + injection X as -> <-. injection Y as -> ->. left. split; [exact E|]. exists x, w, ys, i'. auto.
    + right. auto.
  - intros [(E & x & w & ys & i' & -> & RX & KE & ->)|(E & Y & -> & ->)].
    + left. split; [exact E|]. subst k. exists a, s1, ((XT T_KEYWORD w :: ys) :: i'). split; [exists x, (XT T_KEYWORD w :: ys), i'; auto|]. exists (tl w), s1, (ys :: i'). split; [|auto].
      split; [reflexivity|]. exists w, ys, i'. auto.
    + right. auto.
Qed.
Lemma part_to A name (R : st -> sx -> A -> st -> Prop) dflt w s xs a k s1 i1 : r_part name R dflt (tl w) s [xs] (a, k) s1 i1 ->
  exists w' ys, i1 = [ys] /\ tl w' = k /\ part name R dflt s (XT T_KEYWORD w :: xs) a s1 (XT T_KEYWORD w' :: ys).
Proof.
  intros [(E & x & w' & ys & i' & X & RX & Y & ->)|(E & X & -> & ->)]; cbn [fst snd] in *.
  - injection X as -> <-. exists w', ys. split; [reflexivity|]. split; [auto|]. apply pr_here; [now apply keyed_at | exact RX].
  - injection X as -> ->. exists w, xs. split; [reflexivity|]. split; [reflexivity|]. apply pr_absent; [reflexivity | now apply keyed_not].
Qed.
Lemma keyed_is w key : keyed (XT T_KEYWORD w) key -> text_eqb (tl w) (txt key) = true.
Proof. intros (v & E & X). injection E as <-. now apply text_eqb_eq. Qed.
Lemma keyed_isnt w key : ~ keyed (XT T_KEYWORD w) key -> text_eqb (tl w) (txt key) = false.
Proof. intros H. destruct (text_eqb (tl w) (txt key)) eqn:E; [exfalso; apply H; now apply keyed_at | reflexivity]. Qed.
Lemma part_from A name (R : st -> sx -> A -> st -> Prop) dflt w s xs a s1 w' ys : part name R dflt s (XT T_KEYWORD w :: xs) a s1 (XT T_KEYWORD w' :: ys) ->
  r_part name R dflt (tl w) s [xs] (a, tl w') s1 [ys].
Proof.
  intros H. inversion H; subst.
  - left. split; [now apply keyed_is|]. eexists _, w', ys, []. cbn [fst snd]. auto.
  - right. split; [now apply keyed_isnt | auto].
Qed.
Lemma part_first A name (R : st -> sx -> A -> st -> Prop) dflt s l a s1 l1 : part name R dflt s l a s1 l1 -> exists w xs, l = XT T_KEYWORD w :: xs.
Proof.
  intros [k x a0 s2 xs (w & -> & _) _|k xs K _]; [eauto|]. destruct k as [[] w|]; try discriminate K. eauto.
Qed.
Definition premM (key : text) : M (list term * term * text) :=
  if text_eqb key (txt "premises") then
    let! ps := parseExprList G pe in let! k := parseKeyword in mret (ps, null_term, k)
  else if text_eqb key (txt "premise-list") then
    let! pat := pe in let! pc := pe in let! k := parseKeyword in mret ([pat], pc, k)
  else mret ([], null_term, key).
Lemma premises_first s l ps c s1 l1 : premises_in G sig s l ps c s1 l1 -> exists w xs, l = XT T_KEYWORD w :: xs.
Proof.
  intros [k xs ps0 s2 rest (w & -> & _) _|k x p s2 y c0 s3 rest (w & -> & _) _ _|k rest K _ _]; eauto. destruct k as [[] w|]; try discriminate K. eauto.
Qed.
Lemma p_prem w : parses CF 1 (premM (tl w)) (fun s i r s1 i1 => exists xs w' ys, i = [xs] /\ i1 = [ys] /\ tl w' = snd r /\
  premises_in G sig s (XT T_KEYWORD w :: xs) (fst (fst r)) (snd (fst r)) s1 (XT T_KEYWORD w' :: ys)) (fun _ => CF) (fun _ => 1%nat).
Proof.
  eapply parses_iff; [unfold premM; apply p_if; [eapply p_bind; [apply p_exprs; exact HC|]; intros ps; eapply p_bind; [apply p_keyword|]; intros k; apply (p_ret _ CF 1%nat (ps, null_term, k))
    | apply p_if; [eapply p_bind; [apply p_pe; exact HC|]; intros pat; eapply p_bind; [apply p_pe; exact HC|]; intros pc; eapply p_bind; [apply p_keyword|]; intros k; apply (p_ret _ CF 1%nat ([pat], pc, k)) | apply p_ret]]|].
  intros s i [[ps c] k] s1 i1 D. cbn [fst snd]. split.
  - intros H. fwd.
    + eexists _, _, _. split; [reflexivity|]. split; [reflexivity|]. split; [reflexivity|]. apply pi_list; [now apply keyed_at | assumption].
    + eexists _, _, _. split; [reflexivity|]. split; [reflexivity|]. split; [reflexivity|]. eapply pi_collect; [now apply keyed_at | eassumption | assumption].
    + destruct i as [|xs [|]]; try discriminate D. exists xs, w, xs. split; [reflexivity|]. split; [reflexivity|]. split; [reflexivity|]. apply pi_absent; [reflexivity | now apply keyed_not | now apply keyed_not].
  - intros (xs & w' & ys & -> & -> & <- & H). inversion H; subst.
    + left. split; [now apply keyed_is|]. do 3 eexists. split; [bwd|]. do 3 eexists. split; [split; [reflexivity|]; exists w', ys, []; auto | auto].
    + right. split; [match goal with K : keyed _ _ |- _ => apply keyed_is in K; apply text_eqb_eq in K; rewrite K; reflexivity end|]. left. split; [now apply keyed_is|].
      do 3 eexists. split; [bwd|]. do 3 eexists. split; [bwd|]. do 3 eexists. split; [split; [reflexivity|]; exists w', ys, []; auto | auto].
    + right. split; [now apply keyed_isnt|]. right. split; [now apply keyed_isnt | auto].
Qed.
Lemma premises_word s w xs ps c s1 w' ys w2 : premises_in G sig s (XT T_KEYWORD w :: xs) ps c s1 (XT T_KEYWORD w' :: ys) -> tl w2 = tl w ->
  exists w3, tl w3 = tl w' /\ premises_in G sig s (XT T_KEYWORD w2 :: xs) ps c s1 (XT T_KEYWORD w3 :: ys).
Proof.
  assert (K : forall key, tl w2 = tl w -> keyed (XT T_KEYWORD w) key <-> keyed (XT T_KEYWORD w2) key).
  { intros key E. split; intros (v & X & Y); injection X as <-; eexists; (split; [reflexivity | congruence]). }
  intros H E. inversion H; subst.
  - exists w'. split; [reflexivity|]. apply pi_list; [now apply K | assumption].
  - exists w'. split; [reflexivity|]. eapply pi_collect; [now apply K | eassumption | assumption].
  - exists w2. split; [exact E|]. apply pi_absent; [reflexivity | now rewrite <- K | now rewrite <- K].
Qed.

(** ** The rule *)
Lemma only_ruleSym n : only (let! rule := mkSymbol K_PROOF_RULE n (Some t_Bool) in let! _ := typeCheck G rule in mret rule) (fun s v s1 => new K_PROOF_RULE n (Some t_Bool) s v s1).
Proof.
  assert (T : forall s v s1, new K_PROOF_RULE n (Some t_Bool) s v s1 -> tc_type (tc (env_of G s1) (g_n G)) v = Fuel \/ of_type s1 v t_Bool).
  { intros s v s1 []. unfold SpecRead.of_type. destruct (g_n G); [now left | right]. cbn -[term_eqb]. now rewrite term_eqb_refl. }
  intros l s. destruct (only_new K_PROOF_RULE n (Some t_Bool) l s) as [N1 N2]. split.
  - intros v p X. apply mbind_ok in X. destruct X as (v0 & p1 & X & Y). destruct (N1 _ _ X) as (s1 & -> & N). apply mbind_ok in Y. destruct Y as (ty & p2 & Y & Z).
    apply typeCheck_inv in Y. destruct Y as [Y ->]. injection Z as <- <-. eauto.
  - intros v s1 N. destruct (N2 v s1 N) as [X|X]; [left; now apply mbind_fuel|]. rewrite (mbind_at _ _ _ _ _ _ _ X). destruct (T _ _ _ N) as [Y|Y].
    + left. apply mbind_fuel. unfold typeCheck, typeOf, mbind, mget, mlift. cbn [bind fst snd]. now rewrite Y.
    + right. erewrite mbind_at; [reflexivity|]. apply typeCheck_at. exact Y.
Qed.
Definition ruleM (name : text) (assume : term) (premises : list term) (plCons : term) (args reqs : list term) (conc : term) (ex : bool) : M term :=
  let progArgs := args ++ (if ex then [conc] else []) ++ (if is_null assume then [] else [assume]) ++ map (fun e => Node K_PROOF [e]) premises in
  let! ret := mkRequiresM G reqs conc in
  popM ;;
  let! rule := (let! rule := mkSymbol K_PROOF_RULE name (Some t_Bool) in let! _ := typeCheck G rule in mret rule) in
  let! ruleProg := ruleProgram G name progArgs ret in
  bindM name rule ;;
  let! attrVal := mkE G K_TUPLE [if is_null plCons then t_Any else plCons; Lit (LBool (negb (is_null assume))); Lit (LBool ex); ruleProg] in
  logEvent (EvRule rule assume plCons premises args reqs conc ex) ;;
  (let! _ := markM rule A_PROOF_RULE (Some attrVal) in mret tt) ;;
  mret rule.
Definition made_rule (n : text) (asm : term) (prem : list term) (pl : term) (args : list term) (reqs : list (term * term)) (conc : term) (ex : bool) (s6 : st) (rule : term) (s11 : st) : Prop :=
  exists ret s7 s8 prog s9 s10,
    requires G s6 reqs conc ret /\ left_scope s6 s7 /\ new K_PROOF_RULE n (Some t_Bool) s7 rule s8 /\
    rule_program G s8 n (args ++ (if ex then [conc] else []) ++ (if absent asm then [] else [asm]) ++ map (fun e => Node K_PROOF [e]) prem) ret prog s9 /\
    bound s9 n rule s10 /\
    s11 = with_mark rule A_PROOF_RULE
         (Some (Node K_TUPLE [if absent pl then t_Any else pl; Lit (LBool (negb (absent asm))); Lit (LBool ex); prog]))
         (logged (EvRule rule asm pl prem args (map tuple reqs) conc ex) s10).
Lemma program_unmarked s n args r p s1 v : rule_program G s n args r p s1 -> tkind v = K_PROOF_RULE -> s_marks s v = None -> s_marks s1 v = None.
Proof.
  intros [r0 _ _|args0 r0 tys s2 p0 s3 pat _ E N _ _] K M; [exact M|].
  assert (M2 : s_marks s2 v = None).
  { clear - E K M. induction E as [|s a ty s3 l tys s4 R E IH]; [exact M|]. apply IH. unfold rule_arg_type in R. destruct (kind_eqb (tkind a) K_PROOF); [destruct R as [_ ->]; exact M|].
    destruct R. cbn -[term_eqb]. rewrite term_eqb_neq; [exact M | intros <-; discriminate K]. }
  destruct N. cbn -[term_eqb]. rewrite term_eqb_neq; [exact M2 | intros <-; discriminate K].
Qed.
Lemma only_madeRule n asm prem pl args reqs conc ex : only (ruleM n asm prem pl args (map tuple reqs) conc ex) (fun s v s1 => made_rule n asm prem pl args reqs conc ex s v s1).
Proof.
  eapply only_iff; [unfold ruleM; apply only_bind; [apply only_requires|]; intros ret; apply only_bind; [apply only_pop|]; intros u0; apply only_bind; [apply only_ruleSym|]; intros rule;
    apply only_bind; [apply only_program|]; intros prog; apply only_bind; [apply only_bound|]; intros u1; apply only_bind; [apply only_node; auto|]; intros av;
    apply only_bind; [apply only_log|]; intros u2; apply only_bind; [apply only_mark|]; intros u3; apply only_ret|].
  assert (U : forall s7 rule s8 args r prog s9 s10 e, new K_PROOF_RULE n (Some t_Bool) s7 rule s8 -> rule_program G s8 n args r prog s9 -> bound s9 n rule s10 -> s_marks (logged e s10) rule = None).
  { intros s7 rule s8 args0 r prog s9 s10 e N P (c & _ & ->). cbn. eapply program_unmarked; [exact P | now destruct N | eapply new_unmarked; exact N]. }
  intros s rule s1. split.
  - intros (ret & s2 & (R & ->) & u0 & s3 & L & rule' & s4 & N & prog & s5 & P & u1 & s6 & B & av & s7 & (-> & ->) & u2 & s8 & -> & u3 & s9 & M & -> & ->).
    apply first_mark in M; [|eapply U; eassumption]. unfold made_rule. exists ret, s3, s4, prog, s5, s6. auto 8.
  - intros (ret & s7 & s8 & prog & s9 & s10 & R & L & N & P & B & ->). exists ret, s. split; [auto|]. exists tt, s7. split; [exact L|]. exists rule, s8. split; [exact N|].
    exists prog, s9. split; [exact P|]. exists tt, s10. split; [exact B|]. eexists _, s10. split; [auto|]. eexists tt, _. split; [reflexivity|]. eexists tt, _. split; [|auto].
    apply first_mark; [eapply U; eassumption | reflexivity].
Qed.
Definition concKeyM (key : text) : M (term * bool) :=
  if text_eqb key (txt "conclusion") then let! c := pe in mret (c, false)
  else if text_eqb key (txt "conclusion-explicit") then let! c := pe in mret (c, true)
  else merr.
Definition declRuleM : M unit :=
  let! lvl := levelM in
  if negb (Nat.eqb lvl 0) then merr
  else
    pushM ;;
    let! name := parseSymbol in
    let! _ := parseVarList G pe K_PROOF_RULE in
    let! key0 := parseKeyword in
    let! (assume, key1) := optPart key0 "assumption" pe null_term in
    let! (premises, plCons, key2) := premM key1 in
    let! (args, key3) := optPart key2 "args" (parseExprList G pe) [] in
    let! (reqs, key4) := optPart key3 "requires" (parseExprPairList G pe) [] in
    let! (conc, ex) := concKeyM key4 in
    let! rule := ruleM name assume premises plCons args reqs conc ex in
    let! _ := parseAttributeList G pe K_PROOF_RULE rule K_NONE in
    mret tt.
Lemma rule_eq p : cmdDeclareRule G sig p = declRuleM p.
Proof.
  unfold cmdDeclareRule, declRuleM. same. destruct (negb (a =? 0)%nat); [reflexivity|].
  repeat (same; repeat match goal with x : (_ * _)%type |- _ => lazymatch type of x with pst => fail | _ => destruct x end end).
  unfold ruleM. cbv zeta. repeat first [progress rewrite mbind_assoc | skip | skipr | same]. reflexivity.
Qed.
Definition r_conc_key (key : text) (s : st) (x : sx) (r : term * bool) (s1 : st) : Prop :=
  reads s x (fst r) s1 /\ (text_eqb key (txt "conclusion") = true /\ snd r = false \/ text_eqb key (txt "conclusion-explicit") = true /\ snd r = true).
Lemma p_concKey key : parses CF 1 (concKeyM key) (r_item (r_conc_key key)) (fun _ => CF) (fun _ => 1%nat).
Proof.
  eapply parses_iff; [unfold concKeyM; apply p_if; [eapply p_bind; [apply p_pe; exact HC|]; intros c; apply (p_ret _ CF 1%nat (c, false))
    | apply p_if; [eapply p_bind; [apply p_pe; exact HC|]; intros c; apply (p_ret _ CF 1%nat (c, true)) | apply p_err]]|].
  intros s i [c ex] s1 i1 D. unfold r_conc_key. cbn [fst snd]. split.
  - intros H. fwd; try contradiction; do 3 eexists; (split; [reflexivity|]); (split; [|reflexivity]); auto.
  - intros (x & xs & i' & -> & (R & [[E F]|[E F]]) & ->); cbn [fst snd] in *; subst ex.
    + left. split; [exact E|]. bwd.
    + right. split; [apply text_eqb_eq in E; rewrite E; reflexivity|]. left. split; [exact E|]. bwd.
Qed.
Lemma only_lvl : only levelM (fun s n s1 => n = length (s_asmctx s) /\ s1 = s).
Proof.
  eapply only_iff; [unfold levelM; apply only_bind; [apply only_get|]; intros s; apply only_ret|]. intros s n s1. split.
  - intros (s0 & s2 & (-> & ->) & -> & ->). auto.
  - intros [-> ->]. exists s, s. auto.
Qed.
Lemma p_reqs key : parses CF 1 (optPart key "requires" (parseExprPairList G pe) [])
  (fun s i r s1 i1 => exists ps k, r_part "requires" (list_in (pair_in G sig)) [] key s i (ps, k) s1 i1 /\ r = (map tuple ps, k)) (fun _ => CF) (fun _ => 1%nat).
Proof.
  eapply parses_iff; [apply p_part; apply p_pairs; exact HC|]. intros s i [reqs k] s1 i1 _. unfold r_part. cbn [fst snd]. split.
  - intros [(E & x & w & ys & i' & -> & (ps & L & ->) & -> & ->)|(E & X & -> & ->)].
    + exists ps, (tl w). split; [|reflexivity]. left. split; [exact E|]. exists x, w, ys, i'. auto.
    + injection X as -> ->. exists [], key. split; [|reflexivity]. right. auto.
  - intros (ps & k0 & [(E & x & w & ys & i' & -> & L & X & ->)|(E & X & -> & ->)] & Y); cbn [fst snd] in *.
    + injection Y as -> ->. left. split; [exact E|]. exists x, w, ys, i'. split; [reflexivity|]. split; [eauto | auto].
    + injection X as -> ->. injection Y as -> ->. right. auto.
Qed.
Lemma c_rule : is_command (cmdDeclareRule G sig) C_DECLARE_RULE.
Proof.
  eapply is_command_if; [eapply parses_ext; [exact rule_eq|]; eapply p_bind; [apply p_only; apply only_lvl|]; intros lvl; apply p_if; [apply p_err|]; eapply p_bind; [apply p_only; apply only_push|]; intros u0;
    eapply p_bind; [apply p_symbol|]; intros n; eapply p_bind; [apply p_paramList; [exact HC | discriminate]|]; intros vs; eapply p_bind; [apply p_keyword|]; intros key0;
    eapply p_bind2; [apply p_part; apply p_pe; exact HC|]; intros asm key1; eapply p_bind3; [exact (p_prem (58 :: key1))|]; intros prem pl key2;
    eapply p_bind2; [apply p_part; apply p_exprs; exact HC|]; intros args key3;
    eapply (p_bindm _ _ _ _ (fun x y => (map tuple x, y))); [apply p_reqs|]; intros reqs key4; eapply p_bind2; [apply p_concKey|]; intros conc ex; eapply p_bind; [apply p_only; apply only_madeRule|]; intros rule;
    eapply p_bind; [apply p_attrs; [exact HC | reflexivity]|]; intros am; apply p_ret|].
  intros s xs s1. split.
  - intros (lvl & s2 & i2 & ((-> & ->) & ->) & [(_ & [])|(LV & u0 & s3 & i3 & (-> & ->) & n & s4 & i4 & (y & ys & i' & E & (N & ->) & ->) & vs & s5 & i5 & (x & zs & i6 & E2 & (ps & (us & -> & P) & ->) & ->) &
      key0 & s6 & i7 & (-> & w0 & l1 & i8 & E3 & -> & ->) & asm & key1 & s7 & i9 & PA & prem & pl & key2 & s8 & i10 & PP & args & key3 & s9 & i11 & PG & reqs & key4 & s10 & i12 & PR &
      conc & ex & s11 & i13 & (x1 & as_ & i14 & E4 & (RC & KC) & ->) & rule & s12 & i15 & (MR & ->) & am & s13 & i16 & (as1 & i17 & E5 & AT & ->) & _ & -> & E6)]).
    cbn [fst snd] in *. injection E as -> <-. injection E2 as -> <-. injection E3 as -> <-. apply part_to in PA. destruct PA as (w1 & l2 & -> & W1 & PA).
    destruct PP as (xs & w2 & l3 & X & -> & W2 & PP). injection X as <-. destruct (premises_word _ _ _ _ _ _ _ _ w1 PP W1) as (w2' & W2' & PP').
    rewrite <- W2, <- W2' in PG. apply part_to in PG. destruct PG as (w3 & l4 & -> & W3 & PG). rewrite <- W3 in PR. apply part_to in PR. destruct PR as (w4 & l5 & -> & W4 & PR).
    injection E4 as -> <-. injection E5 as <- <-. destruct MR as (ret & s14 & s15 & prog & s16 & s17 & RQ & LS & NW & RP & BD & ->).
    eapply do_rule; [|exact N | exact P | exact PA | exact PP' | exact PG | exact PR | | exact RC | exact RQ | exact LS | exact NW | exact RP | exact BD | exact AT].
    + destruct (s_asmctx s); [reflexivity | discriminate LV].
    + rewrite <- W4 in KC. destruct KC as [[K ->]|[K ->]]; [left | right]; (split; [now apply keyed_at | reflexivity]).
  - intros H. inversion H as [| | | | | | | |y n us ps s2 l1 asm s3 l2 prem pl s4 l3 args s5 l4 reqs s6 k x conc s7 as_ ex ret s8 rule s9 prog s10 s11 m s12 A0 N P PA PP PG PR KC RC RQ LS NW RP BD AT| | | | | | | | | | | | | | | | | | | | | | | |]; subst.
    destruct (part_first _ _ _ _ _ _ _ _ _ PA) as (w0 & k1 & ->). destruct (premises_first _ _ _ _ _ _ PP) as (w1 & k2 & ->). destruct (part_first _ _ _ _ _ _ _ _ _ PG) as (w2 & k3 & ->).
    destruct (part_first _ _ _ _ _ _ _ _ _ PR) as (w3 & k4 & ->). assert (KW : exists w, k = XT T_KEYWORD w) by (destruct KC as [[(w & -> & _) _]|[(w & -> & _) _]]; eauto). destruct KW as (w4 & ->).
    apply part_from in PA. apply part_from in PG. apply part_from in PR. destruct (premises_word _ _ _ _ _ _ _ _ (58 :: tl w1) PP eq_refl) as (w2' & W2' & PP').
    exists 0%nat, s, [y :: XL us :: XT T_KEYWORD w0 :: k1]. split; [split; [split; [now rewrite A0 | reflexivity] | reflexivity]|]. right. split; [reflexivity|]. exists tt, (entered s), [y :: XL us :: XT T_KEYWORD w0 :: k1]. split; [split; reflexivity|].
    exists n, (entered s), [XL us :: XT T_KEYWORD w0 :: k1]. split; [exists y, (XL us :: XT T_KEYWORD w0 :: k1), []; split; [reflexivity|]; split; [split; [exact N | reflexivity] | reflexivity]|].
    exists (terms_of (explicit ps)), s2, [XT T_KEYWORD w0 :: k1]. split; [exists (XL us), (XT T_KEYWORD w0 :: k1), []; split; [reflexivity|]; split; [exists ps; split; [exists us; auto | reflexivity] | reflexivity]|].
    exists (tl w0), s2, [k1]. split; [split; [reflexivity|]; exists w0, k1, []; auto|]. exists asm, (tl w1), s3, [k2]. split; [exact PA|].
    exists prem, pl, (tl w2), s4, [k3]. split; [exists k2, w2', k3; auto|]. exists args, (tl w3), s5, [k4]. split; [exact PG|]. exists reqs, (tl w4), s6, [x :: as_]. split; [exact PR|].
    exists conc, ex, s7, [as_]. split.
    { exists x, as_, []. split; [reflexivity|]. split; [|reflexivity]. split; [exact RC|]. cbn [fst snd]. destruct KC as [[K ->]|[K ->]]; [left | right]; (split; [now apply keyed_is | reflexivity]). }
    exists rule. eexists _, [as_]. split; [split; [|reflexivity]; exists ret, s8, s9, prog, s10, s11; split; [exact RQ|]; split; [exact LS|]; split; [exact NW|]; split; [exact RP|]; split; [exact BD | reflexivity]|].
    exists m, s1, [[]]. split; [exists as_, []; auto | auto].
Qed.
End Cmds.
