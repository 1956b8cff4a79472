(** Steps, options, rules. *)
From Coq Require Import String ZArith List Bool Lia.
From Verif Require Import Base Kind Ints Str Literal Arity Term TermProofs Match Eval ListOps Typing Build Scope Lexer Parse Check
  SpecRead SpecCmd FrontProofs CheckProofs ReadProofs CmdProofs CmdProofs2 CmdProofs3 CmdProofs4 CmdProofs5 CmdProofs6 CmdProofs7.
Import ListNotations.
Open Scope Z_scope.

Section Cmds.
Variable G : config.
Variable sig : bool.
Variable isRef : bool.
Variable inc : text -> bool -> bool -> term -> M bool.
Variable included : text -> bool -> bool -> term -> st -> st -> Prop.
Hypothesis INC : forall f a b nf, only (let! ok := inc f a b nf in if ok then mret tt else merr) (fun s _ s1 => included f a b nf s s1).
Hypothesis HC : forall n t, g_varinfo G (g_bvar G n t) = Some (n, t).
Notation reads := (SpecRead.reads G sig).
Notation applied := (SpecRead.applied G).
Notation of_type := (SpecRead.of_type G).
Notation pe := (parseExpr G sig (g_fuel G)).
Notation does := (does G sig isRef included).
Notation is_command := (is_command G sig isRef included).

(** ** Steps *)
Lemma only_rule n : only (getProofRuleM n) (fun s r s1 => getProofRule (o_ruleSymTable (s_opts s)) (s_scope s) n = Some r /\ tkind r = K_PROOF_RULE /\ s1 = s).
Proof.
  intros l s. unfold getProofRuleM, mbind, mget, mret, merr. cbn [bind fst snd]. destruct (getProofRule (o_ruleSymTable (s_opts s)) (s_scope s) n) as [v|] eqn:E.
  - destruct (kind_eqb (tkind v) K_PROOF_RULE) eqn:K; split; try (intros r p X; discriminate X).
    + intros r p X. injection X as <- <-. apply kind_eqb_eq in K. eauto.
    + intros r s1 (X & _ & ->). injection X as ->. now right.
    + intros r s1 (X & Y & ->). injection X as ->. rewrite Y in K. discriminate K.
  - split; [intros r p X; discriminate X | intros r s1 (X & _); discriminate X].
Qed.
Lemma only_notify rule f prem args pop : only (notifyStep G rule f prem args pop) (fun s r s1 => (exists l, notifyStep G rule f prem args pop (l, s) = Ok (r, (l, s))) /\ s1 = s).
Proof.
  intros l s. split.
  - intros r p X. destruct (notifyStep_pure G _ _ _ _ _ _ _ _ X) as [-> N]. exists s. split; [reflexivity|]. split; [eauto | reflexivity].
  - intros r s1 [(l' & X) ->]. destruct (notifyStep_pure G _ _ _ _ _ _ _ _ X) as [_ N]. right. apply N.
Qed.
Definition concM (name : text) (rule proven : term) (premises args : list term) (isPop : bool) : M unit :=
  let! r := notifyStep G rule proven premises args isPop in
  match r with
  | None => merr
  | Some (conc, asm) =>
      let! ty := typeCheck G conc in
      if negb (kind_eqb (tkind ty) K_BOOL_TYPE) then merr
      else if negb (is_null proven) && negb (term_eqb conc proven) then merr
      else
        (if isPop then popAssumptionScope else mret tt) ;;
        logEvent (EvStep name rule proven premises args asm conc) ;;
        bindM name (Node K_PROOF [conc])
  end.
Definition r_conc (n : text) (rule f : term) (prem args : list term) (pop : bool) (s s4 : st) : Prop :=
  exists conc asm ty s3, concludes G s rule f prem args pop conc asm /\ of_type s conc ty /\ tkind ty = K_BOOL_TYPE /\ (absent f = false -> conc = f) /\
    (if pop then closes_level s s3 else s3 = s) /\ bound (logged (EvStep n rule f prem args asm conc) s3) n (Node K_PROOF [conc]) s4.
Lemma only_conc n rule f prem args pop : only (concM n rule f prem args pop) (fun s _ s1 => r_conc n rule f prem args pop s s1).
Proof.
  eapply only_iff; [unfold concM; apply only_bind; [apply only_notify|]; intros r;
    apply (only_option _ _ r (fun x => let (conc, asm) := x in _) _
      (fun x => o_bind (fun s ty s1 => of_type s (fst x) ty /\ s1 = s) (fun ty s u s1 => tkind ty = K_BOOL_TYPE /\ (absent f = false -> fst x = f) /\
         o_bind (fun s (_ : unit) s3 => if pop then closes_level s s3 else s3 = s) (fun _ => o_bind (fun s (_ : unit) s1 => s1 = logged (EvStep n rule f prem args (snd x) (fst x)) s)
            (fun _ s _ s1 => bound s n (Node K_PROOF [fst x]) s1)) s u s1))); [|apply only_err]|].
  - intros [conc asm]. cbn [fst snd]. apply only_bind; [apply only_typeCheck|]. intros ty.
    destruct (kind_eqb (tkind ty) K_BOOL_TYPE) eqn:K; cbn [negb].
    + apply kind_eqb_eq in K. destruct (negb (is_null f) && negb (term_eqb conc f)) eqn:N.
      * eapply only_iff; [apply only_err|]. intros s u s1. split; [intros [] | intros (_ & X & _)]. apply andb_prop in N. destruct N as [N1 N2]. apply negb_true_iff in N1, N2.
        rewrite (X N1), term_eqb_refl in N2. discriminate N2.
      * eapply only_iff; [apply only_bind; [|intros u0; apply only_bind; [apply only_log|]; intros u1; apply only_bound]|].
        { instantiate (1 := fun s _ s3 => if pop then closes_level s s3 else s3 = s). destruct pop; [apply only_unlevel|]. eapply only_iff; [apply only_ret|]. intros s [] s1. split; [intros [_ ->] | intros ->]; auto. }
        intros s [] s1. split; [intros X; split; [exact K|]; split; [|exact X] | intros (_ & _ & X); exact X].
        intros A. apply andb_false_iff in N. destruct N as [N|N]; apply negb_false_iff in N; [change (is_null f) with (absent f) in N; congruence | now apply term_eqb_eq].
    + eapply only_iff; [apply only_err|]. intros s u s1. split; [intros [] | intros (X & _)]. rewrite X in K. discriminate K.
  - intros s [] s1. unfold r_conc, concludes. split.
    + intros (r & s2 & (C & ->) & [([conc asm] & -> & ty & s3 & (T & ->) & K & F & u0 & s4 & L & u1 & s5 & -> & B)|(_ & [])]). exists conc, asm, ty, s4. auto 8.
    + intros (conc & asm & ty & s3 & C & T & K & F & L & B). exists (Some (conc, asm)), s. split; [auto|]. left. exists (conc, asm). split; [reflexivity|]. exists ty, s. split; [auto|].
      split; [exact K|]. split; [exact F|]. exists tt, s3. split; [exact L|]. exists tt. eexists. split; [reflexivity | exact B].
Qed.
Definition stepM (isPop : bool) : M unit :=
  let! s0 := mget in
  if isPop && Nat.eqb (length (s_asmctx s0)) 0 then merr
  else
    let! name := parseSymbol in
    let! tok := peek in
    let! proven := if token_eqb tok T_KEYWORD then mret null_term else parseFormula G pe in
    let! key0 := parseKeyword in
    if negb (text_eqb key0 (txt "rule")) then merr
    else
      let! ruleName := parseSymbol in
      let! rule := getProofRuleM ruleName in
      mupd (fun s => set_used (rule :: s_used s) s) ;;
      let! t1 := peek in
      let! key1 := if token_eqb t1 T_KEYWORD then parseKeyword else mret key0 in
      let! (premises, key2) :=
        if text_eqb key1 (txt "premises") then
          let! ps := parseExprList G pe in
          let! t2 := peek in
          let! k := if token_eqb t2 T_KEYWORD then parseKeyword else mret key1 in
          mret (ps, k)
        else mret ([], key1) in
      let! args := if text_eqb key2 (txt "args") then parseExprList G pe else mret [] in
      concM name rule proven premises args isPop.
Lemma step_eq b p : cmdStep G sig b p = stepM b p.
Proof. unfold cmdStep, stepM, levelM. rewrite mbind_assoc. same. skip. reflexivity. Qed.
Lemma is_keyword_first x xs i : is_keyword x = true <-> first ((x :: xs) :: i) = T_KEYWORD.
Proof. destruct x as [k w|ys]; cbn; [destruct k; split; congruence | split; discriminate]. Qed.
Lemma step_intro b s y n xs f s1 w z parts rn rule prem args s2 s4 : b && (length (s_asmctx s) =? 0)%nat = false -> named y n -> claim G sig s xs f s1 (XT T_KEYWORD w :: z :: parts) ->
  text_eqb (tl w) (txt "rule") = true -> named z rn -> getProofRule (o_ruleSymTable (s_opts s1)) (s_scope s1) rn = Some rule -> tkind rule = K_PROOF_RULE ->
  step_parts G sig (set_used (rule :: s_used s1) s1) parts prem args s2 -> r_conc n rule f prem args b s2 s4 -> does s (if b then C_STEP_POP else C_STEP) (y :: xs) s4.
Proof.
  intros L N C K Z R T P (conc & asm & ty & s3 & CC & TY & KB & F & LV & B). apply text_eqb_eq in K.
  assert (ST : step_in G sig b s (y :: xs) s4) by (eapply st_at; try eassumption; exists w; auto).
  destruct b; [apply do_step_pop; [|exact ST] | now apply do_step]. intros E. rewrite E in L. discriminate L.
Qed.
Lemma keyed_at w key : text_eqb (tl w) (txt key) = true -> keyed (XT T_KEYWORD w) key.
Proof. intros H. apply text_eqb_eq in H. exists w. auto. Qed.
Lemma keyed_not w key : text_eqb (tl w) (txt key) = false -> ~ keyed (XT T_KEYWORD w) key.
Proof. intros H (w' & E & X). injection E as <-. rewrite X, (proj2 (text_eqb_eq _ _) eq_refl) in H. discriminate H. Qed.
Lemma c_step b : is_command (cmdStep G sig b) (if b then C_STEP_POP else C_STEP).
Proof.
  eapply is_command_if; [eapply parses_ext; [exact (step_eq b)|]; eapply p_bind; [apply p_get|]; intros s0; apply p_if; [apply p_err|]; eapply p_bind; [apply p_symbol|]; intros n;
    eapply p_look; [apply p_ret | apply p_o; apply p_formula; exact HC|]; intros f; eapply p_bind; [apply p_keyword|]; intros key0; apply p_if; [apply p_err|];
    eapply p_bind; [apply p_symbol|]; intros rn; eapply p_bind; [apply p_only; apply only_rule|]; intros rule; eapply p_bind; [apply p_upd|]; intros u0;
    eapply p_look; [apply p_o; apply p_keyword | apply p_ret|]; intros key1; eapply p_bind2;
    [apply p_if; [eapply p_bind; [apply p_exprs; exact HC|]; intros ps; eapply p_look; [apply p_o; apply p_keyword | apply p_ret|]; intros k; apply (p_ret _ CO 1%nat (ps, k)) | apply (p_ret _ CO 1%nat)]|]; intros prem key2;
    eapply p_bind; [apply p_if; [apply p_o; apply p_exprs; exact HC | apply p_ret]|]; intros args; apply p_only; apply only_conc|].
  intros s xs s1. split.
  - intros H. unfold r_look in H. fwd; try discriminate; try contradiction.
    all: match goal with X : negb (text_eqb _ _) = false |- _ => apply negb_false_iff in X end.
    all: try (exfalso; match goal with A : text_eqb ?a ?b = true, B : text_eqb ?a ?c = true |- _ => apply text_eqb_eq in A; rewrite A in B; discriminate B end).
    all: (eapply step_intro; [eassumption | eassumption | | eassumption | eassumption | | eassumption | | eassumption]); [first [apply cl_none; reflexivity | eapply cl_formula; [|eassumption]] | eassumption |].
    all: try match goal with X : first [?x :: _] <> T_KEYWORD |- is_keyword ?x = false => destruct (is_keyword x) eqn:?; [exfalso; apply X; now apply is_keyword_first | reflexivity] end.
    all: first [eapply sp_both; eauto using keyed_at; fail | eapply sp_premises_other; eauto using keyed_at, keyed_not; fail | eapply sp_premises; eauto using keyed_at; fail
      | eapply sp_args; eauto using keyed_at; fail | apply sp_none | apply sp_other; eauto using keyed_not; fail].
  - intros H. assert (X : b && (length (s_asmctx s) =? 0)%nat = false /\ step_in G sig b s xs s1)
      by (destruct b; inversion H; subst; [destruct (s_asmctx s); [congruence | auto] | auto]).
    destruct X as [L [y n xs0 f s2 k z rn rule parts prem args s3 conc asm ty s4 s5 N C (w & -> & KW) Z R T P CC TY KB F LV B]].
    assert (RC : r_conc n rule f prem args b s3 s5) by (exists conc, asm, ty, s4; auto 8).
    exists s, s, [y :: xs0]. split; [auto|]. right. split; [exact L|]. exists n, s, [xs0]. split; [exists y, xs0, []; split; [reflexivity|]; split; [split; [exact N | reflexivity] | reflexivity]|].
    exists f, s2, [XT T_KEYWORD w :: z :: parts]. split.
    { inversion C as [k0 xs1 K0 E1 E2 E3|x f0 s6 xs1 K0 FI]; subst; [left; auto|]. right. split; [intros E; apply is_keyword_first in E; congruence|]. exists x, (XT T_KEYWORD w :: z :: parts), []. auto. }
    exists (tl w), s2, [z :: parts]. split; [split; [reflexivity|]; exists w, (z :: parts), []; auto|]. right. split; [rewrite KW; reflexivity|].
    exists rn, s2, [parts]. split; [exists z, parts, []; split; [reflexivity|]; split; [split; [exact Z | reflexivity] | reflexivity]|].
    exists rule, s2, [parts]. split; [split; [auto | reflexivity]|]. exists tt, (set_used (rule :: s_used s2) s2), [parts]. split; [auto|]. rewrite KW.
    assert (KE : forall (v : text) (key : string), tl v = txt key -> text_eqb (tl v) (txt key) = true) by (intros v key E; rewrite E; apply text_eqb_eq; reflexivity).
    assert (KN : forall (v : text) (key : string), ~ keyed (XT T_KEYWORD v) key -> text_eqb (tl v) (txt key) = false).
    { intros v key E. destruct (text_eqb (tl v) (txt key)) eqn:Q; [|reflexivity]. exfalso. apply E. now apply keyed_at. }
    inversion P as [E1 E2 E3 E4|v NP NA E1 E2 E3 E4|k0 ys args0 s6 (v & -> & KV) EA E1 E2 E3 E4|k0 ys ps0 s6 (v & -> & KV) EP E1 E2 E3 E4|k0 ys ps0 s6 v2 (v & -> & KV) EP NA E1 E2 E3 E4
      |k0 ys ps0 s6 k2 zs args0 s7 (v & -> & KV) EP (v2 & -> & KV2) EA E1 E2 E3 E4]; subst.
    + exists (txt "rule"). do 2 eexists. split; [right; split; [discriminate | auto]|]. exists [], (txt "rule"). do 2 eexists. split; [right; auto|]. exists []. do 2 eexists. split; [right; auto|].
      split; [exact RC | reflexivity].
    + exists (tl v). do 2 eexists. split; [left; split; [reflexivity|]; split; [reflexivity|]; exists v, [], []; auto|]. exists [], (tl v). do 2 eexists. split; [right; split; [now apply KN | auto]|].
      exists []. do 2 eexists. split; [right; split; [now apply KN | auto]|]. split; [exact RC | reflexivity].
    + exists (tl v). do 2 eexists. split; [left; split; [reflexivity|]; split; [reflexivity|]; exists v, [XL ys], []; auto|]. exists [], (tl v). do 2 eexists. split; [right; split; [rewrite KV; reflexivity | auto]|].
      exists args. do 2 eexists. split; [left; split; [rewrite KV; reflexivity|]; exists (XL ys), [], []; split; [reflexivity|]; split; [exists ys; eauto | reflexivity]|]. split; [exact RC | reflexivity].
    + exists (tl v). do 2 eexists. split; [left; split; [reflexivity|]; split; [reflexivity|]; exists v, [XL ys], []; auto|]. exists prem, (tl v). do 2 eexists. split.
      { left. split; [rewrite KV; reflexivity|]. exists prem. do 2 eexists. split; [exists (XL ys), [], []; split; [reflexivity|]; split; [exists ys; eauto | reflexivity]|].
        exists (tl v). do 2 eexists. split; [right; split; [discriminate | auto] | auto]. }
      exists []. do 2 eexists. split; [right; split; [rewrite KV; reflexivity | auto]|]. split; [exact RC | reflexivity].
    + exists (tl v). do 2 eexists. split; [left; split; [reflexivity|]; split; [reflexivity|]; exists v, [XL ys; XT T_KEYWORD v2], []; auto|]. exists prem, (tl v2). do 2 eexists. split.
      { left. split; [rewrite KV; reflexivity|]. exists prem. do 2 eexists. split; [exists (XL ys), [XT T_KEYWORD v2], []; split; [reflexivity|]; split; [exists ys; eauto | reflexivity]|].
        exists (tl v2). do 2 eexists. split; [left; split; [reflexivity|]; split; [reflexivity|]; exists v2, [], []; auto | auto]. }
      exists []. do 2 eexists. split; [right; split; [now apply KN | auto]|]. split; [exact RC | reflexivity].
    + exists (tl v). do 2 eexists. split; [left; split; [reflexivity|]; split; [reflexivity|]; exists v, [XL ys; XT T_KEYWORD v2; XL zs], []; auto|]. exists prem, (tl v2). do 2 eexists. split.
      { left. split; [rewrite KV; reflexivity|]. exists prem. do 2 eexists. split; [exists (XL ys), [XT T_KEYWORD v2; XL zs], []; split; [reflexivity|]; split; [exists ys; eauto | reflexivity]|].
        exists (tl v2). do 2 eexists. split; [left; split; [reflexivity|]; split; [reflexivity|]; exists v2, [XL zs], []; auto | auto]. }
      exists args. do 2 eexists. split; [left; split; [rewrite KV2; reflexivity|]; exists (XL zs), [], []; split; [reflexivity|]; split; [exists zs; eauto | reflexivity]|]. split; [exact RC | reflexivity].
Qed.

(** ** Values that are passed over *)
(** The command [m] on the items [xs]. *)
Definition command_on (m : M unit) (c : command) (xs : list sx) : Prop := forall l s l', at_in CF 1 l [xs] l' ->
  (forall p, (m ;; eat T_RPAREN) (l, s) = Ok (tt, p) -> exists l1 s1, p = (l1, s1) /\ does s c xs s1 /\ at_in CF 0 l1 [] l') /\
  (forall s1, does s c xs s1 -> (m ;; eat T_RPAREN) (l, s) = Fuel \/ exists l1, (m ;; eat T_RPAREN) (l, s) = Ok (tt, (l1, s1)) /\ at_in CF 0 l1 [] l').
Lemma command_all m c xs : is_command m c -> command_on m c xs.
Proof.
  intros H l s l' T. destruct (H l s [xs] l' T) as [H1 H2]. split.
  - intros p X. destruct (H1 tt p X) as (l1 & s1 & i1 & -> & (ys & Y & -> & D) & U). injection Y as <-. eauto.
  - intros s1 D. apply H2. eauto.
Qed.
Lemma command_value c (pre : text -> M unit) (P : text -> sx -> st -> st -> Prop) xs : length xs <> 1%nat ->
  (forall key x ys l s l', at_in CF 1 l [x :: ys] l' -> exists l1 s1, pre key (l, s) = Ok (tt, (l1, s1)) /\ at_in CO 1 l1 [x :: ys] l' /\ forall s2, P key x s s2 <-> s2 = s1) ->
  (forall s xs s1, does s c xs s1 <-> exists w x, xs = [XT T_KEYWORD w; x] /\ P (tl w) x s s1) ->
  command_on (let! key := parseKeyword in pre key ;; parseSymbolicExpr G) c xs.
Proof.
  intros L H D l s l' T. destruct (p_keyword CF 0 l s [xs] l' T) as [K1 K2]. split.
  - intros p X. apply mbind_ok in X. destruct X as ([] & p1 & X & Y). apply mbind_ok in X. destruct X as (key & p2 & X & Z).
    destruct (K1 _ _ X) as (l1 & s1 & i1 & -> & (-> & w & ys & i' & E & -> & ->) & U). injection E as -> <-. destruct ys as [|x ys]; [now contradiction L|].
    destruct (H (tl w) x ys l1 s l' U) as (l2 & s2 & Q & U2 & PP). rewrite (mbind_at _ _ _ _ _ _ _ Q) in Z.
    destruct (at_symbolic G _ _ _ s2 _ _ _ _ U2) as (l3 & [S3|S3] & U3); rewrite S3 in Z; [discriminate Z|]. injection Z as <-.
    destruct (p_close CF 0 l3 s2 _ l' U3) as [C1 _]. destruct (C1 _ _ Y) as (l4 & s4 & i4 & -> & (-> & E) & U4). injection E as -> <-. exists l4, s2. split; [reflexivity|].
    split; [|exact U4]. apply D. exists w, x. split; [reflexivity|]. now apply PP.
  - intros s1 X. apply D in X. destruct X as (w & x & -> & PP). destruct (K2 (tl w) s [[x]]) as [X|(l1 & X & U)]; [split; [reflexivity|]; exists w, [x], []; auto| |].
    + left. apply mbind_fuel. now apply mbind_fuel.
    + destruct (H (tl w) x [] l1 s l' U) as (l2 & s2 & Y & U2 & Q). apply Q in PP. subst s2.
      destruct (at_symbolic G _ _ _ s1 _ _ _ _ U2) as (l3 & [S3|S3] & U3).
      * left. apply mbind_fuel. rewrite (mbind_at _ _ _ _ _ _ _ X). rewrite (mbind_at _ _ _ _ _ _ _ Y). exact S3.
      * destruct (p_close CF 0 l3 s1 _ l' U3) as [_ C2]. destruct (C2 tt s1 []) as [V|(l4 & V & U4)]; [auto | |].
        -- left. erewrite mbind_at; [exact V|]. rewrite (mbind_at _ _ _ _ _ _ _ X). rewrite (mbind_at _ _ _ _ _ _ _ Y). exact S3.
        -- right. exists l4. split; [|exact U4]. erewrite mbind_at; [exact V|]. rewrite (mbind_at _ _ _ _ _ _ _ X). rewrite (mbind_at _ _ _ _ _ _ _ Y). exact S3.
Qed.
Lemma c_info xs : length xs <> 1%nat -> command_on (let! _ := parseKeyword in parseSymbolicExpr G) C_SET_INFO xs.
Proof.
  intros L. eapply (command_value C_SET_INFO (fun _ => mret tt) (fun _ _ s s1 => s1 = s)); [exact L | |].
  - intros key x ys l s l' U. exists l, s. split; [reflexivity|]. split; [now apply (at_le CF) | reflexivity].
  - intros s ys s1. split.
    + intros H. inversion H as []; subst. match goal with K : is_keyword ?k = true |- _ => destruct k as [t w|]; [|discriminate K]; destruct t; try discriminate K end. eauto.
    + intros (w & x & -> & ->). now constructor.
Qed.
Lemma set_opts_same s : set_opts (s_opts s) s = s. Proof. now destruct s. Qed.
Lemma option_iff o key b : forall o', option_set o key b o' <-> o' = match setOption o key b with Some o1 => o1 | None => o end.
Proof.
  intros o'. unfold setOption. split.
  - intros [E|E|E|E|E|N].
    1-5: rewrite E; reflexivity.
    destruct (text_eqb key (txt "parse-let")) eqn:E1; [exfalso; apply N; left; symmetry; now apply text_eqb_eq|].
    destruct (text_eqb key (txt "rule-sym-table")) eqn:E2; [exfalso; apply N; right; left; symmetry; now apply text_eqb_eq|].
    destruct (text_eqb key (txt "normalize-dec")) eqn:E3; [exfalso; apply N; do 2 right; left; symmetry; now apply text_eqb_eq|].
    destruct (text_eqb key (txt "normalize-num")) eqn:E4; [exfalso; apply N; do 4 right; left; symmetry; now apply text_eqb_eq|].
    destruct (text_eqb key (txt "normalize-hex")) eqn:E5; [exfalso; apply N; do 3 right; left; symmetry; now apply text_eqb_eq|].
    now destruct (_ || _).
  - intros ->.
    destruct (text_eqb key (txt "parse-let")) eqn:E1; [apply os_let; now apply text_eqb_eq|].
    destruct (text_eqb key (txt "print-dag") || text_eqb key (txt "stats") || text_eqb key (txt "stats-all") || text_eqb key (txt "stats-compact")) eqn:E0.
    { apply os_other. intros I. cbn [In] in I. decompose [or] I; clear I; try subst key; try discriminate E0; try discriminate E1; contradiction. }
    destruct (text_eqb key (txt "rule-sym-table")) eqn:E2; [apply os_rules; now apply text_eqb_eq|].
    destruct (text_eqb key (txt "normalize-dec")) eqn:E3; [apply os_dec; now apply text_eqb_eq|].
    destruct (text_eqb key (txt "normalize-num")) eqn:E4; [apply os_num; now apply text_eqb_eq|].
    destruct (text_eqb key (txt "normalize-hex")) eqn:E5; [apply os_hex; now apply text_eqb_eq|].
    apply os_other. intros I. cbn [In] in I. decompose [or] I; clear I; try subst key; try discriminate; contradiction.
Qed.
Lemma c_option xs : length xs <> 1%nat -> command_on (cmdSetOption G isRef) C_SET_OPTION xs.
Proof.
  intros L. eapply (command_value C_SET_OPTION _ (fun key x s s1 => exists o, option_in isRef (58 :: key) x (s_opts s) o /\ s1 = set_opts o s)); [exact L | |].
  - intros key x ys l s l' U. cbv beta. destruct isRef eqn:R.
    { exists l, s. split; [reflexivity|]. split; [now apply (at_le CF)|]. intros s2. split.
      - intros (o & [b o' E _ _|_] & ->); [discriminate E | apply set_opts_same].
      - intros ->. exists (s_opts s). split; [apply oi_other; now right | now rewrite set_opts_same]. }
    destruct (at_peek 0 l s _ l' U) as (l1 & E & N & V). rewrite (mbind_at _ _ _ _ _ _ _ E). unfold tokText at 1, mlex at 1, mbind at 1. cbn [bind fst snd].
    change (tokenStr (reinsertToken (first [x :: ys]) l1)) with (tokenStr l1).
    destruct (token_eqb (first [x :: ys]) T_SYMBOL && (text_eqb (tokenStr l1) (txt "true") || text_eqb (tokenStr l1) (txt "false"))) eqn:Q.
    + apply andb_prop in Q. destruct Q as [Q1 Q2]. apply token_eqb_eq in Q1. destruct x as [k w|zs]; cbn [first] in *; [subst k | discriminate Q1].
      destruct (at_word _ _ _ _ _ _ _ _ U) as (l2 & N2 & W & _). rewrite N in N2. injection N2 as <-. rewrite W in *. do 2 eexists. split; [reflexivity|]. split; [exact V|]. cbn [fst snd].
      assert (TR : forall b, truth (XT T_SYMBOL w) b -> text_eqb w (txt "true") = b) by (intros b X; injection X as ->; now destruct b).
      assert (TT : truth (XT T_SYMBOL w) (text_eqb w (txt "true"))).
      { unfold truth. destruct (text_eqb w (txt "true")) eqn:T1; [apply text_eqb_eq in T1; now subst w|]. cbn [orb] in Q2. apply text_eqb_eq in Q2. now subst w. }
      intros s2. split.
      * intros (o & [b o' _ X Y|X] & ->).
        -- rewrite (TR b X) in *. apply option_iff in Y. cbn [tl] in Y. subst o'. destruct (setOption (s_opts s) key b); [reflexivity | apply set_opts_same].
        -- destruct X as [X|X]; [now apply X in TT | discriminate X].
      * intros ->. exists (match setOption (s_opts s) key (text_eqb w (txt "true")) with Some o1 => o1 | None => s_opts s end). split.
        -- eapply oi_set; [reflexivity | exact TT | now apply option_iff].
        -- destruct (setOption (s_opts s) key (text_eqb w (txt "true"))); [reflexivity | now rewrite set_opts_same].
    + do 2 eexists. split; [reflexivity|]. split; [exact V|].
      assert (NT : forall b, ~ truth x b).
      { intros b ->. cbn [first] in *. destruct (at_word _ _ _ _ _ _ _ _ U) as (l2 & N2 & W & _). rewrite N in N2. injection N2 as <-. rewrite W in Q. destruct b; discriminate Q. }
      intros s2. split.
      * intros (o & [b o' _ X _|_] & ->); [now apply NT in X | apply set_opts_same].
      * intros ->. exists (s_opts s). split; [apply oi_other; now left | now rewrite set_opts_same].
  - intros s ys s1. split.
    + intros H. inversion H as []; subst. do 2 eexists. split; [reflexivity|]. eexists. split; [|reflexivity].
      match goal with O : option_in _ _ _ _ _ |- _ => inversion O; subst end; [eapply oi_set; eauto | apply oi_other; auto].
    + intros (w & x & -> & o & O & ->). constructor. inversion O; subst; [eapply oi_set; eauto | apply oi_other; auto].
Qed.
End Cmds.
