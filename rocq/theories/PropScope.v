(** Properties C35, C36, C47, C57 and unapplied symbols of C37: names and scopes. *)
From Coq Require Import ZArith List Bool Lia.
From Verif Require Import Base Kind Ints Str Literal Arity Term TermProofs Scope SpecScope ScopeProofs.
Import ListNotations.
Open Scope Z_scope.

Definition nf : text := [102].
Definition ng : text := [103].
Definition k_ (i : Z) : term := Sym K_CONST i.
Definition rl (i : Z) : term := Sym K_PROOF_RULE i.

Ltac tables := repeat (split; [vm_compute; reflexivity|]); vm_compute; reflexivity.

(** * C35: scopes *)
(** A name denotes its latest visible declaration; its alternatives are its visible
    declarations, oldest first. *)
Theorem C35_names : forall rt cs s, no_reset cs -> sexec rt scope_empty cs = Ok s ->
  exists F, scopes rt ([], []) cs F /\
    (forall n, getVar s n = hd_error (named n (visible F))) /\
    (forall n, c_over s n = alternatives (named n (visible F))).
Proof.
  intros rt cs s NR H. destruct (exec_rel _ _ _ _ _ NR empty_rel H) as (F & SC & [[HS HO HV] D X]).
  exists F. auto.
Qed.
Print Assumptions C35_names.
Theorem C35_restores : forall rt cs b s, no_reset cs -> balanced b -> no_reset b ->
  sexec rt scope_empty (cs ++ SPush :: b ++ [SPop]) = Ok s ->
  exists s0, sexec rt scope_empty cs = Ok s0 /\
    (forall n, getVar s n = getVar s0 n) /\ (forall n, c_over s n = c_over s0 n).
Proof.
  intros rt cs b s N1 B N2 H. destruct (restores _ _ _ _ N1 B N2 H) as (s0 & E & V & O & _). exists s0. auto.
Qed.
Print Assumptions C35_restores.
(** Without rules every well-bracketed sequence is accepted. *)
Theorem C35_accepted : forall rt cs F, (forall n e, In (SBind n e) cs -> is_rule rt e = false) ->
  scopes rt ([], []) cs F -> exists s, sexec rt scope_empty cs = Ok s.
Proof.
  intros rt cs F NR SC. destruct (exec_accepted _ _ _ _ _ NR empty_rel SC) as (s & E & _). exists s. exact E.
Qed.
Print Assumptions C35_accepted.
Theorem C35_no_ub : forall rt cs, no_reset cs -> sexec rt scope_empty cs <> UB.
Proof. intros rt cs NR. exact (proj1 (exec_no_ub rt cs _ _ NR empty_rel)). Qed.
Print Assumptions C35_no_ub.
Definition h_block : list scmd :=
  [SBind nf (k_ 2); SPush; SBind nf (k_ 3); SBind ng (k_ 4); SPop; SBind ng (k_ 5); SBind ng (k_ 6)].
Example C35_example : balanced h_block /\ no_reset h_block /\ no_reset [SBind nf (k_ 0); SBind nf (k_ 1)] /\
  exists s1 s2, sexec true scope_empty ([SBind nf (k_ 0); SBind nf (k_ 1)] ++ SPush :: h_block) = Ok s1 /\
    getVar s1 nf = Some (k_ 2) /\ c_over s1 nf = [k_ 0; k_ 1; k_ 2] /\ c_over s1 ng = [k_ 5; k_ 6] /\
    sexec true scope_empty ([SBind nf (k_ 0); SBind nf (k_ 1)] ++ SPush :: h_block ++ [SPop]) = Ok s2 /\
    getVar s2 nf = Some (k_ 1) /\ c_over s2 nf = [k_ 0; k_ 1] /\ getVar s2 ng = None.
Proof.
  split; [unfold h_block; apply bal_bind; apply (bal_scope [_; _] [_; _]); repeat constructor|].
  split; [intros I; cbn in I; intuition discriminate|].
  split; [intros I; cbn in I; intuition discriminate|].
  eexists. eexists. tables.
Qed.
(** With the separate table, a rule declared inside a scope stays. *)
Theorem C35_rules_refuted : exists cs b s0 s n r, balanced b /\ sexec true scope_empty cs = Ok s0 /\
  sexec true scope_empty (cs ++ SPush :: b ++ [SPop]) = Ok s /\
  getProofRule true s0 n = None /\ getProofRule true s n = Some r.
Proof.
  exists [], [SBind nf (rl 0)]. do 2 eexists. exists nf, (rl 0). split; [repeat constructor|]. tables.
Qed.
Print Assumptions C35_rules_refuted.
(** A definition inside a scope changes the alternatives of an outer symbol for good:
    declare f, g; within a scope define f as g; then declare f again. *)
Theorem C35_marks_refuted : exists cs b post s s' n t, balanced b /\ no_reset (cs ++ b ++ post) /\
  sexec true scope_empty (cs ++ post) = Ok s /\
  sexec true scope_empty ((cs ++ SPush :: b ++ [SPop]) ++ post) = Ok s' /\
  getVar s n = Some t /\ getVar s' n = Some t /\
  overloads_of s t = None /\ exists x y, overloads_of s' t = Some [x; y] /\ x <> t /\ y <> t.
Proof.
  exists [SBind nf (k_ 0); SBind ng (k_ 1)], [SBind nf (k_ 1)], [SBind nf (k_ 2)]. do 2 eexists. exists ng, (k_ 1).
  split; [repeat constructor|]. split; [intros I; cbn in I; intuition discriminate|].
  repeat (split; [vm_compute; reflexivity|]). exists (k_ 0), (k_ 2). repeat (split; [vm_compute; first [reflexivity | discriminate] |]); vm_compute; discriminate.
Qed.
Print Assumptions C35_marks_refuted.

(** * C37: a symbol that is not applied *)
Theorem C37_unapplied_refuted : exists cs s n first last, no_reset cs /\ sexec true scope_empty cs = Ok s /\
  cs = [SBind n first; SBind n last] /\ first <> last /\ getVar s n = Some last.
Proof.
  exists [SBind nf (k_ 0); SBind nf (k_ 1)]. eexists. exists nf, (k_ 0), (k_ 1).
  split; [intros I; cbn in I; intuition discriminate|]. repeat (split; [vm_compute; first [reflexivity | discriminate] |]); vm_compute; reflexivity.
Qed.
Print Assumptions C37_unapplied_refuted.

(** * C57: alternatives of a name *)
(** With one name for each term, the alternatives for an application of a name were
    declared with that name.  Missing for the full statement: terms with two names. *)
Theorem C57_partial : forall rt cs s n t ov, no_reset cs -> one_name_each cs ->
  sexec rt scope_empty cs = Ok s -> getVar s n = Some t -> overloads_of s t = Some ov ->
  forall e, In e ov -> bound_to cs n e.
Proof. exact own_alternatives. Qed.
Print Assumptions C57_partial.
Example C57_example : exists s, no_reset [SBind nf (k_ 0); SBind nf (k_ 1); SBind ng (k_ 2)] /\
  one_name_each [SBind nf (k_ 0); SBind nf (k_ 1); SBind ng (k_ 2)] /\
  sexec true scope_empty [SBind nf (k_ 0); SBind nf (k_ 1); SBind ng (k_ 2)] = Ok s /\
  getVar s nf = Some (k_ 1) /\ overloads_of s (k_ 1) = Some [k_ 0; k_ 1].
Proof.
  eexists. split; [intros I; cbn in I; intuition discriminate|]. split; [|tables].
  intros n n' e I J. cbn in I, J. unfold k_ in I, J. intuition congruence.
Qed.
(** declare f, declare g, define f as g: applications of g consider the first f. *)
Theorem C57_refuted : exists cs s n t ov e, no_reset cs /\
  sexec true scope_empty cs = Ok s /\ getVar s n = Some t /\ overloads_of s t = Some ov /\
  In e ov /\ ~ bound_to cs n e.
Proof.
  exists [SBind nf (k_ 0); SBind ng (k_ 1); SBind nf (k_ 1)]. eexists. exists ng, (k_ 1), [k_ 0; k_ 1], (k_ 0).
  split; [intros I; cbn in I; intuition discriminate|]. repeat (split; [vm_compute; reflexivity|]). split; [now left|].
  intros I. cbn in I. intuition discriminate.
Qed.
Print Assumptions C57_refuted.

(** * C36: reset *)
Theorem C36_no_names : forall rt cs s n, sexec rt scope_empty (cs ++ [SReset]) = Ok s -> getVar s n = None.
Proof.
  intros rt cs s n H. rewrite sexec_app in H. destruct (sexec rt scope_empty cs); try discriminate.
  now injection H as <-.
Qed.
Print Assumptions C36_no_names.
Example C36_no_names_example : exists s, sexec true scope_empty ([SBind nf (k_ 0)] ++ [SReset]) = Ok s.
Proof. eexists. reflexivity. Qed.
(** The alternatives of a name depend on declarations before the reset. *)
Theorem C36_alternatives_refuted : exists pre post s s' n, no_reset post /\
  sexec true scope_empty (pre ++ SReset :: post) = Ok s /\ sexec true scope_empty post = Ok s' /\
  c_over s' n = [k_ 2; k_ 3] /\ c_over s n = [k_ 0; k_ 1; k_ 3].
Proof.
  exists [SBind nf (k_ 0); SBind nf (k_ 1)], [SBind nf (k_ 2); SBind nf (k_ 3)]. do 2 eexists. exists nf.
  split; [intros I; cbn in I; intuition discriminate|]. tables.
Qed.
Print Assumptions C36_alternatives_refuted.
(** A name that should be free denotes a symbol from before the reset. *)
Theorem C36_meaning_refuted : exists pre post s s' n, no_reset post /\
  sexec true scope_empty (pre ++ SReset :: post) = Ok s /\ sexec true scope_empty post = Ok s' /\
  getVar s' n = None /\ getVar s n = Some (k_ 0) /\ ~ bound_to post n (k_ 0).
Proof.
  exists [SBind nf (k_ 0); SPush; SBind nf (k_ 1)], [SPush; SBind nf (k_ 2); SPop]. do 2 eexists. exists nf.
  split; [intros I; cbn in I; intuition discriminate|]. repeat (split; [vm_compute; reflexivity|]).
  intros I. cbn in I. intuition discriminate.
Qed.
Print Assumptions C36_meaning_refuted.
(** A rule cannot be declared again. *)
Theorem C36_rules_refuted : exists pre post s, sexec true scope_empty post = Ok s /\
  (exists s', sexec true scope_empty (pre ++ [SReset]) = Ok s') /\
  sexec true scope_empty (pre ++ SReset :: post) = Err.
Proof.
  exists [SBind nf (rl 0)], [SBind nf (rl 1)]. eexists. split; [vm_compute; reflexivity|]. split; [eexists; vm_compute; reflexivity|]. vm_compute. reflexivity.
Qed.
Print Assumptions C36_rules_refuted.
(** If no name had two visible declarations, names mean after the reset what they
    mean in a fresh state.  Missing for the full statement: overloaded names, rules. *)
Theorem C36_partial : forall rt pre F0 post s, no_reset pre -> no_reset post ->
  scopes rt ([], []) pre F0 -> NoDup (map fst (visible F0)) ->
  sexec rt scope_empty (pre ++ SReset :: post) = Ok s ->
  exists F, scopes rt ([], []) post F /\
    (forall n, getVar s n = hd_error (named n (visible F))) /\
    (forall n, c_over s n = alternatives (named n (visible F))).
Proof.
  intros rt pre F0 post s N1 N2 SC ND H. rewrite sexec_app in H.
  destruct (sexec rt scope_empty pre) as [s1| | |] eqn:E; try discriminate. cbn [bind sexec sexec1] in H.
  destruct (exec_rel _ _ _ _ _ N1 empty_rel E) as (F1 & SC1 & R1).
  assert (F1 = F0).
  { clear - SC SC1. revert F0 SC. induction SC1; intros F0 SC; inversion SC; subst; auto; congruence. }
  subst F1. pose proof (reset_fresh _ _ R1 ND) as R2.
  destruct (exec_rel _ _ _ _ _ N2 R2 H) as (F & SC2 & [[HS HO HV] D X]). exists F. auto.
Qed.
Print Assumptions C36_partial.
Example C36_example : exists F0 s,
  scopes true ([], []) [SBind nf (k_ 0); SPush; SBind ng (k_ 1); SPop; SBind ng (k_ 2); SPush] F0 /\
  NoDup (map fst (visible F0)) /\
  sexec true scope_empty ([SBind nf (k_ 0); SPush; SBind ng (k_ 1); SPop; SBind ng (k_ 2); SPush] ++
    SReset :: [SBind ng (k_ 3); SBind ng (k_ 4)]) = Ok s /\ c_over s ng = [k_ 3; k_ 4] /\ getVar s nf = None.
Proof.
  eexists. eexists. split; [repeat (first [apply sc_bind; [reflexivity | cbn [declare]] | apply sc_push | apply sc_pop | apply sc_nil])|].
  split; [|tables].
  repeat constructor; cbn; intuition discriminate.
Qed.

(** * C47: settings made once *)
(** All successful settings of, and all answers about, the type rule of a literal
    category agree. *)
Theorem C47_one_rule : forall os rs i j o o' r r' k t t', settings os rs ->
  answered os rs i o r -> answered os rs j o' r' -> says o r k t -> says o' r' k t' -> t = t'.
Proof. exact one_rule. Qed.
Print Assumptions C47_one_rule.
(** A different rule, after one was set or asked for, is an error. *)
Theorem C47_conflict : forall os rs i o r k t t', settings os rs -> answered os rs i o r -> says o r k t -> t <> t' ->
  arun (lrules_init, fun _ => None) (os ++ [ASetRule k t']) = Err.
Proof. exact conflict_stops. Qed.
Print Assumptions C47_conflict.
Theorem C47_one_attribute : forall os rs i j o o' r r' v a ct a' ct', settings os rs ->
  answered os rs i o r -> answered os rs j o' r' -> says_attr o r v a ct -> says_attr o' r' v a' ct' -> a = a' /\ ct = ct'.
Proof. exact one_attr. Qed.
Print Assumptions C47_one_attribute.
Theorem C47_refused : forall os rs i j o r v a ct b a' ct', settings os rs -> (i < j)%nat ->
  answered os rs i o r -> says_attr o r v a ct -> answered os rs j (AMark v a' ct') (AAccepted b) -> b = false.
Proof. exact mark_once. Qed.
Print Assumptions C47_refused.
(** The first mark of a symbol is accepted. *)
Theorem C47_first : forall os rs i v a ct r, settings os rs -> answered os rs i (AMark v a ct) r ->
  (forall j a' ct', (j < i)%nat -> nth_error os j <> Some (AMark v a' ct')) -> r = AAccepted true.
Proof.
  intros os rs i v a ct r [s' H] A N.
  destruct (arun_split _ _ _ _ _ _ _ H A) as (p & b & ra & rb & [m1 c1] & s2 & -> & -> & L1 & L2 & R1 & R2 & R3).
  assert (K : c1 v = None).
  { assert (N' : forall a' ct', ~ In (AMark v a' ct') p).
    { intros a' ct' I. apply In_nth_error in I. destruct I as [j J].
      assert (Lj : (j < length p)%nat) by (apply nth_error_Some; congruence).
      apply (N j a' ct'); [lia|]. now rewrite nth_error_app1. }
    clear - R1 N'. revert R1.
    assert (G : forall p m c m1 c1 ra, (forall a' ct', ~ In (AMark v a' ct') p) -> c v = None ->
      arun (m, c) p = Ok ((m1, c1), ra) -> c1 v = None).
    { clear. induction p as [|o p IH]; intros m c m1 c1 ra N C H.
      - injection H as <- <- <-. exact C.
      - cbn [arun] in H. destruct (arun1 (m, c) o) as [[[m2 c2] r]| | |] eqn:E; try discriminate. cbn [bind] in H.
        destruct (arun (m2, c2) p) as [[[m3 c3] rs2]| | |] eqn:F; try discriminate. cbn [bind] in H.
        injection H as <- <- <-. eapply IH; [|  | exact F]; [intros a' ct' I; apply (N a' ct'); now right|].
        destruct o as [k2 t2 | k2 | w a ct | w]; cbn [arun1] in E.
        + destruct (setLiteralTypeRule m k2 t2); try discriminate. now injection E as <- <- <-.
        + destruct (getOrSetLiteralTypeRule m k2) as [[? ?]| | |]; try discriminate. now injection E as <- <- <-.
        + unfold markConstructorKind in E. destruct (c w) eqn:W; injection E as <- <- <-; [exact C|].
          destruct (term_eqb w v) eqn:Q; [|exact C]. apply term_eqb_eq in Q. subst w.
          exfalso. apply (N a ct). now left.
        + now injection E as <- <- <-. }
    intros R1. eapply G; [exact N' | | exact R1]. reflexivity. }
  cbn [arun1] in R2. unfold markConstructorKind in R2. rewrite K in R2. now injection R2 as <- <-.
Qed.
Print Assumptions C47_first.
Example C47_example : exists rs,
  settings [ASetRule K_NUMERAL (k_ 0); AMark (k_ 1) A_RIGHT_ASSOC None; AGetRule K_STRING; AMark (k_ 1) A_LEFT_ASSOC None;
            AGetRule K_NUMERAL; AAttr (k_ 1)] rs /\
  rs = [ADone; AAccepted true; ATerm any_term; AAccepted false; ATerm (k_ 0); AAttrIs (Some (A_RIGHT_ASSOC, None))].
Proof. eexists. split; [eexists; vm_compute; reflexivity|]. reflexivity. Qed.
(** Asking for the rule of a category fixes it: a later declare-consts is an error. *)
Example C47_conflict_example : exists rs, settings [AGetRule K_NUMERAL] rs /\
  answered [AGetRule K_NUMERAL] rs 0 (AGetRule K_NUMERAL) (ATerm any_term) /\
  says (AGetRule K_NUMERAL) (ATerm any_term) K_NUMERAL any_term /\ any_term <> k_ 0.
Proof.
  eexists. split; [eexists; vm_compute; reflexivity|]. split; [split; reflexivity|].
  split; [right; split; reflexivity|]. discriminate.
Qed.
