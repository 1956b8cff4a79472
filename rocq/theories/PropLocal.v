(** Properties C67 and C68: names that are bound inside a term. *)
From Coq Require Import String ZArith List Bool Lia.
From Verif Require Import Base Kind Ints Str Literal Arity Term TermProofs Match Eval ListOps Typing Build Scope SpecScope ScopeProofs Lexer Parse Check
  SpecCheck InvProofs2 SpecRead Encode ReadProofs SpecLocal LocalProofs PropRead.
Import ListNotations.
Open Scope Z_scope.

Lemma faithful_coherent G : faithful G -> coherent G.
Proof. intros H n t p. rewrite H. now intros [= <-]. Qed.
(** A state that a run without reset ends in. *)
Definition reached (G : config) (s : st) : Prop :=
  exists o incs i v, Check.run G o incs i = Ok (v, s) /\ ~ In EvReset (events s).
Lemma reached_rel G s : faithful G -> reached G s -> exists F, rel F (s_scope s).
Proof.
  intros HF (o & incs & i & v & R & NR).
  destruct (run_WT G InvProofs2.no_reset no_reset_tail (fun l H => H) (faithful_coherent G HF) o incs i v s R NR) as (d & I).
  destruct (InvProofs.iv_F _ _ _ _ _ I) as (F & RF & _). now exists F.
Qed.
Lemma reached_agrees G s : faithful G -> reached G s -> agrees s (getVar (s_scope s)) s.
Proof.
  intros HF R. destruct (reached_rel G s HF R) as (F & [[R1 R2 R3] R4 R5]). constructor; auto using os_refl.
  rewrite R3. apply Forall_forall. intros o I. unfold getVar. rewrite R1. pose proof (redeclared_named _ _ _ I) as N.
  destruct (named o _); [contradiction | discriminate].
Qed.

(** After a term every name stands for what it stood for before, with the same
    alternatives, and nothing but the tables of names has changed. *)
Theorem C67_names_kept : forall G sig n s x l l' t p, faithful G -> reached G s -> proper x -> ready l -> shows l (words x) l' ->
  parseExpr G sig n (l, s) = Ok (t, p) ->
  snd p = set_scope (s_scope (snd p)) s /\ (forall m, getVar (s_scope (snd p)) m = getVar (s_scope s) m) /\
  (forall m, c_over (s_scope (snd p)) m = c_over (s_scope s) m) /\ c_ctx (s_scope (snd p)) = c_ctx (s_scope s).
Proof.
  intros G sig n s x l l' t p HF R PX RL SW H. destruct (C66_exact G sig n s x l l' t p HF PX RL SW H) as [D _].
  destruct (reached_rel G s HF R) as (F & RF).
  destruct (kept_names s (snd p) F (proj1 (reads_kept G sig) _ _ _ _ D) RF) as (A & B & C & _ & K). auto.
Qed.
Print Assumptions C67_names_kept.

(** A term that binds new names only is what it is by static scoping, and reading it
    leaves every name, rule and symbol as it was. *)
Theorem C67_static : forall G sig n s x t l l', faithful G -> reached G s -> proper x -> ready l -> shows l (words x) l' ->
  means G sig s (getVar (s_scope s)) x t ->
  parseExpr G sig n (l, s) = Fuel \/ exists s1, parseExpr G sig n (l, s) = Ok (t, (l', s1)) /\ unchanged s s1.
Proof.
  intros G sig n s x t l l' HF R PX RL SW M.
  destruct (proj1 (means_reads G sig s) _ _ _ M s (reached_agrees G s HF R)) as (s1 & D & [A1 A2 A3 A4 A5 A6 A7 A8]).
  destruct (C66_reads G sig n s x t s1 l l' HF PX RL SW D) as [H | H]; [now left|]. right. exists s1. split; [exact H|].
  constructor; auto.
  - intros [] m; unfold getProofRule; [now rewrite A2 | apply A8].
  - intros u. unfold overloads_of. now rewrite A3, A4.
Qed.
Print Assumptions C67_static.

(** A let is an abbreviation: with its value written in place of its name the term is
    the same.  The name is not applied unless its value is a name too; names in both the
    value and the body mean something outside. *)
Theorem C67_abbreviation : forall G sig s T k w k' w' n a b t, is_let k = true -> name_of k' w' = Some n ->
  n <> txt "_" -> n <> txt "as" -> var_list [a] = false -> a_name a \/ not_applied n b ->
  (forall m, In m (names_in b) -> In m (names_in a) -> T m <> None) ->
  means G sig s T (XL [XT k w; XL [XL [XT k' w'; a]]; b]) t -> means G sig s T (replace n a b) t.
Proof. intros G sig s T k w k' w' n a b t LT N N1 N2 V H SH M. exact (let_replaced G sig s T k w k' w' n a b t N N1 N2 V H SH LT M). Qed.
Print Assumptions C67_abbreviation.

(** ** Examples *)
Definition no_resets (s : st) : bool := negb (existsb (fun e => match snd e with EvReset => true | _ => false end) (s_log s)).
Lemma no_resets_ok s : no_resets s = true -> ~ In EvReset (events s).
Proof.
  unfold no_resets, events. intros H I. apply in_map_iff in I. destruct I as ([k e] & EQ & I). cbn [snd] in EQ. subst e.
  rewrite (proj2 (existsb_exists _ _) (ex_intro _ _ (conj I eq_refl))) in H. discriminate H.
Qed.
Lemma reached66 : reached vcfg s66.
Proof.
  assert (H : match Check.run vcfg options_init [] (InFile (txt "a.eo")) with Ok (_, s) => no_resets s | _ => false end = true) by (vm_compute; reflexivity).
  unfold s66. destruct (Check.run vcfg options_init [] (InFile (txt "a.eo"))) as [[v s]| | |] eqn:R; try discriminate H.
  exists options_init, [], (InFile (txt "a.eo")), v. split; [exact R | exact (no_resets_ok s H)].
Qed.
Ltac comp := vm_compute; first [reflexivity | discriminate | intros; discriminate].
Definition T66 : names_table := getVar (s_scope s66).
Definition T66x : names_table := with_name T66 (txt "x") (Sym K_VARIABLE (var_num (txt "x") (c66 63))).
Definition let66 : sx :=
  XL [XT T_LET (txt "let"); XL [XL [w "z"; XL [w "P"; w "x"]]];
          XL [w "and"; w "z"; XL [XT T_ATTRIBUTE (txt "!"); XL [w "P"; w "x"]; XT T_KEYWORD (txt ":named"); w "foo"]; w "z"]].
Definition x67 : sx := XL [w "forall"; XL [XL [w "x"; w "Int"]]; let66].
Definition body67 : term := and66 (P66 "x") (and66 (P66 "x") (and66 (P66 "x") (Lit (LBool true)))).
Definition v67 : term :=
  Node K_APPLY [Node K_APPLY [c66 66;
      Node K_APPLY [Node K_APPLY [c66 60; Sym K_VARIABLE (var_num (txt "x") (c66 63))]; c66 58]]; body67].
Lemma Px67 T : T (txt "x") = T66x (txt "x") -> T (txt "P") = T66 (txt "P") -> means vcfg false s66 T (XL [w "P"; w "x"]) (P66 "x").
Proof.
  intros H1 H2. apply (me_app vcfg false s66 T T_SYMBOL _ (txt "P") (c66 64) _ [Sym K_VARIABLE (var_num (txt "x") (c66 63))]);
    [comp | rewrite H2; comp | comp | | comp].
  apply ma_cons; [|comp | apply ma_nil]. apply (me_name vcfg false s66 T T_SYMBOL _ (txt "x")); [comp | rewrite H1; comp | comp].
Qed.
Lemma let67 : means vcfg false s66 T66x let66 body67.
Proof.
  apply (me_let vcfg false s66 T66x T_LET _ _ _ [(txt "z", P66 "x")]); [comp | | | | comp].
  - apply ml_cons; [comp | apply Px67; comp | comp | apply ml_nil].
  - split; [repeat constructor; intros [] | constructor; [split; comp | constructor]].
  - eapply me_app with (n := txt "and") (v := c66 65) (ts := [P66 "x"; P66 "x"; P66 "x"]); [comp | comp | comp | | comp].
    apply ma_cons; [apply me_name with (n := txt "z"); comp | comp |].
    apply ma_cons; [| comp |].
    + apply me_annotated; [apply Px67; comp | comp |]. apply at_value; [comp | comp | apply at_nil].
    + apply ma_cons; [apply me_name with (n := txt "z"); comp | comp | apply ma_nil].
Qed.
Example C67_static_example : faithful vcfg /\ reached vcfg s66 /\ proper x67 /\ means vcfg false s66 T66 x67 v67.
Proof.
  split; [exact vcfg_faithful|]. split; [exact reached66|]. split.
  { repeat first [apply Forall_nil | apply Forall_cons | apply pr_list; [reflexivity|] | apply pr_word; [reflexivity | discriminate]]. }
  eapply me_binder with (n := txt "forall") (v := c66 66) (vs := [Sym K_VARIABLE (var_num (txt "x") (c66 63))]) (T' := T66x) (ts := [body67])
    (ct := c66 60); [comp | comp | comp | comp | | | comp | | comp].
  - unfold T66x. eapply mv_cons with (n := txt "x") (ty := c66 63) (v := Sym K_VARIABLE (var_num (txt "x") (c66 63))); [comp | comp | | comp | comp | | comp | apply mv_nil].
    + apply me_name with (n := txt "Int"); comp.
    + apply va_ground. comp.
  - eexists. split; comp.
  - apply ma_cons; [exact let67 | comp | apply ma_nil].
Qed.
Example C67_abbreviation_example : means vcfg false s66 T66x
  (XL [w "and"; XL [w "P"; w "x"]; XL [XT T_ATTRIBUTE (txt "!"); XL [w "P"; w "x"]; XT T_KEYWORD (txt ":named"); w "foo"]; XL [w "P"; w "x"]]) body67.
Proof.
  refine (C67_abbreviation vcfg false s66 T66x T_LET (txt "let") T_SYMBOL (txt "z") (txt "z") (XL [w "P"; w "x"]) _ _
            eq_refl eq_refl _ _ eq_refl _ _ let67); try comp.
  - right. repeat first [apply na_word | apply na_list | apply Forall_nil | apply Forall_cons | comp | exact Logic.I].
  - intros m H I. cbn in H, I. destruct I as [<- | [<- | []]]; comp.
Qed.
Example C67_names_kept_example : exists l' s1, faithful vcfg /\ reached vcfg s66 /\ proper x66 /\ ready l66 /\ shows l66 (words x66) l' /\
  parseExpr vcfg false 60 (l66, s66) = Ok (v66, (l', s1)).
Proof.
  destruct C66_example as (l' & s1 & A & B & C & D & P & _). exists l', s1.
  split; [exact A|]. split; [exact reached66|]. split; [exact B|]. split; [exact C|]. split; [exact D | exact P].
Qed.

(** ** Names that are bound again *)
Definition sig67 : string :=
"(declare-const Int Type) (declare-const a Int) (declare-const p Bool)
(declare-const f (-> Int Int)) (declare-const g (-> Bool Bool))".
Definition cfg67 (x : string) : config := mkConfig (fun _ => 0) var_num num_var (fun _ p => p) (fun _ => Some (txt x)) 60 60 400.
Definition s67 (x : string) : st :=
  match Check.run (cfg67 x) options_init [] (InFile (txt "a.eo")) with Ok (_, s) => s | _ => st_init options_init end.
Lemma reached67 x : match Check.run (cfg67 x) options_init [] (InFile (txt "a.eo")) with Ok (_, s) => no_resets s | _ => false end = true ->
  reached (cfg67 x) (s67 x).
Proof.
  intros H. unfold s67. destruct (Check.run (cfg67 x) options_init [] (InFile (txt "a.eo"))) as [[v s]| | |] eqn:R; try discriminate H.
  exists options_init, [], (InFile (txt "a.eo")), v. split; [exact R | exact (no_resets_ok s H)].
Qed.
Definition term_of (x t : string) : option term :=
  match parseExpr (cfg67 x) false 60 (lexer_init true true (chars_of false (txt t)), s67 x) with Ok (r, _) => Some r | _ => None end.
(** If the name of a symbol [f] is bound to a symbol [g], the name still denotes the
    outer [f] when that is what the types admit, and so does [g]. *)
Theorem C68_hides_refuted : exists x f g a, reached (cfg67 x) (s67 x) /\
  getVar (s_scope (s67 x)) (txt "f") = Some f /\ getVar (s_scope (s67 x)) (txt "g") = Some g /\
  getVar (s_scope (s67 x)) (txt "a") = Some a /\ f <> g /\
  term_of x "(let ((h g)) (h a)) " = Some (Node K_APPLY [g; a]) /\
  term_of x "(let ((f g)) (f a)) " = Some (Node K_APPLY [f; a]) /\
  term_of x "(let ((f g)) (g a)) " = Some (Node K_APPLY [f; a]).
Proof.
  exists sig67, (c66 66), (c66 67), (c66 64). split; [apply reached67; comp|]. repeat (split; [comp|]). comp.
Qed.
Print Assumptions C68_hides_refuted.
(** Such a name can change what a symbol outside of the term means later on. *)
Theorem C68_lasting_refuted : exists d x y f g a, x = (sig67 ++ y)%string /\
  reached (cfg67 x) (s67 x) /\ reached (cfg67 (sig67 ++ d ++ y)) (s67 (sig67 ++ d ++ y)) /\
  d = "(define t () (eo::define ((f g)) (f p)))"%string /\ f <> g /\
  getVar (s_scope (s67 x)) (txt "g") = Some g /\ getVar (s_scope (s67 (sig67 ++ d ++ y))) (txt "g") = Some g /\
  getVar (s_scope (s67 x)) (txt "u") = Some (Node K_APPLY [g; a]) /\
  getVar (s_scope (s67 (sig67 ++ d ++ y))) (txt "u") = Some (Node K_APPLY [f; a]).
Proof.
  exists "(define t () (eo::define ((f g)) (f p)))"%string. eexists. exists "(declare-const f (-> Int Int)) (define u () (g a))"%string, (c66 68), (c66 67), (c66 64).
  split; [reflexivity|]. split; [apply reached67; comp|]. split; [apply reached67; comp|]. repeat (split; [comp|]). comp.
Qed.
Print Assumptions C68_lasting_refuted.
