(** Property C81: types and values depend on what a term is made of.
    Property C82: whatever can be named or looked up is made of symbols that exist. *)
From Coq Require Import String ZArith List Bool Lia.
From Verif Require Import Base Kind Ints Str Literal Arity Term TermProofs Match Eval ListOps Typing Build Scope SpecScope ScopeProofs Lexer Parse Check
  SpecRead SpecCmd SpecRun SpecCheck SpecSym FrontProofs CheckProofs InvProofs InvProofs2 SymProofs PropRead PropCmd PropLocal PropSym
  Encode SpecEnv SpecMade SpecUsed MadeProofs AgreeProofs UsedProofs UsedProofs2.
Import ListNotations.
Open Scope Z_scope.

Lemma log_bound s : log_ok s -> forall j k i ty, In (j, EvSymbol (Sym k i) ty) (s_log s) -> i < s_next s.
Proof. intros H j k i ty I. destruct (H (Sym k i) ty) as (_ & O & _); [|exact O]. unfold events. now apply (in_map snd) in I. Qed.
Lemma start_bound G o incs i v s : Check.run G o incs i = Ok (v, s) -> n_builtins + 6 <= s_next s.
Proof. intros H. pose proof (C79_start G o incs i v s H (Sym K_CONST (n_builtins + 5))) as X. destruct X as (X & _); [cbn [old st_init s_next]; lia|]. cbn [old] in X. lia. Qed.
Definition below (N : Z) (l : list (nat * event)) : Prop := no_reset l /\ forall j k i ty, In (j, EvSymbol (Sym k i) ty) l -> i < N.
Lemma below_tail N a b : below N (a ++ b) -> below N b.
Proof. intros [A B]. split; [exact (no_reset_tail a b A)|]. intros j k i ty I. apply (B j k i ty). apply in_or_app. now right. Qed.
Lemma reached_below G s N : faithful G -> reached G s -> s_next s <= N -> exists d, UsedProofs.Inv G (fun _ i => i < N) d s.
Proof.
  intros HF (o & incs & i & v & R & NR) LE.
  apply (run_made G (fun _ i => i < N) (below N) (below_tail N) (fun l H => proj1 H) HF) with (o := o) (incs := incs) (i := i) (v := v); [ | | exact R | ].
  - intros j k z ty l [_ H]. apply (H j k z ty). now left.
  - intros k z H. pose proof (start_bound _ _ _ _ _ _ R). lia.
  - split; [exact NR|]. intros j k z ty I. pose proof (log_bound s (run_log_ok _ _ _ _ _ _ R) j k z ty I). lia.
Qed.

(** After a run without reset every name that is visible, every type and every attribute (the definition of a program, the nil
    terminator of a constant, the constructors of a datatype), the types of literals and the assumptions are made of symbols
    that exist. *)
Theorem C82_closed : forall G s, faithful G -> reached G s ->
  (forall name v, getVar (s_scope s) name = Some v -> over G s v) /\
  (forall t ty, s_types s t = Some ty -> over G s ty) /\
  (forall t a c, s_marks s t = Some (a, Some c) -> over G s c) /\
  (forall k ty, s_lits s k = Some ty -> over G s ty) /\ Forall (over G s) (s_asm s).
Proof.
  intros G s HF H. destruct (reached_below G s (s_next s) HF H (Z.le_refl _)) as [d I]. split; [|split; [|split; [|split]]].
  - intros name v. exact (UsedProofs.inv_getVar _ _ d s name v I).
  - exact (UsedProofs.iv_types _ _ _ _ I).
  - exact (UsedProofs.iv_marks _ _ _ _ I).
  - exact (UsedProofs.iv_lits _ _ _ _ I).
  - exact (UsedProofs.iv_asm _ _ _ _ I).
Qed.
Print Assumptions C82_closed.
(** So is every term that is read then. *)
Theorem C82_read : forall G sig n s l t l' s', faithful G -> reached G s -> parseExpr G sig n (l, s) = Ok (t, (l', s')) -> over G s' t.
Proof.
  intros G sig n s l t l' s' HF H E. pose proof H as (o & incs & i & v & R & NR).
  pose proof (pres_parseExpr _ log_ok_reading G sig n _ _ _ E (run_log_ok _ _ _ _ _ _ R)) as LO. cbn [snd] in LO.
  pose proof (pres_parseExpr _ kept_reading G sig n _ _ _ E) as K. cbn [snd] in K.
  assert (LE : s_next s <= s_next s').
  { destruct (K (Sym K_CONST (s_next s - 1))) as (X & _); [cbn [old]; lia|]. cbn [old] in X. lia. }
  pose proof (pres_parseExpr _ reads_reading G sig n _ _ _ E) as RD. destruct (r_log _ _ RD) as (w & W1 & W2 & _). cbn [snd] in W1.
  destruct (reached_below G s (s_next s') HF H LE) as [d I].
  refine (proj2 (UsedProofs.parseExpr_T G (fun _ z => z < s_next s') (below (s_next s')) HF (below_tail _) _ _ sig n d (l, s) t (l', s') I _ E)).
  - intros j k z ty r [_ B]. apply (B j k z ty). now left.
  - intros k z B. pose proof (start_bound _ _ _ _ _ _ R). lia.
  - cbn [snd]. split; [|exact (log_bound s' LO)]. unfold no_reset. rewrite W1, map_app. intros I0. apply in_app_or in I0. destruct I0 as [I0 | I0].
    + apply in_map_iff in I0. destruct I0 as ([j e] & E1 & I0). cbn [snd] in E1. subst e. rewrite forallb_forall in W2. specialize (W2 _ I0). discriminate W2.
    + exact (NR I0).
Qed.
Print Assumptions C82_read.

(** Where the same is known about the symbols of a set, terms made of them have the same types, and the same values for values made of them. *)
Theorem C81_local : forall B var E E' n, agree_on B var E E' -> closed_under B var E ->
  (forall t, made_of B var t -> tc_type (tc E' n) t = tc_type (tc E n) t) /\
  (forall t c, made_of B var t -> values_made_of B var c -> tc_eval (tc E' n) t c = tc_eval (tc E n) t c).
Proof. intros B var E E' n A C. destruct (tc_agree B var E E' A C n) as (X & _ & Y). split; [exact X | exact Y]. Qed.
Print Assumptions C81_local.

(** Which attributes the events of a command can change. *)
Definition marked_by (s s' : st) : Prop := s_next s <= s_next s' /\ exists l, s_log s' = l ++ s_log s /\
  (forall j k i ty, In (j, EvSymbol (Sym k i) ty) l -> s_next s <= i) /\
  (forall t, (forall j ty, ~ In (j, EvSymbol t ty) l) -> (forall j a c, ~ In (j, EvMark t a c) l) -> s_marks s' t = s_marks s t).
Lemma marked_quiet s s' l : s_next s' = s_next s -> s_marks s' = s_marks s -> s_log s' = l ++ s_log s ->
  forallb (fun e => negb (symbol_event (snd e))) l = true -> marked_by s s'.
Proof.
  intros A B C D. split; [lia|]. exists l. split; [exact C|]. split; [|intros; now rewrite B].
  intros j k i ty I. rewrite forallb_forall in D. specialize (D _ I). discriminate D.
Qed.
Lemma marked_refl s : marked_by s s.
Proof. apply (marked_quiet s s []); reflexivity. Qed.
Lemma marked_trans a b c : marked_by a b -> marked_by b c -> marked_by a c.
Proof.
  intros (A & l & L & S1 & M1) (B & l' & L' & S2 & M2). split; [lia|]. exists (l' ++ l). split; [now rewrite L', L, app_assoc|]. split.
  - intros j k i ty I. apply in_app_or in I. destruct I as [I|I]; [specialize (S2 _ _ _ _ I); lia | exact (S1 _ _ _ _ I)].
  - intros t X Y. rewrite M2, M1; [reflexivity|..]; intros; intro I; first [apply (X j ty) | apply (Y j a0 c0)]; apply in_or_app; tauto.
Qed.
Lemma marked_reading : reading marked_by.
Proof.
  constructor.
  - constructor; [exact marked_refl | exact marked_trans].
  - intros s c. apply (marked_quiet _ _ []); reflexivity.
  - intros s k name ty. unfold with_symbol. cbn [set_log set_next set_names set_types set_marks set_scope]. split; [cbn; lia|].
    eexists [_]. split; [reflexivity|]. split.
    + intros j k' i ty' [I|[]]. injection I as _ _ <- _. lia.
    + intros t X _. cbn [s_marks set_log set_next set_names set_types set_marks set_scope]. destruct (term_eqb (Sym k (s_next s)) t) eqn:E; [|reflexivity]. apply term_eqb_eq in E. subst t. elim (X (length (s_asmctx s)) ty). now left.
  - intros s m v a ct MK. unfold markConstructorKind in MK. destruct (s_marks s v) eqn:V; [discriminate MK|]. injection MK as <-.
    unfold with_event. cbn [set_log set_marks]. split; [cbn; lia|]. eexists [_]. split; [reflexivity|]. split; [intros ? ? ? ? [I|[]]; discriminate I|].
    intros t _ Y. cbn [s_marks set_log set_marks]. destruct (term_eqb v t) eqn:E; [|reflexivity]. apply term_eqb_eq in E. subst t. eelim Y. now left.
  - intros s e. eapply (marked_quiet _ _ [_]); reflexivity.
  - intros. eapply (marked_quiet _ _ [_]); reflexivity.
Qed.
Lemma marked_same s s' : symbols_same s s' -> marked_by s s'.
Proof. intros (A & _ & _ & B & l & C & D). exact (marked_quiet s s' l A B C D). Qed.
Lemma untouched_marks G s s' : marked_by s s' -> leaves G s s' -> forall t, over G s t -> s_marks s' t = s_marks s t.
Proof.
  intros (_ & l & L & SY & M) (_ & l' & L' & X) t Q. rewrite L in L'. apply app_inv_tail in L'. subst l'. apply M.
  - intros j ty I. pose proof (X _ _ I) as Y. cbn in Y. destruct t as [k i| |]; [|exact Y|exact Y].
    inversion Q as [? ? _ O | | |]; subst; [specialize (SY _ _ _ _ I); unfold exists_in in O; lia | now apply Y].
  - intros j a c I. exact (X _ _ I Q).
Qed.
Lemma kept_agree G s s' : faithful G -> reached G s -> symbols_kept s s' -> marked_by s s' -> leaves G s s' ->
  agree_on (exists_in s) (g_varinfo G) (env_of G s) (env_of G s') /\ closed_under (exists_in s) (g_varinfo G) (env_of G s).
Proof.
  intros HF H K MB LV. pose proof (untouched_marks G s s' MB LV) as M. destruct LV as [L _]. destruct (reached_below G s (s_next s) HF H (Z.le_refl _)) as [d I]. pose proof H as (o & incs & i & v & R & _).
  split; [|refine (closed_of G _ HF _ d s I); intros k z B; unfold exists_in; pose proof (start_bound _ _ _ _ _ _ R); lia].
  constructor; cbn [env_of e_symtype e_name e_littype e_hash e_bvar e_self e_listType e_listCons e_listNil e_proofType]; auto.
  - intros k z Q. assert (X : k <> K_VARIABLE -> s_types s' (Sym k z) = s_types s (Sym k z)).
    { intros N. inversion Q as [? ? _ O | | |]; subst; [|contradiction]. exact (proj1 (proj2 (proj2 (K (Sym k z) O)))). }
    destruct k; try reflexivity; apply X; discriminate.
  - intros t Q. unfold attribute. cbn [env_of e_info]. rewrite (M t Q).
    destruct (builtin_kind t), (s_marks s t) as [[a c]|], (overloads_of (s_scope s) t), (overloads_of (s_scope s') t); reflexivity.
  - intros t Q. assert (X : (forall z, t <> Sym K_VARIABLE z) -> s_names s' t = s_names s t).
    { intros N. apply K. inversion Q as [? ? _ O | ? ? ? _ _ | |]; subst; cbn [old]; auto. now elim (N i0). }
    destruct t as [k z | | ]; [destruct k; try reflexivity|..]; apply X; discriminate.
Qed.
Lemma command_marked G sig reference n f l s r p : parseNextCommand G sig reference (including G n) f (l, s) = Ok (r, p) -> marked_by s (snd p).
Proof. intros E. exact (all_next G marked_by marked_reading marked_same _ (all_including G marked_by marked_reading marked_same n) sig reference f _ _ _ E). Qed.
Lemma file_marked G n f sig reference nf s b s' : includeFile G n f sig reference nf s = Ok (b, s') -> marked_by s s'.
Proof. exact (all_include G marked_by marked_reading marked_same n f sig reference nf s b s'). Qed.
(** A command does not change types and values of terms made of symbols that exist before it: unless it gives one of them its
    attribute (a program that was declared and is defined now) or gives a type to a class of literals. *)
Theorem C81_command : forall G sig reference n f l s r p, faithful G -> reached G s ->
  parseNextCommand G sig reference (including G n) f (l, s) = Ok (r, p) ->
  leaves G s (snd p) ->
  forall m, (forall t, over G s t -> tc_type (tc (env_of G (snd p)) m) t = tc_type (tc (env_of G s) m) t) /\
            (forall t c, over G s t -> values_made_of (exists_in s) (g_varinfo G) c ->
               tc_eval (tc (env_of G (snd p)) m) t c = tc_eval (tc (env_of G s) m) t c).
Proof.
  intros G sig reference n f l s r p HF H E L m.
  pose proof (command_marked _ _ _ _ _ _ _ _ _ E) as M.
  destruct (kept_agree G s (snd p) HF H (C79_command _ _ _ _ _ _ _ _ _ E) M L) as [A C].
  exact (C81_local _ _ _ _ m A C).
Qed.
Print Assumptions C81_command.
(** The same for a whole file, with what it includes. *)
Theorem C81_file : forall G n f sig reference nf s b s', faithful G -> reached G s ->
  includeFile G n f sig reference nf s = Ok (b, s') ->
  leaves G s s' ->
  forall m, (forall t, over G s t -> tc_type (tc (env_of G s') m) t = tc_type (tc (env_of G s) m) t) /\
            (forall t c, over G s t -> values_made_of (exists_in s) (g_varinfo G) c ->
               tc_eval (tc (env_of G s') m) t c = tc_eval (tc (env_of G s) m) t c).
Proof.
  intros G n f sig reference nf s b s' HF H E L m.
  pose proof (file_marked _ _ _ _ _ _ _ _ _ E) as M.
  destruct (kept_agree G s s' HF H (C79_file _ _ _ _ _ _ _ _ _ E) M L) as [A C].
  exact (C81_local _ _ _ _ m A C).
Qed.
Print Assumptions C81_file.

(** ** Examples *)
Definition leaves_b (s s' : st) : bool :=
  forallb (fun e => match snd e with
                    | EvMark (Sym k i) _ _ => negb (kind_eqb k K_VARIABLE) && (s_next s <=? i)
                    | EvSymbol (Sym k _) _ => negb (kind_eqb k K_VARIABLE)
                    | EvMark _ _ _ | EvSymbol _ _ => false
                    | _ => true
                    end) (firstn (length (s_log s') - length (s_log s)) (s_log s')).
Lemma leaves_ok G s s' : marked_by s s' -> (forall k, s_lits s' k = s_lits s k) -> leaves_b s s' = true -> leaves G s s'.
Proof.
  intros (_ & l & L & _) LI H. split; [exact LI|]. exists l. split; [exact L|]. intros j e I. unfold leaves_b in H.
  rewrite L, app_length, Nat.add_sub, firstn_app, Nat.sub_diag, firstn_all, firstn_O, app_nil_r, forallb_forall in H. specialize (H _ I). cbn [snd] in H.
  destruct e as [t ty|t a c| | | | | | | | | | |]; try exact Logic.I.
  - destruct t as [k i| |]; try discriminate H. intros ->. discriminate H.
  - destruct t as [k i| |]; try discriminate H. apply andb_prop in H. destruct H as [H1 H2]. apply Z.leb_le in H2. intros Q.
    inversion Q as [? ? _ O | | |]; subst; [unfold exists_in in O; lia | discriminate H1].
Qed.
Definition sig81 : string :=
"(declare-const Int Type) (declare-const a Int) (declare-const f (-> Int Int))
(declare-const and (-> Bool Bool Bool) :right-assoc-nil true) (define Q ((x Bool)) (and x x x))".
Notation cfg81 := (cfg67 sig81) (only parsing).
Notation s81 := (s67 sig81) (only parsing).
Lemma cfg81_faithful : faithful cfg81. Proof. exact var_num_ok. Qed.
Lemma reached81 : reached cfg81 s81. Proof. apply reached67. comp. Qed.
(** The abbreviation Q, the type and the nil terminator of and; a term that is read. *)
Notation b81 x y := (Node K_APPLY [Node K_APPLY [Sym K_CONST 66; x]; y]) (only parsing).
Example C82_example : faithful cfg81 /\ reached cfg81 s81 /\ s_next s81 = 68 /\
  getVar (s_scope s81) (txt "Q") = Some (Node K_LAMBDA [Node K_TUPLE [Sym K_PARAM 67];
    b81 (Sym K_PARAM 67) (b81 (Sym K_PARAM 67) (b81 (Sym K_PARAM 67) (Lit (LBool true))))]) /\
  s_types s81 (Sym K_CONST 66) = Some (arrow t_Bool (arrow t_Bool t_Bool)) /\
  s_marks s81 (Sym K_CONST 66) = Some (A_RIGHT_ASSOC_NIL, Some (Lit (LBool true))).
Proof. split; [exact cfg81_faithful|]. split; [exact reached81|]. repeat (split; [comp|]). comp. Qed.
Definition r81 : lexer := lexer_init true true (chars_of false (txt "(eo::define ((y (f a))) (f y)) ")).
Example C82_read_example : exists l' s', faithful cfg81 /\ reached cfg81 s81 /\
  parseExpr cfg81 false 60 (r81, s81) = Ok (Node K_APPLY [Sym K_CONST 65; Node K_APPLY [Sym K_CONST 65; Sym K_CONST 64]], (l', s')).
Proof.
  assert (E : match parseExpr cfg81 false 60 (r81, s81) with
              | Ok (t, _) => term_eqb t (Node K_APPLY [Sym K_CONST 65; Node K_APPLY [Sym K_CONST 65; Sym K_CONST 64]]) | _ => false end = true) by (vm_compute; reflexivity).
  destruct (parseExpr cfg81 false 60 (r81, s81)) as [[t [l' s']]| | |]; try discriminate E. apply term_eqb_eq in E. subst t. exists l', s'.
  split; [exact cfg81_faithful|]. split; [exact reached81 | reflexivity].
Qed.
(** Another connective is declared. *)
Definition l81 : lexer := lexer_init true false (chars_of false (txt "(declare-const or (-> Bool Bool Bool) :right-assoc-nil false) ")).
Definition lits_b (s s' : st) : bool :=
  forallb (fun k => match s_lits s' k, s_lits s k with Some a, Some b => term_eqb a b | None, None => true | _, _ => false end) all_kinds.
Lemma all_kinds_all k : In k all_kinds.
Proof. destruct k; vm_compute; tauto. Qed.
Lemma lits_ok s s' : lits_b s s' = true -> forall k, s_lits s' k = s_lits s k.
Proof.
  unfold lits_b. rewrite forallb_forall. intros H k. specialize (H k (all_kinds_all k)).
  destruct (s_lits s' k), (s_lits s k); try discriminate H; [apply term_eqb_eq in H; now subst | reflexivity].
Qed.
Lemma over_pair G s k i k' j : i < s_next s -> k <> K_VARIABLE -> j < s_next s -> k' <> K_VARIABLE -> over G s (Node K_APPLY [Sym k i; Sym k' j]).
Proof. intros A B C D. apply mo_node. apply Forall_cons; [|apply Forall_cons; [|apply Forall_nil]]; apply mo_symbol; assumption. Qed.
Lemma over81 : over cfg81 s81 (Node K_APPLY [Sym K_CONST 65; Sym K_CONST 64]).
Proof. assert (N : s_next s81 = 68) by comp. apply over_pair; [rewrite N; reflexivity | discriminate | rewrite N; reflexivity | discriminate]. Qed.
Example C81_example : exists p, faithful cfg81 /\ reached cfg81 s81 /\
  parseNextCommand cfg81 true false (including cfg81 60) false (l81, s81) = Ok (Some false, p) /\ leaves cfg81 s81 (snd p) /\
  over cfg81 s81 (Node K_APPLY [Sym K_CONST 65; Sym K_CONST 64]) /\ s_next (snd p) = 69 /\
  tc_type (tc (env_of cfg81 (snd p)) 60) (Node K_APPLY [Sym K_CONST 65; Sym K_CONST 64]) = Ok (Some (Sym K_CONST 63)).
Proof.
  assert (E : match parseNextCommand cfg81 true false (including cfg81 60) false (l81, s81) with
              | Ok (Some false, p) => lits_b s81 (snd p) && leaves_b s81 (snd p) && (s_next (snd p) =? 69) &&
                  match tc_type (tc (env_of cfg81 (snd p)) 60) (Node K_APPLY [Sym K_CONST 65; Sym K_CONST 64]) with Ok (Some t) => term_eqb t (Sym K_CONST 63) | _ => false end
              | _ => false end = true) by (vm_compute; reflexivity).
  destruct (parseNextCommand cfg81 true false (including cfg81 60) false (l81, s81)) as [[[[]|] p]| | |] eqn:X; try discriminate E.
  apply andb_prop in E. destruct E as [E E4]. apply andb_prop in E. destruct E as [E E3]. apply andb_prop in E. destruct E as [E1 E2].
  exists p. split; [exact cfg81_faithful|]. split; [exact reached81|]. split; [reflexivity|]. split; [|split; [|split; [now apply Z.eqb_eq|]]].
  - apply leaves_ok; [|exact (lits_ok _ _ E1) | exact E2].
    exact (command_marked _ _ _ _ _ _ _ _ _ X).
  - exact over81.
  - destruct (tc_type (tc (env_of cfg81 (snd p)) 60) (Node K_APPLY [Sym K_CONST 65; Sym K_CONST 64])) as [[t|]| | |]; try discriminate E4. apply term_eqb_eq in E4. now subst t.
Qed.
(** A file is included. *)
Example C81_file_example : exists s', faithful cfg81 /\ reached cfg81 s81 /\ includeFile cfg81 60 (txt "b.eo") true false null_term s81 = Ok (true, s') /\
  leaves cfg81 s81 s' /\ s_next s' = 73.
Proof.
  assert (E : match includeFile cfg81 60 (txt "b.eo") true false null_term s81 with
              | Ok (true, s') => lits_b s81 s' && leaves_b s81 s' && (s_next s' =? 73) | _ => false end = true) by (vm_compute; reflexivity).
  destruct (includeFile cfg81 60 (txt "b.eo") true false null_term s81) as [[[] s']| | |] eqn:X; try discriminate E.
  apply andb_prop in E. destruct E as [E E3]. apply andb_prop in E. destruct E as [E1 E2].
  exists s'. split; [exact cfg81_faithful|]. split; [exact reached81|]. split; [reflexivity|]. split; [|now apply Z.eqb_eq].
  apply leaves_ok; [|exact (lits_ok _ _ E1) | exact E2]. exact (file_marked _ _ _ _ _ _ _ _ _ X).
Qed.
(** The conditions are needed: a program that is declared and defined later has another value afterwards, although all commands
    of the file are accepted. *)
Theorem C81_conditions_needed : exists x y t, reached (cfg67 x) (s67 x) /\ reached (cfg67 (x ++ y)) (s67 (x ++ y)) /\
  over (cfg67 x) (s67 x) t /\
  tc_eval (tc (env_of (cfg67 x) (s67 x)) 60) t [] = Ok (Some t) /\
  tc_eval (tc (env_of (cfg67 (x ++ y)) (s67 (x ++ y))) 60) t [] = Ok (Some (Sym K_CONST 64)).
Proof.
  exists "(declare-const Int Type) (declare-const a Int) (program $p () :signature (Int) Int)"%string,
    " (program $p ((x Int)) :signature (Int) Int ((($p x) x)))"%string, (Node K_APPLY [Sym K_PROGRAM_CONST 65; Sym K_CONST 64]).
  split; [apply reached67; comp|]. split; [apply reached67; comp|]. split; [|split; comp].
  apply over_pair; [| discriminate | | discriminate]; (match goal with |- _ < ?n => let H := fresh in assert (H : n = 66) by comp; rewrite H; reflexivity end).
Qed.
Print Assumptions C81_conditions_needed.
