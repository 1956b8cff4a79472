(** Properties C36, C38 to C43, C49: runs of the checker. *)
From Coq Require Import String ZArith List Bool Lia.
From Verif Require Import Base Kind Ints Str Literal Arity Term TermProofs Match Eval ListOps Typing Build Scope Lexer Parse Check
  SpecTerm SpecEval SpecCheck ScopeProofs FrontProofs CheckProofs CheckProofs2.
From Verif Require SoundProofs.
Import ListNotations.
Open Scope Z_scope.

(** The files of the examples and the bounds. *)
Definition cfg (files : list (text * text)) : config :=
  mkConfig (fun _ => 0) (fun _ _ => -1) (fun _ => None) (fun _ p => p) (table_find files) 60 60 400.
Definition rules : string :=
"(declare-const => (-> Bool Bool Bool))
(declare-rule scope ((F Bool) (H Bool)) :assumption F :premises (H) :conclusion (=> F H))
(declare-rule same ((F Bool)) :premises (F) :conclusion F)
".
Notation check t := (run (cfg [(txt "a.eo", txt t)]) options_init [] (InFile (txt "a.eo"))).
Definition ref_file : text := txt "(declare-const p Bool) (assert p)".
Notation check_ref t incs := (run (cfg [(txt "a.eo", txt t); (txt "r.smt2", ref_file); (txt "b.eo", txt "(echo)")])
  options_init incs (InFile (txt "a.eo"))).
Definition t_false : term := Lit (LBool false).
Definition f_imp : term := Sym K_CONST 63.
Definition r_scope : term := Sym K_PROOF_RULE 66.
Definition r_same : term := Sym K_PROOF_RULE 70.
(** The usual meaning of [false] and of the connective [=>] declared above; one interpretation. *)
Fixpoint means (t : term) : Prop :=
  match t with
  | Node K_APPLY [Node K_APPLY [c; a]; b] => if term_eqb c f_imp then means a -> means b else True
  | Lit (LBool false) => False
  | _ => True
  end.
Definition meaning (_ : unit) : term -> Prop := means.

(** The log of a run that was checked. *)
Definition log_of (r : res (verdict * st)) : list (nat * event) := match r with Ok (_, s) => s_log s | _ => [] end.
Definition verdict_in (r : res (verdict * st)) : option verdict := match r with Ok (v, _) => Some v | _ => None end.
Lemma run_log : forall r v, verdict_in r = Some v -> exists s, r = Ok (v, s) /\ s_log s = log_of r.
Proof. intros [[w s] | | |] v H; try discriminate H. injection H as ->. exists s. auto. Qed.

Ltac in_log := repeat (first [left; reflexivity | right]).
Ltac each_event := repeat (apply Forall_cons; [|]); try apply Forall_nil.

(** * C38: soundness *)
(** Full statement: if the verdict is correct and every logged step is a valid inference, then
    every formula concluded outside of assume-push follows from the assume commands (no push,
    pop or reset).  It is false: a program declared outside of an assume-push may be defined
    inside of it, with a right hand side that is the local assumption; its applications keep it. *)
Definition w38 : string := (rules ++ "(program $p ((x Bool)) :signature (Bool) Bool)
(assume-push @h false)
(program $p ((x Bool)) :signature (Bool) Bool ((($p x) @h)))
(step-pop @s :rule scope :premises (@h))
(step @bad false :rule same :premises (($p true)))")%string.
Definition sound_run (W : Type) (holds : W -> term -> Prop) (s : st) : Prop :=
  forall F, concluded (s_log s) F -> entails W holds (assumed (events s)) F.

(** What a step of the two rules needs. *)
Lemma valid_scope : forall n r p a F H, flat_map proofs_in a = [] ->
  valid_step unit meaning (EvStep n r p [Node K_PROOF [H]] a (Some F) (Node K_APPLY [Node K_APPLY [f_imp; F]; H])).
Proof.
  intros n r p a F H N A Q w HA. unfold meaning. cbn [means]. rewrite term_eqb_refl. intros HF.
  apply (Q H) with (w := w).
  - rewrite flat_map_app. now left.
  - intros x [<- | I]; [exact HF | now apply HA].
Qed.
Lemma valid_same : forall n r p a F, flat_map proofs_in a = [] ->
  valid_step unit meaning (EvStep n r p [Node K_PROOF [F]] a None F).
Proof. intros n r p a F N A Q. apply Q. rewrite flat_map_app. now left. Qed.
Ltac valid_all :=
  repeat match goal with
  | |- Forall _ (_ :: _) => apply Forall_cons
  | |- Forall _ [] => apply Forall_nil
  | |- valid_step _ _ (EvStep _ _ _ [Node K_PROOF [_]] _ (Some _) _) => apply valid_scope; reflexivity
  | |- valid_step _ _ (EvStep _ _ _ [Node K_PROOF [_]] _ None _) => apply valid_same; reflexivity
  | |- valid_step _ _ _ => exact Coq.Init.Logic.I
  end.
Ltac not_plain := let I := fresh in intros I; cbn [In] in I; repeat (destruct I as [I | I]; [discriminate I|]); exact I.

Theorem C38_refuted : exists G o s (W : Type) (holds : W -> term -> Prop),
  run G o [] (InFile (txt "a.eo")) = Ok (Correct, s) /\ plain (events s) /\
  Forall (valid_step W holds) (events s) /\ assumed (events s) = [] /\
  concluded (s_log s) t_false /\ ~ entails W holds [] t_false.
Proof.
  destruct (run_log (check w38) Correct) as (s & E & L); [vm_compute; reflexivity|].
  exists (cfg [(txt "a.eo", txt w38)]), options_init, s, unit, meaning. split; [exact E|].
  unfold events. rewrite L. clear L E. match goal with |- context [log_of ?r] => let v := eval vm_compute in (log_of r) in replace (log_of r) with v by (vm_compute; reflexivity) end. unfold plain. cbn [map snd].
  split; [repeat split; not_plain|]. split; [valid_all|]. split; [reflexivity|].
  split; [do 6 eexists; in_log|]. intros Q. exact (Q tt (fun _ F => match F with end)).
Qed.
Print Assumptions C38_refuted.

(** What holds: without push, pop and reset, if all formulas assumed or concluded are settled, no
    conclusion mentions a proof, and what is declared within an assume-push has no proof in it,
    then every formula concluded outside of every assume-push follows from those of the assume
    commands, whatever the notion of truth for which the steps are valid.  Missing for the full
    statement: these three restrictions. *)
Theorem C38_sound_partial : forall (W : Type) (holds : W -> term -> Prop) G o incs i v s,
  run G o incs i = Ok (v, s) -> coherent G -> plain (events s) ->
  (forall e, In e (events s) -> valid_step W holds e) ->
  (forall e, In e (events s) -> settled (g_varinfo G) e) ->
  (forall j e, In (S j, e) (s_log s) -> proof_free (g_varinfo G) e) ->
  forall F, concluded (s_log s) F -> entails W holds (assumed (events s)) F.
Proof. exact SoundProofs.run_sound_plain. Qed.
Print Assumptions C38_sound_partial.
Lemma cfg_coherent : forall files, coherent (cfg files).
Proof. intros files name t p H. discriminate H. Qed.
Definition w38ok : string := (rules ++ "(declare-const p Bool) (assume @a p) (assume-push @h false)
(declare-const q Bool)
(step @g :rule same :premises (@h)) (assume-push @k p) (step-pop @t :rule scope :premises (@g))
(step-pop @s :rule scope :premises (@t)) (step @b p :rule same :premises (@a))")%string.
(** Deciding the hypotheses, for the examples. *)
Fixpoint hpb (t : term) : bool :=
  match t with
  | Node k cs => kind_eqb k K_PROOF || existsb hpb cs
  | _ => false
  end.
Lemma hpb_ok : forall t, hpb t = false -> ~ has_proof (fun _ => None) t.
Proof.
  intros t H P. induction P as [cs | k cs c I P IH | i n t E P IH].
  - discriminate H.
  - cbn [hpb] in H. apply orb_false_iff in H. destruct H as [_ H]. apply IH.
    destruct (hpb c) eqn:E; [|reflexivity]. exfalso. enough (X : existsb hpb cs = true) by congruence.
    apply existsb_exists. exists c. split; assumption.
  - discriminate E.
Qed.
Definition freeb (e : event) : bool :=
  match e with
  | EvSymbol _ (Some ty) => negb (hpb ty)
  | EvMark _ A_PROGRAM (Some p) =>
      forallb (fun c => match tchildren c with _ :: rhs :: _ => negb (hpb rhs) | _ => true end) (tchildren p)
  | EvMark _ _ (Some t) => negb (hpb t)
  | EvLiteral _ t => negb (hpb t)
  | _ => true
  end.
Lemma freeb_ok : forall e, freeb e = true -> proof_free (fun _ => None) e.
Proof.
  intros e H. destruct e; cbn [freeb proof_free] in *; try exact I;
    repeat match goal with
    | |- match ?x with _ => _ end => destruct x
    | |- True => exact I
    | H : negb _ = true |- ~ has_proof _ _ => apply hpb_ok; apply negb_true_iff; exact H
    end.
  intros c lhs rhs rest Hin Hc. pose proof (proj1 (forallb_forall _ _) H c Hin) as X. cbv beta in X. rewrite Hc in X.
  apply hpb_ok. apply negb_true_iff. exact X.
Qed.
Definition settledb (e : event) : bool :=
  match e with
  | EvAssume _ F _ => isGround F && negb (isEvaluatable F)
  | EvStep _ _ _ _ _ _ F => isGround F && negb (isEvaluatable F) && negb (hpb F)
  | _ => true
  end.
Lemma settledb_ok : forall e, settledb e = true -> settled (fun _ => None) e.
Proof.
  intros e H. destruct e; cbn [settledb settled] in *; try exact I;
    repeat match goal with H : _ && _ = true |- _ => apply andb_prop in H; destruct H end;
    repeat match goal with H : negb _ = true |- _ => apply negb_true_iff in H end;
    repeat (split; try assumption). apply hpb_ok. assumption.
Qed.
Definition innerb (x : nat * event) : bool := match fst x with O => true | S _ => freeb (snd x) end.
Lemma all_settled : forall l, forallb settledb l = true -> forall e, In e l -> settled (fun _ => None) e.
Proof. intros l H e I. apply settledb_ok. exact (proj1 (forallb_forall _ _) H e I). Qed.
Lemma all_free : forall l, forallb innerb l = true -> forall j e, In (S j, e) l -> proof_free (fun _ => None) e.
Proof. intros l H j e I. apply freeb_ok. exact (proj1 (forallb_forall _ _) H (S j, e) I). Qed.
Example C38_example : exists s p F, check w38ok = Ok (Correct, s) /\ coherent (cfg [(txt "a.eo", txt w38ok)]) /\ plain (events s) /\
  (forall e, In e (events s) -> valid_step unit meaning e) /\
  (forall e, In e (events s) -> settled (fun _ => None) e) /\
  (forall j e, In (S j, e) (s_log s) -> proof_free (fun _ => None) e) /\
  F = Node K_APPLY [Node K_APPLY [f_imp; t_false]; Node K_APPLY [Node K_APPLY [f_imp; p]; t_false]] /\
  concluded (s_log s) F /\ concluded (s_log s) p /\ assumed (events s) = [p] /\ opened (events s) = [].
Proof.
  destruct (run_log (check w38ok) Correct) as (s & E & L); [vm_compute; reflexivity|].
  exists s, (Sym K_CONST 72). eexists. split; [exact E|]. split; [apply cfg_coherent|].
  unfold events. rewrite L. clear L E. match goal with |- context [log_of ?r] => let v := eval vm_compute in (log_of r) in replace (log_of r) with v by (vm_compute; reflexivity) end. unfold plain. cbn [map snd].
  split; [repeat split; not_plain|]. split; [refine (proj1 (Forall_forall _ _) _); valid_all|].
  split; [apply all_settled; vm_compute; reflexivity|]. split; [apply all_free; vm_compute; reflexivity|].
  split; [reflexivity|]. split; [do 6 eexists; in_log|]. split; [do 6 eexists; in_log|]. split; reflexivity.
Qed.
(** The refutation above is not covered: it declares a program with a proof on its right hand
    side within an assume-push. *)
Example C38_excluded : exists s j v p, check w38 = Ok (Correct, s) /\ In (S j, EvMark v A_PROGRAM (Some p)) (s_log s) /\
  ~ proof_free (fun _ => None) (EvMark v A_PROGRAM (Some p)).
Proof.
  destruct (run_log (check w38) Correct) as (s & E & L); [vm_compute; reflexivity|].
  exists s. do 3 eexists. split; [exact E|]. rewrite L. clear L E. match goal with |- context [log_of ?r] => let v := eval vm_compute in (log_of r) in replace (log_of r) with v by (vm_compute; reflexivity) end.
  split.
  - match goal with |- context [(S ?j', EvMark ?v' A_PROGRAM (Some ?p'))] =>
      match goal with |- In (S ?j, EvMark ?v A_PROGRAM (Some ?p)) _ => unify j j'; unify v v'; unify p p' end end.
    cbn [In]. in_log.
  - cbn [proof_free tchildren]. intros H. eapply H; [left; reflexivity | reflexivity | constructor].
Qed.

(** * C39: soundness with push and pop *)
(** It is false: step-pop removes the last open scope, which may be one of the command push, and
    the scope of the assume-push remains. *)
Definition w39 : string := (rules ++ "(assume-push @h false) (push)
(step-pop @s :rule scope :premises (@h))
(step @bad false :rule same :premises (@h))")%string.
Theorem C39_refuted : exists G o s (W : Type) (holds : W -> term -> Prop),
  run G o [] (InFile (txt "a.eo")) = Ok (Correct, s) /\ ~ In EvReset (events s) /\
  Forall (valid_step W holds) (events s) /\ assumed (events s) = [] /\
  concluded (s_log s) t_false /\ ~ entails W holds [] t_false.
Proof.
  destruct (run_log (check w39) Correct) as (s & E & L); [vm_compute; reflexivity|].
  exists (cfg [(txt "a.eo", txt w39)]), options_init, s, unit, meaning. split; [exact E|].
  unfold events. rewrite L. clear L E. match goal with |- context [log_of ?r] => let v := eval vm_compute in (log_of r) in replace (log_of r) with v by (vm_compute; reflexivity) end. cbn [map snd].
  split; [not_plain|]. split; [valid_all|]. split; [reflexivity|].
  split; [do 6 eexists; in_log|]. intros Q. exact (Q tt (fun _ F => match F with end)).
Qed.
Print Assumptions C39_refuted.
(** What holds: the statement of C38_sound_partial for runs with push and pop, if every pop ends a
    scope of push and every step-pop one of assume-push.  Missing for the full statement: this
    restriction, reset, and the restrictions of C38_sound_partial. *)
Theorem C39_nested_partial : forall (W : Type) (holds : W -> term -> Prop) G o incs i v s,
  run G o incs i = Ok (v, s) -> coherent G -> well_nested (events s) ->
  (forall e, In e (events s) -> valid_step W holds e) ->
  (forall e, In e (events s) -> settled (g_varinfo G) e) ->
  (forall j e, In (S j, e) (s_log s) -> proof_free (g_varinfo G) e) ->
  forall F, concluded (s_log s) F -> entails W holds (assumed (events s)) F.
Proof. exact SoundProofs.run_sound. Qed.
Print Assumptions C39_nested_partial.
Definition w39ok : string := (rules ++ "(declare-const p Bool) (assume @a p) (push) (assume-push @h false) (push)
(declare-const q Bool) (step @g :rule same :premises (@h)) (pop) (step @k :rule same :premises (@h))
(step-pop @s :rule scope :premises (@k)) (pop) (step @b p :rule same :premises (@a))")%string.
Ltac nest := cbn [well_nested open_scopes hd_error tl];
  repeat match goal with
  | |- True => exact I
  | |- _ /\ _ => split
  | |- Some _ = Some _ => reflexivity
  | |- exists F, Some (Some ?G) = Some (Some F) => exists G; reflexivity
  end.
Example C39_example : exists s p F, check w39ok = Ok (Correct, s) /\ coherent (cfg [(txt "a.eo", txt w39ok)]) /\ well_nested (events s) /\
  In EvPush (events s) /\ In EvPop (events s) /\
  (forall e, In e (events s) -> valid_step unit meaning e) /\
  (forall e, In e (events s) -> settled (fun _ => None) e) /\
  (forall j e, In (S j, e) (s_log s) -> proof_free (fun _ => None) e) /\
  F = Node K_APPLY [Node K_APPLY [f_imp; t_false]; t_false] /\
  concluded (s_log s) F /\ concluded (s_log s) p /\ assumed (events s) = [p] /\ opened (events s) = [].
Proof.
  destruct (run_log (check w39ok) Correct) as (s & E & L); [vm_compute; reflexivity|].
  exists s, (Sym K_CONST 72). eexists. split; [exact E|]. split; [apply cfg_coherent|].
  unfold events. rewrite L. clear L E. match goal with |- context [log_of ?r] => let v := eval vm_compute in (log_of r) in replace (log_of r) with v by (vm_compute; reflexivity) end. cbn [map snd].
  split; [nest|]. split; [in_log|]. split; [in_log|]. split; [refine (proj1 (Forall_forall _ _) _); valid_all|].
  split; [apply all_settled; vm_compute; reflexivity|]. split; [apply all_free; vm_compute; reflexivity|].
  split; [reflexivity|]. split; [do 6 eexists; in_log|]. split; [do 6 eexists; in_log|]. split; reflexivity.
Qed.
(** The refutation above is not covered: its step-pop ends the scope of push. *)
Example C39_excluded : exists s, check w39 = Ok (Correct, s) /\ ~ well_nested (events s).
Proof.
  destruct (run_log (check w39) Correct) as (s & E & L); [vm_compute; reflexivity|].
  exists s. split; [exact E|]. unfold events. rewrite L. clear L E. match goal with |- context [log_of ?r] => let v := eval vm_compute in (log_of r) in replace (log_of r) with v by (vm_compute; reflexivity) end. cbn [map snd].
  cbn [well_nested open_scopes hd_error tl]. intros [(F & X) _]. discriminate X.
Qed.

(** * C36: reset *)
(** The alternatives of names survive a reset; with them a formula that was only assumed
    locally before the reset is proved after it. *)
Definition w36 : string := (rules ++ "(assume-push @h false)
(program f ((x Bool)) :signature (Bool) Bool (((f x) @h)))
(define f ((x Type)) x)
(reset)
(declare-const a Bool)
(declare-parameterized-const f ((x Type)) Type)
(declare-parameterized-const f ((x Type)) Type)
(program $q ((x Bool)) :signature (Bool) Bool ((($q x) (f x))))
(step @bad :rule same :premises (($q a)))")%string.
Theorem C36_run_refuted : exists G o s (W : Type) (holds : W -> term -> Prop),
  run G o [] (InFile (txt "a.eo")) = Ok (Correct, s) /\ ~ In EvPush (events s) /\ ~ In EvPop (events s) /\
  Forall (valid_step W holds) (events s) /\ assumed (events s) = [] /\
  concluded (s_log s) t_false /\ ~ entails W holds [] t_false.
Proof.
  destruct (run_log (check w36) Correct) as (s & E & L); [vm_compute; reflexivity|].
  exists (cfg [(txt "a.eo", txt w36)]), options_init, s, unit, meaning. split; [exact E|].
  unfold events. rewrite L. clear L E. match goal with |- context [log_of ?r] => let v := eval vm_compute in (log_of r) in replace (log_of r) with v by (vm_compute; reflexivity) end. cbn [map snd].
  split; [not_plain|]. split; [not_plain|]. split; [valid_all|]. split; [reflexivity|].
  split; [do 6 eexists; in_log|]. intros Q. exact (Q tt (fun _ F => match F with end)).
Qed.
Print Assumptions C36_run_refuted.

(** * C40: references *)
(** Outside of every assume-push, while the file begun last is a reference, and without normal
    forms.  Missing for the full statement: the assume commands in an assume-push, those after a
    later include, and normal forms. *)
Theorem C40_reference_partial : forall G o incs i v s l1 name F l2, run G o incs i = Ok (v, s) ->
  s_log s = l1 ++ (O, EvAssume name F false) :: l2 ->
  in_reference (map snd l2) -> (forall x, In x (processed (map snd l2)) -> is_null (snd x) = true) ->
  In F (asserted (map snd l2)).
Proof.
  intros G o incs i v s l1 name F l2 H. destruct (run_inv _ _ _ _ _ _ H) as (I & _ & _).
  exact (i_assume _ _ I l1 name F l2).
Qed.
Print Assumptions C40_reference_partial.
Definition w40ok : string := "(reference ""r.smt2"") (assume @a p)".
Example C40_example : exists s l1 F l2, check_ref w40ok [] = Ok (Correct, s) /\
  s_log s = l1 ++ (O, EvAssume (txt "@a") F false) :: l2 /\ in_reference (map snd l2) /\
  (forall x, In x (processed (map snd l2)) -> is_null (snd x) = true) /\
  check_ref "(reference ""r.smt2"") (assume @a false)" [] = Err.
Proof.
  destruct (run_log (check_ref w40ok []) Correct) as (s & E & L); [vm_compute; reflexivity|].
  exists s, []. do 2 eexists. split; [exact E|]. rewrite L. split; [vm_compute; reflexivity|].
  split; [do 3 eexists; vm_compute; reflexivity|]. split; [|vm_compute; reflexivity].
  intros x [<- | [<- | []]]; reflexivity.
Qed.
(** Within an assume-push nothing is compared with the reference. *)
Definition w40 : string := (rules ++ "(reference ""r.smt2"") (assume-push @b p) (assume @a false) (step-pop @c :rule scope :premises (@a))")%string.
Theorem C40_refuted : exists G o s l1 lv name F l2, run G o [] (InFile (txt "a.eo")) = Ok (Correct, s) /\
  s_log s = l1 ++ (lv, EvAssume name F false) :: l2 /\ in_reference (map snd l2) /\
  (forall x, In x (processed (map snd l2)) -> is_null (snd x) = true) /\ ~ In F (asserted (events s)).
Proof.
  destruct (run_log (check_ref w40 []) Correct) as (s & E & L); [vm_compute; reflexivity|].
  do 2 eexists. exists s. do 2 eexists. exists (txt "@a"), t_false. eexists. split; [exact E|]. unfold events. rewrite L.
  split; [match goal with |- context [log_of ?r] => let v := eval vm_compute in (log_of r) in replace (log_of r) with v by (vm_compute; reflexivity) end; cbn [txt]; match goal with |- ?e :: ?e' :: _ = _ => exact (eq_refl ([e] ++ e' :: _)) end|].
  split; [do 3 eexists; vm_compute; reflexivity|].
  split. { vm_compute. intros x [<- | [<- | []]]; reflexivity. }
  vm_compute. intros [I | []]; discriminate I.
Qed.
Print Assumptions C40_refuted.

(** * C41: one reference *)
(** Without command line inclusions: no reference is begun while the file begun last is a
    reference.  Missing for the full statement: a reference after a later include, and those of
    the command line. *)
Theorem C41_one_reference_partial : forall G o i v s l1 lv f nf l2, run G o [] i = Ok (v, s) ->
  s_log s = l1 ++ (lv, EvInclude f true nf) :: l2 -> ~ in_reference (map snd l2).
Proof.
  intros G o i v s l1 lv f nf l2 H Q. destruct (run_inv _ _ _ _ _ _ H) as (I & _ & _).
  exact (i_second _ _ I l1 lv f nf l2 Q eq_refl).
Qed.
Print Assumptions C41_one_reference_partial.
Example C41_example : exists s l1 f nf l2, check_ref w40ok [] = Ok (Correct, s) /\
  s_log s = l1 ++ (O, EvInclude f true nf) :: l2 /\
  run (cfg [(txt "a.eo", txt "(reference ""r.smt2"") (reference ""r2.smt2"")"); (txt "r.smt2", ref_file); (txt "r2.smt2", ref_file)])
    options_init [] (InFile (txt "a.eo")) = Err.
Proof.
  destruct (run_log (check_ref w40ok []) Correct) as (s & E & L); [vm_compute; reflexivity|].
  exists s. do 4 eexists. split; [exact E|]. rewrite L. split; [|vm_compute; reflexivity].
  match goal with |- context [log_of ?r] => let v := eval vm_compute in (log_of r) in replace (log_of r) with v by (vm_compute; reflexivity) end.
  match goal with |- ?a :: ?b :: ?c :: ?d :: _ = _ => exact (eq_refl ([a; b; c] ++ d :: _)) end.
Qed.
(** --reference on the command line: checking ends with the inclusion of the main file. *)
Theorem C41_command_line_refuted : exists G o s name F l1 l2,
  run G o [(txt "r.smt2", false)] (InFile (txt "a.eo")) = Ok (Correct, s) /\
  s_log s = l1 ++ (O, EvAssume name F false) :: l2 /\
  (exists f nf, In (f, true, nf) (processed (map snd l2))) /\ ~ In F (asserted (events s)).
Proof.
  destruct (run_log (check_ref "(assume @a false)" [(txt "r.smt2", false)]) Correct) as (s & E & L); [vm_compute; reflexivity|].
  do 2 eexists. exists s, (txt "@a"), t_false, []. eexists. split; [exact E|]. unfold events. rewrite L.
  split; [vm_compute; reflexivity|]. split; [do 2 eexists; vm_compute; eauto|].
  vm_compute. intros [I | []]; discriminate I.
Qed.
Print Assumptions C41_command_line_refuted.
(** An include after the reference ends checking. *)
Theorem C41_include_refuted : exists G o s name F l1 l2,
  run G o [] (InFile (txt "a.eo")) = Ok (Correct, s) /\
  s_log s = l1 ++ (O, EvAssume name F false) :: l2 /\
  (exists f nf, In (f, true, nf) (processed (map snd l2))) /\ ~ In F (asserted (events s)).
Proof.
  destruct (run_log (check_ref "(reference ""r.smt2"") (include ""b.eo"") (assume @a false)" []) Correct) as (s & E & L);
    [vm_compute; reflexivity|].
  do 2 eexists. exists s, (txt "@a"), t_false, []. eexists. split; [exact E|]. unfold events. rewrite L.
  split; [vm_compute; reflexivity|]. split; [do 2 eexists; vm_compute; eauto|].
  vm_compute. intros [I | []]; discriminate I.
Qed.
Print Assumptions C41_include_refuted.
(** After it, a second reference is accepted. *)
Theorem C41_second_refuted : exists G o s f1 f2 n1 n2 rest, run G o [] (InFile (txt "a.eo")) = Ok (Correct, s) /\
  f1 <> f2 /\ In (f1, true, n1) (processed (events s)) /\ processed (events s) = (f2, true, n2) :: rest.
Proof.
  destruct (run_log (run (cfg [(txt "a.eo", txt "(reference ""r.smt2"") (include ""b.eo"") (reference ""q.smt2"")");
      (txt "r.smt2", ref_file); (txt "q.smt2", txt "(declare-const q Bool) (assert q)"); (txt "b.eo", txt "(echo)")])
      options_init [] (InFile (txt "a.eo"))) Correct) as (s & E & L); [vm_compute; reflexivity|].
  do 2 eexists. exists s, (txt "r.smt2"), (txt "q.smt2"). do 3 eexists. split; [exact E|]. unfold events. rewrite L.
  split; [vm_compute; discriminate|]. split; vm_compute; eauto.
Qed.
Print Assumptions C41_second_refuted.

(** * C42: the verdict *)
Theorem C42_verdict : forall G o incs i v s, run G o incs i = Ok (v, s) ->
  (v = Incomplete <-> exists rule, uses (events s) rule /\ trusted (events s) rule).
Proof.
  intros G o incs i v s H. destruct (run_inv _ _ _ _ _ _ H) as (I & -> & _). unfold verdict_of, events.
  destruct (existsb _ _) eqn:E.
  - split; [intros _ | reflexivity]. apply existsb_exists in E. destruct E as (r & U & E).
    apply existsb_exists in E. destruct E as (r' & S & E). apply term_eqb_eq in E. subst r'.
    exists r. split; [now apply (i_used _ _ I) | now apply (i_sorry _ _ I)].
  - split; [discriminate|]. intros (r & U & S). exfalso. apply (i_used _ _ I) in U. apply (i_sorry _ _ I) in S.
    assert (X : existsb (fun r => existsb (term_eqb r) (s_sorry s)) (s_used s) = true).
    { apply existsb_exists. exists r. split; [exact U|]. apply existsb_exists. exists r. split; [exact S | apply term_eqb_refl]. }
    congruence.
Qed.
Print Assumptions C42_verdict.
(** At the end of a file no assume-push is open. *)
Theorem C42_closed : forall G o incs f v s, run G o incs (InFile f) = Ok (v, s) -> opened (events s) = [].
Proof.
  intros G o incs f v s H. destruct (run_inv _ _ _ _ _ _ H) as (I & _ & C). specialize (C Coq.Init.Logic.I).
  pose proof (i_level _ _ I) as L. cbn [view_of v_ctx v_log] in L. rewrite C in L. unfold events.
  destruct (opened _); [reflexivity | discriminate L].
Qed.
Print Assumptions C42_closed.
Definition w42 (r : string) : string := ("(declare-const a Bool) (declare-const b Bool)
(declare-rule same ((F Bool)) :premises (F) :conclusion F)
(declare-rule trust ((F Bool)) :args (F) :conclusion F :sorry)
(assume @a a) (step @s a :rule same :premises (@a)) " ++ r)%string.
Example C42_example : verdict_in (check (w42 "")) = Some Correct /\
  verdict_in (check (w42 "(step @t b :rule trust :args (b))")) = Some Incomplete /\
  check (w42 "(assume-push @h b)") = Err /\ check (w42 "(step @t b :rule same :premises (@a))") = Err.
Proof. vm_compute. auto. Qed.
(** Standard input may end with an open assume-push. *)
Theorem C42_stdin_refuted : exists G o b s F, run G o [] (InStdin b) = Ok (Correct, s) /\ In F (opened (events s)).
Proof.
  destruct (run_log (run (cfg []) options_init [] (InStdin (txt "(assume-push @p false)"))) Correct) as (s & E & L);
    [vm_compute; reflexivity|].
  exists (cfg []), options_init, (txt "(assume-push @p false)"), s, t_false. split; [exact E|]. unfold events. rewrite L. vm_compute. auto.
Qed.
Print Assumptions C42_stdin_refuted.

(** * C49: files *)
Theorem C49_once : forall G o incs i v s, run G o incs i = Ok (v, s) ->
  NoDup (map (fun x => fst (fst x)) (processed (events s))).
Proof.
  intros G o incs i v s H. destruct (run_inv _ _ _ _ _ _ H) as (I & _ & _). unfold events.
  pose proof (i_incl _ _ I) as E. pose proof (i_nodup _ _ I) as N. cbn [view_of v_log v_incl] in E, N. now rewrite <- E.
Qed.
Print Assumptions C49_once.
(** Including again a file that was begun succeeds and changes nothing. *)
Theorem C49_repeat : forall G o incs i v s n f isSig isRef nf bytes, run G o incs i = Ok (v, s) ->
  In (g_path G (s_input s) f) (map (fun x => fst (fst x)) (processed (events s))) ->
  g_files G (g_path G (s_input s) f) = Some bytes ->
  includeFile G (S n) f isSig isRef nf s = Ok (true, s).
Proof.
  intros G o incs i v s n f isSig isRef nf bytes H P B. destruct (run_inv _ _ _ _ _ _ H) as (I & _ & _).
  pose proof (i_incl _ _ I) as E. cbn [view_of v_log v_incl] in E. unfold events in P. rewrite <- E in P.
  cbn [includeFile]. rewrite B.
  assert (X : existsb (text_eqb (g_path G (s_input s) f)) (s_incl s) = true).
  { apply existsb_exists. eexists. split; [exact P | apply text_eqb_refl]. }
  now rewrite X.
Qed.
Print Assumptions C49_repeat.
Example C49_example : exists s, check_ref "(include ""b.eo"") (include ""b.eo"") (include ""a.eo"")" [] = Ok (Correct, s) /\
  map (fun x => fst (fst x)) (processed (events s)) = [txt "b.eo"; txt "a.eo"] /\
  includeFile (cfg [(txt "b.eo", txt "(echo)")]) 1 (txt "b.eo") true false null_term s = Ok (true, s) /\
  check_ref "(include ""missing.eo"")" [] = Err.
Proof.
  destruct (run_log (check_ref "(include ""b.eo"") (include ""b.eo"") (include ""a.eo"")" []) Correct) as (s & E & L);
    [vm_compute; reflexivity|].
  exists s. split; [exact E|].
  assert (P : map (fun x => fst (fst x)) (processed (events s)) = [txt "b.eo"; txt "a.eo"])
    by (unfold events; rewrite L; vm_compute; reflexivity).
  split; [exact P|]. split; [|vm_compute; reflexivity].
  destruct (run_inv _ _ _ _ _ _ E) as (I & _ & _). pose proof (i_incl _ _ I) as Q. cbn [view_of v_log v_incl] in Q.
  unfold events in P. rewrite P in Q. cbn [includeFile g_path cfg g_files]. rewrite Q. vm_compute. reflexivity.
Qed.

(** * C43: steps *)
(** step-pop discharges the formula of the innermost open assume-push. *)
Theorem C43_discharges : forall G o incs i v s l1 lv name rule proven prem args asm conc l2, run G o incs i = Ok (v, s) ->
  s_log s = l1 ++ (lv, EvStep name rule proven prem args (Some asm) conc) :: l2 ->
  hd_error (opened (map snd l2)) = Some asm.
Proof.
  intros G o incs i v s l1 lv name rule proven prem args asm conc l2 H. destruct (run_inv _ _ _ _ _ _ H) as (I & _ & _).
  exact (i_pop _ _ I l1 lv name rule proven prem args asm conc l2).
Qed.
Print Assumptions C43_discharges.
(** A stated conclusion is the conclusion. *)
Theorem C43_stated : forall G o incs i v s lv name rule proven prem args asm conc, run G o incs i = Ok (v, s) ->
  In (lv, EvStep name rule proven prem args asm conc) (s_log s) -> is_null proven = false -> conc = proven.
Proof.
  intros G o incs i v s lv name rule proven prem args asm conc H Q N. destruct (run_inv _ _ _ _ _ _ H) as (I & _ & _).
  destruct (i_proven _ _ I _ _ _ _ _ _ _ _ Q) as [X | X]; [congruence | exact X].
Qed.
Print Assumptions C43_stated.
(** After an accepted step its name stands for a proof of its conclusion. *)
Theorem C43_binds : forall G sig isPop p u p', cmdStep G sig isPop p = Ok (u, p') ->
  exists lv name rule proven prem args asm conc rest,
    s_log (snd p') = (lv, EvStep name rule proven prem args asm conc) :: rest /\
    getVar (s_scope (snd p')) name = Some (Node K_PROOF [conc]).
Proof. exact cmdStep_binds. Qed.
Print Assumptions C43_binds.
Definition w43 : string := (rules ++ "(assume-push @h false) (step @g :rule same :premises (@h))
(step-pop @s (=> false false) :rule scope :premises (@g))")%string.
Example C43_example : exists s l1 lv l2, check w43 = Ok (Correct, s) /\
  s_log s = l1 ++ (lv, EvStep (txt "@s") r_scope (Node K_APPLY [Node K_APPLY [f_imp; t_false]; t_false])
                         [Node K_PROOF [t_false]] [] (Some t_false)
                         (Node K_APPLY [Node K_APPLY [f_imp; t_false]; t_false])) :: l2 /\
  opened (map snd l2) = [t_false] /\
  check (rules ++ "(assume @h false) (step @g true :rule same :premises (@h))") = Err /\
  check (rules ++ "(assume @h false) (step @g false :rule scope :premises (@h))") = Err.
Proof.
  destruct (run_log (check w43) Correct) as (s & E & L); [vm_compute; reflexivity|].
  exists s, []. do 2 eexists. split; [exact E|]. rewrite L. split; [vm_compute; reflexivity|].
  vm_compute. auto.
Qed.
