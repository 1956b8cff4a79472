(** Names that are bound inside a term: proofs. *)
From Coq Require Import String ZArith List Bool Lia.
From Verif Require Import Base Kind Ints Str Literal Arity Term TermProofs Match Eval ListOps Typing Build Scope SpecScope ScopeProofs
  Lexer Parse SpecRead SpecLocal.
Import ListNotations.
Open Scope Z_scope.

Section Local.
Variable G : config.
Variable sig : bool.

(* ------------------------------------------------------------------ *)
(** * Names do not escape *)
Definition only_scope (s s1 : st) : Prop := s1 = set_scope (s_scope s1) s.
Lemma os_refl s : only_scope s s.
Proof. unfold only_scope. destruct s; reflexivity. Qed.
Lemma os_set s c : only_scope s (set_scope c s).
Proof. reflexivity. Qed.
Lemma os_trans s1 s2 s3 : only_scope s1 s2 -> only_scope s2 s3 -> only_scope s1 s3.
Proof. unfold only_scope. intros A B. rewrite B. cbn [set_scope s_scope]. rewrite A. reflexivity. Qed.

Definition kept (s s1 : st) : Prop := only_scope s s1 /\ forall F, rel F (s_scope s) -> rel F (s_scope s1).
Definition top_kept (s s1 : st) : Prop := only_scope s s1 /\
  forall f fs g, rel (f :: fs, g) (s_scope s) -> exists f', rel (f' :: fs, g) (s_scope s1).
Lemma kept_refl s : kept s s.
Proof. split; [apply os_refl | auto]. Qed.
Lemma kept_trans s1 s2 s3 : kept s1 s2 -> kept s2 s3 -> kept s1 s3.
Proof. intros [A B] [C D]. split; [exact (os_trans _ _ _ A C) | auto]. Qed.
Lemma kept_top s s1 : kept s s1 -> top_kept s s1.
Proof. intros [A B]. split; [exact A|]. eauto. Qed.
Lemma top_trans s1 s2 s3 : top_kept s1 s2 -> top_kept s2 s3 -> top_kept s1 s3.
Proof. intros [A B] [C D]. split; [exact (os_trans _ _ _ A C)|]. intros f fs g R. destruct (B _ _ _ R) as [f' R']. exact (D _ _ _ R'). Qed.
Lemma bind_top rt s n e c : bind_sym rt (s_scope s) n e = Some c -> top_kept s (set_scope c s).
Proof.
  intros B. split; [apply os_set|]. intros f fs g R. destruct (is_rule rt e) eqn:RU.
  - destruct (rule_rel _ _ _ _ _ _ R RU B) as [R' _]. exists f. exact R'.
  - destruct (bind_rel rt _ _ n e R RU) as (c' & B' & R' & _). rewrite B in B'. injection B' as <-. exists ((n, e) :: f). exact R'.
Qed.
Lemma named_top l : forall s s', named_in s l s' -> top_kept s s'.
Proof.
  intros s s' H. induction H as [s|s n e c l s' B _ IH]; [apply kept_top, kept_refl|].
  exact (top_trans _ _ _ (bind_top _ _ _ _ _ B) IH).
Qed.
Lemma scope_kept s s1 s2 : top_kept (entered s) s1 -> left_scope s1 s2 -> kept s s2.
Proof.
  intros [A B] (c & P & ->). split; [exact (os_trans _ _ _ (os_set s _) (os_trans _ _ _ A (os_set _ _)))|].
  intros [fs g] R. destruct (B [] fs g (push_rel _ _ _ R)) as [f' R']. destruct (pop_rel _ _ _ _ R') as (c' & P' & R2 & _).
  rewrite P in P'. injection P' as <-. exact R2.
Qed.

Lemma reads_kept :
  (forall s x t s1, reads G sig s x t s1 -> kept s s1) /\
  (forall s xs ts s1, reads_args G sig s xs ts s1 -> kept s s1) /\
  (forall s xs vs s1, reads_vars G sig s xs vs s1 -> top_kept s s1) /\
  (forall s xs ds s1, reads_defs G sig s xs ds s1 -> kept s s1) /\
  (forall s xs ds s1, reads_lets G sig s xs ds s1 -> kept s s1).
Proof.
  apply reads_minds; intros; try apply kept_refl; try assumption; eauto using kept_trans.
  - apply (scope_kept s s2); [|assumption]. eapply top_trans; [eassumption | now apply kept_top].
  - apply (scope_kept s s3); [|assumption]. eapply top_trans; [apply kept_top; eassumption|].
    eapply top_trans; [eapply named_top; eassumption | now apply kept_top].
  - apply (kept_trans s s1); [assumption|]. apply (scope_kept s1 s4); [|assumption].
    eapply top_trans; [eapply named_top; eassumption|]. eapply top_trans; apply kept_top; eassumption.
  - apply kept_top, kept_refl.
  - eapply top_trans; [apply kept_top; eassumption|]. eapply top_trans; [eapply bind_top; eassumption | assumption].
Qed.
Lemma kept_names s s1 F : kept s s1 -> rel F (s_scope s) -> only_scope s s1 /\
  (forall n, getVar (s_scope s1) n = getVar (s_scope s) n) /\ (forall n, c_over (s_scope s1) n = c_over (s_scope s) n) /\
  c_decls (s_scope s1) = c_decls (s_scope s) /\ c_ctx (s_scope s1) = c_ctx (s_scope s).
Proof.
  intros [A B] R. specialize (B _ R). split; [exact A|]. destruct R as [[R1 R2 R3] R4 R5], B as [[B1 B2 B3] B4 B5].
  unfold getVar. repeat split; intros; congruence.
Qed.

(* ------------------------------------------------------------------ *)
(** * New names *)
Variable E : st.
Record agrees (T : names_table) (s : st) : Prop := {
  ag_only : only_scope E s;
  ag_over : c_over (s_scope s) = c_over (s_scope E);
  ag_mark : c_mark (s_scope s) = c_mark (s_scope E);
  ag_sym : forall n, c_sym (s_scope s) n = T n;
  ag_ovd : Forall (fun o => T o <> None) (c_ovd (s_scope s)) }.
Record same (s s1 : st) : Prop := {
  sm_only : only_scope s s1;
  sm_rules : c_rules (s_scope s1) = c_rules (s_scope s);
  sm_over : c_over (s_scope s1) = c_over (s_scope s);
  sm_mark : c_mark (s_scope s1) = c_mark (s_scope s);
  sm_ovd : c_ovd (s_scope s1) = c_ovd (s_scope s);
  sm_decls : c_decls (s_scope s1) = c_decls (s_scope s);
  sm_ctx : c_ctx (s_scope s1) = c_ctx (s_scope s);
  sm_sym : forall n, c_sym (s_scope s1) n = c_sym (s_scope s) n }.
(** Inside a scope with these names. *)
Record within (s : st) (ns : list text) (s2 : st) : Prop := {
  wi_only : only_scope s s2;
  wi_rules : c_rules (s_scope s2) = c_rules (s_scope s);
  wi_over : c_over (s_scope s2) = c_over (s_scope s);
  wi_mark : c_mark (s_scope s2) = c_mark (s_scope s);
  wi_ovd : c_ovd (s_scope s2) = c_ovd (s_scope s);
  wi_decls : c_decls (s_scope s2) = ns ++ c_decls (s_scope s);
  wi_ctx : c_ctx (s_scope s2) = length (c_decls (s_scope s)) :: c_ctx (s_scope s);
  wi_sym : forall n, ~ In n ns -> c_sym (s_scope s2) n = c_sym (s_scope s) n;
  wi_new : forall n, In n ns -> c_sym (s_scope s) n = None }.
Lemma same_refl s : same s s.
Proof. constructor; auto using os_refl. Qed.
Lemma same_trans s1 s2 s3 : same s1 s2 -> same s2 s3 -> same s1 s3.
Proof. intros [A1 A2 A3 A4 A5 A6 A7 A8] [B1 B2 B3 B4 B5 B6 B7 B8]. constructor; intros; try congruence. exact (os_trans _ _ _ A1 B1). Qed.
Lemma agrees_same T s s1 : agrees T s -> same s s1 -> agrees T s1.
Proof.
  intros [A1 A2 A3 A4 A5] [B1 B2 B3 B4 B5 B6 B7 B8]. constructor; try congruence. exact (os_trans _ _ _ A1 B1).
Qed.
Lemma agrees_env T s : agrees T s -> env_of G s = env_of G E.
Proof.
  intros [A1 A2 A3 _ _]. unfold only_scope in A1. rewrite A1. unfold env_of, overloads_of. cbn [set_scope s_scope s_marks s_types s_names s_lits]. rewrite A2, A3. reflexivity.
Qed.
Lemma agrees_opts T s : agrees T s -> s_opts s = s_opts E.
Proof. intros A. rewrite (ag_only _ _ A). reflexivity. Qed.
Lemma agrees_within T s ns s2 T' : agrees T s -> within s ns s2 -> (forall n, c_sym (s_scope s2) n = T' n) -> agrees T' s2.
Proof.
  intros [A1 A2 A3 A4 A5] [B1 B2 B3 B4 B5 B6 B7 B8 B9] H. constructor; try congruence; [exact (os_trans _ _ _ A1 B1) |].
  rewrite B5. revert A5. apply Forall_impl. intros o O. rewrite <- H, B8, A4; [exact O|]. intros I. apply O. rewrite <- A4. exact (B9 _ I).
Qed.
Lemma within_entered s : within s [] (entered s).
Proof. constructor; try reflexivity. intros n []. Qed.
Lemma within_same s ns s2 s3 : within s ns s2 -> same s2 s3 -> within s ns s3.
Proof. intros [B1 B2 B3 B4 B5 B6 B7 B8 B9] [A1 A2 A3 A4 A5 A6 A7 A8]. constructor; intros; try congruence; [exact (os_trans _ _ _ B1 A1) | rewrite A8; auto | auto]. Qed.
Lemma within_bind s ns s2 rt n v : within s ns s2 -> c_sym (s_scope s2) n = None -> tkind v <> K_PROOF_RULE ->
  exists c, bind_sym rt (s_scope s2) n v = Some c /\ within s (n :: ns) (set_scope c s2) /\
    forall m, c_sym c m = with_name (c_sym (s_scope s2)) n v m.
Proof.
  intros W N K. unfold bind_sym.
  assert (KP : kind_eqb (tkind v) K_PROOF_RULE = false) by (destruct (kind_eqb (tkind v) K_PROOF_RULE) eqn:X; [apply kind_eqb_eq in X; contradiction | reflexivity]).
  rewrite KP, andb_false_r, N. pose proof (wi_ctx _ _ _ W) as C. rewrite C. eexists. split; [reflexivity|].
  destruct W as [B1 B2 B3 B4 B5 B6 B7 B8 B9]. split; [|reflexivity]. constructor; cbn [set_scope s_scope c_rules c_over c_mark c_ovd c_decls c_ctx c_sym]; auto.
  - exact (os_trans _ _ _ B1 (os_set _ _)).
  - rewrite B6. reflexivity.
  - intros m H. cbn [In] in H. unfold tset. destruct (text_eqb n m) eqn:X; [apply text_eqb_eq in X; tauto|]. apply B8. tauto.
  - intros m [<- | H]; [|auto]. destruct (in_dec text_dec n ns) as [I | I]; [now apply B9|]. rewrite <- (B8 n I). exact N.
Qed.
Lemma undo_new names : forall c, Forall (fun o => ~ In o names) (c_ovd c) ->
  exists c', undo_list c names = Ok c' /\ c_rules c' = c_rules c /\ c_over c' = c_over c /\ c_mark c' = c_mark c /\ c_ovd c' = c_ovd c /\
    (forall m, c_sym c' m = if in_dec text_dec m names then None else c_sym c m).
Proof.
  induction names as [|n names IH]; intros c H; cbn [undo_list].
  - exists c. repeat split. 
  - assert (U : undo c n = Ok (mkScope (tset (c_sym c) n None) (c_rules c) (c_over c) (c_mark c) (c_ovd c) (c_decls c) (c_ctx c))).
    { unfold undo. destruct (c_ovd c) as [|o l]; [reflexivity|]. inversion H; subst.
      replace (text_eqb o n) with false; [reflexivity|]. symmetry. apply text_eqb_neq. intros ->. apply H2. now left. }
    rewrite U. cbn [bind]. match goal with |- exists c', undo_list ?c1 names = _ /\ _ => destruct (IH c1) as (c' & A & B & C & D & F & S1) end.
    { cbn [c_ovd]. revert H. apply Forall_impl. intros o O I. apply O. now right. }
    cbn [c_rules c_over c_mark c_ovd c_sym] in *. exists c'. repeat split; try assumption. intros m. rewrite S1.
    destruct (in_dec text_dec m names) as [I|I], (in_dec text_dec m (n :: names)) as [J|J]; try reflexivity.
    + exfalso. apply J. now right.
    + destruct J as [-> | J]; [apply tset_same | contradiction].
    + apply tset_other. intros ->. apply J. now left.
Qed.
Lemma leave s ns s2 : within s ns s2 -> Forall (fun o => c_sym (s_scope s) o <> None) (c_ovd (s_scope s)) ->
  exists s3, left_scope s2 s3 /\ same s s3.
Proof.
  intros [B1 B2 B3 B4 B5 B6 B7 B8 B9] O. unfold left_scope, popScope. rewrite B7, B6.
  assert (FN : forall (a b : list text), firstn (length (a ++ b) - length b) (a ++ b) = a /\ skipn (length (a ++ b) - length b) (a ++ b) = b).
  { intros a b. rewrite app_length. replace (length a + length b - length b)%nat with (length a) by lia.
    rewrite firstn_app, firstn_all, skipn_app, skipn_all, Nat.sub_diag. cbn [firstn skipn]. rewrite app_nil_r. auto. }
  destruct (FN ns (c_decls (s_scope s))) as [F1 F2]. rewrite F1, F2.
  destruct (undo_new ns (s_scope s2)) as (c' & A & A1 & A2 & A3 & A4 & A5).
  { rewrite B5. revert O. apply Forall_impl. intros o O I. exact (O (B9 _ I)). }
  rewrite A. cbn [bind]. replace (length (c_decls (s_scope s)) - length (ns ++ c_decls (s_scope s)))%nat with 0%nat by (rewrite app_length; lia).
  cbn [repeat app]. eexists. split; [eexists; split; reflexivity|].
  constructor; cbn [set_scope s_scope c_rules c_over c_mark c_ovd c_decls c_ctx c_sym]; try congruence.
  - exact (os_trans _ _ _ B1 (os_set _ _)).
  - intros n. rewrite A5. destruct (in_dec text_dec n ns) as [I|I]; [symmetry; auto | auto].
Qed.
Lemma with_names_other T ds : forall m, ~ In m (map fst ds) -> with_names T ds m = T m.
Proof.
  revert T. induction ds as [|[n v] ds IH]; intros T m H; [reflexivity|]. cbn [with_names fold_left fst snd] in *.
  change (with_names (with_name T n v) ds m = T m). rewrite IH by (cbn [map fst In] in H; tauto). unfold with_name.
  destruct (text_eqb n m) eqn:X; [apply text_eqb_eq in X; subst; exfalso; apply H; now left | reflexivity].
Qed.
Lemma with_name_ext T T' n v : (forall m, T m = T' m) -> forall m, with_name T n v m = with_name T' n v m.
Proof. intros H m. unfold with_name. now destruct (text_eqb n m). Qed.
Lemma named_new ds : forall s ns s2 T, within s ns s2 -> (forall m, c_sym (s_scope s2) m = T m) -> new_names T ds ->
  exists s3 ns', named_in s2 ds s3 /\ within s ns' s3 /\ (forall m, c_sym (s_scope s3) m = with_names T ds m).
Proof.
  induction ds as [|[n v] ds IH]; intros s ns s2 T W HT [ND NN].
  - exists s2, ns. split; [constructor|]. split; assumption.
  - cbn [map fst] in ND. inversion ND as [|? ? N1 N2]; subst. inversion NN as [|? ? [M1 M2] M3]; subst. cbn [fst snd] in M1, M2.
    destruct (within_bind s ns s2 (o_ruleSymTable (s_opts s2)) n v W) as (c & B & W' & S'); [now rewrite HT | exact M2 |].
    destruct (IH s (n :: ns) (set_scope c s2) (with_name T n v)) as (s3 & ns' & A1 & A2 & A3); auto.
    + intros m. cbn [set_scope s_scope]. rewrite S'. now apply with_name_ext.
    + split; [exact N2|]. rewrite Forall_forall in *. intros [m e] I. cbn [fst snd]. destruct (M3 _ I) as [X1 X2]. split; [|exact X2].
      unfold with_name. cbn [fst] in X1. destruct (text_eqb n m) eqn:X; [|exact X1]. apply text_eqb_eq in X. subst m.
      exfalso. apply N1. apply in_map_iff. exists (n, e). auto.
    + exists s3, ns'. split; [econstructor; eassumption|]. auto.
Qed.

Lemma app_E T s ts r : agrees T s -> applied G E ts r -> applied G s ts r.
Proof. intros A. unfold applied. now rewrite (agrees_env _ _ A). Qed.
Lemma type_E T s t ty : agrees T s -> of_type G E t ty -> of_type G s t ty.
Proof. intros A. unfold of_type. now rewrite (agrees_env _ _ A). Qed.
Lemma variable_E T s n ty v : agrees T s -> variable G E n ty v -> variable G s n ty v.
Proof. intros A H. inversion H; subst; econstructor; eauto. now rewrite (agrees_env _ _ A). Qed.
Lemma constructor_E T s v ct : agrees T s -> constructor_of G E v ct -> constructor_of G s v ct.
Proof. intros A. unfold constructor_of. now rewrite (agrees_env _ _ A). Qed.
Lemma agrees_ovd T s : agrees T s -> Forall (fun o => c_sym (s_scope s) o <> None) (c_ovd (s_scope s)).
Proof. intros A. apply (Forall_impl _ (P := fun o => T o <> None)); [|exact (ag_ovd _ _ A)]. intros o. now rewrite (ag_sym _ _ A). Qed.

Lemma means_reads :
  (forall T x t, means G sig E T x t -> forall s, agrees T s -> exists s1, reads G sig s x t s1 /\ same s s1) /\
  (forall T xs ts, means_args G sig E T xs ts -> forall s, agrees T s -> exists s1, reads_args G sig s xs ts s1 /\ same s s1) /\
  (forall T xs vs T', means_vars G sig E T xs vs T' -> forall s ns s2, within s ns s2 -> agrees T s2 ->
    exists s3 ns', reads_vars G sig s2 xs vs s3 /\ within s ns' s3 /\ agrees T' s3) /\
  (forall T xs ds, means_defs G sig E T xs ds -> forall s, agrees T s -> exists s1, reads_defs G sig s xs ds s1 /\ same s s1) /\
  (forall T xs ds, means_lets G sig E T xs ds -> forall s, agrees T s -> exists s1, reads_lets G sig s xs ds s1 /\ same s s1).
Proof.
  apply means_minds.
  - intros T k w n v N TV K s A. exists s. split; [|apply same_refl]. apply (rd_name G sig s k w n v); auto. exact (eq_trans (ag_sym _ _ A n) TV).
  - intros T k w v W s A. exists s. split; [|apply same_refl]. apply rd_word. now rewrite (agrees_opts _ _ A).
  - intros T k w n v xs ts r N TV B _ IH AP s A. destruct (IH s A) as (s1 & R & SM). exists s1. split; [|exact SM].
    apply (rd_app G sig s k w n v xs ts s1 r); auto; [exact (eq_trans (ag_sym _ _ A n) TV) | now rewrite (agrees_env _ _ A) |].
    exact (app_E _ _ _ _ (agrees_same _ _ _ A SM) AP).
  - intros T k w n ys xs ts r N ON _ IH AP s A. destruct (IH s A) as (s1 & R & SM). exists s1. split; [|exact SM].
    eapply rd_app2; eauto. exact (app_E _ _ _ _ (agrees_same _ _ _ A SM) AP).
  - intros T k w n v vxs xs vs T' ct vl ts r N TV KB VL _ IHv CO AP1 _ IHx AP2 s A.
    assert (AE : agrees T (entered s)) by (apply (agrees_within T s [] _ T A (within_entered s)); exact (ag_sym _ _ A)).
    destruct (IHv s [] (entered s) (within_entered s) AE) as (s1 & ns & R1 & W1 & A1).
    destruct (IHx s1 A1) as (s2 & R2 & SM2). pose proof (agrees_same _ _ _ A1 SM2) as A2.
    destruct (leave s ns s2 (within_same _ _ _ _ W1 SM2) (agrees_ovd _ _ A)) as (s3 & LS & SM3).
    exists s3. split; [|exact SM3]. apply (rd_binder G sig s k w n v vxs xs vs s1 ct vl ts s2 r s3); eauto using app_E, constructor_E.
    + exact (eq_trans (ag_sym _ _ A n) TV).
    + now rewrite (agrees_env _ _ A).
  - intros T k w n v vxs xs ds ct p l cs prs vl ts r N TV KB VL _ IHd NN CO TC FA AP1 _ IHx AP2 s A.
    assert (AE : agrees T (entered s)) by (apply (agrees_within T s [] _ T A (within_entered s)); exact (ag_sym _ _ A)).
    destruct (IHd _ AE) as (s1 & R1 & SM1). pose proof (within_same _ _ _ _ (within_entered s) SM1) as W1.
    pose proof (agrees_same _ _ _ AE SM1) as A1.
    destruct (named_new _ s [] s1 T W1 (ag_sym _ _ A1) NN) as (s2 & ns & NI & W2 & S2).
    pose proof (agrees_within _ _ _ _ _ A W2 S2) as A2. destruct (IHx s2 A2) as (s3 & R3 & SM3).
    pose proof (agrees_same _ _ _ A2 SM3) as A3.
    destruct (leave s ns s3 (within_same _ _ _ _ W2 SM3) (agrees_ovd _ _ A)) as (s4 & LS & SM4).
    exists s4. split; [|exact SM4]. apply (rd_let_binder G sig s k w n v vxs xs ds s1 s2 ct p l cs prs vl ts s3 r s4); eauto using app_E, constructor_E.
    + exact (eq_trans (ag_sym _ _ A n) TV).
    + now rewrite (agrees_env _ _ A).
    + assert (HH : forall a b, applied G E a b -> applied G s2 a b) by (intros a b; exact (app_E _ _ _ _ A2)).
      clear - FA HH. induction FA; constructor; auto.
  - intros T k w bs x ds t LT _ IHl NN _ IHx NS s A. destruct (IHl s A) as (s1 & R1 & SM1).
    pose proof (agrees_same _ _ _ A SM1) as A1.
    destruct (named_new ds s1 [] (entered s1) T (within_entered s1) (ag_sym _ _ A1) NN) as (s2 & ns & NI & W2 & S2).
    pose proof (agrees_within _ _ _ _ _ A1 W2 S2) as A2. destruct (IHx s2 A2) as (s4 & R4 & SM4).
    destruct (leave s1 ns s4 (within_same _ _ _ _ W2 SM4) (agrees_ovd _ _ A1)) as (s5 & LS & SM5).
    exists s5. split; [|exact (same_trans _ _ _ SM1 SM5)].
    apply (rd_let G sig s k w bs [] x ds s1 s2 s2 t s4 s5); auto. constructor.
  - intros T w x as_ t _ IH NS AT s A. destruct (IH s A) as (s1 & R & SM). exists s1. split; [|exact SM].
    apply (rd_annotated G sig s w [] x as_ s t s1); auto. constructor.
  - intros T s A. exists s. split; [constructor | apply same_refl].
  - intros T x t xs ts _ IH NS _ IHs s A. destruct (IH s A) as (s1 & R & SM). destruct (IHs s1 (agrees_same _ _ _ A SM)) as (s2 & R2 & SM2).
    exists s2. split; [eapply ra_cons; eassumption | exact (same_trans _ _ _ SM SM2)].
  - intros T s ns s2 W A. exists s2, ns. repeat split; try apply W; try apply A. constructor.
  - intros T k w n x ty v xs vs T' N TN _ IH OT EV VA KP _ IHv s ns s2 W A.
    destruct (IH s2 A) as (s3 & R & SM). pose proof (agrees_same _ _ _ A SM) as A3. pose proof (within_same _ _ _ _ W SM) as W3.
    destruct (within_bind s ns s3 (o_ruleSymTable (s_opts s3)) n v W3) as (c & B & W4 & S4); [now rewrite (ag_sym _ _ A3) | exact KP |].
    assert (A4 : agrees (with_name T n v) (set_scope c s3)).
    { assert (S5 : forall m, c_sym (s_scope (set_scope c s3)) m = with_name T n v m).
      { intros m. cbn [set_scope s_scope]. rewrite S4. apply with_name_ext. exact (ag_sym _ _ A3). }
      destruct A3 as [X1 X2 X3 X4 X5], W3 as [B1 B2 B3 B4 B5 B6 B7 B8 B9], W4 as [C1 C2 C3 C4 C5 C6 C7 C8 C9].
      constructor; try congruence; [exact (os_trans _ _ _ X1 (os_set _ _))|].
      rewrite C5, <- B5. revert X5. apply Forall_impl. intros o O. unfold with_name. destruct (text_eqb n o); [discriminate | exact O]. }
    destruct (IHv s (n :: ns) _ W4 A4) as (s5 & ns' & R5 & W5 & A5). exists s5, ns'. split; [|auto].
    eapply rv_cons; eauto using type_E, variable_E.
  - intros T s A. exists s. split; [constructor | apply same_refl].
  - intros T k w n x t ty xs ds N _ IH OT GR _ IHs s A. destruct (IH s A) as (s1 & R & SM). pose proof (agrees_same _ _ _ A SM) as A1.
    destruct (IHs s1 A1) as (s2 & R2 & SM2). exists s2. split; [|exact (same_trans _ _ _ SM SM2)]. eapply rf_cons; eauto using type_E.
  - intros T s A. exists s. split; [constructor | apply same_refl].
  - intros T k w n x t xs ds N _ IH NS _ IHs s A. destruct (IH s A) as (s1 & R & SM). pose proof (agrees_same _ _ _ A SM) as A1.
    destruct (IHs s1 A1) as (s2 & R2 & SM2). exists s2. split; [|exact (same_trans _ _ _ SM SM2)].
    apply (rl_cons G sig s k w n [] x s t s1 xs ds s2); auto. constructor.
Qed.

(* ------------------------------------------------------------------ *)
(** * Abbreviations *)
Lemma with_names_ext ds : forall T T' m, T m = T' m -> with_names T ds m = with_names T' ds m.
Proof.
  induction ds as [|[n v] ds IH]; intros T T' m H; [exact H|]. apply (IH (with_name T n v) (with_name T' n v)).
  unfold with_name. cbn [fst snd]. now destruct (text_eqb n m).
Qed.
Lemma new_names_ext T T' ds : (forall m, In m (map fst ds) -> T' m = T m) -> new_names T ds -> new_names T' ds.
Proof.
  intros H [A B]. split; [exact A|]. rewrite Forall_forall in *. intros d I. destruct (B d I). split; [|assumption].
  rewrite H; [assumption|]. now apply in_map.
Qed.
Lemma in_names_head k w n xs : name_of k w = Some n -> In n (flat_map names_in (XT k w :: xs)).
Proof. intros N. cbn [flat_map names_in]. rewrite N. now left. Qed.
Lemma in_names_tail x xs m : In m (flat_map names_in xs) -> In m (flat_map names_in (x :: xs)).
Proof. intros I. cbn [flat_map]. apply in_or_app. now right. Qed.
Lemma in_names_first x xs m : In m (names_in x) -> In m (flat_map names_in (x :: xs)).
Proof. intros I. cbn [flat_map]. apply in_or_app. now left. Qed.
Hint Resolve in_names_head in_names_tail in_names_first : names.
Lemma defs_names : forall T xs ds, means_defs G sig E T xs ds -> incl (map fst (map (fun d => (fst (fst d), snd (fst d))) ds)) (flat_map names_in xs).
Proof.
  intros T xs ds H. induction H; cbn [map fst]; [intros m []|]. intros m [<- | I]; [|now apply in_names_tail, IHmeans_defs].
  apply in_names_first. cbn [names_in]. now apply in_names_head.
Qed.
Lemma lets_names : forall T xs ds, means_lets G sig E T xs ds -> incl (map fst ds) (flat_map names_in xs).
Proof.
  intros T xs ds H. induction H; cbn [map fst]; [intros m []|]. intros m [<- | I]; [|now apply in_names_tail, IHmeans_lets].
  apply in_names_first. cbn [names_in]. now apply in_names_head.
Qed.

(** Only the names in a term matter. *)
Definition on (ns : list text) (T T' : names_table) : Prop := forall m, In m ns -> T' m = T m.
Lemma on_sub a b T T' : incl a b -> on b T T' -> on a T T'.
Proof. intros I H m J. exact (H m (I m J)). Qed.
Lemma means_on :
  (forall T x t, means G sig E T x t -> forall T', on (names_in x) T T' -> means G sig E T' x t) /\
  (forall T xs ts, means_args G sig E T xs ts -> forall T', on (flat_map names_in xs) T T' -> means_args G sig E T' xs ts) /\
  (forall T xs vs T1, means_vars G sig E T xs vs T1 -> forall T', on (flat_map names_in xs) T T' ->
    exists T1', means_vars G sig E T' xs vs T1' /\ forall m, T' m = T m -> T1' m = T1 m) /\
  (forall T xs ds, means_defs G sig E T xs ds -> forall T', on (flat_map names_in xs) T T' -> means_defs G sig E T' xs ds) /\
  (forall T xs ds, means_lets G sig E T xs ds -> forall T', on (flat_map names_in xs) T T' -> means_lets G sig E T' xs ds).
Proof.
  assert (HD : forall x xs T T', on (flat_map names_in (x :: xs)) T T' -> on (names_in x) T T' /\ on (flat_map names_in xs) T T').
  { intros x xs T T' O. split; intros m I; apply O; auto with names. }
  apply means_minds.
  - intros T k w n v N TV K T' O. apply (me_name G sig E T' k w n v); auto. rewrite O; [exact TV|]. cbn [names_in]. rewrite N. now left.
  - intros T k w v W T' O. now apply me_word.
  - intros T k w n v xs ts r N TV B _ IH AP T' O. destruct (HD _ _ _ _ O) as [O1 O2].
    apply (me_app G sig E T' k w n v xs ts r); auto. rewrite O; [exact TV|]. now apply in_names_head.
  - intros T k w n ys xs ts r N ON _ IH AP T' O. apply (me_app2 G sig E T' k w n ys xs ts r); auto.
  - intros T k w n v vxs xs vs T1 ct vl ts r N TV KB VL _ IHv CO AP1 _ IHx AP2 T' O.
    destruct (HD _ _ _ _ O) as [O1 O2]. destruct (HD _ _ _ _ O2) as [O3 O4]. destruct (IHv T' O3) as (T1' & MV & EX).
    apply (me_binder G sig E T' k w n v vxs xs vs T1' ct vl ts r); auto; [rewrite O; [exact TV | now apply in_names_head]|].
    apply IHx. intros m I. apply EX. now apply O4.
  - intros T k w n v vxs xs ds ct p l cs prs vl ts r N TV KB VL MD IHd NN CO TC FA AP1 _ IHx AP2 T' O.
    destruct (HD _ _ _ _ O) as [O1 O2]. destruct (HD _ _ _ _ O2) as [O3 O4].
    apply (me_let_binder G sig E T' k w n v vxs xs ds ct p l cs prs vl ts r); auto; [rewrite O; [exact TV | now apply in_names_head] | |].
    + apply (new_names_ext T); [|exact NN]. intros m I. apply O3. exact (defs_names _ _ _ MD m I).
    + apply IHx. intros m I. apply with_names_ext. now apply O4.
  - intros T k w bs x ds t LT ML IHl NN _ IHx NS T' O.
    destruct (HD _ _ _ _ O) as [O1 O2]. destruct (HD _ _ _ _ O2) as [O3 O4]. destruct (HD _ _ _ _ O4) as [O5 _].
    apply (me_let G sig E T' k w bs x ds t); auto.
    + apply (new_names_ext T); [|exact NN]. intros m I. apply O3. exact (lets_names _ _ _ ML m I).
    + apply IHx. intros m I. apply with_names_ext. now apply O5.
  - intros T w x as_ t _ IH NS AT T' O. destruct (HD (XT T_ATTRIBUTE w) (x :: as_) _ _ O) as [_ O2]. destruct (HD _ _ _ _ O2) as [O3 _].
    apply me_annotated; auto.
  - intros T T' O. constructor.
  - intros T x t xs ts _ IH NS _ IHs T' O. destruct (HD _ _ _ _ O) as [O1 O2]. constructor; auto.
  - intros T T' O. exists T'. split; [constructor | auto].
  - intros T k w n x ty v xs vs T1 N TN _ IH OT EV VA KP _ IHv T' O. destruct (HD _ _ _ _ O) as [O1 O2].
    destruct (HD _ _ _ _ O1) as [O3 O4]. destruct (HD _ _ _ _ O4) as [O5 _].
    destruct (IHv (with_name T' n v)) as (T1' & MV & EX).
    { intros m I. unfold with_name. destruct (text_eqb n m); [reflexivity | now apply O2]. }
    exists T1'. split.
    + apply (mv_cons G sig E T' k w n x ty v xs vs T1'); auto. rewrite O; [exact TN|]. apply in_names_first. now apply in_names_head.
    + intros m H. apply EX. unfold with_name. destruct (text_eqb n m); [reflexivity | exact H].
  - intros T T' O. constructor.
  - intros T k w n x t ty xs ds N _ IH OT GR _ IHs T' O. destruct (HD _ _ _ _ O) as [O1 O2].
    destruct (HD _ _ _ _ O1) as [O3 O4]. destruct (HD _ _ _ _ O4) as [O5 _]. constructor; auto.
  - intros T T' O. constructor.
  - intros T k w n x t xs ds N _ IH NS _ IHs T' O. destruct (HD _ _ _ _ O) as [O1 O2].
    destruct (HD _ _ _ _ O1) as [O3 O4]. destruct (HD _ _ _ _ O4) as [O5 _]. constructor; auto.
Qed.

Lemma means_keyword T x t : means G sig E T x t -> is_keyword x = false.
Proof.
  intros H. inversion H; subst; try reflexivity.
  - destruct k; try reflexivity. discriminate H0.
  - match goal with H : word_term _ _ _ _ _ |- _ => inversion H; reflexivity end.
Qed.
Lemma word_no_name o k w t : word_term sig o k w t -> name_of k w = None.
Proof. intros H. destruct H; reflexivity. Qed.
Lemma means_name T k w m t : name_of k w = Some m -> means G sig E T (XT k w) t -> T m = Some t.
Proof.
  intros N M. inversion M; subst; [congruence|]. match goal with H : word_term _ _ _ _ _ |- _ => apply word_no_name in H; congruence end.
Qed.
Section Replace.
Variable T : names_table.
Variables (n : text) (a : sx) (v : term).
Hypothesis HA : means G sig E T a v.
Hypothesis HN : n <> txt "_" /\ n <> txt "as".
Hypothesis HV : var_list [a] = false.
Definition head_ok (x : sx) : Prop := a_name a \/ not_applied n x.
Definition shared (ns : list text) : Prop := forall m, In m ns -> In m (names_in a) -> T m <> None.
Definition sub_rel (T1 T2 : names_table) : Prop :=
  (forall m, m <> n -> T1 m = T2 m) /\ T1 n = Some v /\ T2 n = None /\ on (names_in a) T T2.
Lemma a_means T1 T2 : sub_rel T1 T2 -> means G sig E T2 a v.
Proof. intros (_ & _ & _ & O). exact (proj1 means_on _ _ _ HA _ O). Qed.
Lemma a_keyword : is_keyword a = false.
Proof. exact (means_keyword _ _ _ HA). Qed.
Lemma a_is_name T1 T2 : sub_rel T1 T2 -> a_name a -> exists k w m, a = XT k w /\ name_of k w = Some m /\ T2 m = Some v.
Proof.
  intros S (k & w & m & EA & N). pose proof (a_means _ _ S) as M. exists k, w, m. repeat split; auto.
  rewrite EA in M. exact (means_name _ _ _ _ _ N M).
Qed.
Lemma is_name_spec k w m : name_of k w = Some m -> is_name n k w = text_eqb n m.
Proof. intros N. unfold is_name. now rewrite N. Qed.
Lemma is_name_none k w : name_of k w = None -> is_name n k w = false.
Proof. intros N. unfold is_name. now rewrite N. Qed.
(** The head of an application. *)
Lemma head_replaced T1 T2 k w m u xs : sub_rel T1 T2 -> head_ok (XL (XT k w :: xs)) -> name_of k w = Some m -> T1 m = Some u ->
  exists k' w' m', replace n a (XT k w) = XT k' w' /\ name_of k' w' = Some m' /\ T2 m' = Some u.
Proof.
  intros S H N TU. cbn [replace]. rewrite (is_name_spec _ _ _ N). destruct (text_eqb n m) eqn:X.
  - apply text_eqb_eq in X. subst m. destruct H as [H | H].
    + destruct (a_is_name _ _ S H) as (k' & w' & m' & A & B & C). exists k', w', m'. destruct S as (_ & S & _). rewrite S in TU. injection TU as <-. auto.
    + exfalso. inversion H; subst. rewrite (is_name_spec _ _ _ N), text_eqb_refl in *. discriminate.
  - apply text_eqb_neq in X. exists k, w, m. destruct S as (S & _). rewrite <- S by congruence. auto.
Qed.
Lemma head_sub xs x : head_ok (XL xs) -> In x xs -> head_ok x.
Proof. intros [H | H] I; [now left|]. right. inversion H; subst. rewrite Forall_forall in *. auto. Qed.
Lemma var_list_replaced xs : (forall x, In x xs -> head_ok x) -> var_list (map (replace n a) xs) = var_list xs.
Proof.
  destruct xs as [|[k w | [|[k w | ys] zs]] xs]; intros H; cbn [map replace]; try reflexivity.
  - destruct (is_name n k w); [|reflexivity]. cbn [var_list] in *. exact HV.
  - cbn [var_list]. destruct (is_name n k w) eqn:X; [|reflexivity].
    destruct (H (XL (XT k w :: zs))) as [(k' & w' & m' & EA & _) | H']; [now left | now rewrite EA |]. inversion H'; subst. congruence.
Qed.
Lemma attributes_replaced as_ : attributes as_ -> attributes (map (replace n a) as_).
Proof.
  assert (KR : forall x, is_keyword (replace n a x) = is_keyword x).
  { intros [k w | xs]; cbn [replace]; [|reflexivity]. destruct (is_name n k w) eqn:X; [|reflexivity]. rewrite a_keyword.
    destruct k; try reflexivity. discriminate X. }
  intros H. induction H as [|k xs TF NX _ IH|k x xs TF NX _ IH].
  - constructor.
  - apply at_key; auto. destruct xs as [|x xs]; [exact NX|]. cbn [map]. now rewrite KR.
  - apply at_value; auto. now rewrite KR.
Qed.
Lemma new_not_n T1 T2 m : sub_rel T1 T2 -> T1 m = None -> m <> n /\ T2 m = None.
Proof.
  intros (S1 & S2 & _) H. assert (m <> n) by (intros ->; congruence). split; [assumption|]. now rewrite <- S1.
Qed.
Lemma sub_rel_name T1 T2 m u : sub_rel T1 T2 -> T1 m = None -> shared [m] -> sub_rel (with_name T1 m u) (with_name T2 m u).
Proof.
  intros S H SH. destruct (new_not_n _ _ _ S H) as [N1 N2]. destruct S as (S1 & S2 & S3 & S4). unfold with_name. repeat split.
  - intros q Q. destruct (text_eqb m q); [reflexivity | now apply S1].
  - destruct (text_eqb m n) eqn:X; [apply text_eqb_eq in X; contradiction | exact S2].
  - destruct (text_eqb m n) eqn:X; [apply text_eqb_eq in X; contradiction | exact S3].
  - intros q Q. destruct (text_eqb m q) eqn:X; [|now apply S4]. apply text_eqb_eq in X. subst q.
    exfalso. apply (SH m (or_introl eq_refl) Q). rewrite <- (S4 m Q). exact N2.
Qed.
Lemma sub_rel_names ds : forall T1 T2, sub_rel T1 T2 -> new_names T1 ds -> shared (map fst ds) ->
  sub_rel (with_names T1 ds) (with_names T2 ds) /\ new_names T2 ds.
Proof.
  induction ds as [|[m u] ds IH]; intros T1 T2 S [ND NN] SH.
  - split; [exact S | split; [constructor | constructor]].
  - cbn [map fst] in ND, SH. inversion ND as [|? ? N1 N2]; subst. inversion NN as [|? ? [M1 M2] M3]; subst. cbn [fst snd] in M1, M2.
    assert (SS : sub_rel (with_name T1 m u) (with_name T2 m u)).
    { apply sub_rel_name; auto. intros q [<- | []]. apply SH. now left. }
    assert (W : forall T0, Forall (fun d => T0 (fst d) = None /\ tkind (snd d) <> K_PROOF_RULE) ds ->
              Forall (fun d => with_name T0 m u (fst d) = None /\ tkind (snd d) <> K_PROOF_RULE) ds).
    { intros T0 F. rewrite Forall_forall in *. intros d I. destruct (F d I) as [X1 X2]. split; [|exact X2].
      unfold with_name. destruct (text_eqb m (fst d)) eqn:X; [|exact X1]. apply text_eqb_eq in X. exfalso. apply N1. rewrite X. now apply in_map. }
    destruct (IH _ _ SS) as [A B]; [split; [exact N2 | now apply W] | intros q Q; apply SH; now right |].
    split; [exact A|]. split; [exact ND|]. constructor; [split; [exact (proj2 (new_not_n _ _ _ S M1)) | exact M2]|].
    rewrite Forall_forall in *. intros d I. destruct (M3 d I) as [X1 X2]. split; [exact (proj2 (new_not_n _ _ _ S X1)) | exact X2].
Qed.
Lemma shared_sub x y : incl x y -> shared y -> shared x.
Proof. intros I H m M. exact (H m (I m M)). Qed.

Lemma means_replace :
  (forall T1 x t, means G sig E T1 x t -> forall T2, sub_rel T1 T2 -> shared (names_in x) -> head_ok x ->
    means G sig E T2 (replace n a x) t) /\
  (forall T1 xs ts, means_args G sig E T1 xs ts -> forall T2, sub_rel T1 T2 -> shared (flat_map names_in xs) -> (forall x, In x xs -> head_ok x) ->
    means_args G sig E T2 (map (replace n a) xs) ts) /\
  (forall T1 xs vs T1', means_vars G sig E T1 xs vs T1' -> forall T2, sub_rel T1 T2 -> shared (flat_map names_in xs) -> (forall x, In x xs -> head_ok x) ->
    exists T2', means_vars G sig E T2 (map (replace n a) xs) vs T2' /\ sub_rel T1' T2') /\
  (forall T1 xs ds, means_defs G sig E T1 xs ds -> forall T2, sub_rel T1 T2 -> shared (flat_map names_in xs) -> (forall x, In x xs -> head_ok x) ->
    shared (map fst (map (fun d => (fst (fst d), snd (fst d))) ds)) ->
    Forall (fun d => fst (fst d) <> n) ds -> means_defs G sig E T2 (map (replace n a) xs) ds) /\
  (forall T1 xs ds, means_lets G sig E T1 xs ds -> forall T2, sub_rel T1 T2 -> shared (flat_map names_in xs) -> (forall x, In x xs -> head_ok x) ->
    Forall (fun d => fst d <> n) ds -> means_lets G sig E T2 (map (replace n a) xs) ds).
Proof.
  assert (HD : forall x xs, shared (flat_map names_in (x :: xs)) -> shared (names_in x) /\ shared (flat_map names_in xs)).
  { intros x xs O. split; intros m I; apply O; auto with names. }
  assert (PAIR : forall k w m x, name_of k w = Some m -> m <> n -> replace n a (XL [XT k w; x]) = XL [XT k w; replace n a x]).
  { intros k w m x N D. cbn [replace map]. rewrite (is_name_spec _ _ _ N). replace (text_eqb n m) with false; [reflexivity|].
    symmetry. apply text_eqb_neq. congruence. }
  assert (NN_n : forall T1 ds, T1 n = Some v -> new_names T1 ds -> Forall (fun d => fst d <> n) ds).
  { intros T1 ds X [_ H]. revert H. apply Forall_impl. intros d [H _] EQ. rewrite EQ in H. congruence. }
  apply means_minds.
  - intros T1 k w m u N TV K T2 S _ _. cbn [replace]. rewrite (is_name_spec _ _ _ N). destruct (text_eqb n m) eqn:X.
    + apply text_eqb_eq in X. subst m. assert (u = v) as -> by (destruct S as (_ & S & _); congruence). exact (a_means _ _ S).
    + apply text_eqb_neq in X. apply (me_name G sig E T2 k w m u); auto. destruct S as (S & _). rewrite <- S by congruence. exact TV.
  - intros T1 k w u W T2 S _ _. cbn [replace]. rewrite (is_name_none k w) by (exact (word_no_name _ _ _ _ W)). now apply me_word.
  - intros T1 k w m u xs ts r N TV B _ IH AP T2 S SH H. cbn [names_in] in SH. destruct (HD _ _ SH) as [_ SH2].
    destruct (head_replaced T1 T2 k w m u xs S H N TV) as (k' & w' & m' & E1 & E2 & E3).
    assert (HX : forall x, In x xs -> head_ok x) by (intros x I; apply (head_sub _ _ H); now right).
    change (means G sig E T2 (XL (replace n a (XT k w) :: map (replace n a) xs)) r). rewrite E1.
    apply (me_app G sig E T2 k' w' m' u _ ts r); auto. rewrite var_list_replaced by exact HX. exact B.
  - intros T1 k w m ys xs ts r N ON _ IH AP T2 S SH H. cbn [names_in] in SH.
    assert (HX : forall x, In x (XL (XT k w :: ys) :: xs) -> head_ok x) by (intros x I; apply (head_sub _ _ H); exact I).
    assert (NE : is_name n k w = false).
    { rewrite (is_name_spec _ _ _ N). apply text_eqb_neq. destruct HN, ON; congruence. }
    assert (EQ : map (replace n a) (XL (XT k w :: ys) :: xs) = XL (XT k w :: map (replace n a) ys) :: map (replace n a) xs) by (cbn [map replace]; now rewrite NE).
    change (means G sig E T2 (XL (map (replace n a) (XL (XT k w :: ys) :: xs))) r).
    specialize (IH T2 S SH HX). rewrite EQ in IH |- *. apply (me_app2 G sig E T2 k w m _ _ ts r); auto.
  - intros T1 k w m u vxs xs vs T1' ct vl ts r N TV KB VL _ IHv CO AP1 _ IHx AP2 T2 S SH H. cbn [names_in] in SH.
    destruct (HD _ _ SH) as [_ SH2]. destruct (HD _ _ SH2) as [SH3 SH4].
    destruct (head_replaced T1 T2 k w m u _ S H N TV) as (k' & w' & m' & E1 & E2 & E3).
    assert (HV0 : head_ok (XL vxs)) by (apply (head_sub _ _ H); cbn [In]; auto).
    assert (HVX : forall x, In x vxs -> head_ok x) by (intros x I; exact (head_sub _ _ HV0 I)).
    assert (HX : forall x, In x xs -> head_ok x) by (intros x I; apply (head_sub _ _ H); now right; right).
    destruct (IHv T2 S SH3 HVX) as (T2' & MV & S').
    change (means G sig E T2 (XL (replace n a (XT k w) :: XL (map (replace n a) vxs) :: map (replace n a) xs)) r). rewrite E1.
    apply (me_binder G sig E T2 k' w' m' u _ _ vs T2' ct vl ts r); auto.
    rewrite <- VL. apply (var_list_replaced [XL vxs]). intros x [<- | []]. exact HV0.
  - intros T1 k w m u vxs xs ds ct p l cs prs vl ts r N TV KB VL MD IHd NN CO TC FA AP1 _ IHx AP2 T2 S SH H. cbn [names_in] in SH.
    destruct (HD _ _ SH) as [_ SH2]. destruct (HD _ _ SH2) as [SH3 SH4].
    destruct (head_replaced T1 T2 k w m u _ S H N TV) as (k' & w' & m' & E1 & E2 & E3).
    assert (HV0 : head_ok (XL vxs)) by (apply (head_sub _ _ H); cbn [In]; auto).
    assert (HVX : forall x, In x vxs -> head_ok x) by (intros x I; exact (head_sub _ _ HV0 I)).
    assert (HX : forall x, In x xs -> head_ok x) by (intros x I; apply (head_sub _ _ H); now right; right).
    assert (SD : shared (map fst (map (fun d => (fst (fst d), snd (fst d))) ds))) by exact (shared_sub _ _ (defs_names _ _ _ MD) SH3).
    destruct (sub_rel_names _ _ _ S NN SD) as [S' NN'].
    assert (ND : Forall (fun d : text * term * term => fst (fst d) <> n) ds).
    { pose proof (NN_n _ _ (proj1 (proj2 S)) NN) as F. rewrite Forall_map in F. exact F. }
    change (means G sig E T2 (XL (replace n a (XT k w) :: XL (map (replace n a) vxs) :: map (replace n a) xs)) r). rewrite E1.
    apply (me_let_binder G sig E T2 k' w' m' u _ _ ds ct p l cs prs vl ts r); auto.
    rewrite <- VL. apply (var_list_replaced [XL vxs]). intros x [<- | []]. exact HV0.
  - intros T1 k w bs x ds t LT ML IHl NN _ IHx NS T2 S SH H. cbn [names_in] in SH.
    destruct (HD _ _ SH) as [_ SH2]. destruct (HD _ _ SH2) as [SH3 SH4]. destruct (HD _ _ SH4) as [SH5 _].
    assert (HV0 : head_ok (XL bs)) by (apply (head_sub _ _ H); cbn [In]; auto).
    assert (HVX : forall x, In x bs -> head_ok x) by (intros y I; exact (head_sub _ _ HV0 I)).
    assert (HX : head_ok x) by (apply (head_sub _ _ H); cbn [In]; auto).
    assert (SD : shared (map fst ds)) by exact (shared_sub _ _ (lets_names _ _ _ ML) SH3).
    destruct (sub_rel_names _ _ _ S NN SD) as [S' NN'].
    change (means G sig E T2 (XL [replace n a (XT k w); XL (map (replace n a) bs); replace n a x]) t). cbn [replace].
    rewrite (is_name_none k w) by (destruct k; try discriminate LT; reflexivity).
    apply (me_let G sig E T2 k w _ _ ds t); auto. apply IHl; auto. exact (NN_n _ _ (proj1 (proj2 S)) NN).
  - intros T1 w x as_ t _ IH NS AT T2 S SH H. cbn [names_in] in SH. destruct (HD _ _ SH) as [_ SH2]. destruct (HD _ _ SH2) as [SH3 _].
    change (means G sig E T2 (XL (XT T_ATTRIBUTE w :: replace n a x :: map (replace n a) as_)) t).
    apply me_annotated; auto using attributes_replaced. apply IH; auto. apply (head_sub _ _ H). cbn [In]. auto.
  - intros. constructor.
  - intros T1 x t xs ts _ IH NS _ IHs T2 S SH H. destruct (HD _ _ SH) as [S1 S2]. cbn [map]. constructor; auto.
    + apply IH; auto. apply H. now left.
    + apply IHs; auto. intros y I. apply H. now right.
  - intros T1 T2 S _ _. exists T2. split; [constructor | exact S].
  - intros T1 k w m x ty u xs vs T1' N TN _ IH OT EV VA KP _ IHv T2 S SH H. destruct (HD _ _ SH) as [S1 S2]. cbn [names_in] in S1.
    destruct (HD _ _ S1) as [S3 S4]. destruct (HD _ _ S4) as [S5 _]. destruct (new_not_n _ _ _ S TN) as [N1 N2].
    assert (SM : shared [m]). { intros q [<- | []]. apply S1. now apply in_names_head. }
    destruct (IHv (with_name T2 m u) (sub_rel_name _ _ _ u S TN SM) S2) as (T2' & MV & S').
    { intros y I. apply H. now right. }
    exists T2'. split; [|exact S']. cbn [map]. rewrite (PAIR _ _ _ _ N N1).
    apply (mv_cons G sig E T2 k w m _ ty u _ vs T2'); auto. apply IH; auto.
    apply (head_sub [XT k w; x]); [apply H; now left | right; now left].
  - intros. constructor.
  - intros T1 k w m x t ty xs ds N _ IH OT GR _ IHs T2 S SH H SD F. destruct (HD _ _ SH) as [S1 S2]. cbn [names_in] in S1.
    destruct (HD _ _ S1) as [S3 S4]. destruct (HD _ _ S4) as [S5 _]. inversion F as [|? ? F1 F2]; subst. cbn [fst] in F1.
    cbn [map]. rewrite (PAIR _ _ _ _ N F1). constructor; auto.
    + apply IH; auto. apply (head_sub [XT k w; x]); [apply H; now left | right; now left].
    + apply IHs; auto; [intros y I; apply H; now right | intros q I; apply SD; now right].
  - intros. constructor.
  - intros T1 k w m x t xs ds N _ IH NS _ IHs T2 S SH H F. destruct (HD _ _ SH) as [S1 S2]. cbn [names_in] in S1.
    destruct (HD _ _ S1) as [S3 S4]. destruct (HD _ _ S4) as [S5 _]. inversion F as [|? ? F1 F2]; subst. cbn [fst] in F1.
    cbn [map]. rewrite (PAIR _ _ _ _ N F1). constructor; auto.
    + apply IH; auto. apply (head_sub [XT k w; x]); [apply H; now left | right; now left].
    + apply IHs; auto. intros y I; apply H; now right.
Qed.
End Replace.

Lemma let_replaced T k w k' w' n a b t : name_of k' w' = Some n -> n <> txt "_" -> n <> txt "as" ->
  var_list [a] = false -> a_name a \/ not_applied n b ->
  (forall m, In m (names_in b) -> In m (names_in a) -> T m <> None) -> is_let k = true ->
  means G sig E T (XL [XT k w; XL [XL [XT k' w'; a]]; b]) t -> means G sig E T (replace n a b) t.
Proof.
  intros N N1 N2 VL HO SH LT H. inversion H; subst.
  - exfalso. destruct k; try discriminate LT; discriminate.
  - exfalso. destruct k; try discriminate LT; discriminate.
  - exfalso. destruct k; try discriminate LT; discriminate.
  - match goal with H : means_lets _ _ _ _ _ _ |- _ => inversion H; subst end.
    match goal with H : means_lets _ _ _ _ [] _ |- _ => inversion H; subst end.
    match goal with H : name_of k' w' = Some ?m |- _ => assert (m = n) by congruence; subst m end.
    match goal with H : new_names _ _ |- _ => destruct H as [_ NN] end. inversion NN as [|? ? [M1 _] _]; subst. cbn [fst] in M1.
    cbn [with_names fold_left fst snd] in *.
    match goal with HB : means _ _ _ (with_name T n ?v) b t, HA : means _ _ _ T a ?v |- _ =>
      apply (proj1 (means_replace T n a v HA (conj N1 N2) VL) _ _ _ HB) end; auto.
    split; [|split; [|split]].
    + intros m D. unfold with_name. destruct (text_eqb n m) eqn:X; [apply text_eqb_eq in X; congruence | reflexivity].
    + unfold with_name. now rewrite text_eqb_refl.
    + exact M1.
    + intros m _. reflexivity.
  - discriminate LT.
Qed.
End Local.
