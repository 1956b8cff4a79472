(** Names that are bound inside a term and outside of it: proofs. *)
From Coq Require Import String ZArith List Bool Lia.
From Verif Require Import Base Kind Ints Str Literal Arity Term TermProofs Match Eval ListOps Typing Build Scope SpecScope ScopeProofs
  Lexer Parse SpecRead LocalProofs MonoProofs SpecEnv EnvProofs SpecHide.
Import ListNotations.
Open Scope Z_scope.

Section Hide.
Variable G : config.
Variable sig : bool.

Lemma scope_env s s' : only_scope s s' -> same_but_over (env_of G s) (env_of G s').
Proof.
  intros O. unfold only_scope in O. rewrite O. constructor; try reflexivity. intros t. unfold attribute. cbn [env_of e_info set_scope s_scope s_marks].
  destruct (builtin_kind t), (s_marks s t) as [[a c]|], (overloads_of (s_scope s) t), (overloads_of (s_scope s') t); reflexivity.
Qed.
Lemma scope_type s s' n t : only_scope s s' -> tc_type (tc (env_of G s') n) t = tc_type (tc (env_of G s) n) t.
Proof. intros O. apply (tc_same _ _ (scope_env _ _ O)). Qed.

Lemma curried_children f ts : ts <> [] -> mkApplyChildren (f :: ts) = Ok (curried f ts).
Proof. intros N. unfold mkApplyChildren. destruct ts as [|x [|y ts]]; [contradiction|reflexivity|reflexivity]. Qed.
Lemma mkExprPlain_curried E T f ts : ~ In (tkind f) [K_LAMBDA; K_PROGRAM_CONST; K_PROOF_RULE; K_BUILTIN_CONST; K_NONE] -> ts <> [] ->
  mkExprPlain E T (f :: ts) = Ok (curried f ts).
Proof.
  intros N NE. unfold mkExprPlain. rewrite (curried_children f ts NE).
  assert (P : match tkind f with K_PROGRAM_CONST | K_PROOF_RULE => Ok (Node K_APPLY (f :: ts)) | _ => Ok (curried f ts) end = Ok (curried f ts)).
  { destruct (tkind f); try reflexivity; exfalso; apply N; cbn; auto. }
  rewrite P. destruct f as [k i|l|k cs]; cbn [tkind] in *; try reflexivity; destruct k; try reflexivity; exfalso; apply N; cbn; auto.
Qed.
(** An application of a term whose last alternative, if it has any, is the term itself. *)
Lemma applied_last s f ts ty : builtin_kind f = K_NONE -> s_marks s f = None ->
  ~ In (tkind f) [K_LAMBDA; K_PROGRAM_CONST; K_PROOF_RULE; K_BUILTIN_CONST; K_NONE] -> ts <> [] -> g_mk G <> 0%nat ->
  overloads_of (s_scope s) f = None \/ (exists ov, overloads_of (s_scope s) f = Some (ov ++ [f])) ->
  of_type G s (curried f ts) ty -> applied G s (f :: ts) (curried f ts).
Proof.
  intros B M N NE FU O T. unfold applied. destruct (g_mk G) as [|m]; [contradiction|]. unfold of_type in T.
  assert (EI : e_info (env_of G s) f = match overloads_of (s_scope s) f with None => None | o => Some (mkInfo A_NONE None K_NONE o) end).
  { cbn [env_of e_info]. rewrite B, M. destruct (overloads_of (s_scope s) f); reflexivity. }
  set (E := env_of G s) in *. clearbody E. cbn [mkExpr mkExprApply].
  destruct O as [O | (ov & O)]; rewrite EI, O; [now apply mkExprPlain_curried|]. cbn [ai_kind ai_over]. rewrite rev_app_distr. cbn [rev app getOverload].
  assert (TR : try_overload E (mkExpr E (g_n G) m) (tc E (g_n G)) f (f :: ts) = Ok (Some (curried f ts, ty))).
  { unfold try_overload. cbn [tl]. rewrite EI, O. unfold computeConstructorTerm. cbn [ai_cterm bind mkApplyAttr ai_cons].
    rewrite (curried_children f ts NE). cbn [bind]. rewrite T. reflexivity. }
  rewrite TR. reflexivity.
Qed.
Lemma bind_sees rt s n e c F : rel F s -> is_rule rt e = false -> bind_sym rt s n e = Some c ->
  c_sym c n = Some e /\ (forall m, m <> n -> c_sym c m = c_sym s m) /\
  (c_mark s e = None -> overloads_of c e = None \/ exists ov, overloads_of c e = Some (ov ++ [e])) /\
  (forall t, t <> e -> c_mark s t <> Some n -> overloads_of c t = overloads_of s t).
Proof.
  intros R RU B. unfold bind_sym in B. unfold is_rule in RU. rewrite RU in B.
  destruct (c_sym s n) as [old|]; injection B as <-; cbn [c_sym c_over c_mark]; unfold overloads_of; cbn [c_mark c_over].
  - split; [unfold tset; now rewrite (proj2 (text_eqb_eq n n) eq_refl)|]. split.
    { intros m D. unfold tset. destruct (text_eqb n m) eqn:Q; [apply text_eqb_eq in Q; congruence | reflexivity]. }
    split.
    + intros _. right. rewrite term_eqb_refl. cbn [option_map]. unfold tset. rewrite (proj2 (text_eqb_eq n n) eq_refl). eauto.
    + intros t D1 D2. destruct (term_eqb e t) eqn:Q; [apply term_eqb_eq in Q; congruence|]. destruct (c_mark s t) as [m|]; [|reflexivity]. cbn [option_map]. unfold tset.
      destruct (text_eqb n m) eqn:Q2; [apply text_eqb_eq in Q2; congruence | reflexivity].
  - split; [unfold tset; now rewrite (proj2 (text_eqb_eq n n) eq_refl)|]. split.
    { intros m D. unfold tset. destruct (text_eqb n m) eqn:Q; [apply text_eqb_eq in Q; congruence | reflexivity]. }
    split; [|reflexivity]. intros H. left. now rewrite H.
Qed.
Lemma words_read s s2 n f xs ts : (forall m, m <> n -> getVar (s_scope s2) m = getVar (s_scope s) m) -> getVar (s_scope s2) n = Some f ->
  s_opts s2 = s_opts s -> tkind f <> K_BUILTIN_CONST -> ~ skipped f ->
  Forall2 (word_where sig s n f) xs ts -> reads_args G sig s2 xs ts s2.
Proof.
  intros O T OP NB NS. induction 1 as [|x t xs ts W _ IH]; [apply ra_nil|].
  assert (S1 : reads G sig s2 x t s2 /\ ~ skipped t).
  { destruct W as [k w N | k w m v N D V KV SK | k w v W SK].
    - split; [|exact NS]. now apply (rd_name G sig s2 k w n f).
    - split; [|exact SK]. apply (rd_name G sig s2 k w m v); auto. now rewrite O.
    - split; [|exact SK]. apply rd_word. now rewrite OP. }
  destruct S1. eapply ra_cons; eassumption.
Qed.

Lemma let_applied s F k0 w0 k1 w1 k2 w2 n xe xs f s1 ts ty : rel F (s_scope s) -> is_let k0 = true ->
  name_of k1 w1 = Some n -> name_of k2 w2 = Some n -> reads G sig s xe f s1 -> plain_function s1 f ->
  Forall2 (word_where sig s n f) xs ts -> ts <> [] -> g_mk G <> 0%nat -> of_type G s (curried f ts) ty ->
  exists s2, reads G sig s (XL [XT k0 w0; XL [XL [XT k1 w1; xe]]; XL (XT k2 w2 :: xs)]) (curried f ts) s2.
Proof.
  intros R LT N1 N2 RX [PB PM PO PK] W NE FU T. destruct (proj1 (reads_kept G sig) _ _ _ _ RX) as [OS RK]. specialize (RK _ R).
  assert (RU : is_rule (o_ruleSymTable (s_opts s1)) f = false).
  { unfold is_rule. destruct (tkind f) eqn:TK; cbn; try apply andb_false_r. exfalso. apply PK. cbn; auto. }
  assert (NB : tkind f <> K_BUILTIN_CONST) by (intros Q; apply PK; rewrite Q; cbn; auto 6).
  assert (NS : ~ skipped f) by (intros Q; apply PK; rewrite Q; cbn; auto 6).
  destruct F as [fs g]. pose proof (push_rel _ _ _ RK) as R1.
  destruct (bind_rel (o_ruleSymTable (s_opts s1)) _ _ n f R1 RU) as (c & B & R2 & _).
  destruct (bind_sees _ _ _ _ _ _ R1 RU B) as (V1 & V2 & V3 & _).
  set (s2 := set_scope c (entered s1)).
  assert (O12 : only_scope s s2) by (apply (os_trans s s1); [exact OS | reflexivity]).
  destruct (kept_names s s1 _ (proj1 (reads_kept G sig) _ _ _ _ RX) R) as (_ & GV & _).
  assert (AR : reads_args G sig s2 xs ts s2).
  { apply (words_read s s2 n f); auto.
    - intros m D. unfold s2. cbn [set_scope s_scope]. unfold getVar. rewrite V2 by exact D. exact (GV m).
    - rewrite O12. reflexivity. }
  assert (CM : c_mark (s_scope s1) f = None) by (unfold overloads_of in PO; destruct (c_mark (s_scope s1) f); [discriminate | reflexivity]).
  assert (AP : applied G s2 (f :: ts) (curried f ts)).
  { apply (applied_last s2 f ts ty); auto. unfold of_type in *. now rewrite (scope_type _ _ _ _ O12). }
  assert (RB : reads G sig s2 (XL (XT k2 w2 :: xs)) (curried f ts) s2).
  { eapply rd_app; [exact N2 | exact V1 | | exact AR | exact AP].
    assert (CK : getConstructorKind (env_of G s2) f = A_NONE); [|now rewrite CK].
    unfold getConstructorKind. cbn [env_of e_info s2 set_scope entered s_marks]. unfold s2. cbn [set_scope entered s_marks s_scope]. rewrite PB, PM.
    destruct (overloads_of c f); reflexivity. }
  destruct (pop_rel [(n, f)] fs g c R2) as (c' & P' & _).
  exists (set_scope c' s2). change [XT k0 w0; XL [XL [XT k1 w1; xe]]; XL (XT k2 w2 :: xs)] with (XT k0 w0 :: XL [XL [XT k1 w1; xe]] :: [] ++ [XL (XT k2 w2 :: xs)]).
  eapply rd_let with (ds := [(n, f)]) (s1 := s1) (s2 := s2) (s3 := s2) (s4 := s2).
  - exact LT.
  - change [XT k1 w1; xe] with (XT k1 w1 :: [] ++ [xe]). eapply rl_cons; [exact N1 | apply ra_nil | exact RX | exact NS | apply rl_nil].
  - eapply ni_cons; [exact B | apply ni_nil].
  - apply ra_nil.
  - exact RB.
  - unfold curried, skipped. clear - NE. rewrite <- (rev_involutive ts) in NE |- *. destruct (rev ts) as [|x r]; [contradiction|]. cbn [rev]. rewrite fold_left_app. discriminate.
  - exists c'. split; [exact P' | reflexivity].
Qed.
End Hide.
