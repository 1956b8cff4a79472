(** Everything that can be named or looked up is made of symbols that exist: reading keeps this. *)
From Coq Require Import String ZArith List Bool Lia.
From Verif Require Import Base Kind Ints Str Literal Arity Term TermProofs Match Eval ListOps Typing Build Scope SpecScope ScopeProofs Lexer Parse Check SpecTerm SpecCheck FrontProofs CheckProofs InvProofs SpecEnv SpecMade MadeProofs MadeProofs2.
Import ListNotations.
Open Scope Z_scope.

Section Used.
Variable G : config.
Variable Sy : kind -> Z -> Prop.
Variable ok : list (nat * event) -> Prop.
Hypothesis VF : forall n t, g_varinfo G (g_bvar G n t) = Some (n, t).
Hypothesis OT : forall a b, ok (a ++ b) -> ok b.
(** The symbols that are made are in the set, and so are those of the start and the placeholders. *)
Hypothesis OS : forall j k i ty l, ok ((j, EvSymbol (Sym k i) ty) :: l) -> Sy k i.
Hypothesis SB : forall k i, i < n_builtins + 6 -> Sy k i.
Notation Qn := (made_of Sy (g_varinfo G)).

Record Inv (d : nat) (s : st) : Prop := mkInv {
  iv_F : exists F, rel F (s_scope s) /\ length (fst F) = d /\ Forall (fun d : decl => Qn (snd d)) (visible F);
  iv_types : forall t ty, s_types s t = Some ty -> Qn ty;
  iv_marks : forall t a c, s_marks s t = Some (a, Some c) -> Qn c;
  iv_lits : forall k t, s_lits s k = Some t -> Qn t;
  iv_asm : Forall Qn (s_asm s) }.

Lemma named_Q name ds : Forall (fun d : decl => Qn (snd d)) ds -> Forall Qn (named name ds).
Proof. intros H. rewrite Forall_forall in *. intros e I. apply named_in in I. exact (H _ I). Qed.
Lemma inv_getVar d s name v : Inv d s -> getVar (s_scope s) name = Some v -> Qn v.
Proof.
  intros I H. destruct (iv_F _ _ I) as (F & R & _ & V). unfold getVar in H.
  rewrite (co_sym _ _ _ (re_core _ _ R)) in H. apply (named_Q name) in V. unfold visible in V.
  destruct (named name (concat (fst F) ++ snd F)); [discriminate|]. injection H as ->. now inversion V.
Qed.
Lemma Q_built k i : k <> K_VARIABLE -> (i <? n_builtins + 6) = true -> Qn (Sym k i).
Proof. intros A B. apply mo_symbol; [exact A|]. apply SB. now apply Z.ltb_lt. Qed.
Lemma Q_bvar name t : Qn t -> Qn (Sym K_VARIABLE (g_bvar G name t)).
Proof. intros H. apply (mo_variable _ _ _ name t); [apply VF | exact H]. Qed.
Lemma cterm_Q d s t ai c : Inv d s -> e_info (env_of G s) t = Some ai -> ai_cterm ai = Some c -> Qn c.
Proof.
  intros I A C. apply info_spec in A. destruct A as (_ & _ & A).
  destruct (s_marks s t) as [[a c']|] eqn:M; injection A as A1 A2; [|congruence].
  rewrite C in A2. subst c'. exact (iv_marks _ _ I _ _ _ M).
Qed.
Lemma closed_of d s : Inv d s -> closed_under Sy (g_varinfo G) (env_of G s).
Proof.
  intros I. constructor; cbn [env_of e_symtype e_littype e_bvar e_listType e_listCons e_listNil e_proofType].
  - intros k i t H E. assert (V : k <> K_VARIABLE -> Qn t).
    { intros NV. apply (iv_types _ _ I (Sym k i)). destruct k; try exact E. contradiction. }
    destruct k; try (apply V; discriminate). inversion H as [? ? X | i' m u X Y | |]; subst; [contradiction|].
    rewrite X in E. injection E as <-. exact Y.
  - intros t ai c _ A C. exact (cterm_Q d s t ai c I A C).
  - intros k t E. exact (iv_lits _ _ I k t E).
  - intros m t H. apply Q_bvar. exact H.
  - apply Q_built; [discriminate | reflexivity].
  - apply Q_built; [discriminate | reflexivity].
  - apply Q_built; [discriminate | reflexivity].
  - apply Q_built; [discriminate | reflexivity].
  - apply SB. reflexivity.
Qed.
Lemma ready_of d s : Inv d s -> ready Sy (g_varinfo G) (env_of G s).
Proof.
  intros I. constructor; [exact (closed_of d s I) | |].
  - intros t ai ov _ A B. apply info_spec in A. destruct A as (_ & A & _). rewrite B in A.
    destruct (iv_F _ _ I) as (F & R & _ & V). unfold overloads_of in A.
    destruct (c_mark (s_scope s) t) as [m|]; [|discriminate A]. injection A as ->.
    rewrite (co_over _ _ _ (re_core _ _ R)). apply (named_Q m) in V. unfold visible in V.
    rewrite Forall_forall in *. intros e X. apply alternatives_in in X. exact (V e X).
  - intros i H. apply SB. assert (0 <= n_builtins) by (vm_compute; discriminate). lia.
Qed.

(* ------------------------------------------------------------------ *)
(** * Triples *)
(** From a state with [d] scopes to one with [d' a]; the result satisfies [post]. *)
Definition T {A : Type} (d : nat) (m : M A) (d' : A -> nat) (post : A -> Prop) : Prop :=
  forall p a p', Inv d (snd p) -> ok (s_log (snd p')) -> m p = Ok (a, p') -> Inv (d' a) (snd p') /\ post a.

Lemma ok_grows s s' : grows s s' -> ok (s_log s') -> ok (s_log s).
Proof. intros [l L] H. rewrite L in H. exact (OT _ _ H). Qed.
Lemma T_bind A B d (m : M A) (f : A -> M B) d1 post1 d2 post2 :
  T d m d1 post1 -> (forall a, pres grows (f a)) -> (forall a, post1 a -> T (d1 a) (f a) d2 post2) ->
  T d (mbind m f) d2 post2.
Proof.
  intros Hm Hg Hf p b p' I O H. apply mbind_ok in H. destruct H as (a & p1 & H1 & H2).
  assert (O1 : ok (s_log (snd p1))) by (apply ok_grows with (2 := O); exact (Hg a _ _ _ H2)).
  destruct (Hm _ _ _ I O1 H1) as [I1 P1]. exact (Hf a P1 _ _ _ I1 O H2).
Qed.
Lemma T_conseq A d (m : M A) d1 post1 d2 post2 : T d m d1 post1 ->
  (forall a, post1 a -> d1 a = d2 a /\ post2 a) -> T d m d2 post2.
Proof.
  intros Hm Hi p a p' I O H. destruct (Hm _ _ _ I O H) as [I1 P1]. destruct (Hi a P1) as [<- X]. auto.
Qed.
Lemma T_post A d (m : M A) d1 (post1 post2 : A -> Prop) : T d m d1 post1 -> (forall a, post1 a -> post2 a) -> T d m d1 post2.
Proof. intros H X. apply (T_conseq _ _ _ _ _ _ _ H). auto. Qed.
Lemma T_ret A d (a : A) d' (post : A -> Prop) : d' a = d -> post a -> T d (mret a) d' post.
Proof. intros E X p b p' I O H. apply mret_ok in H. destruct H as [-> ->]. rewrite E. auto. Qed.
Lemma T_err A d d' (post : A -> Prop) : T d merr d' post.
Proof. intros p b p' I O H. discriminate H. Qed.
Lemma T_fuel A d d' (post : A -> Prop) : T d (fun _ => Fuel) d' post.
Proof. intros p b p' I O H. discriminate H. Qed.
Lemma T_lift A d (r : res A) : T d (mlift r) (fun _ => d) (fun a => r = Ok a).
Proof. intros p b p' I O H. apply mlift_ok in H. destruct H as [-> ->]. auto. Qed.
Lemma T_ub A d d' (post : A -> Prop) : T d (mlift UB) d' post.
Proof. intros p b p' I O H. discriminate H. Qed.
Lemma T_lex A d (f : lexer -> res (A * lexer)) : T d (mlex f) (fun _ => d) (fun _ => True).
Proof. intros p b p' I O H. apply mlex_ok in H. rewrite H. auto. Qed.
Lemma T_get d : T d mget (fun _ => d) (Inv d).
Proof. intros p b p' I O H. apply mget_ok in H. destruct H as [-> ->]. auto. Qed.
Lemma T_upd d d' f : (forall s, ok (s_log (f s)) -> Inv d s -> Inv d' (f s)) -> T d (mupd f) (fun _ => d') (fun _ => True).
Proof. intros X p b p' I O H. apply mupd_ok in H. subst p'. split; [exact (X _ O I) | exact Logic.I]. Qed.
Lemma T_loop S A (body : S -> M (S + A)) (dS : S -> nat) dA (J : S -> Prop) (post : A -> Prop) :
  (forall s, pres grows (body s)) ->
  (forall s, J s -> T (dS s) (body s) (fun r => match r with inl s' => dS s' | inr a => dA a end)
                      (fun r => match r with inl s' => J s' | inr a => post a end)) ->
  forall fuel s, J s -> T (dS s) (mloop fuel body s) dA post.
Proof.
  intros Hg Hb fuel. induction fuel as [|k IH]; intros s HJ; cbn [mloop]; [apply T_fuel|].
  eapply T_bind; [exact (Hb s HJ) | |].
  - intros [s' | a]; [apply pres_loop; [exact grows_po | exact Hg] | apply pres_ret; exact grows_po].
  - intros [s' | a] X; [exact (IH s' X) | apply T_ret; auto].
Qed.
Lemma T_for A d (f : A -> M unit) (J : A -> Prop) : (forall a, pres grows (f a)) ->
  (forall a, J a -> T d (f a) (fun _ => d) (fun _ => True)) ->
  forall l, Forall J l -> T d (mfor l f) (fun _ => d) (fun _ => True).
Proof.
  intros Hg Hf l. induction l as [|x l IH]; intros H; cbn [mfor]; [now apply T_ret|].
  inversion H as [|x' l' X Y]; subst. eapply T_bind; [exact (Hf x X) | |].
  - intros _. apply pres_for; [exact grows_po | exact Hg].
  - intros ? _. exact (IH Y).
Qed.
Lemma T_map A B d (f : A -> M B) (J : A -> Prop) (K : B -> Prop) : (forall a, pres grows (f a)) ->
  (forall a, J a -> T d (f a) (fun _ => d) K) ->
  forall l, Forall J l -> T d (mmap l f) (fun _ => d) (Forall K).
Proof.
  intros Hg Hf l. induction l as [|x l IH]; intros H; cbn [mmap]; [now apply T_ret|].
  inversion H as [|x' l' X Y]; subst. eapply T_bind; [exact (Hf x X) | |].
  - intros b. apply pres_bind; [exact grows_po | apply pres_map; [exact grows_po | exact Hg] |].
    intros bs. apply pres_ret. exact grows_po.
  - intros b Kb. eapply T_bind; [exact (IH Y) | intros bs; apply pres_ret; exact grows_po |].
    intros bs Kbs. apply T_ret; [reflexivity | constructor; assumption].
Qed.

(* ------------------------------------------------------------------ *)
(** * Primitive commands *)
(** A change that concerns none of the parts. *)
Lemma Inv_eq d s s' : Inv d s -> s_scope s' = s_scope s -> s_marks s' = s_marks s -> s_types s' = s_types s ->
  s_lits s' = s_lits s -> s_asm s' = s_asm s -> Inv d s'.
Proof. intros [A C D E X] H1 H2 H3 H4 H6. constructor; rewrite ?H1, ?H2, ?H3, ?H4, ?H6; assumption. Qed.
Lemma logEvent_T d e : T d (logEvent e) (fun _ => d) (fun _ => True).
Proof. apply T_upd. intros s _ I. now apply (Inv_eq d s). Qed.

Lemma Inv_scope d d' s c F : Inv d s -> rel F c -> length (fst F) = d' -> Forall (fun d : decl => Qn (snd d)) (visible F) -> Inv d' (set_scope c s).
Proof. intros [_ C D E X] R L A. constructor; cbn [set_scope s_scope s_marks s_types s_lits s_asm]; try assumption. exists F. auto. Qed.
Lemma bindState_T d name e : Qn e -> T d (bindState name e) (fun _ => d) (fun _ => True).
Proof.
  intros He p b p' I O H. unfold bindState in H. mstep H as s p1 E. mstate E.
  destruct (bind_sym _ _ _ _) as [c|] eqn:B.
  - mstep H as u p2 E2. apply mupd_ok in E2. subst p2. apply mret_ok in H. destruct H as [-> ->]. split; [|exact Logic.I].
    cbn [snd]. destruct (iv_F _ _ I) as (F & R & L & A).
    destruct (is_rule (o_ruleSymTable (s_opts (snd p))) e) eqn:RU.
    + destruct (rule_rel _ _ _ _ _ _ R RU B) as [R' _]. now apply Inv_scope with (d := d) (F := F).
    + destruct (bind_rel _ F (s_scope (snd p)) name e R RU) as (c' & B' & R' & _). rewrite B in B'. injection B' as <-.
      destruct F as [[|f fs] g]; cbn [declare fst snd] in *.
      * apply Inv_scope with (d := d) (F := ([], (name, e) :: g)); auto. constructor; assumption.
      * apply Inv_scope with (d := d) (F := (((name, e) :: f) :: fs, g)); auto. constructor; assumption.
  - apply mret_ok in H. destruct H as [-> ->]. auto.
Qed.
Lemma bindM_T d name e : Qn e -> T d (bindM name e) (fun _ => d) (fun _ => True).
Proof.
  intros He. unfold bindM. eapply T_bind; [exact (bindState_T d name e He) | |].
  - intros [|]; [apply pres_ret; exact grows_po | apply pres_err].
  - intros [|] _; [now apply T_ret | apply T_err].
Qed.
Lemma pushM_T d : T d pushM (fun _ => S d) (fun _ => True).
Proof.
  apply T_upd. intros s _ I. destruct (iv_F _ _ I) as ([fs g] & R & L & A). cbn [fst snd] in *.
  apply Inv_scope with (d := d) (F := ([] :: fs, g)); auto.
  - apply push_rel. exact R.
  - cbn [fst length]. now rewrite L.
Qed.
Lemma popM_T d : T (S d) popM (fun _ => d) (fun _ => True).
Proof.
  intros p b p' I O H. unfold popM in H. mstep H as s p1 E. mstate E. mstep H as c p2 E2. apply mlift_ok in E2.
  destruct E2 as [E2 ->]. apply mupd_ok in H. subst p'. split; [|exact Logic.I]. cbn [snd].
  destruct (iv_F _ _ I) as ([[|f fs] g] & R & L & A); cbn [fst snd length] in *; [discriminate|].
  destruct (pop_rel _ _ _ _ R) as (c' & P' & R' & _). rewrite E2 in P'. injection P' as <-.
  apply Inv_scope with (d := S d) (F := (fs, g)); auto. unfold visible in *. cbn [fst snd concat] in *.
  rewrite <- app_assoc in A. apply Forall_app in A. apply A.
Qed.
Lemma popN_T d : forall k, T (k + d) (popN k) (fun _ => d) (fun _ => True).
Proof.
  induction k as [|k IH]; cbn [popN]; [now apply T_ret|].
  eapply T_bind; [apply (popM_T (k + d)) | |].
  - intros _. apply (pres_popN grows grows_reading).
  - intros ? _. exact IH.
Qed.
Lemma getVarM_T d name : T d (getVarM name) (fun _ => d) Qn.
Proof.
  unfold getVarM. eapply T_bind; [apply T_get | |].
  - intros s. destruct (getVar _ _); [apply pres_ret; exact grows_po | apply pres_err].
  - intros s I. destruct (getVar (s_scope s) name) as [v|] eqn:E; [|apply T_err].
    apply T_ret; [reflexivity | exact (inv_getVar d s name v I E)].
Qed.
Lemma mkE_T d k cs : T d (mkE G k cs) (fun _ => d) (fun r => Forall Qn cs -> Qn r).
Proof.
  unfold mkE. eapply T_bind; [apply T_get | intros s; apply pres_lift; exact grows_po |].
  intros s I. eapply T_post; [apply T_lift|]. cbn beta. intros r E C.
  exact (mkExpr_Q Sy (g_varinfo G) _ _ (ready_of d s I) _ _ _ _ C E).
Qed.
Lemma typeOf_T d e : Qn e -> T d (typeOf G e) (fun _ => d) (fun r => forall t, r = Some t -> Qn t).
Proof.
  intros H. unfold typeOf. eapply T_bind; [apply T_get | intros s; apply pres_lift; exact grows_po |].
  intros s I. eapply T_post; [apply T_lift|]. cbn beta. intros r E t ->.
  exact (proj1 (tc_Q _ _ _ (closed_of d s I) _) e t H E).
Qed.
Lemma typeCheck_T d e : Qn e -> T d (typeCheck G e) (fun _ => d) Qn.
Proof.
  intros H. unfold typeCheck. eapply T_bind; [exact (typeOf_T d e H) | |].
  - intros [t|]; [apply pres_ret; exact grows_po | apply pres_err].
  - intros [t|] X; [apply T_ret; auto | apply T_err].
Qed.
Lemma typeCheckAs_T d e t : T d (typeCheckAs G e t) (fun _ => d) (fun _ => True).
Proof.
  intros p a p' I _ H. unfold typeCheckAs, typeCheck, typeOf in H.
  mstep H as x p1 E. mstep E as y p2 E2. mstep E2 as s p3 E3. apply mget_ok in E3. destruct E3 as [-> ->].
  apply mlift_ok in E2. destruct E2 as [_ ->]. destruct y; [|discriminate E]. apply mret_ok in E. destruct E as [-> ->].
  destruct (term_eqb _ t); [|discriminate H]. apply mret_ok in H. destruct H as [-> ->]. auto.
Qed.
Lemma mkLit_T d k s : T d (mkLit k s) (fun _ => d) Qn.
Proof.
  unfold mkLit. eapply T_bind; [apply T_lift | intros; apply pres_ret; exact grows_po |].
  intros l _. apply T_ret; [reflexivity | apply mo_literal].
Qed.
Lemma checkPair_T d a b : T d (checkPair a b) (fun _ => d) (fun _ => True).
Proof. unfold checkPair. eapply T_post; [apply T_lift | auto]. Qed.
Lemma mkSymbol_T d k name ty : sym_kind k = true -> k <> K_VARIABLE -> (forall t, ty = Some t -> Qn t) ->
  T d (mkSymbol k name ty) (fun _ => d) (fun v => Qn v /\ tkind v = k).
Proof.
  intros K V H p a p' I O E. destruct p as [l s]. cbv [mkSymbol mbind mget mupd logEvent mret bind fst snd] in E.
  injection E as <- <-. cbn [snd s_log set_log] in *.
  split; [|split; [apply mo_symbol; [exact V | exact (OS _ _ _ _ _ O)] | reflexivity]].
  destruct I as [(F & A & A1 & A2) C D E X].
  constructor; cbn [set_log set_next set_names set_types set_marks set_scope s_scope s_marks s_types s_lits s_asm]; try assumption.
  - exists F. split; [|auto]. destruct A as [R1 R2 R3]. constructor; [|exact R2 | exact R3]. destruct R1 as [C1 C2 C3]. now constructor.
  - intros t u. destruct (match t with Sym _ _ => _ | _ => _ end); [apply H | apply C].
  - intros t a c. destruct (match t with Sym _ _ => _ | _ => _ end); [discriminate | apply D].
Qed.
Lemma markM_T d v a ct : (forall c, ct = Some c -> Qn c) -> T d (markM v a ct) (fun _ => d) (fun _ => True).
Proof.
  intros H p b p' I O E. split; [|exact Logic.I]. destruct p as [l s]. cbv [markM mbind mget bind fst snd] in E.
  destruct (markConstructorKind (s_marks s) v a ct) as [m c] eqn:M. unfold markConstructorKind in M. destruct c.
  - cbv [mbind mupd logEvent mret bind fst snd] in E. injection E as <- <-. cbn [snd set_log s_log set_marks s_asmctx] in *.
    destruct (s_marks s v) eqn:W; [discriminate M|]. injection M as <-.
    destruct I as [A C D E X]. constructor; cbn [set_log set_marks s_scope s_marks s_types s_lits s_asm]; try assumption.
    intros t a' c'. destruct (term_eqb v t); [|apply D]. intros Z. injection Z as -> ->. now apply H.
  - apply mret_ok in E. destruct E as [-> ->]. exact I.
Qed.
Lemma defineProgram_T d v p : Qn p -> T d (defineProgram v p) (fun _ => d) (fun _ => True).
Proof.
  intros H. unfold defineProgram. eapply T_bind; [apply markM_T | intros; apply pres_ret; exact grows_po | intros ? _; now apply T_ret].
  intros c E. now injection E as <-.
Qed.
Lemma T_new (A : Type) d name t args (f : term -> term -> M A) d' post : Qn t ->
  (forall prog ppat, pres grows (f prog ppat)) ->
  (forall prog, Qn prog -> tkind prog = K_PROGRAM_CONST -> T d (f prog (Node K_APPLY (prog :: args))) d' post) ->
  T d (let! prog := mkSymbol K_PROGRAM_CONST name (Some t) in let! ppat := mkE G K_APPLY (prog :: args) in f prog ppat) d' post.
Proof.
  intros HT PG H p a p' I O E. mstep E as prog p1 E1. mstep E as ppat p2 E2.
  destruct (InvProofs.mkE_new G _ _ _ _ _ _ _ _ E1 E2) as [-> ->].
  pose proof (ok_grows _ _ (PG _ _ _ _ _ E) O) as O1.
  destruct (mkSymbol_T d K_PROGRAM_CONST name (Some t) eq_refl ltac:(discriminate) ltac:(intros u X; injection X as <-; exact HT) _ _ _ I O1 E1) as [I1 [HQ HK]].
  exact (H prog HQ HK _ _ _ I1 O E).
Qed.

(* ------------------------------------------------------------------ *)
(** * Methods *)
Lemma mkE_T' d k cs : Forall Qn cs -> T d (mkE G k cs) (fun _ => d) Qn.
Proof. intros C. eapply T_post; [exact (mkE_T d k cs)|]. auto. Qed.
Lemma next_T d : T d next (fun _ => d) (fun _ => True). Proof. apply T_lex. Qed.
Lemma peek_T d : T d peek (fun _ => d) (fun _ => True). Proof. apply T_lex. Qed.
Lemma reinsert_T d t : T d (reinsert t) (fun _ => d) (fun _ => True). Proof. apply T_lex. Qed.
Lemma eat_T d t : T d (eat t) (fun _ => d) (fun _ => True). Proof. apply T_lex. Qed.
Lemma eatChoice_T d t f : T d (eatChoice t f) (fun _ => d) (fun _ => True). Proof. apply T_lex. Qed.
Lemma tokText_T d : T d tokText (fun _ => d) (fun _ => True). Proof. apply T_lex. Qed.
Lemma tokSymbol_T d t : T d (tokSymbol t) (fun _ => d) (fun _ => True). Proof. apply T_lex. Qed.

Ltac qs := repeat first [assumption | apply Q_fun | apply Q_Type | apply Q_Bool | apply Q_Any | apply Q_null | apply mo_literal
  | solve [apply Q_built; [discriminate | reflexivity]]
  | apply okk_node | apply Forall_cons | solve [apply Forall_nil]
  | apply Forall_app; split | apply Forall_rev].
Ltac tlem0 := lazymatch goal with
  | |- T _ (mlex _) _ _ => apply T_lex
  | |- T _ next _ _ => apply next_T
  | |- T _ peek _ _ => apply peek_T
  | |- T _ (reinsert _) _ _ => apply reinsert_T
  | |- T _ (eat _) _ _ => apply eat_T
  | |- T _ (eatChoice _ _) _ _ => apply eatChoice_T
  | |- T _ tokText _ _ => apply tokText_T
  | |- T _ (tokSymbol _) _ _ => apply tokSymbol_T
  | |- T _ mget _ _ => apply T_get
  | |- T _ (mlift UB) _ _ => apply T_ub
  | |- T _ (mlift _) _ _ => apply T_lift
  | |- T _ merr _ _ => apply T_err
  | |- T _ (mret _) _ _ => apply T_ret; [reflexivity|]
  | |- T _ (bindM _ _) _ _ => apply bindM_T
  | |- T _ (bindState _ _) _ _ => apply bindState_T
  | |- T _ pushM _ _ => apply pushM_T
  | |- T _ (logEvent _) _ _ => apply logEvent_T
  | |- T _ (getVarM _) _ _ => apply getVarM_T
  | |- T _ (mkE _ _ _) _ _ => apply mkE_T'
  | |- T _ (typeOf _ _) _ _ => apply typeOf_T
  | |- T _ (typeCheck _ _) _ _ => apply typeCheck_T
  | |- T _ (typeCheckAs _ _ _) _ _ => apply typeCheckAs_T
  | |- T _ (mkLit _ _) _ _ => apply mkLit_T
  | |- T _ (checkPair _ _) _ _ => apply checkPair_T
  | |- T _ (mkSymbol _ _ (Some _)) _ _ => apply mkSymbol_T; [reflexivity | discriminate |
      let t := fresh in let E := fresh in intros t E; injection E as <-]
  | |- T _ (defineProgram _ _) _ _ => apply defineProgram_T
  end.
Ltac tlem := tlem0.
Tactic Notation "ts" simple_intropattern(a) simple_intropattern(H) :=
  eapply T_bind; [solve [tlem; qs] | intros; gp | intros a H].
Ltac tret := apply T_ret; [reflexivity | auto].
(** steps without a result of interest *)
Ltac tu := eapply T_bind; [solve [tlem; qs] | intros; gp | let u := fresh "unit_" in intros u _].

Lemma getBoundVar_T d name ty : Qn ty -> T d (getBoundVar G name ty) (fun _ => d) Qn.
Proof.
  intros H. unfold getBoundVar. destruct (isGround ty).
  - apply T_ret; [reflexivity | now apply Q_bvar].
  - ts l Hl. tlem. qs.
Qed.
Lemma consTermOf_T d v : T d (consTermOf G v) (fun _ => d) Qn.
Proof.
  unfold consTermOf. ts s I. destruct (e_info (env_of G s) v) as [ai|] eqn:E; [|apply T_ub].
  apply T_ret; [reflexivity|]. apply Q_or_null. intros t C. exact (cterm_Q d s _ _ _ I E C).
Qed.
Lemma mkBinderList_T d v vs : Forall Qn vs -> T d (mkBinderList G v vs) (fun _ => d) Qn.
Proof.
  intros H. unfold mkBinderList. eapply T_bind; [exact (consTermOf_T d v) | intros; gp | intros ct C].
  tlem. qs.
Qed.
Lemma mkLetBinderList_T d v lls : Forall (fun ll => Qn (fst ll) /\ Qn (snd ll)) lls ->
  T d (mkLetBinderList G v lls) (fun _ => d) Qn.
Proof.
  intros H. unfold mkLetBinderList. eapply T_bind; [exact (consTermOf_T d v) | intros; gp | intros ct C].
  apply Q_children in C. ts pc E1. ts lc E2. apply (Q_at _ _ _ _ _ C) in E1, E2.
  eapply T_bind; [| intros; gp | intros vs V].
  - apply (T_map _ _ d _ (fun ll => Qn (fst ll) /\ Qn (snd ll)) Qn); [intros; gp | | exact H].
    intros ll [A B]. tlem. qs.
  - tlem. qs.
Qed.

Lemma getVariables_loop_Q fuel : forall st visited ret vs, Forall Qn st -> Forall Qn ret ->
  getVariables_loop fuel st visited ret = Ok vs -> Forall Qn vs.
Proof.
  induction fuel as [|k IH]; intros st visited ret vs H1 H2 E; [discriminate|].
  cbn [getVariables_loop] in E. destruct st as [|cur rest]; [injection E as <-; exact H2|].
  inversion H1 as [|x l X Y]; subst.
  destruct (isGround cur); [exact (IH _ _ _ _ Y H2 E)|]. destruct (mem_term cur visited); [exact (IH _ _ _ _ Y H2 E)|].
  destruct (kind_eqb (tkind cur) K_PARAM); refine (IH _ _ _ _ _ _ E); auto.
  - apply Forall_app. auto.
  - apply Forall_app. split; [apply Forall_rev; exact (Q_children _ _ _ X) | exact Y].
Qed.
Lemma getVariables_Q es vs : Forall Qn es -> getVariables es = Ok vs -> Forall Qn vs.
Proof. intros H. unfold getVariables. apply getVariables_loop_Q; [now apply Forall_rev | constructor]. Qed.
Definition aQ (e : attr * option term) : Prop := fst e <> A_PROGRAM /\ forall v, snd e = Some v -> Qn v.
Definition mQ (e : term * list (attr * option term)) : Prop := Qn (fst e) /\ tkind (fst e) = K_PARAM /\ Forall aQ (snd e).
Lemma processAttributeMap_Q m a ct : Forall aQ m -> processAttributeMap m = Ok (Some (a, ct)) ->
  a <> A_PROGRAM /\ forall c, ct = Some c -> Qn c.
Proof.
  intros H E. unfold processAttributeMap in E.
  destruct (find _ _) as [[b v]|] eqn:F; [|discriminate].
  assert (X : aQ (b, v)).
  { apply find_some in F. destruct F as [F _]. apply in_flat_map in F. destruct F as (x & _ & F). apply in_map_iff in F.
    destruct F as (w & F1 & F2). injection F1 as -> ->. unfold attr_values in F2. apply in_map_iff in F2.
    destruct F2 as ([b' v'] & F2 & F3). cbn [snd] in F2. subst v'. apply filter_In in F3. destruct F3 as [F3 F4].
    cbn [fst] in F4. rewrite Forall_forall in H. specialize (H _ F3). destruct H as [H1 H2]. cbn [fst snd] in *. split; cbn [fst snd]; [|exact H2].
    intros ->. apply H1. destruct b'; try discriminate F4; reflexivity. }
  destruct X as [X1 X2]. cbn [fst snd] in *. destruct v as [av|].
  - specialize (X2 av eq_refl). destruct (isGround av).
    + injection E as <- <-. split; [exact X1|]. intros c Ec. injection Ec as <-. exact X2.
    + apply bind_ok in E. destruct E as (ps & E1 & E2). injection E2 as <- <-. split; [exact X1|].
      intros c Ec. injection Ec as <-. apply getVariables_Q in E1; [|qs]. qs.
  - injection E as <- <-. split; [exact X1 | discriminate].
Qed.
Lemma processAttributeMaps_T d m : Forall mQ m -> T d (processAttributeMaps m) (fun _ => d) (fun _ => True).
Proof.
  intros H. unfold processAttributeMaps. apply T_for with (J := mQ); [intros; gp | | exact H].
  intros e (H1 & H2 & H3). ts r E. destruct r as [[a ct]|]; [|tret].
  apply processAttributeMap_Q in E; [|exact H3]. destruct E as [E1 E2].
  eapply T_bind; [apply markM_T; exact E2 | intros; gp | intros ? _; tret].
Qed.
Lemma parseSymbol_T d : T d parseSymbol (fun _ => d) (fun _ => True).
Proof. unfold parseSymbol. tu. tlem. Qed.
Lemma parseSymbolList_T d : T d (parseSymbolList G) (fun _ => d) (fun _ => True).
Proof.
  unfold parseSymbolList. tu.
  apply (T_loop _ _ _ (fun _ => d) (fun _ => d) (fun _ => True) (fun _ => True)); [intros; gp | | exact Logic.I].
  intros acc _. cbn beta. tu. destruct (token_eqb _ _); [tret|]. tu.
  eapply T_bind; [apply parseSymbol_T | intros; gp | intros ? _; tret].
Qed.
Lemma parseKeyword_T d : T d parseKeyword (fun _ => d) (fun _ => True).
Proof. unfold parseKeyword. tu. tu. tret. Qed.
Lemma parseIntegerNumeral_T d : T d parseIntegerNumeral (fun _ => d) (fun _ => True).
Proof. unfold parseIntegerNumeral. tu. tlem. Qed.
Lemma parseStr_T d : T d parseStr (fun _ => d) (fun _ => True).
Proof. unfold parseStr. tu. tu. eapply T_post; [tlem | auto]. Qed.
Lemma parseLiteralKind_T d : T d parseLiteralKind (fun _ => d) (fun _ => True).
Proof.
  unfold parseLiteralKind. eapply T_bind; [apply parseSymbol_T | intros; gp | intros ? _].
  destruct (table_find _ _); [tret | apply T_err].
Qed.
Lemma parseSymbolicExpr_T d : T d (parseSymbolicExpr G) (fun _ => d) (fun _ => True).
Proof.
  unfold parseSymbolicExpr.
  apply (T_loop _ _ _ (fun _ => d) (fun _ => d) (fun _ => True) (fun _ => True)); [intros; gp | | exact Logic.I].
  intros acc _. cbn beta. tu.
  eapply (T_bind _ _ _ _ _ (fun _ => d) (fun _ => True)); [| intros; gp | intros z _; destruct (z =? 0); tret].
  match goal with |- context [match ?x with _ => _ end] => destruct x end; first [apply T_err | tret].
Qed.

Section WithTerms.
Variable sig : bool.
Variable pe : M term.
Hypothesis PEg : pres grows pe.
Hypothesis PE : forall d, T d pe (fun _ => d) Qn.

Ltac tlem1 := lazymatch goal with
  | |- T _ pe _ _ => apply PE
  | |- T _ parseSymbol _ _ => apply parseSymbol_T
  | |- T _ (parseSymbolList _) _ _ => apply parseSymbolList_T
  | |- T _ parseKeyword _ _ => apply parseKeyword_T
  | |- T _ parseIntegerNumeral _ _ => apply parseIntegerNumeral_T
  | |- T _ parseStr _ _ => apply parseStr_T
  | |- T _ parseLiteralKind _ _ => apply parseLiteralKind_T
  | |- T _ (parseSymbolicExpr _) _ _ => apply parseSymbolicExpr_T
  | |- T _ (processAttributeMaps _) _ _ => apply processAttributeMaps_T
  | |- T _ (getBoundVar _ _ _) _ _ => apply getBoundVar_T
  | |- _ => tlem0
  end.
Ltac tlem ::= tlem1.

Lemma parseTypeBody_T d b : T d (parseTypeBody G pe b) (fun _ => d) Qn.
Proof. unfold parseTypeBody. ts e He. tu. destruct (_ && _); [apply T_err | tret]. Qed.
Lemma parseType_T d a b : T d (parseType G pe a b) (fun _ => d) Qn.
Proof.
  unfold parseType. destruct a; [|apply parseTypeBody_T]. tu. destruct (token_eqb _ _).
  - tu. tu. destruct (_ && _).
    + ts t Ht. destruct (kind_eqb _ _); [|apply T_err]. tu. apply T_ret; [reflexivity|]. qs.
    + tu. tu. apply parseTypeBody_T.
  - tu. apply parseTypeBody_T.
Qed.
Lemma parseFormula_T d : T d (parseFormula G pe) (fun _ => d) Qn.
Proof. unfold parseFormula. ts e He. tu. tret. Qed.
Lemma parseListOf_T d item : pres grows item -> T d item (fun _ => d) Qn -> T d (parseListOf G item) (fun _ => d) (Forall Qn).
Proof.
  intros Hg H. unfold parseListOf. tu.
  apply (T_loop _ _ _ (fun _ => d) (fun _ => d) (Forall Qn) (Forall Qn)); [intros; gp | | constructor].
  intros acc HA. cbn beta. tu. destruct (token_eqb _ _); [apply T_ret; [reflexivity | now apply Forall_rev]|].
  tu. eapply T_bind; [exact H | intros; gp | intros t Ht]. apply T_ret; [reflexivity | now constructor].
Qed.
Lemma parseExprList_T d : T d (parseExprList G pe) (fun _ => d) (Forall Qn).
Proof. apply parseListOf_T; [exact PEg | apply PE]. Qed.
Lemma parseTypeList_T d a : T d (parseTypeList G pe a) (fun _ => d) (Forall Qn).
Proof. apply parseListOf_T; [gp | apply parseType_T]. Qed.
Lemma parseExprPair_T d : T d (parseExprPair pe) (fun _ => d) Qn.
Proof. unfold parseExprPair. tu. ts t1 H1. ts t2 H2. tu. apply T_ret; [reflexivity|]. qs. Qed.
Definition is_pair (t : term) : Prop := exists a b, t = Node K_TUPLE [a; b].
Lemma parseExprPairList_T d : T d (parseExprPairList G pe) (fun _ => d) (fun l => Forall Qn l /\ Forall is_pair l).
Proof.
  unfold parseExprPairList. tu.
  apply (T_loop _ _ _ (fun _ => d) (fun _ => d) (fun l => Forall Qn l /\ Forall is_pair l) (fun l => Forall Qn l /\ Forall is_pair l)); [intros; gp | | split; constructor].
  intros acc [HA HB]. cbn beta. ts more _. destruct more; [|apply T_ret; [reflexivity | split; now apply Forall_rev]].
  ts t1 H1. ts t2 H2. tu. apply T_ret; [reflexivity|]. split; [qs|]. constructor; [|exact HB]. now exists t1, t2.
Qed.
Lemma parseAttrValue_T d k e plk a : T d (parseAttrValue G pe k e plk a) (fun _ => d)
  (fun r => forall o v, r = Some o -> o = Some v -> Qn v).
Proof.
  assert (N : forall r, r = None \/ r = Some None -> T d (mret r) (fun _ => d) (fun r => forall o v, r = Some o -> o = Some v -> Qn v)).
  { intros r [-> | ->]; apply T_ret; try reflexivity; congruence. }
  assert (V : T d (let! v := pe in mret (Some (Some v))) (fun _ => d) (fun r => forall o v, r = Some o -> o = Some v -> Qn v)).
  { ts v Hv. apply T_ret; [reflexivity|]. intros o w E1 E2. congruence. }
  assert (V2 : T d (let! v := parseExprPair pe in mret (Some (Some v))) (fun _ => d) (fun r => forall o v, r = Some o -> o = Some v -> Qn v)).
  { eapply T_bind; [apply parseExprPair_T | intros; gp | intros v Hv]. apply T_ret; [reflexivity|]. intros o w E1 E2. congruence. }
  assert (V3 : T d (let! v := pe in typeCheckAs G e v ;; mret (Some (Some v))) (fun _ => d) (fun r => forall o v, r = Some o -> o = Some v -> Qn v)).
  { ts v Hv. tu. apply T_ret; [reflexivity|]. intros o w E1 E2. congruence. }
  assert (V4 : T d (let! _ := parseLiteralKind in mret (Some None)) (fun _ => d) (fun r => forall o v, r = Some o -> o = Some v -> Qn v)).
  { tu. apply N. auto. }
  assert (V5 : T d (mupd (fun s => set_sorry (e :: s_sorry s) s) ;; logEvent (EvSorry e) ;; mret (Some None)) (fun _ => d) (fun r => forall o v, r = Some o -> o = Some v -> Qn v)).
  { eapply T_bind; [apply T_upd with (d' := d) | intros; gp | intros ? _].
    - intros s _ I. now apply (Inv_eq d s).
    - tu. apply N. auto. }
  unfold parseAttrValue. destruct k; try exact (N None (or_introl eq_refl)); 
    try match goal with |- T _ (match plk with _ => _ end) _ _ => destruct plk; try exact (N None (or_introl eq_refl)) end;
    (destruct a; first [exact (N None (or_introl eq_refl)) | exact (N (Some None) (or_intror eq_refl)) | exact V | exact V2 | exact V3 | exact V4 | exact V5]).
Qed.
Lemma parseAttributeList_T d k e plk : (k = K_PARAM -> tkind e = K_PARAM) ->
  T d (parseAttributeList G pe k e plk) (fun _ => d) (Forall aQ).
Proof.
  intros HK. unfold parseAttributeList.
  eapply (T_bind _ _ _ _ _ (fun _ => d) (Forall aQ)); [| intros; gp | intros attrs HA; tu; tret].
  apply (T_loop _ _ _ (fun _ => d) (fun _ => d) (Forall aQ) (Forall aQ)); [intros; gp | | constructor].
  intros acc HA. cbn beta. ts more _. destruct more; [|apply T_ret; [reflexivity | now apply Forall_rev]].
  ts key _. destruct (table_find strToAttr key) as [a|] eqn:F.
  - destruct (kind_eqb k K_PARAM && attr_eqb a A_LIST) eqn:KA.
    + apply andb_true_iff in KA. destruct KA as [KA1 KA2]. apply kind_eqb_eq in KA1. specialize (HK KA1).
      assert (a = A_LIST) by (destruct a; try discriminate KA2; reflexivity). subst a.
      eapply T_bind; [apply markM_T; discriminate | intros; gp | intros ? _; tret].
    + eapply T_bind; [apply parseAttrValue_T | intros; gp | intros v Hv]. destruct v as [v|]; [|apply T_err].
      apply T_ret; [reflexivity|]. constructor; [|exact HA]. split; cbn [fst snd].
      * apply table_find_in in F. destruct F as (t & F). cbn in F. intros ->. repeat (destruct F as [F | F]; [discriminate F|]). exact F.
      * intros w ->. exact (Hv _ w eq_refl eq_refl).
  - ts tok _. eapply (T_bind _ _ _ _ _ (fun _ => d) (fun _ => True)); [| intros; gp | intros ? _].
    + destruct (_ || _); [tret | apply parseSymbolicExpr_T].
    + apply T_ret; [reflexivity|]. constructor; [|exact HA]. split; cbn [fst snd]; discriminate.
Qed.
Lemma parseVarListMap_T d k : T d (parseVarListMap G pe k) (fun _ => d) (fun r => Forall Qn (fst r) /\ Forall mQ (snd r)).
Proof.
  unfold parseVarListMap. tu.
  apply (T_loop _ _ _ (fun _ => d) (fun _ => d) (fun r => Forall Qn (fst r) /\ Forall mQ (snd r)) (fun r => Forall Qn (fst r) /\ Forall mQ (snd r)));
    [intros [vars amap]; gp | | split; constructor].
  intros [vars amap] [H1 H2]. cbn beta iota. cbn [fst snd] in *. ts more _. destruct more.
  - ts name _. eapply T_bind; [apply parseType_T | intros; gp | intros t Ht].
    assert (X : T d (let! v := mkSymbol K_PARAM name (Some t) in
          bindM name v ;;
          let! attrs := parseAttributeList G pe K_PARAM v k in
          eat T_RPAREN ;;
          if attr_mem attrs A_IMPLICIT then mret (inl (vars, (v, attr_erase attrs A_IMPLICIT) :: amap))
          else mret (inl (v :: vars, (v, attrs) :: amap)))
       (fun r : list term * list (term * list (attr * option term)) + list term * list (term * list (attr * option term)) => match r with inl _ => d | inr _ => d end)
       (fun r => match r with inl s' => Forall Qn (fst s') /\ Forall mQ (snd s') | inr a => Forall Qn (fst a) /\ Forall mQ (snd a) end)).
    { ts v [Hv Kv]. tu. eapply T_bind; [apply parseAttributeList_T; auto | intros; gp | intros attrs HA]. tu.
      destruct (attr_mem attrs A_IMPLICIT); (apply T_ret; [reflexivity|]); cbn [fst snd]; (split; [qs|]);
        (constructor; [|exact H2]); (split; [exact Hv | split; [exact Kv|]]); cbn [snd]; [|exact HA].
      apply Forall_filter'. exact HA. }
    destruct k; try exact X.
    eapply T_bind; [apply getBoundVar_T; exact Ht | intros; gp | intros v Hv]. tu. tu.
    apply T_ret; [reflexivity|]. cbn [fst snd]. split; [now constructor | exact H2].
  - apply T_ret; [reflexivity|]. cbn [fst snd]. split; now apply Forall_rev.
Qed.
Lemma parseVarList_T d k : T d (parseVarList G pe k) (fun _ => d) (Forall Qn).
Proof.
  unfold parseVarList. eapply T_bind; [apply parseVarListMap_T | intros [vars amap]; gp | intros [vars amap] [H1 H2]].
  cbn [fst snd] in *. tu. tret.
Qed.
Lemma parseLetList_T d : T d (parseLetList G pe) (fun _ => d) (Forall (fun ll => Qn (fst ll) /\ Qn (snd ll))).
Proof.
  unfold parseLetList. tu.
  eapply (T_bind _ _ _ _ _ (fun _ => d) (Forall (fun ll => Qn (fst ll) /\ Qn (snd ll)))); [| intros; gp | intros lls H].
  - apply (T_loop _ _ _ (fun _ => d) (fun _ => d) (Forall (fun ll => Qn (fst ll) /\ Qn (snd ll))) (Forall (fun ll => Qn (fst ll) /\ Qn (snd ll)))); [intros; gp | | constructor].
    intros acc HA. cbn beta. ts more _. destruct more; [|apply T_ret; [reflexivity | now apply Forall_rev]].
    ts name _. ts t Ht. tu. ts ty Hty. ts v Hv. apply T_ret; [reflexivity|]. constructor; [|exact HA]. auto.
  - eapply T_bind; [| intros; gp | intros ? _; tret].
    apply T_for with (J := fun ll => Qn (fst ll) /\ Qn (snd ll)); [intros; gp | | exact H].
    intros [v t] [A B]. cbn [fst snd] in *. destruct v as [k i | l | k cs]; try apply T_ub. ts s I. tlem. qs.
Qed.
Lemma mkE_prog d cs : T d (mkE G K_PROGRAM cs) (fun _ => d) (fun r => r = Node K_PROGRAM cs).
Proof.
  unfold mkE. eapply T_bind; [apply T_get | intros; gp | intros s I]. eapply T_post; [apply T_lift|]. cbn beta.
  intros r E. destruct (g_mk G); [discriminate E|]. cbn [mkExpr] in E. now injection E as <-.
Qed.
Lemma mkDisambiguatedType_T d pat ret name : Qn pat -> Qn ret -> T d (mkDisambiguatedType G pat ret name) (fun _ => d) Qn.
Proof.
  intros H1 H2. unfold mkDisambiguatedType. apply T_new; [qs | intros; gp | intros tprog Hp Kp].
  eapply T_bind; [apply mkE_prog | intros; gp | intros prog ->].
  eapply T_bind; [apply defineProgram_T; qs | intros; gp | intros ? _].
  ts tv [Hv Kv]. ts fapp Hf. apply T_ret; [reflexivity|]. qs.
Qed.
Definition bQ (b : text * term) : Prop := Qn (snd b).
Lemma parseSelectors_T d dt tb : Qn dt -> Forall bQ tb -> T d (parseSelectors G pe dt tb) (fun _ => d)
  (fun r => let '(types, sels, tb) := r in Forall Qn types /\ Forall Qn sels /\ Forall bQ tb).
Proof.
  intros HD HB. unfold parseSelectors.
  apply (T_loop _ _ _ (fun _ => d) (fun _ => d) (fun r => let '(types, sels, tb) := r in Forall Qn types /\ Forall Qn sels /\ Forall bQ tb)
    (fun r => let '(types, sels, tb) := r in Forall Qn types /\ Forall Qn sels /\ Forall bQ tb)); [intros [[types sels] tb']; gp | | auto].
  intros [[types sels] tb'] (A & B & C). cbn beta iota. ts more _. destruct more; [|apply T_ret; [reflexivity|auto]].
  ts id _. eapply T_bind; [apply parseType_T | intros; gp | intros t Ht].
  ts sel [Hs Ks]. ts upd [Hu Ku]. tu. apply T_ret; [reflexivity|]. cbn beta iota.
  split; [qs|]. split; [qs|]. apply Forall_app. split; [exact C|]. repeat constructor; assumption.
Qed.
Definition dQ (c : term * list term * bool) : Prop := Qn (fst (fst c)) /\ tkind (fst (fst c)) = K_CONST /\ Forall Qn (snd (fst c)).
Lemma parseConstructors_T d dt params : Qn dt -> T d (parseConstructors G pe dt params) (fun _ => d)
  (fun r => Forall dQ (fst r) /\ Forall bQ (snd r)).
Proof.
  intros HD. unfold parseConstructors. tu.
  apply (T_loop _ _ _ (fun _ => d) (fun _ => d) (fun r => Forall dQ (fst r) /\ Forall bQ (snd r))
    (fun r => Forall dQ (fst r) /\ Forall bQ (snd r))); [intros [dcs tb]; gp | | split; constructor].
  intros [dcs tb] [A B]. cbn [fst snd] in *. ts more _. destruct more; [|apply T_ret; [reflexivity|auto]].
  ts name _. eapply T_bind; [apply parseSelectors_T; assumption | intros [[types sels] tb1]; gp | intros [[types sels] tb1] (C1 & C2 & C3)].
  eapply (T_bind _ _ _ _ _ (fun _ => d) (fun _ => True)); [| intros; gp | intros fv _].
  { destruct params; [tret|]. eapply T_post; [tlem | auto]. }
  eapply (T_bind _ _ _ _ _ (fun _ => d) Qn); [| intros; gp | intros ctype Hc].
  { destruct fv; [apply mkDisambiguatedType_T; qs | apply T_ret; [reflexivity | qs]]. }
  ts con [Hn Kn]. ts tester [Hs Ks]. apply T_ret; [reflexivity|]. cbn [fst snd]. split.
  - apply Forall_app. split; [exact A|]. constructor; [|constructor]. split; [exact Hn | split; [exact Kn | exact C2]].
  - apply Forall_app. split; [exact C3|]. repeat constructor; assumption.
Qed.
Lemma mkTypeConstant_T d name ar : T d (mkTypeConstant name ar) (fun _ => d) (fun v => Qn v /\ tkind v = K_CONST).
Proof.
  unfold mkTypeConstant. tlem. qs. induction ar; cbn [repeat]; qs.
Qed.
Definition tQ (t : term * list (term * list term * bool)) : Prop := Qn (fst t) /\ tkind (fst t) = K_CONST /\ Forall dQ (snd t).
Notation cQ := (fun t => Qn t /\ tkind t = K_CONST).
Lemma parseDatatypesDef_T d dnames arities : T d (parseDatatypesDef G pe dnames arities) (fun _ => d) (Forall tQ).
Proof.
  unfold parseDatatypesDef.
  eapply (T_bind _ _ _ _ _ (fun _ => d) (Forall cQ)); [| intros; gp | intros dts0 H0].
  { apply T_map with (J := fun _ => True); [intros; gp | | apply Forall_forall; auto]. intros [nm ar] _.
    eapply T_bind; [apply mkTypeConstant_T | intros; gp | intros t [Ht Kt]]. tu. tret. }
  ts tok0 _.
  apply (T_loop _ _ _ (fun _ => d) (fun _ => d) (fun r => let '(_, _, dtlist, out) := r in Forall cQ dtlist /\ Forall tQ out) (Forall tQ));
    [intros [[[tok i] dtlist] out]; gp | | split; [exact H0 | constructor]].
  intros [[[tok i] dtlist] out] [A B]. cbn beta iota. destruct (negb _).
  { destruct (Nat.eqb _ _); [|apply T_err]. tu. apply T_ret; [reflexivity | now apply Forall_rev]. }
  destruct (nth_error dnames i) as [dname|]; [|apply T_err]. ts tok2 _. cbv zeta.
  eapply (T_bind _ _ _ _ _ (fun _ => if token_eqb tok2 T_PAR then S d else d) (Forall Qn)); [| intros; gp | intros params HP].
  { destruct (token_eqb tok2 T_PAR).
    - tu. eapply T_bind; [apply parseSymbolList_T | intros; gp | intros syms _].
      assert (X : T (S d) (mmap syms (fun sym => let! t := mkSymbol K_PARAM sym (Some t_Type) in bindM sym t ;; mret t)) (fun _ => S d) (Forall Qn)).
      { apply T_map with (J := fun _ => True); [intros; gp | | apply Forall_forall; auto]. intros sym _. ts t [Ht Kt]. tu. tret. }
      destruct syms; [apply T_err | exact X].
    - tu. tu. tret. }
  eapply (T_bind _ _ _ _ _ (fun _ => if token_eqb tok2 T_PAR then S d else d) (Forall cQ)); [| intros; gp | intros dtlist1 HD].
  { destruct (nth_error arities i).
    - destruct (Nat.eqb _ _); [tret | apply T_err].
    - eapply T_bind; [apply mkTypeConstant_T | intros; gp | intros t [Ht Kt]]. tu.
      apply T_ret; [reflexivity|]. apply Forall_app. auto. }
  ts dt Edt.
  assert (HDT : cQ dt).
  { unfold vec_at in Edt. destruct (nth_error dtlist1 i) as [x|] eqn:X; [|discriminate Edt]. injection Edt as ->.
    apply nth_error_In in X. rewrite Forall_forall in HD. exact (HD _ X). }
  destruct HDT as [HDT KDT].
  eapply (T_bind _ _ _ _ _ (fun _ => if token_eqb tok2 T_PAR then S d else d) Qn); [| intros; gp | intros dti Hdti].
  { destruct params; [tret|]. tlem. qs. }
  eapply T_bind; [apply parseConstructors_T; exact Hdti | intros [dcs tobind]; gp | intros [dcs tobind] [HC1 HC2]].
  cbn [fst snd] in *.
  eapply (T_bind _ _ _ _ _ (fun _ => d) (fun _ => True)); [| intros; gp | intros ? _].
  { destruct (token_eqb tok2 T_PAR); [|tret]. tu. apply popM_T. }
  eapply (T_bind _ _ _ _ _ (fun _ => d) (fun _ => True)); [| intros; gp | intros ? _].
  { apply T_for with (J := bQ); [intros; gp | | exact HC2]. intros b Hb. tlem. exact Hb. }
  ts tok3 _. apply T_ret; [reflexivity|]. cbn beta iota. split; [exact HD|]. constructor; [|exact B].
  split; [exact HDT | split; [exact KDT | exact HC1]].
Qed.
Lemma parseLiteral_T d tok : T d (parseLiteral sig tok) (fun _ => d) Qn.
Proof.
  unfold parseLiteral. ts s I. ts str _.
  destruct tok; first [apply T_err | apply T_ret; [reflexivity | qs] | idtac].
  all: cbv zeta; repeat match goal with
    | |- T _ (if ?c then _ else _) _ _ => destruct c
    | |- T _ (match ?x with Some _ => _ | None => _ end) _ _ => destruct x
    | |- T _ (mbind _ _) _ _ => let r := fresh in ts r _
    | |- T _ merr _ _ => apply T_err
    | |- T _ (mkLit _ _) _ _ => apply mkLit_T
    end.
Qed.
Lemma parseHead_T d tok : T d (parseHead G pe tok) (fun fr => pf_nscopes fr + d)%nat
  (fun fr => pf_ctx fr = CNextArg /\ Forall Qn (pf_args fr)).
Proof.
  unfold parseHead. ts name _. ts v Hv. ts s I.
  assert (X : forall ck, ck = A_BINDER \/ ck = A_LET_BINDER -> ck = getConstructorKind (env_of G s) v ->
    T d (let! tok1 := next in
      if token_eqb tok1 T_LPAREN then
        let! tok2 := peek in
        reinsert T_LPAREN ;;
        if token_eqb tok2 T_LPAREN then
          pushM ;;
          let! vl :=
            match ck with
            | A_BINDER =>
                let! vs := parseVarList G pe K_NONE in
                match vs with [] => merr | _ => mkBinderList G v vs end
            | _ =>
                let! lls := parseLetList G pe in
                match lls with [] => merr | _ => mkLetBinderList G v lls end
            end in
          mret (mkPFrame CNextArg 1 [v; vl])
        else mret (mkPFrame CNextArg 0 [v])
      else reinsert tok1 ;; mret (mkPFrame CNextArg 0 [v])) (fun fr => pf_nscopes fr + d)%nat
  (fun fr => pf_ctx fr = CNextArg /\ Forall Qn (pf_args fr))).
  { intros ck C _.
    assert (Z : T d (mret (mkPFrame CNextArg 0 [v])) (fun fr => pf_nscopes fr + d)%nat
      (fun fr => pf_ctx fr = CNextArg /\ Forall Qn (pf_args fr))).
    { apply T_ret; [reflexivity|]. split; [reflexivity|]. cbn [pf_args]. qs. }
    tu. destruct (token_eqb _ _); [|tu; exact Z]. tu. tu. destruct (token_eqb _ _); [|exact Z]. tu.
    eapply (T_bind _ _ _ _ _ (fun _ => S d) Qn); [| intros; gp | intros vl Hvl].
    - destruct C as [-> | ->].
      + eapply T_bind; [apply parseVarList_T | intros; gp | intros vs Hvs].
        assert (Y : T (S d) (mkBinderList G v vs) (fun _ => S d) Qn) by now apply mkBinderList_T.
        destruct vs; [apply T_err | exact Y].
      + eapply T_bind; [apply parseLetList_T | intros; gp | intros lls Hvs].
        assert (Y : T (S d) (mkLetBinderList G v lls) (fun _ => S d) Qn) by now apply mkLetBinderList_T.
        destruct lls; [apply T_err | exact Y].
    - apply T_ret; [reflexivity|]. split; [reflexivity|]. cbn [pf_args]. qs. }
  destruct (getConstructorKind (env_of G s) v);
    try exact (X A_BINDER (or_introl eq_refl) eq_refl); try exact (X A_LET_BINDER (or_intror eq_refl) eq_refl);
    (apply T_ret; [reflexivity|]; split; [reflexivity|]; cbn [pf_args]; qs).
Qed.

Definition scopes (ps : list pframe) : nat := fold_right (fun fr k => pf_nscopes fr + k)%nat 0%nat ps.
Definition frQ (fr : pframe) : Prop := Forall Qn (pf_args fr).
Lemma letNext_T d0 fr rest lb : frQ fr -> Forall frQ rest -> Forall (Forall bQ) lb ->
  T (scopes (fr :: rest) + d0) (letNext fr rest lb) (fun r => scopes (fst r) + d0)%nat
    (fun r => Forall frQ (fst r) /\ Forall (Forall bQ) (snd r)).
Proof.
  intros H1 H2 H3. unfold letNext. ts more _. destruct lb as [|bs lb]; [apply T_ub|]. inversion H3; subst. destruct more.
  - ts name _. apply T_ret; [reflexivity|]. cbn [fst snd]. split; [now constructor|]. constructor; [|assumption].
    apply Forall_app. split; [assumption|]. constructor; [apply Q_null | constructor].
  - tu. eapply (T_bind _ _ _ _ _ (fun _ => S (scopes (fr :: rest) + d0)) (fun _ => True)); [| intros; gp | intros ? _].
    { apply T_for with (J := bQ); [intros; gp | | assumption]. intros b Hb. tlem. exact Hb. }
    apply T_ret; [reflexivity|]. cbn [fst snd]. split; [|assumption]. constructor; assumption.
Qed.
Lemma updateCtx_T d0 : forall ps ret lb, Qn ret -> Forall frQ ps -> Forall (Forall bQ) lb ->
  T (scopes ps + d0) (updateCtx G pe ret ps lb) (fun r => scopes (snd (fst r)) + d0)%nat
    (fun r => Qn (fst (fst r)) /\ Forall frQ (snd (fst r)) /\ Forall (Forall bQ) (snd r)).
Proof.
  induction ps as [|fr rest IH]; intros ret lb H1 H2 H3; cbn [updateCtx].
  - apply T_ret; [reflexivity|]. cbn [fst snd]. auto.
  - inversion H2 as [|x l F1 F2]; subst. destruct (kind_eqb _ _).
    + apply T_ret; [reflexivity|]. cbn [fst snd]. auto.
    + assert (Y : T (scopes (fr :: rest) + d0) (popN (pf_nscopes fr) ;; updateCtx G pe ret rest lb) (fun r => scopes (snd (fst r)) + d0)%nat
        (fun r => Qn (fst (fst r)) /\ Forall frQ (snd (fst r)) /\ Forall (Forall bQ) (snd r))).
      { eapply T_bind; [| intros; gp | intros ? _; exact (IH ret lb H1 F2 H3)].
        cbn [scopes fold_right]. rewrite <- Nat.add_assoc. apply popN_T. }
      destruct (pf_ctx fr).
      * apply T_ret; [reflexivity|]. cbn [fst snd]. split; [apply Q_null|]. split; [|exact H3]. constructor; [|exact F2].
        apply Forall_app. repeat split; auto.
      * destruct lb as [|bs lb]; [apply T_ub|]. inversion H3 as [|x l B1 B2]; subst.
        destruct (rev bs) as [|[nm w] before] eqn:RB; [apply T_ub|]. tu.
        assert (B3 : Forall bQ (rev ((nm, ret) :: before))).
        { apply Forall_rev. constructor; [exact H1|]. apply Forall_rev in B1. rewrite RB in B1. inversion B1. assumption. }
        eapply T_bind; [apply (letNext_T d0 fr rest (rev ((nm, ret) :: before) :: lb) F1 F2) | intros [ps2 lb2]; gp | intros [ps2 lb2] [R1 R2]].
        { constructor; assumption. }
        apply T_ret; [reflexivity|]. cbn [fst snd] in *. split; [apply Q_null|]. auto.
      * tu. exact Y.
      * eapply T_bind; [apply parseAttributeList_T; discriminate | intros; gp | intros ? _]. tu. exact Y.
Qed.
Lemma parseStep_T d0 ps lb : Forall frQ ps -> Forall (Forall bQ) lb ->
  T (scopes ps + d0) (parseStep G sig pe (ps, lb))
    (fun r => match r with inl p => scopes (fst p) + d0 | inr _ => d0 end)%nat
    (fun r => match r with inl p => Forall frQ (fst p) /\ Forall (Forall bQ) (snd p) | inr t => Qn t end).
Proof.
  intros H1 H2. unfold parseStep. ts tok _.
  eapply (T_bind _ _ _ _ _ (fun r => scopes (snd (fst r)) + d0)%nat
    (fun r => Qn (fst (fst r)) /\ Forall frQ (snd (fst r)) /\ Forall (Forall bQ) (snd r))).
  - assert (HD : forall t rest, Forall frQ rest ->
      T (scopes rest + d0) (let! fr := parseHead G pe t in mret (null_term, fr :: rest, lb))
        (fun r => scopes (snd (fst r)) + d0)%nat
        (fun r => Qn (fst (fst r)) /\ Forall frQ (snd (fst r)) /\ Forall (Forall bQ) (snd r))).
    { intros t rest HR. eapply T_bind; [apply parseHead_T | intros; gp | intros fr [F1 F2]]. cbn beta.
      rewrite Nat.add_assoc. change (pf_nscopes fr + scopes rest)%nat with (scopes (fr :: rest)).
      apply T_ret; [reflexivity|]. cbn [fst snd]. split; [apply Q_null|]. auto. }
    assert (SY : T (scopes ps + d0) (let! name := tokSymbol tok in let! v := getVarM name in
       if kind_eqb (tkind v) K_BUILTIN_CONST then merr else mret (v, ps, lb)) 
        (fun r => scopes (snd (fst r)) + d0)%nat
        (fun r => Qn (fst (fst r)) /\ Forall frQ (snd (fst r)) /\ Forall (Forall bQ) (snd r))).
    { ts nm _. ts v Hv. destruct (kind_eqb _ _); [apply T_err|]. apply T_ret; [reflexivity|]. auto. }
    assert (LI : T (scopes ps + d0) (let! r := parseLiteral sig tok in mret (r, ps, lb)) 
        (fun r => scopes (snd (fst r)) + d0)%nat
        (fun r => Qn (fst (fst r)) /\ Forall frQ (snd (fst r)) /\ Forall (Forall bQ) (snd r))).
    { eapply T_bind; [apply parseLiteral_T | intros; gp | intros r Hr]. apply T_ret; [reflexivity|]. auto. }
    assert (RP : T (scopes ps + d0) (match ps with
        | [] => mlift UB
        | fr :: rest =>
            match pf_ctx fr with
            | CNextArg =>
                let! r := mkE G K_APPLY (pf_args fr) in
                popN (pf_nscopes fr) ;; mret (r, rest, lb)
            | _ => merr
            end
        end) 
        (fun r => scopes (snd (fst r)) + d0)%nat
        (fun r => Qn (fst (fst r)) /\ Forall frQ (snd (fst r)) /\ Forall (Forall bQ) (snd r))).
    { destruct ps as [|fr rest]; [apply T_ub|]. inversion H1; subst. destruct (pf_ctx fr); try apply T_err.
      ts r Hr. eapply T_bind; [| intros; gp | intros ? _].
      - cbn [scopes fold_right]. rewrite <- Nat.add_assoc. apply popN_T.
      - apply T_ret; [reflexivity|]. cbn [fst snd]. auto. }
    assert (LP : T (scopes ps + d0) (let! tok1 := next in
        match tok1 with
        | T_LET | T_EVAL_DEFINE =>
            eat T_LPAREN ;;
            let! (ps, lb1) := letNext (mkPFrame CLetNextBind 0 []) ps ([] :: lb) in
            mret (null_term, ps, lb1)
        | T_ATTRIBUTE => mret (null_term, mkPFrame CAnnotate 0 [] :: ps, lb)
        | T_LPAREN =>
            let! tok2 := next in
            let! name := tokSymbol tok2 in
            if text_eqb name (txt "_") || text_eqb name (txt "as") then
              let! fr := parseHead G pe tok2 in
              mret (null_term, fr :: mkPFrame CNextArg 0 [] :: ps, lb)
            else merr
        | T_SYMBOL | T_QUOTED_SYMBOL =>
            let! fr := parseHead G pe tok1 in
            mret (null_term, fr :: ps, lb)
        | _ => merr
        end)
        (fun r => scopes (snd (fst r)) + d0)%nat
        (fun r => Qn (fst (fst r)) /\ Forall frQ (snd (fst r)) /\ Forall (Forall bQ) (snd r))).
    { ts tok1 _.
      assert (LE : T (scopes ps + d0) (eat T_LPAREN ;;
            let! (ps, lb1) := letNext (mkPFrame CLetNextBind 0 []) ps ([] :: lb) in
            mret (null_term, ps, lb1)) (fun r => scopes (snd (fst r)) + d0)%nat
        (fun r => Qn (fst (fst r)) /\ Forall frQ (snd (fst r)) /\ Forall (Forall bQ) (snd r))).
      { tu. eapply T_bind; [apply (letNext_T d0 (mkPFrame CLetNextBind 0 []) ps ([] :: lb)) | intros [ps2 lb2]; gp | intros [ps2 lb2] [R1 R2]].
        - constructor.
        - exact H1.
        - repeat constructor. exact H2.
        - apply T_ret; [reflexivity|]. cbn [fst snd] in *. split; [apply Q_null|]. auto. }
      destruct tok1; try exact LE; try (apply HD; exact H1); try apply T_err.
      - apply T_ret; [reflexivity|]. cbn [fst snd]. split; [apply Q_null|]. split; [|exact H2]. repeat constructor. exact H1.
      - ts tok2 _. ts nm _. destruct (_ || _); [|apply T_err]. apply (HD tok2 (mkPFrame CNextArg 0 [] :: ps)). repeat constructor. exact H1. }
    destruct tok; first [exact LP | exact RP | exact SY | exact LI].
  - intros [[ret ps1] lb1]. gp.
  - intros [[ret ps1] lb1] (A & B & C). cbn [fst snd] in *.
    eapply T_bind; [apply (updateCtx_T d0 ps1 ret lb1 A B C) | intros [[ret2 ps2] lb2]; gp | intros [[ret2 ps2] lb2] (D & E & F)].
    cbn [fst snd] in *. destruct ps2; (apply T_ret; [reflexivity|]); auto.
Qed.
End WithTerms.

Lemma parseExpr_T sig fuel : forall d, T d (parseExpr G sig fuel) (fun _ => d) Qn.
Proof.
  induction fuel as [|k IH]; intros d; cbn [parseExpr]; [apply T_fuel|].
    refine (T_loop _ _ (parseStep G sig (parseExpr G sig k)) (fun p : list pframe * list (list (text * term)) => scopes (fst p) + d)%nat (fun _ => d)
    (fun p => Forall frQ (fst p) /\ Forall (Forall bQ) (snd p)) Qn _ _ (g_fuel G) ([], []) _).
  - intros [ps lb]. gp.
  - intros [ps lb] [A B]. cbn [fst snd] in *. apply parseStep_T; auto. gp.
  - split; constructor.
Qed.

(* ------------------------------------------------------------------ *)
(** * Commands *)
Ltac gp_cmd := lazymatch goal with
  | |- pres _ levelM => apply pres_levelM; exact grows_reading
  | |- pres _ (normalForm _ _) => apply pres_normalForm; exact grows_reading
  | |- pres _ (collectPremises _ _ _) => apply pres_collectPremises; exact grows_reading
  | |- pres _ (notifyStep _ _ _ _ _ _) => apply pres_notifyStep; exact grows_reading
  | |- pres _ (paramArrows _ _ _ _ _) => apply pres_paramArrows; exact grows_reading
  | |- pres _ (mkListM _ _) => apply pres_mkListM; exact grows_reading
  | |- pres _ (optPart _ _ _ _) => apply pres_optPart; [exact grows_reading|]
  | |- pres _ (mkRequiresM _ _ _) => apply pres_mkRequiresM; exact grows_reading
  | |- pres _ (ruleProgram _ _ _ _) => apply pres_ruleProgram; exact grows_reading
  | |- pres _ (checkCases _ _ _) => apply pres_checkCases; exact grows_reading
  | |- _ => gp_lem
  end.
Ltac gp ::= pose proof grows_po; repeat first [assumption | gp_cmd | pres_step
  | apply grows_log | apply grows_upd; intros; first [reflexivity | destruct (setOption _ _ _); reflexivity]].
Section Commands.
Variable sig : bool.
Notation pe := (parseExpr G sig (g_fuel G)).
Lemma peg : pres grows pe.
Proof. gp. Qed.
Lemma peT : forall d, T d pe (fun _ => d) Qn.
Proof. apply parseExpr_T. Qed.
Hint Resolve peg peT : core.
Lemma addReferenceAssert_g a : pres grows (addReferenceAssert G a).
Proof. unfold addReferenceAssert. gp. Qed.
Ltac gp ::= pose proof grows_po; repeat first [assumption | gp_cmd | apply addReferenceAssert_g | pres_step
  | apply grows_log | apply grows_upd; intros; first [reflexivity | destruct (setOption _ _ _); reflexivity]].

Ltac tlem1 := lazymatch goal with
  | |- T _ (parseExpr _ _ _) _ _ => apply parseExpr_T
  | |- T _ parseSymbol _ _ => apply parseSymbol_T
  | |- T _ (parseSymbolList _) _ _ => apply parseSymbolList_T
  | |- T _ parseKeyword _ _ => apply parseKeyword_T
  | |- T _ parseIntegerNumeral _ _ => apply parseIntegerNumeral_T
  | |- T _ parseStr _ _ => apply parseStr_T
  | |- T _ parseLiteralKind _ _ => apply parseLiteralKind_T
  | |- T _ (parseSymbolicExpr _) _ _ => apply parseSymbolicExpr_T
  | |- T _ (processAttributeMaps _) _ _ => apply processAttributeMaps_T
  | |- T _ (getBoundVar _ _ _) _ _ => apply getBoundVar_T
  | |- T _ (parseType _ _ _ _) _ _ => apply parseType_T; auto
  | |- T _ (parseFormula _ _) _ _ => apply parseFormula_T; auto
  | |- T _ (parseExprList _ _) _ _ => apply parseExprList_T; auto
  | |- T _ (parseTypeList _ _ _) _ _ => apply parseTypeList_T; auto
  | |- T _ (parseExprPairList _ _) _ _ => apply parseExprPairList_T; auto
  | |- T _ (parseVarListMap _ _ _) _ _ => apply parseVarListMap_T; auto
  | |- T _ (parseVarList _ _ _) _ _ => apply parseVarList_T; auto
  | |- T _ (parseAttributeList _ _ _ _ _) _ _ => apply parseAttributeList_T; auto; try discriminate
  | |- T _ (mkTypeConstant _ _) _ _ => apply mkTypeConstant_T
  | |- T _ (mkDisambiguatedType _ _ _ _) _ _ => apply mkDisambiguatedType_T
  | |- T _ (parseDatatypesDef _ _ _ _) _ _ => apply parseDatatypesDef_T; auto
  | |- _ => tlem0
  end.
Ltac tlem ::= tlem1.

Lemma getFunctionType_Q t args ret : Qn t -> getFunctionType t = Ok (args, ret) -> Forall Qn args /\ Qn ret.
Proof. unfold getFunctionType. apply funType_Q. Qed.
Lemma paramArrows_T d : forall ps amap t opaque, Forall Qn ps -> Qn t -> Forall Qn opaque ->
  T d (paramArrows G ps amap t opaque) (fun _ => d) (fun r => Qn (fst r) /\ Forall Qn (snd r)).
Proof.
  induction ps as [|p ps IH]; intros amap t opaque H1 H2 H3; cbn [paramArrows].
  - apply T_ret; [reflexivity|]. auto.
  - inversion H1; subst. eapply T_bind; [apply typeOf_T; assumption | intros; gp | intros pt Hpt].
    ts q _. assert (Q1 : Qn (or_null pt)) by (apply Q_or_null; exact Hpt).
    eapply (T_bind _ _ _ _ _ (fun _ => d) Qn); [| intros; gp | intros qt Hqt].
    + destruct q; [|tret]. destruct (isGround _); [|apply T_err]. apply T_ret; [reflexivity|]. qs.
    + match goal with |- T _ (if ?c then _ else _) _ _ => destruct c end; [apply IH; qs|]. destruct opaque; [|apply T_err]. apply IH; qs.
Qed.

Notation ckQ ck := (forall a ct, ck = Some (a, ct) -> a <> A_PROGRAM /\ forall c, ct = Some c -> Qn c).
Lemma cmdDeclare_T d c : T d (cmdDeclare G sig c) (fun _ => d) (fun _ => True).
Proof.
  unfold cmdDeclare.
  set (isParam := match c with C_DECLARE_PARAMETERIZED_CONST => true | _ => false end). clearbody isParam.
  set (isFun := match c with C_DECLARE_FUN => true | _ => false end). clearbody isFun. cbv zeta.
  ts name _.
  eapply (T_bind _ _ _ _ _ (fun _ => d) (Forall Qn)); [| intros; gp | intros sorts HS].
  { destruct isFun; [tlem | apply T_ret; [reflexivity | constructor]]. }
  set (d1 := if isParam then S d else d).
  eapply (T_bind _ _ _ _ _ (fun _ => d1) (fun r => Forall Qn (fst r) /\ Forall mQ (snd r))); [| intros [? ?]; gp | intros [params amap] [HP HM]].
  { unfold d1. destruct isParam; [tu; tlem | apply T_ret; [reflexivity | split; constructor]]. }
  cbn [fst snd] in *. ts ret Hret.
  eapply (T_bind _ _ _ _ _ (fun _ => d1) (fun ck => ckQ ck)); [| intros; gp | intros ck Hck].
  { destruct isFun; [apply T_ret; [reflexivity | discriminate]|]. ts attrs HA.
    eapply T_post; [apply T_lift|]. cbn beta. intros r E a ct ->. exact (processAttributeMap_Q _ _ _ HA E). }
  eapply T_bind; [apply paramArrows_T; [now apply Forall_rev | qs | constructor] | intros [? ?]; gp | intros [t1 opaque] [H1 H2]].
  cbn [fst snd] in *.
  eapply (T_bind _ _ _ _ _ (fun _ => d1) (fun r => Qn (fst r) /\ ckQ (snd r))); [| intros [? ?]; gp | intros [t2 ck2] [H3 H4]].
  { destruct isParam; [|apply T_ret; [reflexivity | auto]].
    eapply T_bind; [apply T_lift | intros [? ?]; gp | intros [argTypes retTy] E]. cbn beta iota.
    apply getFunctionType_Q in E; [|exact H1]. destruct E as [E1 E2]. ts fv _.
    destruct fv; [|apply T_ret; [reflexivity | auto]].
    destruct ck; [apply T_err|]. destruct opaque; [|apply T_err].
    ts t2 Ht2. apply T_ret; [reflexivity|]. cbn [fst snd]. split; [exact Ht2|]. intros a ct E. injection E as <- <-. split; discriminate. }
  cbn [fst snd] in *. tu.
  eapply (T_bind _ _ _ _ _ (fun _ => d1) (fun r => Qn (fst r) /\ ckQ (snd r))); [| intros [? ?]; gp | intros [t3 ck3] [H5 H6]].
  { destruct opaque; [apply T_ret; [reflexivity | auto]|]. destruct ck2; [apply T_err|]. apply T_ret; [reflexivity|].
    cbn [fst snd]. split; [qs|]. intros a0 ct E. injection E as <- <-. split; [discriminate|]. intros cc E. injection E as <-. qs. }
  cbn [fst snd] in *. ts v [Hv Kv].
  eapply (T_bind _ _ _ _ _ (fun _ => d1) (fun _ => True)); [| intros; gp | intros ? _].
  { destruct ck3 as [[a0 ct]|]; [|tret]. destruct (H6 a0 ct eq_refl) as [X Y].
    eapply (T_bind _ _ _ _ _ (fun _ => d1) (fun _ => True)); [| intros; gp | intros okb _; destruct okb; [tret | apply T_err]].
    apply markM_T. exact Y. }
  eapply (T_bind _ _ _ _ _ (fun _ => d) (fun _ => True)); [| intros; gp | intros ? _].
  { unfold d1. destruct isParam; [apply popM_T | tret]. }
  tlem. exact Hv.
Qed.
Lemma mkListM_T d args : Forall Qn args -> T d (mkListM G args) (fun _ => d) Qn.
Proof.
  intros H. unfold mkListM. assert (X : T d (mkE G K_APPLY (sym_cons :: args)) (fun _ => d) Qn) by (tlem; qs).
  destruct args; [apply T_ret; [reflexivity | qs] | exact X].
Qed.
Lemma cmdDatatypes_T d b : T d (cmdDatatypes G sig b) (fun _ => d) (fun _ => True).
Proof.
  unfold cmdDatatypes.
  eapply (T_bind _ _ _ _ _ (fun _ => d) (fun _ => True)); [| intros [? ?]; gp | intros [dnames arities] _].
  { destruct b; [|ts nm _; tret]. tu.
    eapply (T_bind _ _ _ _ _ (fun _ => d) (fun _ => True)); [| intros [? ?]; gp | intros [ns ars] _].
    - apply (T_loop _ _ _ (fun _ => d) (fun _ => d) (fun _ => True) (fun _ => True)); [intros; gp | | exact Logic.I].
      intros acc _. cbn beta. ts more _. destruct more; [|tret]. tu. tu. tu. tret.
    - destruct ns; [apply T_err|]. tu. tret. }
  ts dts HD.
  eapply (T_bind _ _ _ _ _ (fun _ => d) (fun _ => True)); [| intros; gp | intros ? _].
  { apply T_for with (J := tQ); [intros; gp | | exact HD]. intros x (A & B & C).
    eapply T_bind; [apply mkListM_T | intros; gp | intros ct Hct].
    - rewrite Forall_forall in *. intros y Y. apply in_map_iff in Y. destruct Y as (z & <- & Z). exact (proj1 (C z Z)).
    - eapply T_bind; [apply markM_T | intros; gp | intros ? _; tret].
      intros c E. injection E as <-. exact Hct. }
  eapply (T_bind _ _ _ _ _ (fun _ => d) (fun _ => True)); [| intros; gp | intros ? _].
  { apply T_for with (J := dQ); [intros; gp | | ].
    - intros x (A & B & C). eapply T_bind; [apply mkListM_T; exact C | intros; gp | intros ct Hct].
      eapply T_bind; [apply markM_T | intros; gp | intros ? _; tret].
      intros c E. injection E as <-. exact Hct.
    - rewrite Forall_forall in *. intros x X. apply in_flat_map in X. destruct X as (y & Y & X).
      destruct (HD y Y) as (_ & _ & Z). rewrite Forall_forall in Z. exact (Z x X). }
  destruct b; [tlem | tret].
Qed.
Lemma cmdDeclareConsts_T d : T d (cmdDeclareConsts G sig) (fun _ => d) (fun _ => True).
Proof.
  unfold cmdDeclareConsts. tu. tu. ts k _. ts t Ht. ts s I.
  eapply T_bind; [apply T_lift | intros; gp | intros m E]. cbn beta in *.
  intros p a p' I' O H. mstep H as u p1 E1. apply mupd_ok in E1. subst p1. mstep H as u2 p2 E2.
  assert (O2 : ok (s_log (snd p2))).
  { refine (ok_grows _ _ _ O). refine (pres_pop _ _ _ _ _ H). exact grows_reading. }
  apply mupd_ok in E2. subst p2. cbn [fst snd] in *.
  refine (popM_T d _ _ _ _ O H). cbn [snd].
  destruct I' as [A C D E' X]. constructor; cbn [set_log set_lits s_scope s_marks s_types s_lits s_asm]; try assumption.
  intros k' t'. unfold setLiteralTypeRule in E. destruct (existsb _ _); [|discriminate E].
  assert (E3 : m = (fun k'0 => if kind_eqb k k'0 then Some t else s_lits s k'0)).
  { destruct (s_lits s k); [destruct (term_eqb _ _); [|discriminate E]|]; now injection E as <-. }
  subst m. cbn beta. destruct (kind_eqb k k'); [intros Z; injection Z as <-; exact Ht | apply (iv_lits _ _ I)].
Qed.
Lemma optPart_T A d key name (m : M A) dflt (post : A -> Prop) : T d m (fun _ => d) post -> post dflt ->
  T d (optPart key name m dflt) (fun _ => d) (fun r => post (fst r)).
Proof.
  intros H1 H2. unfold optPart. destruct (text_eqb _ _); [|apply T_ret; [reflexivity | exact H2]].
  eapply T_bind; [exact H1 | intros; gp | intros a Ha]. ts k _. apply T_ret; [reflexivity | exact Ha].
Qed.
Lemma mkRequiresM_T d reqs ret : Forall Qn reqs -> Forall is_pair reqs -> Qn ret ->
  T d (mkRequiresM G reqs ret) (fun _ => d) (fun r => Qn r /\ chain reqs ret r).
Proof.
  intros H HP HR.
  assert (PG : forall l cur, pres grows (mkRequiresM G (rev l) cur)) by (intros; gp).
  assert (X : forall l acc cur, Forall Qn l -> Forall is_pair l -> Qn cur -> chain acc ret cur ->
    T d (mkRequiresM G (rev l) cur) (fun _ => d) (fun r => Qn r /\ chain (rev l ++ acc) ret r)).
  { induction l as [|r l IH]; intros acc cur A P C K; unfold mkRequiresM; rewrite rev_involutive.
    - apply T_ret; [reflexivity|]. auto.
    - inversion A as [|x y A1 A2]; subst. inversion P as [|x y (u & v & E) P2]; subst. apply Q_children in A1.
      assert (PG' := PG l). unfold mkRequiresM in PG'. rewrite rev_involutive in PG'.
      eapply T_bind; [apply T_lift | intros; gp; apply PG' | intros a1 E1].
      eapply T_bind; [apply T_lift | intros; gp; apply PG' | intros a2 E2]. cbn [tchildren vec_at nth_error] in E1, E2.
      injection E1 as <-. injection E2 as <-. cbn [tchildren] in A1. inversion A1 as [|x y B1 B2]; subst. inversion B2 as [|x y B3 B4]; subst.
      eapply (T_bind _ _ _ _ _ (fun _ => d) (fun c => Qn c /\ chain (Node K_TUPLE [u; v] :: acc) ret c)); [| intros; apply PG' |].
      + intros p c p' I O EM. destruct (mkE_T' d K_EVAL_REQUIRES [u; v; cur] ltac:(qs) p c p' I O EM) as [I' QC].
        split; [exact I'|]. split; [exact QC|].
        destruct (InvProofs.mkE_requires G _ _ _ _ _ _ EM) as [-> | (-> & GR & EV & ->)]; [now apply ch_keep | now apply ch_drop].
      + intros c [C1 C2]. specialize (IH (Node K_TUPLE [u; v] :: acc) c A2 P2 C1 C2).
        unfold mkRequiresM in IH. rewrite rev_involutive in IH. cbn [rev]. rewrite <- app_assoc. exact IH. }
  specialize (X (rev reqs) [] ret (Forall_rev H) (Forall_rev HP) HR (ch_nil ret)). rewrite rev_involutive, app_nil_r in X. exact X.
Qed.
Lemma ruleProgram_T d name progArgs ret : Qn ret -> Forall Qn progArgs ->
  T d (ruleProgram G name progArgs ret) (fun _ => d) Qn.
Proof.
  intros H1 H2. unfold ruleProgram.
  assert (X : T d (
      let! types := mmap progArgs (fun a =>
        if kind_eqb (tkind a) K_PROOF then mret sym_Proof
        else mkSymbol K_PARAM (txt "$eo_arg_") (Some t_Type)) in
      let! prog := mkSymbol K_PROGRAM_CONST (txt "$eo_prog_" ++ name)
                     (Some (Node K_PROGRAM_TYPE (types ++ [t_Bool]))) in
      let! ppat := mkE G K_APPLY (prog :: progArgs) in
      checkPair ppat ret ;;
      let! def := mkE G K_PROGRAM [Node K_TUPLE [ppat; ret]] in
      defineProgram prog def ;;
      mret prog) (fun _ => d) Qn).
  { eapply (T_bind _ _ _ _ _ (fun _ => d) (Forall Qn)); [| intros; gp | intros types HT].
    - apply T_map with (J := fun _ => True); [intros; gp | | apply Forall_forall; auto]. intros a _.
      destruct (kind_eqb _ _); [apply T_ret; [reflexivity | qs]|].
      eapply T_post; [tlem; qs|]. cbn beta. tauto.
    - apply T_new; [qs | intros; gp | intros prog HP KP]. tu.
      eapply T_bind; [apply mkE_prog | intros; gp | intros def ->].
      eapply T_bind; [apply defineProgram_T; qs | intros; gp | intros ? _; tret]. }
  destruct progArgs; [|exact X]. destruct (_ && _); [tret | apply T_err].
Qed.
Lemma cmdDeclareRule_T d : T d (cmdDeclareRule G sig) (fun _ => d) (fun _ => True).
Proof.
  unfold cmdDeclareRule.
  eapply (T_bind _ _ _ _ _ (fun _ => d) (fun _ => True)); [| intros; gp | intros lvl _].
  { unfold levelM. ts s I. tret. }
  destruct (negb _); [apply T_err|]. tu. ts name _. tu. ts key0 _.
  eapply T_bind; [apply (optPart_T _ _ _ _ _ _ Qn); [tlem | qs] | intros [? ?]; gp | intros [assume key1] HA]. cbn beta iota. cbn [fst snd] in *.
  eapply (T_bind _ _ _ _ _ (fun _ => S d) (fun r => Forall Qn (fst (fst r)) /\ Qn (snd (fst r)))); [| intros [[? ?] ?]; gp | intros [[premises plCons] key2] [HP1 HP2]].
  { destruct (text_eqb _ _).
    - ts ps Hps. ts k _. apply T_ret; [reflexivity|]. cbn [fst snd]. split; [exact Hps | qs].
    - destruct (text_eqb _ _).
      + ts pat Hpat. ts pc Hpc. ts k _. apply T_ret; [reflexivity|]. cbn [fst snd]. split; [qs | exact Hpc].
      + apply T_ret; [reflexivity|]. cbn [fst snd]. split; qs. }
  cbn beta iota. cbn [fst snd] in *.
  eapply T_bind; [apply (optPart_T _ _ _ _ _ _ (Forall Qn)); [tlem | qs] | intros [? ?]; gp | intros [args key3] Hargs]. cbn beta iota. cbn [fst snd] in *.
  eapply T_bind; [apply (optPart_T _ _ _ _ _ _ (fun l => Forall Qn l /\ Forall is_pair l)); [tlem | split; constructor] | intros [? ?]; gp | intros [reqs key4] [Hreqs Hpairs]]. cbn beta iota. cbn [fst snd] in *.
  eapply (T_bind _ _ _ _ _ (fun _ => S d) (fun r => Qn (fst r))); [| intros [? ?]; gp | intros [conc concExplicit] Hconc].
  { destruct (text_eqb _ _); [|destruct (text_eqb _ _); [|apply T_err]]; ts c Hc; tret. }
  cbn beta iota zeta. cbn [fst snd] in *.
  eapply T_bind; [apply mkRequiresM_T; assumption | intros; gp | intros ret [Hret Hch]].
  eapply T_bind; [apply popM_T | intros; gp | intros ? _]. ts rule [HR KR].
  eapply (T_bind _ _ _ _ _ (fun _ => d) (fun _ => True)); [| intros; gp | intros ? _].
  { eapply T_post; [tlem; qs | auto]. }
  eapply T_bind; [apply ruleProgram_T; [exact Hret|] | intros; gp | intros ruleProg Hrp].
  { apply Forall_app. split; [exact Hargs|]. apply Forall_app. split; [destruct concExplicit; qs|].
    apply Forall_app. split; [destruct (is_null assume); qs|]. rewrite Forall_forall in *. intros y Y.
    apply in_map_iff in Y. destruct Y as (z & <- & Z). apply okk_node. constructor; [exact (HP1 z Z) | constructor]. }
  tu. eapply (T_bind _ _ _ _ _ (fun _ => d) Qn); [| intros; gp | intros attrVal HV].
  { apply mkE_T'. destruct (is_null plCons); qs. }
  tu. eapply T_bind; [apply markM_T | intros; gp | intros ? _; tu; tret].
  intros c E. injection E as <-. exact HV.
Qed.
Lemma cmdDeclareSort_T d : T d cmdDeclareSort (fun _ => d) (fun _ => True).
Proof. unfold cmdDeclareSort. ts name _. ts a _. ts t [Ht Kt]. tlem. exact Ht. Qed.
Lemma cmdDefineConst_T d : T d (cmdDefineConst G sig) (fun _ => d) (fun _ => True).
Proof. unfold cmdDefineConst. ts name _. ts ret Hr. ts e He. tu. tlem. exact He. Qed.
Lemma addReferenceAssert_T d a : T d (addReferenceAssert G a) (fun _ => d) (fun _ => True).
Proof.
  unfold addReferenceAssert, normalForm.
  eapply (T_bind _ _ _ _ _ (fun _ => d) (fun _ => True)); [| intros; gp | intros ? _].
  { ts s I. destruct (is_null _); [tret|]. eapply T_post; [apply mkE_T | auto]. }
  eapply (T_bind _ _ _ _ _ (fun _ => d) (fun _ => True)); [| intros; gp | intros ? _; tlem].
  apply T_upd. intros s _ I. now apply (Inv_eq d s).
Qed.
Lemma mkBinderList_T' d v vs : T d (mkBinderList G v vs) (fun _ => d) (fun _ => True).
Proof.
  unfold mkBinderList, consTermOf.
  eapply (T_bind _ _ _ _ _ (fun _ => d) (fun _ => True)); [| intros; gp | intros ct _].
  - ts s I. destruct (e_info _ _); [tret | apply T_ub].
  - eapply T_post; [apply mkE_T | auto].
Qed.
Lemma cmdDefine_T d isFun : T d (cmdDefine G sig isFun) (fun _ => d) (fun _ => True).
Proof.
  unfold cmdDefine. tu. ts name _.
  eapply T_bind; [tlem | intros [? ?]; gp | intros [vars amap] [HV HM]]. cbn beta iota. cbn [fst snd] in *.
  eapply (T_bind _ _ _ _ _ (fun _ => S d) (fun _ => True)); [| intros; gp | intros ? _].
  { destruct (Nat.ltb _ _); [|tret]. eapply T_bind; [apply popM_T | intros; gp | intros ? _]. tu.
    apply T_for with (J := Qn); [intros; gp | | exact HV]. intros v Hv. ts s I. tu. tret. }
  tu.
  eapply (T_bind _ _ _ _ _ (fun _ => S d) Qn); [| intros; gp | intros ret Hret].
  { destruct isFun; [tlem | apply T_ret; [reflexivity | qs]]. }
  ts expr He.
  eapply (T_bind _ _ _ _ _ (fun _ => S d) (fun _ => True)); [| intros; gp | intros ? _].
  { destruct (is_null ret); [tret | tlem]. }
  eapply (T_bind _ _ _ _ _ (fun _ => S d) Qn); [| intros; gp | intros result Hres].
  { destruct isFun.
    - ts s I. destruct (getVar (s_scope s) (txt "=")) as [eq|]; [|apply T_err].
      eapply (T_bind _ _ _ _ _ (fun _ => S d) (fun r => Qn (snd r))); [| intros [? ?]; gp | intros [rhs t] HT].
      + assert (X : forall lam, T (S d) (
                    let! bvl := mkBinderList G lam vars in
                    let! rhs := mkE G K_APPLY [lam; bvl; expr] in
                    let! types := mmap vars (typeCheck G) in
                    mret (rhs, mkFunctionType types ret)) (fun _ => S d) (fun r => Qn (snd r))).
        { intros lam. eapply T_bind; [apply mkBinderList_T' | intros; gp | intros bvl _].
          eapply T_bind; [apply mkE_T | intros; gp | intros rhs _].
          eapply (T_bind _ _ _ _ _ (fun _ => S d) (Forall Qn)); [| intros; gp | intros types HT].
          - apply T_map with (J := Qn); [intros; gp | | exact HV]. intros v Hv. tlem. exact Hv.
          - apply T_ret; [reflexivity|]. cbn [snd]. qs. }
        destruct vars; [apply T_ret; [reflexivity | exact Hret]|]. destruct (getVar _ _); [apply X | apply T_err].
      + cbn beta iota. cbn [snd] in HT. ts v [Hv Kv].
        eapply T_bind; [apply mkE_T | intros; gp | intros aa _].
        eapply T_bind; [apply addReferenceAssert_T | intros; gp | intros ? _]. tret.
    - eapply (T_bind _ _ _ _ _ (fun _ => S d) Qn); [| intros; gp | intros e Hee].
      + assert (X : T (S d) (let! vl := mkE G K_TUPLE vars in mkE G K_LAMBDA [vl; expr]) (fun _ => S d) Qn).
        { ts vl Hvl. tlem. qs. }
        destruct vars; [tret | exact X].
      + tu. tret. }
  eapply T_bind; [apply popM_T | intros; gp | intros ? _]. tlem. exact Hres.
Qed.
Lemma cmdDefineSort_T d : T d (cmdDefineSort G sig) (fun _ => d) (fun _ => True).
Proof.
  unfold cmdDefineSort. ts name _. ts snames _.
  assert (X : T d (
      pushM ;;
      let! vars := mmap snames (fun n => let! v := mkSymbol K_PARAM n (Some t_Type) in bindM n v ;; mret v) in
      let! t := parseType G pe false true in
      popM ;;
      let! vl := mkE G K_TUPLE vars in
      let! l := mkE G K_LAMBDA [vl; t] in
      bindM name l) (fun _ => d) (fun _ => True)).
  { tu. eapply (T_bind _ _ _ _ _ (fun _ => S d) (Forall Qn)); [| intros; gp | intros vars HV].
    - apply T_map with (J := fun _ => True); [intros; gp | | apply Forall_forall; auto]. intros nm _. ts v [Hv Kv]. tu. tret.
    - ts t Ht. eapply T_bind; [apply popM_T | intros; gp | intros ? _]. ts vl Hvl. ts l Hl. tlem. exact Hl. }
  destruct snames; [ts t Ht; tlem; exact Ht | exact X].
Qed.
Lemma cmdEcho_T d : T d cmdEcho (fun _ => d) (fun _ => True).
Proof.
  unfold cmdEcho. ts tok _. eapply (T_bind _ _ _ _ _ (fun _ => d) (fun _ => True)); [| intros; gp | intros msg _].
  - destruct (token_eqb _ _); [tlem | tret].
  - tlem.
Qed.
Lemma checkCases_T d v ar : forall cases, Forall is_pair cases ->
  T d (checkCases v ar cases) (fun _ => d) (fun _ => exists pcs, cases = map (case_term v) pcs).
Proof.
  induction cases as [|p cases IH]; cbn [checkCases]; intros P; [apply T_ret; [reflexivity | now exists []]|].
  inversion P as [|x y (u & w & ->) P2]; subst.
  eapply T_bind; [apply T_lift | intros; gp | intros pc E1]. eapply T_bind; [apply T_lift | intros; gp | intros rhs E2].
  cbn [tchildren vec_at nth_error] in E1, E2. injection E1 as <-. injection E2 as <-.
  destruct (kind_eqb (tkind u) K_APPLY) eqn:K1; cbn [negb]; [|apply T_err].
  eapply T_bind; [apply T_lift | intros; gp | intros hd E3].
  destruct (term_eqb hd v) eqn:K2; cbn [negb]; [|apply T_err]. destruct (negb _); [apply T_err|]. tu.
  eapply T_post; [exact (IH P2)|]. cbn beta. intros _ (pcs & ->). apply term_eqb_eq in K2. subst hd.
  destruct u as [k i | l | k cs]; cbn [tchildren] in E3; [discriminate E3 | discriminate E3 |].
  apply kind_eqb_eq in K1. cbn [tkind] in K1. subst k. destruct cs as [|c cs]; [discriminate E3|].
  cbn [vec_at nth_error] in E3. injection E3 as ->. exists ((cs, w) :: pcs). reflexivity.
Qed.
Lemma cmdProgram_T d : T d (cmdProgram G sig) (fun _ => d) (fun _ => True).
Proof.
  unfold cmdProgram. ts name _. tu. tu. ts tok _.
  eapply (T_bind _ _ _ _ _ (fun _ => S d) (fun _ => True)); [| intros; gp | intros key _].
  { destruct (token_eqb _ _); [tlem | apply T_err]. }
  destruct (negb _); [apply T_err|]. ts argTypes HA. ts retType HR.
  assert (X : T (S d) (
        let progType := Node K_PROGRAM_TYPE (argTypes ++ [retType]) in
        let! s := mget in
        let prev := getVar (s_scope s) name in
        let! pvar :=
          match prev with
          | Some p =>
              if negb (kind_eqb (tkind p) K_PROGRAM_CONST) then merr
              else match getProgram (env_of G s) p with
                   | Some _ => merr
                   | None => typeCheckAs G p progType ;; mret p
                   end
          | None =>
              let! p := mkSymbol K_PROGRAM_CONST name (Some progType) in
              bindM name p ;; mret p
          end in
        let! tok2 := peek in
        let! program :=
          if token_eqb tok2 T_RPAREN then mret None
          else
            let! cases := parseExprPairList G pe in
            match cases with
            | [] => merr
            | _ =>
                checkCases pvar (length argTypes) cases ;;
                let! p := mkE G K_PROGRAM cases in mret (Some p)
            end in
        popM ;;
        match program with
        | Some p => defineProgram pvar p
        | None => mret tt
        end ;;
        match prev with
        | None => bindM name pvar
        | Some _ => mret tt
        end) (fun _ => d) (fun _ => True)).
  { cbv zeta. ts s I.
    eapply (T_bind _ _ _ _ _ (fun _ => S d) (fun p => Qn p /\ tkind p = K_PROGRAM_CONST)); [| intros; gp | intros pvar [Hp Kp]].
    - destruct (getVar (s_scope s) name) as [p|] eqn:GV.
      + pose proof (inv_getVar _ _ _ _ I GV) as HQ. destruct (kind_eqb (tkind p) K_PROGRAM_CONST) eqn:K; [|apply T_err].
        apply kind_eqb_eq in K. cbn [negb]. destruct (getProgram _ p); [apply T_err|]. tu. tret.
      + ts p [Hp Kp]. tu. tret.
    - ts tok2 _.
      eapply (T_bind _ _ _ _ _ (fun _ => S d) (fun o => forall p, o = Some p -> Qn p /\ exists cases, p = program_term pvar cases)); [| intros; gp | intros program HP].
      + destruct (token_eqb _ _); [apply T_ret; [reflexivity | discriminate]|]. ts cases [HC1 HC2].
        assert (Y : T (S d) (checkCases pvar (length argTypes) cases ;;
                let! p := mkE G K_PROGRAM cases in mret (Some p)) (fun _ => S d) (fun o => forall p, o = Some p -> Qn p /\ exists cases, p = program_term pvar cases)).
        { eapply T_bind; [exact (checkCases_T _ _ _ _ HC2) | intros; gp | intros ? [pcs X]].
          eapply T_bind; [apply mkE_prog | intros; gp | intros p ->]. apply T_ret; [reflexivity|].
          intros q E. injection E as <-. split; [qs | exists pcs; now rewrite X]. }
        destruct cases; [apply T_err | exact Y].
      + eapply T_bind; [apply popM_T | intros; gp | intros ? _].
        eapply (T_bind _ _ _ _ _ (fun _ => d) (fun _ => True)); [| intros; gp | intros ? _].
        * destruct program as [p|]; [|tret]. destruct (HP p eq_refl) as [HP1 HP2]. apply defineProgram_T. exact HP1.
        * destruct (getVar (s_scope s) name); [tret|]. tlem. exact Hp. }
  destruct argTypes; [apply T_err | exact X].
Qed.
Lemma cmdSetOption_T d b : T d (cmdSetOption G b) (fun _ => d) (fun _ => True).
Proof.
  unfold cmdSetOption. ts key _. eapply (T_bind _ _ _ _ _ (fun _ => d) (fun _ => True)); [| intros; gp | intros ? _; tlem].
  destruct b; [tret|]. ts tok _. ts str _. destruct (_ && _); [|tret].
  apply T_upd. intros s _ I. destruct (setOption _ _ _); [|exact I]. now apply (Inv_eq d s).
Qed.
Lemma runCommand_T d r inc c : level_command c = true -> T d (runCommand G sig r inc c) (fun _ => d) (fun _ => True).
Proof.
  intros L. destruct c; try discriminate L; cbn [runCommand].
  all: first [apply cmdDeclare_T | apply cmdDatatypes_T | apply cmdDeclareConsts_T | apply cmdDeclareRule_T | apply cmdDeclareSort_T
    | apply cmdDefineConst_T | apply cmdDefine_T | apply cmdDefineSort_T | apply cmdEcho_T | apply cmdProgram_T | apply cmdSetOption_T
    | apply T_ret; [reflexivity | exact Logic.I] | idtac].
  - ts a Ha. apply addReferenceAssert_T.
  - tu. tret.
  - tu. tret.
  - tu. tlem.
Qed.
End Commands.

(* ------------------------------------------------------------------ *)
(** * Steps and assumptions *)
Section Steps.
Variable sig : bool.
Notation pe := (parseExpr G sig (g_fuel G)).
Hint Resolve peg peT : core.
Ltac tlem1 := lazymatch goal with
  | |- T _ (parseExpr _ _ _) _ _ => apply parseExpr_T
  | |- T _ parseSymbol _ _ => apply parseSymbol_T
  | |- T _ parseKeyword _ _ => apply parseKeyword_T
  | |- T _ (parseFormula _ _) _ _ => apply parseFormula_T; auto
  | |- T _ (parseExprList _ _) _ _ => apply parseExprList_T; auto
  | |- _ => tlem0
  end.
Ltac tlem ::= tlem1.
Ltac gp ::= pose proof grows_po; repeat first [assumption | gp_cmd | pres_step
  | apply grows_log | apply grows_upd; intros; first [reflexivity | destruct (setOption _ _ _); reflexivity]].
Lemma readAssume_T d : T d (readAssume G sig) (fun _ => d) (fun r => Qn (snd r)).
Proof. unfold readAssume. ts nm _. ts F HF. apply T_ret; [reflexivity | exact HF]. Qed.
Lemma readStep_T d isPop : T d (readStep G sig isPop) (fun _ => d)
  (fun r => let '(name, rule, proven, prem, args) := r in
            tkind rule = K_PROOF_RULE /\ Qn proven /\ Forall Qn prem /\ Forall Qn args).
Proof.
  unfold readStep.
  eapply (T_bind _ _ _ _ _ (fun _ => d) (fun _ => True)); [| intros; gp | intros lvl _].
  { unfold levelM. ts s I. tret. }
  destruct (isPop && _); [apply T_err|]. ts name _. ts tok _.
  eapply (T_bind _ _ _ _ _ (fun _ => d) Qn); [| intros; gp | intros proven Hp].
  { destruct (token_eqb _ _); [apply T_ret; [reflexivity | qs] | tlem]. }
  ts key0 _. destruct (negb _); [apply T_err|]. ts rn _.
  eapply (T_bind _ _ _ _ _ (fun _ => d) (fun r => tkind r = K_PROOF_RULE)); [| intros; gp | intros rule KR].
  { unfold getProofRuleM. ts s I. destruct (getProofRule _ _ _) as [v|]; [|apply T_err].
    destruct (kind_eqb (tkind v) K_PROOF_RULE) eqn:K; [|apply T_err]. apply kind_eqb_eq in K. tret. }
  eapply (T_bind _ _ _ _ _ (fun _ => d) (fun _ => True)); [| intros; gp | intros ? _].
  { apply T_upd. intros s _ I. now apply (Inv_eq d s). }
  ts t1 _. eapply (T_bind _ _ _ _ _ (fun _ => d) (fun _ => True)); [| intros; gp | intros key1 _].
  { destruct (token_eqb _ _); [tlem | tret]. }
  eapply (T_bind _ _ _ _ _ (fun _ => d) (fun r => Forall Qn (fst r))); [| intros [? ?]; gp | intros [prem key2] HP].
  { destruct (text_eqb _ _); [|apply T_ret; [reflexivity | constructor]].
    ts ps Hps. ts t2 _. eapply (T_bind _ _ _ _ _ (fun _ => d) (fun _ => True)); [| intros; gp | intros k _].
    - destruct (token_eqb _ _); [tlem | tret].
    - apply T_ret; [reflexivity | exact Hps]. }
  cbn beta iota. cbn [fst] in HP.
  eapply (T_bind _ _ _ _ _ (fun _ => d) (Forall Qn)); [| intros; gp | intros args HA].
  { destruct (text_eqb _ _); [tlem | apply T_ret; [reflexivity | constructor]]. }
  apply T_ret; [reflexivity|]. auto.
Qed.

Lemma premise_formulas_Q : forall prem fs, Forall Qn prem -> premise_formulas prem = Ok (Some fs) -> Forall Qn fs.
Proof.
  induction prem as [|e ps IH]; intros fs H E; cbn [premise_formulas] in E; [injection E as <-; constructor|].
  inversion H as [|x y A B]; subst. destruct (kind_eqb _ _); [|discriminate E].
  apply bind_ok in E. destruct E as (f & E1 & E). apply bind_ok in E. destruct E as ([r|] & E2 & E); [|discriminate E].
  injection E as <-. constructor; [|exact (IH _ B E2)]. exact (Q_at _ _ _ _ _ (Q_children _ _ _ A) E1).
Qed.
Lemma collectPremises_T d t prem : Qn t -> Forall Qn prem -> T d (collectPremises G t prem) (fun _ => d)
  (fun r => forall ap, r = Some ap -> Qn ap).
Proof.
  intros H1 H2. unfold collectPremises. eapply T_bind; [apply T_lift | intros; gp | intros fs E]. cbn beta in E.
  destruct fs as [fs|]; [|apply T_ret; [reflexivity | discriminate]].
  apply premise_formulas_Q in E; [|exact H2].
  assert (X : T d (let! ap := mkE G K_APPLY (t :: fs) in mret (Some ap)) (fun _ => d) (fun r => forall ap, r = Some ap -> Qn ap)).
  { ts ap Hap. apply T_ret; [reflexivity|]. intros x Y. injection Y as <-. exact Hap. }
  destruct fs; [|exact X].
  ts s I. destruct (e_info (env_of G s) t) as [ai|] eqn:EI; [|apply T_ub].
  destruct (isListNilAttr (ai_cons ai)) eqn:LN; [|apply T_ret; [reflexivity | discriminate]].
  apply T_ret; [reflexivity|]. intros ap Y. injection Y as <-. apply Q_or_null. intros c EC.
  exact (cterm_Q _ _ _ _ _ I EI EC).
Qed.
Lemma notifyStep_T d rule proven prem args isPop : tkind rule = K_PROOF_RULE -> Qn proven -> Forall Qn prem -> Forall Qn args ->
  T d (notifyStep G rule proven prem args isPop) (fun _ => d) (fun r => forall conc asm, r = Some (conc, asm) -> Qn conc).
Proof.
  intros KR HP HPR HA. unfold notifyStep. ts s I.
  assert (N0 : T d (mret None) (fun _ => d) (fun r : option (term * option term) => forall conc asm, r = Some (conc, asm) -> Qn conc)).
  { apply T_ret; [reflexivity | discriminate]. }
  destruct (e_info (env_of G s) rule) as [ai|] eqn:EI; [|exact N0]. cbv zeta.
  assert (HC0 : Qn (or_null (ai_cterm ai))).
  { apply Q_or_null. intros c EC. exact (cterm_Q _ _ _ _ _ I EI EC). }
  apply Q_children in HC0. ts prog E3. ts t0 E0. ts t1 E1. ts t2 E2. apply (Q_at _ _ _ _ _ HC0) in E3, E0, E1, E2.
  destruct (_ && _); [exact N0|]. destruct (Bool.eqb _ _); [|exact N0].
  eapply (T_bind _ _ _ _ _ (fun _ => d) (fun o => forall a, o = Some a -> Qn a)); [| intros; gp | intros asm HAsm].
  { destruct isPop; [|apply T_ret; [reflexivity | discriminate]].
    eapply T_bind; [apply T_lift | intros; gp | intros a0 EA]. apply T_ret; [reflexivity|].
    intros b Y. injection Y as <-. unfold vec_at in EA. destruct (nth_error _ _) as [z|] eqn:NE; [|discriminate EA]. injection EA as ->.
    apply nth_error_In in NE. unfold currentAssumptions in NE. pose proof (iv_asm _ _ I) as IA.
    rewrite Forall_forall in IA. apply IA.
    rewrite <- (firstn_skipn (match s_asmctx s with [] => O | n0 :: _ => n0 end) (s_asm s)). apply in_or_app. now right. }
  eapply (T_bind _ _ _ _ _ (fun _ => d) (fun o => forall l, o = Some l -> Forall Qn l)); [| intros; gp | intros prem' HPR'].
  { destruct (term_eqb t0 t_Any); [apply T_ret; [reflexivity|]; intros l Y; now injection Y as <-|].
    eapply T_bind; [apply collectPremises_T; assumption | intros; gp | intros r Hr]. apply T_ret; [reflexivity|].
    intros l Y. destruct r as [ap|]; [|discriminate Y]. injection Y as <-. constructor; [|constructor].
    apply okk_node. constructor; [now apply Hr | constructor]. }
  destruct prem' as [prem'|]; [|exact N0]. specialize (HPR' _ eq_refl).
  match goal with |- T _ (match ?x with _ => _ end) _ _ => assert (HX : Forall Qn x); [|destruct x as [|i0 inputs]] end.
  { repeat (apply Forall_app; split); auto.
    - destruct (term_eqb t2 _); qs.
    - destruct asm as [a0|]; [specialize (HAsm a0 eq_refl)|]; qs. }
  - apply T_ret; [reflexivity|]. intros conc asm' Y. injection Y as <- <-. exact E3.
  - eapply T_bind; [apply T_lift | intros; gp | intros r ER]. cbn beta in ER.
    assert (HR : forall x, r = Some x -> Qn x).
    { intros x ->. pose proof (closed_of _ _ I) as EO. unfold evaluateProgramApp in ER.
      assert (HI : Forall Qn (prog :: i0 :: inputs)) by (constructor; assumption).
      apply bind_ok in ER. destruct ER as ([[body c]|] & EP & EV).
      - apply (evaluateProgramInternal_Q Sy (g_varinfo G) _ (fun h p0 => program_Q _ _ _ h p0 EO)) in EP; [|exact HI]. destruct EP as [B1 B2].
        refine (evaluate_Q Sy (g_varinfo G) _ _ _ _ _ _ _ _ B1 B2 EV).
        + intros k ds rr _. exact (proj1 (proj2 (tc_Q _ _ _ EO _)) k ds rr).
        + intros h p0. exact (program_Q _ _ _ h p0 EO).
      - injection EV as <-. apply okk_node. exact HI. }
    destruct (isEvaluatable _); [exact N0|]. apply T_ret; [reflexivity|]. intros conc asm' Y. injection Y as <- <-.
    apply Q_or_null. exact HR.
Qed.
End Steps.
End Used.
