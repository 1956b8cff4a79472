(** Proofs that getType computes the types of SpecType.v. *)
From Coq Require Import ZArith List Bool Lia Arith.
From Verif Require Import Base Kind Ints Str Literal Arity Term Match Eval SpecTerm SpecEval TermProofs FlagsProofs MatchProofs
  EvalProofs EvalProofs2 EvalProofs3 EvalProofs4 ListOps Typing Build ClosureProofs MonoProofs SpecType.
Import ListNotations.

(** * Matching with the visited pairs of the caller *)

Lemma matchv_match : forall fuel stack visited c,
  match_loop fuel stack visited c =
  match matchv_loop fuel stack visited c with
  | Ok (true, c', _) => Ok (Some c') | Ok (false, _, _) => Ok None
  | Err => Err | UB => UB | Fuel => Fuel end.
Proof.
  intros fuel. induction fuel as [|n IH]; intros stack visited c; [reflexivity|]. cbn [match_loop matchv_loop].
  destruct stack as [|[a b] rest]; [reflexivity|].
  destruct (isGround a); [destruct (term_eqb a b); [apply IH|reflexivity]|].
  destruct (mem_pair a b visited); [apply IH|]. cbn zeta.
  destruct (tchildren a) as [|c1 cs].
  - destruct (kind_eqb (tkind a) K_PARAM); [|reflexivity]. destruct (ctx_find c a); [destruct (term_eqb t b); [apply IH|reflexivity]|apply IH].
  - destruct (negb _ || negb _); [reflexivity|apply IH].
Qed.

(** All pairs in [visited] have been matched completely. *)
Definition done (visited : list (term * term)) (c : ctx) : Prop :=
  forall x y, In (x, y) visited ->
     (is_param x /\ ctx_find c x = Some y) \/
     (tchildren x <> [] /\ tkind x = tkind y /\ length (tchildren x) = length (tchildren y) /\
      forall x' y', In (x', y') (combine (tchildren x) (tchildren y)) -> In (x', y') visited \/ groundeq x' y').

Lemma MInv_visit_param : forall a0 b0 c0 a b rest visited c, is_param a ->
  ctx_find c a = Some b -> MInv a0 b0 c0 ((a, b) :: rest) visited c -> MInv a0 b0 c0 rest ((a, b) :: visited) c.
Proof.
  intros a0 b0 c0 a b rest visited c Hp Ef M. eapply MInv_pop; [|left; left; reflexivity].
  destruct M as [M1 M2 M3 M4 M5]. constructor; auto.
  - destruct M1 as [X|[X|X]]; auto. left; right; exact X.
  - intros x y [X|X].
    + injection X as <- <-. left. split; assumption.
    + destruct (M2 x y X) as [Y|(Y1 & Y2 & Y3 & Y4)]; [left; exact Y|right].
      repeat (split; [assumption|]). intros x' y' Hc. destruct (Y4 x' y' Hc) as [Z|[Z|Z]]; auto. left; right; exact Z.
Qed.
Lemma MInv_emplace : forall a0 b0 c0 a b rest visited c, is_param a ->
  ctx_find c a = None -> MInv a0 b0 c0 ((a, b) :: rest) visited c -> MInv a0 b0 c0 ((a, b) :: rest) visited (ctx_emplace c a b).
Proof.
  intros a0 b0 c0 a b rest visited c Hp Ef [M1 M2 M3 M4 M5]. constructor; auto.
  - intros x y X. destruct (M2 x y X) as [[Y1 Y2]|Y]; [left|right; exact Y]. split; [exact Y1|].
    rewrite ctx_find_emplace. destruct (term_eqb a x) eqn:Eax; [|exact Y2]. apply term_eqb_eq in Eax. subst x. congruence.
  - intros p v Hpv. rewrite ctx_find_emplace. destruct (term_eqb a p) eqn:Eap; [|auto].
    apply term_eqb_eq in Eap. subst p. apply M3 in Hpv. congruence.
  - intros p v Hpv. rewrite ctx_find_emplace in Hpv. destruct (term_eqb a p) eqn:Eap; [|auto].
    apply term_eqb_eq in Eap. subst p. right. split; [exact Hp|]. apply (M5 a b). left; reflexivity.
Qed.

Lemma matchv_loop_sound : forall a0 b0 c0, twf a0 -> forall fuel stack visited c c' v',
  MInv a0 b0 c0 stack visited c -> matchv_loop fuel stack visited c = Ok (true, c', v') -> MInv a0 b0 c0 [] v' c'.
Proof.
  intros a0 b0 c0 W fuel. induction fuel as [|n IH]; intros stack visited c c' v' M E; [discriminate|].
  cbn [matchv_loop] in E. destruct stack as [|[a b] rest].
  { injection E as <- <-. exact M. }
  assert (Wa : twf a).
  { eapply twf_occurs; [exact W|]. apply (mi_occ _ _ _ _ _ _ M a b). left; reflexivity. }
  destruct (isGround a) eqn:G.
  { destruct (term_eqb a b) eqn:Eq; [|discriminate]. apply term_eqb_eq in Eq.
    eapply IH; [|exact E]. eapply MInv_pop; [exact M|]. right. split; assumption. }
  destruct (mem_pair a b visited) eqn:Hm.
  { apply mem_pair_In in Hm. eapply IH; [|exact E]. eapply MInv_pop; [exact M|left; exact Hm]. }
  cbn zeta in E. destruct (tchildren a) as [|c1 cs] eqn:Ec.
  { destruct (leaf_nonground_param a Wa Ec G) as [[Ek Hp]|[Ek _]]; rewrite Ek in E; [|discriminate].
    destruct (ctx_find c a) as [v|] eqn:Ef.
    - destruct (term_eqb v b) eqn:Eq; [|discriminate]. apply term_eqb_eq in Eq. subst v.
      eapply IH; [|exact E]. now apply MInv_visit_param.
    - eapply IH; [|exact E]. apply MInv_visit_param; [exact Hp| |now apply MInv_emplace].
      rewrite ctx_find_emplace, term_eqb_refl. reflexivity. }
  destruct (Nat.eqb (length (c1 :: cs)) (length (tchildren b))) eqn:El; [|discriminate].
  destruct (kind_eqb (tkind a) (tkind b)) eqn:Ek; [|discriminate].
  cbn [negb orb] in E. apply Nat.eqb_eq in El. apply kind_eqb_eq in Ek.
  eapply IH; [|exact E].
  destruct M as [M1 M2 M3 M4 M5].
  assert (X : forall x y, In (x, y) visited \/ In (x, y) ((a, b) :: rest) \/ groundeq x y ->
     In (x, y) ((a, b) :: visited) \/
     In (x, y) (rev (combine (c1 :: cs) (tchildren b)) ++ rest) \/ groundeq x y).
  { intros x y [Y|[[Y|Y]|Y]]; auto.
    - left; right; exact Y.
    - left; left; exact Y.
    - right; left. apply in_or_app; right; exact Y. }
  constructor; auto.
  - intros x y [Y|Y].
    + injection Y as <- <-. right. split; [rewrite Ec; discriminate|]. split; [exact Ek|].
      split; [rewrite Ec; exact El|]. intros x' y' Hc. right; left. apply in_or_app; left.
      rewrite Ec in Hc. apply in_rev in Hc. exact Hc.
    + destruct (M2 x y Y) as [Z|(Y1 & Y2 & Y3 & Y4)]; [left; exact Z|right].
      repeat (split; [assumption|]). intros x' y' Hc. apply X. apply Y4; exact Hc.
  - intros x y Hin. apply in_app_or in Hin. destruct Hin as [Hin|Hin].
    + apply in_rev in Hin. apply in_combine_l in Hin.
      eapply occurs_trans; [|apply (M5 a b); left; reflexivity].
      apply occurs_child. rewrite Ec. exact Hin.
    + apply (M5 x y). right; exact Hin.
Qed.

Definition extends (c c' : ctx) : Prop := forall p v, ctx_find c p = Some v -> ctx_find c' p = Some v.
Definition within (c' : ctx) (s : sub) : Prop := forall p v, ctx_find c' p = Some v -> s p = Some v.

Lemma matchv_sound : forall a b c v c' v', twf a -> done v c -> matchv a b c v = Ok (true, c', v') ->
  done v' c' /\ extends c c' /\ (forall p u, ctx_find c' p = Some u -> ctx_find c p = Some u \/ (is_param p /\ occurs p a)) /\
  fits (ctx_find c') a b.
Proof.
  intros a b c v c' v' W D H.
  assert (M : MInv a b c [(a, b)] v c).
  { constructor; auto.
    - right; left; left; reflexivity.
    - intros x y I. destruct (D x y I) as [X|(X1 & X2 & X3 & X4)]; [left; exact X|right]. repeat (split; [assumption|]).
      intros x' y' I'. destruct (X4 x' y' I'); auto.
    - intros x y [X|[]]. injection X as <- <-. apply occ_here. }
  pose proof (matchv_loop_sound a b c W _ _ _ _ _ _ M H) as M'.
  assert (D' : done v' c').
  { intros x y I. destruct (mi_vis _ _ _ _ _ _ M' x y I) as [X|(X1 & X2 & X3 & X4)]; [left; exact X|right].
    repeat (split; [assumption|]). intros x' y' Hc. destruct (X4 x' y' Hc) as [Z|[[]|Z]]; auto. }
  split; [exact D'|]. split; [exact (mi_sub _ _ _ _ _ _ M')|]. split; [exact (mi_dom _ _ _ _ _ _ M')|].
  destruct (closed_instance v' c' D' a b W) as (X1 & X2 & X3).
  { destruct (mi_root _ _ _ _ _ _ M') as [Z|[[]|Z]]; auto. }
  split; [exact X3|]. split; [exact X1|exact X2].
Qed.

Lemma fits_extends : forall c c' a b, extends c c' -> fits (ctx_find c) a b -> fits (ctx_find c') a b.
Proof.
  intros c c' a b X (F1 & F2 & F3). split; [exact F1|].
  assert (Y : forall p, is_param p -> occurs p a -> ctx_find c p = ctx_find c' p).
  { intros p Hp Ho. pose proof (F3 p Hp Ho) as N. destruct (ctx_find c p) as [v|] eqn:Ev; [|contradiction]. symmetry. now apply X. }
  split; [rewrite <- F2; symmetry; now apply tsubst_ext|]. intros p Hp Ho. rewrite <- (Y p Hp Ho). now apply F3.
Qed.

Lemma matchv_complete : forall s a b c v, twf a -> fits s a b -> within c s ->
  exists c' v', matchv a b c v = Ok (true, c', v') /\ within c' s.
Proof.
  intros s a b c v W (F1 & F2 & F3) X.
  destruct (match_loop_complete s (S (tsize a)) [(a, b)] v c) as (c' & H & Y).
  - rewrite psize_cons. unfold psize. cbn [map]. rewrite tsizes_nil. lia.
  - intros x y [Z|[]]. injection Z as <- <-. auto.
  - exact X.
  - rewrite matchv_match in H. unfold matchv. destruct (matchv_loop _ _ _ _) as [[[[|] c1] v1]| | |]; try discriminate H.
    injection H as ->. eauto.
Qed.

(** * Environments *)

Definition wok (E : env) : Prop := env_ok (fun _ => None) (fun _ => True) E.
Lemma twf_Q' : forall t, twf t <-> Q (fun _ => None) (fun _ => True) t.
Proof.
  split; [|apply Q_twf]. intros H. induction t as [t IH] using size_ind. destruct H as [k i K | l | k cs K1 K2 C].
  - apply q_sym; [exact K|]. intros _ n t E. discriminate E.
  - apply q_lit.
  - apply q_node; [unfold nodek; now rewrite K1, K2 | | intros _; apply Forall_forall; auto].
    rewrite Forall_forall in *. intros c I. apply IH; [|exact (C c I)]. exact (tsize_child c (Node k cs) I).
Qed.
Lemma Forall_twf_Q : forall l, Forall twf l <-> Forall (Q (fun _ => None) (fun _ => True)) l.
Proof. intros l. split; apply Forall_impl; intros t; apply twf_Q'. Qed.
Lemma env_wf_ok : forall E, env_wf E -> wok E.
Proof.
  intros E [A1 A2 A3 A4 A5 A6 (A7 & A8 & A9) A10]. constructor; try (now apply twf_Q').
  - intros k i t H X. inversion H; subst. apply twf_Q'. eapply A1; eauto.
  - intros t ai c H _ X. apply twf_Q'. eapply A2; eauto.
  - intros t ai c H _ X. pose proof (A2 _ _ _ H X) as W. split; [|intros _; now apply twf_Q'].
    assert (C : forall x, In x (tchildren c) -> twf x) by (intros x I; eapply twf_child; eauto).
    apply Forall_forall. intros x I r R. apply twf_Q'. eapply twf_child; [exact (C x I)|].
    unfold vec_at in R. destruct (nth_error (tchildren x) 1) eqn:N; [|discriminate R]. injection R as <-. exact (nth_error_In _ _ N).
  - exact A3.
  - intros t ai ov H X. apply Forall_twf_Q. eapply A4; eauto.
  - intros k t H. apply twf_Q'. eapply A5; eauto.
  - intros n t H. apply twf_Q', A6, twf_Q', H.
Qed.
Lemma wok_type : forall E n t T, wok E -> twf t -> tc_type (tc E n) t = Ok (Some T) -> twf T.
Proof.
  intros E n t T K W H. apply twf_Q'. refine (proj1 (tc_Q _ _ (or_intror (fun _ => Logic.I)) E K n) t T _ H). now apply twf_Q'.
Qed.
Lemma wok_lop : forall E n, wok E -> lop_wf (tc_lop (tc E n)).
Proof.
  intros E n K k ds r W H. apply twf_Q'. refine (proj1 (proj2 (tc_Q _ _ (or_intror (fun _ => Logic.I)) E K n)) k ds r _ H). now apply Forall_twf_Q.
Qed.
Lemma wok_eval : forall E n t c r, wok E -> twf t -> sub_wf (ctx_find c) -> tc_eval (tc E n) t c = Ok (Some r) -> forall progs,
  programs_of E progs -> evaluates E progs (ctx_find c) t r.
Proof.
  intros E [|n] t c r K W S H progs [HP HG]; [discriminate H|]. exists n. cbn [tc tc_eval] in H.
  destruct (run_sound _ progs _ (wok_lop E n K) HP HG t c n [new_frame t c None] [] (GI_init _ progs t c W S)) as
    [X|[(v & X & Y & _)|(k & ds & _ & X)]]; unfold evaluate in H; try congruence.
  destruct X as [[_ X]|[[_ X]|[_ X]]]; congruence.
Qed.
Lemma eval_complete : forall E progs c t r, wok E -> programs_of E progs -> twf t -> sub_wf (ctx_find c) ->
  evaluates E progs (ctx_find c) t r -> exists n, tc_eval (tc E n) t c = Ok (Some r).
Proof.
  intros E progs c t r K [HP HG] W SW (n & H).
  apply (evaluate_exact _ progs _ (wok_lop E n K) HP HG t c r W SW) in H. destruct H as (n0 & H).
  exists (S (Nat.max n n0)). cbn [tc tc_eval]. specialize (H (Nat.max n n0) (Nat.le_max_r _ _)).
  eapply le_ok; [|exact H]. apply evaluate_mono; [|lia]. intros k ds. apply tc_mono. lia.
Qed.
Lemma evaluates_ext : forall E progs s s' t r, (forall p, s p = s' p) -> evaluates E progs s t r -> evaluates E progs s' t r.
Proof. intros E progs s s' t r H (n & X). exists n. eapply ev_ext; eauto. Qed.

(** * Soundness *)
Section Typing.
Variable E : env.
Variable progs : term -> option (list pcase).
Hypothesis OK : wok E.
Hypothesis PR : programs_of E progs.
Notation ht := (has_type (e_symtype E) (e_littype E) (e_self E) (e_proofType E) (e_listType E) (evaluates E progs)).
Notation hts := (has_types (e_symtype E) (e_littype E) (e_self E) (e_proofType E) (e_listType E) (evaluates E progs)).
Notation fit := (fit_args (e_symtype E) (e_littype E) (e_self E) (e_proofType E) (e_listType E) (evaluates E progs)).

Lemma pattern_wf : forall h, twf h -> twf (pattern h).
Proof.
  intros h W. destruct h as [k i|l|k [|q qs]]; try exact W; destruct k; try exact W.
  eapply twf_child; [exact W|left; reflexivity].
Qed.

Lemma type_args_cons : forall gt h hs x xs tx ts c v,
  type_args gt (h :: hs) (x :: xs) (tx :: ts) c v =
  match h with
  | Node K_QUOTE_TYPE qs =>
      let* q := vec_at qs 0 in
      let* cte := gt q in
      match cte with
      | Some te => if term_eqb tx te then
           let* (ok, c', v') := matchv q x c v in if ok : bool then type_args gt hs xs ts c' v' else Ok (false, c')
           else Ok (false, c)
      | None => Ok (false, c)
      end
  | _ => let* (ok, c', v') := matchv h tx c v in if ok : bool then type_args gt hs xs ts c' v' else Ok (false, c')
  end.
Proof. reflexivity. Qed.

Lemma kind_quote : forall h, tkind h = K_QUOTE_TYPE -> twf h -> exists qs, h = Node K_QUOTE_TYPE qs.
Proof.
  intros h H W. destruct h as [k i|l|k qs]; [|destruct l; discriminate H|cbn in H; subst; eauto].
  cbn in H. subst. inversion W as [k' i' X| |]; subst. discriminate X.
Qed.

Section TypeArgs.
Variable gt : term -> res (option term).
Hypothesis GT : forall t T, twf t -> gt t = Ok (Some T) -> ht t T.

Lemma fit_extends : forall c c' hs xs ts, extends c c' -> fit (ctx_find c) hs xs ts -> fit (ctx_find c') hs xs ts.
Proof.
  intros c c' hs. induction hs as [|h hs IH]; intros xs ts X F; inversion F; subst; constructor; try assumption;
    try (eapply fits_extends; eassumption); now apply IH.
Qed.

Lemma type_args_sound : forall hs xs ts c v c', length hs = length xs -> length hs = length ts ->
  Forall twf hs -> done v c -> type_args gt hs xs ts c v = Ok (true, c') ->
  extends c c' /\ (forall p u, ctx_find c' p = Some u -> ctx_find c p = Some u \/ (is_param p /\ exists h, In h hs /\ occurs p (pattern h))) /\
  fit (ctx_find c') hs xs ts.
Proof.
  intros hs. induction hs as [|h hs IH]; intros xs ts c v c' L1 L2 W D H.
  - destruct xs; [|discriminate L1]. destruct ts; [|discriminate L2]. cbn in H. injection H as <-.
    split; [intros p u X; exact X|]. split; [auto|constructor].
  - destruct xs as [|x xs]; [discriminate L1|]. destruct ts as [|tx ts]; [discriminate L2|]. rewrite type_args_cons in H.
    inversion W as [|h' hs' Wh Whs]; subst.
    assert (G : forall a b, twf a -> a = pattern h -> (fits (ctx_find c') a b -> forall F, F -> fit (ctx_find c') hs xs ts ->
         fit (ctx_find c') (h :: hs) (x :: xs) (tx :: ts)) \/ True) by auto. clear G.
    assert (G : forall b, (fits (ctx_find c') (pattern h) b -> fit (ctx_find c') hs xs ts -> fit (ctx_find c') (h :: hs) (x :: xs) (tx :: ts)) ->
       (let* (ok, c', v') := matchv (pattern h) b c v in if ok : bool then type_args gt hs xs ts c' v' else Ok (false, c')) = Ok (true, c') ->
       extends c c' /\ (forall p u, ctx_find c' p = Some u -> ctx_find c p = Some u \/ (is_param p /\ exists h0, In h0 (h :: hs) /\ occurs p (pattern h0))) /\
       fit (ctx_find c') (h :: hs) (x :: xs) (tx :: ts)).
    { clear H. intros b K H. ib H. destruct x0 as [[ok c1] v1]. destruct ok; [|discriminate H].
      destruct (matchv_sound _ _ _ _ _ _ (pattern_wf h Wh) D E0) as (D1 & X1 & M1 & F1).
      destruct (IH xs ts c1 v1 c' (eq_add_S _ _ L1) (eq_add_S _ _ L2) Whs D1 H) as (X2 & M2 & F2).
      split; [intros p u P; apply X2, X1, P|]. split.
      - intros p u P. destruct (M2 p u P) as [P'|(Q1 & h0 & I & O)]; [|right; split; [exact Q1|]; exists h0; split; [right; exact I|exact O]].
        destruct (M1 p u P') as [Y|[Q1 O]]; [left; exact Y|]. right. split; [exact Q1|]. exists h. split; [left; reflexivity|exact O].
      - apply K; [eapply fits_extends; eassumption|exact F2]. }
    destruct (kind_eqb (tkind h) K_QUOTE_TYPE) eqn:EK.
    + apply kind_eqb_eq in EK. destruct (kind_quote h EK Wh) as (qs & ->). destruct qs as [|q qs]; [discriminate H|].
      cbn [vec_at nth_error bind] in H. ib H. destruct x0 as [te|]; [|discriminate H].
      destruct (term_eqb tx te) eqn:ET; [|discriminate H]. apply term_eqb_eq in ET. subst te.
      apply (G x); [|exact H]. intros F FA. constructor; [apply GT; [exact (pattern_wf _ Wh)|exact E0]|exact F|exact FA].
    + assert (NK : tkind h <> K_QUOTE_TYPE) by (intro X; rewrite X in EK; discriminate EK).
      assert (PH : pattern h = h). { destruct h as [k i|l|k [|q qs]]; try reflexivity; destruct k; try reflexivity. elim NK; reflexivity. }
      rewrite PH in G. apply (G tx).
      * intros F FA. now apply fa_plain.
      * destruct h as [k i|l|k qs]; try exact H. destruct k; try exact H. elim NK; reflexivity.
Qed.

Lemma types_of_sound : forall cs ts, Forall twf cs -> types_of gt cs = Ok (Some ts) -> hts cs ts.
Proof.
  intros cs. induction cs as [|c cs IH]; intros ts W H; cbn [types_of] in H; [injection H as <-; constructor|].
  inversion W; subst. ib H. destruct x as [ts'|]; [|discriminate H]. ib H. destruct x as [ty|]; [|discriminate H]. injection H as <-.
  constructor; [now apply GT|now apply IH].
Qed.
End TypeArgs.

Lemma hts_length : forall cs ts, hts cs ts -> length cs = length ts.
Proof. intros cs. induction cs as [|c cs IH]; intros ts H; inversion H; subst; cbn; [reflexivity|f_equal; auto]. Qed.

Lemma settled_spec : forall T, twf T -> (isGround T && isEvaluatable T = false <-> settled T).
Proof.
  intros T W. unfold settled. rewrite andb_false_iff. split.
  - intros [G|G] C; [apply ground_closed in C; [congruence|exact W]|now apply eval_inert].
  - intros H. destruct (isGround T) eqn:G; [|left; reflexivity]. right. apply eval_inert; [exact W|]. apply H. now apply ground_closed.
Qed.

Definition evl_ok (evl : term -> ctx -> res (option term)) : Prop :=
  forall t c r, twf t -> sub_wf (ctx_find c) -> evl t c = Ok (Some r) -> evaluates E progs (ctx_find c) t r.

Lemma one_wf : forall p x, twf x -> sub_wf (ctx_find [(p, x)]).
Proof. intros p x W q v. cbn. destruct (term_eqb p q); [|discriminate]. intros [= <-]. exact W. Qed.

Lemma any_wf : twf t_Any. Proof. now repeat constructor. Qed.
Lemma any_open : ~ closed t_Any.
Proof. intros C. destruct (C t_Any (occ_here _)) as [_ X]. now apply X. Qed.

Lemma evaluates_any : forall s T, evaluates E progs s t_Any T <-> T = t_Any.
Proof.
  intros s T. split.
  - intros (n & H). eapply ev_det; [exact shortcut_ext|exact H|]. apply ev_const; [reflexivity|]. intros (i & X). discriminate X.
  - intros ->. exists O. apply ev_const; [reflexivity|]. intros (i & X). discriminate X.
Qed.

Lemma literal_sound : forall evl k self T, evl_ok evl -> twf (match self with Some x => x | None => t_Any end) ->
  getLiteralTypeRule E evl k self = Ok (Some T) ->
  literal_type (e_littype E) (e_self E) (evaluates E progs) k (match self with Some x => x | None => t_Any end) T.
Proof.
  intros evl k self T HE WS H. unfold getLiteralTypeRule in H. unfold literal_type. destruct (e_littype E k) as [tp|] eqn:L.
  - assert (W : twf tp) by (apply twf_Q'; exact (ok_lit _ _ _ OK k tp L)).
    destruct (isGround tp) eqn:G; cbn in H.
    + injection H as <-. left. split; [now apply ground_closed|reflexivity].
    + right. split; [intro C; apply ground_closed in C; [congruence|exact W]|]. apply (HE tp _ T W) in H; [exact H|]. now apply one_wf.
  - cbn in H. apply HE in H; [|exact any_wf|now apply one_wf]. now apply evaluates_any in H.
Qed.

(** Literal operators: the table of SpecType.v. *)
Definition op_model (evl : term -> ctx -> res (option term)) (o : optype) (cs ts : list term) : res (option term) :=
  match o with
  | OType => Ok (Some t_Type)
  | OBool => Ok (Some t_Bool)
  | OList => Ok (Some (e_listType E))
  | OArg i => let* t := vec_at cs i in Ok (Some t)
  | OArgType i => let* t := vec_at ts i in Ok (Some t)
  | OLit k => getLiteralTypeRule E evl k None
  end.
Lemma litop_spec : forall evl k cs ts,
  getLiteralOpType E evl k cs ts =
  match op_signature k with
  | Some (ns, o) => if existsb (Nat.eqb (length ts)) ns then op_model evl o cs ts else Ok None
  | None => Ok None
  end.
Proof.
  intros evl k cs ts. destruct k; try reflexivity; unfold getLiteralOpType, checkArity, op_signature; cbn [isNaryLiteralOp existsb];
    rewrite ?orb_false_r; try (destruct (Nat.eqb (length ts) _); reflexivity).
  all: destruct (Nat.eqb (length ts) 2), (Nat.eqb (length ts) 3); reflexivity.
Qed.
Lemma typeInternal_op : forall gt evl k cs ts p, op_signature k = Some p ->
  getTypeInternal E gt evl (Node k cs) ts = getLiteralOpType E evl k cs ts.
Proof. intros gt evl k cs ts p H. destruct k; try discriminate H; reflexivity. Qed.

Lemma vec_at_nth : forall (l : list term) i x, vec_at l i = Ok x <-> nth_error l i = Some x.
Proof. intros l i x. unfold vec_at. destruct (nth_error l i); split; intros H; inversion H; reflexivity. Qed.
Lemma existsb_In : forall n ns, existsb (Nat.eqb n) ns = true <-> In n ns.
Proof.
  intros n ns. rewrite existsb_exists. split; [intros (m & I & X); apply Nat.eqb_eq in X; subst; exact I|].
  intros I. exists n. split; [exact I|apply Nat.eqb_refl].
Qed.
Lemma op_sound : forall evl o cs ts T, evl_ok evl -> op_model evl o cs ts = Ok (Some T) ->
  op_result (e_littype E) (e_self E) (e_listType E) (evaluates E progs) o cs ts T.
Proof.
  intros evl o cs ts T HE H. destruct o; cbn in *; try (injection H as <-; reflexivity).
  - ib H. injection H as <-. now apply vec_at_nth.
  - ib H. injection H as <-. now apply vec_at_nth.
  - exact (literal_sound evl k None T HE any_wf H).
Qed.

Lemma mkFun_arrows : forall ts r, mkFunctionType ts r = arrows ts r.
Proof. intros ts r. induction ts as [|t ts IH]; [reflexivity|]. cbn. now rewrite <- IH. Qed.

Lemma last_removelast : forall (l : list term) d, l <> [] -> removelast l ++ [last l d] = l.
Proof. intros l d H. symmetry. now apply app_removelast_last. Qed.
Lemma removelast_length : forall (l : list term), length (removelast l) = pred (length l).
Proof. induction l as [|x [|y l] IH]; [reflexivity|reflexivity|]. cbn [removelast length]. cbn [removelast length] in IH. now rewrite IH. Qed.

Lemma app_sound : forall gt evl cs ts T c, (forall t T, twf t -> gt t = Ok (Some T) -> ht t T) -> evl_ok evl ->
  Forall twf cs -> Forall twf ts -> hts cs ts -> length cs = length ts ->
  getTypeAppInternal gt evl cs ts = Ok (Some T, c) ->
  exists f xs fk hs ret ts' s, cs = f :: xs /\ ts = Node fk (hs ++ [ret]) :: ts' /\
    (fk = K_FUNCTION_TYPE \/ fk = K_PROGRAM_TYPE) /\ fit s hs xs ts' /\ only s hs /\ evaluates E progs s ret T.
Proof.
  intros gt evl cs ts T c GT HE Wc Wt HS L H. unfold getTypeAppInternal in H. ib H.
  destruct ts as [|hT ts]; [discriminate E0|]. cbn in E0. injection E0 as ->. destruct cs as [|f xs]; [discriminate L|].
  inversion Wt as [|h' t' Wh Wts]; subst. inversion Wc as [|h' t' Wf Wxs]; subst.
  assert (K : tkind x = K_FUNCTION_TYPE \/ tkind x = K_PROGRAM_TYPE) by (destruct (tkind x); try discriminate H; auto).
  assert (H' : (if negb (Nat.eqb (length (tchildren x)) (length (f :: xs))) then Ok (None, [])
      else let* (ok, c) := type_args gt (removelast (tchildren x)) xs ts [] [] in
        if ok : bool then match tchildren x with [] => UB | _ => let* r := evl (last (tchildren x) t_Any) c in Ok (r, c) end
        else Ok (None, c)) = Ok (Some T, c)) by (destruct K as [K|K]; rewrite K in H; exact H).
  clear H. destruct (Nat.eqb (length (tchildren x)) (length (f :: xs))) eqn:EL; cbn [negb] in H'; [|discriminate H'].
  apply Nat.eqb_eq in EL. ib H'. destruct x0 as [ok c1]. destruct ok; [|discriminate H'].
  assert (NE : tchildren x <> []) by (intro X; rewrite X in EL; discriminate EL).
  assert (SH : x = Node (tkind x) (removelast (tchildren x) ++ [last (tchildren x) t_Any])) by (rewrite last_removelast by exact NE; now apply node_shape).
  assert (Wx : Forall twf (tchildren x)) by (apply Forall_forall; intros y I; eapply twf_child; [exact Wh|exact I]).
  rewrite <- (last_removelast (tchildren x) t_Any NE) in Wx. apply Forall_app in Wx. destruct Wx as [Wr Wl].
  cbn [length] in L, EL.
  assert (L1 : length (removelast (tchildren x)) = length xs) by (rewrite removelast_length, EL; reflexivity).
  assert (L2 : length (removelast (tchildren x)) = length ts) by lia.
  assert (D0 : done [] []) by (intros y z []).
  destruct (type_args_sound gt GT _ _ _ _ _ _ L1 L2 Wr D0 E0) as (_ & M & F).
  destruct (tchildren x) as [|y ys] eqn:EX; [contradiction|]. rewrite <- EX in *. ib H'. injection H' as -> ->.
  exists f, xs, (tkind x), (removelast (tchildren x)), (last (tchildren x) t_Any), ts, (ctx_find c).
  split; [reflexivity|]. split; [now rewrite <- SH|]. split; [exact K|]. split; [exact F|]. split.
  - intros p N. destruct (ctx_find c p) as [u|] eqn:U; [|contradiction]. destruct (M p u U) as [X|X]; [discriminate X|exact X].
  - apply HE; [now inversion Wl| |exact E1].
    intros p u U. apply twf_Q'. eapply ctxQ_find; [|exact U]. eapply type_args_Q; [| | |exact E0].
    + now apply Forall_twf_Q.
    + now apply Forall_twf_Q.
    + constructor.
Qed.

Lemma tc_sound : forall n t T, twf t -> tc_type (tc E n) t = Ok (Some T) -> ht t T.
Proof.
  intros n. induction n as [|n IH]; intros t T W H; [discriminate H|].
  pose proof (wok_type E (S n) t T OK W H) as WT. cbn [tc tc_type] in H.
  assert (HE : evl_ok (tc_eval (tc E n))) by (intros u c r Wu Sw X; eapply wok_eval; eauto).
  assert (GT : forall ts, types_of (tc_type (tc E n)) (tchildren t) = Ok (Some ts) -> hts (tchildren t) ts /\ Forall twf ts).
  { intros ts X. assert (Wc : Forall twf (tchildren t)) by (apply Forall_forall; intros y I; eapply twf_child; [exact W|exact I]).
    split; [eapply types_of_sound; eauto|]. apply Forall_twf_Q. eapply types_of_Q; [|apply Forall_twf_Q; exact Wc|exact X].
    intros u r Wu R. apply twf_Q'. eapply wok_type; [exact OK|apply twf_Q'; exact Wu|exact R]. }
  assert (WC : Forall twf (tchildren t)) by (apply Forall_forall; intros y I; eapply twf_child; [exact W|exact I]).
  destruct t as [k i|l|k cs].
  - cbn in H. injection H as H. now constructor.
  - unfold getType in H. cbn [tchildren types_of bind] in H. ib H. destruct x as [ty|]; [|discriminate H].
    destruct (isGround ty && isEvaluatable ty) eqn:G; [discriminate H|]. injection H as ->. apply settled_spec in G; [|exact WT].
    unfold getTypeInternal in E0. cbn [tkind] in E0.
    destruct l; cbn [lit_kind] in E0; try (apply ht_literal; [discriminate| |exact G]; exact (literal_sound _ _ (Some _) T HE W E0)).
    injection E0 as <-. constructor.
  - unfold getType in H. cbn [tchildren] in *. ib H. destruct x as [ts|]; [|discriminate H]. ib H. destruct x as [ty|]; [|discriminate H].
    destruct (isGround ty && isEvaluatable ty) eqn:G; [discriminate H|]. injection H as ->. apply settled_spec in G; [|exact WT].
    destruct (GT ts eq_refl) as [HS Wts]. pose proof (hts_length _ _ HS) as L.
    assert (OPS : forall p, op_signature k = Some p -> ht (Node k cs) T).
    { intros [ns o] X. rewrite (typeInternal_op _ _ _ _ _ _ X), litop_spec, X in E1.
      destruct (existsb (Nat.eqb (length ts)) ns) eqn:A; [|discriminate E1]. apply existsb_In in A. rewrite <- L in A.
      eapply ht_op; eauto. eapply op_sound; eauto. }
    destruct (op_signature k) as [p|] eqn:EP; [now apply (OPS p)|]. clear OPS.
    assert (D : getLiteralOpType E (tc_eval (tc E n)) k cs ts = Ok (Some T) -> ht (Node k cs) T).
    { rewrite litop_spec, EP. discriminate. }
    assert (APP : (let* (r, _) := getTypeAppInternal (tc_type (tc E n)) (tc_eval (tc E n)) cs ts in Ok r) = Ok (Some T) ->
       k = K_APPLY \/ k = K_APPLY_OPAQUE -> ht (Node k cs) T).
    { intros X K. ib X. destruct x as [r c]. injection X as ->.
      destruct (app_sound _ _ _ _ _ _ IH HE WC Wts HS L E2) as (f & xs & fk & hs & ret & ts' & s & -> & -> & K2 & F & O & V).
      eapply ht_apply; eauto. }
    destruct k; try exact (APP E1 (or_introl eq_refl)); try exact (APP E1 (or_intror eq_refl)); try discriminate E1;
      try (injection E1 as <-; eapply ht_type; [cbn; tauto|exact HS]); try (injection E1 as <-; eapply ht_untyped; [cbn; tauto|exact HS]);
      try exact (D E1).
    all: try (cbn in E1; rewrite ?EP in E1; discriminate E1).
    all: try (exfalso; inversion W as [| |k' cs' W1 W2 W3]; subst; discriminate W2).
    all: try (exfalso; inversion W as [| |k' cs' W1 W2 W3]; subst; discriminate W1).
    all: cbn [getTypeInternal tkind tchildren] in E1.
    + ib E1. ib E1. destruct x0 as [args|]; [|discriminate E1]. ib E1. injection E1 as <-. apply vec_at_nth in E2, E4.
      destruct cs as [|vs cs]; [discriminate E2|]. cbn in E2. injection E2 as ->.
      inversion HS as [|x' xs' tv tvs Hv Hr]; subst. inversion Hr as [|body rest tb tbs Hb Hr']; subst; [discriminate E4|].
      cbn in E4. injection E4 as ->. rewrite mkFun_arrows in *. eapply ht_lambda; [exact HS| |exact G].
      apply (types_of_sound _ IH); [|exact E3]. inversion WC as [|y ys Wx _]; subst. apply Forall_forall. intros y I. eapply twf_child; [exact Wx|exact I].
    + ib E1. injection E1 as ->. apply vec_at_nth in E2. eapply ht_parameterized; eauto.
    + ib E1. destruct (kind_eqb (tkind x) K_BOOL_TYPE) eqn:K; [|discriminate E1]. injection E1 as <-. apply kind_eqb_eq in K. apply vec_at_nth in E2.
      inversion HS as [|F cs' tF ts' HF Hr]; subst; [discriminate E2|]. cbn in E2. injection E2 as ->. eapply ht_proof; [exact HS|exact K|exact G].
Qed.

(** * Completeness *)
Lemma type_mono : forall n m t T, (n <= m)%nat -> tc_type (tc E n) t = Ok (Some T) -> tc_type (tc E m) t = Ok (Some T).
Proof. intros n m t T L. apply le_ok. now apply tc_mono. Qed.

Lemma literal_complete : forall k self T, twf (match self with Some x => x | None => t_Any end) ->
  literal_type (e_littype E) (e_self E) (evaluates E progs) k (match self with Some x => x | None => t_Any end) T ->
  exists n, getLiteralTypeRule E (tc_eval (tc E n)) k self = Ok (Some T).
Proof.
  intros k self T WS H. unfold literal_type in H. unfold getLiteralTypeRule. destruct (e_littype E k) as [tp|] eqn:L.
  - assert (W : twf tp) by (apply twf_Q'; exact (ok_lit _ _ _ OK k tp L)). destruct H as [[C ->]|[C V]].
    + exists O. apply ground_closed in C; [|exact W]. rewrite C. reflexivity.
    + destruct (isGround tp) eqn:G; [apply ground_closed in G; [contradiction|exact W]|]. cbn [negb].
      apply (eval_complete E progs _ tp T OK PR W); [now apply one_wf|exact V].
  - subst T. destruct (eval_complete E progs [(e_self E, match self with Some x => x | None => t_Any end)] t_Any t_Any OK PR any_wf) as (n & X).
    + now apply one_wf.
    + now apply evaluates_any.
    + exists n. exact X.
Qed.
Lemma op_complete : forall o cs ts T,
  op_result (e_littype E) (e_self E) (e_listType E) (evaluates E progs) o cs ts T ->
  exists n, op_model (tc_eval (tc E n)) o cs ts = Ok (Some T).
Proof.
  intros o cs ts T H. destruct o; cbn in H; try (subst T; exists O; reflexivity).
  - exists O. apply vec_at_nth in H. cbn. rewrite H. reflexivity.
  - exists O. apply vec_at_nth in H. cbn. rewrite H. reflexivity.
  - exact (literal_complete k None T any_wf H).
Qed.

Lemma fit_covers : forall s hs xs ts, fit s hs xs ts -> forall h p, In h hs -> is_param p -> occurs p (pattern h) -> s p <> None.
Proof.
  intros s hs. induction hs as [|h0 hs IH]; intros xs ts F h p I Hp O; [destruct I|].
  inversion F as [|s' q qs hs' x xs' tx ts' HT (F1 & F2 & F3) FA|s' h' hs' x xs' tx ts' NK (F1 & F2 & F3) FA]; subst;
    (destruct I as [<-|I]; [|eapply IH; eauto]).
  - apply F3; assumption.
  - apply F3; [exact Hp|]. destruct h0 as [k i|l|k [|q qs]]; try exact O; destruct k; try exact O. elim NK; reflexivity.
Qed.

Lemma getType_node : forall gt evl k cs, getType E gt evl (Node k cs) =
  let* r := types_of gt cs in
  match r with None => Ok None | Some ts => let* ty := getTypeInternal E gt evl (Node k cs) ts in
    match ty with None => Ok None | Some ty => if isGround ty && isEvaluatable ty then Ok None else Ok (Some ty) end end.
Proof. reflexivity. Qed.

Lemma types_mono : forall n m cs ts, (n <= m)%nat -> types_of (tc_type (tc E n)) cs = Ok (Some ts) -> types_of (tc_type (tc E m)) cs = Ok (Some ts).
Proof. intros n m cs ts L. apply le_ok. apply types_of_mono. intro t. now apply tc_mono. Qed.
Lemma internal_mono : forall n m t ts T, (n <= m)%nat -> getTypeInternal E (tc_type (tc E n)) (tc_eval (tc E n)) t ts = Ok (Some T) ->
  getTypeInternal E (tc_type (tc E m)) (tc_eval (tc E m)) t ts = Ok (Some T).
Proof. intros n m t ts T L. apply le_ok. apply typeInternal_mono; intros; now apply tc_mono. Qed.

(** Enough to find bounds for the types of the children and for the last step. *)
Lemma node_complete : forall k cs ts T, twf (Node k cs) -> (exists n, types_of (tc_type (tc E n)) cs = Ok (Some ts)) ->
  (exists n, getTypeInternal E (tc_type (tc E n)) (tc_eval (tc E n)) (Node k cs) ts = Ok (Some T)) -> (twf T -> settled T) ->
  exists n, tc_type (tc E n) (Node k cs) = Ok (Some T).
Proof.
  intros k cs ts T W (n & H1) (m & H2) HS. exists (S (Nat.max n m)). cbn [tc tc_type]. rewrite getType_node.
  rewrite (types_mono n _ cs ts (Nat.le_max_l n m) H1). cbn [bind]. rewrite (internal_mono m _ _ _ _ (Nat.le_max_r n m) H2). cbn [bind].
  assert (WT : twf T).
  { apply twf_Q'. assert (GQ : forall t r, Q (fun _ => None) (fun _ => True) t -> tc_type (tc E (Nat.max n m)) t = Ok (Some r) -> Q (fun _ => None) (fun _ => True) r).
    { intros t r Wt X. apply twf_Q'. eapply wok_type; [exact OK|apply twf_Q'; exact Wt|exact X]. }
    apply (typeInternal_Q _ _ E (tc_type (tc E (Nat.max n m))) (tc_eval (tc E (Nat.max n m))) OK GQ
       (proj2 (proj2 (tc_Q _ _ (or_intror (fun _ => Logic.I)) E OK (Nat.max n m)))) (Node k cs) ts T).
    - now apply twf_Q'.
    - assert (WC : Forall twf cs) by (apply Forall_forall; intros y I; eapply twf_child; [exact W|exact I]).
      eapply types_of_Q; [exact GQ|apply Forall_twf_Q; exact WC|]. exact (types_mono n _ cs ts (Nat.le_max_l n m) H1).
    - exact (internal_mono m _ _ _ _ (Nat.le_max_r n m) H2). }
  apply HS in WT as ST. apply settled_spec in ST; [|exact WT]. rewrite ST. reflexivity.
Qed.

Lemma type_args_le : forall n m hs xs ts c v r, (n <= m)%nat -> type_args (tc_type (tc E n)) hs xs ts c v = Ok r ->
  type_args (tc_type (tc E m)) hs xs ts c v = Ok r.
Proof. intros n m hs xs ts c v r L. apply le_ok. apply type_args_mono. intro t. now apply tc_mono. Qed.

Lemma app_complete : forall k f xs fk hs ret ts s T, k = K_APPLY \/ k = K_APPLY_OPAQUE -> Forall twf (f :: xs) -> Forall twf (Node fk (hs ++ [ret]) :: ts) ->
  fk = K_FUNCTION_TYPE \/ fk = K_PROGRAM_TYPE -> length hs = length xs -> length hs = length ts -> only s hs -> evaluates E progs s ret T ->
  (exists n, forall c v, within c s -> exists c', type_args (tc_type (tc E n)) hs xs ts c v = Ok (true, c') /\ within c' s) ->
  exists n, getTypeInternal E (tc_type (tc E n)) (tc_eval (tc E n)) (Node k (f :: xs)) (Node fk (hs ++ [ret]) :: ts) = Ok (Some T).
Proof.
  intros k f xs fk hs ret ts s T K Wc Wt FK L1 L2 O V (n & H).
  destruct (H [] []) as (c' & A & I); [intros p v X; discriminate X|].
  inversion Wc as [|f' xs' Wf Wxs]; subst. inversion Wt as [|T' ts' WT Wts]; subst. inversion WT as [| |k' cs' _ _ WH]; subst.
  apply Forall_app in WH. destruct WH as [Wh Wr]. inversion Wr as [|r' l' Wret _]; subst.
  assert (D0 : done [] []) by (intros y z []).
  destruct (type_args_sound (tc_type (tc E n)) (tc_sound n) hs xs ts [] [] c' L1 L2 Wh D0 A) as (_ & _ & F).
  assert (X : forall p, s p = ctx_find c' p).
  { intros p. destruct (ctx_find c' p) as [u|] eqn:U; [now apply I|]. destruct (s p) as [u|] eqn:Es; [|reflexivity]. exfalso.
    destruct (O p) as (Hp & h & Ih & Oh); [congruence|]. exact (fit_covers _ _ _ _ F h p Ih Hp Oh U). }
  assert (SW : sub_wf (ctx_find c')).
  { intros p u U. apply twf_Q'. eapply ctxQ_find; [|exact U]. eapply type_args_Q; [apply Forall_twf_Q; exact Wxs|apply Forall_twf_Q; exact Wts|constructor|exact A]. }
  destruct (eval_complete E progs c' ret T OK PR Wret SW) as (m & R); [eapply evaluates_ext; eauto|].
  exists (Nat.max n m). unfold getTypeInternal. cbn [tkind tchildren].
  assert (G : getTypeAppInternal (tc_type (tc E (Nat.max n m))) (tc_eval (tc E (Nat.max n m))) (f :: xs) (Node fk (hs ++ [ret]) :: ts) = Ok (Some T, c')).
  { unfold getTypeAppInternal. cbn [vec_at nth_error bind tkind tchildren tl].
    assert (Y : (if negb (Nat.eqb (length (hs ++ [ret])) (length (f :: xs))) then Ok (None, [])
      else let* (ok, c) := type_args (tc_type (tc E (Nat.max n m))) (removelast (hs ++ [ret])) xs ts [] [] in
        if ok : bool then match hs ++ [ret] with [] => UB | _ => let* r := tc_eval (tc E (Nat.max n m)) (last (hs ++ [ret]) t_Any) c in Ok (r, c) end
        else Ok (None, c)) = Ok (Some T, c')).
    { rewrite app_length, L1. cbn [length]. rewrite Nat.add_1_r, Nat.eqb_refl. cbn [negb]. rewrite removelast_last, last_last.
      rewrite (type_args_le n _ _ _ _ _ _ _ (Nat.le_max_l n m) A). cbn [bind].
      assert (R' : tc_eval (tc E (Nat.max n m)) ret c' = Ok (Some T)) by (eapply le_ok; [apply tc_mono; apply Nat.le_max_r|exact R]).
      rewrite R'. destruct (hs ++ [ret]) eqn:EA; [destruct hs; discriminate EA|reflexivity]. }
    destruct FK as [-> | ->]; exact Y. }
  destruct K as [-> | ->]; rewrite G; reflexivity.
Qed.

Lemma tc_complete :
  (forall t T, ht t T -> twf t -> exists n, tc_type (tc E n) t = Ok (Some T)) /\
  (forall cs ts, hts cs ts -> Forall twf cs -> exists n, types_of (tc_type (tc E n)) cs = Ok (Some ts)) /\
  (forall s hs xs ts, fit s hs xs ts -> Forall twf hs -> exists n, forall c v, within c s ->
     exists c', type_args (tc_type (tc E n)) hs xs ts c v = Ok (true, c') /\ within c' s).
Proof.
  assert (NC : forall k cs, twf (Node k cs) -> Forall twf cs) by (intros k cs W; now inversion W).
  assert (WTS : forall n cs ts, Forall twf cs -> types_of (tc_type (tc E n)) cs = Ok (Some ts) -> Forall twf ts).
  { intros n cs ts W X. apply Forall_twf_Q. eapply types_of_Q; [|apply Forall_twf_Q; exact W|exact X].
    intros u r Wu R. apply twf_Q'. eapply wok_type; [exact OK|apply twf_Q'; exact Wu|exact R]. }
  apply typing_ind.
  - intros k i T H W. exists 1%nat. cbn. now rewrite H.
  - intros b _. exists 1%nat. reflexivity.
  - intros l T NB H ST W. destruct (literal_complete (lit_kind l) (Some (Lit l)) T W H) as (n & X). exists (S n). cbn [tc tc_type].
    unfold getType. cbn [tchildren types_of bind].
    assert (Y : getTypeInternal E (tc_type (tc E n)) (tc_eval (tc E n)) (Lit l) [] = Ok (Some T)).
    { unfold getTypeInternal. cbn [tkind]. destruct l; try exact X. elim NB; reflexivity. }
    rewrite Y. cbn [bind]. assert (WT : twf T).
    { unfold getLiteralTypeRule in X. apply twf_Q'. refine (literalTypeRule_Q _ _ E (tc_eval (tc E n)) OK
       (proj2 (proj2 (tc_Q _ _ (or_intror (fun _ => Logic.I)) E OK n))) (lit_kind l) (Some (Lit l)) T _ X). intros s [= <-]. constructor. }
    apply settled_spec in ST; [|exact WT]. rewrite ST. reflexivity.
  - intros k f xs fk hs ret ts s T K HS IHs FK F IHf O V ST W. pose proof (NC _ _ W) as WC. destruct (IHs WC) as (n & X).
    pose proof (WTS _ _ _ WC X) as WT. eapply node_complete; [exact W|exists n; exact X| |intros _; exact ST].
    assert (LEN : length hs = length xs /\ length hs = length ts).
    { clear -F. revert xs ts F. induction hs as [|h hs IH]; intros xs ts F; inversion F; subst; cbn; [auto|..];
        match goal with Y : fit_args _ _ _ _ _ _ _ hs _ _ |- _ => destruct (IH _ _ Y) end; lia. }
    eapply app_complete; eauto; try tauto. apply IHf. inversion WT as [|T' ts' WT1 _]; subst. inversion WT1 as [| |k' cs' _ _ WH]; subst.
    apply Forall_app in WH. tauto.
  - intros vs body rest tv tb ts vts HS IH HV IHV ST W. pose proof (NC _ _ W) as WC. destruct (IH WC) as (n & X).
    destruct IHV as (m & Y). { inversion WC as [|y ys Wx _]; subst. apply Forall_forall. intros y I. eapply twf_child; [exact Wx|exact I]. }
    eapply node_complete; [exact W|exists n; exact X| |intros _; exact ST]. exists m. unfold getTypeInternal. cbn [tkind tchildren vec_at nth_error bind].
    rewrite Y. cbn [bind]. now rewrite mkFun_arrows.
  - intros k cs ts I HS IH W. pose proof (NC _ _ W) as WC. eapply node_complete; [exact W|exact (IH WC)| |].
    + exists O. cbn in I. repeat (destruct I as [<-|I]; [reflexivity|]). destruct I.
    + intros _ _ u O C. apply occurs_inv in O. destruct O as [->|(c & [] & _)]. destruct C as [(i & C)|[C|(k' & cs' & C & N & _)]]; try discriminate C. injection C as _ <-. now apply N.
  - intros F cs tF ts HS IH K ST W. pose proof (NC _ _ W) as WC. eapply node_complete; [exact W|exact (IH WC)| |intros _; exact ST].
    exists O. unfold getTypeInternal. cbn [tkind vec_at nth_error bind]. rewrite K. reflexivity.
  - intros k cs ts I HS IH W. pose proof (NC _ _ W) as WC. eapply node_complete; [exact W|exact (IH WC)| |].
    + exists O. cbn in I. repeat (destruct I as [<-|I]; [reflexivity|]). destruct I.
    + intros _ C. elim (any_open C).
  - intros cs ts T HS IH N ST W. pose proof (NC _ _ W) as WC. eapply node_complete; [exact W|exact (IH WC)| |intros _; exact ST].
    exists O. apply vec_at_nth in N. unfold getTypeInternal. cbn [tkind]. rewrite N. reflexivity.
  - intros k cs ts ns o T HS IH SG A R ST W. pose proof (NC _ _ W) as WC. eapply node_complete; [exact W|exact (IH WC)| |intros _; exact ST].
    destruct (op_complete o cs ts T R) as (n & X). exists n. rewrite (typeInternal_op _ _ _ _ _ _ SG), litop_spec, SG.
    rewrite (hts_length _ _ HS) in A. apply existsb_In in A. rewrite A. exact X.
  - intros _. exists O. reflexivity.
  - intros t ts T Ts H IH HS IHs W. inversion W as [|y ys W1 W2]; subst. destruct (IH W1) as (n & X). destruct (IHs W2) as (m & Y).
    exists (Nat.max n m). cbn [types_of]. rewrite (types_mono m _ ts Ts (Nat.le_max_r n m) Y). cbn [bind].
    rewrite (type_mono n _ t T (Nat.le_max_l n m) X). reflexivity.
  - intros s _. exists O. intros c v I. exists c. split; [reflexivity|exact I].
  - intros s q qs hs x xs tx ts H IH F FA IHf W. inversion W as [|y ys W1 W2]; subst.
    assert (Wq : twf q) by (inversion W1 as [| |k' cs' _ _ X]; subst; now inversion X).
    destruct (IH Wq) as (n & X). destruct (IHf W2) as (m & Y). exists (Nat.max n m). intros c v I. rewrite type_args_cons. cbn [vec_at nth_error bind].
    rewrite (type_mono n _ q tx (Nat.le_max_l n m) X). cbn [bind]. rewrite term_eqb_refl.
    destruct (matchv_complete s q x c v Wq F I) as (c1 & v1 & M & I1). rewrite M. cbn [bind].
    destruct (Y c1 v1 I1) as (c2 & Z & I2). exists c2. split; [|exact I2]. eapply type_args_le; [apply Nat.le_max_r|exact Z].
  - intros s h hs x xs tx ts NK F FA IHf W. inversion W as [|y ys W1 W2]; subst. destruct (IHf W2) as (m & Y). exists m. intros c v I.
    rewrite type_args_cons. destruct (matchv_complete s h tx c v W1 F I) as (c1 & v1 & M & I1).
    destruct (Y c1 v1 I1) as (c2 & Z & I2). exists c2. split; [|exact I2].
    assert (D : (let* (ok, c', v') := matchv h tx c v in if ok : bool then type_args (tc_type (tc E m)) hs xs ts c' v' else Ok (false, c')) = Ok (true, c2)).
    { rewrite M. exact Z. }
    destruct h as [k i|l|k qs']; try exact D. destruct k; try exact D. elim NK; reflexivity.
Qed.

Theorem typing_exact : forall t T, twf t -> ((exists n, tc_type (tc E n) t = Ok (Some T)) <-> typed E progs t T).
Proof. intros t T W. split; [intros (n & H); eapply tc_sound; eauto|]. intros H. exact (proj1 tc_complete t T H W). Qed.
Theorem typing_exact_upto : forall t T, twf t -> typed E progs t T -> exists n0, forall n, (n0 <= n)%nat -> tc_type (tc E n) t = Ok (Some T).
Proof. intros t T W H. destruct (proj1 tc_complete t T H W) as (n0 & X). exists n0. intros n L. exact (type_mono n0 n t T L X). Qed.
Theorem typing_unique : forall t T T', twf t -> typed E progs t T -> typed E progs t T' -> T = T'.
Proof.
  intros t T T' W H H'. destruct (typing_exact_upto t T W H) as (n & X). destruct (typing_exact_upto t T' W H') as (m & Y).
  specialize (X (Nat.max n m) (Nat.le_max_l _ _)). specialize (Y (Nat.max n m) (Nat.le_max_r _ _)). congruence.
Qed.
Theorem typing_none : forall n t T, twf t -> tc_type (tc E n) t = Ok None -> ~ typed E progs t T.
Proof.
  intros n t T W H X. destruct (typing_exact_upto t T W X) as (m & Y). specialize (Y (Nat.max n m) (Nat.le_max_r _ _)).
  assert (Z : tc_type (tc E (Nat.max n m)) t = Ok None) by (eapply le_ok; [apply tc_mono; apply Nat.le_max_l|exact H]). congruence.
Qed.
End Typing.

(** Functions whose type has no parameters. *)
Section Plain.
Variable E : env.
Variable progs : term -> option (list pcase).
Hypothesis EW : env_wf E.
Hypothesis PR : programs_of E progs.

Lemma tsubst_closed : forall s t, twf t -> closed t -> tsubst s t = t.
Proof. intros s t W C. apply tsubst_id; [exact W|]. intros p Hp O. destruct (C p O) as [X _]. contradiction. Qed.
Lemma ev_empty : forall s t r, (forall p, s p = None) -> twf t -> closed t -> inert t -> (evaluates E progs s t r <-> r = t).
Proof.
  intros s t r N W C I.
  assert (X : forall n, ev (tc_lop (tc E n)) progs shortcut s t t).
  { intro n. rewrite <- (tsubst_closed s t W C) at 2. apply ev_subst; [exact W|exact I|]. intros p i. rewrite N. discriminate. }
  split; [intros (n & H); eapply ev_det; [exact shortcut_ext|exact H|apply X]|]. intros ->. exists O. apply X.
Qed.
Theorem plain_app : forall f x A B T, twf f -> twf x -> typed E progs f (Node K_FUNCTION_TYPE [A; B]) ->
  closed A -> tkind A <> K_QUOTE_TYPE -> closed B -> inert B ->
  (typed E progs (Node K_APPLY [f; x]) T <-> typed E progs x A /\ T = B).
Proof.
  intros f x A B T Wf Wx HF CA NA CB IB.
  pose proof (env_wf_ok E EW) as OK.
  assert (WF : twf (Node K_FUNCTION_TYPE [A; B])).
  { destruct (typing_exact_upto E progs OK PR f _ Wf HF) as (n & X). exact (wok_type E n f _ OK Wf (X n (le_n n))). }
  assert (WA : twf A /\ twf B) by (inversion WF as [| |k cs _ _ X]; subst; inversion X as [|y ys X1 X2]; subst; inversion X2; auto).
  destruct WA as [WA WB]. split.
  - intros H. unfold typed in H. inversion H as [| | |k f' xs fk hs ret ts s T' K HS FK F O V ST| | | | | |k cs ts ns o T' HS SG]; subst;
      try discriminate SG;
      try (match goal with X : In K_APPLY _ |- _ => cbn in X; repeat (destruct X as [X|X]; [discriminate X|]); destruct X end).
    inversion HS as [|t1 ts1 T1 Ts1 H1 H2]; subst.
    pose proof (typing_unique E progs OK PR f _ _ Wf HF H1) as EQ. injection EQ as <- EQ.
    inversion H2 as [|t2 ts2 T2 Ts2 H3 H4]; subst. inversion H4; subst.
    destruct hs as [|h [|h' hs]]; try discriminate EQ.
    + injection EQ as <- <-. inversion F as [|s' q qs hs' y ys ty tys X1 X2 X3|s' h' hs' y ys ty tys X1 X2 X3]; subst; [elim NA; reflexivity|].
      destruct X2 as (_ & X2 & _). rewrite (tsubst_closed s A WA CA) in X2. subst T2. split; [exact H3|].
      apply (ev_empty s B T); auto. intros p. destruct (s p) as [u|] eqn:U; [|reflexivity]. exfalso.
      destruct (O p) as (Hp & h & [<-|[]] & Oh); [congruence|]. destruct (CA p) as [Y _]; [|contradiction].
      destruct A as [k i|l|k [|q0 qs0]]; try exact Oh; destruct k; try exact Oh. elim NA; reflexivity.
    + destruct hs; discriminate EQ.
  - intros [HX ->]. eapply (ht_apply _ _ _ _ _ _ K_APPLY f [x] K_FUNCTION_TYPE [A] B [A] (fun _ => None)); auto.
    + constructor; [exact HF|]. constructor; [exact HX|constructor].
    + apply fa_plain; [exact NA| |constructor]. split; [intros u O; exact (proj2 (CA u O))|]. split; [now apply tsubst_closed|].
      intros q Hq O. destruct (CA q O). contradiction.
    + intros p N. elim N. reflexivity.
    + now apply ev_empty.
    + intros _. exact IB.
Qed.
End Plain.
