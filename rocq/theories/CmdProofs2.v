(** The parts of commands as relations. *)
From Coq Require Import String ZArith List Bool Lia.
From Verif Require Import Base Kind Ints Str Literal Arity Term TermProofs Match Eval ListOps Typing Build Scope Lexer Parse Check
  SpecRead SpecCmd FrontProofs CheckProofs ReadProofs CmdProofs.
Import ListNotations.
Open Scope Z_scope.

(* ------------------------------------------------------------------ *)
(** * Operations on the state *)
Definition o_bind {A B} (P : st -> A -> st -> Prop) (Q : A -> st -> B -> st -> Prop) (s : st) (b : B) (s2 : st) : Prop :=
  exists a s1, P s a s1 /\ Q a s1 b s2.
Lemma only_bind A B (m : M A) (f : A -> M B) P Q : only m P -> (forall a, only (f a) (Q a)) -> only (mbind m f) (o_bind P Q).
Proof.
  intros H F l s. destruct (H l s) as [H1 H2]. split.
  - intros b p X. apply mbind_ok in X. destruct X as (a & p1 & X & Y). destruct (H1 a p1 X) as (s1 & -> & Z).
    destruct (F a l s1) as [F1 _]. destruct (F1 b p Y) as (s2 & -> & W). exists s2. split; [reflexivity|]. exists a, s1. auto.
  - intros b s2 (a & s1 & X & Y). destruct (H2 a s1 X) as [Z|Z]; [left; now apply mbind_fuel|]. at_ Z. destruct (F a l s1) as [_ F2]. exact (F2 b s2 Y).
Qed.
Lemma only_iff A (m : M A) P Q : only m P -> (forall s a s1, P s a s1 <-> Q s a s1) -> only m Q.
Proof.
  intros H E l s. destruct (H l s) as [H1 H2]. split.
  - intros a p X. destruct (H1 a p X) as (s1 & -> & Y). exists s1. split; [reflexivity | now apply E].
  - intros a s1 X. apply H2. now apply E.
Qed.
Lemma only_ret A (a : A) : only (mret a) (fun s b s1 => b = a /\ s1 = s).
Proof. intros l s. split; [intros b p X; injection X as <- <-; eauto | intros b s1 [-> ->]; now right]. Qed.
Lemma only_err A : only (@merr A) (fun _ _ _ => False).
Proof. intros l s. split; [intros b p X; discriminate X | intros b s1 []]. Qed.
Lemma only_get : only mget (fun s a s1 => a = s /\ s1 = s).
Proof. intros l s. split; [intros b p X; injection X as <- <-; eauto | intros b s1 [-> ->]; now right]. Qed.
Lemma only_upd f : only (mupd f) (fun s _ s1 => s1 = f s).
Proof. intros l s. split; [intros b p X; injection X as <- <-; eauto | intros [] s1 ->; now right]. Qed.
Lemma only_lift A (r : res A) : only (mlift r) (fun s a s1 => r = Ok a /\ s1 = s).
Proof.
  intros l s. split; [|intros b s1 [-> ->]; now right]. intros b p X. unfold mlift in X. apply bind_ok in X. destruct X as (a & -> & X). injection X as <- <-. eauto.
Qed.
Lemma only_if A (b : bool) (m1 m2 : M A) P1 P2 : only m1 P1 -> only m2 P2 ->
  only (if b then m1 else m2) (fun s a s1 => b = true /\ P1 s a s1 \/ b = false /\ P2 s a s1).
Proof.
  intros H1 H2. destruct b; [eapply only_iff; [exact H1|] | eapply only_iff; [exact H2|]]; intros s a s1;
    (split; [auto | intros [[E ?]|[E ?]]; [try discriminate E; assumption | try discriminate E; assumption]]).
Qed.
Lemma only_list A B (o : list B) (m1 : M A) (m2 : B -> list B -> M A) P1 P2 : only m1 P1 -> (forall b l, only (m2 b l) (P2 b l)) ->
  only (match o with [] => m1 | b :: l => m2 b l end) (fun s a s1 => o = [] /\ P1 s a s1 \/ exists b l, o = b :: l /\ P2 b l s a s1).
Proof.
  intros H1 H2. destruct o as [|b l]; [eapply only_iff; [exact H1|] | eapply only_iff; [apply (H2 b l)|]]; intros s a s1.
  - split; [auto|]. intros [[_ X]|(x & y & E & _)]; [exact X | discriminate E].
  - split; [eauto|]. intros [[E _]|(x & y & E & X)]; [discriminate E | now injection E as -> ->].
Qed.
Lemma only_option A B (o : option B) (m1 : B -> M A) (m2 : M A) P1 P2 : (forall b, only (m1 b) (P1 b)) -> only m2 P2 ->
  only (match o with Some b => m1 b | None => m2 end) (fun s a s1 => (exists b, o = Some b /\ P1 b s a s1) \/ o = None /\ P2 s a s1).
Proof.
  intros H1 H2. destruct o as [b|]; [eapply only_iff; [apply (H1 b)|] | eapply only_iff; [exact H2|]]; intros s a s1.
  - split; [eauto|]. intros [(x & E & X)|[E _]]; [now injection E as -> | discriminate E].
  - split; [auto|]. intros [(x & E & _)|[_ X]]; [discriminate E | exact X].
Qed.
Lemma only_ext A (m m' : M A) P : (forall p, m p = m' p) -> only m' P -> only m P.
Proof. intros E H l s. rewrite E. apply H. Qed.

Ltac unp := repeat match goal with
  | H : exists _, _ |- _ => destruct H
  | H : _ /\ _ |- _ => destruct H
  | H : r_bind _ _ _ _ _ _ _ |- _ => unfold r_bind in H
  | H : r_only _ _ _ _ _ _ |- _ => unfold r_only in H
  | H : o_bind _ _ _ _ _ |- _ => unfold o_bind in H
  | H : False |- _ => destruct H
  end.

Lemma p_any A c d (m : M A) R c2 d2 : parses CR d m R c2 d2 -> parses c d m R c2 d2.
Proof. apply parses_le; [now destruct c | intros a; now destruct (c2 a)]. Qed.

Section Parts.
Variable G : config.
Variable sig : bool.
Hypothesis HC : forall n t, g_varinfo G (g_bvar G n t) = Some (n, t).
Notation reads := (SpecRead.reads G sig).
Notation applied := (SpecRead.applied G).
Notation of_type := (SpecRead.of_type G).

Lemma only_mkE k ts : only (mkE G k ts) (fun s r s1 => mkExpr (env_of G s) (g_n G) (g_mk G) k ts = Ok r /\ s1 = s).
Proof.
  intros l s. split.
  - intros a p X. apply mkE_inv in X. destruct X as [X ->]. eauto.
  - intros a s1 [X ->]. right. now apply mkE_at.
Qed.
Lemma only_apply ts : only (mkE G K_APPLY ts) (fun s r s1 => applied s ts r /\ s1 = s).
Proof. apply only_mkE. Qed.
(** Terms that are made as they are. *)
Lemma only_node k ts : k = K_TUPLE \/ k = K_PROGRAM \/ k = K_LAMBDA -> only (mkE G k ts) (fun s r s1 => r = Node k ts /\ s1 = s).
Proof.
  intros K l s. assert (E : forall s, mkExpr (env_of G s) (g_n G) (g_mk G) k ts = Fuel \/ mkExpr (env_of G s) (g_n G) (g_mk G) k ts = Ok (Node k ts)).
  { intros u. destruct (g_mk G) as [|m]; [now left | right]. destruct K as [-> |[-> | ->]]; reflexivity. }
  split.
  - intros a p X. apply mkE_inv in X. destruct X as [X ->]. destruct (E s) as [Y|Y]; rewrite Y in X; [discriminate X|]. injection X as <-. eauto.
  - intros a s1 [-> ->]. destruct (E s) as [Y|Y]; [left | right; now apply mkE_at]. unfold mkE, mbind, mget, mlift. cbn [bind fst snd]. now rewrite Y.
Qed.
Lemma only_typeCheck t : only (typeCheck G t) (fun s ty s1 => of_type s t ty /\ s1 = s).
Proof.
  intros l s. split.
  - intros a p X. apply typeCheck_inv in X. destruct X as [X ->]. eauto.
  - intros a s1 [X ->]. right. now apply typeCheck_at.
Qed.
Lemma only_typeAs t ty : only (typeCheckAs G t ty) (fun s _ s1 => of_type s t ty /\ s1 = s).
Proof.
  eapply only_iff; [apply only_bind; [apply only_typeCheck|]; intros a; apply only_if; [apply only_ret | apply only_err]|].
  intros s [] s1. split.
  - intros H. unp. destruct H0 as [H0|H0]; unp. apply term_eqb_eq in H0. now subst.
  - intros [H ->]. exists ty, s. split; [auto|]. left. rewrite term_eqb_refl. auto.
Qed.
Lemma only_typeOf t : only (typeOf G t) (fun s r s1 => tc_type (tc (env_of G s) (g_n G)) t = Ok r /\ s1 = s).
Proof.
  eapply only_iff; [apply only_bind; [apply only_get|]; intros s; apply only_lift|]. intros s a s1. split.
  - intros H. unp. now subst.
  - intros [H ->]. exists s, s. auto.
Qed.
Lemma only_new k n ty : only (mkSymbol k n ty) (fun s v s1 => new k n ty s v s1).
Proof.
  intros l s. split.
  - intros a p X. unfold mkSymbol, mbind, mget, mupd, logEvent, mret in X. cbn [bind fst snd] in X. injection X as <- <-.
    eexists. split; [reflexivity|]. exact (new_at k n ty s).
  - intros a s1 X. right. inversion X; subst. reflexivity.
Qed.
Lemma only_log e : only (logEvent e) (fun s _ s1 => s1 = logged e s).
Proof. apply only_upd. Qed.
Lemma only_bound n e : only (bindM n e) (fun s _ s1 => bound s n e s1).
Proof.
  intros l s. split.
  - intros a p X. apply bind_inv in X. destruct X as (c & X & ->). eexists. split; [reflexivity|]. exists c. auto.
  - intros [] s1 (c & X & ->). right. now apply bind_at.
Qed.
Lemma only_push : only pushM (fun s _ s1 => s1 = entered s).
Proof. apply only_upd. Qed.
Lemma only_pop : only popM (fun s _ s1 => left_scope s s1).
Proof.
  intros l s. split.
  - intros a p X. apply pop_inv in X. destruct X as (s' & X & ->). eauto.
  - intros [] s1 X. right. now apply pop_at.
Qed.
Lemma only_names ds : only (mfor ds (fun b => bindM (fst b) (snd b))) (fun s _ s1 => named_in s ds s1).
Proof.
  intros l s. split.
  - intros a p X. apply names_inv in X. destruct X as (s' & X & ->). eauto.
  - intros [] s1 X. right. now apply names_at.
Qed.
Lemma only_mark v a ct : only (let! _ := markM v a ct in mret tt) (fun s _ s1 => marked v a ct s s1).
Proof.
  intros l s. unfold markM, markConstructorKind, mbind, mget, mupd, logEvent, mret. cbn [bind fst snd].
  destruct (s_marks s v) as [x|] eqn:E; cbn [bind fst snd]; split.
  - intros u p X. injection X as <- <-. eexists. split; [reflexivity|]. now apply md_again with x.
  - intros [] s1 X. right. inversion X; subst; [rewrite E in H; discriminate H | reflexivity].
  - intros u p X. injection X as <- <-. eexists. split; [reflexivity|]. now apply md_first.
  - intros [] s1 X. right. inversion X; subst; [reflexivity | rewrite E in H; discriminate H].
Qed.
Lemma only_mark_first v a ct : only (let! ok := markM v a ct in if ok then mret tt else merr) (fun s _ s1 => s_marks s v = None /\ s1 = with_mark v a ct s).
Proof.
  intros l s. unfold markM, markConstructorKind, mbind, mget, mupd, logEvent, mret. cbn [bind fst snd].
  destruct (s_marks s v) as [x|] eqn:E; cbn [bind fst snd]; split.
  - intros u p X. discriminate X.
  - intros [] s1 [X _]. discriminate X.
  - intros u p X. injection X as <- <-. eexists. split; [reflexivity|]. auto.
  - intros [] s1 [_ ->]. right. reflexivity.
Qed.
Lemma only_for A (l : list A) (f : A -> M unit) (R : st -> A -> st -> Prop) : (forall x, only (f x) (fun s _ s1 => R s x s1)) ->
  only (mfor l f) (fun s _ s1 => every R s l s1).
Proof.
  intros F. induction l as [|x l IH].
  - eapply only_iff; [apply only_ret|]. intros s [] s1. split; [intros [_ ->]; constructor | intros H; inversion H; auto].
  - eapply only_iff; [apply only_bind; [apply F|]; intros ?; apply IH|]. intros s [] s1. split.
    + intros H. unp. econstructor; eassumption.
    + intros H. inversion H; subst. exists tt. eauto.
Qed.
Lemma only_map A B (l : list A) (f : A -> M B) (R : st -> A -> B -> st -> Prop) : (forall x, only (f x) (fun s b s1 => R s x b s1)) ->
  only (mmap l f) (fun s bs s1 => each R s l bs s1).
Proof.
  intros F. induction l as [|x l IH].
  - eapply only_iff; [apply only_ret|]. intros s bs s1. split; [intros [-> ->]; constructor | intros H; inversion H; auto].
  - eapply only_iff; [apply only_bind; [apply F|]; intros b; apply only_bind; [apply IH|]; intros bs; apply only_ret|]. intros s bs s1. split.
    + intros H. unp. subst. econstructor; eassumption.
    + intros H. inversion H; subst. eexists _, _. split; [eassumption|]. eexists _, _. split; [eassumption|]. auto.
Qed.

(* ------------------------------------------------------------------ *)
(** * Items *)
Lemma item_then A B c d (m : M A) (f : A -> M B) R P c2 d2 : parses c d m (r_item R) (fun _ => c2) (fun _ => d2) -> (forall a, only (f a) (P a)) ->
  parses c d (mbind m f) (r_item (fun s x b s2 => exists a s1, R s x a s1 /\ P a s1 b s2)) (fun _ => c2) (fun _ => d2).
Proof.
  intros H F. eapply parses_iff; [eapply p_bind; [exact H|]; intros a; apply p_only; apply F|]. intros s i b s2 i2 _. split.
  - intros (a & s1 & i1 & (x & xs & i' & -> & X & ->) & Y & ->). exists x, xs, i'. split; [reflexivity|]. split; [|reflexivity]. eauto.
  - intros (x & xs & i' & -> & (a & s1 & X & Y) & ->). exists a, s1, (xs :: i'). split; [|split; [exact Y | reflexivity]]. exists x, xs, i'. auto.
Qed.
Notation pe := (parseExpr G sig (g_fuel G)).
Lemma p_pe c d : parses c (S d) pe (r_item reads) (fun _ => CF) (fun _ => S d).
Proof. apply p_any.
  intros l s i l' T. assert (D := ai_depth _ _ _ _ _ T). assert (P := ai_proper _ _ _ _ _ T). assert (Y := ai_cl _ _ _ _ _ T). cbn [cl] in Y. split.
  - intros t p X. destruct i as [|[|x xs] i]; [discriminate D| |].
    + exfalso. destruct (at_close _ _ _ _ _ T) as (l2 & N2 & U). exact (parseExpr_paren G sig (g_fuel G) _ _ _ _ N2 X).
    + inversion P as [|? ? P1 P2]; subst. inversion P1 as [|? ? P3 P4]; subst. destruct (iwords_cons _ _ _ _ _ (ai_shows _ _ _ _ _ T)) as (l1 & H1 & H).
      destruct (parseExpr_exact G HC sig (g_fuel G) s x l l1 t p P3 Y H1 X) as [R E]. destruct p as [l2 s2]. cbn [fst snd] in *. subst l2.
      exists l1, s2, (xs :: i). split; [reflexivity|]. split; [exists x, xs, i; auto|]. constructor; [exact D | now constructor | | exact H].
      exact (words_fresh _ _ _ P3 Y H1).
  - intros t s1 i1 (x & xs & i' & -> & R & ->). inversion P as [|? ? P1 P2]; subst. inversion P1 as [|? ? P3 P4]; subst.
    destruct (iwords_cons _ _ _ _ _ (ai_shows _ _ _ _ _ T)) as (l1 & H1 & H).
    destruct (parseExpr_reads G HC sig (g_fuel G) s x t s1 R l l1 P3 Y H1) as [X|X]; [now left | right]. exists l1. split; [exact X|].
    constructor; [exact D | now constructor | | exact H]. exact (words_fresh _ _ _ P3 Y H1).
Qed.
Lemma p_typeBody c ev d : parses c (S d) (parseTypeBody G pe ev) (r_item (type_in G sig ev)) (fun _ => CF) (fun _ => S d).
Proof. apply p_any.
  eapply item_iff; [eapply item_then; [apply p_pe|]; intros e; apply only_bind; [apply only_typeAs|]; intros ?; apply only_if; [apply only_err | apply only_ret]|].
  intros s x a s1. split.
  - intros (e & s2 & R & H). unp. destruct H0 as [H0|H0]; unp. subst. split; [exact R|]. split; [exact H|]. intros V. rewrite V in H0.
    destruct (isGround e), ev; try discriminate H0. auto.
  - intros (R & T & V). exists a, s1. split; [exact R|]. exists tt, s1. split; [auto|]. right. split; [|auto].
    destruct (isEvaluatable a); [|reflexivity]. destruct V as [V ->]; [reflexivity|]. rewrite V. reflexivity.
Qed.
Lemma p_type c ev d : parses c (S d) (parseType G pe false ev) (r_item (type_in G sig ev)) (fun _ => CF) (fun _ => S d).
Proof. apply p_typeBody. Qed.
Lemma p_formula c d : parses c (S d) (parseFormula G pe) (r_item (formula_in G sig)) (fun _ => CF) (fun _ => S d).
Proof. apply p_any.
  eapply item_iff; [eapply item_then; [apply p_pe|]; intros e; apply only_bind; [apply only_typeAs|]; intros ?; apply only_ret|].
  intros s x a s1. split.
  - intros (e & s2 & R & H). unp. subst. split; assumption.
  - intros (R & T). exists a, s1. split; [exact R|]. exists tt, s1. auto.
Qed.
(** Taking a word and putting it back. *)
Definition uncl (c : cls) : cls := match c with CF => CO | _ => CR end.
Lemma at_put c d l i t w l1 i1 l' : at_in c (S d) l i l' -> (c = CF \/ c = CO) -> nextToken l = Ok (t, l1) -> taken i t w i1 ->
  at_in CO (S d) (reinsertToken t l1) i l' /\ exists l2, l_peeked l1 = [] /\ l2 = l1.
Proof.
  intros T C N K. destruct (at_next _ _ _ _ _ T) as (t' & w' & l1' & i1' & N' & K' & W & U). rewrite N in N'. injection N' as <- <-.
  destruct (taken_det _ _ _ _ _ _ _ K K') as (_ & -> & ->).
  assert (F : fresh l1). { destruct C as [-> | ->]; [exact (fresh_next _ _ _ (ai_cl _ _ _ _ _ T) N) | exact (one_next _ _ _ (ai_cl _ _ _ _ _ T) N)]. }
  split; [|exists l1; auto]. destruct T as [D P Y H]. constructor; [exact D | exact P | |].
  - right. exists t. cbn [reinsertToken l_peeked]. f_equal. exact F.
  - replace (iwords i) with ((t, w) :: iwords i1); [apply shows_reinsert; [exact W | apply U]|].
    inversion K; subst; cbn [iwords flat_map words app]; rewrite <- ?app_assoc; reflexivity.
Qed.
(** Lists whose end is looked for before each item. *)
Definition lbody {A} (item : M A) (acc : list A) : M (list A + list A) :=
  let! tok := next in
  if token_eqb tok T_RPAREN then mret (inr (rev acc)) else reinsert tok ;; let! t := item in mret (inl (t :: acc)).
Lemma p_lbody A (item : M A) R d acc : parses CO (S (S d)) item (r_item R) (fun _ => CF) (fun _ => S (S d)) ->
  parses CO (S (S d)) (lbody item acc)
    (fun s i r s1 i1 => (exists x xs i' b, i = (x :: xs) :: i' /\ i1 = xs :: i' /\ R s x b s1 /\ r = inl (b :: acc)) \/ (i = [] :: i1 /\ s1 = s /\ r = inr (rev acc)))
    (fun r => match r with inl _ => CO | inr _ => CF end) (fun r => match r with inl _ => S (S d) | inr _ => S d end).
Proof.
  intros I l s i l' T. destruct (at_next _ _ _ _ _ T) as (t & w & l1 & i1 & N & K & W & U).
  unfold lbody. rewrite (mbind_at _ _ _ _ _ _ _ (next_at l s t l1 N)). destruct (token_eqb t T_RPAREN) eqn:E.
  - apply token_eqb_eq in E. subst t. inversion K; subst; [discriminate|]. cbn [down depth_after] in U. split.
    + intros a p X. injection X as <- <-. exists l1, s, i1. auto 8.
    + intros a s1 i2 [(x & xs & i' & b & X & _)|(X & -> & ->)]; [discriminate X|]. injection X as <-. right. exists l1. auto.
  - assert (Q : exists x xs i', i = (x :: xs) :: i') by (inversion K; subst; eauto; discriminate E).
    destruct Q as (x & xs & i' & ->). destruct (at_put _ _ _ _ _ _ _ _ _ T (or_intror eq_refl) N K) as [V _].
    rewrite (mbind_at _ _ _ _ _ _ _ (reinsert_at t l1 s)). destruct (I (reinsertToken t l1) s _ l' V) as [I1 I2]. split.
    + intros a p X. apply mbind_ok in X. destruct X as (b & p1 & X & Y). injection Y as <- <-. destruct (I1 b p1 X) as (l2 & s2 & i2 & -> & (x0 & xs0 & i0 & X0 & Y & ->) & Z).
      injection X0 as -> -> ->. exists l2, s2, (xs0 :: i0). split; [reflexivity|]. split; [left; exists x0, xs0, i0, b; auto|]. now apply (at_le CF).
    + intros a s1 i2 [(x0 & xs0 & i0 & b & X & -> & Y & ->)|(X & _)]; [|discriminate X]. injection X as <- <- <-.
      destruct (I2 b s1 (xs :: i')) as [Z|(l2 & Z & Z2)]; [exists x, xs, i'; auto | left; now apply mbind_fuel|]. right. exists l2. at_ Z. split; [reflexivity|].
      now apply (at_le CF).
Qed.
Lemma fold_cons A (l acc : list A) : fold_left (fun acc b => b :: acc) l acc = rev l ++ acc.
Proof. revert acc. induction l as [|x l IH]; intros acc; [reflexivity|]. cbn [fold_left rev]. rewrite IH, <- app_assoc. reflexivity. Qed.
Lemma p_looplist A (item : M A) R d : parses CO (S (S d)) item (r_item R) (fun _ => CF) (fun _ => S (S d)) ->
  parses CO (S (S d)) (mloop (g_fuel G) (lbody item) []) (r_items R) (fun _ => CF) (fun _ => S d).
Proof.
  intros I. eapply parses_iff; [apply (p_loop _ _ CO (S (S d)) (g_fuel G) (lbody item) _ (fun _ => CF) (fun _ => S d) (fun acc => p_lbody A item R d acc I))|].
  intros s i a s1 i1 _. cbv beta. rewrite (loops_items R (fun acc b => b :: acc) (@rev A)); [|intros; reflexivity]. split.
  - intros (bs & H & ->). rewrite fold_cons, app_nil_r, rev_involutive. exact H.
  - intros H. exists a. rewrite fold_cons, app_nil_r, rev_involutive. auto.
Qed.
Lemma open_items A c d (m : M (list A)) R : parses (down c) (S (S d)) m (r_items R) (fun _ => CF) (fun _ => S d) ->
  parses c (S d) (eat T_LPAREN ;; m) (r_item (list_in R)) (fun _ => CF) (fun _ => S d).
Proof.
  intros H. eapply parses_iff; [eapply p_bind; [apply p_open|]; intros ?; exact H|]. intros s i a s1 i1 _. split.
  - intros (u & s2 & i2 & (-> & ys & xs & i' & -> & ->) & (zs & X & Y)). injection X as <- <-. exists (XL ys), xs, i'. split; [reflexivity|]. split; [|reflexivity]. exists ys. auto.
  - intros (x & xs & i' & -> & (ys & -> & X) & ->). exists tt, s, (ys :: xs :: i'). split; [split; [reflexivity | eauto 6]|]. exists ys. auto.
Qed.
Lemma p_listOf c (item : M term) R d : (forall d, parses CO (S d) item (r_item R) (fun _ => CF) (fun _ => S d)) ->
  parses c (S d) (parseListOf G item) (r_item (list_in R)) (fun _ => CF) (fun _ => S d).
Proof. intros I. apply p_any. apply open_items. apply p_looplist. apply (I (S d)). Qed.
Lemma p_exprs c d : parses c (S d) (parseExprList G pe) (r_item (list_in reads)) (fun _ => CF) (fun _ => S d).
Proof. apply p_any. apply p_listOf. apply p_pe. Qed.
Lemma p_types c d : parses c (S d) (parseTypeList G pe false) (r_item (list_in (type_in G sig false))) (fun _ => CF) (fun _ => S d).
Proof. apply p_any. apply p_listOf. apply p_type. Qed.
Lemma p_symbols c d : parses c (S d) (parseSymbolList G) (r_item (list_in (pure named))) (fun _ => CF) (fun _ => S d).
Proof. apply p_any. apply open_items. apply (p_looplist text parseSymbol). apply p_symbol. Qed.
Lemma each_pure A (P : sx -> A -> Prop) s xs l s1 : each (pure P) s xs l s1 <-> Forall2 P xs l /\ s1 = s.
Proof.
  split.
  - induction 1 as [s|s x a s1 xs l s2 [H ->] E [IH ->]]; auto.
  - intros [H ->]. induction H as [|x a xs l H _ IH]; [constructor | econstructor; [split; [exact H | reflexivity] | exact IH]].
Qed.
End Parts.
