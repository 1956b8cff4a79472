(** That the commands do what SpecCmd.v says: parsers as relations between S-expressions. *)
From Coq Require Import String ZArith List Bool Lia.
From Verif Require Import Base Kind Ints Str Literal Arity Term TermProofs Match Eval ListOps Typing Build Scope Lexer Parse Check
  SpecRead SpecCmd FrontProofs CheckProofs ReadProofs.
Import ListNotations.
Open Scope Z_scope.

(* ------------------------------------------------------------------ *)
(** * The input *)
(** What is left of the lists that are open, the innermost first. *)
Definition inp : Type := list (list sx).
Fixpoint iwords (i : inp) : list (token * text) :=
  match i with [] => [] | xs :: i' => flat_map words xs ++ (T_RPAREN, []) :: iwords i' end.
Inductive cls : Type := CF | CO | CR.
Definition cl (c : cls) (l : lexer) : Prop := match c with CF => fresh l | CO => one l | CR => ready l end.
Definition cle (a b : cls) : bool := match a, b with CF, _ => true | CO, CF => false | CO, _ => true | CR, CR => true | CR, _ => false end.
Lemma cl_le a b l : cle a b = true -> cl a l -> cl b l.
Proof. destruct a, b; try discriminate; intros _; cbn [cl]; auto using fresh_one, fresh_ready, one_ready. Qed.
Record at_in (c : cls) (d : nat) (l : lexer) (i : inp) (l' : lexer) : Prop := mkAt {
  ai_depth : length i = d; ai_proper : Forall (Forall proper) i; ai_cl : cl c l; ai_shows : shows l (iwords i) l' }.
Lemma at_le a b d l i l' : cle a b = true -> at_in a d l i l' -> at_in b d l i l'.
Proof. intros L [D P C S]. constructor; auto. now apply (cl_le a). Qed.

(** [m] is the relation [R]: both directions. *)
Definition rel (A : Type) : Type := st -> inp -> A -> st -> inp -> Prop.
Definition parses {A : Type} (c : cls) (d : nat) (m : M A) (R : rel A) (c2 : A -> cls) (d2 : A -> nat) : Prop :=
  forall l s i l', at_in c d l i l' ->
    (forall a p, m (l, s) = Ok (a, p) -> exists l1 s1 i1, p = (l1, s1) /\ R s i a s1 i1 /\ at_in (c2 a) (d2 a) l1 i1 l') /\
    (forall a s1 i1, R s i a s1 i1 -> m (l, s) = Fuel \/ exists l1, m (l, s) = Ok (a, (l1, s1)) /\ at_in (c2 a) (d2 a) l1 i1 l').

Lemma parses_iff A c d (m : M A) R R' c2 d2 : parses c d m R c2 d2 ->
  (forall s i a s1 i1, length i = d -> R s i a s1 i1 <-> R' s i a s1 i1) -> parses c d m R' c2 d2.
Proof.
  intros H E l s i l' T. destruct (H l s i l' T) as [H1 H2]. split.
  - intros a p X. destruct (H1 a p X) as (l1 & s1 & i1 & -> & Y & Z). exists l1, s1, i1. split; [reflexivity|]. split; [|exact Z].
    apply E; [apply T | exact Y].
  - intros a s1 i1 X. apply H2. apply E; [apply T | exact X].
Qed.
Lemma parses_le A c c' d (m : M A) R c2 c2' d2 : cle c' c = true -> (forall a, cle (c2 a) (c2' a) = true) ->
  parses c d m R c2 d2 -> parses c' d m R c2' d2.
Proof.
  intros L1 L2 H l s i l' T. destruct (H l s i l' (at_le _ _ _ _ _ _ L1 T)) as [H1 H2]. split.
  - intros a p X. destruct (H1 a p X) as (l1 & s1 & i1 & -> & Y & Z). exists l1, s1, i1. eauto using at_le.
  - intros a s1 i1 X. destruct (H2 a s1 i1 X) as [Y|(l1 & Y & Z)]; eauto using at_le.
Qed.
Lemma parses_ext A c d (m m' : M A) R c2 d2 : (forall p, m p = m' p) -> parses c d m' R c2 d2 -> parses c d m R c2 d2.
Proof. intros E H l s i l' T. rewrite E. now apply H. Qed.

Definition r_bind {A B} (R : rel A) (Q : A -> rel B) : rel B := fun s i b s2 i2 => exists a s1 i1, R s i a s1 i1 /\ Q a s1 i1 b s2 i2.
Lemma p_bind A B c d (m : M A) (f : A -> M B) R Q c1 d1 c2 d2 : parses c d m R c1 d1 ->
  (forall a, parses (c1 a) (d1 a) (f a) (Q a) c2 d2) -> parses c d (mbind m f) (r_bind R Q) c2 d2.
Proof.
  intros H F l s i l' T. destruct (H l s i l' T) as [H1 H2]. split.
  - intros b p X. apply mbind_ok in X. destruct X as (a & p1 & X & Y). destruct (H1 a p1 X) as (l1 & s1 & i1 & -> & Y1 & Z1).
    destruct (F a l1 s1 i1 l' Z1) as [F1 _]. destruct (F1 b p Y) as (l2 & s2 & i2 & -> & Y2 & Z2). exists l2, s2, i2.
    split; [reflexivity|]. split; [|exact Z2]. exists a, s1, i1. auto.
  - intros b s2 i2 (a & s1 & i1 & X & Y). destruct (H2 a s1 i1 X) as [U|(l1 & U & V)]; [left; now apply mbind_fuel|].
    rewrite (mbind_at _ _ _ _ _ _ _ U). destruct (F a l1 s1 i1 l' V) as [_ F2]. exact (F2 b s2 i2 Y).
Qed.
Lemma p_bind2 A A' B c d (m : M (A * A')) (f : A * A' -> M B) R Q c1 d1 c2 d2 : parses c d m R c1 d1 ->
  (forall a b, parses (c1 (a, b)) (d1 (a, b)) (f (a, b)) (Q a b) c2 d2) ->
  parses c d (mbind m f) (fun s i x s2 i2 => exists a b s1 i1, R s i (a, b) s1 i1 /\ Q a b s1 i1 x s2 i2) c2 d2.
Proof.
  intros H F. eapply parses_iff; [apply (p_bind _ _ _ _ _ _ _ (fun ab => Q (fst ab) (snd ab)) _ _ _ _ H); intros [a b]; apply F|].
  intros s i x s2 i2 _. unfold r_bind. split; [intros ([a b] & s1 & i1 & X); exists a, b, s1, i1; exact X|].
  intros (a & b & s1 & i1 & X). exists (a, b), s1, i1. exact X.
Qed.
Lemma p_bind3 A A' A'' B c d (m : M (A * A' * A'')) (f : A * A' * A'' -> M B) R Q c1 d1 c2 d2 : parses c d m R c1 d1 ->
  (forall a b e, parses (c1 (a, b, e)) (d1 (a, b, e)) (f (a, b, e)) (Q a b e) c2 d2) ->
  parses c d (mbind m f) (fun s i x s2 i2 => exists a b e s1 i1, R s i (a, b, e) s1 i1 /\ Q a b e s1 i1 x s2 i2) c2 d2.
Proof.
  intros H F. eapply parses_iff; [apply (p_bind _ _ _ _ _ _ _ (fun ab => Q (fst (fst ab)) (snd (fst ab)) (snd ab)) _ _ _ _ H); intros [[a b] e]; apply F|].
  intros s i x s2 i2 _. unfold r_bind. split; [intros ([[a b] e] & s1 & i1 & X); exists a, b, e, s1, i1; exact X|].
  intros (a & b & e & s1 & i1 & X). exists (a, b, e), s1, i1. exact X.
Qed.
Lemma p_if A c d (b : bool) (m1 m2 : M A) R1 R2 c2 d2 : parses c d m1 R1 c2 d2 -> parses c d m2 R2 c2 d2 ->
  parses c d (if b then m1 else m2) (fun s i a s1 i1 => b = true /\ R1 s i a s1 i1 \/ b = false /\ R2 s i a s1 i1) c2 d2.
Proof.
  intros H1 H2. destruct b; [eapply parses_iff; [exact H1|] | eapply parses_iff; [exact H2|]]; intros s i a s1 i1 _;
    (split; [auto | intros [[? ?]|[? ?]]; [try discriminate; assumption | try discriminate; assumption]]).
Qed.
Lemma p_option A B c d (o : option B) (m1 : B -> M A) (m2 : M A) R1 R2 c2 d2 : (forall b, parses c d (m1 b) (R1 b) c2 d2) -> parses c d m2 R2 c2 d2 ->
  parses c d (match o with Some b => m1 b | None => m2 end)
    (fun s i a s1 i1 => (exists b, o = Some b /\ R1 b s i a s1 i1) \/ o = None /\ R2 s i a s1 i1) c2 d2.
Proof.
  intros H1 H2. destruct o as [b|]; [eapply parses_iff; [apply (H1 b)|] | eapply parses_iff; [exact H2|]]; intros s i a s1 i1 _.
  - split; [eauto|]. intros [(x & E & X)|[E _]]; [now injection E as -> | discriminate E].
  - split; [auto|]. intros [(x & E & _)|[_ X]]; [discriminate E | exact X].
Qed.
Lemma p_list A B c d (o : list B) (m1 : M A) (m2 : B -> list B -> M A) R1 R2 c2 d2 : parses c d m1 R1 c2 d2 -> (forall b l, parses c d (m2 b l) (R2 b l) c2 d2) ->
  parses c d (match o with [] => m1 | b :: l => m2 b l end)
    (fun s i a s1 i1 => o = [] /\ R1 s i a s1 i1 \/ exists b l, o = b :: l /\ R2 b l s i a s1 i1) c2 d2.
Proof.
  intros H1 H2. destruct o as [|b l]; [eapply parses_iff; [exact H1|] | eapply parses_iff; [apply (H2 b l)|]]; intros s i a s1 i1 _.
  - split; [auto|]. intros [[_ X]|(x & y & E & _)]; [exact X | discriminate E].
  - split; [eauto|]. intros [[E _]|(x & y & E & X)]; [discriminate E | now injection E as -> ->].
Qed.

(** Operations on the state only. *)
Definition only {A : Type} (m : M A) (P : st -> A -> st -> Prop) : Prop := forall l s,
  (forall a p, m (l, s) = Ok (a, p) -> exists s1, p = (l, s1) /\ P s a s1) /\
  (forall a s1, P s a s1 -> m (l, s) = Fuel \/ m (l, s) = Ok (a, (l, s1))).
Definition r_only {A : Type} (P : st -> A -> st -> Prop) : rel A := fun s i a s1 i1 => P s a s1 /\ i1 = i.
Lemma p_only A c d (m : M A) P : only m P -> parses c d m (r_only P) (fun _ => c) (fun _ => d).
Proof.
  intros H l s i l' T. destruct (H l s) as [H1 H2]. split.
  - intros a p X. destruct (H1 a p X) as (s1 & -> & Y). exists l, s1, i. split; [reflexivity|]. split; [split; [exact Y | reflexivity] | exact T].
  - intros a s1 i1 [X ->]. destruct (H2 a s1 X) as [Y|Y]; [now left | right; exists l; auto].
Qed.
Lemma p_ret A c d (a : A) : parses c d (mret a) (fun s i b s1 i1 => b = a /\ s1 = s /\ i1 = i) (fun _ => c) (fun _ => d).
Proof.
  intros l s i l' T. split.
  - intros b p X. injection X as <- <-. exists l, s, i. auto.
  - intros b s1 i1 (-> & -> & ->). right. exists l. auto.
Qed.
Lemma p_err A c d c2 d2 : parses c d (@merr A) (fun _ _ _ _ _ => False) c2 d2.
Proof. intros l s i l' T. split; [intros a p X; discriminate X | intros a s1 i1 []]. Qed.
Lemma p_get c d : parses c d mget (fun s i a s1 i1 => a = s /\ s1 = s /\ i1 = i) (fun _ => c) (fun _ => d).
Proof.
  intros l s i l' T. split.
  - intros b p X. injection X as <- <-. exists l, s, i. auto.
  - intros b s1 i1 (-> & -> & ->). right. exists l. auto.
Qed.
Lemma p_upd c d f : parses c d (mupd f) (fun s i a s1 i1 => s1 = f s /\ i1 = i) (fun _ => c) (fun _ => d).
Proof.
  intros l s i l' T. split.
  - intros b p X. injection X as <- <-. exists l, (f s), i. auto.
  - intros [] s1 i1 (-> & ->). right. exists l. auto.
Qed.
Lemma p_lift A c d (r : res A) : parses c d (mlift r) (fun s i a s1 i1 => r = Ok a /\ s1 = s /\ i1 = i) (fun _ => c) (fun _ => d).
Proof.
  intros l s i l' T. split.
  - intros b p X. unfold mlift in X. apply bind_ok in X. destruct X as (a & -> & X). injection X as <- <-. exists l, s, i. auto.
  - intros b s1 i1 (-> & -> & ->). right. exists l. auto.
Qed.
(** A value that is computed with bounded recursion. *)

(** ** Words *)
Lemma iwords_cons l x xs i l' : shows l (iwords ((x :: xs) :: i)) l' -> exists l1, shows l (words x) l1 /\ shows l1 (iwords (xs :: i)) l'.
Proof. cbn [iwords flat_map]. rewrite <- app_assoc. intros H. apply shows_app in H. exact H. Qed.
Lemma at_word c d l k w xs i l' : at_in c d l ((XT k w :: xs) :: i) l' ->
  exists l1, nextToken l = Ok (k, l1) /\ tokenStr l1 = w /\ at_in CF d l1 (xs :: i) l' /\ paren k = false /\ k <> T_EOF.
Proof.
  intros [D P C H]. inversion P as [|? ? P1 P2]; subst. inversion P1 as [|? ? P3 P4]; subst. inversion P3 as [? ? K1 K2|]; subst.
  apply iwords_cons in H. destruct H as (l1 & H1 & H). cbn [words] in H1. apply shows_cons in H1. destruct H1 as (l2 & N & W & H1).
  apply shows_nil in H1. subst l2. exists l1. split; [exact N|]. split; [exact (W K1)|]. split; [|auto].
  constructor; [reflexivity | now constructor | | exact H]. cbn [cl].
  destruct c; cbn [cl] in C; [eapply fresh_next; eassumption | eapply one_next; eassumption|].
  eapply ready_next; [exact C | exact N | intros ->; discriminate K1].
Qed.
Definition down (c : cls) : cls := match c with CR => CO | _ => CF end.
Lemma cl_down c l t l1 : cl c l -> nextToken l = Ok (t, l1) -> cl (down c) l1.
Proof.
  destruct c; cbn [cl down]; intros C N; [eapply fresh_next; eassumption | eapply one_next; eassumption|]. eapply ready_next; eassumption.
Qed.
Lemma at_open c d l ys xs i l' : at_in c d l ((XL ys :: xs) :: i) l' ->
  exists l1, nextToken l = Ok (T_LPAREN, l1) /\ at_in (down c) (S d) l1 (ys :: xs :: i) l'.
Proof.
  intros [D P C H]. inversion P as [|? ? P1 P2]; subst. inversion P1 as [|? ? P3 P4]; subst. apply proper_list in P3.
  cbn [iwords flat_map words app] in H. apply shows_cons in H. destruct H as (l1 & N & _ & H). exists l1. split; [exact N|].
  constructor; [reflexivity | constructor; auto | exact (cl_down _ _ _ _ C N)|]. cbn [iwords]. rewrite <- !app_assoc in H. exact H.
Qed.
Lemma at_close c d l i l' : at_in c (S d) l ([] :: i) l' -> exists l1, nextToken l = Ok (T_RPAREN, l1) /\ at_in CF d l1 i l'.
Proof.
  intros [D P C H]. inversion P as [|? ? P1 P2]; subst. cbn [iwords flat_map app] in H. apply shows_cons in H. destruct H as (l1 & N & _ & H).
  exists l1. split; [exact N|]. constructor; [now injection D | exact P2 | | exact H]. cbn [cl].
  destruct c; cbn [cl] in C; [eapply fresh_next; eassumption | eapply one_next; eassumption|].
  eapply ready_next; [exact C | exact N | discriminate].
Qed.
(** The first word of the input, what is left when it is taken, and how much less is open. *)
Inductive taken : inp -> token -> text -> inp -> Prop :=
| tk_word : forall k w xs i, paren k = false -> k <> T_EOF -> taken ((XT k w :: xs) :: i) k w (xs :: i)
| tk_open : forall ys xs i, taken ((XL ys :: xs) :: i) T_LPAREN [] (ys :: xs :: i)
| tk_close : forall i, taken ([] :: i) T_RPAREN [] i.
Definition depth_after (t : token) (d : nat) : nat := match t with T_LPAREN => S d | T_RPAREN => pred d | _ => d end.
Lemma at_next c d l i l' : at_in c (S d) l i l' -> exists t w l1 i1, nextToken l = Ok (t, l1) /\ taken i t w i1 /\
  (paren t = false -> tokenStr l1 = w) /\ at_in (down c) (depth_after t (S d)) l1 i1 l'.
Proof.
  intros T. destruct i as [|[|[k w|ys] xs] i]; [destruct T as [D _ _ _]; discriminate D| | |].
  - destruct (at_close _ _ _ _ _ T) as (l1 & N & U). exists T_RPAREN, [], l1, i. split; [exact N|]. split; [constructor|]. split; [discriminate|].
    apply (at_le CF); [now destruct c | exact U].
  - destruct (at_word _ _ _ _ _ _ _ _ T) as (l1 & N & W & U & K1 & K2). exists k, w, l1, (xs :: i). split; [exact N|]. split; [now constructor|]. split; [auto|].
    apply (at_le CF); [now destruct c|]. destruct k; try discriminate K1; exact U.
  - destruct (at_open _ _ _ _ _ _ _ T) as (l1 & N & U). exists T_LPAREN, [], l1, (ys :: xs :: i). split; [exact N|]. split; [constructor|]. split; [discriminate|].
    exact U.
Qed.
Lemma taken_det i t w i1 t' w' i1' : taken i t w i1 -> taken i t' w' i1' -> t' = t /\ w' = w /\ i1' = i1.
Proof. intros H H'. inversion H; subst; inversion H'; subst; auto. Qed.

Lemma p_next c d : parses c (S d) next (fun s i t s1 i1 => s1 = s /\ exists w, taken i t w i1) (fun _ => down c) (fun t => depth_after t (S d)).
Proof.
  intros l s i l' T. destruct (at_next _ _ _ _ _ T) as (t & w & l1 & i1 & N & K & W & U). split.
  - intros a p X. rewrite (next_at l s t l1 N) in X. injection X as <- <-. exists l1, s, i1. eauto.
  - intros a s1 i2 (-> & w' & X). destruct (taken_det _ _ _ _ _ _ _ K X) as (-> & -> & ->). right. exists l1. split; [now apply next_at | exact U].
Qed.
(** A word and its text. *)
Lemma p_token A c d k (f : text -> M A) (g : text -> A -> Prop) : paren k = false -> k <> T_EOF ->
  (forall l s a p, f (tokenStr l) (l, s) = Ok (a, p) -> p = (l, s) /\ g (tokenStr l) a) ->
  (forall l s a, g (tokenStr l) a -> f (tokenStr l) (l, s) = Ok (a, (l, s))) ->
  parses c (S d) (eat k ;; let! w := tokText in f w)
    (fun s i a s1 i1 => exists w xs i', i = (XT k w :: xs) :: i' /\ g w a /\ s1 = s /\ i1 = xs :: i') (fun _ => CF) (fun _ => S d).
Proof.
  intros K E F1 F2 l s i l' T. split.
  - intros a p X. apply mbind_ok in X. destruct X as ([] & p1 & X & Y). apply eat_inv in X. destruct X as (l1 & N & ->).
    apply mbind_ok in Y. destruct Y as (w & p2 & Y & Z). injection Y as <- <-. apply F1 in Z. destruct Z as [-> Z].
    destruct i as [|[|[k' w'|ys] xs] i]; [destruct T as [D _ _ _]; discriminate D| | |].
    + destruct (at_close _ _ _ _ _ T) as (l2 & N2 & _). rewrite N in N2. injection N2 as -> _. discriminate K.
    + destruct (at_word _ _ _ _ _ _ _ _ T) as (l2 & N2 & W & U & _). rewrite N in N2. injection N2 as -> ->. subst w'.
      exists l2, s, (xs :: i). split; [reflexivity|]. split; [|exact U]. exists (tokenStr l2), xs, i. auto.
    + destruct (at_open _ _ _ _ _ _ _ T) as (l2 & N2 & _). rewrite N in N2. injection N2 as -> _. discriminate K.
  - intros a s1 i1 (w & xs & i' & -> & H & -> & ->). right. destruct (at_word _ _ _ _ _ _ _ _ T) as (l1 & N & W & U & _).
    exists l1. split; [|exact U]. at_ (eat_at l s k l1 N). at_ (text_at l1 s). apply F2. now rewrite W.
Qed.
Lemma p_open c d : parses c (S d) (eat T_LPAREN)
  (fun s i _ s1 i1 => s1 = s /\ exists ys xs i', i = (XL ys :: xs) :: i' /\ i1 = ys :: xs :: i') (fun _ => down c) (fun _ => S (S d)).
Proof.
  intros l s i l' T. split.
  - intros [] p X. apply eat_inv in X. destruct X as (l1 & N & ->). destruct (at_next _ _ _ _ _ T) as (t & w & l2 & i1 & N2 & K & W & U).
    rewrite N in N2. injection N2 as <- <-. exists l1, s, i1. split; [reflexivity|]. split; [|exact U]. split; [reflexivity|].
    inversion K; subst; eauto 6. discriminate.
  - intros [] s1 i1 (-> & ys & xs & i' & -> & ->). right. destruct (at_open _ _ _ _ _ _ _ T) as (l1 & N & U). exists l1. split; [now apply eat_at | exact U].
Qed.
Lemma p_close c d : parses c (S d) (eat T_RPAREN) (fun s i _ s1 i1 => s1 = s /\ i = [] :: i1) (fun _ => CF) (fun _ => d).
Proof.
  intros l s i l' T. split.
  - intros [] p X. apply eat_inv in X. destruct X as (l1 & N & ->). destruct i as [|[|[k' w'|ys] xs] i]; [destruct T as [D _ _ _]; discriminate D| | |].
    + destruct (at_close _ _ _ _ _ T) as (l2 & N2 & U). rewrite N in N2. injection N2 as ->. exists l2, s, i. auto.
    + destruct (at_word _ _ _ _ _ _ _ _ T) as (l2 & N2 & W & _ & K & _). rewrite N in N2. injection N2 as <- _. discriminate K.
    + destruct (at_open _ _ _ _ _ _ _ T) as (l2 & N2 & _). rewrite N in N2. discriminate N2.
  - intros [] s1 i1 (-> & ->). right. destruct (at_close _ _ _ _ _ T) as (l1 & N & U). exists l1. split; [now apply eat_at | exact U].
Qed.
Lemma p_choice c d : parses c (S d) (eatChoice T_LPAREN T_RPAREN)
  (fun s i b s1 i1 => s1 = s /\ (b = true /\ (exists ys xs i', i = (XL ys :: xs) :: i' /\ i1 = ys :: xs :: i') \/ b = false /\ i = [] :: i1))
  (fun b => if b then down c else CF) (fun b => if b then S (S d) else d).
Proof.
  intros l s i l' T. split.
  - intros b p X. destruct i as [|[|[k' w'|ys] xs] i]; [destruct T as [D _ _ _]; discriminate D| | |].
    + destruct (at_close _ _ _ _ _ T) as (l2 & N & U). rewrite (choice_at _ _ _ _ _ _ N) in X. injection X as <- <-. exists l2, s, i. auto 6.
    + destruct (at_word _ _ _ _ _ _ _ _ T) as (l2 & N & W & _ & K & _). rewrite (choice_at _ _ _ _ _ _ N) in X.
      destruct k'; try discriminate K; discriminate X.
    + destruct (at_open _ _ _ _ _ _ _ T) as (l2 & N & U). rewrite (choice_at _ _ _ _ _ _ N) in X. injection X as <- <-. exists l2, s, (ys :: xs :: i).
      split; [reflexivity|]. split; [|exact U]. split; [reflexivity|]. left. eauto 6.
  - intros b s1 i1 (-> & [(-> & ys & xs & i' & -> & ->)|(-> & ->)]); right.
    + destruct (at_open _ _ _ _ _ _ _ T) as (l1 & N & U). exists l1. rewrite (choice_at _ _ _ _ _ _ N). auto.
    + destruct (at_close _ _ _ _ _ T) as (l1 & N & U). exists l1. rewrite (choice_at _ _ _ _ _ _ N). auto.
Qed.
(** The next item of the list. *)
Definition r_item {A : Type} (R : st -> sx -> A -> st -> Prop) : rel A :=
  fun s i a s1 i1 => exists x xs i', i = (x :: xs) :: i' /\ R s x a s1 /\ i1 = xs :: i'.
Definition pure {A : Type} (P : sx -> A -> Prop) (s : st) (x : sx) (a : A) (s1 : st) : Prop := P x a /\ s1 = s.
Lemma item_iff A c d (m : M A) R R' c2 d2 : parses c d m (r_item R) c2 d2 -> (forall s x a s1, R s x a s1 <-> R' s x a s1) ->
  parses c d m (r_item R') c2 d2.
Proof.
  intros H E. eapply parses_iff; [exact H|]. intros s i a s1 i1 _.
  split; intros (x & xs & i' & X & Y & Z); exists x, xs, i'; (split; [exact X|]); (split; [now apply E | exact Z]).
Qed.
Lemma p_symbol c d : parses c (S d) parseSymbol (r_item (pure named)) (fun _ => CF) (fun _ => S d).
Proof.
  intros l s i l' T. split.
  - intros n p X. unfold parseSymbol in X. destruct (at_next _ _ _ _ _ T) as (t & w & l1 & i1 & N & K & W & U).
    rewrite (mbind_at _ _ _ _ _ _ _ (next_at l s t l1 N)) in X. apply symbol_inv in X. destruct X as [X ->].
    inversion K; subst; try discriminate X. destruct (at_word _ _ _ _ _ _ _ _ T) as (l2 & N2 & W2 & U2 & _). rewrite N in N2. injection N2 as <-.
    exists l1, s, (xs :: i0). split; [reflexivity|]. split; [|exact U2]. exists (XT t w), xs, i0. split; [reflexivity|].
    split; [|reflexivity]. split; [|reflexivity]. exists t, w. rewrite W2 in X. auto.
  - intros n s1 i1 (x & xs & i' & -> & ((k & w & -> & H) & ->) & ->). right. destruct (at_word _ _ _ _ _ _ _ _ T) as (l1 & N & W & U & _).
    exists l1. split; [|exact U]. exact (parseSymbol_at l s k w n l1 N W H).
Qed.
Lemma p_keyword c d : parses c (S d) parseKeyword
  (fun s i a s1 i1 => s1 = s /\ exists w xs i', i = (XT T_KEYWORD w :: xs) :: i' /\ a = tl w /\ i1 = xs :: i') (fun _ => CF) (fun _ => S d).
Proof.
  eapply parses_iff; [apply (p_token _ c d T_KEYWORD (fun w => mret (tl w)) (fun w a => a = tl w)); try reflexivity; try discriminate|].
  - intros l s a p X. injection X as <- <-. auto.
  - intros l s a ->. reflexivity.
  - intros s i a s1 i1 _. split; [intros (w & xs & i' & -> & -> & -> & ->); eauto 8 | intros (-> & w & xs & i' & -> & -> & ->); eauto 8].
Qed.
Lemma p_str c d : parses c (S d) parseStr (r_item (pure quoted)) (fun _ => CF) (fun _ => S d).
Proof.
  eapply parses_iff; [apply (p_token _ c d T_STRING (fun w => mlift (unescapeString w)) (fun w a => unescapeString w = Ok a)); try reflexivity; try discriminate|].
  - intros l s a p X. unfold mlift in X. apply bind_ok in X. destruct X as (b & X & Y). injection Y as <- <-. auto.
  - intros l s a X. unfold mlift. rewrite X. reflexivity.
  - intros s i a s1 i1 _. split; [intros (w & xs & i' & -> & H & -> & ->); exists (XT T_STRING w), xs, i'; split; [reflexivity|]; split; [split; [exists w; auto | reflexivity] | reflexivity]|].
    intros (x & xs & i' & -> & ((w & -> & H) & ->) & ->); eauto 8.
Qed.
Lemma digits_leading w : forall v, digits_val w v = leading v w.
Proof.
  induction w as [|c w IH]; intros v; [reflexivity|]. cbn [digits_val leading]. 
  change (isClass CDigit c) with (in_range 48 57 (c mod 256)). unfold in_range.
  destruct ((48 <=? c mod 256) && (c mod 256 <=? 57)); [|reflexivity]. rewrite IH. f_equal. lia.
Qed.
Definition to_unsigned (w : text) : res Z :=
  match w with
  | 48 :: _ :: _ => Err
  | 45 :: r => let v := digits_val r 0 in if 2 ^ 32 <=? v then Ok (2 ^ 32 - 1) else Ok (u32 (- v))
  | _ => let v := digits_val w 0 in Ok (if 2 ^ 32 <=? v then 2 ^ 32 - 1 else v)
  end.
Lemma to_unsigned_other w : hd 0 w <> 45 -> (hd 0 w = 48 -> length w = 1%nat) ->
  to_unsigned w = Ok (let v := digits_val w 0 in if 2 ^ 32 <=? v then 2 ^ 32 - 1 else v).
Proof.
  intros A B. destruct w as [|c w]; [reflexivity|]. cbn [hd] in *.
  destruct (Z.eq_dec c 48) as [->|N]; [destruct w; [reflexivity | discriminate (B eq_refl)]|].
  unfold to_unsigned. destruct c as [|c|c]; try reflexivity. do 6 (try destruct c as [c|c|]); try reflexivity; exfalso; auto.
Qed.
Lemma unsigned_iff w k : to_unsigned w = Ok k <-> unsigned w k.
Proof.
  split.
  - intros H. destruct (Z.eq_dec (hd 0 w) 45) as [E|E].
    + destruct w as [|c w]; [discriminate E|]. cbn [hd] in E. subst c. cbn [to_unsigned] in H. rewrite digits_leading in H.
      destruct (2 ^ 32 <=? leading 0 w) eqn:L; injection H as <-; [apply un_low; lia | apply un_neg; lia].
    + assert (B : hd 0 w = 48 -> length w = 1%nat).
      { intros B. destruct w as [|c [|c' w]]; [discriminate B | reflexivity|]. cbn [hd] in B. subst c. discriminate H. }
      rewrite (to_unsigned_other w E B) in H. cbv zeta in H. rewrite digits_leading in H.
      replace k with (Z.min (leading 0 w) (2 ^ 32 - 1)); [now apply un_pos|]. destruct (2 ^ 32 <=? leading 0 w) eqn:L; injection H as <-; lia.
  - intros [w' A B|w' L|w' L].
    + rewrite (to_unsigned_other w' A B). cbv zeta. rewrite digits_leading. f_equal. destruct (2 ^ 32 <=? leading 0 w') eqn:L; lia.
    + cbn [to_unsigned]. rewrite digits_leading. replace (2 ^ 32 <=? leading 0 w') with false by lia. reflexivity.
    + cbn [to_unsigned]. rewrite digits_leading. replace (2 ^ 32 <=? leading 0 w') with true by lia. reflexivity.
Qed.
Lemma p_number c d : parses c (S d) parseIntegerNumeral (r_item (pure number)) (fun _ => CF) (fun _ => S d).
Proof.
  eapply parses_ext; [|eapply parses_iff;
    [apply (p_token _ c d T_INTEGER (fun w => mlift (to_unsigned w)) (fun w a => unsigned w a)); try reflexivity; try discriminate|]].
  - intros p. unfold parseIntegerNumeral. apply mbind_ext. intros [] [l s]. unfold tokText, mlex, mlift, mbind. cbn [bind fst snd].
    change (tokenStrToUnsigned l) with (to_unsigned (tokenStr l)). destruct (to_unsigned (tokenStr l)); reflexivity.
  - intros l s a p X. unfold mlift in X. apply bind_ok in X. destruct X as (b & X & Y). injection Y as <- <-. split; [reflexivity | now apply unsigned_iff].
  - intros l s a X. unfold mlift. apply unsigned_iff in X. rewrite X. reflexivity.
  - intros s i a s1 i1 _. split; [intros (w & xs & i' & -> & H & -> & ->); exists (XT T_INTEGER w), xs, i'; split; [reflexivity|]; split; [split; [exists w; auto | reflexivity] | reflexivity]|].
    intros (x & xs & i' & -> & ((w & -> & H) & ->) & ->); eauto 8.
Qed.

(** Looking at the first word. *)
Definition first (i : inp) : token := match i with (XT k _ :: _) :: _ => k | (XL _ :: _) :: _ => T_LPAREN | _ => T_RPAREN end.
Lemma at_peek d l s i l' : at_in CF (S d) l i l' -> exists l1, peek (l, s) = Ok (first i, (reinsertToken (first i) l1, s)) /\
  nextToken l = Ok (first i, l1) /\ at_in CO (S d) (reinsertToken (first i) l1) i l'.
Proof.
  intros T. destruct (at_next _ _ _ _ _ T) as (t & w & l1 & i1 & N & K & W & U).
  assert (F : first i = t) by (inversion K; subst; reflexivity). rewrite F. exists l1. split; [exact (peek_at l s t l1 (ai_cl _ _ _ _ _ T) N)|].
  split; [exact N|]. destruct T as [D P C H]. constructor; [exact D | exact P | |].
  - right. exists t. cbn [reinsertToken l_peeked]. f_equal. exact (fresh_next _ _ _ C N).
  - replace (iwords i) with ((t, w) :: iwords i1); [apply shows_reinsert; [exact W | apply U]|].
    inversion K; subst; cbn [iwords flat_map words app]; rewrite <- ?app_assoc; reflexivity.
Qed.
Lemma p_peek d : parses CF (S d) peek (fun s i t s1 i1 => t = first i /\ s1 = s /\ i1 = i) (fun _ => CO) (fun _ => S d).
Proof.
  intros l s i l' T. destruct (at_peek d l s i l' T) as (l1 & E & N & U). split.
  - intros a p X. rewrite E in X. injection X as <- <-. exists (reinsertToken (first i) l1), s, i. auto.
  - intros a s1 i1 (-> & -> & ->). right. exists (reinsertToken (first i) l1). auto.
Qed.
(** Putting a word back. *)
Definition up (c : cls) : cls := match c with CF => CO | _ => CR end.

(** ** Loops *)
Inductive loops {S A : Type} (R : S -> rel (S + A)) : S -> st -> inp -> A -> st -> inp -> Prop :=
| lp_stop : forall acc s i a s1 i1, R acc s i (inr a) s1 i1 -> loops R acc s i a s1 i1
| lp_go : forall acc s i acc1 s1 i1 a s2 i2, R acc s i (inl acc1) s1 i1 -> loops R acc1 s1 i1 a s2 i2 -> loops R acc s i a s2 i2.
Lemma p_loop S A c d n (body : S -> M (S + A)) R c2 d2 :
  (forall acc, parses c d (body acc) (R acc) (fun r => match r with inl _ => c | inr a => c2 a end) (fun r => match r with inl _ => d | inr a => d2 a end)) ->
  forall acc, parses c d (mloop n body acc) (fun s i a s1 i1 => loops R acc s i a s1 i1) c2 d2.
Proof.
  intros H acc l s i l' T. split.
  - revert acc l s i T. induction n as [|n IH]; intros acc l s i T a p X; [discriminate X|]. cbn [mloop] in X. apply mbind_ok in X.
    destruct X as (r & p1 & X & Y). destruct (H acc l s i l' T) as [H1 _]. destruct (H1 r p1 X) as (l1 & s1 & i1 & -> & Y1 & Z1).
    destruct r as [acc1|b].
    + destruct (IH acc1 l1 s1 i1 Z1 a p Y) as (l2 & s2 & i2 & -> & Y2 & Z2). exists l2, s2, i2. split; [reflexivity|]. split; [|exact Z2].
      eapply lp_go; eassumption.
    + injection Y as <- <-. exists l1, s1, i1. split; [reflexivity|]. split; [now apply lp_stop | exact Z1].
  - intros a s1 i1 L. revert n l T. induction L as [acc s i a s1 i1 X|acc s i acc1 s1 i1 a s2 i2 X L IH]; intros n l T;
      (destruct n as [|n]; [now left|]); cbn [mloop]; destruct (H acc l s i l' T) as [_ H2]; destruct (H2 _ _ _ X) as [Y|(l1 & Y & Z)];
      try (left; now apply mbind_fuel); rewrite (mbind_at _ _ _ _ _ _ _ Y).
    + right. exists l1. auto.
    + exact (IH n l1 Z).
Qed.
(** A list: the items of the innermost open list up to its end. *)
Definition r_items {B : Type} (R : st -> sx -> B -> st -> Prop) : rel (list B) :=
  fun s i a s1 i1 => exists xs, i = xs :: i1 /\ each R s xs a s1.
Lemma loops_items {S B C : Type} (R : st -> sx -> B -> st -> Prop) (add : S -> B -> S) (fin : S -> C) (body : S -> rel (S + C)) :
  (forall acc s i r s1 i1, body acc s i r s1 i1 <->
     (exists x xs i' b, i = (x :: xs) :: i' /\ i1 = xs :: i' /\ R s x b s1 /\ r = inl (add acc b)) \/
     (i = [] :: i1 /\ s1 = s /\ r = inr (fin acc))) ->
  forall acc s i r s1 i1, loops body acc s i r s1 i1 <-> exists bs, r_items R s i bs s1 i1 /\ r = fin (fold_left add bs acc).
Proof.
  intros H acc s i r s1 i1. split.
  - induction 1 as [acc s i a s1 i1 X|acc s i acc1 s1 i1 a s2 i2 X L (bs & (ys & E & IH) & E2)]; apply H in X.
    + destruct X as [(x & xs & i' & b & _ & _ & _ & X)|(-> & -> & X)]; [discriminate X|]. injection X as ->. exists []. split; [|reflexivity].
      exists []. split; [reflexivity | constructor].
    + destruct X as [(x & xs & i' & b & -> & E1 & X & Y)|(_ & _ & X)]; [|discriminate X]. injection Y as ->. rewrite E in E1. injection E1 as <- <-.
      exists (b :: bs). split; [|exact E2]. exists (x :: ys). split; [reflexivity|]. econstructor; eassumption.
  - intros (bs & (xs & -> & E) & ->). revert acc. induction E as [s|s x b s1 xs bs s2 X E IH]; intros acc.
    + apply lp_stop. apply H. auto.
    + eapply lp_go; [|apply IH]. apply H. left. exists x, xs, i1, b. auto.
Qed.
