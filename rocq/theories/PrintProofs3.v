(** Proofs about printing: definitions of shared terms. *)
From Coq Require Import String ZArith List Bool Lia Permutation.
From Verif Require Import Base Kind Ints Str Literal Arity Term Match Eval ListOps Typing Lexer SpecLex TermProofs Print SpecPrint PrintProofs PrintProofs2.
Import ListNotations.
Open Scope nat_scope.

Lemma filter_split {A} (f : A -> bool) L : forall pre l ls, filter f L = pre ++ l :: ls ->
  exists a b, L = a ++ l :: b /\ filter f a = pre /\ filter f b = ls.
Proof.
  induction L as [|x L IH]; intros pre l ls H; [now destruct pre|]. cbn [filter] in H. destruct (f x) eqn:F.
  - destruct pre as [|p pre].
    + injection H as -> H. exists [], L. auto.
    + injection H as -> H. destruct (IH _ _ _ H) as (a & b & -> & FA & FB). exists (p :: a), b. cbn [filter app]. rewrite F, FA. auto.
  - destruct (IH _ _ _ H) as (a & b & -> & FA & FB). exists (x :: a), b. cbn [filter app]. rewrite F. auto.
Qed.

Section Print.
Variable E : env.
Notation kids := (kids E).
Notation fin := (fin E).

(** * Writing with abbreviations *)
Lemma written_total lb : forall t, fin t -> exists x us, written E lb t x us.
Proof.
  induction 1 as [t P Fc IH]. destruct (lb t) as [w|] eqn:L; [exists (PA w), []; now constructor|].
  assert (G : forall ts, (forall c, In c ts -> In c (kids t)) -> exists xs us, written_list E lb ts xs us).
  { induction ts as [|c ts IHt]; intros I; [exists [], []; constructor|].
    destruct (IH c (I c ltac:(now left))) as (x & us & W). destruct IHt as (xs & vs & Wl); [intros; apply I; now right|].
    exists (x :: xs), (us ++ vs). now constructor. }
  destruct (kids t) as [|c cs] eqn:K.
  { destruct (leaf_exists E t P) as [x W]. exists x, []. now constructor. }
  inversion P as [i T S|? ? N|?|k ds N]; subst.
  - destruct (IH c ltac:(now left)) as (x & us & W). eexists _, _. exact (wr_var E lb i c x us L S W).
  - destruct (G (c :: cs)) as (xs & us & W); [auto|]. destruct (head_exists E k c) as [h H]. eexists _, _. exact (wr_node E lb k c cs h xs us L P H W).
Qed.

Lemma written_ext lb : (forall t x us, written E lb t x us -> forall lb', (forall u, within E u t -> lb u = lb' u) -> written E lb' t x us) /\
  (forall ts xs us, written_list E lb ts xs us -> forall lb', (forall t u, In t ts -> within E u t -> lb u = lb' u) -> written_list E lb' ts xs us).
Proof.
  apply written_minds.
  - intros t w L lb' A. constructor. rewrite <- A; [exact L|constructor].
  - intros t x L P W lb' A. constructor; auto. rewrite <- A; [exact L|constructor].
  - intros i T x us L S _ IH lb' A. apply wr_var with (T := T); auto; [rewrite <- A; [exact L|constructor]|].
    apply IH. intros u W. apply A. eapply wi_part; [constructor; exact S|now left|exact W].
  - intros k c cs h xs us L P H _ IH lb' A. apply wr_node; auto; [rewrite <- A; [exact L|constructor]|].
    apply IH. intros t u I W. apply A. exact (wi_part E _ _ _ _ P I W).
  - intros; constructor.
  - intros t x us ts xs vs _ IH _ IHl lb' A. constructor; [apply IH; intros u; apply A; now left|].
    apply IHl. intros t' u I. apply A. now right.
Qed.

Lemma written_inside lb :
  (forall t x us, written E lb t x us -> forall u, In u us -> compound E u /\ within E u t /\ lb u = None) /\
  (forall ts xs us, written_list E lb ts xs us -> forall u, In u us -> compound E u /\ lb u = None /\ exists t, In t ts /\ within E u t).
Proof.
  apply written_minds.
  - intros t w L u [].
  - intros t x L P W u [].
  - intros i T x us L S _ IH u I. pose proof (pt_var E i T S) as P. destruct I as [<-|I].
    + split; [now exists T, []|]. split; [constructor|exact L].
    + destruct (IH u I) as (A & B & C). split; [exact A|]. split; [|exact C]. eapply wi_part; [exact P|now left|exact B].
  - intros k c cs h xs us L P H _ IH u I. destruct I as [<-|I].
    + split; [now exists c, cs|]. split; [constructor|exact L].
    + destruct (IH u I) as (A & B & t & It & W). split; [exact A|]. split; [|exact B]. exact (wi_part E _ _ _ _ P It W).
  - intros u [].
  - intros t x us ts xs vs _ IH _ IHl u I. apply in_app_iff in I as [I|I].
    + destruct (IH u I) as (A & B & C). split; [exact A|]. split; [exact C|]. exists t. split; [now left|exact B].
    + destruct (IHl u I) as (A & B & v & Iv & W). split; [exact A|]. split; [exact B|]. exists v. split; [now right|exact W].
Qed.

Lemma written_count lb :
  (forall t x us, written E lb t x us -> forall u, compound E u -> lb u = None -> cnt us u = cnt (flat_map kids us) u + one t u) /\
  (forall ts xs us, written_list E lb ts xs us -> forall u, compound E u -> lb u = None -> cnt us u = cnt (flat_map kids us) u + cnt ts u).
Proof.
  apply written_minds.
  - intros t w L u C N. rewrite one_other by congruence. reflexivity.
  - intros t x L P W u C N. rewrite one_other; [reflexivity|]. intros <-. destruct C as (c & cs & Q).
    pose proof (parts_fun E _ _ _ P Q). discriminate.
  - intros i T x us L S _ IH u C N. pose proof (pt_var E i T S) as P. apply parts_kids in P.
    rewrite cnt_cons. cbn [flat_map]. rewrite <- P. cbn [app]. rewrite cnt_cons. rewrite (IH u C N). lia.
  - intros k c cs h xs us L P H _ IH u C N. apply parts_kids in P.
    rewrite cnt_cons. cbn [flat_map]. rewrite <- P. rewrite cnt_app. rewrite (IH u C N). lia.
  - reflexivity.
  - intros t x us ts xs vs _ IH _ IHl u C N. rewrite flat_map_app, !cnt_app, cnt_cons, (IH u C N), (IHl u C N). lia.
Qed.

(** * The definitions *)
Fixpoint opened (ds : list (text * px)) : text :=
  match ds with
  | [] => []
  | (v, x) :: ds' => txt "(eo::define ((" ++ v ++ txt " " ++ render x ++ txt ")) " ++ opened ds'
  end.
Fixpoint closed (ds : list (text * px)) : text := match ds with [] => [] | _ :: ds' => txt ")" ++ closed ds' end.
Lemma closed_snoc ds : closed ds ++ txt ")" = txt ")" ++ closed ds.
Proof. induction ds as [|d ds IH]; [reflexivity|]. cbn [closed]. rewrite <- app_assoc, IH. reflexivity. Qed.
Lemma render_defining ds b : render (defining ds b) = opened ds ++ render b ++ closed ds.
Proof.
  induction ds as [|[v x] ds IH]; [cbn; now rewrite app_nil_r|].
  assert (R : forall d, render (PL [word "eo::define"; PL [PL [PA v; x]]; d]) =
    txt "(eo::define ((" ++ v ++ txt " " ++ render x ++ txt ")) " ++ render d ++ txt ")").
  { intros d. cbn [render map spaced word]. rewrite <- !app_assoc. reflexivity. }
  cbn [defining opened closed]. rewrite R, IH, <- !app_assoc, closed_snoc. reflexivity.
Qed.

Section Lets.
Variable ll : list term.
Hypothesis nodup : NoDup ll.
Hypothesis finite : forall l, In l ll -> fin l /\ compound E l.
Hypothesis order : forall pre l ls, ll = pre ++ l :: ls -> forall u, within E u l -> u <> l -> In u ll -> In u pre.
Definition names_all (m : lmap) : Prop := forall u, option_map letName (lfind m u) = naming 0 ll u.

Lemma split_not pre l ls : ll = pre ++ l :: ls -> ~ In l pre /\ ~ In l ls.
Proof. intros X. rewrite X in nodup. apply NoDup_remove_2 in nodup. rewrite in_app_iff in nodup. tauto. Qed.

(** The map without a term agrees with the names before it, inside of the term. *)
Lemma names_before m pre l ls : ll = pre ++ l :: ls -> names_all m -> forall u, within E u l ->
  naming 0 pre u = option_map letName (lfind (lerase m l) u).
Proof.
  intros X N u W. destruct (split_not _ _ _ X) as [N1 N2]. rewrite lfind_erase. destruct (term_eq_dec l u) as [<-|D].
  - cbn. now apply naming_none.
  - rewrite N, X, naming_app. destruct (naming 0 pre u) eqn:P; [reflexivity|]. symmetry. apply naming_none. intros I.
    apply naming_none in P. apply P. apply (order _ _ _ X u W); [congruence|]. rewrite X. apply in_app_iff. now right.
Qed.

Lemma lets_printed : forall ls pre m, ll = pre ++ ls -> names_all m ->
  exists N m' ds us, defined E pre ls ds us /\ names_all m' /\ forall n os cp, N <= n ->
    printLets E n ls m os cp = Ok (m', os ++ opened ds, cp ++ closed ds).
Proof.
  induction ls as [|l ls IH]; intros pre m X N.
  { exists 0, m, [], []. split; [constructor|]. split; [exact N|]. intros n os cp _. cbn. now rewrite !app_nil_r. }
  assert (Il : In l ll) by (rewrite X; apply in_app_iff; right; now left).
  destruct (finite l Il) as [F C]. destruct (split_not _ _ _ X) as [N1 N2].
  destruct (written_total (naming 0 pre) l F) as (x & us & W).
  pose proof (proj1 (written_ext _) _ _ _ W _ (names_before m pre l ls X N)) as W'.
  destruct (proj1 (loop_spec E (lerase m l) _ (fun u => eq_refl)) _ _ _ W') as [k R].
  destruct (lfind m l) as [id|] eqn:ID.
  2:{ specialize (N l). rewrite ID in N. symmetry in N. apply naming_none in N. contradiction. }
  assert (NI : letName id = let_name (length pre)).
  { specialize (N l). rewrite ID, X, naming_app in N. rewrite (proj2 (naming_none _ _ _) N1) in N. cbn [naming] in N.
    rewrite term_eqb_refl in N. change (Some (letName id) = Some (let_name (length pre))) in N.
    exact (f_equal (fun o => match o with Some w => w | None => [] end) N). }
  destruct (IH (pre ++ [l]) (lset (lerase m l) l id)) as (N' & m' & ds & vs & D & NA & P).
  { now rewrite <- app_assoc. }
  { intros u. rewrite lfind_set, lfind_erase. destruct (term_eq_dec l u) as [<-|]; [rewrite <- N, ID; reflexivity|apply N]. }
  exists (k + 1 + N'), m', ((let_name (length pre), x) :: ds), (us ++ vs). split; [now constructor|]. split; [exact NA|].
  intros n os cp L. cbn [printLets]. rewrite ID.
  assert (S : printDebugInternal E n l (lerase m l) = Ok (render x)).
  { unfold printDebugInternal. replace n with (k + S (n - k - 1)) by lia. rewrite R. reflexivity. }
  rewrite S. cbn [bind]. rewrite P by lia. cbn [opened closed]. rewrite NI, <- !app_assoc. reflexivity.
Qed.

Lemma defined_count : forall pre ls ds us, defined E pre ls ds us -> ll = pre ++ ls ->
  (forall u, In u us -> compound E u /\ exists l, In l ls /\ within E u l) /\
  (forall u, compound E u -> ~ In u ll -> cnt us u = cnt (flat_map kids us) u) /\
  (forall u, In u ll -> cnt us u = cnt ls u).
Proof.
  induction 1 as [pre|pre l ls x us ds vs W D IH]; intros X.
  { split; [intros u []|]. split; reflexivity. }
  assert (Il : In l ll) by (rewrite X; apply in_app_iff; right; now left).
  destruct (finite l Il) as [F C]. destruct (split_not _ _ _ X) as [N1 N2].
  destruct IH as (A & B & G); [now rewrite <- app_assoc|].
  pose proof (proj1 (written_inside _) _ _ _ W) as WI. pose proof (proj1 (written_count _) _ _ _ W) as WC.
  split; [|split].
  - intros u I. apply in_app_iff in I as [I|I].
    + destruct (WI u I) as (P & Q & _). split; [exact P|]. exists l. split; [now left|exact Q].
    + destruct (A u I) as (P & l' & I' & Q). split; [exact P|]. exists l'. split; [now right|exact Q].
  - intros u Cu NI. rewrite flat_map_app, !cnt_app, (B u Cu NI), (WC u Cu).
    + rewrite one_other; [lia|]. intros ->. contradiction.
    + apply naming_none. intros I. apply NI. rewrite X. apply in_app_iff. now left.
  - intros u I. rewrite cnt_app, cnt_cons, (G u I). f_equal.
    destruct (term_eq_dec l u) as [<-|D1].
    + rewrite one_same, (WC l C) by now apply naming_none. rewrite one_same.
      assert (Z : cnt (flat_map kids us) l = 0); [|lia]. apply cnt_not. intros Y. apply in_flat_map in Y as (p & Ip & Yp).
      destruct (WI p Ip) as (_ & Wp & _). pose proof (within_fin E _ _ F Wp) as Fp.
      apply (acyclic E p Fp l Yp). exact Wp.
    + rewrite one_other by exact D1. apply cnt_not. intros Y. destruct (WI u Y) as (_ & Wu & LN). apply naming_none in LN.
      apply LN. apply (order _ _ _ X u Wu); [congruence|exact I].
Qed.
End Lets.

(** * Everything is written out once *)
Lemma count_flat A B u : (forall p, In u (kids p) -> cnt A p = cnt B p) -> cnt (flat_map kids A) u = cnt (flat_map kids B) u.
Proof.
  intros H.
  assert (S : forall l, cnt (flat_map kids l) u = cnt (flat_map kids (filter (fun p => existsb (term_eqb u) (kids p)) l)) u).
  { induction l as [|p l IH]; [reflexivity|]. cbn [flat_map filter]. destruct (existsb (term_eqb u) (kids p)) eqn:X.
    - cbn [flat_map]. rewrite !cnt_app, IH. reflexivity.
    - rewrite cnt_app, IH. rewrite (proj1 (cnt_not (kids p) u)); [reflexivity|]. rewrite <- existsb_mem. congruence. }
  rewrite (S A), (S B).
  assert (P : Permutation (filter (fun p => existsb (term_eqb u) (kids p)) A) (filter (fun p => existsb (term_eqb u) (kids p)) B)).
  { apply (Permutation_count_occ term_eq_dec). intros p.
    assert (Q : forall l, count_occ term_eq_dec (filter (fun p => existsb (term_eqb u) (kids p)) l) p =
                          if existsb (term_eqb u) (kids p) then count_occ term_eq_dec l p else 0).
    { induction l as [|q l IH]; [now destruct (existsb _ _)|]. cbn [filter]. destruct (existsb (term_eqb u) (kids q)) eqn:X.
      - cbn [count_occ]. destruct (term_eq_dec q p) as [->|]; rewrite IH; [now rewrite X|reflexivity].
      - cbn [count_occ]. rewrite IH. destruct (term_eq_dec q p) as [->|]; [now rewrite X|reflexivity]. }
    rewrite !Q. destruct (existsb (term_eqb u) (kids p)) eqn:X; [|reflexivity]. apply H, existsb_mem, X. }
  clear - P. induction P; cbn [flat_map]; rewrite ?cnt_app; try lia.
Qed.

Lemma order_within L : (forall pre u post, L = pre ++ u :: post -> forall c, In c (kids u) -> compound E c -> In c pre) ->
  forall l, fin l -> forall a b u, L = a ++ l :: b -> within E u l -> u <> l -> compound E u -> In u a.
Proof.
  intros O l F. induction F as [l P Fc IH]. intros a b u X W N C. assert (F : fin l) by now constructor.
  destruct (within_inv E _ _ F W) as [->|(c & Ic & Wc)]; [contradiction|].
  assert (Cc : compound E c).
  { destruct (within_inv E _ _ (Fc _ Ic) Wc) as [<-|(d & Id & _)]; [exact C|]. apply compound_kids; [now apply Fc|]. intros Y. now rewrite Y in Id. }
  pose proof (O _ _ _ X c Ic Cc) as Ia. destruct (term_eq_dec u c) as [->|D]; [exact Ia|].
  apply in_split in Ia as (a1 & a2 & ->). apply in_app_iff. left.
  apply (IH c Ic a1 (a2 ++ l :: b) u); auto. now rewrite X, <- app_assoc.
Qed.

Theorem shared_print t : fin t -> exists N ls ds b us,
  (forall n, N <= n -> printDebug E true n t = Ok (render (defining ds b))) /\
  written_shared E t ls ds b us /\
  NoDup us /\ (forall u, In u us <-> compound E u /\ within E u t) /\
  (forall u, In u ls <-> compound E u /\ 2 <= cnt (t :: flat_map kids us) u) /\
  (forall l, In l ls -> within E l t) /\ NoDup ls.
Proof.
  intros F. destruct (count_all E t F) as (N1 & C & L & AC & R1). destruct AC as [A1 A2 A3 A4].
  destruct (keep_spec C L A2) as (m & K & NM). set (ll := filter (shared_by C) L) in *.
  assert (nodup : NoDup ll) by now apply NoDup_filter.
  assert (inL : forall u, In u ll -> In u L) by (intros u I; unfold ll in I; now apply filter_In in I).
  assert (finite : forall l, In l ll -> fin l /\ compound E l).
  { intros l I. apply inL, A1 in I as [Cl W]. split; [exact (within_fin E _ _ F W)|exact Cl]. }
  assert (order : forall pre l ls, ll = pre ++ l :: ls -> forall u, within E u l -> u <> l -> In u ll -> In u pre).
  { intros pre l ls X u W D I. destruct (filter_split _ _ _ _ _ X) as (a & b & Y & P & Q). rewrite <- P. apply filter_In. split.
    - apply (order_within L A3 l) with (b := b); auto; apply finite; [rewrite X; apply in_app_iff; right; now left|exact I].
    - unfold ll in I. now apply filter_In in I. }
  destruct (lets_printed ll nodup finite order ll [] m eq_refl NM) as (N2 & m' & ds & us & D & NM' & R2).
  destruct (written_total (naming 0 ll) t F) as (b & vs & W).
  destruct (proj1 (loop_spec E m' (naming 0 ll) (fun u => eq_sym (NM' u))) _ _ _ W) as [k R3].
  destruct (defined_count ll nodup finite order _ _ _ _ D eq_refl) as (D1 & D2 & D3).
  pose proof (proj1 (written_inside _) _ _ _ W) as WI. pose proof (proj1 (written_count _) _ _ _ W) as WC.
  assert (INS : forall u, In u (us ++ vs) -> In u L).
  { intros u I. apply A1. apply in_app_iff in I as [I|I].
    - destruct (D1 u I) as (Cu & l & Il & Wl). split; [exact Cu|]. apply (within_trans E _ _ _ Wl). apply A1. now apply inL.
    - destruct (WI u I) as (Cu & Wu & _). now split. }
  assert (TOT : forall u, compound E u -> ~ In u ll -> cnt (us ++ vs) u = cnt (flat_map kids (us ++ vs)) u + one t u).
  { intros u Cu NI. rewrite flat_map_app, !cnt_app, (D2 u Cu NI), (WC u Cu) by now apply naming_none. lia. }
  assert (NAM : forall u, In u ll -> cnt (us ++ vs) u = 1).
  { intros u I. rewrite cnt_app, (D3 u I).
    assert (Z : cnt vs u = 0). { apply cnt_not. intros Y. destruct (WI u Y) as (_ & _ & Z). apply naming_none in Z. contradiction. }
    rewrite Z. apply (proj1 (NoDup_count_occ' term_eq_dec ll) nodup) in I. unfold cnt. lia. }
  (* bottom of the list first: the terms around a term come after it *)
  assert (ONE : forall j pre u post, length post <= j -> L = pre ++ u :: post -> cnt (us ++ vs) u = 1).
  { induction j as [j IH] using lt_wf_ind. intros pre u post LE X.
    assert (Iu : In u L) by (rewrite X; apply in_app_iff; right; now left).
    assert (Cu : compound E u) by now apply A1.
    destruct (in_dec term_eq_dec u ll) as [I|NI]; [now apply NAM|]. rewrite (TOT u Cu NI).
    assert (SAME : cnt (flat_map kids (us ++ vs)) u = cnt (flat_map kids L) u).
    { apply count_flat. intros p Ip. destruct (in_dec term_eq_dec p L) as [IL|NL].
      - rewrite (proj1 (NoDup_count_occ' term_eq_dec L) A2 p IL : cnt L p = 1).
        apply in_split in IL as (a & c & Y). assert (Ia : In u a) by exact (A3 _ _ _ Y u Ip Cu).
        assert (LT : length c < length post).
        { apply in_split in Ia as (a1 & a2 & ->). rewrite <- app_assoc in Y. cbn in Y.
          assert (Q : pre = a1 /\ post = a2 ++ p :: c).
          { rewrite X in Y, A2. clear - Y A2. revert a1 Y. induction pre as [|q pre IH]; intros [|r a1] Y; cbn in *.
            - injection Y as Y. auto.
            - exfalso. injection Y as -> Y. inversion A2 as [|? ? H _]; subst. apply H. apply in_app_iff. right. now left.
            - exfalso. injection Y as <- Y. inversion A2 as [|? ? H _]; subst. apply H. apply in_app_iff. right. now left.
            - injection Y as <- Y. inversion A2; subst. destruct (IH H2 _ Y) as [-> ->]. auto. }
          destruct Q as [_ ->]. rewrite app_length. cbn. lia. }
        destruct j as [|j]; [lia|]. apply (IH j ltac:(lia) a p c); [lia|exact Y].
      - rewrite (proj1 (cnt_not L p) NL). apply cnt_not. intros Y. apply NL, INS, Y. }
    rewrite SAME, <- (A4 u Cu). unfold ll in NI. rewrite filter_In in NI. unfold shared_by in NI.
    assert (POS : 1 <= cval C u).
    { rewrite (A4 u Cu). destruct (term_eq_dec t u) as [->|DT]; [rewrite one_same; lia|].
      apply A1 in Iu as [_ Wu]. assert (G : exists p, In p L /\ In u (kids p)).
      { clear - F Wu DT A1 Cu. revert Wu DT. revert F. intros F.
        assert (H : forall v, fin v -> within E v t -> within E u v -> v <> u -> exists p, In p L /\ In u (kids p)).
        { induction 1 as [v P Fc IH]. intros Wt Wu D. assert (Fv : fin v) by now constructor.
          destruct (within_inv E _ _ Fv Wu) as [->|(c & Ic & Wc)]; [contradiction|].
          destruct (term_eq_dec c u) as [->|Dc].
          - exists v. split; [|exact Ic]. apply A1. split; [|exact Wt]. apply compound_kids; [exact Fv|]. intros Y. now rewrite Y in Ic.
          - apply (IH c Ic); auto. apply (within_trans E _ v); [now apply within_kid|exact Wt]. }
        intros Wu DT. apply (H t F); [constructor|exact Wu|exact DT]. }
      destruct G as (p & Ip & Iu'). assert (Z : In u (flat_map kids L)) by (apply in_flat_map; eauto).
      apply cnt_In in Z. lia. }
    unfold cval in *. destruct (lfind C u) as [[|[|i]]|]; try lia. exfalso. apply NI. now split. }
  assert (ALL : forall u, cnt (us ++ vs) u = cnt L u).
  { intros u. destruct (in_dec term_eq_dec u L) as [I|NI].
    - rewrite (proj1 (NoDup_count_occ' term_eq_dec L) A2 u I : cnt L u = 1). apply in_split in I as (a & c & X).
      exact (ONE (length c) a u c ltac:(lia) X).
    - rewrite (proj1 (cnt_not L u) NI). apply cnt_not. intros Y. apply NI, INS, Y. }
  exists (N1 + N2 + k + 1), ll, ds, b, (us ++ vs). split; [|split; [|split; [|split; [|split; [|split; [|exact nodup]]]]]].
  - intros n LE. unfold printDebug, computeLetBinding. rewrite R1 by lia. cbn [bind]. rewrite K. cbn [bind].
    rewrite R2 by lia. cbn [bind]. unfold printDebugInternal. replace n with (k + S (n - k - 1)) by lia. rewrite R3. cbn [printLoop bind].
    rewrite render_defining. reflexivity.
  - exists us, vs. auto.
  - apply (NoDup_count_occ term_eq_dec). intros u. pose proof (ALL u) as X. unfold cnt in X. rewrite X. now apply NoDup_count_occ.
  - intros u. rewrite <- A1, !cnt_In, ALL. reflexivity.
  - intros u. unfold ll at 1. rewrite filter_In, A1.
    assert (SAME : cnt (flat_map kids (us ++ vs)) u = cnt (flat_map kids L) u) by (apply count_flat; intros; apply ALL).
    rewrite cnt_cons, SAME. unfold shared_by. split.
    + intros [[Cu _] S]. split; [exact Cu|]. pose proof (A4 u Cu) as X. unfold cval in X. destruct (lfind C u) as [[|[|i]]|]; try discriminate. lia.
    + intros [Cu S]. pose proof (A4 u Cu) as X. unfold cval in X. destruct (lfind C u) as [[|[|i]]|] eqn:Y; try lia.
      split; [|reflexivity]. split; [exact Cu|].
      destruct (term_eq_dec t u) as [->|DT]; [constructor|]. rewrite one_other in S by exact DT.
      assert (Z : In u (flat_map kids L)) by (apply cnt_In; lia). apply in_flat_map in Z as (p & Ip & Iu).
      apply A1 in Ip as [_ Wp]. apply (within_trans E _ p); [|exact Wp]. apply within_kid; [exact (within_fin E _ _ F Wp)|exact Iu].
  - intros l I. apply A1. now apply inL.
Qed.
End Print.
