(** The cache of types: proofs. *)
From Coq Require Import ZArith List Bool Lia Arith.
From Verif Require Import Base Kind Ints Str Literal Arity Term TermProofs Match Eval ListOps Typing SpecTerm Build MonoProofs Cache SpecCache.
Import ListNotations.

Section Proofs.
Variable E : env.

Lemma answer_mono n m t r : (n <= m)%nat -> tc_type (tc E n) t = Ok r -> tc_type (tc E m) t = Ok r.
Proof. intros L. apply le_ok. now apply tc_mono. Qed.
Lemma answer_det t r r' : has_answer E t r -> has_answer E t r' -> r = r'.
Proof.
  intros [n H] [m H']. apply (answer_mono n (Nat.max n m)) in H; [|lia]. apply (answer_mono m (Nat.max n m)) in H'; [|lia]. congruence.
Qed.
Lemma assoc_in c t ty : assoc c t = Some ty -> In (t, ty) c.
Proof.
  induction c as [|[u uy] c IH]; [discriminate|]. cbn [assoc]. destruct (term_eqb u t) eqn:Q; intros H.
  - apply term_eqb_eq in Q. injection H as ->. subst u. now left.
  - right. auto.
Qed.
Lemma in_assoc c t ty : In (t, ty) c -> assoc c t <> None.
Proof.
  induction c as [|[u uy] c IH]; [intros []|]. cbn [assoc]. intros [H|H].
  - injection H as -> ->. rewrite (proj2 (term_eqb_eq _ _) eq_refl). discriminate.
  - destruct (term_eqb u t); [discriminate | auto].
Qed.
Lemma find_incl c c' t : incl c c' -> find E c t <> None -> find E c' t <> None.
Proof.
  intros I. unfold find. destruct t as [k i|l|k cs]; [auto| |].
  - destruct (assoc c (Lit l)) as [ty|] eqn:Q; [|intros H; now elim H]. intros _. apply assoc_in, I in Q. apply in_assoc in Q. now destruct (assoc c' (Lit l)).
  - destruct (assoc c (Node k cs)) as [ty|] eqn:Q; [|intros H; now elim H]. intros _. apply assoc_in, I in Q. apply in_assoc in Q. now destruct (assoc c' (Node k cs)).
Qed.
Lemma lookup_answer c t ty : good E c -> lookupType E c t = Some ty -> has_answer E t (Some ty).
Proof.
  intros H L. destruct t as [k i|l|k cs].
  - exists 1%nat. unfold lookupType, find in L. cbn. now rewrite L.
  - apply (gd_right E c H). apply assoc_in. unfold lookupType, find in L. now destruct (assoc c (Lit l)).
  - apply (gd_right E c H). apply assoc_in. unfold lookupType, find in L. now destruct (assoc c (Node k cs)).
Qed.
Lemma lookup_bound c : (forall t ty, In (t, ty) c -> has_answer E t (Some ty)) ->
  exists n, forall t ty, lookupType E c t = Some ty -> tc_type (tc E n) t = Ok (Some ty).
Proof.
  intros H. assert (B : exists n, forall t ty, In (t, ty) c -> tc_type (tc E n) t = Ok (Some ty)).
  { induction c as [|[u uy] c IH]; [exists O; intros t ty []|]. destruct IH as [n N]; [intros t ty I; apply H; now right|].
    destruct (H u uy (or_introl eq_refl)) as [m M]. exists (Nat.max n m). intros t ty [I|I].
    - injection I as <- <-. apply (answer_mono m); [lia | exact M].
    - apply (answer_mono n); [lia | auto]. }
  destruct B as [n B]. exists (S n). intros t ty L. destruct t as [k i|l|k cs].
  - unfold lookupType, find in L. cbn. now rewrite L.
  - apply (answer_mono n); [lia|]. apply B, assoc_in. unfold lookupType, find in L. now destruct (assoc c (Lit l)).
  - apply (answer_mono n); [lia|]. apply B, assoc_in. unfold lookupType, find in L. now destruct (assoc c (Node k cs)).
Qed.

(** ** The step *)
Definition passes (gt gt' : term -> res (option term)) (q : term) : Prop := forall te, gt q = Ok (Some te) -> gt' q = Ok (Some te).
Definition quote_pass (gt gt' : term -> res (option term)) (hts : list term) : Prop :=
  forall q qs, In (Node K_QUOTE_TYPE (q :: qs)) hts -> passes gt gt' q.
Lemma type_args_pass gt gt' hts : quote_pass gt gt' hts -> forall cs cts c v d,
  type_args gt hts cs cts c v = Ok (true, d) -> type_args gt' hts cs cts c v = Ok (true, d).
Proof.
  induction hts as [|h hts IH]; intros P cs cts c v d H; [exact H|].
  assert (P' : quote_pass gt gt' hts) by (intros q qs I; apply (P q qs); now right).
  destruct cs as [|x cs]; [exact H|]. destruct cts as [|ct cts]; [exact H|]. cbn [type_args] in H |- *.
  assert (D : (let* (ok, c', v') := matchv h ct c v in if ok : bool then type_args gt hts cs cts c' v' else Ok (false, c')) = Ok (true, d) ->
    (let* (ok, c', v') := matchv h ct c v in if ok : bool then type_args gt' hts cs cts c' v' else Ok (false, c')) = Ok (true, d)).
  { destruct (matchv h ct c v) as [[[ok c'] v']| | |]; cbn [bind]; try discriminate. destruct ok; [apply IH; exact P' | discriminate]. }
  destruct h as [k i|l|k qs]; [exact (D H) | exact (D H) |]. destruct k; try exact (D H). clear D.
  destruct qs as [|q qs]; [discriminate H|]. change (vec_at (q :: qs) 0) with (@Ok term q) in H |- *. cbn [bind] in H |- *.
  destruct (gt q) as [[te|]| | |] eqn:Q; cbn [bind] in H; try discriminate H. rewrite (P q qs (or_introl eq_refl) te Q). cbn [bind].
  destruct (term_eqb ct te); [|discriminate H].
  destruct (matchv q x c v) as [[[ok c'] v']| | |]; cbn [bind] in H |- *; try discriminate H. destruct ok; [|discriminate H]. now apply IH.
Qed.
Lemma in_removelast A (x : A) l : In x (removelast l) -> In x l.
Proof. induction l as [|y [|z l] IH]; [auto | intros [] |]. cbn [removelast]. intros [->|I]; [now left | right; apply IH; exact I]. Qed.
Lemma types_of_pass gt gt' cs : (forall x, In x cs -> passes gt gt' x) -> forall ts, types_of gt cs = Ok (Some ts) -> types_of gt' cs = Ok (Some ts).
Proof.
  induction cs as [|x cs IH]; intros P ts H; [exact H|]. cbn [types_of] in H |- *. destruct (types_of gt cs) as [[us|]| | |]; cbn [bind] in H; try discriminate H.
  rewrite (IH (fun y I => P y (or_intror I)) us eq_refl). cbn [bind]. destruct (gt x) as [[te|]| | |] eqn:Q; cbn [bind] in H; try discriminate H.
  rewrite (P x (or_introl eq_refl) te Q). exact H.
Qed.
Lemma internal_pass gt gt' evl t ts T :
  (forall h, vec_at ts 0 = Ok h -> quote_pass gt gt' (tchildren h)) ->
  (tkind t = K_LAMBDA -> forall vs, vec_at (tchildren t) 0 = Ok vs -> forall x, In x (tchildren vs) -> passes gt gt' x) ->
  getTypeInternal E gt evl t ts = Ok (Some T) -> getTypeInternal E gt' evl t ts = Ok (Some T).
Proof.
  intros P1 P2. unfold getTypeInternal. cbn zeta.
  assert (A : (let* (r, _) := getTypeAppInternal gt evl (tchildren t) ts in Ok r) = Ok (Some T) -> (let* (r, _) := getTypeAppInternal gt' evl (tchildren t) ts in Ok r) = Ok (Some T)).
  { unfold getTypeAppInternal. destruct (vec_at ts 0) as [h| | |]; cbn [bind]; try discriminate. specialize (P1 h eq_refl).
    assert (D : (let* (r, _) := (if negb (Nat.eqb (length (tchildren h)) (length (tchildren t))) then Ok (None, [])
        else let* (ok, c) := type_args gt (removelast (tchildren h)) (tl (tchildren t)) (tl ts) [] [] in
          if ok : bool then match tchildren h with [] => UB | _ => let* r := evl (last (tchildren h) t_Any) c in Ok (r, c) end else Ok (None, c)) in Ok r) = Ok (Some T) ->
       (let* (r, _) := (if negb (Nat.eqb (length (tchildren h)) (length (tchildren t))) then Ok (None, [])
        else let* (ok, c) := type_args gt' (removelast (tchildren h)) (tl (tchildren t)) (tl ts) [] [] in
          if ok : bool then match tchildren h with [] => UB | _ => let* r := evl (last (tchildren h) t_Any) c in Ok (r, c) end else Ok (None, c)) in Ok r) = Ok (Some T)).
    { destruct (negb _); [auto|]. destruct (type_args gt (removelast (tchildren h)) (tl (tchildren t)) (tl ts) [] []) as [[[] c]| | |] eqn:X; cbn [bind]; try discriminate.
      rewrite (type_args_pass gt gt' (removelast (tchildren h)) (fun q qs I => P1 q qs (in_removelast _ _ _ I)) _ _ _ _ _ X). auto. }
    destruct (tkind h); auto. }
  destruct (tkind t); auto.
  destruct (vec_at (tchildren t) 0) as [vs| | |]; cbn [bind]; auto. specialize (P2 eq_refl vs eq_refl).
  destruct (types_of gt (tchildren vs)) as [[us|]| | |] eqn:X; cbn [bind]; try discriminate. rewrite (types_of_pass _ _ _ P2 _ X). auto.
Qed.

Lemma lookups_spec c cs : forall ts, lookups E c cs = Ok ts <-> Forall2 (fun x ty => lookupType E c x = Some ty) cs ts.
Proof.
  induction cs as [|x cs IH]; intros ts; cbn [lookups].
  - split; intros H; [injection H as <-; constructor | inversion H; reflexivity].
  - split; intros H.
    + destruct (lookups E c cs) as [us| | |]; cbn [bind] in H; try discriminate H. destruct (lookupType E c x) as [ty|] eqn:L; [|discriminate H].
      injection H as <-. constructor; [exact L | now apply IH].
    + inversion H as [|x' ty cs' us L F]; subst. apply IH in F. rewrite F. cbn [bind]. now rewrite L.
Qed.
Lemma types_spec n cs : forall ts, types_of (tc_type (tc E n)) cs = Ok (Some ts) <-> Forall2 (fun x ty => tc_type (tc E n) x = Ok (Some ty)) cs ts.
Proof.
  induction cs as [|x cs IH]; intros ts; cbn [types_of].
  - split; intros H; [injection H as <-; constructor | inversion H; reflexivity].
  - split; intros H.
    + destruct (types_of (tc_type (tc E n)) cs) as [[us|]| | |]; cbn [bind] in H; try discriminate H. destruct (tc_type (tc E n) x) as [[ty|]| | |] eqn:L; cbn [bind] in H; try discriminate H.
      injection H as <-. constructor; [exact L | now apply IH].
    + inversion H as [|x' ty cs' us L F]; subst. apply IH in F. rewrite F. cbn [bind]. rewrite L. reflexivity.
Qed.
Lemma getType_compound n t : (forall k i, t <> Sym k i) -> tc_type (tc E (S n)) t =
  let* r := types_of (tc_type (tc E n)) (tchildren t) in
  match r with None => Ok None | Some ts => let* ty := getTypeInternal E (tc_type (tc E n)) (tc_eval (tc E n)) t ts in
    match ty with None => Ok None | Some ty => if isGround ty && isEvaluatable ty then Ok None else Ok (Some ty) end end.
Proof. intros H. destruct t as [k i| |]; [now elim (H k i) | reflexivity | reflexivity]. Qed.

Lemma looked_answer n c t ty : good E c -> (forall k i, t <> Sym k i) -> getTypeLooked E (tc_eval (tc E n)) c t = Ok (Some ty) ->
  isGround ty && isEvaluatable ty = false -> has_answer E t (Some ty).
Proof.
  intros HC NS H G. unfold getTypeLooked in H. destruct (lookups E c (tchildren t)) as [ts| | |] eqn:L; cbn [bind] in H; try discriminate H.
  destruct (lookup_bound c (gd_right E c HC)) as [m M]. pose (N := Nat.max n m).
  assert (M' : forall u uy, lookupType E c u = Some uy -> tc_type (tc E N) u = Ok (Some uy)) by (intros u uy X; apply (answer_mono m); [unfold N; lia | auto]).
  exists (S N). rewrite (getType_compound N t NS).
  assert (T : types_of (tc_type (tc E N)) (tchildren t) = Ok (Some ts)).
  { apply types_spec. apply lookups_spec in L. clear - L M'. induction L; constructor; auto. }
  rewrite T. cbn [bind].
  assert (I : getTypeInternal E (tc_type (tc E N)) (tc_eval (tc E N)) t ts = Ok (Some ty)).
  { assert (X : getTypeInternal E (tc_type (tc E N)) (tc_eval (tc E n)) t ts = Ok (Some ty)).
    { revert H. apply internal_pass.
      - intros h _ q qs _ te Q. apply M'. now injection Q as ->.
      - intros _ vs _ x _ te Q. apply M'. now injection Q as ->. }
    revert X. apply le_ok. apply typeInternal_mono; intros; [apply le_refl | apply tc_mono; unfold N; lia]. }
  rewrite I. cbn [bind]. now rewrite G.
Qed.
Lemma find_not_symbol c t : find E c t = None -> forall k i, t <> Sym k i.
Proof. intros H k i ->. discriminate H. Qed.
Lemma good_add nested c t ty : good_nested E nested -> good E c -> find E c t = None -> has_answer E t (Some ty) -> (forall u, In u (tchildren t) -> find E c u <> None) ->
  good E ((t, ty) :: nested c t) /\ incl c ((t, ty) :: nested c t).
Proof.
  intros HN HC F A CH. destruct (HN c t HC) as [[R C] I]. split; [|intros x X; right; now apply I].
  constructor.
  - intros u uy [X|X]; [injection X as <- <-; exact A | now apply R].
  - intros u uy [X|X] w W.
    + injection X as <- <-. apply (find_incl c); [intros y Y; right; now apply I | now apply CH].
    + apply (find_incl (nested c t)); [intros y Y; now right | exact (C u uy X w W)].
Qed.
Lemma looked_children evl c t r : getTypeLooked E evl c t = Ok r -> forall u, In u (tchildren t) -> find E c u <> None.
Proof.
  unfold getTypeLooked. destruct (lookups E c (tchildren t)) as [ts| | |] eqn:L; try discriminate. intros _ u I F.
  apply lookups_spec in L. induction L as [|x ty cs us X L IH]; [destruct I|]. destruct I as [->|I]; [|auto]. unfold lookupType in X. now rewrite F in X.
Qed.

(** ** Answers are right *)
Lemma loop_sound nested n t0 : good_nested E nested -> forall fuel c V stack ret r c', good E c ->
  last stack t0 = t0 -> (stack = [] -> forall ty, ret = Some ty -> has_answer E t0 (Some ty)) ->
  getType_loop E (tc_eval (tc E n)) nested fuel c V stack ret = Ok (r, c') ->
  good E c' /\ incl c c' /\ forall ty, r = Some ty -> has_answer E t0 (Some ty).
Proof.
  intros HN. induction fuel as [|fuel IH]; intros c V stack ret r c' HC LA RE H; [discriminate H|]. cbn [getType_loop] in H.
  destruct stack as [|cur rest]; [injection H as <- <-; split; [exact HC|]; split; [apply incl_refl | exact (RE eq_refl)]|].
  assert (LR : last rest t0 = t0) by (destruct rest; [reflexivity | exact LA]).
  assert (CU : rest = [] -> cur = t0) by (intros ->; exact LA).
  destruct (find E c cur) as [x|] eqn:F.
  - apply (IH c V rest x r c' HC LR); [|exact H]. intros Z ty ->. rewrite <- (CU Z). apply (lookup_answer c); [exact HC|]. unfold lookupType. now rewrite F.
  - destruct (negb (mem_term cur V)).
    + apply (IH c (cur :: V) (rev (tchildren cur) ++ cur :: rest) ret r c' HC); [|intros Z; now destruct (rev (tchildren cur))|exact H].
      clear - LA. induction (rev (tchildren cur)) as [|y ys IH]; [exact LA|]. cbn [app]. cbn [last]. destruct (ys ++ cur :: rest) eqn:X; [now destruct ys | exact IH].
    + destruct (getTypeLooked E (tc_eval (tc E n)) c cur) as [[ty|]| | |] eqn:L; cbn [bind] in H; try discriminate H.
      * destruct (isGround ty && isEvaluatable ty) eqn:G.
        { injection H as <- <-. destruct (HN c cur HC) as [G1 I1]. split; [exact G1|]. split; [exact I1 | discriminate]. }
        pose proof (looked_answer n c cur ty HC (find_not_symbol c cur F) L G) as A.
        destruct (good_add nested c cur ty HN HC F A (looked_children _ c cur _ L)) as [G1 I1].
        destruct (IH _ V rest (Some ty) r c' G1 LR) as (G2 & I2 & R2); [|exact H|].
        { intros Z ty' Q. injection Q as <-. now rewrite <- (CU Z). }
        split; [exact G2|]. split; [eapply incl_tran; eassumption | exact R2].
      * injection H as <- <-. destruct (HN c cur HC) as [G1 I1]. split; [exact G1|]. split; [exact I1 | discriminate].
Qed.
Lemma cached_sound nested n fuel c t r c' : good_nested E nested -> good E c -> getTypeCached E (tc_eval (tc E n)) nested fuel c t = Ok (r, c') ->
  good E c' /\ incl c c' /\ forall ty, r = Some ty -> has_answer E t (Some ty).
Proof. intros HN HC. apply (loop_sound nested n t HN); [exact HC | reflexivity | discriminate]. Qed.
Lemma good_nil : good E [].
Proof. constructor; intros t ty []. Qed.
Lemma arises_good c : arises E c -> good E c.
Proof.
  intros H. induction H as [|c nested n m t r c' _ IH HN X|c c' _ IH I D].
  - exact good_nil.
  - exact (proj1 (cached_sound nested n m c t r c' HN IH X)).
  - destruct IH as [R C]. constructor.
    + intros t ty X. exact (R t ty (I _ X)).
    + intros t ty X u U. exact (D t ty X u U (C t ty (I _ X) u U)).
Qed.

(** ** Answers are found *)
Lemma find_answer c t ty : good E c -> has_answer E t (Some ty) -> find E c t <> None -> find E c t = Some (Some ty).
Proof.
  intros HC A F. destruct (find E c t) as [[x|]|] eqn:X; [|exfalso|now elim F].
  - f_equal. apply (answer_det t); [|exact A]. apply (lookup_answer c); [exact HC|]. unfold lookupType. now rewrite X.
  - destruct t as [k i|l|k cs]; cbn [find] in X; [|now destruct (assoc c (Lit l)) | now destruct (assoc c (Node k cs))].
    destruct A as [[|m] A]; [discriminate A|]. cbn in A. injection X as X. congruence.
Qed.
Lemma lookup_of_find c t ty : find E c t = Some (Some ty) -> lookupType E c t = Some ty.
Proof. unfold lookupType. now intros ->. Qed.
Lemma looked_found m n c t ty : good E c -> (forall k i, t <> Sym k i) -> tc_type (tc E (S m)) t = Ok (Some ty) -> (m <= n)%nat ->
  (forall u, In u (tchildren t) -> find E c u <> None) -> quotes_symbols E t ->
  getTypeLooked E (tc_eval (tc E n)) c t = Ok (Some ty) /\ isGround ty && isEvaluatable ty = false.
Proof.
  intros HC NS H L CH QS. rewrite (getType_compound m t NS) in H.
  destruct (types_of (tc_type (tc E m)) (tchildren t)) as [[ts|]| | |] eqn:T; cbn [bind] in H; try discriminate H.
  destruct (getTypeInternal E (tc_type (tc E m)) (tc_eval (tc E m)) t ts) as [[ty'|]| | |] eqn:I; cbn [bind] in H; try discriminate H.
  destruct (isGround ty' && isEvaluatable ty') eqn:G; [discriminate H|]. injection H as ->. split; [|exact G].
  apply types_spec in T.
  assert (LK : lookups E c (tchildren t) = Ok ts).
  { apply lookups_spec. clear - HC T CH. induction T as [|x xy cs us X T IH]; constructor.
    - apply lookup_of_find. apply find_answer; [exact HC | now exists m | apply CH; now left].
    - apply IH. intros u U. apply CH. now right. }
  unfold getTypeLooked. rewrite LK. cbn [bind].
  assert (X : getTypeInternal E (fun u => Ok (lookupType E c u)) (tc_eval (tc E m)) t ts = Ok (Some ty)).
  { revert I. apply internal_pass.
    - intros h V q qs J te Q. f_equal. assert (O : exists x, In x (tchildren t) /\ tc_type (tc E m) x = Ok (Some h)).
      { destruct T as [|x xy cs us X T]; [discriminate V|]. injection V as ->. exists x. split; [now left | exact X]. }
      destruct O as (x & O & X). destruct (QS x h q qs) as (k & i & ->); [|now exists m | exact J |].
      + destruct t as [| |k cs]; [destruct O | destruct O|]. exact (occ_child x k cs x O (occ_here x)).
      + apply lookup_of_find. apply find_answer; [exact HC | now exists m | discriminate].
    - intros K vs V x J te Q. f_equal. apply lookup_of_find. apply find_answer; [exact HC | now exists m|].
      assert (I : In vs (tchildren t)) by (destruct (tchildren t) as [|y ys]; [discriminate V | injection V as ->; now left]).
      specialize (CH vs I). destruct vs as [k i|l|k cs]; [destruct J | destruct J|]. cbn [find] in CH.
      destruct (assoc c (Node k cs)) as [vy|] eqn:A; [|now elim CH]. exact (gd_closed E c HC _ _ (assoc_in _ _ _ A) x J). }
  revert X. apply le_ok. apply typeInternal_mono; intros; [apply le_refl | now apply tc_mono].
Qed.

Definition reaches (nested : cache -> term -> cache) (n : nat) (c : cache) (V us : list term) (last_ : option term -> option term) (c' : cache) (V' : list term) : Prop :=
  exists k, forall fuel rest ret, getType_loop E (tc_eval (tc E n)) nested (k + fuel) c V (us ++ rest) ret = getType_loop E (tc_eval (tc E n)) nested fuel c' V' rest (last_ ret).
Definition above (c : cache) (V : list term) (z : nat) : Prop := forall v, In v V -> find E c v = None -> (z < tsize v)%nat.
Definition visits (c : cache) (V V' : list term) : Prop := incl V V' /\ forall v, In v V' -> In v V \/ find E c v <> None.
Lemma above_later c c' V V' z : incl c c' -> above c V z -> visits c' V V' -> above c' V' z.
Proof.
  intros I A W v J F. destruct (proj2 W v J) as [J'|J']; [|contradiction]. apply (A v J'). destruct (find E c v) eqn:X; [|reflexivity].
  elim (find_incl c c' v I); [now rewrite X | exact F].
Qed.
Lemma visits_trans c1 c2 V V1 V2 : incl c1 c2 -> visits c1 V V1 -> visits c2 V1 V2 -> visits c2 V V2.
Proof. intros I [A1 A] [B1 B]. split; [eapply incl_tran; eassumption|]. intros v J. destruct (B v J) as [J'|J']; [|now right]. destruct (A v J') as [K|K]; [now left | right; now apply (find_incl c1)]. Qed.
Lemma mem_term_in t l : In t l -> mem_term t l = true.
Proof. induction l as [|u l IH]; [intros []|]. cbn [mem_term]. intros [->|I]; [now rewrite (proj2 (term_eqb_eq _ _) eq_refl) | now rewrite (IH I), orb_true_r]. Qed.
Lemma in_mem_term t l : mem_term t l = true -> In t l.
Proof. induction l as [|u l IH]; [discriminate|]. cbn [mem_term]. intros H. apply orb_prop in H. destruct H as [H|H]; [left; now apply term_eqb_eq | right; auto]. Qed.

Lemma loop_complete nested n : good_nested E nested -> forall z t, (tsize t <= z)%nat -> forall m ty, tc_type (tc E m) t = Ok (Some ty) -> (m <= n)%nat -> quotes_symbols E t ->
  forall c V, good E c -> above c V (tsize t) ->
  exists c' V', good E c' /\ incl c c' /\ find E c' t = Some (Some ty) /\ visits c' V V' /\ reaches nested n c V [t] (fun _ => Some ty) c' V'.
Proof.
  intros HN. induction z as [|z IH]; intros t Z m ty H L QS c V HC AB; [pose proof (tsize_pos t); lia|].
  destruct (find E c t) as [x|] eqn:F.
  { exists c, V. assert (X : find E c t = Some (Some ty)) by (apply find_answer; [exact HC | now exists m | now rewrite F]).
    split; [exact HC|]. split; [apply incl_refl|]. split; [exact X|]. split; [split; [apply incl_refl | intros v J; now left]|]. exists 1%nat. intros fuel rest ret.
    cbn [app plus getType_loop]. now rewrite X. }
  destruct m as [|m]; [discriminate H|]. pose proof (find_not_symbol c t F) as NS.
  assert (CT : forall x, In x (tchildren t) -> exists xy, tc_type (tc E m) x = Ok (Some xy)).
  { pose proof H as H'. rewrite (getType_compound m t NS) in H'. destruct (types_of (tc_type (tc E m)) (tchildren t)) as [[ts|]| | |] eqn:T; cbn [bind] in H'; try discriminate H'.
    apply types_spec in T. clear - T. intros x I. induction T as [|y yy ys us X T IH]; [destruct I|]. destruct I as [->|I]; [now exists yy | auto]. }
  assert (CS : forall us, incl us (tchildren t) -> forall c V, good E c -> above c V (tsizes (tchildren t)) ->
    exists c' V' g, good E c' /\ incl c c' /\ (forall u, In u us -> find E c' u <> None) /\ visits c' V V' /\ reaches nested n c V us g c' V').
  { induction us as [|u us IHu]; intros I c1 V1 HC1 AB1.
    - exists c1, V1, (fun r => r). split; [exact HC1|]. split; [apply incl_refl|]. split; [intros u []|]. split; [split; [apply incl_refl | intros v J; now left]|]. exists O. intros. reflexivity.
    - assert (Iu : In u (tchildren t)) by (apply I; now left). destruct (CT u Iu) as [uy U]. pose proof (tsize_child u t Iu) as SU.
      assert (QU : quotes_symbols E u).
      { intros w wy q qs O. apply (QS w wy q qs). destruct t as [| |k cs]; [destruct Iu | destruct Iu|]. exact (occ_child w k cs u Iu O). }
      assert (SC : (tsize u <= tsizes (tchildren t))%nat) by now apply tsizes_In.
      destruct (IH u ltac:(lia) m uy U ltac:(lia) QU c1 V1 HC1) as (c2 & V2 & G2 & I2 & F2 & W2 & (k2 & R2)).
      { intros v J Q. specialize (AB1 v J Q). lia. }
      destruct (IHu (fun y Y => I y (or_intror Y)) c2 V2 G2 (above_later _ _ _ _ _ I2 AB1 W2)) as (c3 & V3 & g & G3 & I3 & F3 & W3 & (k3 & R3)).
      exists c3, V3, (fun _ => g (Some uy)). split; [exact G3|]. split; [eapply incl_tran; eassumption|]. split.
      { intros y [<-|Y]; [apply (find_incl c2); [exact I3 | now rewrite F2] | auto]. }
      split; [exact (visits_trans _ _ _ _ _ I3 W2 W3)|]. exists (k2 + k3)%nat. intros fuel rest ret. cbn [app].
      rewrite <- Nat.add_assoc. specialize (R2 (k3 + fuel)%nat (us ++ rest) ret). cbn [app] in R2. rewrite R2. apply R3. }
  assert (NV : mem_term t V = false).
  { destruct (mem_term t V) eqn:M; [|reflexivity]. apply in_mem_term in M. specialize (AB t M F). lia. }
  destruct (CS (rev (tchildren t)) (fun y Y => proj2 (in_rev _ _) Y) c (t :: V) HC) as (c1 & V1 & g & G1 & I1 & F1 & W1 & (k1 & R1)).
  { pose proof (tsize_children t) as SZ. intros v [<-|J] Q; [exact SZ | specialize (AB v J Q); lia]. }
  assert (CH : forall u, In u (tchildren t) -> find E c1 u <> None) by (intros u U; apply F1; now apply in_rev in U).
  destruct (find E c1 t) as [x|] eqn:Ft.
  { assert (X : find E c1 t = Some (Some ty)) by (apply find_answer; [exact G1 | now exists (S m) | now rewrite Ft]).
    exists c1, V1. split; [exact G1|]. split; [exact I1|]. split; [exact X|]. split.
    - split; [intros v J; apply (proj1 W1); now right|]. intros v J. destruct (proj2 W1 v J) as [[<-|K]|K]; [right; now rewrite X | now left | now right].
    - exists (S (k1 + 1)). intros fuel rest ret. cbn [app plus getType_loop]. rewrite F, NV. cbn [negb]. rewrite <- Nat.add_assoc, R1. cbn [plus getType_loop]. now rewrite X. }
  destruct (looked_found m n c1 t ty G1 NS H ltac:(lia) CH QS) as [LK GE].
  destruct (good_add nested c1 t ty HN G1 Ft (ex_intro _ (S m) H) CH) as [G2 I2].
  assert (X2 : find E ((t, ty) :: nested c1 t) t = Some (Some ty)) by (apply find_answer; [exact G2 | now exists (S m)|]; destruct t; [discriminate|..]; cbn [find assoc]; rewrite (proj2 (term_eqb_eq _ _) eq_refl); discriminate).
  exists ((t, ty) :: nested c1 t), V1. split; [exact G2|]. split; [eapply incl_tran; eassumption|]. split; [exact X2|]. split.
  - split; [intros v J; apply (proj1 W1); now right|]. intros v J. destruct (proj2 W1 v J) as [[<-|K]|K]; [right; now rewrite X2 | now left | right; now apply (find_incl c1)].
  - exists (S (k1 + 1)). intros fuel rest ret. cbn [app plus getType_loop]. rewrite F, NV. cbn [negb]. rewrite <- Nat.add_assoc, R1. cbn [plus getType_loop]. rewrite Ft.
    assert (MV : mem_term t V1 = true) by (apply mem_term_in, (proj1 W1); now left).
    rewrite MV. cbn [negb]. rewrite LK. cbn [bind]. now rewrite GE.
Qed.
End Proofs.
Lemma cached_complete E nested t ty c : good_nested E nested -> good E c -> has_answer E t (Some ty) -> quotes_symbols E t ->
  exists n, forall m, (n <= m)%nat -> exists k c', forall j, getTypeCached E (tc_eval (tc E m)) nested (k + j) c t = Ok (Some ty, c').
Proof.
  intros HN HC [n A] Q. exists n. intros m L. destruct (loop_complete E nested m HN (tsize t) t (le_n _) n ty A L Q c [] HC) as (c' & V' & _ & _ & _ & _ & (k & R)); [intros v []|].
  exists (k + 1)%nat, c'. intros j. unfold getTypeCached. rewrite <- Nat.add_assoc. specialize (R (1 + j)%nat [] None). cbn [app] in R. rewrite R. reflexivity.
Qed.
