(** Proofs about the term store. *)
From Coq Require Import ZArith List Bool Lia Arith.
From Verif Require Import Base Kind Ints Str Literal LiteralProofs2 Term TermProofs Store SpecStore.
Import ListNotations.
Open Scope Z_scope.

(** * Tries *)
Lemma ch_find_set_same : forall ch e t, ch_find (ch_set ch e t) e = Some t.
Proof.
  induction ch as [|[e' t'] ch IH]; intros e t; cbn; [rewrite Nat.eqb_refl; reflexivity|].
  destruct (Nat.eqb_spec e' e) as [->|N]; cbn.
  - rewrite Nat.eqb_refl. reflexivity.
  - destruct (Nat.eqb_spec e' e); [contradiction|]. apply IH.
Qed.
Lemma ch_find_set_other : forall ch e f t, e <> f -> ch_find (ch_set ch e t) f = ch_find ch f.
Proof.
  induction ch as [|[e' t'] ch IH]; intros e f t N; cbn.
  - destruct (Nat.eqb_spec e f); [contradiction|reflexivity].
  - destruct (Nat.eqb_spec e' e) as [->|N']; cbn.
    + destruct (Nat.eqb_spec e f); [contradiction|reflexivity].
    + destruct (Nat.eqb_spec e' f); [reflexivity|]. apply IH. exact N.
Qed.
Lemma ch_find_erase_same : forall ch e, ch_find (ch_erase ch e) e = None.
Proof.
  induction ch as [|[e' t'] ch IH]; intros e; cbn; [reflexivity|].
  destruct (Nat.eqb_spec e' e) as [->|N]; cbn; [apply IH|].
  destruct (Nat.eqb_spec e' e); [contradiction|]. apply IH.
Qed.
Lemma ch_find_erase_other : forall ch e f, e <> f -> ch_find (ch_erase ch e) f = ch_find ch f.
Proof.
  induction ch as [|[e' t'] ch IH]; intros e f N; cbn; [reflexivity|].
  destruct (Nat.eqb_spec e' e) as [->|N']; cbn.
  - destruct (Nat.eqb_spec e f); [contradiction|]. apply IH. exact N.
  - destruct (Nat.eqb_spec e' f); [reflexivity|]. apply IH. exact N.
Qed.

Lemma lookup_empty : forall q, trie_lookup t_empty q = None.
Proof. intros [|e q]; reflexivity. Qed.
Lemma lookup_set_same : forall p t d, trie_lookup (trie_set t p d) p = d.
Proof.
  induction p as [|e p IH]; intros [d0 ch] d; cbn; [reflexivity|]. rewrite ch_find_set_same. apply IH.
Qed.
Lemma lookup_set_other : forall p q t d, p <> q -> trie_lookup (trie_set t p d) q = trie_lookup t q.
Proof.
  induction p as [|e p IH]; intros [|f q] [d0 ch] d N; cbn; try reflexivity; [contradiction|].
  destruct (Nat.eq_dec e f) as [->|Nf].
  - rewrite ch_find_set_same. rewrite IH by congruence. destruct (ch_find ch f); [reflexivity|apply lookup_empty].
  - rewrite ch_find_set_other by exact Nf. reflexivity.
Qed.

Lemma lookup_node_at : forall p t, trie_lookup t p = match node_at t p with Some u => t_data u | None => None end.
Proof. induction p as [|e p IH]; intro t; cbn; [reflexivity|]. destruct (ch_find (t_ch t) e); [apply IH|reflexivity]. Qed.

Lemma walk_ok : forall p t depth etd,
  (exists r, remove_walk t p depth etd = Ok r) <-> (exists u, node_at t p = Some u).
Proof.
  induction p as [|e p IH]; intros t depth etd; cbn.
  - split; intros _; eexists; reflexivity.
  - destruct (ch_find (t_ch t) e) as [t'|]; [apply IH|]. split; intros (x & H); discriminate.
Qed.
Lemma walk_or_UB : forall p t depth etd, (exists r, remove_walk t p depth etd = Ok r) \/ remove_walk t p depth etd = UB.
Proof.
  induction p as [|e p IH]; intros t depth etd; cbn; [left; eexists; reflexivity|].
  destruct (ch_find (t_ch t) e) as [t'|]; [apply IH|right; reflexivity].
Qed.

(** The node from which the loop cuts off. *)
Lemma walk_last : forall p e t depth etd u, node_at t p = Some u ->
  forall r, remove_walk t (p ++ [e]) depth etd = Ok r -> (r = None <-> (1 < length (t_ch u))%nat).
Proof.
  induction p as [|f p IH]; intros e t depth etd u Hu r Hr; cbn [node_at app remove_walk] in Hu, Hr.
  - injection Hu as <-. destruct (ch_find (t_ch t) e) as [t'|]; [|discriminate]. injection Hr as <-.
    destruct (Nat.ltb_spec 1 (length (t_ch t))) as [L|L]; [split; [intros _; exact L|reflexivity]|].
    split; [destruct etd; discriminate|lia].
  - destruct (ch_find (t_ch t) f) as [t'|]; [|discriminate]. exact (IH e t' _ _ u Hu r Hr).
Qed.
Lemma walk_depth : forall p t depth etd r, remove_walk t p depth etd = Ok (Some r) ->
  (forall d, etd = Some d -> (d < depth)%nat) -> (r < depth + length p)%nat.
Proof.
  induction p as [|e p IH]; intros t depth etd r H Hd; cbn [remove_walk] in H.
  - injection H as ->. specialize (Hd r eq_refl). cbn. lia.
  - destruct (ch_find (t_ch t) e) as [t'|]; [|discriminate].
    apply IH in H; [cbn [length]; lia|].
    intros d. destruct (1 <? length (t_ch t))%nat; [discriminate|]. destruct etd as [d'|]; intro E.
    + specialize (Hd d E). lia.
    + injection E as <-. lia.
Qed.

Lemma prefix_cons : forall e p f q, prefix (e :: p) (f :: q) <-> e = f /\ prefix p q.
Proof.
  intros e p f q. split.
  - intros (r & H). injection H as -> ->. split; [reflexivity|exists r; reflexivity].
  - intros (-> & r & ->). exists r. reflexivity.
Qed.
Lemma cut_lost : forall p d t q, (d < length p)%nat -> (exists u, node_at t p = Some u) ->
  prefix (firstn (S d) p) q -> trie_lookup (trie_cut t p d) q = None.
Proof.
  induction p as [|e p IH]; intros d t q Hd (u & Hu) Hq; [cbn in Hd; lia|].
  destruct q as [|f q]; [destruct Hq as (r & Hr); discriminate|].
  cbn [firstn] in Hq. apply prefix_cons in Hq. destruct Hq as [<- Hq].
  cbn [node_at] in Hu. destruct d as [|d]; cbn [trie_cut trie_lookup t_ch].
  - rewrite ch_find_erase_same. reflexivity.
  - destruct (ch_find (t_ch t) e) as [t'|] eqn:Ef; [|discriminate]. cbn [t_ch]. rewrite ch_find_set_same.
    apply IH; [cbn in Hd; lia|eexists; exact Hu|exact Hq].
Qed.
Lemma cut_kept : forall p d t q, (d < length p)%nat -> (exists u, node_at t p = Some u) ->
  ~ prefix (firstn (S d) p) q -> trie_lookup (trie_cut t p d) q = trie_lookup t q.
Proof.
  induction p as [|e p IH]; intros d t q Hd (u & Hu) Hq; [cbn in Hd; lia|].
  cbn [node_at] in Hu. destruct (ch_find (t_ch t) e) as [t'|] eqn:Ef; [|discriminate].
  destruct q as [|f q]; [destruct d; cbn [trie_cut]; [reflexivity|rewrite Ef; reflexivity]|].
  cbn [firstn] in Hq. rewrite prefix_cons in Hq. destruct d as [|d]; cbn [trie_cut trie_lookup t_ch].
  - destruct (Nat.eq_dec e f) as [->|N]; [|rewrite ch_find_erase_other by exact N; reflexivity].
    exfalso. apply Hq. split; [reflexivity|exists q; reflexivity].
  - rewrite Ef. cbn [t_ch]. destruct (Nat.eq_dec e f) as [->|N]; [|rewrite ch_find_set_other by exact N; reflexivity].
    rewrite ch_find_set_same, Ef. apply IH; [cbn in Hd; lia|eexists; exact Hu|]. intro X. apply Hq. split; [reflexivity|exact X].
Qed.

(** * Lists and counts *)
Definition cnt (a : nat) (l : list nat) : Z := Z.of_nat (count_occ Nat.eq_dec l a).
Lemma cnt_app : forall a l1 l2, cnt a (l1 ++ l2) = cnt a l1 + cnt a l2.
Proof. intros. unfold cnt. rewrite count_occ_app. lia. Qed.
Lemma cnt_cons : forall a x l, cnt a (x :: l) = (if Nat.eq_dec x a then 1 else 0) + cnt a l.
Proof. intros. unfold cnt. cbn [count_occ]. destruct (Nat.eq_dec x a); lia. Qed.
Lemma cnt_nonneg : forall a l, 0 <= cnt a l.
Proof. intros. unfold cnt. lia. Qed.
Lemma cnt_zero : forall a l, cnt a l = 0 <-> ~ In a l.
Proof.
  intros. unfold cnt. rewrite (count_occ_not_In Nat.eq_dec). lia.
Qed.
Lemma cnt_remove_one : forall a x l, In x l -> cnt a (remove_one x l) = cnt a l - (if Nat.eq_dec x a then 1 else 0).
Proof.
  intros a x l. induction l as [|y l IH]; intros H; [destruct H|]. cbn [remove_one].
  destruct (Nat.eqb_spec y x) as [->|N].
  - rewrite cnt_cons. lia.
  - destruct H as [->|H]; [contradiction|]. rewrite !cnt_cons, IH by exact H. lia.
Qed.
Lemma In_remove_one : forall a x l, In a (remove_one x l) -> In a l.
Proof.
  intros a x l. induction l as [|y l IH]; intros H; [destruct H|]. cbn [remove_one] in H.
  destruct (Nat.eqb y x); [right; exact H|]. destruct H as [->|H]; [left; reflexivity|right; apply IH; exact H].
Qed.

Lemma upd_length : forall (A : Type) (l : list A) i f, length (upd l i f) = length l.
Proof. intros A l. induction l as [|x l IH]; intros [|i] f; cbn; try reflexivity. rewrite IH. reflexivity. Qed.
Lemma nth_upd : forall (l : list Z) i f a, nth a (upd l i f) 0 =
  if Nat.eq_dec i a then (if (a <? length l)%nat then f (nth a l 0) else 0) else nth a l 0.
Proof.
  induction l as [|x l IH]; intros i f a.
  - cbn. destruct (Nat.eq_dec i a), a; reflexivity.
  - destruct i as [|i], a as [|a]; try reflexivity. cbn [upd nth].
    rewrite IH. destruct (Nat.eq_dec i a), (Nat.eq_dec (S i) (S a)); try lia; reflexivity.
Qed.
Lemma fold_inc_length : forall cs rc, length (fold_left (fun rc c => inc c rc) cs rc) = length rc.
Proof. induction cs as [|c cs IH]; intro rc; cbn; [reflexivity|]. rewrite IH. apply upd_length. Qed.
Lemma nth_inc : forall rc c a, (c < length rc)%nat -> nth a (inc c rc) 0 = nth a rc 0 + (if Nat.eq_dec c a then 1 else 0).
Proof.
  intros rc c a H. unfold inc. rewrite nth_upd. destruct (Nat.eq_dec c a) as [->|]; [|lia].
  destruct (Nat.ltb_spec a (length rc)); [reflexivity|lia].
Qed.
Lemma nth_fold_inc : forall cs rc a, Forall (fun c => (c < length rc)%nat) cs ->
  nth a (fold_left (fun rc c => inc c rc) cs rc) 0 = nth a rc 0 + cnt a cs.
Proof.
  induction cs as [|c cs IH]; intros rc a H; cbn [fold_left]; [unfold cnt; cbn; lia|].
  inversion H as [|? ? H1 H2]; subst. rewrite IH.
  - rewrite nth_inc, cnt_cons by exact H1. lia.
  - eapply Forall_impl; [|exact H2]. cbn. intros b Hb. unfold inc. rewrite upd_length. exact Hb.
Qed.

(** * The terms at the addresses *)
Lemma terms_of_snoc : forall ns n, terms_of (ns ++ [n]) = terms_of ns ++ [node_term (terms_of ns) n].
Proof. intros. unfold terms_of. rewrite fold_left_app. reflexivity. Qed.
Lemma terms_of_length : forall ns, length (terms_of ns) = length ns.
Proof.
  intro ns. induction ns as [|n ns IH] using rev_ind; [reflexivity|]. rewrite terms_of_snoc, !app_length, IH. reflexivity.
Qed.
Definition tdef := Node K_NONE [].
Definition ordered (ns : list node) : Prop :=
  forall a k cs, nth_error ns a = Some (NApp k cs) -> Forall (fun c => (c < a)%nat) cs.
Lemma ordered_app : forall ns n, ordered (ns ++ [n]) -> ordered ns.
Proof.
  intros ns n H a k cs Ha. apply (H a k cs). rewrite nth_error_app1; [exact Ha|].
  apply nth_error_Some. congruence.
Qed.
Lemma terms_of_nth : forall ns a n, ordered ns -> nth_error ns a = Some n ->
  nth a (terms_of ns) tdef =
  match n with
  | NSym k => Sym k (Z.of_nat a)
  | NLit l => Lit l
  | NApp k cs => Node k (map (fun c => nth c (terms_of ns) tdef) cs)
  end.
Proof.
  intro ns. induction ns as [|m ns IH] using rev_ind; intros a n O Ha; [destruct a; discriminate|].
  rewrite terms_of_snoc. pose proof (terms_of_length ns) as TL.
  destruct (Nat.lt_ge_cases a (length ns)) as [L|L].
  - assert (Ha' : nth_error ns a = Some n) by (rewrite nth_error_app1 in Ha by exact L; exact Ha).
    rewrite app_nth1 by lia. rewrite (IH a n (ordered_app _ _ O) Ha').
    destruct n as [k|l|k cs]; try reflexivity. f_equal. apply map_ext_in. intros c Hc.
    specialize (O a k cs Ha). rewrite Forall_forall in O. specialize (O c Hc). rewrite app_nth1 by lia. reflexivity.
  - assert (a = length ns) as ->.
    { assert (a < length (ns ++ [m]))%nat by (apply nth_error_Some; congruence). rewrite app_length in *. cbn in *. lia. }
    rewrite nth_error_app2, Nat.sub_diag in Ha by lia. injection Ha as ->.
    rewrite app_nth2, TL, Nat.sub_diag by lia. cbn [nth].
    destruct n as [k|l|k cs]; cbn [node_term]; [rewrite TL; reflexivity|reflexivity|]. f_equal. apply map_ext_in. intros c Hc.
    assert (Hn : nth_error (ns ++ [NApp k cs]) (length ns) = Some (NApp k cs)) by (rewrite nth_error_app2, Nat.sub_diag by lia; reflexivity).
    specialize (O _ k cs Hn). rewrite Forall_forall in O. specialize (O c Hc). rewrite app_nth1 by lia. reflexivity.
Qed.

(** * The invariant *)
Definition all_refs (s : store) : list nat :=
  s_held s ++ flat_map node_children (s_nodes s) ++ map snd (s_lits s) ++ map snd (s_vars s).
Record sinv (s : store) : Prop := {
  i_len : length (s_rc s) = length (s_nodes s);
  i_order : ordered (s_nodes s);
  i_kinds : forall a n, nth_error (s_nodes s) a = Some n ->
    match n with NSym k => isSymbol k = true | NApp k _ => isSymbol k = false | NLit _ => True end;
  i_sound : forall k cs a,
    trie_lookup (s_trie s k) cs = Some a -> nth_error (s_nodes s) a = Some (NApp k cs) /\ ~ In a (s_dead s);
  i_complete : s_bad s = false -> forall k cs a,
    nth_error (s_nodes s) a = Some (NApp k cs) -> ~ In a (s_dead s) -> trie_lookup (s_trie s k) cs = Some a;
  i_lits : forall l a, lits_find (s_lits s) l = Some a <-> nth_error (s_nodes s) a = Some (NLit l);
  i_rc : forall a, nth a (s_rc s) 0 = cnt a (all_refs s);
  i_range : Forall (fun a => (a < length (s_nodes s))%nat) (all_refs s);
  i_dead : forall a, In a (s_dead s) -> (a < length (s_nodes s))%nat /\ ~ In a (all_refs s);
  i_hash : forall a h, hash_find (s_hash s) a = Some h -> 1 <= h <= s_count s;
  i_hash_inj : forall a b h, hash_find (s_hash s) a = Some h -> hash_find (s_hash s) b = Some h -> a = b;
  i_count : 0 <= s_count s;
  i_lits_in : forall l a, In (l, a) (s_lits s) -> nth_error (s_nodes s) a = Some (NLit l);
  i_vars_in : forall name ty a, In (name, ty, a) (s_vars s) -> nth_error (s_nodes s) a = Some (NSym K_VARIABLE);
  i_vars : forall name ty a, vars_find (s_vars s) name ty = Some a -> nth_error (s_nodes s) a = Some (NSym K_VARIABLE);
  i_vars_inj : forall n1 t1 n2 t2 a, vars_find (s_vars s) n1 t1 = Some a -> vars_find (s_vars s) n2 t2 = Some a ->
    n1 = n2 /\ t1 = t2 }.

Lemma lits_find_In : forall m l a, lits_find m l = Some a -> In a (map snd m).
Proof.
  induction m as [|[l' b] m IH]; intros l a H; [discriminate|]. cbn in H |- *.
  destruct (lit_eqb l' l); [injection H as <-; left; reflexivity|right; exact (IH l a H)].
Qed.
Lemma vars_find_In : forall m n t a, vars_find m n t = Some a -> In a (map snd m).
Proof.
  induction m as [|[[n' t'] b] m IH]; intros n t a H; [discriminate|]. cbn in H |- *.
  destruct (text_eqb n' n && Nat.eqb t' t); [injection H as <-; left; reflexivity|right; exact (IH n t a H)].
Qed.

Lemma live_iff : forall s a, live s a = true <-> (a < length (s_nodes s))%nat /\ ~ In a (s_dead s).
Proof.
  intros s a. unfold live. rewrite andb_true_iff, negb_true_iff, Nat.ltb_lt.
  assert (E : existsb (Nat.eqb a) (s_dead s) = false <-> ~ In a (s_dead s)).
  { rewrite <- not_true_iff_false, existsb_exists. split; intros H X; apply H.
    - exists a. split; [exact X|apply Nat.eqb_refl].
    - destruct X as (x & Hx & Ex). apply Nat.eqb_eq in Ex. subst. exact Hx. }
  rewrite E. reflexivity.
Qed.

Lemma sinv_init : sinv store_init.
Proof.
  constructor; cbn.
  - reflexivity.
  - intros [|[|a]] k cs H; try discriminate. destruct a; discriminate.
  - intros [|[|a]] n H; try (injection H as <-; exact I). destruct a; discriminate.
  - intros k cs a. rewrite lookup_empty. discriminate.
  - intros _ k cs a H. destruct a as [|[|[|a]]]; discriminate.
  - intros l a. destruct l as [[|]| | | | | |]; cbn; split; intro H;
      try discriminate; try (injection H as <-; reflexivity);
      destruct a as [|[|[|a]]]; try discriminate; reflexivity.
  - intros [|[|[|a]]]; reflexivity.
  - repeat constructor.
  - intros a [].
  - discriminate.
  - discriminate.
  - lia.
  - intros l a [E|[E|[]]]; injection E as <- <-; reflexivity.
  - intros name ty a [].
  - discriminate.
  - discriminate.
Qed.

Lemma refs_live : forall s a, sinv s -> In a (all_refs s) -> live s a = true.
Proof.
  intros s a H Ha. apply live_iff. split.
  - pose proof (i_range s H) as R. rewrite Forall_forall in R. exact (R a Ha).
  - intro D. exact (proj2 (i_dead s H a D) Ha).
Qed.

(** [s'] has more objects than [s], and none of those of [s] was freed. *)
Definition extends (s s' : store) : Prop :=
  (exists ns, s_nodes s' = s_nodes s ++ ns) /\ (forall a, In a (s_dead s) -> In a (s_dead s')).
Lemma extends_refl : forall s, extends s s.
Proof. intro s. split; [exists []; rewrite app_nil_r; reflexivity|auto]. Qed.
Lemma extends_trans : forall s1 s2 s3, extends s1 s2 -> extends s2 s3 -> extends s1 s3.
Proof.
  intros s1 s2 s3 [(n1 & E1) D1] [(n2 & E2) D2]. split; [exists (n1 ++ n2); rewrite E2, E1, app_assoc; reflexivity|auto].
Qed.
Lemma extends_nth : forall s s' a n, extends s s' -> nth_error (s_nodes s) a = Some n -> nth_error (s_nodes s') a = Some n.
Proof. intros s s' a n [(ns & ->) _] H. rewrite nth_error_app1; [exact H|]. apply nth_error_Some. congruence. Qed.

Lemma handle_ok : forall s a, sinv s -> live s a = true -> sinv (handle s a).
Proof.
  intros s a H L. apply live_iff in L. destruct L as [L D].
  assert (AR : all_refs (handle s a) = a :: all_refs s) by reflexivity.
  destruct H. constructor; rewrite ?AR; cbn [handle s_nodes s_rc s_dead s_trie s_lits s_hash s_count s_vars s_held s_bad]; auto.
  - unfold inc. rewrite upd_length. exact i_len0.
  - intro b. rewrite nth_inc by lia. rewrite i_rc0, cnt_cons. lia.
  - intros b Hb. destruct (i_dead0 b Hb) as [R1 R2]. split; [exact R1|]. intros [<-|X]; [contradiction|exact (R2 X)].
Qed.

Lemma nth_error_snoc : forall (A : Type) (l : list A) x a y,
  nth_error (l ++ [x]) a = Some y <-> (a < length l)%nat /\ nth_error l a = Some y \/ a = length l /\ x = y.
Proof.
  intros A l x a y. destruct (Nat.lt_ge_cases a (length l)) as [L|L].
  - rewrite nth_error_app1 by exact L. split; [auto|]. intros [[_ H]|[-> _]]; [exact H|lia].
  - rewrite nth_error_app2 by exact L. destruct (a - length l)%nat as [|d] eqn:Ed.
    + cbn. split; [intro H; injection H as ->; right; split; [lia|reflexivity]|]. intros [[H _]|[_ ->]]; [lia|reflexivity].
    + cbn. split; [destruct d; discriminate|]. intros [[H _]|[-> _]]; [lia|lia].
Qed.
Lemma nth_snoc0 : forall l z a, nth a (l ++ [z]) 0 = nth a l 0 + (if Nat.eq_dec a (length l) then z else 0).
Proof.
  intros l z a. destruct (Nat.lt_ge_cases a (length l)) as [L|L].
  - rewrite app_nth1 by exact L. destruct (Nat.eq_dec a (length l)); lia.
  - rewrite app_nth2 by exact L. rewrite (nth_overflow l) by exact L. destruct (Nat.eq_dec a (length l)) as [->|N].
    + rewrite Nat.sub_diag. reflexivity.
    + destruct (a - length l)%nat as [|[|d]] eqn:Ed; [lia|reflexivity|reflexivity].
Qed.

Definition same_rest (s s' : store) : Prop :=
  s_dead s' = s_dead s /\ s_bad s' = s_bad s /\ s_hash s' = s_hash s /\ s_count s' = s_count s /\ s_held s' = s_held s.
Lemma same_rest_trans : forall s1 s2 s3, same_rest s1 s2 -> same_rest s2 s3 -> same_rest s1 s3.
Proof. unfold same_rest. intros s1 s2 s3 H1 H2. intuition congruence. Qed.

Lemma mkExprInternal_ok : forall s k cs, sinv s -> forallb (live s) cs = true -> isSymbol k = false ->
  let '(s', a) := mkExprInternal s k cs in
  sinv s' /\ live s' a = true /\ extends s s' /\ same_rest s s' /\ s_vars s' = s_vars s /\
  nth_error (s_nodes s') a = Some (NApp k cs).
Proof.
  intros s k cs H L K. unfold mkExprInternal. destruct (trie_lookup (s_trie s k) cs) as [a|] eqn:El.
  - destruct (i_sound s H k cs a El) as [Ha Hd]. split; [exact H|]. split.
    { apply live_iff. split; [apply nth_error_Some; congruence|exact Hd]. }
    split; [apply extends_refl|]. split; [repeat split|]. split; [reflexivity|exact Ha].
  - set (s' := mkStore _ _ _ _ _ _ _ _ _ _).
    assert (R : Forall (fun c => (c < length (s_nodes s))%nat /\ ~ In c (s_dead s)) cs).
    { apply Forall_forall. intros c Hc. rewrite forallb_forall in L. apply live_iff. exact (L c Hc). }
    assert (ND : ~ In (length (s_nodes s)) (s_dead s)) by (intro D; destruct (i_dead s H _ D); lia).
    assert (AR : forall x, cnt x (all_refs s') = cnt x (all_refs s) + cnt x cs).
    { intro x. unfold all_refs, s'. cbn [s_held s_nodes s_lits s_vars]. rewrite flat_map_app. cbn [flat_map node_children].
      rewrite app_nil_r, !cnt_app. lia. }
    assert (IR : forall x, In x (all_refs s') -> In x (all_refs s) \/ In x cs).
    { intros x Hx. unfold all_refs, s' in Hx. cbn [s_held s_nodes s_lits s_vars] in Hx. rewrite flat_map_app in Hx. cbn [flat_map node_children] in Hx.
      unfold all_refs. rewrite app_nil_r in Hx. rewrite !in_app_iff in *. tauto. }
    split; [|split; [|split; [|split; [repeat split|split; [reflexivity|]]]]].
    + destruct H. constructor; cbn [s' s_nodes s_rc s_dead s_trie s_lits s_hash s_count s_vars s_held s_bad]; auto.
      * rewrite !app_length, fold_inc_length, i_len0. reflexivity.
      * intros a k0 cs0 Ha. apply nth_error_snoc in Ha. destruct Ha as [[La Ha]|[-> Ha]]; [exact (i_order0 a k0 cs0 Ha)|].
        injection Ha as <- <-. eapply Forall_impl; [|exact R]. cbn. tauto.
      * intros a n Ha. apply nth_error_snoc in Ha. destruct Ha as [[La Ha]|[-> <-]]; [exact (i_kinds0 a n Ha)|exact K].
      * intros k0 cs0 a. destruct (kind_eqb k0 k) eqn:Ek.
        -- apply kind_eqb_eq in Ek. subst k0. destruct (list_eq_dec Nat.eq_dec cs cs0) as [<-|Nc].
           ++ rewrite lookup_set_same. intro X. injection X as <-. split; [apply nth_error_snoc; right; auto|exact ND].
           ++ rewrite lookup_set_other by exact Nc. intro X. destruct (i_sound0 _ _ _ X) as [X1 X2]. split; [|exact X2].
              apply nth_error_snoc. left. split; [apply nth_error_Some; congruence|exact X1].
        -- intro X. destruct (i_sound0 _ _ _ X) as [X1 X2]. split; [|exact X2].
           apply nth_error_snoc. left. split; [apply nth_error_Some; congruence|exact X1].
      * intros Hb k0 cs0 a Ha Hd. apply nth_error_snoc in Ha. destruct Ha as [[La Ha]|[-> Ha]].
        -- destruct (kind_eqb k0 k) eqn:Ek; [|exact (i_complete0 Hb k0 cs0 a Ha Hd)].
           apply kind_eqb_eq in Ek. subst k0. rewrite lookup_set_other; [exact (i_complete0 Hb k cs0 a Ha Hd)|].
           intros <-. rewrite (i_complete0 Hb k cs a Ha Hd) in El. discriminate.
        -- injection Ha as <- <-. rewrite (proj2 (kind_eqb_eq k k) eq_refl). apply lookup_set_same.
      * intros l a. rewrite i_lits0. rewrite nth_error_snoc. split.
        -- intro X. left. split; [apply nth_error_Some; congruence|exact X].
        -- intros [[_ X]|[_ X]]; [exact X|discriminate].
      * intro a. rewrite AR, nth_snoc0, fold_inc_length, nth_fold_inc.
        -- rewrite i_rc0. destruct (Nat.eq_dec a (length (s_rc s))); lia.
        -- rewrite i_len0. eapply Forall_impl; [|exact R]. cbn. tauto.
      * apply Forall_forall. intros x Hx. rewrite app_length. cbn. destruct (IR x Hx) as [X|X].
        -- rewrite Forall_forall in i_range0. specialize (i_range0 x X). lia.
        -- rewrite Forall_forall in R. specialize (R x X). lia.
      * intros a Hd. destruct (i_dead0 a Hd) as [D1 D2]. rewrite app_length. split; [lia|]. intro X.
        destruct (IR a X) as [Y|Y]; [exact (D2 Y)|]. rewrite Forall_forall in R. exact (proj2 (R a Y) Hd).
      * intros l0 a X. apply nth_error_snoc. left. apply i_lits_in0 in X. split; [apply nth_error_Some; congruence|exact X].
      * intros name ty a X. apply nth_error_snoc. left. apply i_vars_in0 in X. split; [apply nth_error_Some; congruence|exact X].
      * intros name ty a X. apply nth_error_snoc. left. apply i_vars0 in X. split; [apply nth_error_Some; congruence|exact X].
    + apply live_iff. cbn. rewrite app_length. cbn. split; [lia|exact ND].
    + split; [exists [NApp k cs]; reflexivity|auto].
    + cbn. apply nth_error_snoc. right. auto.
Qed.

Lemma mkLiteralInternal_ok : forall s l, sinv s ->
  let '(s', a) := mkLiteralInternal s l in
  sinv s' /\ live s' a = true /\ extends s s' /\ same_rest s s' /\ s_vars s' = s_vars s /\
  nth_error (s_nodes s') a = Some (NLit l).
Proof.
  intros s l H. unfold mkLiteralInternal. destruct (lits_find (s_lits s) l) as [a|] eqn:El.
  - pose proof (proj1 (i_lits s H l a) El) as Ha. split; [exact H|]. split.
    { apply refs_live; [exact H|]. unfold all_refs. rewrite !in_app_iff. right. right. left. exact (lits_find_In _ _ _ El). }
    split; [apply extends_refl|]. split; [repeat split|]. split; [reflexivity|exact Ha].
  - set (s' := mkStore _ _ _ _ _ _ _ _ _ _).
    assert (ND : ~ In (length (s_nodes s)) (s_dead s)) by (intro D; destruct (i_dead s H _ D); lia).
    assert (AR : forall x, cnt x (all_refs s') = cnt x (all_refs s) + (if Nat.eq_dec (length (s_nodes s)) x then 1 else 0)).
    { intro x. unfold all_refs, s'. cbn [s_held s_nodes s_lits s_vars map snd]. rewrite flat_map_app. cbn [flat_map node_children].
      rewrite !app_nil_r, !cnt_app, cnt_cons. lia. }
    assert (IR : forall x, In x (all_refs s') -> In x (all_refs s) \/ x = length (s_nodes s)).
    { intros x Hx. unfold all_refs, s' in Hx. cbn [s_held s_nodes s_lits s_vars map snd] in Hx. rewrite flat_map_app in Hx. cbn [flat_map node_children] in Hx.
      unfold all_refs. rewrite !app_nil_r in Hx. rewrite !in_app_iff in *. cbn [In] in Hx. intuition auto. }
    split; [|split; [|split; [|split; [repeat split|split; [reflexivity|]]]]].
    + destruct H. constructor; cbn [s' s_nodes s_rc s_dead s_trie s_lits s_hash s_count s_vars s_held s_bad]; auto.
      * rewrite !app_length, i_len0. reflexivity.
      * intros a k0 cs0 Ha. apply nth_error_snoc in Ha. destruct Ha as [[La Ha]|[-> Ha]]; [exact (i_order0 a k0 cs0 Ha)|discriminate].
      * intros a n Ha. apply nth_error_snoc in Ha. destruct Ha as [[La Ha]|[-> <-]]; [exact (i_kinds0 a n Ha)|exact I].
      * intros k0 cs0 a X. destruct (i_sound0 _ _ _ X) as [X1 X2]. split; [|exact X2].
        apply nth_error_snoc. left. split; [apply nth_error_Some; congruence|exact X1].
      * intros Hb k0 cs0 a Ha Hd. apply nth_error_snoc in Ha. destruct Ha as [[La Ha]|[-> Ha]]; [exact (i_complete0 Hb k0 cs0 a Ha Hd)|discriminate].
      * intros l0 a. cbn [lits_find]. rewrite nth_error_snoc. destruct (lit_eqb l l0) eqn:E0.
        -- apply lit_eqb_eq in E0. subst l0. split.
           ++ intro X. injection X as <-. right. auto.
           ++ intros [[_ X]|[-> _]]; [|reflexivity]. apply i_lits0 in X. congruence.
        -- rewrite i_lits0. split.
           ++ intro X. left. split; [apply nth_error_Some; congruence|exact X].
           ++ intros [[_ X]|[_ X]]; [exact X|]. injection X as <-. rewrite (proj2 (lit_eqb_eq l l) eq_refl) in E0. discriminate.
      * intro a. rewrite AR, nth_snoc0, i_rc0, i_len0. destruct (Nat.eq_dec a (length (s_nodes s))), (Nat.eq_dec (length (s_nodes s)) a); lia.
      * apply Forall_forall. intros x Hx. rewrite app_length. cbn. destruct (IR x Hx) as [X|X]; [|lia].
        rewrite Forall_forall in i_range0. specialize (i_range0 x X). lia.
      * intros a Hd. destruct (i_dead0 a Hd) as [D1 D2]. rewrite app_length. split; [lia|]. intro X.
        destruct (IR a X) as [Y|Y]; [exact (D2 Y)|lia].
      * intros l0 a [E0|X]; apply nth_error_snoc; [injection E0 as -> <-; right; auto|]. left. apply i_lits_in0 in X. split; [apply nth_error_Some; congruence|exact X].
      * intros name ty a X. apply nth_error_snoc. left. apply i_vars_in0 in X. split; [apply nth_error_Some; congruence|exact X].
      * intros name ty a X. apply nth_error_snoc. left. apply i_vars0 in X. split; [apply nth_error_Some; congruence|exact X].
    + apply live_iff. cbn. rewrite app_length. cbn. split; [lia|exact ND].
    + split; [exists [NLit l]; reflexivity|auto].
    + cbn. apply nth_error_snoc. right. auto.
Qed.

Lemma mkSymbolInternal_ok : forall s k, sinv s -> isSymbol k = true ->
  let '(s', a) := mkSymbolInternal s k in
  sinv s' /\ live s' a = true /\ extends s s' /\ same_rest s s' /\ s_vars s' = s_vars s /\
  nth_error (s_nodes s') a = Some (NSym k) /\ a = length (s_nodes s) /\ ~ In a (all_refs s').
Proof.
  intros s k H K. unfold mkSymbolInternal. set (s' := mkStore _ _ _ _ _ _ _ _ _ _).
  assert (ND : ~ In (length (s_nodes s)) (s_dead s)) by (intro D; destruct (i_dead s H _ D); lia).
  assert (AR : all_refs s' = all_refs s).
  { unfold all_refs, s'. cbn [s_held s_nodes s_lits s_vars]. rewrite flat_map_app. cbn [flat_map node_children].
    rewrite !app_nil_r. reflexivity. }
  split; [|split; [|split; [|split; [repeat split|split; [reflexivity|split; [|split; [reflexivity|]]]]]]].
  + destruct H. constructor; cbn [s' s_nodes s_rc s_dead s_trie s_lits s_hash s_count s_vars s_held s_bad]; auto.
    * rewrite !app_length, i_len0. reflexivity.
    * intros a k0 cs0 Ha. apply nth_error_snoc in Ha. destruct Ha as [[La Ha]|[-> Ha]]; [exact (i_order0 a k0 cs0 Ha)|discriminate].
    * intros a n Ha. apply nth_error_snoc in Ha. destruct Ha as [[La Ha]|[-> <-]]; [exact (i_kinds0 a n Ha)|exact K].
    * intros k0 cs0 a X. destruct (i_sound0 _ _ _ X) as [X1 X2]. split; [|exact X2].
      apply nth_error_snoc. left. split; [apply nth_error_Some; congruence|exact X1].
    * intros Hb k0 cs0 a Ha Hd. apply nth_error_snoc in Ha. destruct Ha as [[La Ha]|[-> Ha]]; [exact (i_complete0 Hb k0 cs0 a Ha Hd)|discriminate].
    * intros l0 a. rewrite nth_error_snoc, i_lits0. split.
      -- intro X. left. split; [apply nth_error_Some; congruence|exact X].
      -- intros [[_ X]|[_ X]]; [exact X|discriminate].
    * intro a. rewrite AR, nth_snoc0, i_rc0. destruct (Nat.eq_dec a (length (s_rc s))); lia.
    * rewrite AR, app_length. eapply Forall_impl; [|exact i_range0]. cbn. intros. lia.
    * intros a Hd. rewrite AR. destruct (i_dead0 a Hd) as [D1 D2]. rewrite app_length. split; [lia|exact D2].
    * intros l0 a X. apply nth_error_snoc. left. apply i_lits_in0 in X. split; [apply nth_error_Some; congruence|exact X].
    * intros name ty a X. apply nth_error_snoc. left. apply i_vars_in0 in X. split; [apply nth_error_Some; congruence|exact X].
    * intros name ty a X. apply nth_error_snoc. left. apply i_vars0 in X. split; [apply nth_error_Some; congruence|exact X].
  + apply live_iff. cbn. rewrite app_length. cbn. split; [lia|exact ND].
  + split; [exists [NSym k]; reflexivity|auto].
  + cbn. apply nth_error_snoc. right. auto.
  + rewrite AR. intro X. pose proof (i_range s H) as R. rewrite Forall_forall in R. specialize (R _ X). lia.
Qed.

Lemma vars_find_same : forall m n t a n' t', vars_find ((n, t, a) :: m) n' t' =
  if text_eqb n n' && Nat.eqb t t' then Some a else vars_find m n' t'.
Proof. reflexivity. Qed.

Lemma getBoundVar_ok : forall s name ty, sinv s -> live s ty = true ->
  let '(s', a) := getBoundVar s name ty in
  sinv s' /\ live s' a = true /\ extends s s' /\ same_rest s s' /\
  (forall n t b, vars_find (s_vars s) n t = Some b -> vars_find (s_vars s') n t = Some b) /\
  if isGround (nth ty (terms_of (s_nodes s)) tdef)
  then vars_find (s_vars s') name ty = Some a
  else exists n, nth_error (s_nodes s') n = Some (NLit (LStr (str_ofText true name))) /\
         nth_error (s_nodes s') a = Some (NApp K_EVAL_VAR [n; ty]).
Proof.
  intros s name ty H L. unfold getBoundVar. fold tdef. destruct (isGround _).
  - destruct (vars_find (s_vars s) name ty) as [a|] eqn:Ev.
    + split; [exact H|]. split.
      { apply refs_live; [exact H|]. unfold all_refs. rewrite !in_app_iff. right. right. right. exact (vars_find_In _ _ _ _ Ev). }
      split; [apply extends_refl|]. split; [repeat split|]. split; [auto|exact Ev].
    + pose proof (mkSymbolInternal_ok s K_VARIABLE H eq_refl) as M. destruct (mkSymbolInternal s K_VARIABLE) as [s1 a].
      destruct M as (H1 & L1 & X1 & R1 & V1 & N1 & A1 & F1). set (s' := mkStore _ _ _ _ _ _ _ _ _ _).
      assert (AR : forall x, cnt x (all_refs s') = cnt x (all_refs s1) + (if Nat.eq_dec a x then 1 else 0)).
      { intro x. unfold all_refs, s'. cbn [s_held s_nodes s_lits s_vars map snd]. rewrite !cnt_app, cnt_cons. lia. }
      assert (IR : forall x, In x (all_refs s') -> In x (all_refs s1) \/ x = a).
      { intros x Hx. unfold all_refs, s' in *. cbn [s_held s_nodes s_lits s_vars map snd] in Hx. rewrite !in_app_iff in *. cbn [In] in Hx. intuition auto. }
      pose proof (proj1 (live_iff s1 a) L1) as [La Da].
      split; [|split; [|split; [|split; [|split]]]].
      * destruct H1. constructor; cbn [s' s_nodes s_rc s_dead s_trie s_lits s_hash s_count s_vars s_held s_bad]; auto.
        -- unfold inc. rewrite upd_length. exact i_len0.
        -- intro x. rewrite nth_inc, AR, i_rc0 by lia. reflexivity.
        -- apply Forall_forall. intros x Hx. destruct (IR x Hx) as [X| ->]; [|exact La]. rewrite Forall_forall in i_range0. exact (i_range0 x X).
        -- intros b Hb. destruct (i_dead0 b Hb) as [D1 D2]. split; [exact D1|]. intro X. destruct (IR b X) as [Y| ->]; [exact (D2 Y)|exact (Da Hb)].
        -- intros n0 t0 b [X|X]; [injection X as <- <- <-; exact N1|exact (i_vars_in0 _ _ _ X)].
        -- intros n0 t0 b. rewrite vars_find_same. destruct (text_eqb name n0 && Nat.eqb ty t0); [|apply i_vars0].
           intro X. injection X as <-. exact N1.
        -- intros n1 t1 n2 t2 b. rewrite !vars_find_same.
           assert (Fr : forall n0 t0, vars_find (s_vars s1) n0 t0 <> Some a).
           { intros n0 t0 X. apply F1. unfold all_refs. rewrite !in_app_iff. right. right. right. exact (vars_find_In _ _ _ _ X). }
           destruct (text_eqb name n1 && Nat.eqb ty t1) eqn:E1; destruct (text_eqb name n2 && Nat.eqb ty t2) eqn:E2; intros Q1 Q2.
           ++ apply andb_true_iff in E1, E2. destruct E1 as [E1 E1'], E2 as [E2 E2']. apply text_eqb_eq in E1, E2. apply Nat.eqb_eq in E1', E2'. subst. auto.
           ++ injection Q1 as <-. exfalso. exact (Fr _ _ Q2).
           ++ injection Q2 as <-. exfalso. exact (Fr _ _ Q1).
           ++ exact (i_vars_inj0 _ _ _ _ _ Q1 Q2).
      * apply live_iff. exact (conj La Da).
      * exact X1.
      * exact R1.
      * intros n t b Hb. cbn [s' s_vars]. rewrite vars_find_same, V1. destruct (text_eqb name n && Nat.eqb ty t) eqn:E1; [|exact Hb].
        apply andb_true_iff in E1. destruct E1 as [E1 E1']. apply text_eqb_eq in E1. apply Nat.eqb_eq in E1'. subst. congruence.
      * cbn [s' s_vars]. rewrite vars_find_same. rewrite (proj2 (text_eqb_eq name name) eq_refl), Nat.eqb_refl. reflexivity.
  - pose proof (mkLiteralInternal_ok s (LStr (str_ofText true name)) H) as M.
    destruct (mkLiteralInternal s (LStr (str_ofText true name))) as [s1 n]. destruct M as (H1 & L1 & X1 & R1 & V1 & N1).
    assert (L1' : live s1 ty = true).
    { apply live_iff. apply live_iff in L. destruct L as [La Da]. destruct R1 as [-> _]. split; [|exact Da].
      destruct X1 as [(ns & ->) _]. rewrite app_length. lia. }
    pose proof (mkExprInternal_ok s1 K_EVAL_VAR [n; ty] H1) as M2. cbn [forallb] in M2. rewrite L1, L1' in M2.
    specialize (M2 eq_refl eq_refl). destruct (mkExprInternal s1 K_EVAL_VAR [n; ty]) as [s2 a].
    destruct M2 as (H2 & L2 & X2 & R2 & V2 & N2).
    split; [exact H2|]. split; [exact L2|]. split; [exact (extends_trans _ _ _ X1 X2)|].
    split; [exact (same_rest_trans _ _ _ R1 R2)|].
    split; [intros n0 t0 b Hb; rewrite V2, V1; exact Hb|]. exists n. split; [exact (extends_nth _ _ _ _ X2 N1)|exact N2].
Qed.

Lemma getHash_ok : forall s a, sinv s ->
  let '(s', h) := getHash s a in
  sinv s' /\ s_nodes s' = s_nodes s /\ s_dead s' = s_dead s /\ s_bad s' = s_bad s /\
  hash_find (s_hash s') a = Some h /\
  (forall b z, hash_find (s_hash s) b = Some z -> hash_find (s_hash s') b = Some z) /\
  s_vars s' = s_vars s.
Proof.
  intros s a H. unfold getHash. destruct (hash_find (s_hash s) a) as [h|] eqn:Eh; [auto 10|].
  assert (Fr : forall b z, hash_find (s_hash s) b = Some z -> 1 <= z <= s_count s) by exact (i_hash s H).
  split; [|cbn; split; [reflexivity|]; split; [reflexivity|]; split; [reflexivity|]; split; [rewrite Nat.eqb_refl; reflexivity|]; split; [|reflexivity]].
  - destruct H. constructor; cbn; auto.
    + intros b z. destruct (Nat.eqb_spec a b); [intro X; injection X as <-; lia|]. intro X. apply i_hash0 in X. lia.
    + intros b c z. destruct (Nat.eqb_spec a b), (Nat.eqb_spec a c); intros X1 X2; subst; auto.
      * injection X1 as <-. apply i_hash0 in X2. lia.
      * injection X2 as <-. apply i_hash0 in X1. lia.
      * exact (i_hash_inj0 _ _ _ X1 X2).
    + lia.
  - intros b z Hb. destruct (Nat.eqb_spec a b) as [->|]; [congruence|exact Hb].
Qed.

(** * Requests *)

Lemma remove_lookup : forall t p a, trie_lookup t p = Some a ->
  exists t' b, trie_remove t p = Ok (t', b) /\
    (b = false -> forall q, trie_lookup t' q = if list_eq_dec Nat.eq_dec q p then None else trie_lookup t q) /\
    (b = true -> exists d, (d < length p)%nat /\
       (forall q, prefix (firstn (S d) p) q -> trie_lookup t' q = None) /\
       (forall q, ~ prefix (firstn (S d) p) q -> trie_lookup t' q = trie_lookup t q)).
Proof.
  intros t p a H. unfold trie_remove. rewrite lookup_node_at in H. destruct (node_at t p) as [u|] eqn:Eu; [|discriminate].
  destruct (proj2 (walk_ok p t O None) (ex_intro _ u Eu)) as [[d|] Hr]; rewrite Hr; cbn [bind].
  - exists (trie_cut t p d), true. split; [reflexivity|]. split; [discriminate|]. intros _. exists d.
    assert (Hd : (d < length p)%nat) by (apply walk_depth in Hr; [exact Hr|discriminate]).
    split; [exact Hd|]. split; intros q Hq; [apply cut_lost|apply cut_kept]; eauto.
  - exists (trie_set t p None), false. split; [reflexivity|]. split; [|discriminate]. intros _ q.
    destruct (list_eq_dec Nat.eq_dec q p) as [->|N]; [apply lookup_set_same|apply lookup_set_other; congruence].
Qed.
Lemma remove_sound : forall t p t' b q a, trie_remove t p = Ok (t', b) ->
  trie_lookup t' q = Some a -> trie_lookup t q = Some a /\ q <> p.
Proof.
  intros t p t' b q a H Hq. unfold trie_remove in H. destruct (remove_walk t p O None) as [[d|]| | |] eqn:Er; try discriminate; cbn [bind] in H.
  - injection H as <- <-. pose proof (proj1 (walk_ok p t O None) (ex_intro _ _ Er)) as Hu.
    assert (Hd : (d < length p)%nat) by (apply walk_depth in Er; [exact Er|discriminate]).
    assert (P : ~ prefix (firstn (S d) p) q) by (intro X; rewrite (cut_lost p d t q Hd Hu X) in Hq; discriminate).
    rewrite (cut_kept p d t q Hd Hu P) in Hq. split; [exact Hq|]. intros ->. apply P. exists (skipn (S d) p). symmetry. apply firstn_skipn.
  - injection H as <- <-. destruct (list_eq_dec Nat.eq_dec p q) as [->|N]; [rewrite lookup_set_same in Hq; discriminate|].
    rewrite lookup_set_other in Hq by exact N. split; [exact Hq|congruence].
Qed.
Lemma remove_complete : forall t p t' q a, trie_remove t p = Ok (t', false) -> q <> p ->
  trie_lookup t q = Some a -> trie_lookup t' q = Some a.
Proof.
  intros t p t' q a H N Hq. unfold trie_remove in H. destruct (remove_walk t p O None) as [[d|]| | |] eqn:Er; try discriminate; cbn [bind] in H.
  injection H as <-. rewrite lookup_set_other by congruence. exact Hq.
Qed.

Lemma hash_find_filter : forall m a b, hash_find (filter (fun p => negb (Nat.eqb (fst p) a)) m) b =
  if Nat.eqb a b then None else hash_find m b.
Proof.
  induction m as [|[c h] m IH]; intros a b; cbn; [destruct (Nat.eqb a b); reflexivity|].
  destruct (Nat.eqb_spec c a) as [->|N]; cbn [negb hash_find].
  - rewrite IH. destruct (Nat.eqb a b); reflexivity.
  - rewrite IH. destruct (Nat.eqb_spec c b) as [->|]; destruct (Nat.eqb_spec a b); congruence.
Qed.

(** What may change from one state to a later one. *)
Definition evolves (s s' : store) : Prop :=
  extends s s' /\ (s_bad s = true -> s_bad s' = true) /\ s_count s <= s_count s' /\
  (forall a h, hash_find (s_hash s) a = Some h -> In a (s_dead s') \/ hash_find (s_hash s') a = Some h) /\
  (forall n t a, vars_find (s_vars s) n t = Some a -> vars_find (s_vars s') n t = Some a).
Lemma evolves_refl : forall s, evolves s s.
Proof. intro s. split; [apply extends_refl|]. split; [auto|]. split; [lia|]. split; auto. Qed.
Lemma evolves_trans : forall s1 s2 s3, evolves s1 s2 -> evolves s2 s3 -> evolves s1 s3.
Proof.
  intros s1 s2 s3 (X1 & B1 & C1 & H1 & V1) (X2 & B2 & C2 & H2 & V2). split; [exact (extends_trans _ _ _ X1 X2)|].
  split; [auto|]. split; [lia|]. split; [|auto]. intros a h Ha. destruct (H1 a h Ha) as [D|D]; [|auto].
  left. apply X2. exact D.
Qed.
Lemma same_evolves : forall s s', extends s s' -> same_rest s s' ->
  (forall n t a, vars_find (s_vars s) n t = Some a -> vars_find (s_vars s') n t = Some a) -> evolves s (handle s' 0) /\ evolves s s'.
Proof.
  intros s s' X (R1 & R2 & R3 & R4 & R5) V. split; (split; [exact X|]); cbn [handle s_bad s_count s_hash s_vars s_dead];
    (split; [congruence|]); (split; [lia|]); (split; [|exact V]); intros; right; congruence.
Qed.

Lemma dec_ok : forall s a s1, sinv s -> In a (s_held s) ->
  s1 = mkStore (s_nodes s) (s_rc s) (s_dead s) (s_trie s) (s_lits s) (s_hash s)
         (s_count s) (s_vars s) (remove_one a (s_held s)) (s_bad s) ->
  (s_bad s = false -> exists s', dec s1 a = Ok s') /\
  (forall s', dec s1 a = Ok s' -> sinv s' /\ evolves s s' /\ s_nodes s' = s_nodes s /\
     s_held s' = remove_one a (s_held s) /\
     (s_dead s' = s_dead s \/ s_dead s' = a :: s_dead s /\ ~ In a (all_refs s')) /\
     (In a (all_refs s1) -> s_dead s' = s_dead s) /\ (~ In a (all_refs s1) -> In a (s_dead s'))).
Proof.
  intros s a s1 H Ha ->. set (s1 := mkStore _ _ _ _ _ _ _ _ _ _).
  assert (AR : forall x, cnt x (all_refs s1) = cnt x (all_refs s) - (if Nat.eq_dec a x then 1 else 0)).
  { intro x. unfold all_refs, s1. cbn [s_held s_nodes s_lits s_vars]. rewrite !cnt_app, cnt_remove_one by exact Ha. lia. }
  assert (IR : forall x, In x (all_refs s1) -> In x (all_refs s)).
  { intros x. unfold all_refs, s1. cbn [s_held s_nodes s_lits s_vars]. rewrite !in_app_iff. intros [X|X]; [left; exact (In_remove_one _ _ _ X)|tauto]. }
  assert (La : live s a = true) by (apply refs_live; [exact H|]; unfold all_refs; rewrite in_app_iff; auto).
  apply live_iff in La. destruct La as [La Da].
  set (rc' := upd (s_rc s) a (fun z => z - 1)).
  assert (Lr : length rc' = length (s_nodes s)) by (unfold rc'; rewrite upd_length; apply (i_len s H)).
  assert (RC : forall x, nth x rc' 0 = cnt x (all_refs s1)).
  { intro x. unfold rc'. rewrite nth_upd, AR, !(i_rc s H). rewrite (i_len s H). destruct (Nat.eq_dec a x) as [<-|]; [|lia].
    destruct (Nat.ltb_spec a (length (s_nodes s))); lia. }
  assert (VZ : vec_at rc' a = Ok (nth a rc' 0)).
  { unfold vec_at. rewrite (nth_error_nth' rc' 0) by lia. reflexivity. }
  unfold dec. change (s_rc s1) with (s_rc s). fold rc'. rewrite VZ. cbn [bind]. rewrite RC.
  set (s2 := mkStore (s_nodes s1) rc' _ _ _ _ _ _ _ _).
  assert (AR2 : all_refs s2 = all_refs s1) by reflexivity.
  assert (H2 : sinv s2).
  { destruct H. constructor; rewrite ?AR2; unfold s2, s1; cbn [s_nodes s_rc s_dead s_trie s_lits s_hash s_count s_vars s_held s_bad]; auto.
    - apply Forall_forall. intros x Hx. rewrite Forall_forall in i_range0. auto.
    - intros x Hx. destruct (i_dead0 x Hx) as [X1 X2]. split; [exact X1|]. auto. }
  destruct (Z.eqb_spec (cnt a (all_refs s1)) 0) as [Z0|NZ].
  2:{ split; [intros _; eexists; reflexivity|]. intros s' E. injection E as <-. split; [exact H2|].
      split. { split; [split; [exists []; rewrite app_nil_r; reflexivity|auto]|]. split; [auto|]. split; [cbn; lia|]. split; auto. }
      repeat split; auto.
      intro X. apply cnt_zero in X. contradiction. }
  apply cnt_zero in Z0. unfold markDeleted.
  destruct (nth_error (s_nodes s) a) as [n|] eqn:En; [|apply nth_error_None in En; lia].
  unfold vec_at. change (s_nodes s2) with (s_nodes s). rewrite En. cbn [bind].
  assert (NL : forall l, n <> NLit l).
  { intros l ->. apply Z0. unfold all_refs. rewrite !in_app_iff. right. right. left. cbn [s1 s_lits].
    apply (lits_find_In _ l). apply (i_lits s H). exact En. }
  assert (EL : match n with NLit (LBool _) => s_lits s2 | NLit l => filter (fun p => negb (lit_eqb (fst p) l)) (s_lits s2) | _ => s_lits s2 end = s_lits s)
    by (destruct n as [k|l|k cs]; [reflexivity|exfalso; exact (NL l eq_refl)|reflexivity]).
  rewrite EL. change (s_trie s2) with (s_trie s). change (s_hash s2) with (s_hash s).
  split.
  - intro Hb. destruct n as [k|l|k cs]; cbn [node_kind node_children]; [|exfalso; exact (NL l eq_refl)|].
    + unfold trie_remove. cbn. eexists. reflexivity.
    + destruct (remove_lookup _ _ _ (i_complete s H Hb k cs a En Da)) as (t' & b & -> & _). cbn. eexists. reflexivity.
  - intros s' E. destruct (trie_remove (s_trie s (node_kind n)) (node_children n)) as [[t' b]| | |] eqn:Et; try discriminate.
    cbn [bind] in E. injection E as <-. set (s3 := mkStore _ _ _ _ _ _ _ _ _ _).
    assert (AR3 : all_refs s3 = all_refs s1) by reflexivity.
    split; [|split; [|split; [reflexivity|split; [reflexivity|split; [right; split; [reflexivity|exact Z0]|split]]]]].
    + destruct H2. constructor; rewrite ?AR3; unfold s3; cbn [s_nodes s_rc s_dead s_trie s_lits s_hash s_count s_vars s_held s_bad]; auto.
      * intros k cs x Hx. destruct (kind_eqb k (node_kind n)) eqn:Ek.
        -- apply kind_eqb_eq in Ek. subst k. destruct (remove_sound _ _ _ _ _ _ Et Hx) as [X N].
           destruct (i_sound s H _ _ _ X) as [X1 X2]. split; [exact X1|]. intros [<-|D]; [|exact (X2 D)].
           rewrite En in X1. injection X1 as X1. rewrite X1 in N. cbn in N. congruence.
        -- destruct (i_sound s H _ _ _ Hx) as [X1 X2]. split; [exact X1|]. intros [<-|D]; [|exact (X2 D)].
           rewrite En in X1. injection X1 as ->. cbn [node_kind] in Ek. rewrite (proj2 (kind_eqb_eq k k) eq_refl) in Ek. discriminate.
      * intros Hb k cs x Hx Hd. apply orb_false_iff in Hb. destruct Hb as [Hb ->]. change (s_bad s2) with (s_bad s) in Hb.
        assert (Dx : ~ In x (s_dead s)) by (intro D; apply Hd; right; exact D).
        assert (Lk : trie_lookup (s_trie s k) cs = Some x) by exact (i_complete s H Hb k cs x Hx Dx).
        destruct (kind_eqb k (node_kind n)) eqn:Ek; [|exact Lk].
        apply kind_eqb_eq in Ek. subst k. apply (remove_complete _ _ _ _ _ Et); [|exact Lk]. intros ->.
        destruct n as [k|l|k cs0]; cbn [node_kind node_children] in *; [|exact (NL l eq_refl)|].
        -- pose proof (i_kinds s H _ _ En) as K1. pose proof (i_kinds s H _ _ Hx) as K2. cbn in K1, K2. congruence.
        -- rewrite (i_complete s H Hb k cs0 a En Da) in Lk. injection Lk as ->. apply Hd. left. reflexivity.
      * intros x [<-|Hx]; [split; [exact La|exact Z0]|]. exact (i_dead0 x Hx).
      * intros x h. rewrite hash_find_filter. destruct (Nat.eqb a x); [discriminate|apply (i_hash s H)].
      * intros x y h. rewrite !hash_find_filter. destruct (Nat.eqb a x); [discriminate|]. destruct (Nat.eqb a y); [discriminate|apply (i_hash_inj s H)].
    + split; [split; [exists []; rewrite app_nil_r; reflexivity|intros x Hx; right; exact Hx]|]. split; [cbn; intros ->; reflexivity|].
      split; [cbn; lia|]. split; [|auto]. intros x h Hx. cbn [s3 s_dead s_hash]. rewrite hash_find_filter.
      destruct (Nat.eqb_spec a x) as [->|]; [left; left; reflexivity|right; exact Hx].
    + intro X. contradiction.
    + intros _. left. reflexivity.
Qed.

(** What the answer to a request means. *)
Definition answers (s s' : store) (o : op) (r : out) : Prop :=
  match o with
  | OSym k => exists a, r = RAddr a /\ nth_error (s_nodes s') a = Some (NSym k) /\ a = length (s_nodes s)
  | OLit l => exists a, r = RAddr a /\ nth_error (s_nodes s') a = Some (NLit l)
  | OApp k cs => exists a, r = RAddr a /\ nth_error (s_nodes s') a = Some (NApp k cs)
  | OVar name ty => exists a, r = RAddr a /\
      if isGround (nth ty (terms_of (s_nodes s)) tdef)
      then vars_find (s_vars s') name ty = Some a
      else exists n, nth_error (s_nodes s') n = Some (NLit (LStr (str_ofText true name))) /\
             nth_error (s_nodes s') a = Some (NApp K_EVAL_VAR [n; ty])
  | OHash a => exists h, r = RNum (u32 h) /\ hash_find (s_hash s') a = Some h
  | OCmp a b => exists h1 h2, r = RBool (h2 <? h1) /\ hash_find (s_hash s') a = Some h1 /\ hash_find (s_hash s') b = Some h2
  | ODrop _ => r = RNone
  end.
(** The handles after a request. *)
Definition held_after (h : list nat) (o : op) (r : out) : list nat :=
  match o, r with
  | ODrop a, _ => remove_one a h
  | _, RAddr a => a :: h
  | _, _ => h
  end.

Lemma evolves_handle : forall s s' a, evolves s s' -> evolves s (handle s' a).
Proof. intros s s' a E. exact E. Qed.

Lemma step_ok : forall s o s' r, sinv s -> wf_op o -> step s o = Ok (s', r) ->
  sinv s' /\ evolves s s' /\ answers s s' o r /\ s_held s' = held_after (s_held s) o r /\
  (forall a, r = RAddr a -> live s' a = true) /\
  (s_dead s' = s_dead s \/ exists a, o = ODrop a).
Proof.
  intros s o s' r H W E. destruct o as [k|l|k cs|name ty|a|a b|a]; cbn [step] in E.
  - pose proof (mkSymbolInternal_ok s k H W) as M. destruct (mkSymbolInternal s k) as [s1 a]. injection E as <- <-.
    destruct M as (H1 & L1 & X1 & R1 & V1 & N1 & A1 & _).
    split; [exact (handle_ok _ _ H1 L1)|]. split; [exact (proj2 (same_evolves _ _ X1 R1 ltac:(intros; congruence)))|].
    split; [exists a; auto|]. split; [cbn; f_equal; apply R1|]. split; [intros x Hx; injection Hx as <-; exact L1|left; apply R1].
  - pose proof (mkLiteralInternal_ok s l H) as M. destruct (mkLiteralInternal s l) as [s1 a]. injection E as <- <-.
    destruct M as (H1 & L1 & X1 & R1 & V1 & N1).
    split; [exact (handle_ok _ _ H1 L1)|]. split; [exact (proj2 (same_evolves _ _ X1 R1 ltac:(intros; congruence)))|].
    split; [exists a; auto|]. split; [cbn; f_equal; apply R1|]. split; [intros x Hx; injection Hx as <-; exact L1|left; apply R1].
  - destruct (forallb (live s) cs) eqn:Ef; [|discriminate].
    pose proof (mkExprInternal_ok s k cs H Ef W) as M. destruct (mkExprInternal s k cs) as [s1 a]. injection E as <- <-.
    destruct M as (H1 & L1 & X1 & R1 & V1 & N1).
    split; [exact (handle_ok _ _ H1 L1)|]. split; [exact (proj2 (same_evolves _ _ X1 R1 ltac:(intros; congruence)))|].
    split; [exists a; auto|]. split; [cbn; f_equal; apply R1|]. split; [intros x Hx; injection Hx as <-; exact L1|left; apply R1].
  - destruct (live s ty) eqn:Et; [|discriminate].
    pose proof (getBoundVar_ok s name ty H Et) as M. destruct (getBoundVar s name ty) as [s1 a]. injection E as <- <-.
    destruct M as (H1 & L1 & X1 & R1 & V1 & N1).
    split; [exact (handle_ok _ _ H1 L1)|]. split; [exact (proj2 (same_evolves _ _ X1 R1 V1))|].
    split; [exists a; auto|]. split; [cbn; f_equal; apply R1|]. split; [intros x Hx; injection Hx as <-; exact L1|left; apply R1].
  - destruct (live s a) eqn:Ea; [|discriminate]. pose proof (getHash_ok s a H) as M.
    assert (Hd : s_held (fst (getHash s a)) = s_held s) by (unfold getHash; destruct (hash_find (s_hash s) a); reflexivity).
    assert (Cc : s_count s <= s_count (fst (getHash s a))) by (unfold getHash; destruct (hash_find (s_hash s) a); cbn; lia).
    destruct (getHash s a) as [s1 h]. cbn [fst] in *. injection E as <- <-.
    destruct M as (H1 & N1 & D1 & B1 & F1 & K1 & V1). split; [exact H1|].
    split; [|split; [exists h; auto|split; [exact Hd|split; [discriminate|left; exact D1]]]].
    split; [split; [exists []; rewrite app_nil_r; exact N1|rewrite D1; auto]|]. split; [congruence|]. split; [exact Cc|].
    split; [auto|intros; congruence].
  - destruct (live s a) eqn:Ea; [|discriminate]. destruct (live s b) eqn:Eb; [|discriminate]. cbn [andb] in E.
    pose proof (getHash_ok s a H) as M.
    assert (Hd : s_held (fst (getHash s a)) = s_held s) by (unfold getHash; destruct (hash_find (s_hash s) a); reflexivity).
    assert (Cc : s_count s <= s_count (fst (getHash s a))) by (unfold getHash; destruct (hash_find (s_hash s) a); cbn; lia).
    destruct (getHash s a) as [s1 h1]. cbn [fst] in *.
    destruct M as (H1 & N1 & D1 & B1 & F1 & K1 & V1).
    pose proof (getHash_ok s1 b H1) as M2.
    assert (Hd2 : s_held (fst (getHash s1 b)) = s_held s1) by (unfold getHash; destruct (hash_find (s_hash s1) b); reflexivity).
    assert (Cc2 : s_count s1 <= s_count (fst (getHash s1 b))) by (unfold getHash; destruct (hash_find (s_hash s1) b); cbn; lia).
    destruct (getHash s1 b) as [s2 h2]. cbn [fst] in *. injection E as <- <-.
    destruct M2 as (H2 & N2 & D2 & B2 & F2 & K2 & V2). split; [exact H2|].
    split; [|split; [exists h1, h2; auto|split; [cbn; congruence|split; [discriminate|left; congruence]]]].
    split; [split; [exists []; rewrite app_nil_r; congruence|rewrite D2, D1; auto]|]. split; [congruence|]. split; [lia|].
    split; [auto|intros; congruence].
  - destruct (existsb (Nat.eqb a) (s_held s)) eqn:Ea; [|discriminate].
    apply existsb_exists in Ea. destruct Ea as (x & Hx & Ex). apply Nat.eqb_eq in Ex. subst x.
    destruct (dec_ok s a _ H Hx eq_refl) as [_ D].
    destruct (dec _ a) as [s2| | |] eqn:Ed in E; try discriminate. cbn [bind] in E. injection E as <- <-.
    destruct (D s2 Ed) as (D1 & D2 & D3 & D4 & D5). split; [exact D1|]. split; [exact D2|]. split; [reflexivity|].
    split; [exact D4|]. split; [discriminate|right; eauto].
Qed.

(** Requests are served unless the caller passes pointers it may not pass. *)
Definition allowed (s : store) (o : op) : Prop :=
  match o with
  | OSym _ | OLit _ => True
  | OApp _ cs => Forall (fun c => live s c = true) cs
  | OVar _ ty => live s ty = true
  | OHash a => live s a = true
  | OCmp a b => live s a = true /\ live s b = true
  | ODrop a => In a (s_held s)
  end.
Lemma step_total : forall s o, sinv s -> s_bad s = false -> allowed s o -> exists s' r, step s o = Ok (s', r).
Proof.
  intros s o H B A. destruct o as [k|l|k cs|name ty|a|a b|a]; cbn [step allowed] in *.
  - destruct (mkSymbolInternal s k). eauto.
  - destruct (mkLiteralInternal s l). eauto.
  - assert (F : forallb (live s) cs = true) by (apply forallb_forall; apply Forall_forall; exact A). rewrite F.
    destruct (mkExprInternal s k cs). eauto.
  - rewrite A. destruct (getBoundVar s name ty). eauto.
  - rewrite A. destruct (getHash s a). eauto.
  - destruct A as [-> ->]. cbn [andb]. destruct (getHash s a) as [s1 h1]. destruct (getHash s1 b). eauto.
  - assert (F : existsb (Nat.eqb a) (s_held s) = true) by (apply existsb_exists; exists a; split; [exact A|apply Nat.eqb_refl]).
    rewrite F. destruct (proj1 (dec_ok s a _ H A eq_refl) B) as (s' & E). rewrite E. cbn [bind]. eauto.
Qed.

Fixpoint held_run (h : list nat) (ops : list op) (rs : list out) : list nat :=
  match ops, rs with
  | o :: ops', r :: rs' => held_run (held_after h o r) ops' rs'
  | _, _ => h
  end.
Lemma run_ok : forall ops s s' rs, sinv s -> Forall wf_op ops -> run s ops = Ok (s', rs) ->
  sinv s' /\ evolves s s' /\ s_held s' = held_run (s_held s) ops rs.
Proof.
  induction ops as [|o ops IH]; intros s s' rs H W E; cbn [run] in E.
  - injection E as <- <-. split; [exact H|]. split; [apply evolves_refl|reflexivity].
  - inversion W as [|? ? W1 W2]; subst. destruct (step s o) as [[s1 r]| | |] eqn:Es; try discriminate. cbn [bind] in E.
    destruct (run s1 ops) as [[s2 rs2]| | |] eqn:Er; try discriminate. cbn [bind] in E. injection E as <- <-.
    destruct (step_ok s o s1 r H W1 Es) as (H1 & E1 & _ & Hh & _).
    destruct (IH s1 s2 rs2 H1 W2 Er) as (H2 & E2 & Hh2). split; [exact H2|]. split; [exact (evolves_trans _ _ _ E1 E2)|].
    cbn [held_run]. rewrite <- Hh. exact Hh2.
Qed.
(** The state around the [i]-th request. *)
Lemma run_at : forall ops s s' rs i o, sinv s -> Forall wf_op ops -> run s ops = Ok (s', rs) ->
  nth_error ops i = Some o ->
  exists si si' r, sinv si /\ step si o = Ok (si', r) /\ nth_error rs i = Some r /\ sinv si' /\ evolves s si /\ evolves si' s' /\
    answers si si' o r /\ (forall a, r = RAddr a -> live si' a = true) /\
    run s (firstn i ops) = Ok (si, firstn i rs).
Proof.
  induction ops as [|o0 ops IH]; intros s s' rs i o H W E Ho; [destruct i; discriminate|].
  cbn [run] in E. inversion W as [|? ? W1 W2]; subst. destruct (step s o0) as [[s1 r]| | |] eqn:Es; try discriminate. cbn [bind] in E.
  destruct (run s1 ops) as [[s2 rs2]| | |] eqn:Er; try discriminate. cbn [bind] in E. injection E as <- <-.
  destruct (step_ok s o0 s1 r H W1 Es) as (H1 & E1 & A1 & Hh & L1 & _).
  destruct i as [|i].
  - injection Ho as <-. exists s, s1, r. split; [exact H|]. split; [exact Es|]. split; [reflexivity|]. split; [exact H1|].
    split; [apply evolves_refl|]. split; [exact (proj1 (proj2 (run_ok _ _ _ _ H1 W2 Er)))|]. split; [exact A1|]. split; [exact L1|reflexivity].
  - cbn [nth_error] in Ho. destruct (IH s1 s2 rs2 i o H1 W2 Er Ho) as (si & si' & ri & G1 & G2 & G3 & G4 & G5 & G6 & G7 & G8 & G9).
    exists si, si', ri. split; [exact G1|]. split; [exact G2|]. split; [exact G3|]. split; [exact G4|].
    split; [exact (evolves_trans _ _ _ E1 G5)|]. split; [exact G6|]. split; [exact G7|]. split; [exact G8|].
    cbn [firstn run]. rewrite Es. cbn [bind]. rewrite G9. reflexivity.
Qed.

(** * What requests leave behind *)
Lemma step_refs : forall s o s' r, sinv s -> wf_op o -> step s o = Ok (s', r) ->
  (forall x, (length (s_nodes s) <= x < length (s_nodes s'))%nat -> In x (all_refs s')) /\
  ((exists a, o = ODrop a) \/ forall x, In x (all_refs s) -> In x (all_refs s')).
Proof.
  intros s o s' r H W E.
  assert (LitF : forall s0 l s1 a, mkLiteralInternal s0 l = (s1, a) ->
    (forall x, (length (s_nodes s0) <= x < length (s_nodes s1))%nat -> In x (all_refs s1)) /\
    (forall x, In x (all_refs s0) -> In x (all_refs s1))).
  { intros s0 l s1 a. unfold mkLiteralInternal. destruct (lits_find (s_lits s0) l) as [b|]; intro X; injection X as <- <-; [split; [intros; lia|auto]|].
    unfold all_refs. cbn [s_nodes s_held s_lits s_vars map snd]. rewrite app_length, flat_map_app. cbn [length flat_map].
    split; intro x; rewrite !in_app_iff; [intro L; right; right; left; left; lia|]. cbn [In]. tauto. }
  assert (AppF : forall s0 k cs s1 a, mkExprInternal s0 k cs = (s1, a) ->
    (forall x, (length (s_nodes s0) <= x < length (s_nodes s1))%nat -> x = a) /\
    (forall x, In x (all_refs s0) -> In x (all_refs s1))).
  { intros s0 k cs s1 a. unfold mkExprInternal. destruct (trie_lookup (s_trie s0 k) cs) as [b|]; intro X; injection X as <- <-; [split; [intros; lia|auto]|].
    unfold all_refs. cbn [s_nodes s_held s_lits s_vars map snd]. rewrite app_length, flat_map_app. cbn [length flat_map].
    split; intro x; [lia|]. rewrite !in_app_iff. tauto. }
  assert (HF : forall s0 a x, In x (all_refs s0) -> In x (all_refs (handle s0 a))) by (intros; right; assumption).
  destruct o as [k|l|k cs|name ty|a|a b|a]; cbn [step] in E.
  - unfold mkSymbolInternal in E. injection E as <- <-. split; [|right].
    + intros x. cbn [handle s_nodes]. rewrite app_length. cbn [length]. intro L. left. cbn. lia.
    + intros x Hx. apply HF. revert Hx. unfold all_refs. cbn [s_held s_nodes s_lits s_vars]. rewrite flat_map_app, !in_app_iff. tauto.
  - destruct (mkLiteralInternal s l) as [s1 a] eqn:El. injection E as <- <-. destruct (LitF _ _ _ _ El) as [F1 F2].
    split; [intros x L; apply HF; exact (F1 x L)|right; intros x L; apply HF; exact (F2 x L)].
  - destruct (forallb (live s) cs); [|discriminate]. destruct (mkExprInternal s k cs) as [s1 a] eqn:El. injection E as <- <-.
    destruct (AppF _ _ _ _ _ El) as [F1 F2].
    split; [intros x L; left; symmetry; exact (F1 x L)|right; intros x L; apply HF; exact (F2 x L)].
  - destruct (live s ty); [|discriminate]. destruct (getBoundVar s name ty) as [s1 a] eqn:El. injection E as <- <-.
    unfold getBoundVar in El. destruct (isGround _).
    + destruct (vars_find (s_vars s) name ty); [injection El as <- <-; split; [cbn [handle s_nodes]; intros; lia|right; intros x; apply HF]|].
      unfold mkSymbolInternal in El. injection El as <- <-. split; [|right].
      * intros x. cbn [handle s_nodes]. rewrite app_length. cbn [length]. intro L. left. cbn. lia.
      * intros x Hx. apply HF. revert Hx. unfold all_refs. cbn [s_held s_nodes s_lits s_vars map snd]. rewrite flat_map_app, !in_app_iff. cbn [In]. tauto.
    + destruct (mkLiteralInternal s _) as [s0 n] eqn:E0. destruct (LitF _ _ _ _ E0) as [F1 F2]. destruct (AppF _ _ _ _ _ El) as [F3 F4].
      split; [|right; auto]. intros x L. cbn [handle s_nodes] in L.
      destruct (Nat.lt_ge_cases x (length (s_nodes s0))) as [Lx|Lx]; [apply HF; apply F4; apply F1; lia|].
      left. symmetry. apply F3. lia.
  - destruct (live s a); [|discriminate]. unfold getHash in E. destruct (hash_find (s_hash s) a); injection E as <- <-; (split; [cbn [s_nodes]; intros; lia|right; auto]).
  - destruct (live s a && live s b); [|discriminate]. unfold getHash in E.
    destruct (hash_find (s_hash s) a); cbn [s_hash] in E;
      match type of E with context [let (_, _) := match ?X with Some _ => _ | None => _ end in _] => destruct X end;
      injection E as <- <-; (split; [cbn [s_nodes]; intros; lia|right; auto]).
  - split; [|left; eauto]. destruct (existsb (Nat.eqb a) (s_held s)) eqn:Ea; [|discriminate].
    apply existsb_exists in Ea. destruct Ea as (x & Hx & Ex). apply Nat.eqb_eq in Ex. subst x.
    destruct (dec_ok s a _ H Hx eq_refl) as [_ D].
    destruct (dec _ a) as [s2| | |] eqn:Ed in E; try discriminate. cbn [bind] in E. injection E as <- <-.
    destruct (D s2 Ed) as (_ & _ & -> & _). intros; lia.
Qed.

Definition released (s : store) : Prop :=
  forall x, (x < length (s_nodes s))%nat -> ~ In x (all_refs s) -> In x (s_dead s).
Lemma list_neq_cons : forall (A : Type) (l : list A) x, l <> x :: l.
Proof. intros A l x E. apply (f_equal (@length A)) in E. cbn in E. lia. Qed.
Lemma released_step : forall s o s' r, sinv s -> released s -> wf_op o -> step s o = Ok (s', r) -> released s'.
Proof.
  intros s o s' r H R W E x Lx Nx. destruct (step_refs s o s' r H W E) as [F1 F2].
  destruct (step_ok s o s' r H W E) as (H1 & E1 & _). destruct E1 as [[(ns & En) Ed] _].
  destruct (Nat.lt_ge_cases x (length (s_nodes s))) as [L|L]; [|exfalso; apply Nx; apply F1; lia].
  destruct F2 as [(a & ->)|F2].
  - destruct (in_dec Nat.eq_dec x (s_dead s)) as [D|D]; [exact (Ed x D)|].
    assert (In x (all_refs s)) as Rx by (destruct (in_dec Nat.eq_dec x (all_refs s)) as [I|I]; [exact I|exfalso; exact (D (R x L I))]).
    cbn [step] in E. destruct (existsb (Nat.eqb a) (s_held s)) eqn:Ea; [|discriminate].
    apply existsb_exists in Ea. destruct Ea as (y & Hy & Ey). apply Nat.eqb_eq in Ey. subst y.
    destruct (dec_ok s a _ H Hy eq_refl) as [_ D0]. set (s1 := mkStore _ _ _ _ _ _ _ _ _ _) in *.
    destruct (dec s1 a) as [s2| | |] eqn:Edc in E; try discriminate. cbn [bind] in E. injection E as <- <-.
    destruct (D0 s2 Edc) as (D1 & D2 & D3 & D4 & D5 & D6 & D7).
    assert (AR : forall z, In z (all_refs s2) <-> In z (all_refs s1)).
    { intro z. unfold all_refs. unfold dec in Edc. destruct (vec_at _ a) as [z0| | |]; try discriminate. cbn [bind] in Edc.
      destruct (z0 =? 0).
      - unfold markDeleted in Edc. cbn [s_nodes] in Edc. destruct (vec_at (s_nodes s1) a) as [n| | |] eqn:En2; try discriminate. cbn [bind] in Edc.
        destruct (trie_remove _ _) as [[t' b]| | |]; try discriminate. cbn [bind] in Edc. injection Edc as <-.
        cbn [s_held s_nodes s_lits s_vars].
        destruct n as [k|l|k cs]; try reflexivity. exfalso.
        assert (In a (all_refs s1)) as X.
        { unfold all_refs. rewrite !in_app_iff. right. right. left. apply (lits_find_In _ l). apply (i_lits s H).
          unfold vec_at in En2. destruct (nth_error (s_nodes s1) a) eqn:E2; [injection En2 as ->; exact E2|discriminate]. }
        pose proof (D6 X) as Y. cbn [s_dead s1] in Y. exact (list_neq_cons _ _ _ (eq_sym Y)).
      - injection Edc as <-. reflexivity. }
    destruct (Nat.eq_dec x a) as [->|Na].
    + apply D7. intro X. apply Nx. apply AR. exact X.
    + exfalso. apply Nx. apply AR. apply (count_occ_In Nat.eq_dec). apply (count_occ_In Nat.eq_dec) in Rx.
      revert Rx. unfold all_refs, s1. cbn [s_held s_nodes s_lits s_vars]. rewrite !count_occ_app.
      assert (C : count_occ Nat.eq_dec (remove_one a (s_held s)) x = count_occ Nat.eq_dec (s_held s) x).
      { pose proof (cnt_remove_one x a _ Hy) as Q. destruct (Nat.eq_dec a x); [congruence|]. unfold cnt in Q. lia. }
      rewrite C. auto.
  - apply Ed. apply R; [exact L|]. intro X. apply Nx. apply F2. exact X.
Qed.
Lemma released_run : forall ops s s' rs, sinv s -> released s -> Forall wf_op ops -> run s ops = Ok (s', rs) -> released s'.
Proof.
  induction ops as [|o ops IH]; intros s s' rs H R W E; cbn [run] in E; [injection E as <- <-; exact R|].
  inversion W as [|? ? W1 W2]; subst. destruct (step s o) as [[s1 r]| | |] eqn:Es; try discriminate. cbn [bind] in E.
  destruct (run s1 ops) as [[s2 rs2]| | |] eqn:Er; try discriminate. cbn [bind] in E. injection E as <- <-.
  apply (IH s1 s2 rs2); auto; [exact (proj1 (step_ok _ _ _ _ H W1 Es))|exact (released_step _ _ _ _ H R W1 Es)].
Qed.
Lemma released_init : released store_init.
Proof. intros x L N. exfalso. apply N. cbn in L |- *. destruct x as [|[|x]]; [auto|auto|lia]. Qed.

(** * Histories *)
Lemma history_inv : forall ops rs s, history ops rs s -> sinv s.
Proof. intros ops rs s [W R]. exact (proj1 (run_ok _ _ _ _ sinv_init W R)). Qed.

(** Answers about objects stay true. *)
Definition answers_end (s : store) (o : op) (r : out) : Prop :=
  match o with
  | OSym k => exists a, r = RAddr a /\ nth_error (s_nodes s) a = Some (NSym k)
  | OLit l => exists a, r = RAddr a /\ nth_error (s_nodes s) a = Some (NLit l)
  | OApp k cs => exists a, r = RAddr a /\ nth_error (s_nodes s) a = Some (NApp k cs)
  | OVar name ty => exists a, r = RAddr a /\
      if isGround (term_at s ty)
      then vars_find (s_vars s) name ty = Some a
      else exists n, nth_error (s_nodes s) n = Some (NLit (LStr (str_ofText true name))) /\
             nth_error (s_nodes s) a = Some (NApp K_EVAL_VAR [n; ty])
  | OHash a => exists h, r = RNum (u32 h) /\ (live s a = true -> hash_find (s_hash s) a = Some h)
  | OCmp a b => exists h1 h2, r = RBool (h2 <? h1) /\ (a = b -> h1 = h2) /\
      (live s a = true -> hash_find (s_hash s) a = Some h1) /\ (live s b = true -> hash_find (s_hash s) b = Some h2)
  | ODrop _ => r = RNone
  end.

Lemma terms_of_app : forall ms ns a, (a < length ns)%nat -> nth a (terms_of (ns ++ ms)) tdef = nth a (terms_of ns) tdef.
Proof.
  induction ms as [|m ms IH]; intros ns a L; [rewrite app_nil_r; reflexivity|].
  replace (ns ++ m :: ms) with ((ns ++ [m]) ++ ms) by (rewrite <- app_assoc; reflexivity).
  rewrite IH by (rewrite app_length; cbn; lia). rewrite terms_of_snoc, app_nth1 by (rewrite terms_of_length; exact L). reflexivity.
Qed.
Lemma extends_term : forall s s' a, extends s s' -> (a < length (s_nodes s))%nat -> term_at s' a = term_at s a.
Proof. intros s s' a [(ns & E) _] L. unfold term_at. rewrite E. apply terms_of_app. exact L. Qed.

Lemma live_hash : forall s s' a h, evolves s s' -> hash_find (s_hash s) a = Some h -> live s' a = true -> hash_find (s_hash s') a = Some h.
Proof. intros s s' a h E H L. apply live_iff in L. destruct E as (_ & _ & _ & Hh & _). destruct (Hh a h H) as [D|D]; [exfalso; exact (proj2 L D)|exact D]. Qed.

Lemma asked_answer : forall ops rs s i o r, history ops rs s -> asked ops rs i o r -> answers_end s o r.
Proof.
  intros ops rs s i o r [W R] [Ao Ar]. destruct (run_at _ _ _ _ _ _ sinv_init W R Ao) as (si & si' & r' & I & Es & Er & I' & E0 & E1 & An & Lv & _).
  rewrite Ar in Er. injection Er as <-. pose proof E1 as (X1 & _ & _ & Hh & Vv).
  destruct o as [k|l|k cs|name ty|a|a b|a]; cbn [answers answers_end] in *.
  - destruct An as (a & -> & N & _). exists a. split; [reflexivity|exact (extends_nth _ _ _ _ X1 N)].
  - destruct An as (a & -> & N). exists a. split; [reflexivity|exact (extends_nth _ _ _ _ X1 N)].
  - destruct An as (a & -> & N). exists a. split; [reflexivity|exact (extends_nth _ _ _ _ X1 N)].
  - destruct An as (a & -> & N). exists a. split; [reflexivity|].
    assert (Lt : live si ty = true) by (cbn [step] in Es; destruct (live si ty); [reflexivity|discriminate]).
    apply live_iff in Lt. destruct Lt as [Lt _].
    assert (Et : term_at s ty = nth ty (terms_of (s_nodes si)) tdef).
    { assert (X0 : extends si si') by exact (proj1 (proj1 (proj2 (step_ok si (OVar name ty) _ _ I Logic.I Es)))).
      rewrite (extends_term si s ty (extends_trans _ _ _ X0 X1) Lt). reflexivity. }
    rewrite Et. destruct (isGround _); [exact (Vv _ _ _ N)|]. destruct N as (n & N1 & N2). exists n.
    split; [exact (extends_nth _ _ _ _ X1 N1)|exact (extends_nth _ _ _ _ X1 N2)].
  - destruct An as (h & -> & N). exists h. split; [reflexivity|]. intro L. exact (live_hash _ _ _ _ E1 N L).
  - destruct An as (h1 & h2 & -> & N1 & N2). exists h1, h2. split; [reflexivity|]. split; [intros <-; congruence|].
    split; intro L; eapply live_hash; eassumption.
  - exact An.
Qed.

Lemma run_length : forall ops s s' rs, run s ops = Ok (s', rs) -> length rs = length ops.
Proof.
  induction ops as [|o ops IH]; intros s s' rs E; cbn [run] in E; [injection E as <- <-; reflexivity|].
  destruct (step s o) as [[s1 r]| | |]; try discriminate. cbn [bind] in E.
  destruct (run s1 ops) as [[s2 rs2]| | |] eqn:Er; try discriminate. cbn [bind] in E. injection E as <- <-. cbn. rewrite (IH _ _ _ Er). reflexivity.
Qed.
Lemma run_app : forall ops1 ops2 s s' rs, run s (ops1 ++ ops2) = Ok (s', rs) ->
  exists s1 rs1 rs2, run s ops1 = Ok (s1, rs1) /\ run s1 ops2 = Ok (s', rs2) /\ rs = rs1 ++ rs2.
Proof.
  induction ops1 as [|o ops1 IH]; intros ops2 s s' rs E.
  - exists s, [], rs. split; [reflexivity|]. split; [exact E|reflexivity].
  - cbn [app run] in E. destruct (step s o) as [[s1 r]| | |] eqn:Es; try discriminate. cbn [bind] in E.
    destruct (run s1 (ops1 ++ ops2)) as [[s2 rs2]| | |] eqn:Er; try discriminate. cbn [bind] in E. injection E as <- <-.
    destruct (IH _ _ _ _ Er) as (s3 & r3 & r4 & G1 & G2 & ->). exists s3, (r :: r3), r4.
    split; [cbn [run]; rewrite Es; cbn [bind]; rewrite G1; reflexivity|]. split; [exact G2|reflexivity].
Qed.
Lemma history_stable : forall ops1 ops2 rs1 rs s1 s a, history ops1 rs1 s1 -> history (ops1 ++ ops2) rs s ->
  (a < length (s_nodes s1))%nat -> term_at s a = term_at s1 a.
Proof.
  intros ops1 ops2 rs1 rs s1 s a [W1 R1] [W R] L. destruct (run_app _ _ _ _ _ R) as (s2 & r2 & r3 & G1 & G2 & _).
  rewrite R1 in G1. injection G1 as <- <-. apply Forall_app in W. destruct W as [_ W2].
  pose proof (proj1 (run_ok _ _ _ _ sinv_init W1 R1)) as I1.
  destruct (run_ok _ _ _ _ I1 W2 G2) as (_ & E & _). apply extends_term; [exact (proj1 E)|exact L].
Qed.

Lemma no_drop_step : forall s o s' r, sinv s -> wf_op o -> step s o = Ok (s', r) -> (forall a, o <> ODrop a) ->
  s_bad s' = s_bad s /\ s_dead s' = s_dead s.
Proof.
  intros s o s' r H W E N. destruct (step_ok s o s' r H W E) as (_ & _ & _ & _ & _ & [D|(a & ->)]); [|exfalso; exact (N a eq_refl)].
  split; [|exact D]. destruct o as [k|l|k cs|name ty|a|a b|a]; cbn [step] in E.
  - injection E as <- <-. reflexivity.
  - unfold mkLiteralInternal in E. destruct (lits_find _ _); injection E as <- <-; reflexivity.
  - destruct (forallb _ _); [|discriminate]. unfold mkExprInternal in E. destruct (trie_lookup _ _); injection E as <- <-; reflexivity.
  - destruct (live s ty) eqn:Lt; [|discriminate]. pose proof (getBoundVar_ok s name ty H Lt) as M. destruct (getBoundVar s name ty) as [s1 b].
    injection E as <- <-. destruct M as (_ & _ & _ & R & _). exact (proj1 (proj2 R)).
  - destruct (live _ _); [|discriminate]. unfold getHash in E. destruct (hash_find _ _); injection E as <- <-; reflexivity.
  - destruct (_ && _); [|discriminate]. destruct (getHash s a) as [s1 h1] eqn:E1. destruct (getHash s1 b) as [s2 h2] eqn:E2. injection E as <- <-.
    unfold getHash in E1, E2. destruct (hash_find (s_hash s) a); injection E1 as <- <-; destruct (hash_find _ b); injection E2 as <- <-; reflexivity.
  - exfalso. exact (N a eq_refl).
Qed.
Lemma no_drop_run : forall ops s s' rs, sinv s -> Forall wf_op ops -> run s ops = Ok (s', rs) -> (forall a, ~ In (ODrop a) ops) ->
  s_bad s' = s_bad s /\ s_dead s' = s_dead s.
Proof.
  induction ops as [|o ops IH]; intros s s' rs H W E N; cbn [run] in E; [injection E as <- <-; auto|].
  inversion W as [|? ? W1 W2]; subst. destruct (step s o) as [[s1 r]| | |] eqn:Es; try discriminate. cbn [bind] in E.
  destruct (run s1 ops) as [[s2 rs2]| | |] eqn:Er; try discriminate. cbn [bind] in E. injection E as <- <-.
  destruct (no_drop_step s o s1 r H W1 Es) as [B D]; [intros a ->; apply (N a); left; reflexivity|].
  destruct (IH s1 s2 rs2 (proj1 (step_ok _ _ _ _ H W1 Es)) W2 Er) as [B2 D2]; [intros a X; apply (N a); right; exact X|].
  split; congruence.
Qed.
Lemma no_drop : forall ops rs s, history ops rs s -> (forall a, ~ In (ODrop a) ops) -> s_bad s = false /\ s_dead s = [].
Proof. intros ops rs s [W R] N. exact (no_drop_run _ _ _ _ sinv_init W R N). Qed.

Lemma Forall_firstn : forall (A : Type) (P : A -> Prop) l n, Forall P l -> Forall P (firstn n l).
Proof. intros A P l n H. rewrite <- (firstn_skipn n l) in H. apply Forall_app in H. apply H. Qed.
Lemma nth_error_firstn_lt : forall (A : Type) (l : list A) i j, (i < j)%nat -> nth_error (firstn j l) i = nth_error l i.
Proof.
  intros A l. induction l as [|x l IH]; intros i j L; [rewrite firstn_nil; reflexivity|].
  destruct j as [|j]; [lia|]. destruct i as [|i]; [reflexivity|]. cbn. apply IH. lia.
Qed.
Lemma symbols_lt : forall ops rs s i j k1 k2 a1 a2, history ops rs s -> (i < j)%nat ->
  asked ops rs i (OSym k1) (RAddr a1) -> asked ops rs j (OSym k2) (RAddr a2) -> (a1 < a2)%nat.
Proof.
  intros ops rs s i j k1 k2 a1 a2 [W R] L [A1 B1] [A2 B2].
  destruct (run_at _ _ _ _ _ _ sinv_init W R A2) as (sj & sj' & r & Ij & Es & Er & _ & _ & _ & An & _ & Rj).
  rewrite B2 in Er. injection Er as <-. cbn in An. destruct An as (x & Ex & _ & ->). injection Ex as ->.
  assert (Hj : history (firstn j ops) (firstn j rs) sj) by (split; [apply Forall_firstn; exact W|exact Rj]).
  assert (As : asked (firstn j ops) (firstn j rs) i (OSym k1) (RAddr a1)) by (split; rewrite nth_error_firstn_lt by exact L; assumption).
  destruct (asked_answer _ _ _ _ _ _ Hj As) as (y & Ey & Ny). injection Ey as <-. apply nth_error_Some. congruence.
Qed.
Lemma symbols_fresh : forall ops rs s i j k1 k2 a1 a2, history ops rs s -> i <> j ->
  asked ops rs i (OSym k1) (RAddr a1) -> asked ops rs j (OSym k2) (RAddr a2) -> a1 <> a2.
Proof.
  intros ops rs s i j k1 k2 a1 a2 H N A1 A2. destruct (Nat.lt_trichotomy i j) as [L|[L|L]]; [|contradiction|].
  - pose proof (symbols_lt _ _ _ _ _ _ _ _ _ H L A1 A2). lia.
  - pose proof (symbols_lt _ _ _ _ _ _ _ _ _ H L A2 A1). lia.
Qed.

Lemma children_live : forall s a k cs c, sinv s -> nth_error (s_nodes s) a = Some (NApp k cs) -> In c cs -> live s c = true.
Proof.
  intros s a k cs c H Ha Hc. apply refs_live; [exact H|]. unfold all_refs. rewrite !in_app_iff. right. left.
  apply in_flat_map. exists (NApp k cs). split; [exact (nth_error_In _ _ Ha)|exact Hc].
Qed.
Lemma live_terms_inj : forall s, sinv s -> s_bad s = false ->
  forall a b, live s a = true -> live s b = true -> term_at s a = term_at s b -> a = b.
Proof.
  intros s H B a. induction a as [a IH] using (well_founded_induction lt_wf). intros b La Lb E.
  pose proof La as La'. pose proof Lb as Lb'. apply live_iff in La', Lb'. destruct La' as [La1 La2], Lb' as [Lb1 Lb2].
  destruct (nth_error (s_nodes s) a) as [na|] eqn:Ea; [|apply nth_error_None in Ea; lia].
  destruct (nth_error (s_nodes s) b) as [nb|] eqn:Eb; [|apply nth_error_None in Eb; lia].
  unfold term_at in E. fold tdef in E. rewrite (terms_of_nth _ _ _ (i_order s H) Ea), (terms_of_nth _ _ _ (i_order s H) Eb) in E.
  destruct na as [k1|l1|k1 cs1], nb as [k2|l2|k2 cs2]; try discriminate.
  - injection E as _ E. lia.
  - injection E as ->. apply (i_lits s H) in Ea, Eb. congruence.
  - injection E as -> E.
    assert (Ec : cs1 = cs2).
    { assert (L1 : forall c, In c cs1 -> live s c = true /\ (c < a)%nat).
      { intros c Hc. split; [exact (children_live s a k2 cs1 c H Ea Hc)|]. pose proof (i_order s H a k2 cs1 Ea) as O. rewrite Forall_forall in O. exact (O c Hc). }
      assert (L2 : forall c, In c cs2 -> live s c = true) by (intros c Hc; exact (children_live s b k2 cs2 c H Eb Hc)).
      clear Ea Eb. revert cs2 E L2. induction cs1 as [|c1 cs1 IHc]; intros [|c2 cs2] E L2; try discriminate; [reflexivity|].
      cbn [map] in E. injection E as E1 E2. f_equal.
      - apply IH; [apply L1; left; reflexivity|apply L1; left; reflexivity|apply L2; left; reflexivity|exact E1].
      - apply IHc; [intros c Hc; apply L1; right; exact Hc|exact E2|intros c Hc; apply L2; right; exact Hc]. }
    subst cs2. pose proof (i_complete s H B _ _ _ Ea La2). pose proof (i_complete s H B _ _ _ Eb Lb2). congruence.
Qed.

(** * Hashes and orders in histories *)
Lemma count_step : forall s o s' r, sinv s -> wf_op o -> step s o = Ok (s', r) -> s_count s' <= s_count s + 2.
Proof.
  intros s o s' r H W E. destruct o as [k|l|k cs|name ty|a|a b|a]; cbn [step] in E.
  - injection E as <- <-. cbn. lia.
  - unfold mkLiteralInternal in E. destruct (lits_find _ _); injection E as <- <-; cbn; lia.
  - destruct (forallb _ _); [|discriminate]. unfold mkExprInternal in E. destruct (trie_lookup _ _); injection E as <- <-; cbn; lia.
  - destruct (live s ty) eqn:Lt; [|discriminate]. pose proof (getBoundVar_ok s name ty H Lt) as M. destruct (getBoundVar s name ty) as [s1 b].
    injection E as <- <-. destruct M as (_ & _ & _ & (_ & _ & _ & R & _) & _). cbn. lia.
  - destruct (live _ _); [|discriminate]. unfold getHash in E. destruct (hash_find _ _); injection E as <- <-; cbn; lia.
  - destruct (_ && _); [|discriminate]. destruct (getHash s a) as [s1 h1] eqn:E1. destruct (getHash s1 b) as [s2 h2] eqn:E2. injection E as <- <-.
    unfold getHash in E1, E2. destruct (hash_find (s_hash s) a); injection E1 as <- <-; destruct (hash_find _ b); injection E2 as <- <-; cbn; lia.
  - destruct (existsb _ _); [|discriminate]. unfold dec in E. cbn [s_rc s_nodes] in E. destruct (vec_at _ a) as [z| | |]; try discriminate. cbn [bind] in E.
    destruct (z =? 0); cbn [bind] in E; [|injection E as <- <-; cbn; lia].
    unfold markDeleted in E. destruct (vec_at _ a) as [n| | |]; try discriminate. cbn [bind] in E.
    destruct (trie_remove _ _) as [[t' b]| | |]; try discriminate. cbn [bind] in E. injection E as <- <-. cbn. lia.
Qed.
Lemma count_run : forall ops s s' rs, sinv s -> Forall wf_op ops -> run s ops = Ok (s', rs) ->
  s_count s' <= s_count s + 2 * Z.of_nat (length ops).
Proof.
  induction ops as [|o ops IH]; intros s s' rs H W E; cbn [run] in E; [injection E as <- <-; cbn; lia|].
  inversion W as [|? ? W1 W2]; subst. destruct (step s o) as [[s1 r]| | |] eqn:Es; try discriminate. cbn [bind] in E.
  destruct (run s1 ops) as [[s2 rs2]| | |] eqn:Er; try discriminate. cbn [bind] in E. injection E as <- <-.
  pose proof (count_step _ _ _ _ H W1 Es). pose proof (IH s1 s2 rs2 (proj1 (step_ok _ _ _ _ H W1 Es)) W2 Er). cbn [length]. lia.
Qed.
Lemma u32_id : forall ops rs s a h, history ops rs s -> 2 * Z.of_nat (length ops) < 2 ^ 32 -> hash_find (s_hash s) a = Some h -> u32 h = h.
Proof.
  intros ops rs s a h H L Hh. pose proof (i_hash s (history_inv _ _ _ H) a h Hh) as R. destruct H as [W Rn].
  pose proof (count_run _ _ _ _ sinv_init W Rn) as C. cbn [store_init s_count] in C. unfold u32. apply Z.mod_small. lia.
Qed.
Lemma hash_injective : forall ops rs s i j a b x y, history ops rs s -> 2 * Z.of_nat (length ops) < 2 ^ 32 ->
  asked ops rs i (OHash a) (RNum x) -> asked ops rs j (OHash b) (RNum y) -> live s a = true -> live s b = true ->
  (x = y <-> a = b).
Proof.
  intros ops rs s i j a b x y H L A1 A2 La Lb.
  destruct (asked_answer _ _ _ _ _ _ H A1) as (h1 & E1 & N1). destruct (asked_answer _ _ _ _ _ _ H A2) as (h2 & E2 & N2).
  injection E1 as ->. injection E2 as ->. specialize (N1 La). specialize (N2 Lb).
  rewrite (u32_id _ _ _ _ _ H L N1), (u32_id _ _ _ _ _ H L N2). split; [|intros <-; congruence].
  intros <-. exact (i_hash_inj s (history_inv _ _ _ H) _ _ _ N1 N2).
Qed.
Lemma cmp_irrefl : forall ops rs s i a r, history ops rs s -> asked ops rs i (OCmp a a) r -> r = RBool false.
Proof.
  intros ops rs s i a r H A. destruct (asked_answer _ _ _ _ _ _ H A) as (h1 & h2 & -> & E & _). rewrite (E eq_refl), Z.ltb_irrefl. reflexivity.
Qed.
Lemma cmp_total : forall ops rs s i j a b r r', history ops rs s ->
  asked ops rs i (OCmp a b) (RBool r) -> asked ops rs j (OCmp b a) (RBool r') -> live s a = true -> live s b = true -> a <> b -> r' = negb r.
Proof.
  intros ops rs s i j a b r r' H A1 A2 La Lb N.
  destruct (asked_answer _ _ _ _ _ _ H A1) as (h1 & h2 & E1 & _ & F1 & F2). destruct (asked_answer _ _ _ _ _ _ H A2) as (g1 & g2 & E2 & _ & G1 & G2).
  injection E1 as ->. injection E2 as ->. specialize (F1 La). specialize (F2 Lb). specialize (G1 Lb). specialize (G2 La).
  rewrite F1 in G2. rewrite F2 in G1. injection G1 as <-. injection G2 as <-.
  destruct (Z.ltb_spec h2 h1), (Z.ltb_spec h1 h2); try reflexivity; [lia|]. exfalso. apply N.
  assert (h1 = h2) by lia. subst. exact (i_hash_inj s (history_inv _ _ _ H) _ _ _ F1 F2).
Qed.
Lemma cmp_trans : forall ops rs s i j l a b c r, history ops rs s ->
  asked ops rs i (OCmp a b) (RBool true) -> asked ops rs j (OCmp b c) (RBool true) -> asked ops rs l (OCmp a c) (RBool r) ->
  live s a = true -> live s b = true -> live s c = true -> r = true.
Proof.
  intros ops rs s i j l a b c r H A1 A2 A3 La Lb Lc.
  destruct (asked_answer _ _ _ _ _ _ H A1) as (h1 & h2 & E1 & _ & F1 & F2). destruct (asked_answer _ _ _ _ _ _ H A2) as (g1 & g2 & E2 & _ & G1 & G2).
  destruct (asked_answer _ _ _ _ _ _ H A3) as (k1 & k2 & E3 & _ & K1 & K2).
  injection E1 as E1. injection E2 as E2. injection E3 as ->.
  specialize (F1 La). specialize (F2 Lb). specialize (G1 Lb). specialize (G2 Lc). specialize (K1 La). specialize (K2 Lc).
  rewrite F1 in K1. injection K1 as <-. rewrite F2 in G1. injection G1 as <-. rewrite G2 in K2. injection K2 as <-.
  symmetry in E1, E2. apply Z.ltb_lt in E1, E2. apply Z.ltb_lt. lia.
Qed.
Lemma cmp_stable : forall ops rs s i j a b r r', history ops rs s ->
  asked ops rs i (OCmp a b) r -> asked ops rs j (OCmp a b) r' -> live s a = true -> live s b = true -> r = r'.
Proof.
  intros ops rs s i j a b r r' H A1 A2 La Lb.
  destruct (asked_answer _ _ _ _ _ _ H A1) as (h1 & h2 & -> & _ & F1 & F2). destruct (asked_answer _ _ _ _ _ _ H A2) as (g1 & g2 & -> & _ & G1 & G2).
  specialize (F1 La). specialize (F2 Lb). specialize (G1 La). specialize (G2 Lb). congruence.
Qed.
Lemma cmp_hash : forall ops rs s i j l a b r x y, history ops rs s -> 2 * Z.of_nat (length ops) < 2 ^ 32 ->
  asked ops rs i (OCmp a b) (RBool r) -> asked ops rs j (OHash a) (RNum x) -> asked ops rs l (OHash b) (RNum y) ->
  live s a = true -> live s b = true -> r = (y <? x).
Proof.
  intros ops rs s i j l a b r x y H L A1 A2 A3 La Lb.
  destruct (asked_answer _ _ _ _ _ _ H A1) as (h1 & h2 & E1 & _ & F1 & F2).
  destruct (asked_answer _ _ _ _ _ _ H A2) as (g1 & E2 & G1). destruct (asked_answer _ _ _ _ _ _ H A3) as (g2 & E3 & G2).
  injection E1 as ->. injection E2 as ->. injection E3 as ->. specialize (F1 La). specialize (F2 Lb). specialize (G1 La). specialize (G2 Lb).
  rewrite (u32_id _ _ _ _ _ H L G1), (u32_id _ _ _ _ _ H L G2). congruence.
Qed.

(** * Variables in histories *)
Lemma vars_exact : forall ops rs s i j n1 n2 t1 t2 a1 a2, history ops rs s ->
  asked ops rs i (OVar n1 t1) (RAddr a1) -> asked ops rs j (OVar n2 t2) (RAddr a2) ->
  isGround (term_at s t1) = true -> isGround (term_at s t2) = true ->
  (a1 = a2 <-> n1 = n2 /\ t1 = t2).
Proof.
  intros ops rs s i j n1 n2 t1 t2 a1 a2 H A1 A2 G1 G2.
  destruct (asked_answer _ _ _ _ _ _ H A1) as (x1 & E1 & F1). destruct (asked_answer _ _ _ _ _ _ H A2) as (x2 & E2 & F2).
  injection E1 as <-. injection E2 as <-. rewrite G1 in F1. rewrite G2 in F2. split.
  - intros <-. exact (i_vars_inj s (history_inv _ _ _ H) _ _ _ _ _ F1 F2).
  - intros [<- <-]. congruence.
Qed.
Lemma vars_nonground : forall ops rs s i j n1 n2 t1 t2 a1 a2, history ops rs s -> s_bad s = false ->
  asked ops rs i (OVar n1 t1) (RAddr a1) -> asked ops rs j (OVar n2 t2) (RAddr a2) ->
  isGround (term_at s t1) = false -> isGround (term_at s t2) = false -> live s a1 = true -> live s a2 = true ->
  (a1 = a2 <-> str_ofText true n1 = str_ofText true n2 /\ t1 = t2).
Proof.
  intros ops rs s i j n1 n2 t1 t2 a1 a2 H B A1 A2 G1 G2 L1 L2.
  destruct (asked_answer _ _ _ _ _ _ H A1) as (x1 & E1 & F1). destruct (asked_answer _ _ _ _ _ _ H A2) as (x2 & E2 & F2).
  injection E1 as <-. injection E2 as <-. rewrite G1 in F1. rewrite G2 in F2.
  destruct F1 as (m1 & M1 & P1), F2 as (m2 & M2 & P2). pose proof (history_inv _ _ _ H) as I. split.
  - intros <-. rewrite P1 in P2. injection P2 as <- <-. rewrite M1 in M2. injection M2 as E. auto.
  - intros [E <-]. rewrite <- E in M2. apply (i_lits s I) in M1, M2. assert (m1 = m2) by congruence. subst m2.
    apply live_iff in L1, L2. pose proof (i_complete s I B _ _ _ P1 (proj2 L1)). pose proof (i_complete s I B _ _ _ P2 (proj2 L2)). congruence.
Qed.

(** * Safety of removal *)
Lemma remove_safe_iff : forall t p e a u, trie_lookup t (p ++ [e]) = Some a -> node_at t p = Some u ->
  ((exists t', trie_remove t (p ++ [e]) = Ok (t', false)) <-> (1 < length (t_ch u))%nat) /\
  trie_remove t (p ++ [e]) <> UB.
Proof.
  intros t p e a u H Hu. rewrite lookup_node_at in H. destruct (node_at t (p ++ [e])) as [v|] eqn:Ev; [|discriminate].
  destruct (proj2 (walk_ok (p ++ [e]) t O None) (ex_intro _ v Ev)) as (r & Hr). unfold trie_remove. rewrite Hr. cbn [bind].
  pose proof (walk_last p e t O None u Hu r Hr) as L. destruct r as [d|].
  - split; [|discriminate]. split; [intros (t' & X); discriminate|]. intro X. apply L in X. discriminate.
  - split; [|discriminate]. split; [intros _; apply L; reflexivity|]. intros _. eexists. reflexivity.
Qed.

(** * Handles in histories *)
Lemma cnt_held_run : forall ops s s' rs a, sinv s -> Forall wf_op ops -> run s ops = Ok (s', rs) ->
  cnt a (s_held s') = cnt a (s_held s) + Z.of_nat (given a rs) - Z.of_nat (dropped a ops).
Proof.
  induction ops as [|o ops IH]; intros s s' rs a H W E; cbn [run] in E; [injection E as <- <-; cbn; lia|].
  inversion W as [|? ? W1 W2]; subst. destruct (step s o) as [[s1 r]| | |] eqn:Es; try discriminate. cbn [bind] in E.
  destruct (run s1 ops) as [[s2 rs2]| | |] eqn:Er; try discriminate. cbn [bind] in E. injection E as <- <-.
  destruct (step_ok s o s1 r H W1 Es) as (H1 & _ & An & Hh & _). rewrite (IH s1 s2 rs2 a H1 W2 Er), Hh.
  unfold given, dropped. cbn [filter]. clear IH Er Hh.
  assert (cnt a (held_after (s_held s) o r) + Z.of_nat (if is_drop a o then 1%nat else 0%nat) =
          cnt a (s_held s) + Z.of_nat (if is_addr a r then 1%nat else 0%nat)) as Q.
  { assert (AC : forall x l, cnt a (x :: l) = cnt a l + Z.of_nat (if Nat.eqb a x then 1%nat else 0%nat)).
    { intros x l. rewrite cnt_cons. destruct (Nat.eq_dec x a), (Nat.eqb_spec a x); try congruence; lia. }
    destruct o as [k|l|k cs|name ty|b|b c|b]; cbn [answers] in An; cbn [is_drop].
    - destruct An as (x & -> & _). cbn [held_after is_addr]. rewrite AC. lia.
    - destruct An as (x & -> & _). cbn [held_after is_addr]. rewrite AC. lia.
    - destruct An as (x & -> & _). cbn [held_after is_addr]. rewrite AC. lia.
    - destruct An as (x & -> & _). cbn [held_after is_addr]. rewrite AC. lia.
    - destruct An as (x & -> & _). cbn [held_after is_addr]. lia.
    - destruct An as (x & y & -> & _). cbn [held_after is_addr]. lia.
    - subst r. cbn [held_after is_addr]. cbn [step] in Es. destruct (existsb (Nat.eqb b) (s_held s)) eqn:Ea; [|discriminate].
      apply existsb_exists in Ea. destruct Ea as (x & Hx & Ex). apply Nat.eqb_eq in Ex. subst x.
      rewrite cnt_remove_one by exact Hx. destruct (Nat.eq_dec b a), (Nat.eqb_spec a b); subst; try congruence; cbn; lia. }
  destruct (is_drop a o), (is_addr a r); cbn [length]; lia.
Qed.
Lemma part_live : forall s a b, sinv s -> part s a b -> live s b = true -> live s a = true.
Proof.
  intros s a b H P. induction P as [|b k cs c N I P IH]; intro L; [exact L|]. apply IH. exact (children_live s b k cs c H N I).
Qed.
Lemma in_use_live : forall ops rs s a b, history ops rs s -> (dropped b ops < given b rs)%nat -> part s a b -> live s a = true.
Proof.
  intros ops rs s a b H L P. pose proof (history_inv _ _ _ H) as I. destruct H as [W R].
  apply (part_live s a b I P). apply refs_live; [exact I|]. unfold all_refs. rewrite in_app_iff. left.
  pose proof (cnt_held_run _ _ _ _ b sinv_init W R) as C. cbn [store_init s_held] in C. unfold cnt in C. cbn [count_occ] in C.
  apply (count_occ_In Nat.eq_dec). lia.
Qed.
Lemma arguments_kept : forall ops rs s i k cs a c, history ops rs s ->
  asked ops rs i (OApp k cs) (RAddr a) -> In c cs -> live s c = true.
Proof.
  intros ops rs s i k cs a c H A Hc. destruct (asked_answer _ _ _ _ _ _ H A) as (x & _ & N).
  exact (children_live s x k cs c (history_inv _ _ _ H) N Hc).
Qed.
Lemma unused_freed : forall ops rs s a n, history ops rs s ->
  nth_error (s_nodes s) a = Some n -> (forall l, n <> NLit l) -> n <> NSym K_VARIABLE ->
  (forall b k cs, nth_error (s_nodes s) b = Some (NApp k cs) -> ~ In a cs) ->
  dropped a ops = given a rs -> live s a = false.
Proof.
  intros ops rs s a n H Ha Nl Nv Nc D. pose proof (history_inv _ _ _ H) as I. destruct H as [W R].
  pose proof (released_run _ _ _ _ sinv_init released_init W R) as Rl.
  apply not_true_is_false. intro L. apply live_iff in L. destruct L as [L1 L2]. apply L2. apply Rl; [exact L1|].
  unfold all_refs. rewrite !in_app_iff. intros [X|[X|[X|X]]].
  - pose proof (cnt_held_run _ _ _ _ a sinv_init W R) as C. cbn [store_init s_held] in C.
    apply (count_occ_In Nat.eq_dec) in X. unfold cnt in C. cbn [count_occ] in C. lia.
  - apply in_flat_map in X. destruct X as (m & Hm & Xc). destruct m as [k|l|k cs]; try contradiction.
    apply In_nth_error in Hm. destruct Hm as (b & Hb). exact (Nc b k cs Hb Xc).
  - apply in_map_iff in X. destruct X as ([l b] & <- & X). apply (i_lits_in s I) in X. cbn [snd] in *. rewrite X in Ha. injection Ha as <-. exact (Nl l eq_refl).
  - apply in_map_iff in X. destruct X as ([[m t] b] & <- & X). apply (i_vars_in s I) in X. cbn [snd] in *. congruence.
Qed.
