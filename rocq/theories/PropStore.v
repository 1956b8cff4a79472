(** Properties C30 to C34 and C54 to C56: the term store. *)
From Coq Require Import ZArith List Bool Lia Arith.
From Verif Require Import Base Kind Ints Str Literal LiteralProofs2 Term TermProofs Store SpecLit SpecStore StoreProofs PropLit.
Import ListNotations.
Open Scope Z_scope.

(** * C32: sharing *)
Theorem C32_applications_differ : forall ops rs s i j k1 k2 cs1 cs2 a, history ops rs s ->
  asked ops rs i (OApp k1 cs1) (RAddr a) -> asked ops rs j (OApp k2 cs2) (RAddr a) -> k1 = k2 /\ cs1 = cs2.
Proof.
  intros ops rs s i j k1 k2 cs1 cs2 a H A1 A2.
  pose proof (asked_answer _ _ _ _ _ _ H A1) as (x & E1 & N1). pose proof (asked_answer _ _ _ _ _ _ H A2) as (y & E2 & N2).
  injection E1 as <-. injection E2 as <-. rewrite N1 in N2. injection N2 as <- <-. auto.
Qed.
Print Assumptions C32_applications_differ.

(** Two constructions yield the same object exactly when they are for the same
    kind and arguments, if the objects were not freed in between and no freed
    memory was written. *)
Theorem C32_same_application : forall ops rs s i j k1 k2 cs1 cs2 a1 a2, history ops rs s -> s_bad s = false ->
  asked ops rs i (OApp k1 cs1) (RAddr a1) -> asked ops rs j (OApp k2 cs2) (RAddr a2) ->
  live s a1 = true -> live s a2 = true -> (a1 = a2 <-> k1 = k2 /\ cs1 = cs2).
Proof.
  intros ops rs s i j k1 k2 cs1 cs2 a1 a2 H B A1 A2 L1 L2.
  pose proof (asked_answer _ _ _ _ _ _ H A1) as (x & E1 & N1). pose proof (asked_answer _ _ _ _ _ _ H A2) as (y & E2 & N2).
  injection E1 as <-. injection E2 as <-. split; [intros <-; rewrite N1 in N2; injection N2 as <- <-; auto|].
  intros [<- <-]. apply live_iff in L1, L2. pose proof (history_inv _ _ _ H) as I.
  pose proof (i_complete s I B _ _ _ N1 (proj2 L1)) as X1. pose proof (i_complete s I B _ _ _ N2 (proj2 L2)) as X2. congruence.
Qed.
Print Assumptions C32_same_application.

(** In particular if nothing was dropped. *)
Theorem C32_without_deletion : forall ops rs s i j k1 k2 cs1 cs2 a1 a2, history ops rs s -> (forall a, ~ In (ODrop a) ops) ->
  asked ops rs i (OApp k1 cs1) (RAddr a1) -> asked ops rs j (OApp k2 cs2) (RAddr a2) ->
  (a1 = a2 <-> k1 = k2 /\ cs1 = cs2).
Proof.
  intros ops rs s i j k1 k2 cs1 cs2 a1 a2 H D A1 A2. destruct (no_drop _ _ _ H D) as [B De].
  apply (C32_same_application ops rs s i j k1 k2 cs1 cs2 a1 a2 H B A1 A2).
  - destruct (asked_answer _ _ _ _ _ _ H A1) as (x & E1 & N1). injection E1 as <-.
    apply live_iff. split; [apply nth_error_Some; congruence|rewrite De; auto].
  - destruct (asked_answer _ _ _ _ _ _ H A2) as (x & E1 & N1). injection E1 as <-.
    apply live_iff. split; [apply nth_error_Some; congruence|rewrite De; auto].
Qed.
Print Assumptions C32_without_deletion.

(** Literals are shared for ever. *)
Theorem C32_literals : forall ops rs s i j l1 l2 a1 a2, history ops rs s ->
  asked ops rs i (OLit l1) (RAddr a1) -> asked ops rs j (OLit l2) (RAddr a2) -> (a1 = a2 <-> l1 = l2).
Proof.
  intros ops rs s i j l1 l2 a1 a2 H A1 A2.
  pose proof (asked_answer _ _ _ _ _ _ H A1) as (x & E1 & N1). pose proof (asked_answer _ _ _ _ _ _ H A2) as (y & E2 & N2).
  injection E1 as <-. injection E2 as <-. split; [intros <-; congruence|]. intros <-. pose proof (history_inv _ _ _ H) as I.
  apply (i_lits s I) in N1, N2. congruence.
Qed.
Print Assumptions C32_literals.

(** Symbols are never shared. *)
Theorem C32_symbols : forall ops rs s i j k1 k2 a1 a2, history ops rs s -> i <> j ->
  asked ops rs i (OSym k1) (RAddr a1) -> asked ops rs j (OSym k2) (RAddr a2) -> a1 <> a2.
Proof. exact symbols_fresh. Qed.
Print Assumptions C32_symbols.

(** Terms that can be reached are the same object exactly when they are equal. *)
Theorem C32_equal_terms : forall ops rs s a b, history ops rs s -> s_bad s = false ->
  live s a = true -> live s b = true -> (a = b <-> term_at s a = term_at s b).
Proof.
  intros ops rs s a b H B La Lb. split; [intros <-; reflexivity|]. intro E.
  exact (live_terms_inj s (history_inv _ _ _ H) B a b La Lb E).
Qed.
Print Assumptions C32_equal_terms.

(** Terms at addresses do not change. *)
Theorem C32_stable : forall ops1 ops2 rs1 rs s1 s a, history ops1 rs1 s1 -> history (ops1 ++ ops2) rs s ->
  (a < length (s_nodes s1))%nat -> term_at s a = term_at s1 a.
Proof. exact history_stable. Qed.
Print Assumptions C32_stable.

Definition h_sym : list op := [OSym K_CONST; OSym K_CONST; OSym K_CONST].
Definition h_share : list op :=
  h_sym ++ [OApp K_APPLY [2; 3]; OApp K_APPLY [2; 4]; OLit (LNum 7); ODrop 5; OApp K_APPLY [2; 3]; OApp K_APPLY [2; 4]; OLit (LNum 7)]%nat.
Example C32_example : exists s,
  history h_share [RAddr 2; RAddr 3; RAddr 4; RAddr 5; RAddr 6; RAddr 7; RNone; RAddr 8; RAddr 6; RAddr 7]%nat s /\
  s_bad s = false /\ live s 5 = false /\ live s 6 = true /\ live s 8 = true.
Proof.
  eexists. split; [split; [repeat constructor|vm_compute; reflexivity]|]. vm_compute. auto.
Qed.
Example C32_example_no_drop : exists rs s, history (h_sym ++ [OApp K_APPLY [2; 3]; OApp K_APPLY [2; 4]; OApp K_APPLY [2; 3]]%nat) rs s /\
  asked (h_sym ++ [OApp K_APPLY [2; 3]; OApp K_APPLY [2; 4]; OApp K_APPLY [2; 3]]%nat) rs 3 (OApp K_APPLY [2; 3]%nat) (RAddr 5) /\
  asked (h_sym ++ [OApp K_APPLY [2; 3]; OApp K_APPLY [2; 4]; OApp K_APPLY [2; 3]]%nat) rs 5 (OApp K_APPLY [2; 3]%nat) (RAddr 5) /\
  term_at s 5 = Node K_APPLY [Sym K_CONST 2; Sym K_CONST 3].
Proof.
  eexists. eexists. split; [split; [repeat constructor|vm_compute; reflexivity]|]. vm_compute. repeat split; reflexivity.
Qed.

(** * C30: hashes *)
Theorem C30_hash : forall ops rs s i j a b x y, history ops rs s -> 2 * Z.of_nat (length ops) < 2 ^ 32 ->
  asked ops rs i (OHash a) (RNum x) -> asked ops rs j (OHash b) (RNum y) -> live s a = true -> live s b = true ->
  (x = y <-> a = b).
Proof. exact hash_injective. Qed.
Print Assumptions C30_hash.

Theorem C30_compare_irreflexive : forall ops rs s i a r, history ops rs s ->
  asked ops rs i (OCmp a a) r -> r = RBool false.
Proof. exact cmp_irrefl. Qed.
Print Assumptions C30_compare_irreflexive.
Theorem C30_compare_total : forall ops rs s i j a b r r', history ops rs s ->
  asked ops rs i (OCmp a b) (RBool r) -> asked ops rs j (OCmp b a) (RBool r') -> live s a = true -> live s b = true -> a <> b -> r' = negb r.
Proof. exact cmp_total. Qed.
Print Assumptions C30_compare_total.
Theorem C30_compare_transitive : forall ops rs s i j l a b c r, history ops rs s ->
  asked ops rs i (OCmp a b) (RBool true) -> asked ops rs j (OCmp b c) (RBool true) -> asked ops rs l (OCmp a c) (RBool r) ->
  live s a = true -> live s b = true -> live s c = true -> r = true.
Proof. exact cmp_trans. Qed.
Print Assumptions C30_compare_transitive.
Theorem C30_compare_stable : forall ops rs s i j a b r r', history ops rs s ->
  asked ops rs i (OCmp a b) r -> asked ops rs j (OCmp a b) r' -> live s a = true -> live s b = true -> r = r'.
Proof. exact cmp_stable. Qed.
Print Assumptions C30_compare_stable.
Theorem C30_compare_hash : forall ops rs s i j l a b r x y, history ops rs s -> 2 * Z.of_nat (length ops) < 2 ^ 32 ->
  asked ops rs i (OCmp a b) (RBool r) -> asked ops rs j (OHash a) (RNum x) -> asked ops rs l (OHash b) (RNum y) ->
  live s a = true -> live s b = true -> r = (y <? x).
Proof. exact cmp_hash. Qed.
Print Assumptions C30_compare_hash.

Definition h_hash : list op :=
  h_sym ++ [OHash 3; OCmp 2 3; OLit (LNum 1); OHash 2; OCmp 3 4; OCmp 2 4; OCmp 4 2; OHash 4; OHash 3; OCmp 2 2; OCmp 4 3]%nat.
Example C30_example : exists s, history h_hash
  [RAddr 2; RAddr 3; RAddr 4; RNum 1; RBool true; RAddr 5; RNum 2; RBool false; RBool false; RBool true; RNum 3; RNum 1; RBool false; RBool true]%nat s /\
  live s 2 = true /\ live s 3 = true /\ live s 4 = true.
Proof. eexists. split; [split; [repeat constructor|vm_compute; reflexivity]|]. vm_compute. auto. Qed.

(** Without the assumption that terms are kept: the same term, asked twice, has
    two hashes, and the order of two terms changes. *)
Theorem C56_hash_refuted : exists ops rs s i j a b x y, history ops rs s /\ s_bad s = false /\
  asked ops rs i (OHash a) (RNum x) /\ asked ops rs j (OHash b) (RNum y) /\
  term_at s a = term_at s b /\ x <> y.
Proof.
  exists (h_sym ++ [OApp K_APPLY [2; 3]; OApp K_APPLY [2; 4]; OHash 5; ODrop 5; OApp K_APPLY [2; 3]; OHash 7]%nat).
  eexists. eexists. exists 5%nat, 8%nat, 5%nat, 7%nat, 1, 2.
  split; [split; [repeat constructor|vm_compute; reflexivity]|]. vm_compute. repeat split; try reflexivity. discriminate.
Qed.
Print Assumptions C56_hash_refuted.
Theorem C56_order_refuted : exists ops rs s i j a b c r r', history ops rs s /\ s_bad s = false /\
  asked ops rs i (OCmp a b) (RBool r) /\ asked ops rs j (OCmp c b) (RBool r') /\
  term_at s a = term_at s c /\ r <> r'.
Proof.
  exists (h_sym ++ [OApp K_APPLY [2; 3]; OApp K_APPLY [2; 4]; OCmp 5 6; ODrop 5; OApp K_APPLY [2; 3]; OCmp 7 6]%nat).
  eexists. eexists. exists 5%nat, 8%nat, 5%nat, 6%nat, 7%nat, false, true.
  split; [split; [repeat constructor|vm_compute; reflexivity]|]. vm_compute. repeat split; try reflexivity. discriminate.
Qed.
Print Assumptions C56_order_refuted.

(** Full statement: also if the terms were dropped and built again.  Missing: the terms are
    still in use at the end. *)
Theorem C56_partial : forall ops rs s i j a b x y, history ops rs s -> s_bad s = false -> 2 * Z.of_nat (length ops) < 2 ^ 32 ->
  asked ops rs i (OHash a) (RNum x) -> asked ops rs j (OHash b) (RNum y) -> live s a = true -> live s b = true ->
  (x = y <-> term_at s a = term_at s b).
Proof.
  intros ops rs s i j a b x y H B L A1 A2 La Lb. rewrite <- (C32_equal_terms ops rs s a b H B La Lb). exact (C30_hash ops rs s i j a b x y H L A1 A2 La Lb).
Qed.
Print Assumptions C56_partial.
Theorem C56_order_partial : forall ops rs s i j a b c d r r', history ops rs s -> s_bad s = false ->
  asked ops rs i (OCmp a b) r -> asked ops rs j (OCmp c d) r' -> live s a = true -> live s b = true -> live s c = true -> live s d = true ->
  term_at s a = term_at s c -> term_at s b = term_at s d -> r = r'.
Proof.
  intros ops rs s i j a b c d r r' H B A1 A2 La Lb Lc Ld E1 E2.
  apply (C32_equal_terms ops rs s a c H B La Lc) in E1. apply (C32_equal_terms ops rs s b d H B Lb Ld) in E2. subst c d.
  exact (C30_compare_stable ops rs s i j a b r r' H A1 A2 La Lb).
Qed.
Print Assumptions C56_order_partial.
(** The two requests for f(x) give the same object while it is in use. *)
Example C56_example : exists s rs, history (h_sym ++ [OApp K_APPLY [2; 3]; OHash 5; OApp K_APPLY [2; 3]; OHash 5; OCmp 5 2; OHash 2; OCmp 5 2]%nat) rs s /\
  s_bad s = false /\ live s 5 = true /\ live s 2 = true /\ nth_error rs 4 = Some (RNum 1) /\ nth_error rs 6 = Some (RNum 1).
Proof. do 2 eexists. split; [split; [repeat constructor|vm_compute; reflexivity]|]. vm_compute. auto. Qed.

(** * C31: bound variables *)
Theorem C31_ground : forall ops rs s i j n1 n2 t1 t2 a1 a2, history ops rs s ->
  asked ops rs i (OVar n1 t1) (RAddr a1) -> asked ops rs j (OVar n2 t2) (RAddr a2) ->
  isGround (term_at s t1) = true -> isGround (term_at s t2) = true ->
  (a1 = a2 <-> n1 = n2 /\ t1 = t2).
Proof. exact vars_exact. Qed.
Print Assumptions C31_ground.

(** If the type is not ground, the name is read as a string with escapes. *)
Theorem C31_not_ground : forall ops rs s i j n1 n2 t1 t2 a1 a2, history ops rs s -> s_bad s = false ->
  asked ops rs i (OVar n1 t1) (RAddr a1) -> asked ops rs j (OVar n2 t2) (RAddr a2) ->
  isGround (term_at s t1) = false -> isGround (term_at s t2) = false -> live s a1 = true -> live s a2 = true ->
  (a1 = a2 <-> str_ofText true n1 = str_ofText true n2 /\ t1 = t2).
Proof. exact vars_nonground. Qed.
Print Assumptions C31_not_ground.

Example C31_var_operator_example : str_wf [1; 92; 65] /\ str_toText [1; 92; 65] = [92; 117; 123; 49; 125; 92; 117; 123; 53; 99; 125; 65].
Proof. split; [repeat constructor; lia|vm_compute; reflexivity]. Qed.
Definition nm_x : text := [120].
Definition nm_y : text := [121].
Definition h_var : list op :=
  [OSym K_CONST; OVar nm_x 2; OVar nm_y 2; OSym K_CONST; OVar nm_x 5; OVar nm_x 2; OSym K_PARAM; OVar nm_x 7; OVar nm_y 7; OVar nm_x 7]%nat.
Example C31_example : exists s, history h_var [RAddr 2; RAddr 3; RAddr 4; RAddr 5; RAddr 6; RAddr 3; RAddr 7; RAddr 9; RAddr 11; RAddr 9]%nat s /\
  s_bad s = false /\ isGround (term_at s 2) = true /\ isGround (term_at s 5) = true /\ isGround (term_at s 7) = false.
Proof. eexists. split; [split; [repeat constructor|vm_compute; reflexivity]|]. vm_compute. auto. Qed.

(** |\u{41}| and A are two names; bound with a parametric type they are the same
    variable. *)
Theorem C31_escaped_name_refuted : exists ops rs s i j n1 n2 t a, history ops rs s /\
  asked ops rs i (OVar n1 t) (RAddr a) /\ asked ops rs j (OVar n2 t) (RAddr a) /\ n1 <> n2.
Proof.
  exists [OSym K_PARAM; OVar [65]%Z 2; OVar [92; 117; 123; 52; 49; 125]%Z 2]%nat. eexists. eexists.
  exists 1%nat, 2%nat, [65], [92; 117; 123; 52; 49; 125], 2%nat, 4%nat.
  split; [split; [repeat constructor|vm_compute; reflexivity]|]. vm_compute. repeat split; try reflexivity. discriminate.
Qed.
Print Assumptions C31_escaped_name_refuted.
(** eo::var: the name is the printed form of a string value. *)
Theorem C31_var_operator : forall ops rs s i j n1 n2 t1 t2 a1 a2, history ops rs s -> str_wf n1 -> str_wf n2 ->
  asked ops rs i (OVar (str_toText n1) t1) (RAddr a1) -> asked ops rs j (OVar (str_toText n2) t2) (RAddr a2) ->
  isGround (term_at s t1) = true -> isGround (term_at s t2) = true ->
  (a1 = a2 <-> n1 = n2 /\ t1 = t2).
Proof.
  intros ops rs s i j n1 n2 t1 t2 a1 a2 H W1 W2 A1 A2 G1 G2. rewrite (C31_ground _ _ _ _ _ _ _ _ _ _ _ H A1 A2 G1 G2).
  split; [|intros [<- <-]; auto]. intros [E <-]. split; [|reflexivity].
  rewrite <- (C08_string_text_roundtrip n1 W1), <- (C08_string_text_roundtrip n2 W2), E. reflexivity.
Qed.
Print Assumptions C31_var_operator.

(** * C33: removal from the sharing table keeps other entries *)
Definition C33_statement : Prop := forall t p t' b q, trie_remove t p = Ok (t', b) ->
  trie_lookup t p <> None -> q <> p -> trie_lookup t' q = trie_lookup t q.
(** (-> A B) is no longer found after (-> A B C) was deleted. *)
Theorem C33_refuted : exists t p t' b q, trie_remove t p = Ok (t', b) /\
  trie_lookup t p <> None /\ q <> p /\ trie_lookup t q <> None /\ trie_lookup t' q = None.
Proof.
  exists (trie_set (trie_set t_empty [2; 3] (Some 5)) [2; 3; 4] (Some 6))%nat, [2; 3; 4]%nat. eexists. eexists. exists [2; 3]%nat.
  split; [vm_compute; reflexivity|]. vm_compute. repeat split; discriminate.
Qed.
Print Assumptions C33_refuted.
(** Missing for [C33_statement]: the removals that write to erased memory. *)
Theorem C33_partial : forall t p t' q, trie_remove t p = Ok (t', false) ->
  trie_lookup t' p = None /\ (q <> p -> trie_lookup t' q = trie_lookup t q).
Proof.
  intros t p t' q H. unfold trie_remove in H. destruct (remove_walk t p 0 None) as [[d|]| | |]; try discriminate.
  injection H as <-. split; [apply lookup_set_same|]. intro N. apply lookup_set_other. congruence.
Qed.
Print Assumptions C33_partial.
(** Otherwise exactly the entries below some prefix of the key are gone. *)
Theorem C33_lost : forall t p t', trie_remove t p = Ok (t', true) ->
  exists d, (d < length p)%nat /\
    (forall q, prefix (firstn (S d) p) q -> trie_lookup t' q = None) /\
    (forall q, ~ prefix (firstn (S d) p) q -> trie_lookup t' q = trie_lookup t q).
Proof.
  intros t p t' H. unfold trie_remove in H. destruct (remove_walk t p 0 None) as [[d|]| | |] eqn:Er; try discriminate.
  injection H as <-. pose proof (proj1 (walk_ok p t O None) (ex_intro _ _ Er)) as Hu.
  assert (Hd : (d < length p)%nat) by (apply walk_depth in Er; [exact Er|discriminate]).
  exists d. split; [exact Hd|]. split; intros q Hq; [apply cut_lost|apply cut_kept]; assumption.
Qed.
Print Assumptions C33_lost.
Example C33_example : exists t p t', trie_remove t p = Ok (t', false) /\ trie_lookup t p = Some 6%nat /\ trie_lookup t' [2; 3]%nat = Some 5%nat.
Proof. exists (trie_set (trie_set t_empty [2; 3] (Some 5)) [2; 4] (Some 6))%nat, [2; 4]%nat. eexists. vm_compute. auto. Qed.
(** In a program that goes on after the write: a term that is still in use is built
    a second time, as another object. *)
Theorem C33_two_objects_refuted : exists ops rs s i j k cs a b, history ops rs s /\
  asked ops rs i (OApp k cs) (RAddr a) /\ asked ops rs j (OApp k cs) (RAddr b) /\ (forall c, ~ In (ODrop c) ops \/ c <> a) /\
  live s a = true /\ live s b = true /\ a <> b.
Proof.
  exists (h_sym ++ [OApp K_FUNCTION_TYPE [2; 3]; OApp K_FUNCTION_TYPE [2; 3; 4]; ODrop 6; OApp K_FUNCTION_TYPE [2; 3]]%nat).
  eexists. eexists. exists 3%nat, 6%nat, K_FUNCTION_TYPE, [2; 3]%nat, 5%nat, 7%nat.
  split; [split; [repeat constructor|vm_compute; reflexivity]|]. split; [vm_compute; auto|]. split; [vm_compute; auto|].
  split. { intro c. destruct (Nat.eq_dec c 5) as [->|N]; [left; vm_compute; intuition discriminate|right; exact N]. }
  vm_compute. repeat split; discriminate.
Qed.
Print Assumptions C33_two_objects_refuted.

(** * C34: removal is memory safe *)
Theorem C34_refuted : exists ops rs s, history ops rs s /\ s_bad s = true.
Proof.
  exists (h_sym ++ [OApp K_APPLY [2; 3]; ODrop 5]%nat). eexists. eexists.
  split; [split; [repeat constructor|vm_compute; reflexivity]|]. reflexivity.
Qed.
Print Assumptions C34_refuted.
(** A later removal follows a pointer that is not there. *)
Theorem C34_missing_entry_refuted : exists ops, Forall wf_op ops /\ run store_init ops = UB /\
  exists rs s a, history (removelast ops) rs s /\ last ops (ODrop 0) = ODrop a /\ In a (s_held s).
Proof.
  exists (h_sym ++ [OApp K_FUNCTION_TYPE [2; 3]; OApp K_FUNCTION_TYPE [2; 3; 4]; ODrop 6; ODrop 5]%nat).
  split; [repeat constructor|]. split; [vm_compute; reflexivity|]. eexists. eexists. exists 5%nat.
  split; [split; [repeat constructor|vm_compute; reflexivity]|]. split; [reflexivity|]. vm_compute. auto.
Qed.
Print Assumptions C34_missing_entry_refuted.
(** Removal of an entry is safe exactly when the last argument has a sibling. *)
Theorem C34_safe_iff : forall t p e a u, trie_lookup t (p ++ [e]) = Some a -> node_at t p = Some u ->
  ((exists t', trie_remove t (p ++ [e]) = Ok (t', false)) <-> (1 < length (t_ch u))%nat) /\
  trie_remove t (p ++ [e]) <> UB.
Proof. exact remove_safe_iff. Qed.
Print Assumptions C34_safe_iff.
Example C34_example : let t := (trie_set (trie_set t_empty [2; 3] (Some 5)) [2; 4] (Some 6))%nat in
  trie_lookup t ([2] ++ [4])%nat = Some 6%nat /\ exists u, node_at t [2]%nat = Some u /\ length (t_ch u) = 2%nat.
Proof. split; [reflexivity|]. eexists. split; reflexivity. Qed.
(** Until that happens no request of a caller that respects the interface fails. *)
Theorem C34_requests_served : forall ops rs s o, history ops rs s -> s_bad s = false -> allowed s o ->
  exists s' r, step s o = Ok (s', r).
Proof. intros ops rs s o H B A. exact (step_total s o (history_inv _ _ _ H) B A). Qed.
Print Assumptions C34_requests_served.

(** * C54: what is in use is not freed *)
Theorem C54_in_use : forall ops rs s a b, history ops rs s -> (dropped b ops < given b rs)%nat -> part s a b -> live s a = true.
Proof. exact in_use_live. Qed.
Print Assumptions C54_in_use.
Example C54_example : exists rs s, history h_share rs s /\ (dropped 8 h_share < given 8 rs)%nat /\ part s 3 8.
Proof.
  eexists. eexists. split; [split; [repeat constructor|vm_compute; reflexivity]|]. split; [vm_compute; lia|].
  apply (part_child _ 3 8 K_APPLY [2; 3] 3)%nat; [reflexivity|vm_compute; auto|apply part_self].
Qed.

(** * C55: what is not in use is freed *)
Definition C55_statement : Prop := forall ops rs s i k cs a, history ops rs s ->
  asked ops rs i (OApp k cs) (RAddr a) -> (forall b, part s a b -> dropped b ops = given b rs) -> live s a = false.
(** All handles are gone; the inner application is still there. *)
Theorem C55_refuted : exists ops rs s i k cs a, history ops rs s /\ s_bad s = false /\
  asked ops rs i (OApp k cs) (RAddr a) /\ (forall b, dropped b ops = given b rs) /\ live s a = true.
Proof.
  exists (h_sym ++ [OApp K_APPLY [2; 3]; OApp K_APPLY [2; 5]; OApp K_APPLY [2; 4]; ODrop 6; ODrop 5; ODrop 4; ODrop 3; ODrop 2; ODrop 7]%nat).
  eexists. eexists. exists 3%nat, K_APPLY, [2; 3]%nat, 5%nat.
  split; [split; [repeat constructor|vm_compute; reflexivity]|]. split; [reflexivity|]. split; [vm_compute; auto|]. split; [|reflexivity].
  intro b. do 8 (destruct b as [|b]; [vm_compute; reflexivity|]). reflexivity.
Qed.
Print Assumptions C55_refuted.
(** A term that was ever an argument is never freed again. *)
Theorem C55_arguments_kept : forall ops rs s i k cs a c, history ops rs s ->
  asked ops rs i (OApp k cs) (RAddr a) -> In c cs -> live s c = true.
Proof. exact arguments_kept. Qed.
Print Assumptions C55_arguments_kept.
(** A symbol or application without handles that was never an argument is freed.
    Missing for [C55_statement]: terms that are arguments of freed terms. *)
Theorem C55_partial : forall ops rs s a n, history ops rs s ->
  nth_error (s_nodes s) a = Some n -> (forall l, n <> NLit l) -> n <> NSym K_VARIABLE ->
  (forall b k cs, nth_error (s_nodes s) b = Some (NApp k cs) -> ~ In a cs) ->
  dropped a ops = given a rs -> live s a = false.
Proof. exact unused_freed. Qed.
Print Assumptions C55_partial.
Example C55_example : exists rs s, history h_share rs s /\ nth_error (s_nodes s) 5 = Some (NApp K_APPLY [2; 3]%nat) /\
  (forall b k cs, nth_error (s_nodes s) b = Some (NApp k cs) -> ~ In 5%nat cs) /\ dropped 5 h_share = given 5 rs.
Proof.
  eexists. eexists. split; [split; [repeat constructor|vm_compute; reflexivity]|]. split; [reflexivity|]. split; [|reflexivity].
  intros b k cs. do 9 (destruct b as [|b]; [vm_compute; intro E; try discriminate; injection E as <- <-; intuition lia|]).
  destruct b; discriminate.
Qed.
