(** The flag computation is exact (C17). *)
From Coq Require Import ZArith List Bool Lia.
From Verif Require Import Base Kind Literal Term SpecTerm TermProofs.
Import ListNotations.

Lemma get_set_same : forall s t f, get_flags (set_flags s t f) t = f.
Proof. intros s t f. unfold set_flags. cbn [get_flags]. rewrite term_eqb_refl. reflexivity. Qed.

Lemma get_set_other : forall s t u f, t <> u -> get_flags (set_flags s t f) u = get_flags s u.
Proof.
  intros s t u f H. unfold set_flags. cbn [get_flags].
  apply term_eqb_neq in H. rewrite H. reflexivity.
Qed.

Definition exact (s : flag_store) (u : term) : Prop :=
  f_eval (get_flags s u) = isEvaluatable u /\ f_nonground (get_flags s u) = nonGround u.
Definition zero (s : flag_store) (u : term) : Prop :=
  f_eval (get_flags s u) = false /\ f_nonground (get_flags s u) = false.
Definition computed (s : flag_store) (u : term) : bool := f_computed (get_flags s u).

(** Every term in memory has either no flags or the right flags. *)
Definition store_ok (s : flag_store) : Prop :=
  forall u, if computed s u then exact s u else zero s u.

Record Inv (P visited : list term) (s : flag_store) : Prop := mkInv {
  inv_prog : forall u, In u P -> computed s u = true /\ zero s u /\ In u visited;
  inv_done : forall u, ~ In u P -> if computed s u then exact s u else zero s u;
  inv_vis : forall u, In u visited -> computed s u = true }.

Definition ready (s : flag_store) (visited : list term) (t : term) : Prop :=
  computed s t = false \/ In t visited \/ tchildren t = [].

Record Post (P visited visited' : list term) (s s' : flag_store) : Prop := mkPost {
  post_inv : Inv P visited' s';
  post_vis : incl visited visited';
  post_mono : forall u, computed s u = true -> computed s' u = true;
  post_new : forall u, computed s u = false -> computed s' u = true ->
               In u visited' \/ tchildren u = [] }.

Lemma Post_refl : forall P v s, Inv P v s -> Post P v v s s.
Proof. intros P v s H. constructor; auto; [apply incl_refl|congruence]. Qed.

Lemma Post_trans : forall P v1 v2 v3 s1 s2 s3,
  Post P v1 v2 s1 s2 -> Post P v2 v3 s2 s3 -> Post P v1 v3 s1 s3.
Proof.
  intros P v1 v2 v3 s1 s2 s3 [I1 V1 M1 N1] [I2 V2 M2 N2]. constructor; auto.
  - eapply incl_tran; eauto.
  - intros u H1 H3. destruct (computed s2 u) eqn:E.
    + destruct (N1 u H1 E) as [H|H]; [left; apply V2; exact H|right; exact H].
    + apply N2; assumption.
Qed.

(** Folding the flags of children whose flags are exact or zero. *)
Lemma fold_or_eval : forall s cs f,
  f_eval (fold_left (fun f c => or_flags f (get_flags s c)) cs f)
  = f_eval f || existsb (fun c => f_eval (get_flags s c)) cs.
Proof.
  intros s cs. induction cs as [|c cs IH]; intro f; cbn [fold_left existsb]; [rewrite orb_false_r; reflexivity|].
  rewrite IH. cbn [or_flags f_eval]. rewrite orb_assoc. reflexivity.
Qed.
Lemma fold_or_ng : forall s cs f,
  f_nonground (fold_left (fun f c => or_flags f (get_flags s c)) cs f)
  = f_nonground f || existsb (fun c => f_nonground (get_flags s c)) cs.
Proof.
  intros s cs. induction cs as [|c cs IH]; intro f; cbn [fold_left existsb]; [rewrite orb_false_r; reflexivity|].
  rewrite IH. cbn [or_flags f_nonground]. rewrite orb_assoc. reflexivity.
Qed.
Lemma fold_or_computed : forall s cs f, f_computed f = true ->
  f_computed (fold_left (fun f c => or_flags f (get_flags s c)) cs f) = true.
Proof.
  intros s cs. induction cs as [|c cs IH]; intros f H; cbn [fold_left]; [exact H|].
  apply IH. cbn [or_flags f_computed]. rewrite H. reflexivity.
Qed.

Lemma existsb_ext_in : forall (f g : term -> bool) l,
  (forall c, In c l -> f c = g c) -> existsb f l = existsb g l.
Proof.
  intros f g l. induction l as [|c l IH]; intro H; [reflexivity|].
  cbn [existsb]. rewrite (H c) by (left; reflexivity). rewrite IH; [reflexivity|].
  intros d Hd. apply H. right; exact Hd.
Qed.

Lemma existsb_le : forall (f g : term -> bool) l,
  (forall c, In c l -> f c = true -> g c = true) -> existsb f l = true -> existsb g l = true.
Proof.
  intros f g l H. rewrite !existsb_exists. intros (c & Hin & Hc). exists c; auto.
Qed.

Definition processes (t : term) : Prop := forall P visited s rest,
  Inv P visited s -> (forall u, In u P -> (tsize t < tsize u)%nat) -> ready s visited t ->
  exists n visited' s',
    (forall fuel, computeFlags_loop (n + fuel) (t :: rest) visited s
                  = computeFlags_loop fuel rest visited' s') /\
    Post P visited visited' s s' /\ computed s' t = true.

Lemma process_list : forall l, Forall processes l ->
  forall P visited s rest, Inv P visited s ->
  (forall t u, In t l -> In u P -> (tsize t < tsize u)%nat) ->
  (forall t, In t l -> ready s visited t) ->
  exists n visited' s',
    (forall fuel, computeFlags_loop (n + fuel) (l ++ rest) visited s
                  = computeFlags_loop fuel rest visited' s') /\
    Post P visited visited' s s' /\ (forall t, In t l -> computed s' t = true).
Proof.
  intros l HF. induction HF as [|t l Ht HF IH]; intros P visited s rest HI Hsz Hr.
  - exists O, visited, s. split; [reflexivity|]. split; [apply Post_refl; exact HI|intros t []].
  - destruct (Ht P visited s (l ++ rest) HI) as (n1 & v1 & s1 & E1 & P1 & C1).
    { intros u Hu. apply Hsz; [left; reflexivity|exact Hu]. }
    { apply Hr; left; reflexivity. }
    destruct (IH P v1 s1 rest (post_inv _ _ _ _ _ P1)) as (n2 & v2 & s2 & E2 & P2 & C2).
    { intros t' u Ht' Hu. apply Hsz; [right; exact Ht'|exact Hu]. }
    { intros t' Ht'. destruct (Hr t' (or_intror Ht')) as [H|[H|H]].
      - destruct (computed s1 t') eqn:E; [|left; exact E].
        right. destruct (post_new _ _ _ _ _ P1 t' H E) as [X|X]; [left|right]; exact X.
      - right; left. apply (post_vis _ _ _ _ _ P1); exact H.
      - right; right; exact H. }
    exists (n1 + n2)%nat, v2, s2. split; [|split].
    + intro fuel. cbn [app]. rewrite <- Nat.add_assoc, E1, E2. reflexivity.
    + eapply Post_trans; eauto.
    + intros t' [->|Ht']; [apply (post_mono _ _ _ _ _ P2); exact C1|apply C2; exact Ht'].
Qed.

Lemma loop_leaf : forall fuel t rest visited s, tchildren t = [] ->
  computeFlags_loop (1 + fuel) (t :: rest) visited s =
  computeFlags_loop fuel rest visited
    (set_flags s t (mkFlags true (leaf_eval (tkind t)) (leaf_nonground (tkind t)))).
Proof. intros fuel t rest visited s H. cbn [Nat.add computeFlags_loop]. rewrite H. reflexivity. Qed.

Lemma loop_expand : forall fuel t rest visited s, tchildren t <> [] -> ~ In t visited ->
  let f0 := get_flags s t in
  let s1 := set_flags s t (mkFlags true (f_eval f0) (f_nonground f0)) in
  computeFlags_loop (1 + fuel) (t :: rest) visited s =
  computeFlags_loop fuel
    (rev (filter (fun c => negb (computed s1 c)) (tchildren t)) ++ t :: rest) (t :: visited) s1.
Proof.
  intros fuel t rest visited s H Hv f0 s1. cbn [Nat.add computeFlags_loop].
  apply mem_term_not_In in Hv. rewrite Hv. cbn [negb].
  destruct (tchildren t) as [|c cs]; [contradiction|]. reflexivity.
Qed.

Definition finish_flags (s : flag_store) (t : term) : flags :=
  let f0 := get_flags s t in
  let f := mkFlags true (f_eval f0) (f_nonground f0) in
  let s1 := set_flags s t f in
  let f1 := if isLiteralOp (tkind t) then mkFlags true true (f_nonground f) else f in
  fold_left (fun f c => or_flags f (get_flags s1 c)) (tchildren t) f1.

Lemma loop_finish : forall fuel t rest visited s, tchildren t <> [] -> In t visited ->
  let f0 := get_flags s t in
  let s1 := set_flags s t (mkFlags true (f_eval f0) (f_nonground f0)) in
  computeFlags_loop (1 + fuel) (t :: rest) visited s =
  computeFlags_loop fuel rest visited (set_flags s1 t (finish_flags s t)).
Proof.
  intros fuel t rest visited s H Hv f0 s1. cbn [Nat.add computeFlags_loop].
  apply mem_term_In in Hv. rewrite Hv. cbn [negb]. unfold finish_flags.
  destruct (tchildren t) as [|c cs]; [contradiction|]. reflexivity.
Qed.

Lemma finish_flags_spec : forall s t P visited,
  tchildren t <> [] -> Inv P visited s -> (forall u, In u P -> (tsize t <= tsize u)%nat) ->
  ((zero s t /\ forall c, In c (tchildren t) -> computed s c = true) \/ exact s t) ->
  f_computed (finish_flags s t) = true /\
  f_eval (finish_flags s t) = isEvaluatable t /\
  f_nonground (finish_flags s t) = nonGround t.
Proof.
  intros s t P visited Hne HI Hsz Hz.
  assert (Hch : forall c, In c (tchildren t) ->
    t <> c /\ if computed s c then exact s c else zero s c).
  { intros c Hin. pose proof (tsize_child c t Hin) as Hlt.
    split; [intros ->; lia|].
    assert (Hnp : ~ In c P) by (intro X; apply Hsz in X; lia).
    exact (inv_done _ _ _ HI c Hnp). }
  unfold finish_flags. cbv zeta.
  set (s1 := set_flags s t _).
  assert (E1 : existsb (fun c => f_eval (get_flags s1 c)) (tchildren t)
               = existsb (fun c => f_eval (get_flags s c)) (tchildren t)).
  { apply existsb_ext_in. intros c Hin. destruct (Hch c Hin) as (Hn & _).
    unfold s1. rewrite get_set_other by exact Hn. reflexivity. }
  assert (E2 : existsb (fun c => f_nonground (get_flags s1 c)) (tchildren t)
               = existsb (fun c => f_nonground (get_flags s c)) (tchildren t)).
  { apply existsb_ext_in. intros c Hin. destruct (Hch c Hin) as (Hn & _).
    unfold s1. rewrite get_set_other by exact Hn. reflexivity. }
  rewrite fold_or_eval, fold_or_ng, E1, E2.
  rewrite fold_or_computed by (destruct (isLiteralOp (tkind t)); reflexivity).
  split; [reflexivity|].
  rewrite isEvaluatable_node, nonGround_node by exact Hne.
  destruct Hz as [[[Z1 Z2] Hc]|[Z1 Z2]].
  - assert (X1 : existsb (fun c => f_eval (get_flags s c)) (tchildren t)
               = existsb isEvaluatable (tchildren t)).
    { apply existsb_ext_in. intros c Hin. destruct (Hch c Hin) as (_ & D).
      rewrite (Hc c Hin) in D. apply D. }
    assert (X2 : existsb (fun c => f_nonground (get_flags s c)) (tchildren t)
               = existsb nonGround (tchildren t)).
    { apply existsb_ext_in. intros c Hin. destruct (Hch c Hin) as (_ & D).
      rewrite (Hc c Hin) in D. apply D. }
    rewrite X1, X2.
    destruct (isLiteralOp (tkind t)); cbn [f_eval f_nonground]; rewrite ?Z1, ?Z2; auto.
  - rewrite isEvaluatable_node in Z1 by exact Hne. rewrite nonGround_node in Z2 by exact Hne.
    assert (X1 : existsb (fun c => f_eval (get_flags s c)) (tchildren t) = true ->
                 existsb isEvaluatable (tchildren t) = true).
    { apply existsb_le. intros c Hin Hf. destruct (Hch c Hin) as (_ & D).
      destruct (computed s c); destruct D as [D1 D2]; congruence. }
    assert (X2 : existsb (fun c => f_nonground (get_flags s c)) (tchildren t) = true ->
                 existsb nonGround (tchildren t) = true).
    { apply existsb_le. intros c Hin Hf. destruct (Hch c Hin) as (_ & D).
      destruct (computed s c); destruct D as [D1 D2]; congruence. }
    destruct (existsb (fun c => f_eval (get_flags s c)) (tchildren t)) eqn:Y1;
    destruct (existsb (fun c => f_nonground (get_flags s c)) (tchildren t)) eqn:Y2;
    try (rewrite (X1 eq_refl) in *); try (rewrite (X2 eq_refl) in *);
    destruct (isLiteralOp (tkind t)); cbn [f_eval f_nonground orb] in *; rewrite ?Z1, ?Z2;
    rewrite ?orb_true_r, ?orb_false_r; auto.
Qed.

Lemma Inv_set_done : forall P visited s t f, Inv P visited s -> ~ In t P ->
  f_computed f = true -> f_eval f = isEvaluatable t -> f_nonground f = nonGround t ->
  Inv P visited (set_flags s t f).
Proof.
  intros P visited s t f HI Hn Hc He Hg. constructor.
  - intros u Hu. assert (t <> u) by (intros ->; contradiction).
    unfold computed, zero. rewrite get_set_other by assumption.
    exact (inv_prog _ _ _ HI u Hu).
  - intros u Hu. unfold computed, exact, zero. destruct (term_eq_dec t u) as [<-|Hd].
    + rewrite get_set_same, Hc. auto.
    + rewrite get_set_other by assumption. exact (inv_done _ _ _ HI u Hu).
  - intros u Hu. unfold computed. destruct (term_eq_dec t u) as [<-|Hd].
    + rewrite get_set_same. exact Hc.
    + rewrite get_set_other by assumption. exact (inv_vis _ _ _ HI u Hu).
Qed.

Lemma set_set : forall s t f g u, get_flags (set_flags (set_flags s t f) t g) u
  = get_flags (set_flags s t g) u.
Proof.
  intros s t f g u. destruct (term_eq_dec t u) as [<-|H].
  - rewrite !get_set_same. reflexivity.
  - rewrite !get_set_other by assumption. reflexivity.
Qed.

Lemma Inv_ext : forall P v s s', (forall u, get_flags s u = get_flags s' u) -> Inv P v s -> Inv P v s'.
Proof.
  intros P v s s' E [H1 H2 H3].
  constructor; intro u; unfold computed, zero, exact in *; rewrite <- E;
    [exact (H1 u)|exact (H2 u)|exact (H3 u)].
Qed.

(** Finishing a term whose children are done. *)
Lemma finish_step : forall t P visited s rest,
  tchildren t <> [] -> In t visited -> ~ In t P ->
  (forall u, In u P -> (tsize t < tsize u)%nat) ->
  (Inv P visited s \/
   Inv (t :: P) visited s /\ forall c, In c (tchildren t) -> computed s c = true) ->
  exists s',
    (forall fuel, computeFlags_loop (1 + fuel) (t :: rest) visited s
                  = computeFlags_loop fuel rest visited s') /\
    Inv P visited s' /\ computed s' t = true /\
    (forall u, u <> t -> get_flags s' u = get_flags s u).
Proof.
  intros t P visited s rest Hne Hv Hnp Hsz HI.
  set (s1 := set_flags s t (mkFlags true (f_eval (get_flags s t)) (f_nonground (get_flags s t)))).
  exists (set_flags s1 t (finish_flags s t)).
  assert (HF : f_computed (finish_flags s t) = true /\
               f_eval (finish_flags s t) = isEvaluatable t /\
               f_nonground (finish_flags s t) = nonGround t).
  { destruct HI as [HI|[HI Hc]].
    - eapply finish_flags_spec; eauto.
      + intros u Hu. apply Hsz in Hu. lia.
      + right. pose proof (inv_done _ _ _ HI t Hnp) as D.
        rewrite (inv_vis _ _ _ HI t Hv) in D. exact D.
    - eapply finish_flags_spec; eauto.
      + intros u [->|Hu]; [lia|]. apply Hsz in Hu. lia.
      + left. split; [|exact Hc]. apply (inv_prog _ _ _ HI t). left; reflexivity. }
  destruct HF as (F1 & F2 & F3).
  split; [|split; [|split]].
  - intro fuel. apply loop_finish; assumption.
  - apply (Inv_ext _ _ (set_flags s t (finish_flags s t))).
    { intro u. symmetry. apply set_set. }
    destruct HI as [HI|[HI Hc]].
    + apply Inv_set_done; assumption.
    + constructor.
      * intros u Hu. assert (t <> u) by (intros ->; contradiction).
        unfold computed, zero. rewrite get_set_other by assumption.
        apply (inv_prog _ _ _ HI). right; exact Hu.
      * intros u Hu. unfold computed, exact, zero. destruct (term_eq_dec t u) as [<-|Hd].
        -- rewrite get_set_same, F1. auto.
        -- rewrite get_set_other by assumption. apply (inv_done _ _ _ HI).
           intros [X|X]; contradiction.
      * intros u Hu. unfold computed. destruct (term_eq_dec t u) as [<-|Hd].
        -- rewrite get_set_same. exact F1.
        -- rewrite get_set_other by assumption. exact (inv_vis _ _ _ HI u Hu).
  - unfold computed. rewrite get_set_same. exact F1.
  - intros u Hu. unfold s1; rewrite set_set, get_set_other by congruence. reflexivity.
Qed.

Lemma Inv_start : forall P visited s t, Inv P visited s -> ~ In t P ->
  computed s t = false ->
  Inv (t :: P) (t :: visited)
    (set_flags s t (mkFlags true (f_eval (get_flags s t)) (f_nonground (get_flags s t)))).
Proof.
  intros P visited s t HI Hn Hc.
  pose proof (inv_done _ _ _ HI t Hn) as D. rewrite Hc in D. destruct D as [Z1 Z2].
  rewrite Z1, Z2. constructor.
  - intros u Hu. unfold computed, zero. destruct (term_eq_dec t u) as [<-|Hd].
    + rewrite get_set_same. split; [reflexivity|]. split; [split; reflexivity|left; reflexivity].
    + rewrite get_set_other by assumption. destruct Hu as [X|Hu]; [contradiction|].
      destruct (inv_prog _ _ _ HI u Hu) as (A & B & C). split; [exact A|]. split; [exact B|right; exact C].
  - intros u Hu. assert (t <> u) by (intros ->; apply Hu; left; reflexivity).
    unfold computed, exact, zero. rewrite get_set_other by assumption.
    apply (inv_done _ _ _ HI). intro X. apply Hu. right; exact X.
  - intros u Hu. unfold computed. destruct (term_eq_dec t u) as [<-|Hd].
    + rewrite get_set_same. reflexivity.
    + rewrite get_set_other by assumption. destruct Hu as [X|Hu]; [contradiction|].
      exact (inv_vis _ _ _ HI u Hu).
Qed.

Lemma all_process : forall t, processes t.
Proof.
  intro t. induction t as [t IH] using (well_founded_induction (Wf_nat.well_founded_ltof _ tsize)).
  intros P visited s rest HI Hsz Hr.
  assert (HtP : ~ In t P) by (intro X; apply Hsz in X; lia).
  destruct (list_eq_dec term_eq_dec (tchildren t) []) as [Hl|Hne].
  - (* leaf *)
    exists 1%nat, visited,
      (set_flags s t (mkFlags true (leaf_eval (tkind t)) (leaf_nonground (tkind t)))).
    split; [intro fuel; apply loop_leaf; exact Hl|].
    assert (HI' : Inv P visited
      (set_flags s t (mkFlags true (leaf_eval (tkind t)) (leaf_nonground (tkind t))))).
    { apply Inv_set_done; cbn [f_computed f_eval f_nonground]; auto.
      - symmetry. apply isEvaluatable_leaf; exact Hl.
      - symmetry. apply nonGround_leaf; exact Hl. }
    split; [constructor|].
    + exact HI'.
    + apply incl_refl.
    + intros u Hu. unfold computed in *. destruct (term_eq_dec t u) as [<-|Hd].
      * rewrite get_set_same; reflexivity.
      * rewrite get_set_other by assumption. exact Hu.
    + intros u H0 H1. unfold computed in *. destruct (term_eq_dec t u) as [<-|Hd].
      * right; exact Hl.
      * rewrite get_set_other in H1 by assumption. congruence.
    + unfold computed. rewrite get_set_same. reflexivity.
  - destruct (in_dec term_eq_dec t visited) as [Hv|Hnv].
    + (* already finished in this call *)
      destruct (finish_step t P visited s rest Hne Hv HtP Hsz (or_introl HI))
        as (s' & E & I' & C' & O').
      exists 1%nat, visited, s'. split; [exact E|]. split; [|exact C']. constructor.
      * exact I'.
      * apply incl_refl.
      * intros u Hu. destruct (term_eq_dec u t) as [->|Hd]; [exact C'|].
        unfold computed. rewrite O' by exact Hd. exact Hu.
      * intros u H0 H1. destruct (term_eq_dec u t) as [->|Hd]; [left; exact Hv|].
        unfold computed in *. rewrite O' in H1 by exact Hd. congruence.
    + assert (Hc : computed s t = false).
      { destruct Hr as [H|[H|H]]; [exact H|contradiction|contradiction]. }
      set (s1 := set_flags s t (mkFlags true (f_eval (get_flags s t)) (f_nonground (get_flags s t)))).
      assert (I1 : Inv (t :: P) (t :: visited) s1) by (apply Inv_start; assumption).
      set (l := rev (filter (fun c => negb (computed s1 c)) (tchildren t))).
      assert (Hl : forall c, In c l -> In c (tchildren t) /\ computed s1 c = false).
      { intros c Hin. unfold l in Hin. apply in_rev in Hin. apply filter_In in Hin.
        destruct Hin as [A B]. apply negb_true_iff in B. auto. }
      destruct (process_list l) with (P := t :: P) (visited := t :: visited) (s := s1)
        (rest := t :: rest) as (n & v' & s' & E & PP & C).
      { apply Forall_forall. intros c Hin. apply IH. apply tsize_child. apply Hl; exact Hin. }
      { exact I1. }
      { intros c u Hin Hu. apply Hl in Hin. destruct Hin as [Hin _].
        apply tsize_child in Hin. destruct Hu as [<-|Hu]; [exact Hin|]. apply Hsz in Hu. lia. }
      { intros c Hin. left. apply Hl; exact Hin. }
      assert (Hcc : forall c, In c (tchildren t) -> computed s' c = true).
      { intros c Hin. destruct (computed s1 c) eqn:E1.
        - apply (post_mono _ _ _ _ _ PP). exact E1.
        - apply C. unfold l. apply in_rev. rewrite rev_involutive. apply filter_In.
          split; [exact Hin|]. rewrite E1. reflexivity. }
      destruct (finish_step t P v' s' rest Hne) as (s2 & E2 & I2 & C2 & O2).
      { apply (post_vis _ _ _ _ _ PP). left; reflexivity. }
      { exact HtP. }
      { exact Hsz. }
      { right. split; [exact (post_inv _ _ _ _ _ PP)|exact Hcc]. }
      exists (1 + (n + 1))%nat, v', s2. split; [|split; [constructor|exact C2]].
      * intro fuel.
        replace (1 + (n + 1) + fuel)%nat with (1 + (n + (1 + fuel)))%nat by lia.
        rewrite loop_expand by assumption. cbv zeta. fold s1. fold l.
        rewrite E, E2. reflexivity.
      * exact I2.
      * intros u Hu. apply (post_vis _ _ _ _ _ PP). right; exact Hu.
      * intros u Hu. destruct (term_eq_dec u t) as [->|Hd]; [exact C2|].
        unfold computed. rewrite O2 by exact Hd. apply (post_mono _ _ _ _ _ PP).
        unfold computed, s1. rewrite get_set_other by congruence. exact Hu.
      * intros u H0 H1. destruct (term_eq_dec u t) as [->|Hd].
        { left. apply (post_vis _ _ _ _ _ PP). left; reflexivity. }
        apply (post_new _ _ _ _ _ PP).
        { unfold computed, s1. rewrite get_set_other by congruence. exact H0. }
        { unfold computed in H1. rewrite O2 in H1 by exact Hd. exact H1. }
Qed.

(** Whatever flags have been computed before, the flags of a term computed by
    the traversal are the right ones, and no other flags are spoiled. *)
Theorem computeFlags_exact : forall t s, store_ok s ->
  exists n s', (forall fuel, (n <= fuel)%nat -> computeFlags fuel t s = Ok s') /\
    store_ok s' /\ f_computed (get_flags s' t) = true.
Proof.
  intros t s HS. unfold computeFlags.
  destruct (f_computed (get_flags s t)) eqn:E.
  - exists O, s. auto.
  - destruct (all_process t [] [] s []) as (n & v' & s' & EE & PP & C).
    { constructor; [intros u []|intros u _; apply HS|intros u []]. }
    { intros u []. }
    { left; exact E. }
    exists (S n), s'. split; [|split; [|exact C]].
    + intros fuel Hf. replace fuel with (n + S (fuel - S n))%nat by lia. rewrite EE. reflexivity.
    + intro u. apply (inv_done _ _ _ (post_inv _ _ _ _ _ PP)). intros [].
Qed.

Lemma store_ok_nil : store_ok [].
Proof. intro u. cbn. split; reflexivity. Qed.

Lemma computeFlags_all_ok : forall ts s, store_ok s ->
  exists n s', (forall fuel, (n <= fuel)%nat -> computeFlags_all fuel ts s = Ok s') /\ store_ok s'.
Proof.
  intro ts. induction ts as [|t ts IH]; intros s HS.
  - exists O, s. auto.
  - destruct (computeFlags_exact t s HS) as (n1 & s1 & E1 & H1 & _).
    destruct (IH s1 H1) as (n2 & s2 & E2 & H2).
    exists (n1 + n2)%nat, s2. split; [|exact H2]. intros fuel Hf.
    cbn [computeFlags_all]. rewrite E1 by lia. cbn [bind]. apply E2. lia.
Qed.

Theorem flags_history : forall ts t, twf t ->
  exists n s s', (forall fuel, (n <= fuel)%nat ->
      computeFlags_all fuel ts [] = Ok s /\ computeFlags fuel t s = Ok s') /\
    (f_eval (get_flags s' t) = true <-> exists u, occurs u t /\ computes u) /\
    (f_nonground (get_flags s' t) = true <-> exists u, occurs u t /\ (is_param u \/ is_any u)).
Proof.
  intros ts t W.
  destruct (computeFlags_all_ok ts [] store_ok_nil) as (n1 & s & E1 & H1).
  destruct (computeFlags_exact t s H1) as (n2 & s' & E2 & H2 & C).
  exists (n1 + n2)%nat, s, s'. split; [intros fuel Hf; split; [apply E1|apply E2]; lia|].
  specialize (H2 t). unfold computed in H2. rewrite C in H2. destruct H2 as [H2 H3].
  rewrite H2, H3. split; [apply isEvaluatable_spec|apply nonGround_spec]; exact W.
Qed.
