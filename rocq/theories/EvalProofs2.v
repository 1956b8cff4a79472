(** Invariant of the evaluator: it never goes wrong and its results are correct. *)
From Coq Require Import ZArith List Bool Lia.
From Verif Require Import Base Kind Literal Term Match Eval SpecTerm SpecEval TermProofs
  VarsProofs MatchProofs ProgProofs EvalProofs.
Import ListNotations.

(** * Lists *)

Lemma split_app : forall (A : Type) (p : A) xs ys above below,
  xs ++ ys = above ++ p :: below -> ~ In p xs ->
  exists above', above = xs ++ above' /\ ys = above' ++ p :: below.
Proof.
  intros A p xs. induction xs as [|x xs IH]; intros ys above below E Hn.
  - exists above. auto.
  - destruct above as [|a above].
    + cbn in E. injection E as -> E. exfalso. apply Hn. left; reflexivity.
    + cbn in E. injection E as -> E.
      destruct (IH ys above below E) as (ab & -> & ->); [intro H; apply Hn; right; exact H|].
      exists ab. auto.
Qed.
Lemma first_split : forall (p : term) l, In p l ->
  exists a b, l = a ++ p :: b /\ ~ In p a.
Proof.
  intros p l. induction l as [|x l IH]; intro H; [destruct H|].
  destruct (term_eq_dec x p) as [->|Hne].
  - exists [], l. auto.
  - destruct H as [->|H]; [contradiction|]. destruct (IH H) as (a & b & -> & Hn).
    exists (x :: a), b. split; [reflexivity|]. intros [X|X]; contradiction.
Qed.

(** The short cut of type_checker.cpp 573. *)
Definition static (c : ctx) (t : term) : bool :=
  negb (isEvaluatable t) && (isGround t || match c with [] => true | _ => false end).

(** The children that a marked term waits for. *)
Definition req (p c : term) : Prop :=
  if kind_eqb (tkind p) K_EVAL_IF_THEN_ELSE then nth_error (tchildren p) 0 = Some c
  else In c (tchildren p).
Lemma req_child : forall p c, req p c -> In c (tchildren p).
Proof.
  intros p c H. unfold req in H. destruct (kind_eqb _ _); [|exact H].
  eapply nth_error_In; exact H.
Qed.

Section Inv.
Variable lop : kind -> list term -> res (option term).
Variable progs : term -> option (list pcase).
Variable prog : term -> option term.
Hypothesis Hlop : lop_wf lop.
Hypothesis Hprogs : progs_wf progs.
Hypothesis Hprog : forall hd, prog hd = option_map (program_term hd) (progs hd).
Variable e0 : term.
Variable c0 : ctx.

Notation ev := (ev lop progs shortcut).
Notation evs := (evs lop progs shortcut).
Notation calls := (calls progs).
Notation fsub fr := (ctx_find (fr_ctx fr)).

Record FI (fr : frame) : Prop := mkFI {
  fi_wf : Forall twf (fr_visit fr);
  fi_sub : sub_wf (fsub fr);
  fi_val : forall u v, vfind (fr_visited fr) u = Some (Some v) -> ev (fsub fr) u v /\ twf v;
  fi_in : forall p, vfind (fr_visited fr) p = Some None -> In p (fr_visit fr);
  fi_busy : forall p, vfind (fr_visited fr) p = Some None ->
    static (fr_ctx fr) p = false /\ tkind p <> K_PARAM /\
    (tkind p = K_EVAL_IF_THEN_ELSE -> length (tchildren p) = 3%nat);
  fi_order : forall above p below, fr_visit fr = above ++ p :: below -> ~ In p above ->
    vfind (fr_visited fr) p = Some None ->
    (forall x, In x above -> (tsize x < tsize p)%nat) /\
    (forall c, req p c -> In c above \/ done (fr_visited fr) c);
  fi_init : In (fr_init fr) (fr_visit fr) \/ done (fr_visited fr) (fr_init fr) }.

Definition upd (fr : frame) (m : vmap) (v : list term) : frame :=
  mkFrame (fr_init fr) (fr_ctx fr) m v (fr_result fr).

Lemma FI_finish : forall fr cur rest v m', FI fr -> fr_visit fr = cur :: rest ->
  (forall u, vfind m' u = if term_eqb cur u then Some (Some v) else vfind (fr_visited fr) u) ->
  ev (fsub fr) cur v -> FI (upd fr m' rest).
Proof.
  intros fr cur rest v m' F Hv Hm He. destruct F as [F1 F2 F3 F4 F5 F6 F7].
  rewrite Hv in *. inversion F1 as [|x y W1 W2]; subst.
  assert (D : forall c, done (fr_visited fr) c -> done m' c).
  { intros c (w & Hw). unfold done. rewrite Hm. destruct (term_eqb cur c); eauto. }
  constructor; cbn [upd fr_init fr_ctx fr_visited fr_visit].
  - exact W2.
  - exact F2.
  - intros u w Hu. rewrite Hm in Hu. destruct (term_eqb cur u) eqn:E.
    + apply term_eqb_eq in E. subst. injection Hu as <-. split; [exact He|].
      eapply ev_wf; eauto.
    + apply F3; exact Hu.
  - intros p Hp. rewrite Hm in Hp. destruct (term_eqb cur p) eqn:E; [discriminate|].
    apply term_eqb_neq in E. destruct (F4 p Hp) as [X|X]; [contradiction|exact X].
  - intros p Hp. rewrite Hm in Hp. destruct (term_eqb cur p) eqn:E; [discriminate|]. apply F5; exact Hp.
  - intros above p below Er Hn Hp. rewrite Hm in Hp. destruct (term_eqb cur p) eqn:E; [discriminate|].
    apply term_eqb_neq in E.
    destruct (F6 (cur :: above) p below) as [S1 S2]; [cbn; rewrite Er; reflexivity| |exact Hp|].
    { intros [X|X]; contradiction. }
    split; [intros x Hx; apply S1; right; exact Hx|].
    intros c Hc. destruct (S2 c Hc) as [[<-|X]|X]; [|left; exact X|right; apply D; exact X].
    right. exists v. rewrite Hm, term_eqb_refl. reflexivity.
  - destruct F7 as [[<-|X]|X]; [|left; exact X|right; apply D; exact X].
    right. exists v. rewrite Hm, term_eqb_refl. reflexivity.
Qed.

Lemma FI_push : forall fr cur rest m' xs, FI fr -> fr_visit fr = cur :: rest ->
  (forall u, vfind m' u = if term_eqb cur u then Some None else vfind (fr_visited fr) u) ->
  ~ done (fr_visited fr) cur ->
  static (fr_ctx fr) cur = false -> tkind cur <> K_PARAM ->
  (tkind cur = K_EVAL_IF_THEN_ELSE -> length (tchildren cur) = 3%nat) ->
  (forall x, In x xs -> In x (tchildren cur)) ->
  (forall c, req cur c -> In c xs \/ done (fr_visited fr) c) ->
  FI (upd fr m' (xs ++ cur :: rest)).
Proof.
  intros fr cur rest m' xs F Hv Hm Hnd Hst Hpa Hit Hxs Hrq. destruct F as [F1 F2 F3 F4 F5 F6 F7].
  rewrite Hv in *. inversion F1 as [|x y W1 W2]; subst.
  assert (D : forall c, done (fr_visited fr) c -> done m' c).
  { intros c (w & Hw). unfold done. rewrite Hm. destruct (term_eqb cur c) eqn:E; [|eauto].
    apply term_eqb_eq in E. subst. exfalso. apply Hnd. exists w; exact Hw. }
  assert (Small : forall x, In x xs -> (tsize x < tsize cur)%nat).
  { intros x Hx. apply tsize_child. apply Hxs; exact Hx. }
  assert (Big : forall p, p <> cur -> vfind (fr_visited fr) p = Some None -> (tsize cur < tsize p)%nat).
  { intros p Hne Hp. destruct (first_split p (cur :: rest) (F4 p Hp)) as (a & b & E & Hn).
    destruct (F6 a p b E Hn Hp) as [S1 _]. apply S1.
    destruct a as [|a0 a]; [cbn in E; injection E as E _; congruence|].
    cbn in E. injection E as -> _. left; reflexivity. }
  constructor; cbn [upd fr_init fr_ctx fr_visited fr_visit].
  - apply Forall_app. split; [|constructor; assumption].
    apply Forall_forall. intros x Hx. eapply twf_child; [exact W1|]. apply Hxs; exact Hx.
  - exact F2.
  - intros u w Hu. rewrite Hm in Hu. destruct (term_eqb cur u); [discriminate|]. apply F3; exact Hu.
  - intros p Hp. rewrite Hm in Hp. apply in_or_app. right. destruct (term_eqb cur p) eqn:E.
    + apply term_eqb_eq in E. left; exact E.
    + apply F4; exact Hp.
  - intros p Hp. rewrite Hm in Hp. destruct (term_eqb cur p) eqn:E.
    + apply term_eqb_eq in E. subst. auto.
    + apply F5; exact Hp.
  - intros above p below Er Hn Hp. rewrite Hm in Hp.
    assert (Hpx : ~ In p xs).
    { intro X. pose proof (Small p X). destruct (term_eqb cur p) eqn:E.
      - apply term_eqb_eq in E. subst. lia.
      - apply term_eqb_neq in E. pose proof (Big p ltac:(congruence) Hp). lia. }
    destruct (split_app _ p xs (cur :: rest) above below Er Hpx) as (ab & -> & Er').
    destruct ab as [|a0 ab].
    + cbn in Er'. injection Er' as <- _. rewrite app_nil_r in *. split; [exact Small|].
      intros c Hc. destruct (Hrq c Hc) as [X|X]; [left; exact X|right; apply D; exact X].
    + assert (Hne : p <> cur).
      { intro X. subst p. cbn in Er'. injection Er' as -> _. apply Hn. apply in_or_app. right; left; reflexivity. }
      assert (E : term_eqb cur p = false) by (apply term_eqb_neq; congruence). rewrite E in Hp.
      destruct (F6 (a0 :: ab) p below Er') as [S1 S2]; [intro X; apply Hn; apply in_or_app; right; exact X|exact Hp|].
      pose proof (Big p Hne Hp) as B.
      split.
      * intros x Hx. apply in_app_or in Hx. destruct Hx as [Hx|Hx]; [specialize (Small x Hx); lia|auto].
      * intros c Hc. destruct (S2 c Hc) as [X|X]; [left; apply in_or_app; right; exact X|right; apply D; exact X].
  - destruct F7 as [X|X]; [left; apply in_or_app; right; exact X|right; apply D; exact X].
Qed.

Lemma FI_new : forall e c r, twf e -> sub_wf (ctx_find c) -> FI (new_frame e c r).
Proof.
  intros e c r W S. constructor; cbn [new_frame fr_init fr_ctx fr_visited fr_visit].
  - constructor; [exact W|constructor].
  - exact S.
  - discriminate.
  - discriminate.
  - discriminate.
  - discriminate.
  - left. left. reflexivity.
Qed.

(** * Results of calls *)

Definition callres (hd : term) (args : list term) (v : option term) : Prop :=
  match v with
  | None => calls hd args None
  | Some r => exists body f, calls hd args (Some (body, f)) /\
      ((closed body \/ empty_sub f) /\ r = body \/ ~ (closed body \/ empty_sub f) /\ ev f body r)
  end.
Definition TI (tr : trie) : Prop := forall key v, tr_find tr key = Some v ->
  exists hd args, key = hd :: args /\ callres hd args v.

Lemma TI_add : forall tr hd args v, TI tr -> callres hd args v -> TI ((hd :: args, v) :: tr).
Proof.
  intros tr hd args v T C key w H. rewrite tr_find_cons in H.
  destruct (path_eqb (hd :: args) key) eqn:E; [|apply T; exact H].
  apply path_eqb_eq in E. injection H as <-. exists hd, args. auto.
Qed.

Lemma callres_ev : forall s k cs hd args v, is_application k -> evs s cs (hd :: args) ->
  is_program hd -> callres hd args v ->
  ev s (Node k cs) (match v with Some r => r | None => Node k (hd :: args) end).
Proof.
  intros s k cs hd args [r|] Ha Hs Hh Hc; cbn in Hc.
  - destruct Hc as (body & f & Hc & [[Hx ->]|[Hx He]]).
    + eapply SpecEval.ev_call_done; eauto.
    + eapply SpecEval.ev_call_run; eauto.
  - eapply SpecEval.ev_call_stuck; eauto.
Qed.

Lemma values_evs : forall fr cs vs, FI fr ->
  Forall2 (fun c v => vfind (fr_visited fr) c = Some (Some v)) cs vs ->
  evs (fsub fr) cs vs /\ Forall twf vs.
Proof.
  intros fr cs vs F H. induction H as [|c v cs vs Hc _ [IH1 IH2]].
  - split; constructor.
  - apply (fi_val fr F) in Hc. destruct Hc as [H1 H2]. split; constructor; assumption.
Qed.

(** * The stack of frames *)

Definition link (fr p : frame) : Prop :=
  exists k cs rest hd args, fr_visit p = Node k cs :: rest /\ is_application k /\
    vfind (fr_visited p) (Node k cs) = Some None /\
    Forall2 (fun c v => vfind (fr_visited p) c = Some (Some v)) cs (hd :: args) /\
    is_program hd /\ fr_result fr = Some (hd :: args) /\
    calls hd args (Some (fr_init fr, fsub fr)) /\ ~ (closed (fr_init fr) \/ empty_sub (fsub fr)).
Fixpoint linked (st : list frame) : Prop :=
  match st with
  | [] => False
  | fr :: rest =>
      match rest with
      | [] => fr_init fr = e0 /\ fr_ctx fr = c0
      | p :: _ => link fr p /\ linked rest
      end
  end.
Definition GI (st : list frame) (tr : trie) : Prop :=
  Forall FI st /\ linked st /\ TI tr.

Lemma linked_upd : forall fr below m v, linked (fr :: below) -> linked (upd fr m v :: below).
Proof. intros fr [|p below] m v H; exact H. Qed.

Lemma GI_upd : forall fr below tr m v tr', GI (fr :: below) tr -> FI (upd fr m v) -> TI tr' ->
  GI (upd fr m v :: below) tr'.
Proof.
  intros fr below tr m v tr' (F & L & T) Hf Ht. inversion F as [|x y F1 F2]; subst.
  split; [constructor; assumption|]. split; [apply linked_upd; exact L|exact Ht].
Qed.

(** * What a marked term on top does *)

Lemma rebuild_node : forall k cs vs, rebuild (Node k cs) vs = Node k vs.
Proof.
  intros k cs vs. unfold rebuild. cbn [tchildren tkind]. destruct (path_eqb cs vs) eqn:E; [|reflexivity].
  apply path_eqb_eq in E. subst. reflexivity.
Qed.
Lemma static_false_leaf : forall c t, twf t -> static c t = false -> tchildren t = [] ->
  tkind t <> K_PARAM -> (exists i, t = Sym K_PROGRAM_CONST i) \/ t = Node K_ANY [].
Proof.
  intros c t W S Hc Hp. unfold static in S.
  apply andb_false_iff in S. destruct S as [S|S].
  - apply negb_false_iff in S. rewrite isEvaluatable_leaf in S by exact Hc.
    apply leaf_eval_spec in S; [|exact W|exact Hc].
    destruct S as [S|[S|(k & cs & E & Hne & _)]]; [left; exact S|right; exact S|].
    subst. cbn in Hc. contradiction.
  - apply orb_false_iff in S. destruct S as [S _]. unfold isGround in S. apply negb_false_iff in S.
    rewrite nonGround_leaf in S by exact Hc. apply leaf_nonground_spec in S; [|exact W|exact Hc].
    destruct S as [(i & ->)|S]; [cbn in Hp; contradiction|right; exact S].
Qed.

Lemma app_dec : forall k, is_application k \/ ~ is_application k.
Proof.
  intro k. destruct (kind_eqb k K_APPLY) eqn:E1; [apply kind_eqb_eq in E1; left; left; exact E1|].
  destruct (kind_eqb k K_APPLY_OPAQUE) eqn:E2; [apply kind_eqb_eq in E2; left; right; exact E2|].
  right. intros [X|X]; subst; discriminate.
Qed.
Lemma program_kind : forall t, twf t -> (kind_eqb (tkind t) K_PROGRAM_CONST = true <-> is_program t).
Proof.
  intros t W. split.
  - intro H. apply kind_eqb_eq in H. destruct t as [k i|l|k cs]; cbn in H.
    + subst. exists i. reflexivity.
    + destruct l; discriminate.
    + inversion W; subst. discriminate.
  - intros (i & ->). reflexivity.
Qed.

(** The switch for an application. *)
Lemma switch_app : forall tr k cs hd args, is_application k -> TI tr ->
  twf hd -> Forall twf args ->
  (is_program hd -> exists v tr', eval_switch lop prog tr k cs (map Some (hd :: args)) = Ok (AVal v tr') /\
      callres hd args v /\ TI tr') \/
  (~ is_program hd /\ eval_switch lop prog tr k cs (map Some (hd :: args)) = Ok (AVal None tr)) \/
  (is_program hd /\ exists body c, eval_switch lop prog tr k cs (map Some (hd :: args)) = Ok (APush body c (hd :: args)) /\
      calls hd args (Some (body, ctx_find c)) /\ ~ (closed body \/ empty_sub (ctx_find c))).
Proof.
  intros tr k cs hd args Ha T Wh Wa.
  assert (E : eval_switch lop prog tr k cs (map Some (hd :: args)) =
    if kind_eqb (tkind hd) K_PROGRAM_CONST then
        match tr_find tr (hd :: args) with
        | Some v => Ok (AVal v tr)
        | None =>
            let* r := evaluateProgramInternal prog (hd :: args) in
            match r with
            | None => Ok (AVal None ((hd :: args, None) :: tr))
            | Some (body, c) =>
                if isGround body || match c with [] => true | _ => false end
                then Ok (AVal (Some body) ((hd :: args, Some body) :: tr))
                else Ok (APush body c (hd :: args))
            end
        end
      else Ok (AVal None tr)).
  { destruct Ha as [->| ->]; unfold eval_switch; rewrite all_present_some; reflexivity. }
  rewrite E. clear E. destruct (kind_eqb (tkind hd) K_PROGRAM_CONST) eqn:Ek.
  2:{ right; left. split; [|reflexivity]. intro X. apply program_kind in X; [congruence|exact Wh]. }
  apply program_kind in Ek; [|exact Wh].
  destruct (tr_find tr (hd :: args)) as [v|] eqn:Et.
  { left. intros _. exists v, tr. split; [reflexivity|]. split; [|exact T].
    apply T in Et. destruct Et as (hd' & args' & E & C). injection E as <- <-. exact C. }
  destruct (calls_exec progs prog Hprogs Hprog hd args Ek Wa) as (r & Er & Hr). rewrite Er. cbn [bind].
  destruct r as [[body c]|].
  2:{ left. intros _. exists None, ((hd :: args, None) :: tr). split; [reflexivity|].
      split; [exact Hr|]. apply TI_add; [exact T|exact Hr]. }
  destruct (calls_wf progs Hprogs hd args body (ctx_find c) Wa Hr) as [Wb Wc].
  destruct (isGround body || match c with [] => true | _ => false end) eqn:Es.
  - left. intros _. exists (Some body), ((hd :: args, Some body) :: tr). split; [reflexivity|].
    assert (C : callres hd args (Some body)).
    { exists body, (ctx_find c). split; [exact Hr|]. left. split; [|reflexivity].
      apply orb_true_iff in Es. destruct Es as [Es|Es].
      - left. apply ground_closed; [exact Wb|exact Es].
      - right. apply ctx_empty_find. destruct c; [reflexivity|discriminate]. }
    split; [exact C|]. apply TI_add; assumption.
  - right; right. split; [exact Ek|]. exists body, c. split; [reflexivity|]. split; [exact Hr|].
    apply orb_false_iff in Es. destruct Es as [E1 E2]. intros [X|X].
    + apply ground_closed in X; [congruence|exact Wb].
    + apply ctx_empty_find in X. subst. discriminate.
Qed.

(** The switch for operators. *)
Lemma switch_op : forall tr k cs vs, isLiteralOp k = true -> k <> K_EVAL_IF_THEN_ELSE ->
  eval_switch lop prog tr k cs (map Some vs) = (let* r := lop k vs in Ok (AVal r tr)).
Proof.
  intros tr k cs vs H1 H2. destruct k; try discriminate H1; try (exfalso; apply H2; reflexivity);
    unfold eval_switch, isLiteralOp; rewrite all_present_some; reflexivity.
Qed.
Lemma switch_other : forall tr k cs ccs, isLiteralOp k = false -> ~ is_application k ->
  eval_switch lop prog tr k cs ccs = Ok (AVal None tr).
Proof.
  intros tr k cs ccs H1 H2. destruct k; try discriminate H1; try reflexivity.
  - exfalso. apply H2. left; reflexivity.
  - exfalso. apply H2. right; reflexivity.
Qed.

Definition bad {A : Type} (x : res A) : Prop := exists k ds, Forall twf ds /\
  (lop k ds = Err /\ x = Err \/ lop k ds = UB /\ x = UB \/ lop k ds = Fuel /\ x = Fuel).

(** Values of the children of a marked term that is not an ite. *)
Lemma busy_children : forall fr cur rest, FI fr -> fr_visit fr = cur :: rest ->
  vfind (fr_visited fr) cur = Some None -> tkind cur <> K_EVAL_IF_THEN_ELSE ->
  exists vs, collect (fr_visited fr) (tchildren cur) = Ok (map Some vs) /\
    Forall2 (fun c v => vfind (fr_visited fr) c = Some (Some v)) (tchildren cur) vs.
Proof.
  intros fr cur rest F Hv Hb Hk. apply collect_done. intros c Hc.
  destruct (fi_order fr F [] cur rest) as [_ S]; [exact Hv|intros []|exact Hb|].
  destruct (S c) as [[]|X]; [|exact X]. unfold req.
  destruct (kind_eqb (tkind cur) K_EVAL_IF_THEN_ELSE) eqn:E; [|exact Hc].
  apply kind_eqb_eq in E. contradiction.
Qed.

Lemma ite_shape : forall t, twf t -> tkind t = K_EVAL_IF_THEN_ELSE -> length (tchildren t) = 3%nat ->
  exists c a b, t = Node K_EVAL_IF_THEN_ELSE [c; a; b].
Proof.
  intros t W Hk Hl. destruct t as [k i|l|k cs]; cbn in Hk, Hl; try discriminate. subst k.
  destruct cs as [|c [|a [|b [|d cs]]]]; try discriminate. exists c, a, b. reflexivity.
Qed.

(** A child of the term on top is not marked. *)
Lemma child_not_busy : forall fr cur rest c, FI fr -> fr_visit fr = cur :: rest ->
  In c (tchildren cur) -> vfind (fr_visited fr) c <> Some None.
Proof.
  intros fr cur rest c F Hv Hc Hb.
  pose proof (tsize_child c cur Hc) as S.
  pose proof (fi_in fr F c Hb) as Hin. destruct (first_split c _ Hin) as (a & b & E & Hn).
  destruct (fi_order fr F a c b E Hn Hb) as [X _].
  rewrite Hv in E. destruct a as [|a0 a].
  - cbn in E. injection E as E _. subst. lia.
  - cbn in E. injection E as <- _. specialize (X cur (or_introl eq_refl)). lia.
Qed.

Lemma ite_cond : forall fr c a b rest, FI fr ->
  fr_visit fr = Node K_EVAL_IF_THEN_ELSE [c; a; b] :: rest ->
  vfind (fr_visited fr) (Node K_EVAL_IF_THEN_ELSE [c; a; b]) = Some None ->
  exists v, vfind (fr_visited fr) c = Some (Some v).
Proof.
  intros fr c a b rest F Hv Hb.
  destruct (fi_order fr F [] _ rest Hv (fun x => x) Hb) as [_ S].
  destruct (S c) as [[]|X]; [reflexivity|exact X].
Qed.

Definition child_state (m : vmap) (c : term) (x : option term) : Prop :=
  vfind m c = match x with Some v => Some (Some v) | None => None end.
Lemma child_state_ex : forall fr cur rest c, FI fr -> fr_visit fr = cur :: rest ->
  In c (tchildren cur) -> exists x, child_state (fr_visited fr) c x.
Proof.
  intros fr cur rest c F Hv Hc. pose proof (child_not_busy fr cur rest c F Hv Hc) as N.
  unfold child_state. destruct (vfind (fr_visited fr) c) as [[v|]|] eqn:E; [|contradiction|].
  - exists (Some v). reflexivity.
  - exists None. reflexivity.
Qed.
Lemma collect_state : forall m cs xs, Forall2 (child_state m) cs xs -> collect m cs = Ok xs.
Proof.
  intros m cs xs H. induction H as [|c x cs xs Hc _ IH]; [reflexivity|].
  cbn [collect]. rewrite Hc. destruct x as [v|]; rewrite IH; reflexivity.
Qed.

Lemma bool_cases : forall v : term, (exists b, v = Lit (LBool b)) \/ ~ is_bool v.
Proof.
  intros [k i|l|k cs]; try (right; intros (x & E); discriminate).
  destruct l; try (right; intros (x & E); discriminate). left. eexists; reflexivity.
Qed.
Lemma switch_ite_bool : forall tr cs x xa xb,
  eval_switch lop prog tr K_EVAL_IF_THEN_ELSE cs [Some (Lit (LBool x)); xa; xb] =
  match (if x then xa else xb) with
  | None => let* c := vec_at cs (if x then 1 else 2) in Ok (AWait [c])
  | Some v => Ok (AVal (Some v) tr)
  end.
Proof. intros tr cs [|] xa xb; reflexivity. Qed.
Lemma switch_ite_stuck : forall tr c a b v xa xb, ~ is_bool v ->
  eval_switch lop prog tr K_EVAL_IF_THEN_ELSE [c; a; b] [Some v; xa; xb] =
  match xa, xb with
  | None, None => Ok (AWait [b; a])
  | None, Some _ => Ok (AWait [a])
  | Some _, None => Ok (AWait [b])
  | Some _, Some _ => Ok (AVal None tr)
  end.
Proof.
  intros tr c a b v xa xb Hv. destruct v as [k i|l|k cs]; try (destruct xa, xb; reflexivity).
  destruct l; try (destruct xa, xb; reflexivity). exfalso. apply Hv. eexists; reflexivity.
Qed.

Definition step_good (st : list frame) (tr : trie) : Prop :=
  (exists st' tr', ev_step lop prog st tr = Ok (Next st' tr') /\ GI st' tr') \/
  (exists r, ev_step lop prog st tr = Ok (Done (Some r)) /\ ev (ctx_find c0) e0 r /\ twf r) \/
  bad (ev_step lop prog st tr).

Lemma inner_busy : forall fr below tr cur rest, static (fr_ctx fr) cur = false ->
  tkind cur <> K_PARAM -> vfind (fr_visited fr) cur = Some None ->
  inner_step lop prog fr below tr cur rest =
    (let* ccs := collect (fr_visited fr) (tchildren cur) in
     let* a := eval_switch lop prog tr (tkind cur) (tchildren cur) ccs in
     match a with
     | APush body c key => Ok (Next (new_frame body c (Some key) :: fr :: below) tr)
     | AWait ts => Ok (Next (upd fr (fr_visited fr) (ts ++ cur :: rest) :: below) tr)
     | AVal (Some v) tr' => Ok (Next (upd fr ((cur, Some v) :: fr_visited fr) rest :: below) tr')
     | AVal None tr' => let* vs := all_present ccs in
         Ok (Next (upd fr ((cur, Some (rebuild cur vs)) :: fr_visited fr) rest :: below) tr')
     end).
Proof.
  intros fr below tr cur rest S P B. unfold inner_step. unfold static in S. rewrite S.
  assert (E : kind_eqb (tkind cur) K_PARAM = false).
  { destruct (kind_eqb (tkind cur) K_PARAM) eqn:E; [|reflexivity]. apply kind_eqb_eq in E. contradiction. }
  rewrite E, B. reflexivity.
Qed.

Lemma step_busy : forall fr below tr cur rest, GI (fr :: below) tr ->
  fr_visit fr = cur :: rest -> vfind (fr_visited fr) cur = Some None ->
  step_good (fr :: below) tr.
Proof.
  intros fr below tr cur rest G Hv Hb. pose proof G as (F & L & T).
  inversion F as [|x y F1 F2]; subst. clear F.
  destruct (fi_busy fr F1 cur Hb) as (Hs & Hp & Hi).
  assert (Wc : twf cur) by (pose proof (fi_wf fr F1) as X; rewrite Hv in X; inversion X; assumption).
  unfold step_good. cbn [ev_step]. rewrite Hv.
  rewrite (inner_busy fr below tr cur rest Hs Hp Hb).
  assert (FIN : forall v, ev (fsub fr) cur v -> FI (upd fr ((cur, Some v) :: fr_visited fr) rest)).
  { intros v He. eapply FI_finish; [exact F1|exact Hv|reflexivity|exact He]. }
  assert (WAIT : forall xs, (forall x, In x xs -> In x (tchildren cur)) ->
    FI (upd fr (fr_visited fr) (xs ++ cur :: rest))).
  { intros xs Hx. eapply FI_push; eauto.
    - intro u. destruct (term_eqb cur u) eqn:E; [|reflexivity]. apply term_eqb_eq in E. subst. exact Hb.
    - intros (w & X). congruence.
    - intros c Hc. right. destruct (fi_order fr F1 [] cur rest Hv (fun x => x) Hb) as [_ S].
      destruct (S c Hc) as [[]|X]. exact X. }
  destruct (kind_eqb (tkind cur) K_EVAL_IF_THEN_ELSE) eqn:Ek.
  - apply kind_eqb_eq in Ek. destruct (ite_shape cur Wc Ek (Hi Ek)) as (c & a & b & ->).
    cbn [tkind tchildren].
    destruct (ite_cond fr c a b rest F1 Hv Hb) as (v & Hc).
    assert (Sa : exists xa, child_state (fr_visited fr) a xa)
      by (eapply child_state_ex; [exact F1|exact Hv|right; left; reflexivity]).
    assert (Sb : exists xb, child_state (fr_visited fr) b xb)
      by (eapply child_state_ex; [exact F1|exact Hv|right; right; left; reflexivity]).
    destruct Sa as (xa & Sa). destruct Sb as (xb & Sb).
    rewrite (collect_state (fr_visited fr) [c; a; b] [Some v; xa; xb])
      by (repeat constructor; assumption).
    cbn [bind]. apply (fi_val fr F1) in Hc. destruct Hc as [Hc Wv].
    assert (VA : forall w, xa = Some w -> ev (fsub fr) a w).
    { intros w ->. apply (fi_val fr F1 a w Sa). }
    assert (VB : forall w, xb = Some w -> ev (fsub fr) b w).
    { intros w ->. apply (fi_val fr F1 b w Sb). }
    destruct (bool_cases v) as [(x & ->)|Hn].
    + rewrite switch_ite_bool. destruct (if x then xa else xb) as [w|] eqn:Ew; cbn [bind].
      * left. eexists; eexists. split; [reflexivity|]. eapply GI_upd; [exact G| |exact T].
        apply FIN. destruct x; [eapply SpecEval.ev_ite_true|eapply SpecEval.ev_ite_false]; eauto.
      * destruct x; cbn [vec_at nth_error bind].
        -- left. eexists; eexists. split; [reflexivity|]. eapply GI_upd; [exact G| |exact T].
           apply WAIT. intros y [<-|[]]. right; left; reflexivity.
        -- left. eexists; eexists. split; [reflexivity|]. eapply GI_upd; [exact G| |exact T].
           apply WAIT. intros y [<-|[]]. right; right; left; reflexivity.
    + rewrite switch_ite_stuck by exact Hn.
      destruct xa as [wa|], xb as [wb|]; cbn [bind all_present].
      * left. eexists; eexists. split; [reflexivity|]. eapply GI_upd; [exact G| |exact T].
        apply FIN. rewrite rebuild_node. eapply SpecEval.ev_ite_stuck; eauto.
      * left. eexists; eexists. split; [reflexivity|]. eapply GI_upd; [exact G| |exact T].
        apply WAIT. intros y [<-|[]]. right; right; left; reflexivity.
      * left. eexists; eexists. split; [reflexivity|]. eapply GI_upd; [exact G| |exact T].
        apply WAIT. intros y [<-|[]]. right; left; reflexivity.
      * left. eexists; eexists. split; [reflexivity|]. eapply GI_upd; [exact G| |exact T].
        apply WAIT. intros y [<-|[<-|[]]]; [right; right; left|right; left]; reflexivity.
  - assert (Hk : tkind cur <> K_EVAL_IF_THEN_ELSE) by (intro X; rewrite X in Ek; discriminate).
    destruct (busy_children fr cur rest F1 Hv Hb Hk) as (vs & Ec & Fv). rewrite Ec. cbn [bind].
    destruct (values_evs fr _ vs F1 Fv) as [Es Ws].
    destruct (list_eq_dec term_eq_dec (tchildren cur) []) as [Hl|Hl].
    { rewrite Hl in *. inversion Fv; subst.
      assert (R : ev (fsub fr) cur cur).
      { apply SpecEval.ev_const; [exact Hl|]. intros (j & ->). apply Hp. reflexivity. }
      destruct (static_false_leaf _ cur Wc Hs Hl Hp) as [(i & ->)| ->];
        cbn [map tkind eval_switch isLiteralOp bind all_present];
        left; eexists; eexists; (split; [reflexivity|]); (eapply GI_upd; [exact G| |exact T]); apply FIN; exact R. }
    destruct cur as [k i|l|k cs]; try (cbn in Hl; contradiction). cbn [tkind tchildren] in *.
    destruct (app_dec k) as [Ha|Ha].
    + destruct vs as [|hd args]; [inversion Fv; subst; contradiction|].
      inversion Ws as [|x y Wh Wa]; subst.
      destruct (switch_app tr k cs hd args Ha T Wh Wa) as [H|[[Hn H]|(Hn & body & c & H & Hc & Hx)]].
      * destruct (program_kind hd Wh) as [P1 P2].
        destruct (kind_eqb (tkind hd) K_PROGRAM_CONST) eqn:Eh.
        -- specialize (P1 eq_refl). destruct (H P1) as (v & tr' & -> & C & T'). cbn [bind].
           pose proof (callres_ev (fsub fr) k cs hd args v Ha Es P1 C) as R.
           destruct v as [r|].
           ++ left. eexists; eexists. split; [reflexivity|]. eapply GI_upd; [exact G| |exact T']. apply FIN; exact R.
           ++ rewrite all_present_some. cbn [bind]. left. eexists; eexists. split; [reflexivity|].
              eapply GI_upd; [exact G| |exact T']. apply FIN. rewrite rebuild_node. exact R.
        -- assert (Hn : ~ is_program hd) by (intro X; apply P2 in X; discriminate).
           assert (E : eval_switch lop prog tr k cs (map Some (hd :: args)) = Ok (AVal None tr)).
           { destruct Ha as [->| ->]; unfold eval_switch; rewrite all_present_some; cbn [bind vec_at nth_error]; rewrite Eh; reflexivity. }
           rewrite E. cbn [bind]. rewrite all_present_some. cbn [bind]. left. eexists; eexists. split; [reflexivity|].
           eapply GI_upd; [exact G| |exact T]. apply FIN. rewrite rebuild_node.
           apply SpecEval.ev_apply; assumption.
      * rewrite H. cbn [bind]. rewrite all_present_some. cbn [bind]. left. eexists; eexists. split; [reflexivity|].
        eapply GI_upd; [exact G| |exact T]. apply FIN. rewrite rebuild_node. apply SpecEval.ev_apply; assumption.
      * rewrite H. cbn [bind]. left. eexists; eexists. split; [reflexivity|].
        destruct (calls_wf progs Hprogs hd args body (ctx_find c) Wa Hc) as [Wb Wcx].
        split; [constructor; [apply FI_new; assumption|constructor; assumption]|]. split; [|exact T].
        cbn [linked]. split; [|exact L].
        exists k, cs, rest, hd, args. cbn [new_frame fr_init fr_ctx fr_result]. auto 10.
    + destruct (isLiteralOp k) eqn:Eo.
      * rewrite switch_op by assumption. destruct (lop k vs) as [[r|]| | |] eqn:El; cbn [bind].
        -- left. eexists; eexists. split; [reflexivity|]. eapply GI_upd; [exact G| |exact T]. apply FIN.
           eapply SpecEval.ev_op; eauto.
        -- rewrite all_present_some. cbn [bind]. left. eexists; eexists. split; [reflexivity|].
           eapply GI_upd; [exact G| |exact T]. apply FIN. rewrite rebuild_node. eapply SpecEval.ev_op_stuck; eauto.
        -- right; right. exists k, vs. auto.
        -- right; right. exists k, vs. auto.
        -- right; right. exists k, vs. auto 10.
      * rewrite switch_other by assumption. cbn [bind]. rewrite all_present_some. cbn [bind].
        left. eexists; eexists. split; [reflexivity|]. eapply GI_upd; [exact G| |exact T]. apply FIN.
        rewrite rebuild_node. apply SpecEval.ev_other; assumption.
Qed.

Lemma static_ev : forall fr t, FI fr -> twf t -> static (fr_ctx fr) t = true -> ev (fsub fr) t t.
Proof.
  intros fr t F W S. unfold static in S. apply andb_true_iff in S. destruct S as [S1 S2].
  apply negb_true_iff in S1. apply eval_inert in S1; [|exact W].
  apply ev_static; [exact W|exact S1|]. apply orb_true_iff in S2. destruct S2 as [S2|S2].
  - left. apply ground_closed; assumption.
  - right. apply ctx_empty_find. destruct (fr_ctx fr); [reflexivity|discriminate].
Qed.

Theorem step_ok : forall st tr, GI st tr -> step_good st tr.
Proof.
  intros st tr G. pose proof G as (F & L & T). destruct st as [|fr below]; [destruct L|].
  inversion F as [|x y F1 F2]; subst. clear F.
  destruct (fr_visit fr) as [|cur rest] eqn:Hv.
  - (* the frame ends *)
    unfold step_good. cbn [ev_step]. rewrite Hv. unfold end_frame.
    destruct (fi_init fr F1) as [X|(v & Hd)]; [rewrite Hv in X; destruct X|]. rewrite Hd.
    destruct (fi_val fr F1 _ _ Hd) as [He Wv].
    destruct below as [|p below'].
    + destruct L as [L1 L2]. right; left. exists v. split; [reflexivity|].
      split; [|exact Wv]. rewrite L1, L2 in He. exact He.
    + destruct L as [(k & cs & rest & hd & args & P1 & P2 & P3 & P4 & P5 & P6 & P7 & P8) L].
      rewrite P1, P6. left. eexists; eexists. split; [reflexivity|].
      inversion F2 as [|x y Fp F3]; subst.
      destruct (values_evs p _ _ Fp P4) as [Es Ws].
      assert (C : callres hd args (Some v)).
      { exists (fr_init fr), (fsub fr). auto. }
      change (GI (upd p ((Node k cs, Some v) :: fr_visited p) rest :: below')
                 ((hd :: args, Some v) :: tr)).
      split.
      * constructor; [|exact F3]. eapply FI_finish; [exact Fp|exact P1|reflexivity|].
        exact (callres_ev (fsub p) k cs hd args (Some v) P2 Es P5 C).
      * split; [apply linked_upd; exact L|apply TI_add; assumption].
  - assert (Wc : twf cur) by (pose proof (fi_wf fr F1) as X; rewrite Hv in X; inversion X; assumption).
    destruct (vfind (fr_visited fr) cur) as [[w|]|] eqn:Ef.
    + unfold step_good. cbn [ev_step]. rewrite Hv. unfold inner_step. fold (static (fr_ctx fr) cur).
      destruct (fi_val fr F1 _ _ Ef) as [He _].
      left. destruct (static (fr_ctx fr) cur) eqn:Es.
      { eexists; eexists. split; [reflexivity|]. eapply GI_upd; [exact G| |exact T].
        eapply FI_finish; [exact F1|exact Hv|reflexivity|apply static_ev; assumption]. }
      destruct (kind_eqb (tkind cur) K_PARAM) eqn:Ep.
      { apply param_kind in Ep; [|exact Wc]. destruct Ep as (i & ->).
        pose proof (SpecEval.ev_param lop progs shortcut (fsub fr) i) as R.
        destruct (ctx_find (fr_ctx fr) (Sym K_PARAM i)) as [v|] eqn:Ec;
          eexists; eexists; (split; [reflexivity|]); (eapply GI_upd; [exact G| |exact T]);
          (eapply FI_finish; [exact F1|exact Hv|reflexivity|exact R]). }
      rewrite Ef. eexists; eexists. split; [reflexivity|].
      change (GI (upd fr (fr_visited fr) rest :: below) tr).
      eapply GI_upd; [exact G| |exact T]. eapply FI_finish; [exact F1|exact Hv| |exact He].
      intro u. destruct (term_eqb cur u) eqn:E; [|reflexivity]. apply term_eqb_eq in E. subst. exact Ef.
    + eapply step_busy; eauto.
    + unfold step_good. cbn [ev_step]. rewrite Hv. unfold inner_step. fold (static (fr_ctx fr) cur).
      left. destruct (static (fr_ctx fr) cur) eqn:Es.
      { eexists; eexists. split; [reflexivity|]. eapply GI_upd; [exact G| |exact T].
        eapply FI_finish; [exact F1|exact Hv|reflexivity|apply static_ev; assumption]. }
      destruct (kind_eqb (tkind cur) K_PARAM) eqn:Ep.
      { apply param_kind in Ep; [|exact Wc]. destruct Ep as (i & ->).
        pose proof (SpecEval.ev_param lop progs shortcut (fsub fr) i) as R.
        destruct (ctx_find (fr_ctx fr) (Sym K_PARAM i)) as [v|] eqn:Ec;
          eexists; eexists; (split; [reflexivity|]); (eapply GI_upd; [exact G| |exact T]);
          (eapply FI_finish; [exact F1|exact Hv|reflexivity|exact R]). }
      assert (Hp : tkind cur <> K_PARAM) by (intro X; rewrite X in Ep; discriminate).
      rewrite Ef. assert (Hnd : ~ done (fr_visited fr) cur) by (intros (w & X); congruence).
      destruct (kind_eqb (tkind cur) K_EVAL_IF_THEN_ELSE) eqn:Ek.
      * apply kind_eqb_eq in Ek. destruct (Nat.eqb (length (tchildren cur)) 3) eqn:E3; cbn [negb].
        -- apply Nat.eqb_eq in E3. destruct (ite_shape cur Wc Ek E3) as (c & a & b & ->).
           cbn [tchildren vec_at nth_error bind]. eexists; eexists. split; [reflexivity|].
           match goal with |- GI (mkFrame _ _ ?m (?c :: ?v) _ :: _) _ =>
             change (GI (upd fr m ([c] ++ v) :: below) tr) end.
           eapply GI_upd; [exact G| |exact T]. eapply FI_push; eauto.
           ++ intros x [<-|[]]. left; reflexivity.
           ++ intros d Hd. unfold req in Hd. cbn in Hd. injection Hd as <-. left; left; reflexivity.
        -- eexists; eexists. split; [reflexivity|]. eapply GI_upd; [exact G| |exact T].
           eapply FI_finish; [exact F1|exact Hv|reflexivity|].
           apply Nat.eqb_neq in E3. destruct cur as [k i|l|k cs]; cbn in Ek.
           ++ apply SpecEval.ev_const; [reflexivity|]. intros (j & E). injection E as -> ->. discriminate.
           ++ destruct l; discriminate.
           ++ subst k. apply SpecEval.ev_ite_odd. exact E3.
      * eexists; eexists. split; [reflexivity|].
        match goal with |- GI (mkFrame _ _ ?m ?v _ :: _) _ => change (GI (upd fr m v :: below) tr) end.
        eapply GI_upd; [exact G| |exact T]. eapply FI_push; eauto.
        -- intro X. rewrite X in Ek. discriminate.
        -- intros x Hx. apply in_rev in Hx. exact Hx.
        -- intros c Hc. unfold req in Hc. rewrite Ek in Hc. left. apply in_rev. rewrite rev_involutive. exact Hc.
Qed.

Lemma GI_init : twf e0 -> sub_wf (ctx_find c0) -> GI [new_frame e0 c0 None] [].
Proof.
  intros W S. split; [constructor; [apply FI_new; assumption|constructor]|].
  split; [split; reflexivity|]. intros key v H. discriminate.
Qed.

Theorem run_sound : forall fuel st tr, GI st tr ->
  ev_run lop prog fuel st tr = Fuel \/
  (exists r, ev_run lop prog fuel st tr = Ok (Some r) /\ ev (ctx_find c0) e0 r /\ twf r) \/
  bad (ev_run lop prog fuel st tr).
Proof.
  intro fuel. induction fuel as [|n IH]; intros st tr G; [left; reflexivity|].
  cbn [ev_run]. destruct (step_ok st tr G) as [(st' & tr' & E & G')|[(r & E & H)|H]].
  - rewrite E. cbn [bind]. apply IH; exact G'.
  - rewrite E. cbn [bind]. right; left. exists r. auto.
  - destruct H as (k & ds & W & [[H1 H2]|[[H1 H2]|[H1 H2]]]); rewrite H2; cbn [bind]; right; right; exists k, ds; auto 10.
Qed.
End Inv.
