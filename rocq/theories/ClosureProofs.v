(** Everything the checker builds from terms satisfying a hereditary property
    satisfies it: matching, evaluation, typing and mkExpr put together only
    terms whose proofs (nodes [K_PROOF]) they have been given. *)
From Coq Require Import ZArith List Bool Lia.
From Verif Require Import Base Kind Ints Str Literal Arity Term Match Eval ListOps Typing Build
  SpecTerm TermProofs.
Import ListNotations.

Ltac ib H :=
  match type of H with
  | bind ?e ?f = Ok _ =>
      let x := fresh "x" in let E := fresh "E" in
      destruct e as [x| | |] eqn:E; cbn [bind] in H; [|discriminate H..]
  end.
Ltac ibs H := repeat ib H.

Lemma size_ind (R : term -> Prop) :
  (forall t, (forall u, (tsize u < tsize t)%nat -> R u) -> R t) -> forall t, R t.
Proof.
  intros H t. remember (tsize t) as n eqn:E. revert t E.
  induction n as [n IH] using lt_wf_ind. intros t ->. apply H. intros u Hu. now apply (IH (tsize u)).
Qed.

Definition nodek (k : kind) : bool := negb (isSymbol k) && negb (isLiteral k).
Definition okk (k : kind) : bool := nodek k && negb (kind_eqb k K_PROOF).

Section Closure.
(** The name and type of a variable, and the property of proven formulas. *)
Variable vinfo : Z -> option (text * term).
Variable P : term -> Prop.

Inductive Q : term -> Prop :=
| q_sym : forall k i, sym_kind k = true ->
    (k = K_VARIABLE -> forall n t, vinfo i = Some (n, t) -> Q t) -> Q (Sym k i)
| q_lit : forall l, Q (Lit l)
| q_node : forall k cs, nodek k = true -> Forall Q cs ->
    (k = K_PROOF -> Forall P cs) -> Q (Node k cs).

Lemma Q_ind2 (R : term -> Prop) :
  (forall k i, sym_kind k = true ->
     (k = K_VARIABLE -> forall n t, vinfo i = Some (n, t) -> Q t /\ R t) -> R (Sym k i)) ->
  (forall l, R (Lit l)) ->
  (forall k cs, nodek k = true -> Forall Q cs -> Forall R cs ->
     (k = K_PROOF -> Forall P cs) -> R (Node k cs)) ->
  forall t, Q t -> R t.
Proof.
  intros Hs Hl Hn. fix IH 2. intros t [k i Hk Hv|l|k cs Hk Hcs Hp].
  - apply Hs; [exact Hk|]. intros Ek n t' Et. split; [exact (Hv Ek n t' Et)|].
    exact (IH t' (Hv Ek n t' Et)).
  - apply Hl.
  - apply Hn; [exact Hk|exact Hcs| |exact Hp].
    clear Hp. induction Hcs as [|c cs' Hc Hcs' IHcs]; constructor; [exact (IH c Hc)|exact IHcs].
Qed.

Lemma Q_twf t : Q t -> twf t.
Proof.
  intro H. induction H using Q_ind2.
  - now constructor.
  - constructor.
  - unfold nodek in H. apply andb_true_iff in H as [A B].
    constructor; [now apply negb_true_iff|now apply negb_true_iff|assumption].
Qed.

Lemma okk_node k cs : okk k = true -> Forall Q cs -> Q (Node k cs).
Proof.
  unfold okk. intros H Hc. apply andb_true_iff in H as [A B].
  constructor; [exact A|exact Hc|]. intros ->. discriminate B.
Qed.

Lemma Q_children t : Q t -> Forall Q (tchildren t).
Proof. intros []; cbn; auto. Qed.

Lemma Q_at l i x : Forall Q l -> vec_at l i = Ok x -> Q x.
Proof.
  unfold vec_at. intros H E. destruct (nth_error l i) eqn:E'; [|discriminate].
  injection E as ->. rewrite Forall_forall in H. apply H. eapply nth_error_In, E'.
Qed.

Lemma litop_okk k : isLiteralOp k = true -> okk k = true.
Proof. destruct k; intro H; first [discriminate H|reflexivity]. Qed.

(** Constants. *)
Lemma Q_Type : Q t_Type. Proof. apply okk_node; [reflexivity|constructor]. Qed.
Lemma Q_Bool : Q t_Bool. Proof. apply okk_node; [reflexivity|constructor]. Qed.
Lemma Q_Any : Q t_Any. Proof. apply okk_node; [reflexivity|constructor]. Qed.
Lemma Q_null : Q null_term. Proof. apply okk_node; [reflexivity|constructor]. Qed.
Lemma Q_const i : Q (Sym K_CONST i).
Proof. constructor; [reflexivity|discriminate]. Qed.
Lemma Q_or_null o : (forall t, o = Some t -> Q t) -> Q (or_null o).
Proof. destruct o; cbn; intro H; [now apply H|apply Q_null]. Qed.
Lemma Q_apply f x : Q f -> Q x -> Q (Node K_APPLY [f; x]).
Proof. intros. apply okk_node; [reflexivity|auto]. Qed.
Lemma Q_apply2 f x y : Q f -> Q x -> Q y -> Q (mkApply2 f x y).
Proof. intros. unfold mkApply2, mkApply1. auto using Q_apply. Qed.
Lemma Q_fun args ret : Forall Q args -> Q ret -> Q (mkFunctionType args ret).
Proof.
  unfold mkFunctionType. intros Ha Hr. induction Ha; cbn; [exact Hr|].
  apply okk_node; [reflexivity|auto].
Qed.

(** Either proven formulas are closed and inert, or there is no condition on them. *)
Hypothesis PS :
  (forall F, P F -> isGround F = true /\ isEvaluatable F = false) \/ (forall F, P F).

(** Matching. *)
Definition ctxQ (c : ctx) : Prop := Forall (fun e => Q (snd e)) c.
Definition rightQ (l : list (term * term)) : Prop := Forall (fun e => Q (snd e)) l.

Lemma ctxQ_find c p v : ctxQ c -> ctx_find c p = Some v -> Q v.
Proof.
  induction 1 as [|[a b] c H Hc IH]; cbn; [discriminate|].
  destruct (term_eqb a p); [intros [= ->]; exact H|exact IH].
Qed.

Lemma rightQ_combine cs ds : Forall Q ds -> rightQ (combine cs ds).
Proof.
  intro H. revert cs. induction H as [|d ds Hd Hds IH]; intros [|c cs]; cbn; constructor;
    [exact Hd|apply IH].
Qed.

Lemma rightQ_rev_combine cs ds rest :
  Forall Q ds -> rightQ rest -> rightQ (rev (combine cs ds) ++ rest).
Proof.
  intros. apply Forall_app. split; [|assumption]. apply Forall_rev. now apply rightQ_combine.
Qed.

Lemma match_loop_Q fuel : forall stack visited c c',
  rightQ stack -> ctxQ c -> match_loop fuel stack visited c = Ok (Some c') -> ctxQ c'.
Proof.
  induction fuel as [|n IH]; cbn; intros stack visited c c' Hs Hc H; [discriminate|].
  destruct stack as [|[a b] rest]; [injection H as <-; exact Hc|].
  inversion Hs as [|? ? Hb Hr]; subst. cbn in Hb.
  destruct (isGround a).
  { destruct (term_eqb a b); [|discriminate]. eapply IH; [exact Hr|exact Hc|exact H]. }
  destruct (mem_pair a b visited); [eapply IH; [exact Hr|exact Hc|exact H]|].
  destruct (tchildren a) as [|c0 cs].
  - destruct (kind_eqb (tkind a) K_PARAM); [|discriminate].
    destruct (ctx_find c a).
    + destruct (term_eqb t b); [|discriminate]. eapply IH; [exact Hr|exact Hc|exact H].
    + eapply IH; [exact Hr| |exact H]. constructor; [exact Hb|exact Hc].
  - destruct (negb _ || negb _); [discriminate|].
    eapply IH; [|exact Hc|exact H].
    exact (rightQ_rev_combine (c0 :: cs) _ _ (Q_children _ Hb) Hr).
Qed.

Lemma match_term_Q a b c c' : Q b -> ctxQ c -> match_term a b c = Ok (Some c') -> ctxQ c'.
Proof. intros Hb Hc. apply match_loop_Q; [repeat constructor; exact Hb|exact Hc]. Qed.

Lemma match_args_Q ps : forall xs c c',
  Forall Q xs -> ctxQ c -> match_args ps xs c = Ok (Some c') -> ctxQ c'.
Proof.
  induction ps as [|p ps IH]; intros [|x xs] c c' Hx Hc H; cbn in H;
    try (injection H as <-; exact Hc).
  inversion Hx; subst. ib H. destruct x0 as [c1|]; [|discriminate].
  eapply IH; [eassumption| |exact H]. eapply match_term_Q; [| |exact E]; assumption.
Qed.

Definition caseQ (c : term) : Prop := forall r, vec_at (tchildren c) 1 = Ok r -> Q r.
(** The right hand sides of a program. *)
Definition progQ (p : term) : Prop :=
  Forall caseQ (tchildren p) /\ ((forall F, P F) -> Q p).

Lemma match_cases_Q cases children body c :
  Forall caseQ cases -> Forall Q children ->
  match_cases cases children = Ok (Some (body, c)) -> Q body /\ ctxQ c.
Proof.
  intros Hc Hx. induction Hc as [|ca cs Hca Hcs IH]; cbn; intro H; [discriminate|].
  ib H. destruct (negb _); [discriminate|]. ib H. destruct x0 as [c1|]; [|now apply IH].
  ib H. injection H as <- <-. split; [now apply Hca|].
  eapply match_args_Q; [|constructor|exact E0]. inversion Hx; cbn; auto.
Qed.

Section Ev.
Variable lop : kind -> list term -> res (option term).
Variable prog : term -> option term.
Hypothesis lopQ : forall k ds r, isLiteralOp k = true -> Forall Q ds -> lop k ds = Ok (Some r) -> Q r.
Hypothesis programQ : forall h p, prog h = Some p -> progQ p.

Lemma evaluateProgramInternal_Q children body c : Forall Q children ->
  evaluateProgramInternal prog children = Ok (Some (body, c)) -> Q body /\ ctxQ c.
Proof.
  unfold evaluateProgramInternal. intros Hc H.
  destruct (negb _); [discriminate|]. destruct (existsb _ _); [discriminate|].
  ib H. destruct (prog x) as [p|] eqn:Ep; [|discriminate].
  eapply match_cases_Q; [|exact Hc|exact H]. now apply (programQ _ _ Ep).
Qed.

Definition vmapQ (m : vmap) : Prop := Forall (fun e => forall v, snd e = Some v -> Q v) m.
Definition trieQ (m : trie) : Prop := Forall (fun e => forall v, snd e = Some v -> Q v) m.
Definition frameQ (f : frame) : Prop :=
  Q (fr_init f) /\ ctxQ (fr_ctx f) /\ vmapQ (fr_visited f) /\ Forall Q (fr_visit f).

Lemma vfind_Q m t v : vmapQ m -> vfind m t = Some (Some v) -> Q v.
Proof.
  induction 1 as [|[a b] m H Hm IH]; cbn; [discriminate|].
  destruct (term_eqb a t); [intros [= ->]; now apply H|exact IH].
Qed.
Lemma tr_find_Q m t v : trieQ m -> tr_find m t = Some (Some v) -> Q v.
Proof.
  induction 1 as [|[a b] m H Hm IH]; cbn; [discriminate|].
  destruct (path_eqb a t); [intros [= ->]; now apply H|exact IH].
Qed.

Definition optsQ (l : list (option term)) : Prop := Forall (fun o => forall v, o = Some v -> Q v) l.
Lemma collect_Q m cs : forall l, vmapQ m -> collect m cs = Ok l -> optsQ l.
Proof.
  induction cs as [|c cs IH]; cbn; intros l Hm H; [injection H as <-; constructor|].
  destruct (vfind m c) as [[v|]|] eqn:Ev; [|discriminate|]; ib H; injection H as <-;
    (constructor; [|now apply IH]).
  - intros v' [= <-]. eapply vfind_Q; eauto.
  - discriminate.
Qed.
Lemma all_present_Q l : forall vs, optsQ l -> all_present l = Ok vs -> Forall Q vs.
Proof.
  induction l as [|[v|] l IH]; cbn; intros vs Hl H;
    [injection H as <-; constructor| |discriminate].
  inversion Hl; subst. ib H. injection H as <-. constructor; auto.
Qed.

Definition actionQ (a : action) : Prop :=
  match a with
  | APush body c key => Q body /\ ctxQ c
  | AWait ts => Forall Q ts
  | AVal v tr => (forall t, v = Some t -> Q t) /\ trieQ tr
  end.

Lemma vec_at_opts l i v : optsQ l -> vec_at l i = Ok (Some v) -> Q v.
Proof.
  unfold vec_at. intros H E. destruct (nth_error l i) eqn:E'; [|discriminate].
  injection E as ->. unfold optsQ in H. rewrite Forall_forall in H.
  eapply H; [eapply nth_error_In, E'|reflexivity].
Qed.

Lemma eval_switch_Q tr k cs ccs a : trieQ tr -> Forall Q cs -> optsQ ccs ->
  eval_switch lop prog tr k cs ccs = Ok a -> actionQ a.
Proof.
  intros Ht Hc Hcc H.
  assert (App : (let* vs := all_present ccs in
      let* hd := vec_at vs 0 in
      if kind_eqb (tkind hd) K_PROGRAM_CONST then
        match tr_find tr vs with
        | Some v => Ok (AVal v tr)
        | None =>
            let* r := evaluateProgramInternal prog vs in
            match r with
            | None => Ok (AVal None ((vs, None) :: tr))
            | Some (body, c) =>
                if isGround body || match c with [] => true | _ => false end
                then Ok (AVal (Some body) ((vs, Some body) :: tr))
                else Ok (APush body c vs)
            end
        end
      else Ok (AVal None tr)) = Ok a -> actionQ a).
  { clear H. intro H. ib H. ib H. apply all_present_Q in E; [|exact Hcc].
    destruct (kind_eqb _ _).
    2:{ injection H as <-. cbn. split; [discriminate|exact Ht]. }
    destruct (tr_find tr x) as [v|] eqn:Ef.
    { injection H as <-. cbn. split; [|exact Ht]. intros t ->. eapply tr_find_Q; eauto. }
    ib H. destruct x1 as [[body c]|].
    - apply evaluateProgramInternal_Q in E1 as [B C]; [|exact E].
      destruct (isGround body || _); injection H as <-; cbn; [|now split].
      split; [now intros t [= <-]|]. constructor; [|exact Ht]. now intros v [= <-].
    - injection H as <-. cbn. split; [discriminate|]. constructor; [discriminate|exact Ht]. }
  assert (Lop : (if isLiteralOp k then
        let* vs := all_present ccs in
        let* r := lop k vs in
        Ok (AVal r tr)
      else Ok (AVal None tr)) = Ok a -> actionQ a).
  { clear H. intro H. destruct (isLiteralOp k) eqn:Ek.
    - ib H. ib H. injection H as <-. cbn. split; [|exact Ht]. intros t ->.
      eapply lopQ; [exact Ek| |exact E0]. eapply all_present_Q; eauto.
    - injection H as <-. cbn. split; [discriminate|exact Ht]. }
  destruct (kind_eqb k K_APPLY) eqn:K1; [apply kind_eqb_eq in K1 as ->; exact (App H)|].
  destruct (kind_eqb k K_APPLY_OPAQUE) eqn:K2; [apply kind_eqb_eq in K2 as ->; exact (App H)|].
  destruct (kind_eqb k K_EVAL_IF_THEN_ELSE) eqn:K3.
  2:{ apply Lop. destruct k; first [discriminate K1|discriminate K2|discriminate K3|exact H]. }
  apply kind_eqb_eq in K3 as ->. cbn [eval_switch] in H.
  ib H. destruct x as [c0|]; [|discriminate].
  assert (Els : (let* x1 := vec_at ccs 1 in
          let* x2 := vec_at ccs 2 in
          let* c1 := vec_at cs 1 in
          let* c2 := vec_at cs 2 in
          match x1, x2 with
          | None, None => Ok (AWait [c2; c1])
          | None, Some _ => Ok (AWait [c1])
          | Some _, None => Ok (AWait [c2])
          | Some _, Some _ => Ok (AVal None tr)
          end) = Ok a -> actionQ a).
  { clear H. intro H. ibs H. pose proof (Q_at _ _ _ Hc E2). pose proof (Q_at _ _ _ Hc E3).
    destruct x, x0; injection H as <-; cbn; auto. split; [discriminate|exact Ht]. }
  destruct c0 as [|[b| | | | | |]|]; try exact (Els H).
  ib H. destruct x as [v|].
  - injection H as <-. cbn. split; [|exact Ht]. intros t [= <-]. eapply vec_at_opts; eauto.
  - ib H. injection H as <-. cbn. constructor; [|constructor]. eapply Q_at; eauto.
Qed.

(** A proof is a value. *)
Lemma proof_inert cs : Q (Node K_PROOF cs) ->
  (forall F, P F -> isGround F = true /\ isEvaluatable F = false) ->
  isGround (Node K_PROOF cs) = true /\ isEvaluatable (Node K_PROOF cs) = false.
Proof.
  intros H HP. inversion H as [| |? ? _ _ Hp]; subst. specialize (Hp eq_refl).
  destruct cs as [|c cs]; [now split|].
  assert (G : existsb nonGround (c :: cs) = false /\ existsb isEvaluatable (c :: cs) = false).
  { clear H. revert Hp. generalize (c :: cs). intros l Hp.
    induction Hp as [|x xs Hx Hxs IH]; [now split|]. destruct IH as [I1 I2].
    destruct (HP x Hx) as [X1 X2]. apply negb_true_iff in X1.
    cbn [existsb]. rewrite X1, X2, I1, I2. now split. }
  destruct G as [G1 G2]. split; [|exact G2]. apply negb_true_iff. exact G1.
Qed.

Definition outcomeQ (o : outcome) : Prop :=
  match o with
  | Done r => forall t, r = Some t -> Q t
  | Next st tr => Forall frameQ st /\ trieQ tr
  end.

Lemma inner_step_Q fr below tr cur rest o :
  frameQ fr -> fr_visit fr = cur :: rest -> Forall frameQ below -> trieQ tr ->
  inner_step lop prog fr below tr cur rest = Ok o -> outcomeQ o.
Proof.
  intros (Fi & Fc & Fm & Fv) Ev Fb Ft H. rewrite Ev in Fv.
  inversion Fv as [|? ? Qc Qr]; subst.
  unfold inner_step in H. cbn zeta in H.
  assert (Fin : forall v tr', Q v -> trieQ tr' ->
    Ok (Next (mkFrame (fr_init fr) (fr_ctx fr) ((cur, Some v) :: fr_visited fr) rest (fr_result fr)
              :: below) tr') = Ok o -> outcomeQ o).
  { intros v tr' Hv Ht' [= <-]. cbn. split; [|exact Ht']. constructor; [|exact Fb].
    repeat split; cbn; auto. constructor; [|exact Fm]. cbn. now intros v' [= <-]. }
  destruct (negb (isEvaluatable cur) && _) eqn:E1; [now apply (Fin cur tr)|].
  destruct (kind_eqb (tkind cur) K_PARAM).
  { destruct (ctx_find (fr_ctx fr) cur) eqn:Ec; [|now apply (Fin cur tr)].
    apply (Fin t tr); auto. eapply ctxQ_find; eauto. }
  pose proof (Q_children _ Qc) as Qcs.
  destruct (vfind (fr_visited fr) cur) as [[w|]|] eqn:Ef.
  - injection H as <-. cbn. split; [|exact Ft]. constructor; [|exact Fb]. repeat split; auto.
  - ib H. pose proof E as Ecol. apply collect_Q in E; [|exact Fm]. ib H.
    apply eval_switch_Q in E0; [|assumption..].
    destruct x0 as [body c key|ts|[v|] tr']; cbn in E0.
    + injection H as <-. cbn. split; [|exact Ft]. destruct E0.
      repeat (constructor; try assumption). cbn. now rewrite Ev.
    + injection H as <-. cbn. split; [|exact Ft]. constructor; [|exact Fb].
      repeat split; auto. cbn. apply Forall_app. now split.
    + destruct E0. apply (Fin v tr'); auto.
    + destruct E0 as [_ Ht']. ib H. pose proof E0 as Epre. apply all_present_Q in E0; [|exact E].
      apply (Fin (rebuild cur x0) tr'); auto. unfold rebuild.
      destruct Qc as [k i Hk Hv|l|k cs Hk Hcs Hp];
        [cbn in Ecol; injection Ecol as <-; injection Epre as <-; cbn; now constructor..|].
      destruct (path_eqb _ _); [now constructor|].
      cbn. constructor; [exact Hk|exact E0|]. intros ->.
        destruct PS as [HP|HP].
      * exfalso. destruct (proof_inert cs) as [G1 G2]; [exact (q_node _ _ Hk Hcs Hp)|exact HP|].
        rewrite G1, G2 in E1. discriminate E1.
      * apply Forall_forall. intros; apply HP.
  - destruct (kind_eqb (tkind cur) K_EVAL_IF_THEN_ELSE).
    + destruct (negb (Nat.eqb _ _)); [now apply (Fin cur tr)|]. ib H. injection H as <-.
      cbn. split; [|exact Ft]. constructor; [|exact Fb]. repeat split; cbn; auto.
      * constructor; [discriminate|exact Fm].
      * constructor; [eapply Q_at; eauto|auto].
    + injection H as <-.
      cbn. split; [|exact Ft]. constructor; [|exact Fb]. repeat split; cbn; auto.
      * constructor; [discriminate|exact Fm].
      * apply Forall_app. split; [now apply Forall_rev|auto].
Qed.

Lemma end_frame_Q fr below tr o :
  frameQ fr -> Forall frameQ below -> trieQ tr -> end_frame fr below tr = Ok o -> outcomeQ o.
Proof.
  intros (Fi & Fc & Fm & Fv) Fb Ft H. unfold end_frame in H. cbn zeta in H.
  assert (V : forall t, match vfind (fr_visited fr) (fr_init fr) with Some v => v | None => None end
                        = Some t -> Q t).
  { intros t. destruct (vfind _ _) as [[v|]|] eqn:Ev; try discriminate.
    intros [= <-]. eapply vfind_Q; eauto. }
  destruct below as [|p below'].
  - injection H as <-. exact V.
  - inversion Fb as [|? ? (Pi & Pc & Pm & Pv) Fb']; subst.
    destruct (fr_visit p) as [|cur rest]; [discriminate|]. injection H as <-. cbn. split.
    + constructor; [|exact Fb']. inversion Pv; subst. repeat split; cbn; auto.
      constructor; [exact V|exact Pm].
    + destruct (fr_result fr); [|exact Ft]. constructor; [exact V|exact Ft].
Qed.

Lemma ev_run_Q fuel : forall st tr r,
  Forall frameQ st -> trieQ tr -> ev_run lop prog fuel st tr = Ok (Some r) -> Q r.
Proof.
  induction fuel as [|n IH]; intros st tr r Hs Ht H; cbn [ev_run] in H; [discriminate|].
  ib H. assert (O : outcomeQ x).
  { unfold ev_step in E. destruct st as [|fr below]; [injection E as <-; cbn; discriminate|].
    inversion Hs; subst. destruct (fr_visit fr) as [|cur rest] eqn:Ev.
    - eapply end_frame_Q; [| | |exact E]; assumption.
    - eapply inner_step_Q; [|exact Ev| | |exact E]; assumption. }
  destruct x as [r'|st' tr']; cbn in O.
  - injection H as ->. now apply O.
  - destruct O. eapply IH; [| |exact H]; assumption.
Qed.

Lemma evaluate_Q fuel e c r : Q e -> ctxQ c ->
  Eval.evaluate lop prog fuel e c = Ok (Some r) -> Q r.
Proof.
  intros He Hc. apply ev_run_Q; [|constructor].
  constructor; [|constructor]. repeat split; cbn; auto. constructor.
Qed.
End Ev.

(** Lists. *)
Lemma nary_loop_Q isLeft op : forall e l t,
  Q e -> nary_loop isLeft op e = Ok (l, t) -> Forall Q l /\ Q t.
Proof.
  induction e as [e IH] using size_ind. intros l t He H.
  assert (D : Ok ([], e) = Ok (l, t) -> Forall Q l /\ Q t)
    by (intros [= <- <-]; split; [constructor|exact He]).
  destruct e as [k i|li|k cs]; [exact (D H)..|].
  pose proof (Q_children _ He) as Hc. cbn in Hc.
  destruct k; try exact (D H).
  destruct cs as [|cop rest]; [discriminate H|].
  inversion Hc as [|? ? Hcop Hrest]; subst.
  destruct cop as [k i|li|k ds]; [exact (D H)..|].
  pose proof (Q_children _ Hcop) as Hd. cbn in Hd.
  destruct k; try exact (D H).
  destruct ds as [|h ds]; [discriminate H|]. cbn [nary_loop] in H.
  destruct (term_eqb h op); [|exact (D H)].
  destruct rest as [|a rest]; [discriminate H|]. destruct ds as [|b ds]; [discriminate H|].
  inversion Hrest as [|? ? Ha _]; subst. inversion Hd as [|? ? _ Hd']; subst.
  inversion Hd' as [|? ? Hb _]; subst.
  destruct isLeft.
  - destruct (nary_loop true op b) as [[l' t']| | |] eqn:E; cbn in H; try discriminate H.
    injection H as <- <-. destruct (IH b ltac:(cbn; lia) l' t' Hb E). auto.
  - destruct (nary_loop false op a) as [[l' t']| | |] eqn:E; cbn in H; try discriminate H.
    injection H as <- <-. destruct (IH a ltac:(cbn; lia) l' t' Ha E). auto.
Qed.

Lemma getNAry_Q e op nl isLeft l : Q e -> getNAryChildren e op nl isLeft = Ok (Some l) -> Forall Q l.
Proof.
  unfold getNAryChildren. intros He H. ib H. destruct x as [l' t].
  apply nary_loop_Q in E as [A _]; [|exact He].
  destruct nl as [n|]; [destruct (term_eqb t n)|]; try discriminate H; injection H as <-; exact A.
Qed.

Lemma prepend_Q op ret hs isLeft : Q op -> Q ret -> Forall Q hs ->
  Q (prependNAryChildren op ret hs isLeft).
Proof.
  intros Ho Hr Hh. unfold prependNAryChildren. destruct isLeft.
  - revert ret Hr. induction Hh; cbn; intros ret Hr; [exact Hr|]. apply IHHh. now apply Q_apply2.
  - induction Hh; cbn; [exact Hr|]. now apply Q_apply2.
Qed.

Lemma nthTail_Q isLeft n : forall e r, Q e -> getNAryNthTail e isLeft n = Ok r -> Q r.
Proof.
  induction n as [|n IH]; cbn; intros e r He H; [injection H as <-; exact He|].
  ib H. apply (IH x); [|exact H]. pose proof (Q_children _ He) as Hc. destruct isLeft.
  - ib E. eapply Q_at; [|exact E]. apply Q_children. eapply Q_at; eauto.
  - eapply Q_at; eauto.
Qed.

Lemma finish_list_Q op a1 isLeft rs l ci cz t : Q op -> Q a1 -> Forall Q l ->
  finish_list op a1 isLeft rs (l, ci, cz) = Ok (Some t) -> Q t.
Proof.
  intros Ho Ha Hl H. unfold finish_list in H. destruct (Nat.eqb ci 0).
  - injection H as <-. exact Ha.
  - cbn zeta in H. ib H. injection H as <-. apply prepend_Q; [exact Ho| |].
    + eapply nthTail_Q; eauto.
    + destruct rs; [|exact Hl]. rewrite <- (firstn_skipn cz l) in Hl. now apply Forall_app in Hl.
Qed.

Lemma erase_loop_Q isAll x hs : forall i res ci cz l ci' cz', Forall Q hs -> Forall Q res ->
  erase_loop isAll x hs i res ci cz = (l, ci', cz') -> Forall Q l.
Proof.
  induction hs as [|h hs IH]; cbn; intros i res ci cz l ci' cz' Hh Hr H;
    [injection H as <- _ _; exact Hr|]. inversion Hh; subst.
  destruct (term_eqb h x); [destruct isAll|].
  - eapply IH; [| |exact H]; assumption.
  - injection H as <- _ _; exact Hr.
  - eapply IH; [| |exact H]; [assumption|]. apply Forall_app; auto.
Qed.
Lemma setof_loop_Q hs : forall seen i res ci cz l ci' cz', Forall Q hs -> Forall Q res ->
  setof_loop hs seen i res ci cz = (l, ci', cz') -> Forall Q l.
Proof.
  induction hs as [|h hs IH]; cbn; intros seen i res ci cz l ci' cz' Hh Hr H;
    [injection H as <- _ _; exact Hr|]. inversion Hh; subst.
  destruct (mem_term h seen).
  - eapply IH; [| |exact H]; assumption.
  - eapply IH; [| |exact H]; [assumption|]. apply Forall_app; auto.
Qed.
Lemma diffinter_loop_Q d hs : forall m i res ci cz l ci' cz', Forall Q hs -> Forall Q res ->
  diffinter_loop d hs m i res ci cz = (l, ci', cz') -> Forall Q l.
Proof.
  induction hs as [|h hs IH]; cbn; intros m i res ci cz l ci' cz' Hh Hr H;
    [injection H as <- _ _; exact Hr|]. inversion Hh; subst.
  destruct (Bool.eqb _ d).
  - eapply IH; [| |exact H]; assumption.
  - eapply IH; [| |exact H]; [assumption|]. apply Forall_app; auto.
Qed.

Ltac gna Ha := match goal with E : getNAryChildren _ _ _ _ = Ok (Some _) |- _ =>
  apply getNAry_Q in E; [|eapply Q_at; [exact Ha|eassumption]] end.

Lemma evaluateListOp_Q k op nl isLeft args t :
  Q op -> Q nl -> Forall Q args -> evaluateListOp k op nl isLeft args = Ok (Some t) -> Q t.
Proof.
  intros Ho Hn Ha H.
  destruct k; try discriminate H; cbn [evaluateListOp] in H.
  all: lazymatch type of H with
  | evaluateListConcat _ _ _ _ _ = _ =>
      unfold evaluateListConcat in H; cbn zeta in H; ib H; ib H; destruct (negb _); [discriminate H|];
      destruct (negb _);
        [ib H; injection H as <-;
         pose proof (Q_at _ _ _ Ha E); pose proof (Q_at _ _ _ Ha E1);
         apply prepend_Q; auto|];
      ib H; ib H; destruct x2 as [hs|]; [|discriminate H]; gna Ha;
      destruct (term_eqb x nl); injection H as <-;
        [eapply Q_at; [exact Ha|eassumption]|apply prepend_Q; [exact Ho| |assumption]; eapply Q_at; [exact Ha|eassumption]]
  | evaluateListLength _ _ _ _ = _ =>
      unfold evaluateListLength in H; cbn zeta in H; ibs H; destruct x0; [|discriminate H];
      injection H as <-; constructor
  | evaluateListNth _ _ _ _ = _ =>
      unfold evaluateListNth in H; cbn zeta in H; ib H; destruct x as [|[]|]; try discriminate H;
      destruct (negb _); [discriminate H|]; cbn zeta in H; ib H; ib H;
      destruct x0 as [hs|]; [|discriminate H]; gna Ha;
      destruct (Z.leb _ _); [discriminate H|]; ib H; injection H as <-; eapply Q_at; eassumption
  | evaluateListFind _ _ _ _ = _ =>
      unfold evaluateListFind in H; cbn zeta in H; ib H; ib H; destruct x0 as [hs|]; [|discriminate H];
      ib H; destruct (find_term _ _ _); injection H as <-; constructor
  | evaluateListErase _ _ _ _ _ = _ =>
      unfold evaluateListErase in H; cbn zeta in H; ib H; ib H; destruct x0 as [hs|]; [|discriminate H]; gna Ha;
      cbn zeta in H; pose proof (Q_at _ _ _ Ha E);
      destruct hs as [|h0 hs]; [injection H as <-; assumption|]; ib H;
      match type of H with context [erase_loop ?a ?b ?c ?d ?e ?f ?g] =>
        destruct (erase_loop a b c d e f g) as [[l ci] cz] eqn:El end;
      apply erase_loop_Q in El; [|assumption|constructor];
      eapply finish_list_Q; [..|exact H]; assumption
  | evaluateListRev _ _ _ _ = _ =>
      unfold evaluateListRev in H; cbn zeta in H; ib H; ib H; destruct x0 as [hs|]; [|discriminate H]; gna Ha;
      injection H as <-; apply prepend_Q; [exact Ho|exact Hn|now apply Forall_rev]
  | evaluateListSetOf _ _ _ _ = _ =>
      unfold evaluateListSetOf in H; cbn zeta in H; ib H; ib H; destruct x0 as [hs|]; [|discriminate H]; gna Ha;
      match type of H with context [setof_loop ?a ?b ?c ?d ?e ?f] =>
        destruct (setof_loop a b c d e f) as [[l ci] cz] eqn:El end;
      apply setof_loop_Q in El; [|assumption|constructor];
      eapply finish_list_Q; [..|exact H]; [exact Ho|eapply Q_at; [exact Ha|eassumption]|assumption]
  | evaluateListMPred _ _ _ _ _ = _ =>
      unfold evaluateListMPred in H; cbn zeta in H; ib H; ib H; destruct x0 as [hs|]; [|discriminate H];
      ib H; ib H; destruct x1 as [hs2|]; [|discriminate H];
      destruct (term_eqb _ _); [injection H as <-; constructor|]; cbn zeta in H;
      destruct (_ && _); injection H as <-; constructor
  | evaluateListDiffInter _ _ _ _ _ = _ =>
      unfold evaluateListDiffInter in H; cbn zeta in H; ib H; ib H; destruct x0 as [hs|]; [|discriminate H]; gna Ha;
      pose proof (Q_at _ _ _ Ha E);
      ib H; ib H; destruct x1 as [hs2|]; [|discriminate H]; cbn zeta in H;
      destruct (term_eqb _ _); [destruct (kind_eqb _ _); injection H as <-; assumption|];
      match type of H with context [diffinter_loop ?a ?b ?c ?d ?e ?f ?g] =>
        destruct (diffinter_loop a b c d e f g) as [[l ci] cz] eqn:El end;
      apply diffinter_loop_Q in El; [|assumption|constructor];
      eapply finish_list_Q; [..|exact H]; assumption
  | evaluateListSingletonElim _ _ _ _ = _ =>
      unfold evaluateListSingletonElim in H; cbn zeta in H; ib H; ib H; destruct x0 as [hs|]; [|discriminate H]; gna Ha;
      pose proof (Q_at _ _ _ Ha E);
      destruct hs as [|h [|h' hs]]; injection H as <-; try assumption;
      match goal with F : Forall Q [_] |- _ => inversion F; assumption end
  end.
Qed.

(** The type checker. *)
Record env_ok (E : env) : Prop := mkOk {
  ok_symtype : forall k i t, Q (Sym k i) -> e_symtype E (Sym k i) = Some t -> Q t;
  ok_cterm : forall t ai c, e_info E t = Some ai -> ai_cons ai <> A_PROGRAM ->
    ai_cterm ai = Some c -> Q c;
  ok_prog : forall t ai c, e_info E t = Some ai -> ai_cons ai = A_PROGRAM ->
    ai_cterm ai = Some c -> progQ c;
  ok_kind : forall t ai, e_info E t = Some ai -> okk (ai_kind ai) = true;
  ok_over : forall t ai ov, e_info E t = Some ai -> ai_over ai = Some ov -> Forall Q ov;
  ok_lit : forall k t, e_littype E k = Some t -> Q t;
  ok_bvar : forall n t, Q t -> Q (e_bvar E n t);
  ok_listType : Q (e_listType E); ok_listCons : Q (e_listCons E); ok_listNil : Q (e_listNil E);
  ok_proofType : Q (e_proofType E) }.

Lemma matchv_loop_Q fuel : forall stack visited c ok c' v',
  rightQ stack -> ctxQ c -> matchv_loop fuel stack visited c = Ok (ok, c', v') -> ctxQ c'.
Proof.
  induction fuel as [|n IH]; cbn [matchv_loop]; intros stack visited c ok c' v' Hs Hc H; [discriminate|].
  destruct stack as [|[a b] rest]; [injection H as _ <- _; exact Hc|].
  inversion Hs as [|? ? Hb Hr]; subst. cbn in Hb.
  destruct (isGround a).
  { destruct (term_eqb a b); [|injection H as _ <- _; exact Hc]. eapply IH; [exact Hr|exact Hc|exact H]. }
  destruct (mem_pair a b visited); [eapply IH; [exact Hr|exact Hc|exact H]|]. cbn zeta in H.
  destruct (tchildren a) as [|c0 cs].
  - destruct (kind_eqb (tkind a) K_PARAM); [|injection H as _ <- _; exact Hc].
    destruct (ctx_find c a).
    + destruct (term_eqb t b); [|injection H as _ <- _; exact Hc]. eapply IH; [exact Hr|exact Hc|exact H].
    + eapply IH; [exact Hr| |exact H]. constructor; [exact Hb|exact Hc].
  - destruct (negb _ || negb _); [injection H as _ <- _; exact Hc|].
    eapply IH; [|exact Hc|exact H].
    exact (rightQ_rev_combine (c0 :: cs) _ _ (Q_children _ Hb) Hr).
Qed.
Lemma matchv_Q a b c v ok c' v' : Q b -> ctxQ c -> matchv a b c v = Ok (ok, c', v') -> ctxQ c'.
Proof. intros Hb Hc. apply matchv_loop_Q; [repeat constructor; exact Hb|exact Hc]. Qed.

Section TC.
Variable E : env.
Variable gt : term -> res (option term).
Variable evl : term -> ctx -> res (option term).
Hypothesis EOK : env_ok E.
Hypothesis gtQ : forall t r, Q t -> gt t = Ok (Some r) -> Q r.
Hypothesis evlQ : forall t c r, Q t -> ctxQ c -> evl t c = Ok (Some r) -> Q r.

Lemma literalTypeRule_Q k self r : (forall s, self = Some s -> Q s) ->
  getLiteralTypeRule E evl k self = Ok (Some r) -> Q r.
Proof.
  unfold getLiteralTypeRule. intros Hs H. cbn zeta in H.
  assert (T : Q (match e_littype E k with Some t => t | None => t_Any end)).
  { destruct (e_littype E k) eqn:Ek; [eapply (ok_lit _ EOK); eauto|apply Q_Any]. }
  destruct (negb _); [|injection H as <-; exact T].
  eapply evlQ; [exact T| |exact H]. constructor; [|constructor]. cbn.
  destruct self; [now apply Hs|apply Q_Any].
Qed.

Lemma type_args_Q hts : forall cs cts c v ok c', Forall Q cs -> Forall Q cts -> ctxQ c ->
  type_args gt hts cs cts c v = Ok (ok, c') -> ctxQ c'.
Proof.
  induction hts as [|h hts IH]; intros cs cts c v ok c' Hcs Hct Hc H.
  { cbn in H. injection H as _ <-. exact Hc. }
  destruct cs as [|x cs]; [cbn in H; destruct h; injection H as _ <-; exact Hc|].
  destruct cts as [|ct cts]; [cbn in H; destruct h; injection H as _ <-; exact Hc|].
  inversion Hcs; inversion Hct; subst.
  assert (Gen : (let* (ok, c', v') := matchv h ct c v in
          if ok : bool then type_args gt hts cs cts c' v' else Ok (false, c')) = Ok (ok, c') -> ctxQ c').
  { clear H. intro H. ib H. destruct x0 as [[b c1] v1]. apply matchv_Q in E0; [|assumption..].
    destruct b; [eapply IH; [..|exact H]; assumption|injection H as _ <-; exact E0]. }
  destruct h as [k i|l|k qs]; [exact (Gen H)..|].
  destruct k; try exact (Gen H).
  cbn [type_args] in H. ib H. ib H. destruct x1 as [te|]; [|injection H as _ <-; exact Hc].
  destruct (term_eqb ct te); [|injection H as _ <-; exact Hc].
  ib H. destruct x1 as [[b c1] v1]. apply matchv_Q in E2; [|assumption..].
  destruct b; [eapply IH; [..|exact H]; assumption|injection H as _ <-; exact E2].
Qed.

Lemma Q_tl l : Forall Q l -> Forall Q (tl l).
Proof. intros []; cbn; auto. Qed.
Lemma Q_last l d : Forall Q l -> Q d -> Q (last l d).
Proof.
  intros Hl Hd. induction Hl as [|x l Hx Hl IH]; [exact Hd|]. destruct l; [exact Hx|exact IH].
Qed.

Lemma typeApp_Q children ts r c : Forall Q children -> Forall Q ts ->
  getTypeAppInternal gt evl children ts = Ok (r, c) -> (forall t, r = Some t -> Q t) /\ ctxQ c.
Proof.
  unfold getTypeAppInternal. intros Hc Ht H. ib H. pose proof (Q_at _ _ _ Ht E0) as Hx.
  assert (D : Ok (None, []) = Ok (r, c) -> (forall t, r = Some t -> Q t) /\ ctxQ c)
    by (intros [= <- <-]; split; [discriminate|constructor]).
  assert (M : (let hdtypes := tchildren x in
      if negb (Nat.eqb (length hdtypes) (length children)) then Ok (None, [])
      else
        let* (ok, c) := type_args gt (removelast hdtypes) (tl children) (tl ts) [] [] in
        if ok : bool then
          match hdtypes with
          | [] => UB
          | _ => let* r := evl (last hdtypes t_Any) c in Ok (r, c)
          end
        else Ok (None, c)) = Ok (r, c) -> (forall t, r = Some t -> Q t) /\ ctxQ c).
  { clear H. intro H. cbn zeta in H. destruct (negb _); [exact (D H)|].
    ib H. destruct x0 as [ok c1]. apply type_args_Q in E1;
      [|now apply Q_tl|now apply Q_tl|constructor].
    destruct ok; [|injection H as <- <-; split; [discriminate|exact E1]].
    pose proof (Q_children _ Hx) as Hts.
    pose proof (Q_last _ t_Any Hts Q_Any) as HL.
    destruct (tchildren x) as [|h0 hs]; [discriminate H|]. ib H. injection H as <- <-.
    split; [|exact E1]. intros t ->. eapply evlQ; [exact HL|exact E1|exact E2]. }
  destruct (tkind x); first [exact (D H)|exact (M H)].
Qed.

Lemma litOpType_Q k children ts r : Forall Q children -> Forall Q ts ->
  getLiteralOpType E evl k children ts = Ok (Some r) -> Q r.
Proof.
  unfold getLiteralOpType. intros Hc Ht H. destruct (negb _); [discriminate H|]. cbn zeta in H.
  assert (Ch : forall i, (let* t := vec_at children i in Ok (Some t)) = Ok (Some r) -> Q r).
  { clear H. intros i H. ib H. injection H as <-. exact (Q_at _ _ _ Hc E0). }
  assert (Ct : forall i, (let* t := vec_at ts i in Ok (Some t)) = Ok (Some r) -> Q r).
  { clear H. intros i H. ib H. injection H as <-. exact (Q_at _ _ _ Ht E0). }
  destruct k;
    first [discriminate H|exact (Ch _ H)|exact (Ct _ H)
          |injection H as <-; first [exact Q_Type|exact Q_Bool|exact (ok_listType _ EOK)]
          |eapply literalTypeRule_Q; [|exact H]; discriminate].
Qed.

Lemma types_of_Q cs : forall ts, Forall Q cs -> types_of gt cs = Ok (Some ts) -> Forall Q ts.
Proof.
  induction cs as [|c cs IH]; cbn; intros ts Hc H; [injection H as <-; constructor|].
  inversion Hc; subst. ib H. destruct x as [ts'|]; [|discriminate H].
  ib H. destruct x as [ty|]; [|discriminate H]. injection H as <-.
  constructor; [eapply gtQ; eauto|now apply IH].
Qed.

Lemma typeInternal_Q t ts r : Q t -> Forall Q ts ->
  getTypeInternal E gt evl t ts = Ok (Some r) -> Q r.
Proof.
  unfold getTypeInternal. cbn zeta. intros Ht Hts H.
  pose proof (Q_children _ Ht) as Hc.
  assert (Op : (if isLiteralOp (tkind t) then getLiteralOpType E evl (tkind t) (tchildren t) ts
                else Ok None) = Ok (Some r) -> Q r).
  { clear H. intro H. destruct (isLiteralOp _); [|discriminate H]. exact (litOpType_Q _ _ _ _ Hc Hts H). }
  assert (Ap : (let* (r, _) := getTypeAppInternal gt evl (tchildren t) ts in Ok r) = Ok (Some r) -> Q r).
  { clear H. intro H. ib H. destruct x as [r' c]. injection H as ->.
    apply typeApp_Q in E0 as [A _]; [|assumption..]. now apply A. }
  assert (Li : getLiteralTypeRule E evl (tkind t) (Some t) = Ok (Some r) -> Q r).
  { intro X. eapply literalTypeRule_Q; [|exact X]. now intros s [= <-]. }
  destruct (tkind t);
    first [exact (Op H)|exact (Ap H)|exact (Li H)
          |injection H as <-; first [exact Q_Type|exact Q_Bool|exact Q_Any]
          |discriminate H|idtac].
  - ib H. ib H. destruct x0 as [args|]; [|discriminate H]. ib H. injection H as <-.
    apply Q_fun; [|exact (Q_at _ _ _ Hts E2)]. eapply types_of_Q; [|exact E1].
    apply Q_children. exact (Q_at _ _ _ Hc E0).
  - ib H. injection H as <-. exact (Q_at _ _ _ Hts E0).
  - ib H. destruct (kind_eqb _ _); [|discriminate H]. injection H as <-. apply (ok_proofType _ EOK).
Qed.

Lemma getType_Q t r : Q t -> getType E gt evl t = Ok (Some r) -> Q r.
Proof.
  unfold getType. intros Ht H.
  destruct t as [k i|l|k cs].
  { injection H as H. eapply (ok_symtype _ EOK); eauto. }
  all: ib H; destruct x as [ts|]; [|discriminate H];
    apply types_of_Q in E0; [|now apply Q_children];
    ib H; destruct x as [ty|]; [|discriminate H];
    (destruct (_ && _); [discriminate H|]); injection H as <-;
    eapply typeInternal_Q; [exact Ht|exact E0|exact E1].
Qed.

Lemma consTerm_Q ai children ty1 r :
  (forall c, ai_cterm ai = Some c -> Q c) -> Forall Q children ->
  (forall t, ty1 = Ok (Some t) -> Q t) ->
  computeConstructorTerm gt evl ai children ty1 = Ok (Some r) -> Q r.
Proof.
  unfold computeConstructorTerm. intros Ha Hc Hty H.
  destruct (ai_cterm ai) as [ct|]; [|discriminate H]. specialize (Ha ct eq_refl).
  destruct (negb _); [injection H as <-; exact Ha|].
  destruct children as [|hd [|c1 cs]]; try discriminate H.
  inversion Hc as [|? ? Hh Hc']; subst. inversion Hc'; subst.
  destruct (negb _); [discriminate H|]. ib H. destruct x as [th|]; [|discriminate H].
  ib H. destruct x as [t1|]; [|discriminate H]. ib H. destruct x as [r' c].
  apply typeApp_Q in E2 as [_ A];
    [|auto|constructor; [exact (gtQ _ _ Hh E0)|constructor; [now apply Hty|constructor]]].
  ib H. destruct (negb _); [discriminate H|]. ib H.
  eapply evlQ; [|exact A|exact H]. exact (Q_at _ _ _ (Q_children _ Ha) E3).
Qed.

Lemma app_head_Q : forall t r, Q t -> app_head t = Ok r -> Q r.
Proof.
  induction t as [t IH] using size_ind. intros r Ht H.
  assert (D : Ok t = Ok r -> Q r) by (intros [= <-]; exact Ht).
  destruct t as [k i|l|k cs]; [exact (D H)..|].
  pose proof (Q_children _ Ht) as Hc. destruct k; try exact (D H).
  destruct cs as [|c cs]; [discriminate H|]. cbn in H. apply (IH c); [cbn; lia|now inversion Hc|exact H].
Qed.

Lemma mkList_Q l : Forall Q l -> Q (mkList E l).
Proof. apply prepend_Q; [apply (ok_listCons _ EOK)|apply (ok_listNil _ EOK)]. Qed.

Lemma litTail_Q k args r : Forall Q args -> evaluateLitTail E gt evl k args = Ok (Some r) -> Q r.
Proof.
  unfold evaluateLitTail. intros Ha H.
  destruct (all_literals args) as [lits|].
  { destruct (negb _); [discriminate H|]. ib H. destruct x; [|discriminate H].
    injection H as <-. constructor. }
  destruct (negb _); [discriminate H|]. ib H. pose proof (Q_at _ _ _ Ha E0) as Hx.
  ib H. assert (Hop : Q x0).
  { destruct x as [? ?|?|k0 cs]; try (injection E1 as <-; exact Hx).
    pose proof (Q_children _ Hx). destruct k0; try (injection E1 as <-; exact Hx).
    eapply Q_at; eauto. }
  destruct (e_info E x0) as [ai|] eqn:Ei; [|discriminate H].
  destruct (isListNilAttr (ai_cons ai)) eqn:Enil; [|discriminate H]. cbn [negb] in H.
  assert (Hct : forall c, ai_cterm ai = Some c -> Q c).
  { intros c Ec. eapply (ok_cterm _ EOK); eauto. intro Ep. rewrite Ep in Enil. discriminate Enil. }
  cbn zeta in H. destruct (kind_eqb k K_EVAL_NIL).
  - ib H. eapply consTerm_Q; [exact Hct| | |exact H].
    + constructor; [exact Hx|]. constructor; [apply Q_const|constructor].
    + intros t [= <-]. eapply Q_at; eauto.
  - destruct args as [|b0 [|a1 args']]; try discriminate H.
    inversion Ha as [|? ? A0 A']; subst. inversion A' as [|? ? A1 A2]; subst.
    ib H. destruct x1 as [nl|]; [|discriminate H].
    eapply evaluateListOp_Q; [exact Hop| |exact Ha|exact H].
    eapply consTerm_Q; [exact Hct| | |exact E2]; [auto|]. intros t Et. exact (gtQ _ _ A1 Et).
Qed.

Lemma evaluateLiteralOp_Q k args r : Forall Q args ->
  evaluateLiteralOp E gt evl k args = Ok (Some r) -> Q r.
Proof.
  intros Ha H.
  assert (B : forall b, ret_bool b = Ok (Some r) -> Q r) by (intros b [= <-]; constructor).
  assert (At : forall i x, vec_at args i = Ok x -> Q x) by (intros; eapply Q_at; eauto).
  unfold evaluateLiteralOp in H.
  destruct k;
  match type of H with
  | (if negb ?g then _ else _) = _ => destruct (negb g); [discriminate H|]
  | _ => idtac end;
  first
  [ now apply (litTail_Q _ _ _ Ha H)
  | ib H; exact (B _ H)
  | idtac ].
  all: try (ib H; destruct (isEvaluatable _); try ib H; try destruct (isEvaluatable _);
            first [discriminate H|exact (B _ H)|injection H as <-; constructor]).
  - (* if-then-else *)
    ib H. destruct x as [|[b| | | | | |]|]; try discriminate H. ib H. injection H as <-. eauto.
  - (* requires *)
    ib H. destruct (_ && _); [|discriminate H]. ib H. destruct (_ && _); [|discriminate H].
    ib H. injection H as <-. eauto.
  - (* var *)
    ib H. destruct x as [|[]|]; try (now apply (litTail_Q _ _ _ Ha H)).
    ib H. destruct (isEvaluatable x); [now apply (litTail_Q _ _ _ Ha H)|].
    ib H. destruct x0 as [ty|]; [|now apply (litTail_Q _ _ _ Ha H)].
    destruct (kind_eqb _ _); [|now apply (litTail_Q _ _ _ Ha H)].
    injection H as <-. apply (ok_bvar _ EOK). eauto.
  - (* typeof *)
    ib H. destruct (isEvaluatable x); [now apply (litTail_Q _ _ _ Ha H)|].
    ib H. destruct x0 as [ty|]; [|discriminate H].
    destruct (isGround ty); [|now apply (litTail_Q _ _ _ Ha H)].
    injection H as <-. eapply gtQ; [|exact E1]. eauto.
  - (* nameof *)
    ib H. destruct (tkind x); first [now apply (litTail_Q _ _ _ Ha H)|injection H as <-; constructor].
  - (* constructors *)
    unfold evaluateDtConstructors in H. ib H. pose proof (At _ _ E0) as Hx. ib H. ib H.
    destruct (e_info E x1) as [ai|] eqn:Ei; [|discriminate H].
    destruct (ai_cons ai) eqn:Ec; try discriminate H.
    assert (Hct : forall c, ai_cterm ai = Some c -> Q c).
    { intros c Ect. eapply (ok_cterm _ EOK); eauto. rewrite Ec. discriminate. }
    destruct x0.
    2:{ injection H as H. now apply Hct. }
    destruct (ai_cterm ai) as [l|]; [|injection H as <-; apply (ok_listNil _ EOK)].
    ib H. destruct x0 as [hs|]; [|discriminate H]. apply getNAry_Q in E3; [|now apply Hct].
    injection H as <-. apply mkList_Q. apply Forall_forall. intros y Hy.
    apply in_map_iff in Hy as (c & <- & Hc). rewrite Forall_forall in E3. specialize (E3 c Hc).
    assert (Q (Node K_APPLY_OPAQUE [c; x])) by (apply okk_node; [reflexivity|auto]).
    destruct (getConstructorKind E c); assumption.
  - (* selectors *)
    unfold evaluateDtSelectors in H. ib H. ib H.
    destruct (e_info E x0) as [ai|] eqn:Ei; [|discriminate H].
    destruct (ai_cons ai) eqn:Ec; try discriminate H; injection H as H;
      (eapply (ok_cterm _ EOK); [exact Ei|rewrite Ec; discriminate|exact H]).
Qed.
End TC.

Lemma program_Q E h p : env_ok E -> getProgram E h = Some p -> progQ p.
Proof.
  unfold getProgram. intros EOK H. destruct (e_info E h) as [ai|] eqn:Ei; [|discriminate H].
  destruct (ai_cons ai) eqn:Ec; try discriminate H. eapply (ok_prog _ EOK); eauto.
Qed.

Lemma tc_Q E : env_ok E -> forall n,
  (forall t r, Q t -> tc_type (tc E n) t = Ok (Some r) -> Q r) /\
  (forall k ds r, Forall Q ds -> tc_lop (tc E n) k ds = Ok (Some r) -> Q r) /\
  (forall t c r, Q t -> ctxQ c -> tc_eval (tc E n) t c = Ok (Some r) -> Q r).
Proof.
  intro EOK. induction n as [|n (I1 & I2 & I3)]; cbn; [repeat split; discriminate|].
  repeat split.
  - intros t r. now apply getType_Q.
  - intros k ds r. now apply evaluateLiteralOp_Q.
  - intros t c r Ht Hc. apply evaluate_Q; auto.
    + intros k ds r' _. apply I2.
    + intros h p. now apply program_Q.
Qed.

(** Building applications. *)
Lemma applyInternal_Q cs r : Forall Q cs -> mkApplyInternal cs = Ok r -> Q r.
Proof.
  intros Hc H. destruct Hc as [|h cs Hh Hc]; [discriminate H|]. cbn in H. injection H as <-.
  revert h Hh. induction Hc as [|c cs Hc' Hcs IH]; cbn; intros h Hh; [exact Hh|].
  apply IH. now apply Q_apply.
Qed.
Lemma applyChildren_Q cs r : Forall Q cs -> mkApplyChildren cs = Ok r -> Q r.
Proof.
  unfold mkApplyChildren. intros Hc H. destruct (Nat.ltb _ _).
  - eapply applyInternal_Q; eauto.
  - injection H as <-. now apply okk_node.
Qed.

Lemma strip_Q n : forall t r, Q t -> strip_requires n t = Ok r -> Q r.
Proof.
  induction n as [|n IH]; cbn; intros t r Ht H; [discriminate H|].
  assert (D : Ok t = Ok r -> Q r) by (intros [= <-]; exact Ht).
  destruct t as [| |k cs]; [exact (D H)..|]. pose proof (Q_children _ Ht) as Hc.
  destruct k; try exact (D H). ib H. eapply IH; [|exact H]. exact (Q_at _ _ _ Hc E).
Qed.

Lemma Q_removelast l : Forall Q l -> Forall Q (removelast l).
Proof.
  induction 1 as [|x l Hx Hl IH]; [constructor|]. cbn. destruct l; [constructor|].
  constructor; assumption.
Qed.

Lemma funType_Q n : forall t args ret, Q t -> getFunctionType_loop n t = Ok (args, ret) ->
  Forall Q args /\ Q ret.
Proof.
  induction n as [|n IH]; cbn [getFunctionType_loop]; intros t args ret Ht H; [discriminate H|].
  assert (D : Ok ([], t) = Ok (args, ret) -> Forall Q args /\ Q ret)
    by (intros [= <- <-]; split; [constructor|exact Ht]).
  destruct t as [| |k cs]; [exact (D H)..|]. pose proof (Q_children _ Ht) as Hc. cbn in Hc.
  destruct k; try exact (D H). destruct cs as [|c0 cs]; [discriminate H|].
  ib H. apply strip_Q in E; [|apply Q_last; [exact Hc|apply Q_null]].
  ib H. destruct x0 as [args' ret']. injection H as <- <-.
  apply IH in E0 as [A B]; [|exact E]. split; [|exact B].
  apply Forall_app. split; [|exact A]. exact (Q_removelast _ Hc).
Qed.

Lemma dummies_ok E ts : env_ok E -> Forall Q ts -> env_ok (with_dummies E ts).
Proof.
  intros [O1 O2 O3 O4 O5 O6 O7 O8 O9 O10 O11] Ht. constructor; cbn; try assumption.
  intros k i t Hq H.
  assert (D : e_symtype E (Sym k i) = Some t -> Q t) by (apply O1; exact Hq).
  destruct k; try exact (D H). destruct (Z.leb i (-2)); [|exact (D H)].
  apply nth_error_In in H. rewrite Forall_forall in Ht. now apply Ht.
Qed.

Section BuildQ.
Variable E : env.
Hypothesis EOK : env_ok E.
Variable mk : kind -> list term -> res term.
Hypothesis mkQ : forall k cs r, okk k = true -> Forall Q cs -> mk k cs = Ok r -> Q r.

Lemma assoc_fold_Q isLeft isNil hd xs : Q hd -> Forall Q xs -> forall s,
  Q (fst s) -> Q (fst (fold_left (assoc_step E isLeft isNil hd) xs s)).
Proof.
  intros Hh Hx. induction Hx as [|x xs H1 H2 IH]; intros [curr n] Hs; [exact Hs|].
  cbn [fold_left]. apply IH. unfold assoc_step. cbn in Hs.
  assert (Forall Q (if isLeft then [hd; curr; x] else [hd; x; curr]))
    by (destruct isLeft; auto).
  destruct (isNil && _); cbn [fst].
  - now apply okk_node.
  - destruct isLeft; now apply Q_apply2.
Qed.

Lemma applyAssoc_Q a hd args ct r : Q hd -> Forall Q args -> (forall c, ct = Some c -> Q c) ->
  mkApplyAssoc E mk a hd args ct = Ok (Some r) -> Q r.
Proof.
  intros Hh Ha Hc H. destruct args as [|a1 args']; [cbn in H; injection H as ->; now apply Hc|].
  unfold mkApplyAssoc in H. cbn zeta in H.
  set (isLeft := match a with A_LEFT_ASSOC | A_LEFT_ASSOC_NIL | A_LEFT_ASSOC_NS_NIL => true | _ => false end) in *.
  set (isNsNil := match a with A_RIGHT_ASSOC_NS_NIL | A_LEFT_ASSOC_NS_NIL => true | _ => false end) in *.
  assert (L : Forall Q (if isLeft then a1 :: args' else rev (a1 :: args'))).
  { destruct isLeft; [exact Ha|now apply Forall_rev]. }
  destruct (if isLeft then a1 :: args' else rev (a1 :: args')) as [|first others]; [discriminate H|].
  inversion L as [|? ? Hf Ho]; subst.
  set (nl := match ct with None => _ | Some c => c end) in H.
  assert (N : Q nl).
  { unfold nl. destruct ct; [now apply Hc|]. inversion Ha; subst.
    apply okk_node; [reflexivity|]. constructor; [exact Hh|]. constructor; [|constructor].
    apply okk_node; [reflexivity|auto]. }
  set (b := _ && negb _) in H. 
  set (isNil := isNsNil || _) in *.
  assert (S : Q (fst (if b then fold_left (assoc_step E isLeft isNil hd) (first :: others) (nl, O)
            else fold_left (assoc_step E isLeft isNil hd) others (first, O)))).
  { destruct b; apply assoc_fold_Q; auto. }
  destruct (if b then _ else _) as [curr nlist]. cbn in S.
  destruct (isNsNil && _).
  - ib H. injection H as <-. eapply mkQ; [| |exact E0]; [reflexivity|auto].
  - injection H as <-. exact S.
Qed.

Lemma chain_Q hd args : Q hd -> Forall Q args -> Forall Q (chain hd args).
Proof.
  intros Hh Ha. induction Ha as [|x l Hx Hl IH]; [constructor|]. destruct l as [|y l]; [constructor|].
  cbn [chain]. constructor; [|exact IH]. inversion Hl; subst. now apply Q_apply2.
Qed.
Lemma pairwise_Q hd args : Q hd -> Forall Q args -> Forall Q (pairwise hd args).
Proof.
  intros Hh Ha. induction Ha as [|x l Hx Hl IH]; [constructor|]. cbn [pairwise].
  apply Forall_app. split; [|exact IH]. apply Forall_forall. intros y Hy.
  apply in_map_iff in Hy as (z & <- & Hz). rewrite Forall_forall in Hl.
  apply Q_apply2; auto.
Qed.
Lemma combine_apps_Q ct apps r : (forall c, ct = Some c -> Q c) -> Forall Q apps ->
  combine_apps mk ct apps = Ok (Some r) -> Q r.
Proof.
  intros Hc Ha H. unfold combine_apps in H.
  assert (G : (let* r := mk K_APPLY (or_null ct :: apps) in Ok (Some r)) = Ok (Some r) -> Q r).
  { clear H. intro H. ib H. injection H as <-. eapply mkQ; [| |exact E0]; [reflexivity|].
    constructor; [now apply Q_or_null|exact Ha]. }
  destruct apps as [|x [|y l]]; try exact (G H). injection H as <-. now inversion Ha.
Qed.

Lemma applyAttr_Q ai cs ct r : Forall Q cs ->
  (ai_cons ai <> A_PROGRAM -> forall c, ct = Some c -> Q c) ->
  mkApplyAttr E mk ai cs ct = Ok (Some r) -> Q r.
Proof.
  intros Hcs Hc H. destruct Hcs as [|hd args Hh Ha]; [discriminate H|].
  unfold mkApplyAttr in H.
  destruct (ai_cons ai); try discriminate H; specialize (Hc ltac:(discriminate));
    try (eapply applyAssoc_Q; [..|exact H]; assumption).
  - destruct (ai_cterm ai) as [[|[]|]|]; try discriminate H. cbn zeta in H.
    destruct (Z.leb _ _); [discriminate H|].
    set (k := Z.to_nat _) in H. rewrite <- (firstn_skipn k args) in Ha.
    apply Forall_app in Ha as [A1 A2].
    assert (O : Q (fold_left (fun curr c => Node K_APPLY_OPAQUE [curr; c]) (firstn k args) hd)).
    { revert hd Hh H. induction A1 as [|y l Hy Hl IH]; cbn; intros hd Hh H; [exact Hh|].
      apply IH; [apply okk_node; [reflexivity|auto]|exact H]. }
    destruct (skipn k args); [injection H as <-; exact O|]. ib H. injection H as <-.
    eapply applyChildren_Q; [|exact E0]. auto.
  - eapply combine_apps_Q; [| |exact H]; [exact Hc|now apply chain_Q].
  - eapply combine_apps_Q; [| |exact H]; [exact Hc|now apply pairwise_Q].
  - ib H. injection H as <-.
    assert (G : mk K_APPLY (or_null ct :: args) = Ok x -> Q x).
    { intro X. eapply mkQ; [| |exact X]; [reflexivity|]. constructor; [now apply Q_or_null|exact Ha]. }
    apply Q_apply; [exact Hh|].
    destruct args as [|a [|b l]]; try exact (G E0). destruct (attr_eqb _ _); [|exact (G E0)].
    injection E0 as <-. now inversion Ha.
Qed.

Section T.
Variable T : tcfuns.
Hypothesis tyQ : forall t r, Q t -> tc_type T t = Ok (Some r) -> Q r.
Hypothesis lopQ : forall k ds r, Forall Q ds -> tc_lop T k ds = Ok (Some r) -> Q r.
Hypothesis evQ : forall t c r, Q t -> ctxQ c -> tc_eval T t c = Ok (Some r) -> Q r.

Lemma Q_nth i l d : Forall Q l -> Q d -> Q (nth i l d).
Proof.
  intros Hl Hd. revert i. induction Hl; intros [|i]; cbn; auto.
Qed.

Lemma try_overload_Q hd cs x ty : Q hd -> Forall Q cs ->
  try_overload E mk T hd cs = Ok (Some (x, ty)) -> Q x.
Proof.
  intros Hh Hc H. unfold try_overload in H. cbn zeta in H. ib H.
  assert (V : Forall Q (hd :: tl cs)) by (constructor; [exact Hh|now apply Q_tl]).
  assert (X : forall y, x0 = Some y -> Q y).
  { intros y ->. destruct (e_info E hd) as [ai|] eqn:Ei; [|discriminate E0]. ib E0.
    eapply applyAttr_Q; [exact V| |exact E0]. intros Hn c ->.
    eapply consTerm_Q; [exact tyQ|exact evQ|..|exact E1].
    - intros c' Hc'. eapply (ok_cterm _ EOK); eauto.
    - exact Hc.
    - intros t Et. eapply tyQ; [|exact Et]. apply Q_nth; [exact Hc|apply Q_null]. }
  ib H. assert (Y : Q x1).
  { destruct x0; [injection E1 as <-; now apply X|]. eapply applyChildren_Q; eauto. }
  ib H. destruct x2; [|discriminate H]. cbn in H. injection H as <- _. exact Y.
Qed.

Lemma getOverload_Q ov : forall cs rt ra r, Forall Q ov -> Forall Q cs ->
  getOverload E mk T ov cs rt ra = Ok (Some r) -> Q r.
Proof.
  induction ov as [|hd ov IH]; cbn [getOverload]; intros cs rt ra r Ho Hc H; [discriminate H|].
  inversion Ho as [|? ? Hh Ho']; subst. ib H. destruct x as [[x ty]|].
  - apply try_overload_Q in E0; [|assumption..].
    destruct (match rt with None => true | Some rt0 => term_eqb rt0 ty end).
    + destruct ra; injection H as <-; assumption.
    + eapply IH; [exact Ho'|exact Hc|exact H].
  - eapply IH; [exact Ho'|exact Hc|exact H].
Qed.

Lemma ctxQ_combine vs args : Forall Q args -> ctxQ (rev (combine vs args)).
Proof. intro H. apply Forall_rev. now apply rightQ_combine. Qed.

Lemma mkExprPlain_Q cs r : Forall Q cs -> mkExprPlain E T cs = Ok r -> Q r.
Proof.
  intros Hcs H. unfold mkExprPlain in H. destruct Hcs as [|hd args Hh Ha]; [discriminate H|].
  cbn zeta in H.
  assert (Pl : match tkind hd with
        | K_PROGRAM_CONST | K_PROOF_RULE => Ok (Node K_APPLY (hd :: args))
        | _ => mkApplyChildren (hd :: args)
        end = Ok r -> Q r).
  { clear H. intro H.
    assert (A : Q (Node K_APPLY (hd :: args))) by (apply okk_node; [reflexivity|auto]).
    assert (B : mkApplyChildren (hd :: args) = Ok r -> Q r) by (apply applyChildren_Q; auto).
    destruct (tkind hd); first [exact (B H)|injection H as <-; exact A]. }
  destruct hd as [k i|l|k ds].
  - destruct k; try exact (Pl H).
    destruct (getConstructorKind E (Sym K_PROGRAM_CONST i)); try exact (Pl H);
    (ib H; destruct (Nat.eqb _ _); [|exact (Pl H)];
     ib H; destruct x0 as [[body c]|]; [|exact (Pl H)];
     eapply evaluateProgramInternal_Q in E1 as [B C];
       [|intros h p; now apply program_Q|auto];
     ib H; injection H as <-; apply Q_or_null; intros t ->; eapply evQ; eauto).
  - exact (Pl H).
  - pose proof (Q_children _ Hh) as Hd. cbn in Hd.
    destruct k; try exact (Pl H). ib H.
    destruct (Nat.eqb _ _); [|exact (Pl H)]. ib H. ib H. injection H as <-.
    apply Q_or_null. intros t ->. eapply evQ; [| |exact E2].
    + exact (Q_at _ _ _ Hd E1).
    + now apply ctxQ_combine.
Qed.

Lemma mkExprApply_Q cs r : Forall Q cs -> mkExprApply E mk T cs = Ok r -> Q r.
Proof.
  intros Hcs H. pose proof Hcs as Hall. destruct Hcs as [|hd args Hh Ha]; [discriminate H|].
  unfold mkExprApply in H.
  destruct (e_info E hd) as [ai|] eqn:Ei; [|eapply mkExprPlain_Q; eauto].
  pose proof (ok_kind _ EOK _ _ Ei) as Hk.
  destruct (ai_kind ai);
    first [discriminate Hk|eapply mkQ; [| |exact H]; [exact Hk|exact Ha]|idtac].
  - (* none *)
    ib H. assert (O : forall y, x = Some y -> Q y).
    { intros y ->. destruct (ai_over ai) as [ov|] eqn:Eo; [|discriminate E0].
      eapply getOverload_Q; [| |exact E0]; [|exact Hall]. apply Forall_rev.
      eapply (ok_over _ EOK); eauto. }
    destruct x as [y|]; [injection H as <-; now apply O|].
    ib H. ib H. destruct x0 as [t|]; [|eapply mkExprPlain_Q; eauto]. injection H as <-.
    eapply applyAttr_Q; [exact Hall| |exact E2]. intros Hn c ->.
    eapply consTerm_Q; [exact tyQ|exact evQ|..|exact E1].
    + intros c' Hc'. eapply (ok_cterm _ EOK); eauto.
    + exact Hall.
    + intros t' Et. eapply tyQ; [|exact Et]. apply Q_nth; [exact Ha|apply Q_null].
  - (* -> *)
    destruct args as [|a args]; [discriminate H|]. injection H as <-.
    apply Q_fun; [exact (Q_removelast _ Ha)|]. exact (Q_last (a :: args) _ Ha Q_null).
  - (* _ *)
    exact (applyChildren_Q _ _ Ha H).
Qed.

Lemma mkExprLitOp_Q k cs r : isLiteralOp k = true -> Forall Q cs ->
  mkExprLitOp mk T k cs = Ok r -> Q r.
Proof.
  intros Hk Hc H. pose proof (litop_okk _ Hk) as Ho.
  assert (G : (if checkArity k (length cs) then
        let* r := tc_lop T k cs in
        Ok (match r with Some t => t | None => Node k cs end)
      else Ok (Node k cs)) = Ok r -> Q r).
  { clear H. intro H. destruct (checkArity _ _); [|injection H as <-; now apply okk_node].
    ib H. injection H as <-. destruct x; [eapply lopQ; eauto|now apply okk_node]. }
  unfold mkExprLitOp in H.
  destruct cs as [|c0 [|c1 [|c2 rest]]]; try exact (G H).
  destruct (isNaryLiteralOp k); [|exact (G H)].
  inversion Hc as [|? ? H0 Hc1]; subst. inversion Hc1 as [|? ? H1 Hc2]; subst.
  ib H. assert (X : Q x) by (eapply mkQ; [exact Ho| |exact E0]; auto).
  clear E0 Hc Hc1 G. revert x X H. induction Hc2 as [|c l Hx Hl IH]; cbn [fold_left]; intros x X H.
  - injection H as <-. exact X.
  - cbn [bind] in H. destruct (mk k [x; c]) as [y| | |] eqn:Ey.
    + eapply IH; [|exact H]. eapply mkQ; [exact Ho| |exact Ey]. auto.
    + exfalso. clear - H. induction l; cbn in H; [discriminate H|auto].
    + exfalso. clear - H. induction l; cbn in H; [discriminate H|auto].
    + exfalso. clear - H. induction l; cbn in H; [discriminate H|auto].
Qed.
End T.
End BuildQ.

Theorem mkExpr_Q E n : env_ok E -> forall fuel k cs r, okk k = true -> Forall Q cs ->
  mkExpr E n fuel k cs = Ok r -> Q r.
Proof.
  intros EOK. induction fuel as [|m IH]; cbn [mkExpr]; intros k cs r Hk Hc H; [discriminate H|].
  cbn zeta in H. destruct (tc_Q E EOK n) as (T1 & T2 & T3).
  assert (N : Ok (Node k cs) = Ok r -> Q r) by (intros [= <-]; now apply okk_node).
  assert (L : (if isLiteralOp k then mkExprLitOp (mkExpr E n m) (tc E n) k cs else Ok (Node k cs))
              = Ok r -> Q r).
  { clear H. intro H. destruct (isLiteralOp k) eqn:El; [|exact (N H)].
    eapply mkExprLitOp_Q; [exact IH| |exact El|exact Hc|exact H]. exact T2. }
  destruct k; try exact (L H).
  - (* apply *) eapply mkExprApply_Q; [exact EOK|exact IH|..|exact H]; assumption.
  - (* as *)
    destruct cs as [|c0 [|c1 [|c2 cs]]]; try exact (N H).
    ib H. destruct x as [args ret]. inversion Hc as [|? ? H0 Hc1]; subst. inversion Hc1; subst.
    unfold getFunctionType in E0. apply funType_Q in E0 as [A B]; [|assumption].
    pose proof (dummies_ok E args EOK A) as DOK. destruct (tc_Q _ DOK n) as (D1 & D2 & D3).
    cbn zeta in H. ib H. injection H as <-. destruct x as [t|]; [|now apply okk_node].
    assert (OV : Forall Q (match e_info E c0 with
                        | Some ai => match ai_over ai with Some ov => ov | None => [c0] end
                        | None => [c0]
                        end)).
    { destruct (e_info E c0) as [ai|] eqn:Ei; [|auto]. destruct (ai_over ai) as [ov|] eqn:Eo; [|auto].
      eapply (ok_over _ EOK); eauto. }
    eapply getOverload_Q; [exact EOK|exact IH|exact D1|exact D3|..|exact E0].
    + now apply Forall_rev.
    + constructor; [assumption|]. apply Forall_forall. intros y Hy.
      apply in_map_iff in Hy as (i & <- & _). apply Q_const.
  - (* as return *)
    ib H. destruct (getConstructorKind E x); try exact (N H);
      (destruct (Nat.eqb _ _); [|exact (N H)]; injection H as <-; now apply okk_node).
Qed.
End Closure.
