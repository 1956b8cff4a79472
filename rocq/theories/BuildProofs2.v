(** Proofs about applications of lambdas, programs, rules and opaque symbols,
    and about operators with any number of arguments. *)
From Coq Require Import ZArith List Bool Lia Arith.
From Verif Require Import Base Kind Ints Literal Arity Term Match Eval SpecTerm SpecEval TermProofs MatchProofs EvalProofs EvalProofs2 EvalProofs3 EvalProofs4
  ListOps SpecList Typing Build SpecBuild ListProofs ListProofs2 BuildProofs.
Import ListNotations.
Open Scope Z_scope.

Lemma required_strip : forall t r, required t r -> forall fuel, (tsize t <= fuel)%nat -> strip_requires (S fuel) t = Ok r.
Proof.
  intros t r H. induction H as [t K | a b c cs t H IH]; intros fuel L.
  - destruct t as [| |k cs]; try reflexivity. cbn [tkind] in K. destruct k; try reflexivity. congruence.
  - cbn [strip_requires]. unfold vec_at. cbn [nth_error bind]. destruct fuel as [|fuel].
    { cbn in L. lia. }
    apply IH. assert (X := tsize_child c (Node K_EVAL_REQUIRES (a :: b :: c :: cs)) (or_intror (or_intror (or_introl eq_refl)))). lia.
Qed.
Lemma required_size : forall t r, required t r -> (tsize r <= tsize t)%nat.
Proof.
  intros t r H. induction H as [t K | a b c cs t H IH]; [lia|].
  assert (X := tsize_child c (Node K_EVAL_REQUIRES (a :: b :: c :: cs)) (or_intror (or_intror (or_introl eq_refl)))). lia.
Qed.

Lemma function_type_loop : forall t args ret, function_type t args ret -> forall fuel, (tsize t <= fuel)%nat ->
  getFunctionType_loop (S fuel) t = Ok (args, ret).
Proof.
  intros t args ret H. induction H as [t K | ts r r' args ret R F IH]; intros fuel L.
  - destruct t as [| |k cs]; try reflexivity. cbn [tkind] in K. destruct k; try reflexivity. congruence.
  - set (t := Node K_FUNCTION_TYPE (ts ++ [r])) in *.
    assert (B : (tsize r < tsize t)%nat). { apply tsize_child. cbn [tchildren]. apply in_or_app. right. left. reflexivity. }
    assert (X : getFunctionType_loop (S fuel) t =
      let* r := strip_requires (S (tsize t)) r in
      let* (args, ret) := getFunctionType_loop fuel r in Ok (ts ++ args, ret)).
    { subst t. cbn [getFunctionType_loop]. destruct (ts ++ [r]) as [|x l] eqn:E; [destruct ts; discriminate E|].
      rewrite <- E. rewrite last_last, removelast_last. reflexivity. }
    rewrite X. rewrite (required_strip r r' R) by lia. cbn [bind].
    destruct fuel as [|fuel]; [lia|]. rewrite IH; [reflexivity|]. pose proof (required_size _ _ R). lia.
Qed.
Lemma function_type_get : forall t args ret, function_type t args ret -> getFunctionType t = Ok (args, ret).
Proof. intros t args ret H. exact (function_type_loop t args ret H (tsize t) (le_n _)). Qed.

(** Applications one by one. *)
Lemma obo_fold : forall k f ts, one_by_one k f ts (fold_left (fun g x => Node k [g; x]) ts f).
Proof.
  intros k f ts. induction ts as [|t ts IH] using rev_ind; [constructor|]. rewrite fold_left_app. now constructor.
Qed.
Lemma obo_det : forall k f ts g, one_by_one k f ts g -> g = fold_left (fun g x => Node k [g; x]) ts f.
Proof.
  intros k f ts g H. induction H as [|ts t g H IH]; [reflexivity|]. rewrite fold_left_app. cbn. now rewrite IH.
Qed.
Lemma mkApplyChildren_obo : forall f ts g, ts <> [] -> one_by_one K_APPLY f ts g -> mkApplyChildren (f :: ts) = Ok g.
Proof.
  intros f ts g N H. rewrite (obo_det _ _ _ _ H). unfold mkApplyChildren. destruct ts as [|x [|y ts]]; [contradiction|reflexivity|reflexivity].
Qed.

(** The bindings of a lambda. *)
Lemma ctx_find_app : forall c c' v, ctx_find (c ++ c') v = match ctx_find c v with Some t => Some t | None => ctx_find c' v end.
Proof.
  intros c c' v. induction c as [|[q t] c IH]; [reflexivity|]. cbn [app ctx_find]. destruct (term_eqb q v); [reflexivity|exact IH].
Qed.
Lemma combine_binds : forall vs ts, length vs = length ts -> binds vs ts (ctx_find (rev (List.combine vs ts))).
Proof.
  intros vs. induction vs as [|v vs IH]; intros ts L w; destruct ts as [|t ts]; try discriminate L; cbn [List.combine rev].
  - cbn. tauto.
  - rewrite ctx_find_app. specialize (IH ts (eq_add_S _ _ L) w).
    destruct (ctx_find (rev (List.combine vs ts)) w) as [u|].
    + destruct IH as (i & A & B & C). exists (S i). split; [exact A|]. split; [exact B|]. intros [|j] J; [lia|]. apply C. lia.
    + cbn [ctx_find]. destruct (term_eqb v w) eqn:E.
      * apply term_eqb_eq in E. subst w. exists 0%nat. split; [reflexivity|]. split; [reflexivity|].
        intros [|j] J; [lia|]. intros X. apply IH. exact (nth_error_In vs j X).
      * intros [<-|X]; [rewrite term_eqb_refl in E; discriminate E|]. contradiction.
Qed.
Lemma binds_unique : forall vs ts s s', binds vs ts s -> binds vs ts s' -> forall v, s v = s' v.
Proof.
  intros vs ts s s' H H' v. specialize (H v). specialize (H' v).
  destruct (s v) as [t|], (s' v) as [t'|]; [|..|reflexivity].
  - destruct H as (i & A & B & C), H' as (j & A' & B' & C').
    destruct (lt_eq_lt_dec i j) as [[X|X]|X]; [elim (C j X A')|subst j; congruence|elim (C' i X A)].
  - destruct H as (i & A & _). elim H'. exact (nth_error_In _ _ A).
  - destruct H' as (i & A & _). elim H. exact (nth_error_In _ _ A).
Qed.

Lemma mkExpr_lambda : forall E n m vs body ts, e_info E (Node K_LAMBDA [Node K_TUPLE vs; body]) = None ->
  length vs = length ts ->
  mkExpr E n (S m) K_APPLY (Node K_LAMBDA [Node K_TUPLE vs; body] :: ts) =
  let* r := tc_eval (tc E n) body (rev (List.combine vs ts)) in Ok (or_null r).
Proof.
  intros E n m vs body ts H L. cbn [mkExpr mkExprApply]. rewrite H. unfold mkExprPlain.
  unfold vec_at. cbn [nth_error bind tchildren]. rewrite L, Nat.eqb_refl. reflexivity.
Qed.

Lemma binds_wf : forall vs ts s, binds vs ts s -> Forall twf ts -> sub_wf s.
Proof.
  intros vs ts s H W p v E. specialize (H p). rewrite E in H. destruct H as (i & _ & X & _).
  rewrite Forall_forall in W. apply W. exact (nth_error_In _ _ X).
Qed.

Section Programs.
Variable E : env.
Variable progs : term -> option (list pcase).
Hypothesis HL : forall n, lop_wf (tc_lop (tc E n)).
Hypothesis HP : progs_wf progs.
Hypothesis HG : forall hd, getProgram E hd = option_map (program_term hd) (progs hd).

Lemma tc_eval_sound : forall n t c r, twf t -> sub_wf (ctx_find c) -> tc_eval (tc E (S n)) t c = Ok r ->
  exists v, r = Some v /\ ev (tc_lop (tc E n)) progs shortcut (ctx_find c) t v.
Proof.
  intros n t c r W S H. cbn [tc tc_eval] in H.
  destruct (run_sound _ progs _ (HL n) HP HG t c n [new_frame t c None] [] (GI_init _ progs t c W S)) as
    [X|[(v & X & Y & _)|(k & ds & _ & X)]]; unfold evaluate in H; try congruence.
  - rewrite X in H. injection H as <-. eauto.
  - destruct X as [[_ X]|[[_ X]|[_ X]]]; congruence.
Qed.

Lemma lambda_value : forall n m vs body ts r, e_info E (Node K_LAMBDA [Node K_TUPLE vs; body]) = None ->
  length vs = length ts -> twf body -> Forall twf ts ->
  mkExpr E (S n) (S m) K_APPLY (Node K_LAMBDA [Node K_TUPLE vs; body] :: ts) = Ok r ->
  exists s, binds vs ts s /\ ev (tc_lop (tc E n)) progs shortcut s body r.
Proof.
  intros n m vs body ts r H L W F X. rewrite (mkExpr_lambda _ _ _ _ _ _ H L) in X.
  pose proof (combine_binds vs ts L) as B.
  destruct (tc_eval (tc E (S n)) body (rev (List.combine vs ts))) as [o| | |] eqn:EV; try discriminate X.
  injection X as <-. destruct (tc_eval_sound _ _ _ _ W (binds_wf _ _ _ B F) EV) as (v & -> & V).
  exists (ctx_find (rev (List.combine vs ts))). split; [exact B|exact V].
Qed.

Lemma lambda_subst : forall n m vs body ts r s, e_info E (Node K_LAMBDA [Node K_TUPLE vs; body]) = None ->
  length vs = length ts -> twf body -> Forall twf ts -> inert body ->
  (forall i, ~ In (Sym K_PROGRAM_CONST i) ts) -> binds vs ts s ->
  mkExpr E (S n) (S m) K_APPLY (Node K_LAMBDA [Node K_TUPLE vs; body] :: ts) = Ok r -> r = tsubst s body.
Proof.
  intros n m vs body ts r s H L W F I N B X. destruct (lambda_value n m vs body ts r H L W F X) as (s' & B' & V).
  assert (V' : ev (tc_lop (tc E n)) progs shortcut s' body (tsubst s' body)).
  { apply ev_subst; [exact W|exact I|]. intros p i Ep. pose proof (B' p) as Bp. rewrite Ep in Bp. destruct Bp as (j & _ & Y & _).
    exact (N i (nth_error_In _ _ Y)). }
  rewrite (ev_det _ _ _ shortcut_ext _ _ _ _ V V'). apply tsubst_ext. intros p _ _. symmetry. exact (binds_unique _ _ _ _ B B' p).
Qed.

(** Programs. *)
Lemma mkExpr_program : forall n m i ai ts, declared E (Sym K_PROGRAM_CONST i) A_PROGRAM ai ->
  (forall p, ai_cterm ai = Some p -> tkind p <> K_PARAMETERIZED) ->
  mkExpr E n (S m) K_APPLY (Sym K_PROGRAM_CONST i :: ts) = mkExprPlain E (tc E n) (Sym K_PROGRAM_CONST i :: ts).
Proof.
  intros n m i ai ts D K. rewrite (mkExpr_attr _ _ _ _ _ _ _ D). unfold computeConstructorTerm.
  destruct D as (D1 & D2 & D3 & D4).
  destruct (ai_cterm ai) as [p|] eqn:EC.
  - destruct (kind_eqb (tkind p) K_PARAMETERIZED) eqn:EK; [apply kind_eqb_eq in EK; elim (K p eq_refl EK)|].
    cbn [negb bind mkApplyAttr]. rewrite D2. reflexivity.
  - cbn [bind mkApplyAttr]. rewrite D2. reflexivity.
Qed.

Lemma program_plain : forall n i ts, mkExprPlain E (tc E n) (Sym K_PROGRAM_CONST i :: ts) =
  match getConstructorKind E (Sym K_PROGRAM_CONST i) with
  | A_NONE => Ok (Node K_APPLY (Sym K_PROGRAM_CONST i :: ts))
  | _ =>
      let* t := tc_type (tc E n) (Sym K_PROGRAM_CONST i) in
      if Nat.eqb (length (tchildren (or_null t))) (S (length ts))
      then let* r := evaluateProgramInternal (getProgram E) (Sym K_PROGRAM_CONST i :: ts) in
           match r with
           | Some (body, c) => let* v := tc_eval (tc E n) body c in Ok (or_null v)
           | None => Ok (Node K_APPLY (Sym K_PROGRAM_CONST i :: ts))
           end
      else Ok (Node K_APPLY (Sym K_PROGRAM_CONST i :: ts))
  end.
Proof. reflexivity. Qed.

Lemma program_value : forall n m i ai ts pt r, declared E (Sym K_PROGRAM_CONST i) A_PROGRAM ai ->
  Forall twf ts -> tc_type (tc E (S n)) (Sym K_PROGRAM_CONST i) = Ok (Some (Node K_PROGRAM_TYPE pt)) ->
  mkExpr E (S n) (S m) K_APPLY (Sym K_PROGRAM_CONST i :: ts) = Ok r ->
  (length pt = S (length ts) ->
     (calls progs (Sym K_PROGRAM_CONST i) ts None /\ r = Node K_APPLY (Sym K_PROGRAM_CONST i :: ts)) \/
     exists body s, calls progs (Sym K_PROGRAM_CONST i) ts (Some (body, s)) /\
       ev (tc_lop (tc E n)) progs shortcut s body r) /\
  (length pt <> S (length ts) -> r = Node K_APPLY (Sym K_PROGRAM_CONST i :: ts)).
Proof.
  intros n m i ai ts pt r D W T X. rewrite (mkExpr_program _ _ _ _ _ D) in X.
  2:{ intros p Ep. destruct D as (D1 & D2 & _). specialize (HG (Sym K_PROGRAM_CONST i)). unfold getProgram in HG. rewrite D1, D2, Ep in HG.
      destruct (progs _); [|discriminate HG]. injection HG as ->. discriminate. }
  rewrite program_plain in X. unfold getConstructorKind in X. destruct D as (D1 & D2 & _). rewrite D1, D2, T in X. cbn [bind or_null tchildren] in X.
  destruct (Nat.eqb_spec (length pt) (S (length ts))) as [L|L].
  - split; [intros _|contradiction].
    destruct (calls_exec progs (getProgram E) HP HG (Sym K_PROGRAM_CONST i) ts ltac:(eexists; reflexivity) W) as (x & EX & C).
    rewrite EX in X. cbn [bind] in X. destruct x as [[body c]|].
    + destruct (calls_wf progs HP _ ts body (ctx_find c) W C) as [Wb Wc].
      destruct (tc_eval (tc E (S n)) body c) as [o| | |] eqn:EV; try discriminate X. injection X as <-.
      destruct (tc_eval_sound _ _ _ _ Wb Wc EV) as (v & -> & V). right. exists body, (ctx_find c). split; [exact C|exact V].
    + injection X as <-. left. split; [exact C|reflexivity].
  - split; [contradiction|]. intros _. injection X as <-. reflexivity.
Qed.
End Programs.

(** Proof rules. *)
Lemma mkExpr_rule : forall E n m i ai ts, declared E (Sym K_PROOF_RULE i) A_PROOF_RULE ai ->
  (forall p, ai_cterm ai = Some p -> tkind p <> K_PARAMETERIZED) ->
  mkExpr E n (S m) K_APPLY (Sym K_PROOF_RULE i :: ts) = Ok (Node K_APPLY (Sym K_PROOF_RULE i :: ts)).
Proof.
  intros E n m i ai ts D K. rewrite (mkExpr_attr _ _ _ _ _ _ _ D). unfold computeConstructorTerm.
  destruct D as (D1 & D2 & D3 & D4).
  destruct (ai_cterm ai) as [p|] eqn:EC.
  - destruct (kind_eqb (tkind p) K_PARAMETERIZED) eqn:EK; [apply kind_eqb_eq in EK; elim (K p eq_refl EK)|].
    cbn [negb bind mkApplyAttr]. rewrite D2. reflexivity.
  - cbn [bind mkApplyAttr]. rewrite D2. reflexivity.
Qed.

(** Lambdas with another number of arguments. *)
Lemma mkExpr_lambda_short : forall E n m vs body ts r, e_info E (Node K_LAMBDA [Node K_TUPLE vs; body]) = None ->
  ts <> [] -> length vs <> length ts -> one_by_one K_APPLY (Node K_LAMBDA [Node K_TUPLE vs; body]) ts r ->
  mkExpr E n (S m) K_APPLY (Node K_LAMBDA [Node K_TUPLE vs; body] :: ts) = Ok r.
Proof.
  intros E n m vs body ts r H N L C. cbn [mkExpr mkExprApply]. rewrite H. unfold mkExprPlain.
  unfold vec_at. cbn [nth_error bind tchildren]. destruct (Nat.eqb_spec (length vs) (length ts)); [contradiction|].
  cbn [tkind]. exact (mkApplyChildren_obo _ _ _ N C).
Qed.

(** Opaque symbols. *)
Lemma opaque_some : forall E n m f ai k ts us g r, declared E f A_OPAQUE ai -> ai_cterm ai = Some (Lit (LNum k)) ->
  0 <= k < 2 ^ 32 -> Z.of_nat (length ts) = k -> one_by_one K_APPLY_OPAQUE f ts g -> one_by_one K_APPLY g us r ->
  mkExpr E n (S m) K_APPLY (f :: ts ++ us) = Ok r.
Proof.
  intros E n m f ai k ts us g r D C K L G R. rewrite (mkExpr_attr _ _ _ _ _ _ _ D). unfold computeConstructorTerm. rewrite C.
  destruct D as (_ & D2 & _).
  match goal with |- bind ?e _ = _ => change e with (Ok (Some (Lit (LNum k)))) end. cbn [bind mkApplyAttr]. rewrite D2, C.
  assert (U : toUnsignedInt k = k).
  { unfold toUnsignedInt, u32. rewrite Z.abs_eq by lia. rewrite (Z.mod_small k (2 ^ 64)); [apply Z.mod_small; exact K|].
    assert (2 ^ 32 < 2 ^ 64) by (vm_compute; reflexivity). lia. }
  rewrite U.
  assert (X : (Z.of_nat (length (f :: ts ++ us)) <=? k) = false). { apply Z.leb_gt. cbn [length]. rewrite app_length. lia. }
  rewrite X. assert (Y : Z.to_nat k = length ts) by lia. rewrite Y.
  rewrite firstn_app, Nat.sub_diag, firstn_all, firstn_O, app_nil_r.
  rewrite skipn_app, Nat.sub_diag, skipn_all. cbn [app skipn].
  rewrite <- (obo_det _ _ _ _ G). destruct us as [|u us].
  - pose proof (obo_det _ _ _ _ R) as E1. cbn in E1. subst g. reflexivity.
  - rewrite (mkApplyChildren_obo g (u :: us) r ltac:(discriminate) R). reflexivity.
Qed.
Lemma opaque_few : forall E n m i k0 ai k ts r, declared E (Sym k0 i) A_OPAQUE ai -> ai_cterm ai = Some (Lit (LNum k)) ->
  0 <= k < 2 ^ 32 -> Z.of_nat (length ts) < k -> ts <> [] -> k0 <> K_PROGRAM_CONST -> k0 <> K_PROOF_RULE ->
  one_by_one K_APPLY (Sym k0 i) ts r ->
  mkExpr E n (S m) K_APPLY (Sym k0 i :: ts) = Ok r.
Proof.
  intros E n m i k0 ai k ts r D C K L N K1 K2 R. rewrite (mkExpr_attr _ _ _ _ _ _ _ D). unfold computeConstructorTerm. rewrite C.
  destruct D as (D1 & D2 & _).
  assert (U : toUnsignedInt k = k).
  { unfold toUnsignedInt, u32. rewrite Z.abs_eq by lia. rewrite (Z.mod_small k (2 ^ 64)); [apply Z.mod_small; exact K|].
    assert (2 ^ 32 < 2 ^ 64) by (vm_compute; reflexivity). lia. }
  assert (A : mkApplyAttr E (mkExpr E n m) ai (Sym k0 i :: ts) (Some (Lit (LNum k))) = Ok None).
  { cbn [mkApplyAttr]. rewrite D2, C, U.
    assert (X : (Z.of_nat (length (Sym k0 i :: ts)) <=? k) = true) by (apply Z.leb_le; cbn [length]; lia). rewrite X. reflexivity. }
  match goal with |- bind ?e _ = _ => change e with (Ok (Some (Lit (LNum k)))) end. cbn [bind]. rewrite A. cbn [bind].
  unfold mkExprPlain. pose proof (mkApplyChildren_obo _ _ _ N R) as Y. cbn [tkind].
  destruct k0; try contradiction; exact Y.
Qed.

(** Operators with any number of arguments. *)
Lemma nary_two : forall E n m k a b, isNaryLiteralOp k = true ->
  mkExpr E n (S m) k [a; b] = mkExpr E n 1 k [a; b].
Proof. intros E n m k a b H. destruct k; try discriminate H; reflexivity. Qed.
Lemma mkExpr_nary : forall E n m k a b cs, isNaryLiteralOp k = true ->
  mkExpr E n (S (S m)) k (a :: b :: cs) =
  fold_left (fun acc c => let* x := acc in mkExpr E n 1 k [x; c]) cs (mkExpr E n 1 k [a; b]).
Proof.
  intros E n m k a b cs H. destruct cs as [|c cs]; [exact (nary_two E n (S m) k a b H)|].
  assert (X : mkExpr E n (S (S m)) k (a :: b :: c :: cs) =
    (let* curr := mkExpr E n (S m) k [a; b] in
     fold_left (fun acc c => let* x := acc in mkExpr E n (S m) k [x; c]) (c :: cs) (Ok curr))).
  { destruct k; try discriminate H; reflexivity. }
  rewrite X. rewrite (nary_two E n m k a b H).
  assert (Y : forall l acc, fold_left (fun acc c => let* x := acc in mkExpr E n (S m) k [x; c]) l acc =
                            fold_left (fun acc c => let* x := acc in mkExpr E n 1 k [x; c]) l acc).
  { induction l as [|d l IH]; intros acc; [reflexivity|]. cbn [fold_left]. rewrite IH. f_equal. destruct acc as [y| | |]; try reflexivity.
    cbn [bind]. exact (nary_two E n m k y d H). }
  destruct (mkExpr E n 1 k [a; b]) as [x| | |]; cbn [bind]; [apply Y|..];
    clear; (induction (c :: cs) as [|d l IH]; [reflexivity|exact IH]).
Qed.
Lemma nary_snoc : forall E n m k cs c, isNaryLiteralOp k = true -> (2 <= length cs)%nat ->
  mkExpr E n (S (S m)) k (cs ++ [c]) =
  let* a := mkExpr E n (S (S m)) k cs in mkExpr E n (S (S m)) k [a; c].
Proof.
  intros E n m k cs c H L. destruct cs as [|a [|b cs]]; try (cbn in L; lia).
  cbn [app]. rewrite !mkExpr_nary by exact H. rewrite fold_left_app. cbn [fold_left].
  destruct (fold_left _ cs _) as [x| | |]; try reflexivity. cbn [bind]. now rewrite mkExpr_nary.
Qed.
Lemma nary_fold : forall (A : Type) (mk : A -> term) (op : A -> A -> A) E n k,
  isNaryLiteralOp k = true -> (forall a b, mkExpr E n 1 k [mk a; mk b] = Ok (mk (op a b))) ->
  forall m a b l, mkExpr E n (S (S m)) k (map mk (a :: b :: l)) = Ok (mk (fold_left op (b :: l) a)).
Proof.
  intros A mk op E n k H B m a b l. cbn [map]. rewrite mkExpr_nary by exact H. rewrite B. cbn [fold_left].
  generalize (op a b). induction l as [|c l IH]; intros x; [reflexivity|]. cbn [map fold_left bind]. rewrite B. apply IH.
Qed.
