(** A larger bound on nested calls and iterations gives the same results: the
    bounds are only there to make the functions total. *)
From Coq Require Import ZArith List Bool Lia Arith.
From Verif Require Import Base Kind Ints Str Literal Arity Term Match Eval ListOps Typing Build.
Import ListNotations.

(** [b] is as [a], unless the bound was too small for [a]. *)
Definition le {A} (a b : res A) : Prop := a = Fuel \/ a = b.
Lemma le_refl : forall A (a : res A), le a a.
Proof. right. reflexivity. Qed.
Lemma le_Fuel : forall A (a : res A), le Fuel a.
Proof. left. reflexivity. Qed.
Lemma le_trans : forall A (a b c : res A), le a b -> le b c -> le a c.
Proof. intros A a b c [->| ->] H; [apply le_Fuel|exact H]. Qed.
Lemma le_ok : forall A (a b : res A) x, le a b -> a = Ok x -> b = Ok x.
Proof. intros A a b x [->| ->] H; [discriminate H|exact H]. Qed.
Lemma le_bind : forall A B (e e' : res A) (f f' : A -> res B),
  le e e' -> (forall x, le (f x) (f' x)) -> le (bind e f) (bind e' f').
Proof. intros A B e e' f f' [->| ->] H; [apply le_Fuel|]. destruct e'; cbn; [apply H|apply le_refl..]. Qed.

Ltac mono :=
  repeat first
  [ apply le_refl
  | match goal with H : forall _, le _ _ |- _ => apply H | H : forall _ _, le _ _ |- _ => apply H | H : forall _ _ _, le _ _ |- _ => apply H end
  | apply le_bind; [|intro]
  | match goal with
    | |- le (match ?x with _ => _ end) (match ?x with _ => _ end) => destruct x
    | |- le (if ?x then _ else _) (if ?x then _ else _) => destruct x
    end ].

Section Evaluate.
Variables lop lop' : kind -> list term -> res (option term).
Variable prog : term -> option term.
Hypothesis HL : forall k ds, le (lop k ds) (lop' k ds).

Lemma eval_switch_mono : forall tr k cs ccs, le (eval_switch lop prog tr k cs ccs) (eval_switch lop' prog tr k cs ccs).
Proof. intros tr k cs ccs. unfold eval_switch. destruct k; mono. Qed.
Lemma inner_step_mono : forall fr below tr cur rest,
  le (inner_step lop prog fr below tr cur rest) (inner_step lop' prog fr below tr cur rest).
Proof.
  intros fr below tr cur rest. unfold inner_step. pose proof eval_switch_mono as X. cbn zeta.
  destruct (negb _ && _); [apply le_refl|]. destruct (kind_eqb _ _); [apply le_refl|].
  destruct (vfind _ _) as [[|]|]; try apply le_refl. apply le_bind; [apply le_refl|]. intros ccs. apply le_bind; [apply X|].
  intros a. apply le_refl.
Qed.
Lemma ev_run_mono : forall n m, (n <= m)%nat -> forall st tr, le (ev_run lop prog n st tr) (ev_run lop' prog m st tr).
Proof.
  intros n. induction n as [|n IH]; intros [|m] L st tr; [apply le_refl|apply le_Fuel|lia|]. cbn [ev_run].
  apply le_bind.
  - unfold ev_step. destruct st as [|fr below]; [apply le_refl|]. destruct (fr_visit fr); [apply le_refl|apply inner_step_mono].
  - intros [r|st' tr']; [apply le_refl|]. apply IH. lia.
Qed.
Lemma evaluate_mono : forall n m, (n <= m)%nat -> forall e c, le (evaluate lop prog n e c) (evaluate lop' prog m e c).
Proof. intros n m L e c. now apply ev_run_mono. Qed.
Lemma evaluateProgramApp_mono : forall n m, (n <= m)%nat -> forall args,
  le (evaluateProgramApp lop prog n args) (evaluateProgramApp lop' prog m args).
Proof.
  intros n m L args. unfold evaluateProgramApp. apply le_bind; [apply le_refl|]. intros [[body c]|]; [now apply evaluate_mono|apply le_refl].
Qed.
End Evaluate.

Section TypeChecker.
Variable E : env.
Variables gt gt' : term -> res (option term).
Variables evl evl' : term -> ctx -> res (option term).
Hypothesis HG : forall t, le (gt t) (gt' t).
Hypothesis HE : forall t c, le (evl t c) (evl' t c).

Lemma literalRule_mono : forall k s, le (getLiteralTypeRule E evl k s) (getLiteralTypeRule E evl' k s).
Proof. intros k s. unfold getLiteralTypeRule. mono. Qed.
Lemma type_args_mono : forall hts cs cts c v, le (type_args gt hts cs cts c v) (type_args gt' hts cs cts c v).
Proof.
  intros hts. induction hts as [|h hts IH]; intros cs cts c v; [apply le_refl|].
  destruct cs as [|x cs]; [apply le_refl|]. destruct cts as [|ct cts]; [apply le_refl|]. cbn [type_args].
  assert (IH' : forall cs cts (b : bool) c' v' (F : res (bool * ctx)), le (if b then type_args gt hts cs cts c' v' else F) (if b then type_args gt' hts cs cts c' v' else F)).
  { intros cs' cts' [|] c' v' F; [apply IH|apply le_refl]. }
  assert (D : le (let* (ok, c', v') := matchv h ct c v in if ok : bool then type_args gt hts cs cts c' v' else Ok (false, c'))
                 (let* (ok, c', v') := matchv h ct c v in if ok : bool then type_args gt' hts cs cts c' v' else Ok (false, c'))).
  { apply le_bind; [apply le_refl|]. intros [[ok c'] v']. apply IH'. }
  destruct h as [k i|l|k qs]; try exact D. destruct k; try exact D.
  apply le_bind; [apply le_refl|]. intro q. apply le_bind; [apply HG|]. intros [te|]; [|apply le_refl].
  destruct (term_eqb ct te); [|apply le_refl]. apply le_bind; [apply le_refl|]. intros [[ok c'] v']. apply IH'.
Qed.
Lemma typeApp_mono : forall cs ts, le (getTypeAppInternal gt evl cs ts) (getTypeAppInternal gt' evl' cs ts).
Proof. intros cs ts. unfold getTypeAppInternal. pose proof type_args_mono as TA. apply le_bind; [apply le_refl|]. intro h.
  assert (D : le (if negb (Nat.eqb (length (tchildren h)) (length cs)) then Ok (None, [])
      else let* (ok, c) := type_args gt (removelast (tchildren h)) (tl cs) (tl ts) [] [] in
        if ok : bool then match tchildren h with [] => UB | _ => let* r := evl (last (tchildren h) t_Any) c in Ok (r, c) end else Ok (None, c))
     (if negb (Nat.eqb (length (tchildren h)) (length cs)) then Ok (None, [])
      else let* (ok, c) := type_args gt' (removelast (tchildren h)) (tl cs) (tl ts) [] [] in
        if ok : bool then match tchildren h with [] => UB | _ => let* r := evl' (last (tchildren h) t_Any) c in Ok (r, c) end else Ok (None, c))).
  { destruct (negb _); [apply le_refl|]. apply le_bind; [apply TA|]. intros [ok c]. destruct ok; [|apply le_refl].
    destruct (tchildren h); [apply le_refl|]. apply le_bind; [apply HE|]. intro r. apply le_refl. }
  destruct (tkind h); try apply le_refl; exact D.
Qed.
Lemma litOpType_mono : forall k cs ts, le (getLiteralOpType E evl k cs ts) (getLiteralOpType E evl' k cs ts).
Proof. intros k cs ts. unfold getLiteralOpType. pose proof literalRule_mono. destruct (negb _); [apply le_refl|]. destruct k; try apply le_refl; apply literalRule_mono. Qed.
Lemma types_of_mono : forall cs, le (types_of gt cs) (types_of gt' cs).
Proof.
  induction cs as [|c cs IH]; [apply le_refl|]. cbn [types_of]. apply le_bind; [exact IH|]. intros [ts|]; [|apply le_refl].
  apply le_bind; [apply HG|]. intro. apply le_refl.
Qed.
Lemma typeInternal_mono : forall t ts, le (getTypeInternal E gt evl t ts) (getTypeInternal E gt' evl' t ts).
Proof.
  intros t ts. unfold getTypeInternal. cbn zeta.
  assert (A : le (let* (r, _) := getTypeAppInternal gt evl (tchildren t) ts in Ok r)
                 (let* (r, _) := getTypeAppInternal gt' evl' (tchildren t) ts in Ok r)).
  { apply le_bind; [apply typeApp_mono|]. intros. apply le_refl. }
  destruct (tkind t); try apply le_refl; try exact A; try apply literalRule_mono; try apply litOpType_mono.
  apply le_bind; [apply le_refl|]. intro vs. apply le_bind; [apply types_of_mono|]. intro. apply le_refl.
Qed.
Lemma getType_mono : forall t, le (getType E gt evl t) (getType E gt' evl' t).
Proof.
  intros t. unfold getType.
  assert (D : le (let* r := types_of gt (tchildren t) in
      match r with None => Ok None | Some ts => let* ty := getTypeInternal E gt evl t ts in
          match ty with None => Ok None | Some ty => if isGround ty && isEvaluatable ty then Ok None else Ok (Some ty) end end)
     (let* r := types_of gt' (tchildren t) in
      match r with None => Ok None | Some ts => let* ty := getTypeInternal E gt' evl' t ts in
          match ty with None => Ok None | Some ty => if isGround ty && isEvaluatable ty then Ok None else Ok (Some ty) end end)).
  { apply le_bind; [apply types_of_mono|]. intros [ts|]; [|apply le_refl]. apply le_bind; [apply typeInternal_mono|]. intro. apply le_refl. }
  destruct t; [apply le_refl|exact D|exact D].
Qed.

Lemma consTerm_mono : forall ai cs ty ty', le ty ty' ->
  le (computeConstructorTerm gt evl ai cs ty) (computeConstructorTerm gt' evl' ai cs ty').
Proof.
  intros ai cs ty ty' HT. unfold computeConstructorTerm. destruct (ai_cterm ai) as [ct|]; [|apply le_refl].
  destruct (negb _); [apply le_refl|]. destruct cs as [|hd [|c1 cs]]; try apply le_refl. destruct (negb _); [apply le_refl|].
  apply le_bind; [apply HG|]. intros [th|]; [|apply le_refl]. apply le_bind; [exact HT|]. intros [t1|]; [|apply le_refl].
  apply le_bind; [apply typeApp_mono|]. intros [r c]. apply le_bind; [apply le_refl|]. intro ps.
  destruct (negb _); [apply le_refl|]. apply le_bind; [apply le_refl|]. intro. apply HE.
Qed.
Lemma litTail_mono : forall k args, le (evaluateLitTail E gt evl k args) (evaluateLitTail E gt' evl' k args).
Proof.
  intros k args. unfold evaluateLitTail. destruct (all_literals args); [apply le_refl|]. destruct (negb _); [apply le_refl|].
  apply le_bind; [apply le_refl|]. intro a0. apply le_bind; [apply le_refl|]. intro op. destruct (e_info E op) as [ai|]; [|apply le_refl].
  destruct (negb _); [apply le_refl|]. cbn zeta. destruct (kind_eqb k K_EVAL_NIL).
  - apply le_bind; [apply le_refl|]. intro a1. apply consTerm_mono, le_refl.
  - destruct args as [|x [|a1 args]]; try apply le_refl. apply le_bind; [apply consTerm_mono, HG|]. intro. apply le_refl.
Qed.
Lemma dtCons_mono : forall args, le (evaluateDtConstructors E gt args) (evaluateDtConstructors E gt' args).
Proof.
  intros args. unfold evaluateDtConstructors. apply le_bind; [apply le_refl|]. intro a0. apply le_bind.
  - destruct (kind_eqb _ _); [|apply le_refl]. apply le_bind; [apply HG|]. intro. apply le_refl.
  - intro. apply le_refl.
Qed.
Lemma literalOp_mono : forall k args, le (evaluateLiteralOp E gt evl k args) (evaluateLiteralOp E gt' evl' k args).
Proof.
  intros k args. unfold evaluateLiteralOp. pose proof litTail_mono as LT. pose proof dtCons_mono as DC.
  destruct k; try apply le_refl; (destruct (negb _); [apply le_refl|]); try apply le_refl; try apply LT; try apply DC.
  all: apply le_bind; [apply le_refl|]; intro a0.
  all: mono.
Qed.
End TypeChecker.

Lemma tc_mono : forall E n m, (n <= m)%nat ->
  (forall t, le (tc_type (tc E n) t) (tc_type (tc E m) t)) /\
  (forall k ds, le (tc_lop (tc E n) k ds) (tc_lop (tc E m) k ds)) /\
  (forall t c, le (tc_eval (tc E n) t c) (tc_eval (tc E m) t c)).
Proof.
  intros E n. induction n as [|n IH]; intros [|m] L; try lia; [repeat split; intros; apply le_refl|repeat split; intros; apply le_Fuel|].
  destruct (IH m) as (I1 & I2 & I3); [lia|]. cbn [tc tc_type tc_lop tc_eval]. split; [|split].
  - intros t. now apply getType_mono.
  - intros k ds. now apply literalOp_mono.
  - intros t c. apply evaluate_mono; [exact I2|lia].
Qed.

Section Build.
Variable E : env.
Variables mk mk' : kind -> list term -> res term.
Hypothesis HM : forall k cs, le (mk k cs) (mk' k cs).

Lemma assoc_mono : forall a hd args ct, le (mkApplyAssoc E mk a hd args ct) (mkApplyAssoc E mk' a hd args ct).
Proof.
  intros a hd args ct. unfold mkApplyAssoc. destruct args as [|a1 args]; [apply le_refl|]. cbn zeta.
  match goal with |- le (match ?x with _ => _ end) _ => destruct x as [|first others] end; [apply le_refl|].
  match goal with |- le (let '(_, _) := ?x in _) _ => destruct x as [curr nl] end.
  match goal with |- le (if ?x then _ else _) _ => destruct x end; [|apply le_refl]. apply le_bind; [apply HM|]. intro. apply le_refl.
Qed.
Lemma combine_mono : forall ct apps, le (combine_apps mk ct apps) (combine_apps mk' ct apps).
Proof.
  intros ct apps. unfold combine_apps.
  assert (X : le (let* r := mk K_APPLY (or_null ct :: apps) in Ok (Some r)) (let* r := mk' K_APPLY (or_null ct :: apps) in Ok (Some r))).
  { apply le_bind; [apply HM|]. intro. apply le_refl. }
  destruct apps as [|x [|y apps]]; [exact X|apply le_refl|exact X].
Qed.
Lemma attr_mono : forall ai cs ct, le (mkApplyAttr E mk ai cs ct) (mkApplyAttr E mk' ai cs ct).
Proof.
  intros ai cs ct. unfold mkApplyAttr. destruct cs as [|hd args]; [apply le_refl|].
  destruct (ai_cons ai); try apply le_refl; try apply assoc_mono; try apply combine_mono.
  apply le_bind; [|intro; apply le_refl]. destruct args as [|x [|y args]]; try apply HM.
  destruct (attr_eqb _ _); [apply le_refl|apply HM].
Qed.

Variables T T' : tcfuns.
Hypothesis H1 : forall t, le (tc_type T t) (tc_type T' t).
Hypothesis H2 : forall k ds, le (tc_lop T k ds) (tc_lop T' k ds).
Hypothesis H3 : forall t c, le (tc_eval T t c) (tc_eval T' t c).

Lemma try_mono : forall hd cs, le (try_overload E mk T hd cs) (try_overload E mk' T' hd cs).
Proof.
  intros hd cs. unfold try_overload. cbn zeta. apply le_bind.
  - destruct (e_info E hd) as [ai|]; [|apply le_refl]. apply le_bind; [apply consTerm_mono; auto|]. intro. apply attr_mono.
  - intro x. apply le_bind; [apply le_refl|]. intro y. apply le_bind; [apply H1|]. intro. apply le_refl.
Qed.
Lemma overload_mono : forall ov cs rt ra, le (getOverload E mk T ov cs rt ra) (getOverload E mk' T' ov cs rt ra).
Proof.
  intros ov cs rt ra. induction ov as [|hd ov IH]; [apply le_refl|]. cbn [getOverload]. apply le_bind; [apply try_mono|].
  intros [[x ty]|]; [|exact IH]. match goal with |- le (if ?b then _ else _) _ => destruct b end; [apply le_refl|exact IH].
Qed.
Lemma plain_mono : forall cs, le (mkExprPlain E T cs) (mkExprPlain E T' cs).
Proof.
  intros cs. unfold mkExprPlain. destruct cs as [|hd args]; [apply le_refl|]. cbn zeta.
  destruct hd as [k i|l|k hs]; [|apply le_refl|].
  - destruct k; try apply le_refl.
    assert (X : le (let* t := tc_type T (Sym K_PROGRAM_CONST i) in
       if Nat.eqb (length (tchildren (or_null t))) (length (Sym K_PROGRAM_CONST i :: args))
       then let* r := evaluateProgramInternal (getProgram E) (Sym K_PROGRAM_CONST i :: args) in
            match r with Some (body, c) => let* v := tc_eval T body c in Ok (or_null v) | None => Ok (Node K_APPLY (Sym K_PROGRAM_CONST i :: args)) end
       else Ok (Node K_APPLY (Sym K_PROGRAM_CONST i :: args)))
      (let* t := tc_type T' (Sym K_PROGRAM_CONST i) in
       if Nat.eqb (length (tchildren (or_null t))) (length (Sym K_PROGRAM_CONST i :: args))
       then let* r := evaluateProgramInternal (getProgram E) (Sym K_PROGRAM_CONST i :: args) in
            match r with Some (body, c) => let* v := tc_eval T' body c in Ok (or_null v) | None => Ok (Node K_APPLY (Sym K_PROGRAM_CONST i :: args)) end
       else Ok (Node K_APPLY (Sym K_PROGRAM_CONST i :: args)))).
    { apply le_bind; [apply H1|]. intro t. destruct (Nat.eqb _ _); [|apply le_refl]. apply le_bind; [apply le_refl|].
      intros [[body c]|]; [|apply le_refl]. apply le_bind; [apply H3|]. intro. apply le_refl. }
    cbn [tkind]. destruct (getConstructorKind E (Sym K_PROGRAM_CONST i)); try exact X. apply le_refl.
  - destruct k; try apply le_refl. apply le_bind; [apply le_refl|]. intro vs. destruct (Nat.eqb _ _); [|apply le_refl].
    apply le_bind; [apply le_refl|]. intro body. apply le_bind; [apply H3|]. intro. apply le_refl.
Qed.
Lemma apply_mono : forall cs, le (mkExprApply E mk T cs) (mkExprApply E mk' T' cs).
Proof.
  intros cs. unfold mkExprApply. destruct cs as [|hd args]; [apply le_refl|]. destruct (e_info E hd) as [ai|]; [|apply plain_mono].
  assert (X : forall ov, le (let* o := match ov with Some ov => getOverload E mk T (rev ov) (hd :: args) None true | None => Ok None end in
     match o with Some r => Ok r | None =>
       let* ct := computeConstructorTerm (tc_type T) (tc_eval T) ai (hd :: args) (tc_type T (nth 0 args null_term)) in
       let* r := mkApplyAttr E mk ai (hd :: args) ct in
       match r with Some t => Ok t | None => mkExprPlain E T (hd :: args) end end)
    (let* o := match ov with Some ov => getOverload E mk' T' (rev ov) (hd :: args) None true | None => Ok None end in
     match o with Some r => Ok r | None =>
       let* ct := computeConstructorTerm (tc_type T') (tc_eval T') ai (hd :: args) (tc_type T' (nth 0 args null_term)) in
       let* r := mkApplyAttr E mk' ai (hd :: args) ct in
       match r with Some t => Ok t | None => mkExprPlain E T' (hd :: args) end end)).
  { intro ov. apply le_bind; [destruct ov; [apply overload_mono|apply le_refl]|]. intros [o|]; [apply le_refl|].
    apply le_bind; [apply consTerm_mono; auto|]. intro ct. apply le_bind; [apply attr_mono|]. intros [t|]; [apply le_refl|apply plain_mono]. }
  destruct (ai_kind ai); try apply HM; try apply le_refl. apply X.
Qed.
Lemma foldmk_mono : forall k l a a', le a a' ->
  le (fold_left (fun acc c => let* x := acc in mk k [x; c]) l a) (fold_left (fun acc c => let* x := acc in mk' k [x; c]) l a').
Proof.
  intros k l. induction l as [|c l IH]; intros a a' H; [exact H|]. cbn [fold_left]. apply IH. apply le_bind; [exact H|]. intro. apply HM.
Qed.
Lemma litop_mono : forall k cs, le (mkExprLitOp mk T k cs) (mkExprLitOp mk' T' k cs).
Proof.
  intros k cs. unfold mkExprLitOp.
  assert (X : le (if checkArity k (length cs) then let* r := tc_lop T k cs in Ok (match r with Some t => t | None => Node k cs end) else Ok (Node k cs))
                 (if checkArity k (length cs) then let* r := tc_lop T' k cs in Ok (match r with Some t => t | None => Node k cs end) else Ok (Node k cs))).
  { destruct (checkArity _ _); [|apply le_refl]. apply le_bind; [apply H2|]. intro. apply le_refl. }
  destruct cs as [|c0 [|c1 [|c2 cs]]]; try exact X. destruct (isNaryLiteralOp k); [|exact X].
  apply le_bind; [apply HM|]. intro. apply foldmk_mono, le_refl.
Qed.
End Build.

Lemma mkExpr_mono : forall E n n' m m', (n <= n')%nat -> (m <= m')%nat -> forall k cs,
  le (mkExpr E n m k cs) (mkExpr E n' m' k cs).
Proof.
  intros E n n' m. induction m as [|m IH]; intros [|m'] L L'; try lia; [intros; apply le_refl|intros; apply le_Fuel|]. intros k cs.
  assert (IH' : forall k cs, le (mkExpr E n m k cs) (mkExpr E n' m' k cs)) by (apply IH; lia).
  destruct (tc_mono E n n' L) as (I1 & I2 & I3). cbn [mkExpr]. cbn zeta.
  assert (X : le (if isLiteralOp k then mkExprLitOp (mkExpr E n m) (tc E n) k cs else Ok (Node k cs))
                 (if isLiteralOp k then mkExprLitOp (mkExpr E n' m') (tc E n') k cs else Ok (Node k cs))).
  { destruct (isLiteralOp k); [|apply le_refl]. now apply litop_mono. }
  destruct k; try exact X; try apply le_refl.
  - now apply apply_mono.
  - destruct cs as [|c0 [|c1 [|c2 cs]]]; try apply le_refl. apply le_bind; [apply le_refl|]. intros [args ret]. cbn zeta.
    destruct (tc_mono (with_dummies E args) n n' L) as (J1 & J2 & J3).
    apply le_bind; [now apply overload_mono|]. intro. apply le_refl.
Qed.
