(** What the names of the user manual stand for: proofs. *)
From Coq Require Import String ZArith QArith List Bool Lia.
From Verif Require Import Base Kind Ints Str Literal Arity SpecLit IntsProofs StrProofs LiteralProofs LiteralProofs2 LiteralProofs3 Term TermProofs Match Eval ListOps Typing Build Scope Lexer Parse Check
  SpecRead SpecNames.
Import ListNotations.
Open Scope Z_scope.

Lemma some_inj (A : Type) (x y : A) : Some x = Some y -> x = y.
Proof. congruence. Qed.
Lemma start_name : forallb (fun d => match getVar (s_scope (st_init options_init)) (txt (fst d)) with
  | Some v => kind_eqb (builtin_kind v) (snd d) && match s_marks (st_init options_init) v with None => true | _ => false end
  | None => false end) documented = true.
Proof. vm_compute. reflexivity. Qed.
Lemma start_opts o n : getVar (s_scope (st_init o)) n = getVar (s_scope (st_init options_init)) n.
Proof.
  unfold getVar, st_init. cbn [s_scope].
  assert (H : forall rt l c, forallb (fun p => negb (kind_eqb (tkind (snd p)) K_PROOF_RULE)) l = true -> bind_all rt l c = bind_all false l c).
  { intros rt l. induction l as [|[m e] l IH]; intros c F; [reflexivity|]. cbn [forallb snd] in F. apply andb_prop in F. destruct F as [F1 F2].
    cbn [bind_all]. unfold bind_sym. apply negb_true_iff in F1. rewrite F1, andb_false_r. cbn [andb].
    destruct (match c_sym c m with Some _ => _ | None => _ end) as [[over mark] ovd]. exact (IH _ F2). }
  rewrite (H (o_ruleSymTable o)) by (vm_compute; reflexivity).
  rewrite (H (o_ruleSymTable options_init)) by (vm_compute; reflexivity). reflexivity.
Qed.
Lemma start_meaning o n k : In (n, k) documented -> exists v, getVar (s_scope (st_init o)) (txt n) = Some v /\ builtin_kind v = k /\
  s_marks (st_init o) v = None.
Proof.
  intros I. pose proof start_name as A. rewrite forallb_forall in A. specialize (A _ I). cbn [fst snd] in A. rewrite start_opts.
  destruct (getVar (s_scope (st_init options_init)) (txt n)) as [v|]; [|discriminate A]. apply andb_prop in A. destruct A as [A B].
  apply kind_eqb_eq in A. exists v. split; [reflexivity|]. split; [exact A|].
  change (s_marks (st_init o)) with (s_marks (st_init options_init)). now destruct (s_marks (st_init options_init) v).
Qed.
Lemma documented_kind n k : In (n, k) documented -> k <> K_NONE /\ k <> K_APPLY /\ k <> K_FUNCTION_TYPE.
Proof.
  intros I. assert (A : forallb (fun d => negb (kind_eqb (snd d) K_NONE) && negb (kind_eqb (snd d) K_APPLY) && negb (kind_eqb (snd d) K_FUNCTION_TYPE)) documented = true) by (vm_compute; reflexivity).
  rewrite forallb_forall in A. specialize (A _ I). cbn [snd] in A. repeat split; intros ->; discriminate A.
Qed.

Section Read.
Variable G : config.
Variable sig : bool.
Lemma original_meaning s n k : In (n, k) documented -> original s n ->
  exists v, getVar (s_scope s) (txt n) = Some v /\ builtin_kind v = k /\ s_marks s v = None.
Proof.
  intros I (v & A & B & C). destruct (start_meaning (s_opts s) n k I) as (v' & B' & K & M). assert (v' = v) by congruence. subst v'.
  exists v. split; [exact A|]. split; [exact K|]. congruence.
Qed.
Lemma applied_builtin s v k m ts : builtin_kind v = k -> k <> K_NONE -> k <> K_APPLY -> k <> K_FUNCTION_TYPE ->
  mkExpr (env_of G s) (g_n G) (S m) K_APPLY (v :: ts) = mkExpr (env_of G s) (g_n G) m k ts.
Proof.
  intros K N1 N2 N3. cbn [mkExpr]. unfold mkExprApply. cbn [env_of e_info]. rewrite K.
  destruct k; try congruence; cbn [ai_kind]; reflexivity.
Qed.
Lemma not_binder s v : s_marks s v = None -> builtin_kind v <> K_NONE -> binds (getConstructorKind (env_of G s) v) = false.
Proof.
  intros M K. unfold getConstructorKind. cbn [env_of e_info]. rewrite M. destruct (builtin_kind v); try congruence; reflexivity.
Qed.
Lemma operator s n k xs r s1 m : In (n, k) documented -> original s n -> g_mk G = S m ->
  (reads G sig s (XL (XT T_SYMBOL (txt n) :: xs)) r s1 <->
   exists ts, reads_args G sig s xs ts s1 /\ mkExpr (env_of G s1) (g_n G) m k ts = Ok r).
Proof.
  intros I O MK. destruct (original_meaning s n k I O) as (v & V & K & M). destruct (documented_kind n k I) as (N1 & N2 & N3).
  assert (B : binds (getConstructorKind (env_of G s) v) = false) by (apply not_binder; congruence).
  split.
  - intros H. inversion H; subst.
    all: repeat match goal with h : name_of T_SYMBOL ?x = Some ?y |- _ => change (Some x = Some y) in h; apply some_inj in h; subst y end.
    all: repeat match goal with h : getVar _ _ = Some ?w |- _ => assert (w = v) by congruence; subst w; clear h end.
    + eexists. split; [eassumption|]. match goal with h : applied _ _ _ _ |- _ => unfold applied in h; rewrite MK in h; rewrite (applied_builtin _ _ _ _ _ eq_refl N1 N2 N3) in h; exact h end.
    + match goal with h : getConstructorKind _ _ = _ |- _ => rewrite h in B; discriminate B end.
    + match goal with h : getConstructorKind _ _ = _ |- _ => rewrite h in B; discriminate B end.
    + discriminate.
  - intros (ts & R & H). eapply rd_app; [reflexivity | exact V | now rewrite B | exact R|].
    unfold applied. rewrite MK. now rewrite (applied_builtin _ _ k _ _ K N1 N2 N3).
Qed.
Lemma arrow_type s xs r s1 m : original s "->" -> g_mk G = S m ->
  (reads G sig s (XL (XT T_SYMBOL (txt "->") :: xs)) r s1 <->
   exists ts t, reads_args G sig s xs (ts ++ [t]) s1 /\ r = fold_right (fun a b => Node K_FUNCTION_TYPE [a; b]) t ts).
Proof.
  intros (v & V & B & M) MK. rewrite start_opts in B.
  assert (E : v = Sym K_BUILTIN_CONST 0) by (vm_compute in B; congruence). subst v. clear B. cbn [st_init s_marks] in M.
  assert (M' : s_marks s (Sym K_BUILTIN_CONST 0) = None) by (rewrite M; vm_compute; reflexivity). clear M.
  assert (B : binds (getConstructorKind (env_of G s) (Sym K_BUILTIN_CONST 0)) = false) by (apply not_binder; [exact M' | discriminate]).
  assert (A : forall ts q, mkExpr (env_of G s1) (g_n G) (S m) K_APPLY (Sym K_BUILTIN_CONST 0 :: ts) = Ok q <->
    exists us t, ts = us ++ [t] /\ q = fold_right (fun a b => Node K_FUNCTION_TYPE [a; b]) t us).
  { intros ts q. cbn [mkExpr]. unfold mkExprApply. cbn [env_of e_info]. change (builtin_kind (Sym K_BUILTIN_CONST 0)) with K_FUNCTION_TYPE. cbn [ai_kind].
    destruct ts as [|t0 ts]. { split; [discriminate|]. intros (us & t & X & _). now destruct us. }
    unfold mkFunctionType. split.
    - intros H. injection H as <-. exists (removelast (t0 :: ts)), (last (t0 :: ts) null_term). split; [|reflexivity]. now apply app_removelast_last.
    - intros (us & t & X & ->). rewrite X. now rewrite removelast_last, last_last. }
  split.
  - intros H. inversion H; subst.
    all: repeat match goal with h : name_of T_SYMBOL ?x = Some ?y |- _ => change (Some x = Some y) in h; apply some_inj in h; subst y end.
    all: repeat match goal with h : getVar _ _ = Some ?w |- _ => assert (w = Sym K_BUILTIN_CONST 0) by congruence; subst w; clear h end.
    + match goal with h : applied _ _ _ _ |- _ => unfold applied in h; rewrite MK in h; apply A in h; destruct h as (us & t & -> & ->) end. eauto.
    + match goal with h : getConstructorKind _ _ = _ |- _ => rewrite h in B; discriminate B end.
    + match goal with h : getConstructorKind _ _ = _ |- _ => rewrite h in B; discriminate B end.
    + discriminate.
  - intros (us & t & R & ->). eapply rd_app; [reflexivity | exact V | now rewrite B | exact R|].
    unfold applied. rewrite MK. apply A. eauto.
Qed.
End Read.

(** Values. *)
Section Values.
Variables (E : env) (n : nat).
Lemma all_lits ls : all_literals (map Lit ls) = Some ls.
Proof. induction ls as [|l ls IH]; [reflexivity|]. cbn [map all_literals]. now rewrite IH. Qed.
Lemma ground_lits ls : forallb isGround (map Lit ls) = true.
Proof. induction ls as [|l ls IH]; [reflexivity|]. cbn [map forallb]. rewrite IH. now destruct l. Qed.
Lemma tail_lits k ls r : checkArity k (length ls) = true -> Literal.evaluate k ls = Ok (Some r) ->
  forall gt evl, evaluateLitTail E gt evl k (map Lit ls) = Ok (Some (Lit r)).
Proof. intros A H gt evl. unfold evaluateLitTail. rewrite all_lits, map_length, A. cbn [negb]. rewrite H. reflexivity. Qed.
Definition on_literals (k : kind) : bool :=
  match k with
  | K_EVAL_NOT | K_EVAL_AND | K_EVAL_OR | K_EVAL_XOR | K_EVAL_ADD | K_EVAL_MUL | K_EVAL_NEG | K_EVAL_INT_DIV | K_EVAL_INT_MOD | K_EVAL_RAT_DIV
  | K_EVAL_IS_NEG | K_EVAL_GT | K_EVAL_LENGTH | K_EVAL_CONCAT | K_EVAL_EXTRACT | K_EVAL_FIND | K_EVAL_TO_INT | K_EVAL_TO_RAT | K_EVAL_TO_BIN | K_EVAL_TO_STRING => true
  | _ => false
  end.
Lemma lop_lits k ls r : on_literals k = true -> checkArity k (length ls) = true -> Literal.evaluate k ls = Ok (Some r) ->
  tc_lop (tc E (S n)) k (map Lit ls) = Ok (Some (Lit r)).
Proof.
  intros O A H. pose proof (tail_lits k ls r A H (tc_type (tc E n)) (tc_eval (tc E n))) as TL. cbn [tc tc_lop]. unfold evaluateLiteralOp. rewrite ground_lits. cbn [negb].
  destruct k; try discriminate O; exact TL.
Qed.
Lemma litop_plain m k ls r : isLiteralOp k = true -> (isNaryLiteralOp k = false \/ (length ls <= 2)%nat) -> checkArity k (length ls) = true ->
  tc_lop (tc E (S n)) k (map Lit ls) = Ok (Some r) -> mkExpr E (S n) (S m) k (map Lit ls) = Ok r.
Proof.
  intros L NA A H.
  assert (P : mkExprLitOp (mkExpr E (S n) m) (tc E (S n)) k (map Lit ls) = Ok r).
  { unfold mkExprLitOp. destruct ls as [|a [|b [|c ls]]]; cbn [map length] in *; rewrite ?map_length.
    1-3: rewrite A, H; reflexivity.
    destruct NA as [NA | NA]; [|cbn in NA; lia]. rewrite NA, A, H. reflexivity. }
  cbn [mkExpr]. destruct k; try discriminate L; exact P.
Qed.
Lemma lits2 m k ls r : on_literals k = true -> (isNaryLiteralOp k = false \/ (length ls <= 2)%nat) -> checkArity k (length ls) = true ->
  Literal.evaluate k ls = Ok (Some r) -> mkExpr E (S n) (S m) k (map Lit ls) = Ok (Lit r).
Proof.
  intros O NA A H. apply litop_plain; [destruct k; try discriminate O; reflexivity | exact NA | exact A | now apply lop_lits].
Qed.
(** More than two arguments: one after the other. *)
Lemma lits_fold (T : Type) (f : T -> T -> T) (mk : T -> literal) m k a b l : on_literals k = true -> isNaryLiteralOp k = true ->
  checkArity k 2 = true -> (forall x y, Literal.evaluate k [mk x; mk y] = Ok (Some (mk (f x y)))) ->
  mkExpr E (S n) (S (S m)) k (map Lit (map mk (a :: b :: l))) = Ok (Lit (mk (fold_left f l (f a b)))).
Proof.
  intros O NA A H.
  assert (S2 : forall x y, mkExpr E (S n) (S m) k [Lit (mk x); Lit (mk y)] = Ok (Lit (mk (f x y)))).
  { intros x y. apply (lits2 m k [mk x; mk y] (mk (f x y))); auto. }
  assert (F : forall l x, fold_left (fun acc c => let* u := acc in mkExpr E (S n) (S m) k [u; c]) (map Lit (map mk l)) (Ok (Lit (mk x))) = Ok (Lit (mk (fold_left f l x)))).
  { clear l. induction l as [|y l IH]; intros x; [reflexivity|]. cbn [map fold_left bind]. rewrite S2. apply IH. }
  destruct l as [|c l].
  { apply (lits2 (S m) k [mk a; mk b] (mk (f a b))); auto. }
  assert (P : mkExprLitOp (mkExpr E (S n) (S m)) (tc E (S n)) k (map Lit (map mk (a :: b :: c :: l))) = Ok (Lit (mk (fold_left f (c :: l) (f a b))))).
  { cbn [map mkExprLitOp]. rewrite NA, S2. cbn [bind]. exact (F (c :: l) (f a b)). }
  remember (S m) as m'. cbn [mkExpr]. destruct k; try discriminate O; try discriminate NA; exact P.
Qed.
End Values.

Lemma concat_fold : forall (l : list (list Z)) (a : list Z), fold_left (@app Z) l a = a ++ List.concat l.
Proof. induction l as [|b l IH]; intros a; cbn; [now rewrite app_nil_r|]. now rewrite IH, app_assoc. Qed.
Lemma fold_left_right (T : Type) (f : T -> T -> T) (e : T) : (forall a b c, f a (f b c) = f (f a b) c) -> (forall a, f a e = a) ->
  forall l a b, fold_left f l (f a b) = fold_right f e (a :: b :: l).
Proof.
  intros As Ne. assert (H : forall l a, fold_left f l a = f a (fold_right f e l)).
  { induction l as [|b l IH]; intros a; cbn; [now rewrite Ne|]. now rewrite IH, As. }
  intros l a b. cbn [fold_right]. now rewrite H, As.
Qed.
Lemma lit_eqb_refl l : lit_eqb l l = true.
Proof. now apply lit_eqb_eq. Qed.
Lemma lit_eqb_neq l m : l <> m -> lit_eqb l m = false.
Proof. intros H. destruct (lit_eqb l m) eqn:X; [|reflexivity]. apply lit_eqb_eq in X. congruence. Qed.
Lemma term_lit l m : term_eqb (Lit l) (Lit m) = lit_eqb l m.
Proof. reflexivity. Qed.

Lemma slice_unique s i j r r' : is_slice s i j r -> is_slice s i j r' -> r = r'.
Proof.
  intros [A B] [A' B']. assert (L : length r = length r') by lia. apply (nth_ext r r' 0 0 L).
  intros k K. assert (X : nth_error r k = nth_error r' k) by (rewrite B by exact K; rewrite B' by lia; reflexivity).
  erewrite !nth_error_nth'  in X by lia. injection X as X. exact X.
Qed.

Section Means.
Variables (E : env) (n : nat).
Lemma means_value nm ls v m : means nm ls v ->
  exists k, In (nm, k) documented /\ mkExpr E (S n) (S (S m)) k (map Lit ls) = Ok (Lit v).
Proof.
  assert (D : forall nm k, existsb (fun d => String.eqb (fst d) nm && kind_eqb (snd d) k) documented = true -> In (nm, k) documented).
  { intros nm' k H. apply existsb_exists in H. destruct H as ([a b] & I & H). apply andb_prop in H. destruct H as [H1 H2]. cbn in H1, H2.
    apply String.eqb_eq in H1. apply kind_eqb_eq in H2. now subst. }
  intros M. destruct M.
  - exists K_EVAL_NOT. split; [apply D; reflexivity|]. apply lits2; auto.
  - exists K_EVAL_AND. split; [apply D; reflexivity|].
    replace (forallb (fun x => x) (a :: b :: l)) with (fold_left andb l (a && b)).
    + apply (lits_fold E n bool andb LBool); auto.
    + rewrite (fold_left_right _ andb true andb_assoc andb_true_r). reflexivity.
  - exists K_EVAL_OR. split; [apply D; reflexivity|].
    replace (existsb (fun x => x) (a :: b :: l)) with (fold_left orb l (a || b)).
    + apply (lits_fold E n bool orb LBool); auto.
    + rewrite (fold_left_right _ orb false orb_assoc orb_false_r). reflexivity.
  - exists K_EVAL_XOR. split; [apply D; reflexivity|]. apply (lits2 E n (S m) _ [LBool a; LBool b]); destruct a, b; auto.
  - exists K_EVAL_ADD. split; [apply D; reflexivity|].
    rewrite <- (fold_left_right _ Z.add 0 Z.add_assoc Z.add_0_r). apply (lits_fold E n Z Z.add LNum); auto.
  - exists K_EVAL_MUL. split; [apply D; reflexivity|].
    rewrite <- (fold_left_right _ Z.mul 1 Z.mul_assoc Z.mul_1_r). apply (lits_fold E n Z Z.mul LNum); auto.
  - exists K_EVAL_NEG. split; [apply D; reflexivity|]. apply (lits2 E n (S m) _ [LNum a]); auto.
  - exists K_EVAL_INT_DIV. split; [apply D; reflexivity|]. apply (lits2 E n (S m) _ [LNum a; LNum b]); auto.
    assert (b <> 0) by (destruct H; lia). destruct (proj1 (zdiv_zmod_euclid a b) H0) as (q' & r' & A & B & C & U).
    destruct (U _ _ H) as [-> _]. exact A.
  - exists K_EVAL_INT_MOD. split; [apply D; reflexivity|]. apply (lits2 E n (S m) _ [LNum a; LNum b]); auto.
    assert (b <> 0) by (destruct H; lia). destruct (proj1 (zdiv_zmod_euclid a b) H0) as (q' & r' & A & B & C & U).
    destruct (U _ _ H) as [_ ->]. exact B.
  - exists K_EVAL_RAT_DIV. split; [apply D; reflexivity|]. apply (lits2 E n (S m) _ [LNum a; LNum b]); auto.
    destruct (proj2 (num_div_meaning a b) H) as (r & A & W & Q). rewrite A. do 3 f_equal. apply rat_wf_eq; auto.
    assert (~ inject_Z b == 0)%Q by (intros X; apply H; unfold Qeq in X; cbn in X; lia).
    rewrite <- H1 in Q. apply Qmult_inj_r in Q; assumption.
  - exists K_EVAL_IS_NEG. split; [apply D; reflexivity|]. apply (lits2 E n (S m) _ [LNum a]); auto; cbn; unfold Z.sgn, Z.ltb; now destruct a.
  - exists K_EVAL_GT. split; [apply D; reflexivity|]. apply (lits2 E n (S m) _ [LNum a; LNum b]); auto. cbn. now rewrite Z.gtb_ltb.
  - exists K_EVAL_ADD. split; [apply D; reflexivity|]. apply (lits2 E n (S m) _ [LRat a; LRat b]); auto.
    destruct (proj1 (rat_nary_meaning LRat a [b] (or_intror eq_refl) H (Forall_cons _ H0 (Forall_nil _)))) as (r & A & W & Q).
    refine (eq_trans A _). do 3 f_equal. apply rat_wf_eq; auto. rewrite H2. exact Q.
  - exists K_EVAL_MUL. split; [apply D; reflexivity|]. apply (lits2 E n (S m) _ [LRat a; LRat b]); auto.
    destruct (proj2 (rat_nary_meaning LRat a [b] (or_intror eq_refl) H (Forall_cons _ H0 (Forall_nil _)))) as (r & A & W & Q).
    refine (eq_trans A _). do 3 f_equal. apply rat_wf_eq; auto. rewrite H2. exact Q.
  - exists K_EVAL_NEG. split; [apply D; reflexivity|]. apply (lits2 E n (S m) _ [LRat a]); auto.
    destruct (proj1 (rat_unary_meaning LRat a (or_intror eq_refl))) as (r & A & W & Q).
    refine (eq_trans A _). do 3 f_equal. apply rat_wf_eq; auto. rewrite H0. exact Q.
  - exists K_EVAL_LENGTH. split; [apply D; reflexivity|]. apply (lits2 E n (S m) _ [LStr s]); auto. now apply str_length_meaning.
  - exists K_EVAL_CONCAT. split; [apply D; reflexivity|].
    replace (List.concat (s :: t :: l)) with (fold_left (@app Z) l (s ++ t)) by (rewrite concat_fold; cbn; now rewrite app_assoc).
    apply (lits_fold E n (list Z) (@app Z) LStr); auto.
  - exists K_EVAL_EXTRACT. split; [apply D; reflexivity|]. apply (lits2 E n (S m) _ [LStr s; LNum i; LNum j]); auto.
    destruct (str_extract_meaning s i j H) as (r' & A & B & _). rewrite A. do 3 f_equal. apply (slice_unique s i j); auto.
  - exists K_EVAL_FIND. split; [apply D; reflexivity|]. apply (lits2 E n (S m) _ [LStr s; LStr t]); auto.
    destruct (str_find_meaning s t H) as (j & A & B). rewrite A. do 3 f_equal. destruct B as [[-> B] | (B1 & B2 & B3)]; [now destruct (B i)|].
    destruct (Z.lt_trichotomy i j) as [X | [X | X]]; [now destruct (B3 i); auto | congruence | now destruct (H2 j); auto].
  - exists K_EVAL_TO_INT. split; [apply D; reflexivity|]. apply (lits2 E n (S m) _ [LStr [c]]); auto. now apply to_z_to_str.
  - exists K_EVAL_TO_STRING. split; [apply D; reflexivity|]. apply (lits2 E n (S m) _ [LNum c]); auto. now apply to_z_to_str.
  - exists K_EVAL_TO_RAT. split; [apply D; reflexivity|]. apply (lits2 E n (S m) _ [LNum z]); auto. cbn. do 3 f_equal. apply rat_wf_eq; auto; [apply Z.gcd_1_r | now rewrite H0].
  - exists K_EVAL_TO_BIN. split; [apply D; reflexivity|]. apply (lits2 E n (S m) _ [LNum w; LNum z]); auto.
    destruct (to_bin_meaning w z H) as ([w' z'] & A & B & C). cbn in B, C. subst. exact A.
  - exists K_EVAL_IS_Z. split; [apply D; reflexivity|]. apply (litop_plain E n (S m) _ [v]); auto; now destruct v.
  - exists K_EVAL_IS_Q. split; [apply D; reflexivity|]. apply (litop_plain E n (S m) _ [v]); auto; now destruct v.
  - exists K_EVAL_IS_BIN. split; [apply D; reflexivity|]. apply (litop_plain E n (S m) _ [v]); auto; now destruct v.
  - exists K_EVAL_IS_STR. split; [apply D; reflexivity|]. apply (litop_plain E n (S m) _ [v]); auto; now destruct v.
  - exists K_EVAL_IS_BOOL. split; [apply D; reflexivity|]. apply (litop_plain E n (S m) _ [v]); auto; now destruct v.
  - exists K_EVAL_IS_VAR. split; [apply D; reflexivity|]. apply (litop_plain E n (S m) _ [v]); auto; now destruct v.
  - exists K_EVAL_IS_OK. split; [apply D; reflexivity|]. apply (litop_plain E n (S m) _ [v]); auto; now destruct v.
  - exists K_EVAL_EQ. split; [apply D; reflexivity|]. apply (litop_plain E n (S m) _ [v; v]); auto.
    transitivity (Ok (Some (Lit (LBool (lit_eqb v v))))); [now destruct v | now rewrite lit_eqb_refl].
  - exists K_EVAL_EQ. split; [apply D; reflexivity|]. apply (litop_plain E n (S m) _ [v; w]); auto.
    transitivity (Ok (Some (Lit (LBool (lit_eqb v w))))); [now destruct v, w | now rewrite lit_eqb_neq].
  - exists K_EVAL_IS_EQ. split; [apply D; reflexivity|]. apply (litop_plain E n (S m) _ [v; v]); auto.
    transitivity (Ok (Some (Lit (LBool (lit_eqb v v))))); [now destruct v | now rewrite lit_eqb_refl].
  - exists K_EVAL_IS_EQ. split; [apply D; reflexivity|]. apply (litop_plain E n (S m) _ [v; w]); auto.
    transitivity (Ok (Some (Lit (LBool (lit_eqb v w))))); [now destruct v, w | now rewrite lit_eqb_neq].
  - exists K_EVAL_IF_THEN_ELSE. split; [apply D; reflexivity|]. apply (litop_plain E n (S m) _ [LBool b; v; w]); auto; now destruct b.
  - exists K_EVAL_REQUIRES. split; [apply D; reflexivity|]. apply (litop_plain E n (S m) _ [v; v; w]); auto.
    transitivity (if lit_eqb v v then Ok (Some (Lit w)) else Ok None); [now destruct v | now rewrite lit_eqb_refl].
Qed.
End Means.

Lemma meaning_read G sig s nm xs ls v s1 n m : g_n G = S n -> g_mk G = S (S (S m)) ->
  original s nm -> means nm ls v -> reads_args G sig s xs (map Lit ls) s1 ->
  reads G sig s (XL (XT T_SYMBOL (txt nm) :: xs)) (Lit v) s1.
Proof.
  intros N MK O M R. destruct (means_value (env_of G s1) n nm ls v m M) as (k & I & V).
  apply (operator G sig s nm k xs (Lit v) s1 (S (S m)) I O MK). exists (map Lit ls). split; [exact R|]. rewrite N. exact V.
Qed.
Lemma meaning_only G sig s nm xs ls v s1 r s2 n m : g_n G = S n -> g_mk G = S (S (S m)) ->
  original s nm -> means nm ls v -> (forall ts s', reads_args G sig s xs ts s' -> ts = map Lit ls /\ s' = s1) ->
  reads G sig s (XL (XT T_SYMBOL (txt nm) :: xs)) r s2 -> r = Lit v /\ s2 = s1.
Proof.
  intros N MK O M U R. destruct (means_value (env_of G s1) n nm ls v m M) as (k & I & V).
  apply (operator G sig s nm k xs r s2 (S (S m)) I O MK) in R. destruct R as (ts & R & H). destruct (U _ _ R) as [-> ->].
  rewrite N in H. split; congruence.
Qed.
Lemma boolean_names G sig s (b : bool) r s1 : original s (if b then "true" else "false")%string ->
  (reads G sig s (XT T_SYMBOL (txt (if b then "true" else "false"))) r s1 <-> r = Lit (LBool b) /\ s1 = s).
Proof.
  intros (v & A & B & _). rewrite start_opts in B. assert (v = Lit (LBool b)) by (destruct b; vm_compute in B; congruence). subst v. split.
  - intros H. inversion H; subst.
    + match goal with h : name_of T_SYMBOL ?x = Some ?y |- _ => change (Some x = Some y) in h; apply some_inj in h; subst y end. split; congruence.
    + match goal with h : word_term _ _ _ _ _ |- _ => inversion h end.
  - intros [-> ->]. eapply rd_name; [reflexivity | exact A | discriminate].
Qed.
Fixpoint distinct (l : list text) : bool :=
  match l with [] => true | x :: l' => negb (existsb (text_eqb x) l') && distinct l' end.
Lemma distinct_nodup l : distinct l = true -> NoDup l.
Proof.
  induction l as [|x l IH]; intros H; constructor; cbn [distinct] in H; apply andb_prop in H; destruct H as [A B]; [|auto].
  intros I. apply negb_true_iff in A. assert (existsb (text_eqb x) l = true) by (apply existsb_exists; exists x; split; [exact I | now apply text_eqb_eq]). congruence.
Qed.
(** A table that finds the same as another one. *)
Lemma table_same (A : Type) (eqb : A -> A -> bool) (EQ : forall x y, eqb x y = true <-> x = y) (t : list (text * A)) (l : list (string * A)) :
  distinct (map fst t) = true ->
  forallb (fun p => existsb (fun q => text_eqb (fst q) (txt (fst p)) && eqb (snd q) (snd p)) t) l = true ->
  forallb (fun q => existsb (fun p => text_eqb (fst q) (txt (fst p)) && eqb (snd q) (snd p)) l) t = true ->
  forall n a, table_find t n = Some a <-> exists d, n = txt d /\ In (d, a) l.
Proof.
  intros D2 F1 F2 n a.
  assert (T : forall t : list (text * A), NoDup (map fst t) -> forall n (a : A), table_find t n = Some a <-> In (n, a) t).
  { clear. induction t as [|[m x] t IH]; intros ND n a; cbn [table_find]; [now split|]. cbn [map] in ND. inversion ND as [|y ys NI ND' E]; subst. cbn [fst] in NI.
    destruct (text_eqb m n) eqn:X.
    - apply text_eqb_eq in X. subst n. split; [intros H; injection H as <-; now left|]. intros [I | I]; [congruence|]. destruct NI. apply in_map_iff. exists (m, a). auto.
    - rewrite (IH ND'). split; [now right|]. intros [I | I]; [|exact I]. injection I as -> ->. rewrite (proj2 (text_eqb_eq _ _) eq_refl) in X. discriminate X. }
  rewrite (T t (distinct_nodup _ D2)). rewrite forallb_forall in F1, F2. split.
  - intros I. specialize (F2 _ I). apply existsb_exists in F2. destruct F2 as ([d b] & J & F2). cbn [fst snd] in F2. apply andb_prop in F2. destruct F2 as [X Y].
    apply text_eqb_eq in X. apply EQ in Y. exists d. split; [exact X|]. rewrite Y. exact J.
  - intros (d & -> & I). specialize (F1 _ I). apply existsb_exists in F1. destruct F1 as ([d' b] & J & F1). cbn [fst snd] in F1. apply andb_prop in F1. destruct F1 as [X Y].
    apply text_eqb_eq in X. apply EQ in Y. rewrite <- X, <- Y. exact J.
Qed.
Lemma attr_eqb_iff x y : attr_eqb x y = true <-> x = y.
Proof. destruct x, y; cbn; split; congruence. Qed.
Lemma attribute_names n a : table_find strToAttr n = Some a <-> exists d, n = txt d /\ In (d, a) documented_attributes.
Proof. apply (table_same _ attr_eqb attr_eqb_iff); vm_compute; reflexivity. Qed.
Lemma literal_names n k : table_find strToLiteralKind n = Some k <-> exists d, n = txt d /\ In (d, k) documented_literals.
Proof. apply (table_same _ kind_eqb kind_eqb_eq); vm_compute; reflexivity. Qed.
