(** C85, continued: $eo_list_minclude and $eo_list_meq. *)
From Coq Require Import String ZArith QArith List Bool Lia Permutation.
From Verif Require Import Base Kind Ints IntsProofs Str SpecLit Literal Arity Term SpecTerm SpecEval SpecList TermProofs Match MatchProofs Eval EvalProofs ListOps ListProofs Typing ListProofs2 PropList Build Scope Lexer Parse Check Encode SpecDerived SpecDerived2 DerivedProofs DerivedProofs2 DerivedProofs3 DefinitionsText PropDerived.
Import ListNotations. Open Scope Z_scope.

(** The lists of the library, [lc] and [ln] the symbols of eo_List_cons and eo_List_nil, and these elements make lists of it. *)
Definition elements85 (E : env) (n : nat) (lc ln : Z) (LT : term) (xs : list term) : Prop :=
  list85 E n (const lc) (const ln) LT xs /\ forall x, In x xs -> list_op E n false (const lc) (const lc) x (const ln).

Lemma elements_cons E n lc ln LT xs : elements85 E n lc ln LT xs -> forall x us zs, xs = (zs ++ x :: us)%list ->
  tc_lop (tc E (S n)) K_EVAL_CONS [const lc; x; rlist (const lc) (const ln) us] = Ok (Some (rlist (const lc) (const ln) (x :: us))).
Proof.
  intros ((_ & V & C & _) & O) x us zs ->.
  assert (Vx : value x /\ Forall value us).
  { apply Forall_app in V as [_ V]. inversion V; auto. }
  assert (Cu : curried (const lc) (rlist (const lc) (const ln) us)).
  { clear - C. induction zs as [|z zs IH]; cbn [app rlist] in C; apply curried_app2 in C as [_ C]; [exact C|exact (IH C)]. }
  refine (proj1 (C24_cons E n (const lc) (const lc) x _ (const ln) (O x _) _ Cu _) us eq_refl).
  - apply in_app_iff. right. left. reflexivity.
  - destruct Vx. repeat (apply Forall_cons; [apply val_ground; first [assumption|apply const_value|apply val_rlist; [apply const_value|apply const_value|assumption]]|]). apply Forall_nil.
  - intros a b H. discriminate H.
Qed.

Theorem C85_minclude : forall E n progs L op nl T xs ys s f a b p q lc ln LT, library85 progs L op nl T ->
  derived_inclusion L p q lc ln progs -> library85 progs L (const lc) (const ln) LT ->
  list85 E n op nl T xs -> list85 E n op nl T ys -> elements85 E n lc ln LT xs -> elements85 E n lc ln LT ys -> ev85 E n progs s f op ->
  ev85 E n progs s a (rlist op nl xs) -> ev85 E n progs s b (rlist op nl ys) ->
  Z.of_nat (length xs) < 2 ^ 32 -> Z.of_nat (length ys) < 2 ^ 32 ->
  both85 E n progs s (Node K_EVAL_LIST_MINCLUDE [f; a; b]) (d_minclude L p q f a b).
Proof.
  intros E n progs L op nl T xs ys s f a b p q lc ln LT (D & Vop & Vnl & VT & Nnl & Hnil) D2 (_ & _ & _ & VL & _ & HL)
    (O1 & V1 & C1 & Y1) (O2 & V2 & C2 & Y2) L1 L2 Hf Ha Hb N1 N2. unfold both85, ev85 in *.
  destruct (C26_minclude E n false op op (rlist op nl xs) (rlist op nl ys) nl xs ys) as (r & Br & Hr); try assumption; try reflexivity; [gr|].
  destruct (run_minclude E n progs L D p q lc ln D2 LT VL HL op nl T Vop Vnl VT Nnl Hnil xs ys s f a b) as (r' & Er & Hr'); try assumption.
  { exact (proj2 (proj2 (proj2 (proj1 L2)))). }
  { exact (elements_cons _ _ _ _ _ _ L1). }
  { exact (elements_cons _ _ _ _ _ _ L2). }
  assert (X : r = r') by (destruct r, r'; tauto || (try reflexivity; exfalso; intuition discriminate)). subst r'.
  exists (boolean r). split; [apply val_lit|]. split; [builtin; exact Br|exact Er].
Qed.
Print Assumptions C85_minclude.

Theorem C85_meq : forall E n progs L op nl T xs ys s f a b p q lc ln LT, library85 progs L op nl T ->
  derived_inclusion L p q lc ln progs -> library85 progs L (const lc) (const ln) LT ->
  list85 E n op nl T xs -> list85 E n op nl T ys -> elements85 E n lc ln LT xs -> elements85 E n lc ln LT ys -> ev85 E n progs s f op ->
  ev85 E n progs s a (rlist op nl xs) -> ev85 E n progs s b (rlist op nl ys) ->
  Z.of_nat (length xs) < 2 ^ 32 -> Z.of_nat (length ys) < 2 ^ 32 ->
  both85 E n progs s (Node K_EVAL_LIST_MEQ [f; a; b]) (d_meq L p q f a b).
Proof.
  intros E n progs L op nl T xs ys s f a b p q lc ln LT (D & Vop & Vnl & VT & Nnl & Hnil) D2 (_ & _ & _ & VL & _ & HL)
    (O1 & V1 & C1 & Y1) (O2 & V2 & C2 & Y2) L1 L2 Hf Ha Hb N1 N2. unfold both85, ev85 in *.
  destruct (C26_meq E n false op op (rlist op nl xs) (rlist op nl ys) nl xs ys) as (r & Br & Hr); try assumption; try reflexivity; [gr|].
  destruct (run_minclude E n progs L D p q lc ln D2 LT VL HL op nl T Vop Vnl VT Nnl Hnil xs ys s f a b) as (r1 & E1 & H1); try assumption.
  { exact (proj2 (proj2 (proj2 (proj1 L2)))). }
  { exact (elements_cons _ _ _ _ _ _ L1). }
  { exact (elements_cons _ _ _ _ _ _ L2). }
  destruct (run_minclude E n progs L D p q lc ln D2 LT VL HL op nl T Vop Vnl VT Nnl Hnil ys xs s f b a) as (r2 & E2 & H2); try assumption.
  { exact (proj2 (proj2 (proj2 (proj1 L1)))). }
  { exact (elements_cons _ _ _ _ _ _ L2). }
  { exact (elements_cons _ _ _ _ _ _ L1). }
  assert (X : r = andb r1 r2).
  { rewrite (C26_meq_both_inclusions xs ys), <- H1, <- H2 in Hr. destruct r, r1, r2; try reflexivity; exfalso; intuition discriminate. }
  subst r. exists (boolean (r1 && r2)). split; [apply val_lit|]. split; [builtin; exact Br|].
  eapply ev_op2; [reflexivity|discriminate|exact E1|exact E2|apply op_and].
Qed.
Print Assumptions C85_meq.

(** eo::var makes variables, and a variable is the one that eo::var makes from its name and its type. *)
Definition variables85 (E : env) (v T : term) : Prop :=
  (forall name U, exists i, e_bvar E name U = Sym K_VARIABLE i) /\
  (forall i, v = Sym K_VARIABLE i -> e_bvar E (str_toText (str_ofText false (e_name E v))) T = v).
Theorem C85_is_var : forall E n progs L s a v T, derived L progs -> ev85 E n progs s a v -> value v ->
  tc_lop (tc E (S n)) K_EVAL_TYPE_OF [v] = Ok (Some T) -> value T -> tc_type (tc E n) T = Ok (Some t_Type) -> variables85 E v T ->
  both85 E n progs s (Node K_EVAL_IS_VAR [a]) (d_is_var L a).
Proof.
  intros E n progs L s a v T D Ha (Wv & Cv & Iv) HT (WT & CT & IT) TT (VV & VN). unfold both85, ev85 in *.
  pose proof (proj2 (ground_closed v Wv) Cv) as Gv. pose proof (proj2 (eval_inert v Wv) Iv) as Nv.
  pose proof (proj2 (ground_closed T WT) CT) as GT. pose proof (proj2 (eval_inert T WT) IT) as NT.
  exists (boolean (kind_eqb (tkind v) K_VARIABLE)). split; [apply val_lit|]. split.
  { apply (ev_op1 E n progs s K_EVAL_IS_VAR a v); [reflexivity|discriminate|exact Ha|]. cbn. rewrite Gv. reflexivity. }
  assert (ET : ev (tc_lop (tc E (S n))) progs shortcut s (Node K_EVAL_TYPE_OF [a]) T)
    by (apply (ev_op1 E n progs s K_EVAL_TYPE_OF a v); [reflexivity|discriminate|exact Ha|exact HT]).
  destruct (kind_eqb (tkind v) K_CONST || kind_eqb (tkind v) K_VARIABLE) eqn:K.
  - set (nm := str_ofText false (e_name E v)).
    assert (EN : ev (tc_lop (tc E (S n))) progs shortcut s (Node K_EVAL_NAME_OF [a]) (Lit (LStr nm))).
    { apply (ev_op1 E n progs s K_EVAL_NAME_OF a v); [reflexivity|discriminate|exact Ha|]. cbn. rewrite Gv. cbn.
      destruct (tkind v); try discriminate K; reflexivity. }
    destruct (VV (str_toText nm) T) as (j & Ej).
    assert (EB : ev (tc_lop (tc E (S n))) progs shortcut s (Node K_EVAL_VAR [Node K_EVAL_NAME_OF [a]; Node K_EVAL_TYPE_OF [a]]) (Sym K_VARIABLE j)).
    { apply (ev_op2 E n progs s K_EVAL_VAR _ _ (Lit (LStr nm)) T); [reflexivity|discriminate|exact EN|exact ET|].
      cbn [tc tc_lop]. unfold evaluateLiteralOp. cbn [forallb isGround]. rewrite GT. cbn. rewrite NT, TT. cbn. now rewrite Ej. }
    assert (Wj : twf (Sym K_VARIABLE j)) by (constructor; reflexivity).
    assert (Cj : closed (Sym K_VARIABLE j)).
    { intros u Hu. inversion Hu; subst. split; [intros [i X]; discriminate|intro X; discriminate X]. }
    pose proof (run_is_eq E n progs L D s _ a _ v EB Ha Wj Wv Cj Cv) as R. unfold d_is_var.
    match type of R with ev _ _ _ _ _ (boolean ?b) => replace (kind_eqb (tkind v) K_VARIABLE) with b; [exact R|] end.
    unfold inertb. rewrite Nv. cbn [isEvaluatable negb andb].
    destruct v as [k i|l|k cs]; [|destruct l; discriminate K|inversion Wv; subst; destruct k; discriminate].
    destruct k; try discriminate K; [reflexivity|]. unfold nm in Ej. rewrite (VN i eq_refl) in Ej. rewrite <- Ej. apply term_eqb_eq. reflexivity.
  - replace (kind_eqb (tkind v) K_VARIABLE) with false by (symmetry; apply orb_false_iff in K; apply K).
    assert (EN : ev (tc_lop (tc E (S n))) progs shortcut s (Node K_EVAL_NAME_OF [a]) (Node K_EVAL_NAME_OF [v])).
    { apply (ev_op1_stuck E n progs s K_EVAL_NAME_OF a v); [reflexivity|discriminate|exact Ha|]. cbn. rewrite Gv. cbn.
      destruct v as [k i|l|k cs]; [|destruct l; reflexivity|]; cbn in K |- *; destruct k; try discriminate K; reflexivity. }
    destruct (stuck_ok K_EVAL_NAME_OF v eq_refl eq_refl eq_refl ltac:(discriminate) Wv Cv) as (W1 & C1 & I1).
    pose proof (proj2 (ground_closed _ W1) C1) as G1.
    set (w := Node K_EVAL_VAR [Node K_EVAL_NAME_OF [v]; T]).
    assert (EB : ev (tc_lop (tc E (S n))) progs shortcut s (Node K_EVAL_VAR [Node K_EVAL_NAME_OF [a]; Node K_EVAL_TYPE_OF [a]]) w).
    { apply (ev_op2_stuck E n progs s K_EVAL_VAR _ _ (Node K_EVAL_NAME_OF [v]) T); [reflexivity|discriminate|exact EN|exact ET|].
      cbn [tc tc_lop]. unfold evaluateLiteralOp. cbn [forallb]. rewrite G1, GT. reflexivity. }
    assert (Ww : twf w) by (constructor; [reflexivity|reflexivity|constructor; [exact W1|constructor; [exact WT|constructor]]]).
    assert (Cw : closed w).
    { intros u Hu. inversion Hu as [|k' cs c Hc Ho]; subst.
      - split; [intros [i X]; discriminate|intro X; discriminate X].
      - destruct Hc as [<-|[<-|[]]]; [now apply C1|now apply CT]. }
    pose proof (run_is_eq E n progs L D s _ a w v EB Ha Ww Wv Cw Cv) as R. unfold d_is_var.
    exact R.
Qed.
Print Assumptions C85_is_var.

(** The programs of the file. *)
Definition lcons85 : term := const 77.
Definition lnil85 : term := const 75.
Definition ltype85 : term := const 74.
Example C85_inclusion_names : (let s := s85 in map (fun x => getVar (s_scope s) (txt x))
    ["$eo_get_elements_rec"; "$eo_list_minclude_rec"; "eo_List_cons"; "eo_List_nil"; "eo_List"]%string) =
  [Some (prog 141); Some (prog 289); Some lcons85; Some lnil85; Some ltype85].
Proof. vm_compute. reflexivity. Qed.
Example C85_inclusion_programs : (let s := s85 in map (fun i => getProgram (env_of cfg85 s) (prog i)) [141; 289]) =
  (let s := s85 in map (fun i => option_map (program_term (prog i)) (progs85 s (prog i))) [141; 289]).
Proof. vm_compute. reflexivity. Qed.
Lemma all85b : (let s := s85 in map (fun i => progs85 s (prog i)) [141; 289]) =
  [Some (c_elements 141 77 75 (par 136) (par 137) (par 138) (par 140)); Some (c_minclude lib85 289 77 75 (par 286) (par 287) (par 288))].
Proof. vm_compute. reflexivity. Qed.
Lemma two85 : forall (f : Z -> option (list pcase)) a b x y, map f [a; b] = [x; y] -> f a = x /\ f b = y.
Proof. intros f a b x y H. injection H as H1 H2. split; assumption. Qed.
Lemma inclusion85 : derived_inclusion lib85 141 289 77 75 (progs85 s85).
Proof.
  destruct (two85 _ _ _ _ _ all85b) as [H1 H2]. split.
  - exists 136, 137, 138, 140. split. { clear H1 H2. nodups. } exact H1.
  - exists 286, 287, 288. split. { clear H1 H2. nodups. } exact H2.
Qed.
Lemma types85b : (let E := E85 in forallb (fun ys => match tc_lop (tc E 61) K_EVAL_TYPE_OF [rlist lcons85 lnil85 ys] with
  Ok (Some t) => term_eqb t ltype85 | _ => false end) lists85) = true.
Proof. vm_compute. reflexivity. Qed.
(** The lists (or a b a) and (or a a b), the latter with the same elements in another order. *)
Lemma elements_example xs : incl xs [a85; b85; a85] -> (length xs <= 3)%nat -> curried lcons85 (rlist lcons85 lnil85 xs) -> elements85 E85 60 77 75 ltype85 xs.
Proof.
  intros I3 L3 C3.
  assert (LO : forall l, list_op E85 60 false lcons85 lcons85 l lnil85).
  { destruct (e_info E85 lcons85) as [ai|] eqn:I.
    - assert (J : match e_info E85 lcons85 with Some ai => (ai_cons ai, ai_cterm ai) | None => (A_NONE, None) end = (A_RIGHT_ASSOC_NIL, Some lnil85)) by (vm_compute; reflexivity).
      rewrite I in J. injection J as J1 J2. intro l.
      apply (list_op_plain E85 60 false lcons85 K_CONST 77 ai); [reflexivity|exact I|exact J1|exact J2|discriminate].
    - exfalso. assert (J : match e_info E85 lcons85 with Some _ => true | None => false end = true) by (vm_compute; reflexivity). rewrite I in J. discriminate. }
  split; [|intros x _; apply LO]. split; [apply LO|]. split; [|split; [exact C3|]].
  - apply Forall_forall. intros x Hx. destruct (I3 x Hx) as [<-|[<-|[<-|[]]]]; apply const_value.
  - intros ys I Hl. pose proof types85b as H. cbv zeta in H. rewrite forallb_forall in H.
    specialize (H ys (lists85_in ys (incl_tran I I3) (Nat.le_trans _ _ _ Hl L3))).
    change (tc_lop (tc E85 61) K_EVAL_TYPE_OF [rlist lcons85 lnil85 ys] = Ok (Some ltype85)).
    destruct (tc_lop (tc E85 61) K_EVAL_TYPE_OF [rlist lcons85 lnil85 ys]) as [[t|]| | |]; try discriminate H.
    apply term_eqb_eq in H. subst t. reflexivity.
Qed.
Example C85_inclusion_example : library85 (progs85 s85) lib85 or85 (boolean false) t_Bool /\
  derived_inclusion lib85 141 289 77 75 (progs85 s85) /\ library85 (progs85 s85) lib85 lcons85 lnil85 ltype85 /\
  list85 E85 60 or85 (boolean false) t_Bool [a85; b85; a85] /\ elements85 E85 60 77 75 ltype85 [a85; b85; a85] /\
  elements85 E85 60 77 75 ltype85 [a85; a85; b85] /\
  read85 s85 "($eo_list_minclude or (or a b a) (or a a b))" = Some (boolean true) /\
  read85 s85 "($eo_list_minclude or (or a b a) (or a b))" = Some (boolean false) /\
  read85 s85 "($eo_list_meq or (or a b) (or a b a))" = Some (boolean false).
Proof.
  split; [exact (proj1 C85_example)|]. split; [exact inclusion85|]. split.
  { split; [exact derived85|]. split; [apply const_value|]. split; [apply const_value|]. split; [apply const_value|]. split; [intros x y H; discriminate|].
    eexists _, (fun _ => None). split; [prog85 0%nat|]. cbn [nth].
    apply sel_next; [reflexivity|intros g [Hm _]; discriminate Hm|]. apply sel_next; [reflexivity|intros g [Hm _]; discriminate Hm|].
    apply sel_next; [reflexivity|intros g [Hm _]; discriminate Hm|].
    apply sel_hit. split; [split; [reflexivity|]|].
    + intros q p Hq [j ->] Ho. exfalso. destruct Hq as [<-|[<-|[]]]; inversion Ho.
    + intros p H. exfalso. apply H. reflexivity. }
  split; [exact (proj1 (proj2 C85_example))|].
  split; [apply elements_example; [apply incl_refl|cbn; lia|apply curriedb_ok; vm_compute; reflexivity]|].
  split; [apply elements_example; [intros x Hx; cbn in *; tauto|cbn; lia|apply curriedb_ok; vm_compute; reflexivity]|].
  split; [vm_compute; reflexivity|]. split; vm_compute; reflexivity.
Qed.
(** The variable x of type Bool, and a constant. *)
Definition x85 : term := e_bvar E85 (txt "x") t_Bool.
Example C85_is_var_example : variables85 E85 x85 t_Bool /\ variables85 E85 a85 t_Bool /\ value x85 /\ value t_Bool /\
  tc_lop (tc E85 61) K_EVAL_TYPE_OF [x85] = Ok (Some t_Bool) /\ tc_type (tc E85 60) t_Bool = Ok (Some t_Type) /\
  read85 s85 "($eo_is_var (eo::var ""x"" Bool))" = Some (boolean true) /\ read85 s85 "($eo_is_var a)" = Some (boolean false).
Proof.
  assert (V : forall name U, exists i, e_bvar E85 name U = Sym K_VARIABLE i) by (intros; eexists; reflexivity).
  split; [split; [exact V|]|].
  { intros i _. vm_compute. reflexivity. }
  split; [split; [exact V|intros i X; discriminate X]|].
  split.
  { destruct (V (txt "x") t_Bool) as [i Hi]. unfold x85. rewrite Hi. split; [constructor; reflexivity|]. split.
    - intros u Hu. inversion Hu; subst. split; [intros [j X]; discriminate X|intro X; discriminate X].
    - apply eval_inert; [constructor; reflexivity|reflexivity]. }
  split.
  { assert (W : twf t_Bool) by (apply twf_node; [reflexivity|reflexivity|apply Forall_nil]).
    split; [exact W|]. split; [apply (proj1 (ground_closed _ W)); reflexivity|apply (proj1 (eval_inert _ W)); reflexivity]. }
  split; [vm_compute; reflexivity|]. split; [vm_compute; reflexivity|]. split; vm_compute; reflexivity.
Qed.
