(** C89: the list operators obey the laws of lists and of multisets
    (user_manual.md, list computations). *)
From Coq Require Import String ZArith List Bool Lia Permutation.
From Verif Require Import Base Kind Ints Str Literal Arity Term Match Eval ListOps Typing Build Scope Lexer Parse Check
  SpecTerm SpecEval SpecLit SpecList ListProofs ListProofs2 TermProofs EvalProofs PropList SpecDerived DerivedProofs DerivedProofs2 PropDerived
  SpecLaws LawsProofs.
Import ListNotations.
Open Scope Z_scope.

Ltac law r := exists r; split; [|split].
Ltac el := repeat first [assumption|apply elements_app|apply elements_rev].

Theorem C89_rev_rev : forall E n progs op nl s f a xs, list_operator E n op nl -> ev85 E n progs s f op ->
  elements op xs -> ev85 E n progs s a (rlist op nl xs) ->
  both85 E n progs s (Node K_EVAL_LIST_REV [f; Node K_EVAL_LIST_REV [f; a]]) a.
Proof.
  intros E n progs op nl s f a xs O F X A. law (rlist op nl xs).
  - eapply val_R; eassumption.
  - rewrite <- (rev_involutive xs) at 1. eapply ev_rev; [exact O|exact F|el|]. eapply ev_rev; eassumption.
  - exact A.
Qed.
Theorem C89_concat_assoc : forall E n progs op nl s f a b c xs ys zs, list_operator E n op nl -> ev85 E n progs s f op ->
  elements op xs -> elements op ys -> elements op zs ->
  ev85 E n progs s a (rlist op nl xs) -> ev85 E n progs s b (rlist op nl ys) -> ev85 E n progs s c (rlist op nl zs) ->
  both85 E n progs s (Node K_EVAL_LIST_CONCAT [f; Node K_EVAL_LIST_CONCAT [f; a; b]; c]) (Node K_EVAL_LIST_CONCAT [f; a; Node K_EVAL_LIST_CONCAT [f; b; c]]).
Proof.
  intros E n progs op nl s f a b c xs ys zs O F X Y Z A B C. law (rlist op nl (xs ++ ys ++ zs)).
  - eapply val_R; [eassumption|el].
  - rewrite app_assoc. eapply ev_concat; [exact O|exact F|el|el| |exact C]. eapply ev_concat; eassumption.
  - eapply ev_concat; [exact O|exact F|el|el|exact A|]. eapply ev_concat; eassumption.
Qed.
Theorem C89_rev_concat : forall E n progs op nl s f a b xs ys, list_operator E n op nl -> ev85 E n progs s f op ->
  elements op xs -> elements op ys -> ev85 E n progs s a (rlist op nl xs) -> ev85 E n progs s b (rlist op nl ys) ->
  both85 E n progs s (Node K_EVAL_LIST_REV [f; Node K_EVAL_LIST_CONCAT [f; a; b]])
    (Node K_EVAL_LIST_CONCAT [f; Node K_EVAL_LIST_REV [f; b]; Node K_EVAL_LIST_REV [f; a]]).
Proof.
  intros E n progs op nl s f a b xs ys O F X Y A B. law (rlist op nl (rev ys ++ rev xs)).
  - eapply val_R; [eassumption|el].
  - rewrite <- rev_app_distr. eapply ev_rev; [exact O|exact F|el|]. eapply ev_concat; eassumption.
  - eapply ev_concat; [exact O|exact F|el|el| |]; eapply ev_rev; eassumption.
Qed.
Theorem C89_length_concat : forall E n progs op nl s f a b xs ys, list_operator E n op nl -> ev85 E n progs s f op ->
  elements op xs -> elements op ys -> ev85 E n progs s a (rlist op nl xs) -> ev85 E n progs s b (rlist op nl ys) ->
  both85 E n progs s (Node K_EVAL_LIST_LENGTH [f; Node K_EVAL_LIST_CONCAT [f; a; b]])
    (Node K_EVAL_ADD [Node K_EVAL_LIST_LENGTH [f; a]; Node K_EVAL_LIST_LENGTH [f; b]]).
Proof.
  intros E n progs op nl s f a b xs ys O F X Y A B. law (Lit (LNum (Z.of_nat (length xs) + Z.of_nat (length ys)))).
  - apply val_lit.
  - rewrite <- Nat2Z.inj_add, <- app_length. eapply ev_length; [exact O|exact F|el|]. eapply ev_concat; eassumption.
  - apply ev_add; eapply ev_length; eassumption.
Qed.
Theorem C89_setof_setof : forall E n progs op nl s f a xs, list_operator E n op nl -> ev85 E n progs s f op ->
  elements op xs -> ev85 E n progs s a (rlist op nl xs) ->
  both85 E n progs s (Node K_EVAL_LIST_SETOF [f; Node K_EVAL_LIST_SETOF [f; a]]) (Node K_EVAL_LIST_SETOF [f; a]).
Proof.
  intros E n progs op nl s f a xs O F X A. destruct (ev_setof E n progs op nl O s f F a xs X A) as (ys & H & Y & L).
  destruct (ev_setof E n progs op nl O s f F _ ys Y L) as (zs & H2 & Z & L2).
  rewrite (firsts_unique _ _ _ (firsts_again _ _ _ H) _ H2) in L2. law (rlist op nl ys); [eapply val_R; eassumption|exact L2|exact L].
Qed.
Theorem C89_setof_included : forall E n progs op nl s f a xs, list_operator E n op nl -> ev85 E n progs s f op ->
  elements op xs -> Z.of_nat (length xs) < 2 ^ 32 -> ev85 E n progs s a (rlist op nl xs) ->
  ev85 E n progs s (Node K_EVAL_LIST_MINCLUDE [f; Node K_EVAL_LIST_SETOF [f; a]; a]) (boolean true).
Proof.
  intros E n progs op nl s f a xs O F X Hl A. destruct (ev_setof E n progs op nl O s f F a xs X A) as (ys & H & Y & L).
  eapply ev_minclude; [exact O|exact F|exact Y|exact X|exact Hl|eapply firsts_included; exact H|exact L|exact A].
Qed.
Theorem C89_diff_inter : forall E n progs op nl s f a b xs ys, list_operator E n op nl -> ev85 E n progs s f op ->
  elements op xs -> elements op ys -> Z.of_nat (length xs) < 2 ^ 32 -> Z.of_nat (length ys) < 2 ^ 32 ->
  ev85 E n progs s a (rlist op nl xs) -> ev85 E n progs s b (rlist op nl ys) ->
  ev85 E n progs s (Node K_EVAL_LIST_MEQ [f; a; Node K_EVAL_LIST_CONCAT [f; Node K_EVAL_LIST_DIFF [f; a; b]; Node K_EVAL_LIST_INTER [f; a; b]]]) (boolean true) /\
  ev85 E n progs s (Node K_EVAL_LIST_MINCLUDE [f; Node K_EVAL_LIST_INTER [f; a; b]; b]) (boolean true).
Proof.
  intros E n progs op nl s f a b xs ys O F X Y Hx Hy A B.
  destruct (ev_diff_inter E n progs op nl O s f F a b xs ys X Y Hy A B) as (d & i & P & I & D & J & L1 & L2). split.
  - eapply ev_meq; [exact O|exact F|exact X| |exact Hx|exact P|exact A|]; [el|]. eapply ev_concat; eassumption.
  - eapply ev_minclude; [exact O|exact F|exact J|exact Y|exact Hy|exact I|exact L2|exact B].
Qed.
Theorem C89_nth_find : forall E n progs op nl s f a e xs x, list_operator E n op nl -> ev85 E n progs s f op ->
  elements op xs -> Z.of_nat (length xs) < 2 ^ 32 -> In x xs -> ev85 E n progs s a (rlist op nl xs) -> ev85 E n progs s e x ->
  both85 E n progs s (Node K_EVAL_LIST_NTH [f; a; Node K_EVAL_LIST_FIND [f; a; e]]) e.
Proof.
  intros E n progs op nl s f a e xs x O F X Hl I A B.
  assert (V : value x) by (destruct X as [V _]; rewrite Forall_forall in V; auto).
  destruct (ev_find E n progs op nl O s f F a e xs x X V A B) as (i & [(u & w & -> & _ & ->)|[N _]] & L); [|contradiction].
  law x; [exact V| |exact B].
  eapply ev_nth; [exact O|exact F|exact X|exact Hl| | |exact A|exact L]; [apply Nat2Z.is_nonneg|].
  rewrite Nat2Z.id, nth_error_app2, Nat.sub_diag; [reflexivity|apply le_n].
Qed.
Theorem C89_erase_all_concat : forall E n progs op nl s f a b e xs ys x, list_operator E n op nl -> ev85 E n progs s f op ->
  elements op xs -> elements op ys -> value x ->
  ev85 E n progs s a (rlist op nl xs) -> ev85 E n progs s b (rlist op nl ys) -> ev85 E n progs s e x ->
  both85 E n progs s (Node K_EVAL_LIST_ERASE_ALL [f; Node K_EVAL_LIST_CONCAT [f; a; b]; e])
    (Node K_EVAL_LIST_CONCAT [f; Node K_EVAL_LIST_ERASE_ALL [f; a; e]; Node K_EVAL_LIST_ERASE_ALL [f; b; e]]).
Proof.
  intros E n progs op nl s f a b e xs ys x O F X Y V A B C.
  destruct (ev_erase_all E n progs op nl O s f F a e xs x X V A C) as (us & H1 & U & L1).
  destruct (ev_erase_all E n progs op nl O s f F b e ys x Y V B C) as (vs & H2 & W & L2).
  destruct (ev_erase_all E n progs op nl O s f F (Node K_EVAL_LIST_CONCAT [f; a; b]) e (xs ++ ys) x) as (zs & H3 & Z & L3); [el|exact V| |exact C|].
  { eapply ev_concat; eassumption. }
  rewrite (erased_all_unique _ _ _ (erased_all_app _ _ _ _ _ H1 H2) _ H3) in L3.
  law (rlist op nl (us ++ vs)); [eapply val_R; [exact O|el]|exact L3|]. eapply ev_concat; eassumption.
Qed.
Theorem C89_find_erased : forall E n progs op nl s f a e xs x, list_operator E n op nl -> ev85 E n progs s f op ->
  elements op xs -> value x -> ev85 E n progs s a (rlist op nl xs) -> ev85 E n progs s e x ->
  ev85 E n progs s (Node K_EVAL_LIST_FIND [f; Node K_EVAL_LIST_ERASE_ALL [f; a; e]; e]) (Lit (LNum (-1))).
Proof.
  intros E n progs op nl s f a e xs x O F X V A B.
  destruct (ev_erase_all E n progs op nl O s f F a e xs x X V A B) as (us & H1 & U & L1).
  destruct (ev_find E n progs op nl O s f F _ e us x U V L1 B) as (i & [(u & w & E1 & _)|[_ ->]] & L); [|exact L].
  exfalso. apply (erased_all_gone _ _ _ H1). rewrite E1. apply in_app_iff. right. left. reflexivity.
Qed.

(** The operator or of the signature read for C85, with the lists (or a b a) and (or b b). *)
Example C89_example : list_operator E85 60 or85 (boolean false) /\ elements or85 [a85; b85; a85] /\ elements or85 [b85; b85] /\
  ev85 E85 60 (progs85 s85) (fun _ => None) or85 or85 /\
  read85 s85 "(eo::list_rev or (eo::list_rev or (or a b a)))" = Some (rlist or85 (boolean false) [a85; b85; a85]) /\
  read85 s85 "(eo::list_rev or (eo::list_concat or (or a b a) (or b b)))" = Some (rlist or85 (boolean false) [b85; b85; a85; b85; a85]) /\
  read85 s85 "(eo::list_setof or (eo::list_setof or (or a b a)))" = Some (rlist or85 (boolean false) [a85; b85]) /\
  read85 s85 "(eo::list_meq or (or a b a) (eo::list_concat or (eo::list_diff or (or a b a) (or b b)) (eo::list_inter or (or a b a) (or b b))))" = Some (boolean true) /\
  read85 s85 "(eo::list_nth or (or a b a) (eo::list_find or (or a b a) b))" = Some b85 /\
  read85 s85 "(eo::list_find or (eo::list_erase_all or (or a b a) a) a)" = Some (Lit (LNum (-1))).
Proof.
  split.
  { split; [apply sym85|]. split; [exists 68; reflexivity|]. split; [apply val_lit|].
    split; [apply curriedb_ok; vm_compute; reflexivity|]. split; [intros x y H; discriminate|].
    intro l. destruct (e_info E85 or85) as [ai|] eqn:I.
    - assert (J : match e_info E85 or85 with Some ai => (ai_cons ai, ai_cterm ai) | None => (A_NONE, None) end = (A_RIGHT_ASSOC_NIL, Some (boolean false))) by (vm_compute; reflexivity).
      rewrite I in J. injection J as J1 J2.
      apply (list_op_plain E85 60 false or85 K_CONST 68 ai); [reflexivity|exact I|exact J1|exact J2|discriminate].
    - exfalso. assert (J : match e_info E85 or85 with Some _ => true | None => false end = true) by (vm_compute; reflexivity). rewrite I in J. discriminate. }
  split; [split; repeat (apply Forall_cons; [first [apply sym85|apply curriedb_ok; vm_compute; reflexivity]|]); apply Forall_nil|].
  split; [split; repeat (apply Forall_cons; [first [apply sym85|apply curriedb_ok; vm_compute; reflexivity]|]); apply Forall_nil|].
  split.
  { apply ev_const; [reflexivity|intros [j X]; discriminate X]. }
  repeat (split; [vm_compute; reflexivity|]). vm_compute. reflexivity.
Qed.
