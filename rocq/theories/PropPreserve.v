(** Property C83: evaluation keeps types. *)
From Coq Require Import ZArith List Bool Lia Arith.
From Verif Require Import Base Kind Ints Str Literal Arity Term Match Eval SpecTerm SpecEval TermProofs EvalProofs
  ListOps Typing SpecType TypeProofs PropType SpecPreserve PreserveProofs.
Import ListNotations.
Open Scope Z_scope.

(** C83.  Where the types of literals do not depend on the literal and the programs called are typed programs, a term that keeps
    types evaluates to a term that has every type of the term.

    Full statement: the same for all terms, without the conditions; it is false ([C83_refuted]).  Missing: operators on lists,
    eo::var, eo::typeof and the like, quoted arguments, programs with type parameters. *)
Theorem C83_preserved_partial : forall E progs (good : term -> Prop), fixed_literals E -> (forall hd, good hd -> typed_program E progs good hd) ->
  forall s t v T, suits E progs s -> keeps E progs good s t -> evaluates E progs s t v -> typed E progs t T -> typed E progs v T.
Proof. exact evaluates_keeps. Qed.
Print Assumptions C83_preserved_partial.

(** Example.  Int, List : Type; nil : List; cons : (-> Int List List); numerals are of type Int;
    (program len ((x Int) (l List)) :signature (List) Int (((len nil) 0) ((len (cons x l)) (eo::add 1 (len l)))))
    and (program bad ((x Int)) :signature (Int) Int (((bad x) nil))). *)
Definition y_int := zc 1.
Definition y_list := zc 2.
Definition y_nil := zc 3.
Definition y_cons (a b : term) := zapp (zapp (zc 4) a) b.
Definition y_x := Sym K_PARAM 1.
Definition y_l := Sym K_PARAM 2.
Definition y_len := Sym K_PROGRAM_CONST 9.
Definition y_bad := Sym K_PROGRAM_CONST 10.
Definition y_num (z : Z) := Lit (LNum z).
Definition y_symtype (t : term) : option term :=
  match t with
  | Sym K_CONST 1 | Sym K_CONST 2 => Some t_Type
  | Sym K_CONST 3 => Some y_list
  | Sym K_CONST 4 => Some (zfun y_int (zfun y_list y_list))
  | Sym K_PARAM 1 => Some y_int
  | Sym K_PARAM 2 => Some y_list
  | Sym K_PROGRAM_CONST 9 => Some (Node K_PROGRAM_TYPE [y_list; y_int])
  | Sym K_PROGRAM_CONST 10 => Some (Node K_PROGRAM_TYPE [y_int; y_int])
  | _ => None
  end.
Definition y_rhs := Node K_EVAL_ADD [y_num 1; zapp y_len y_l].
Definition y_len_cases : list pcase := [([y_nil], y_num 0); ([y_cons y_x y_l], y_rhs)].
Definition y_bad_cases : list pcase := [([y_x], y_nil)].
Definition y_progs (hd : term) : option (list pcase) :=
  match hd with Sym K_PROGRAM_CONST 9 => Some y_len_cases | Sym K_PROGRAM_CONST 10 => Some y_bad_cases | _ => None end.
Definition y_E : env :=
  mkEnv (fun t => option_map (fun cs => mkInfo A_PROGRAM (Some (program_term t cs)) K_NONE None) (y_progs t))
    (fun _ => 0) (fun _ _ => t_Any) (fun _ => []) y_symtype
    (fun k => match k with K_NUMERAL => Some y_int | _ => None end)
    z_self (zc 20) (zc 21) (zc 22) (zc 23).
Ltac ymatch H := repeat match type of H with context [match ?x with _ => _ end] => is_var x; destruct x; cbn in H end; try discriminate H.
Lemma y_wf : env_wf y_E.
Proof.
  constructor; try (now repeat constructor).
  - intros k i T _ H. cbn in H. unfold y_symtype in H. ymatch H; injection H as <-; repeat constructor.
  - intros t ai c H1 H2. cbn in H1. unfold y_progs in H1. ymatch H1; injection H1 as <-; cbn in H2; injection H2 as <-; repeat constructor.
  - intros t ai H1. cbn in H1. unfold y_progs in H1. ymatch H1; injection H1 as <-; reflexivity.
  - intros t ai ov H1 H2. cbn in H1. unfold y_progs in H1. ymatch H1; injection H1 as <-; discriminate H2.
  - intros k T H. cbn in H. destruct k; try discriminate H; injection H as <-; repeat constructor.
Qed.
Lemma y_programs : programs_of y_E y_progs.
Proof.
  split.
  - intros hd cases H. unfold y_progs in H. ymatch H; injection H as <-; repeat constructor.
  - intros hd. unfold getProgram. cbn. destruct (y_progs hd); reflexivity.
Qed.
Definition y_good (hd : term) : Prop := hd = y_len.
Lemma y_typed t T : twf t -> (exists n, tc_type (tc y_E n) t = Ok (Some T)) -> typed y_E y_progs t T.
Proof. intros W H. now apply (C63_exact _ _ y_wf y_programs). Qed.
Lemma y_simple T : twf T -> isGround T = true -> isEvaluatable T = false -> tkind T <> K_QUOTE_TYPE -> simple_type T.
Proof. intros W G V Q. split; [exact W|]. split; [now apply ground_closed|]. split; [now apply eval_inert|exact Q]. Qed.
Lemma y_fixed : fixed_literals y_E.
Proof. intros k tp H. cbn in H. destruct k; try discriminate H. injection H as <-. apply ground_closed; [repeat constructor|reflexivity]. Qed.
Lemma y_keeps_rhs s : keeps y_E y_progs y_good s y_rhs.
Proof.
  apply kp_op.
  - left. cbn. auto 10.
  - constructor; [apply kp_leaf; reflexivity|]. constructor; [|constructor]. apply kp_call; [reflexivity|]. constructor; [apply kp_leaf; reflexivity|constructor].
  - intros [X|X]; discriminate X.
Qed.
Lemma y_good_typed : forall hd, y_good hd -> typed_program y_E y_progs y_good hd.
Proof.
  intros hd ->. exists [y_list], y_int. split; [reflexivity|].
  assert (SI : simple_type y_int) by (apply y_simple; [repeat constructor|reflexivity|reflexivity|discriminate]).
  assert (SL : simple_type y_list) by (apply y_simple; [repeat constructor|reflexivity|reflexivity|discriminate]).
  assert (SF : simple_type (zfun y_list y_list)) by (apply y_simple; [repeat constructor|reflexivity|reflexivity|discriminate]).
  split; [constructor; [exact SL|constructor]|]. split; [exact SI|].
  intros cases H. injection H as <-. constructor; [|constructor; [|constructor]]; cbn [fst snd].
  - split; [|split].
    + constructor; [|constructor]. apply ar_shape. apply sh_const; [discriminate|reflexivity].
    + apply y_typed; [repeat constructor|]. exists 30%nat. vm_compute. reflexivity.
    + intros s _. apply kp_leaf. reflexivity.
  - split; [|split].
    + constructor; [|constructor]. apply ar_shape. apply (sh_apply y_E _ [y_l] [y_list] y_list); [|constructor; [apply ar_param; reflexivity|constructor]|constructor; [exact SL|constructor]|exact SL].
      apply (sh_apply y_E _ [y_x] [y_int]); [|constructor; [apply ar_param; reflexivity|constructor]|constructor; [exact SI|constructor]|exact SF].
      apply sh_const; [discriminate|reflexivity].
    + apply y_typed; [repeat constructor|]. exists 30%nat. vm_compute. reflexivity.
    + intros s _. apply y_keeps_rhs.
Qed.
Lemma y_evaluates t v : twf t -> (exists n, tc_eval (tc y_E n) t [] = Ok (Some v)) -> evaluates y_E y_progs (fun _ => None) t v.
Proof.
  intros W (n & H). refine (wok_eval y_E n t [] v (env_wf_ok _ y_wf) W _ H y_progs y_programs). intros p u X. discriminate X.
Qed.
Lemma z_evaluates t v : twf t -> (exists n, tc_eval (tc z_E n) t [] = Ok (Some v)) -> evaluates z_E z_progs (fun _ => None) t v.
Proof.
  intros W (n & H). refine (wok_eval z_E n t [] v (env_wf_ok _ z_wf) W _ H z_progs z_programs). intros p u X. discriminate X.
Qed.
Definition y_call := zapp y_len (y_cons (y_num 7) (y_cons (Node K_EVAL_ADD [y_num 1; y_num 1]) y_nil)).
Lemma y_keeps_call s : keeps y_E y_progs y_good s y_call.
Proof.
  assert (NQ : forall f A B, (forall fk hts ret, typed y_E y_progs f (Node fk (hts ++ [ret])) -> Node fk (hts ++ [ret]) = zfun A B) -> tkind A <> K_QUOTE_TYPE ->
    forall fk hts ret, typed y_E y_progs f (Node fk (hts ++ [ret])) -> Forall (fun h => tkind h <> K_QUOTE_TYPE) hts).
  { intros f A B U Q fk hts ret H. specialize (U _ _ _ H). injection U as _ U. change [A; B] with ([A] ++ [B]) in U. apply app_inj_tail in U.
    destruct U as [-> _]. constructor; [exact Q|constructor]. }
  assert (U : forall x T, twf x -> typed y_E y_progs (zapp (zc 4) x) T -> T = zfun y_list y_list).
  { intros x T W H. apply (C63_function y_E y_progs y_wf y_programs (zc 4) x y_int (zfun y_list y_list)) in H; try exact W; try discriminate.
    - exact (proj2 H).
    - repeat constructor.
    - apply y_typed; [repeat constructor|]. exists 30%nat. vm_compute. reflexivity.
    - apply ground_closed; [repeat constructor|reflexivity].
    - apply ground_closed; [repeat constructor|reflexivity].
    - apply eval_inert; [repeat constructor|reflexivity]. }
  assert (C : forall a b, twf a -> keeps y_E y_progs y_good s a -> keeps y_E y_progs y_good s b -> keeps y_E y_progs y_good s (y_cons a b)).
  { intros a b W KA KB. apply kp_apply.
    - apply hd_apply. apply hd_symbol; discriminate.
    - apply kp_apply.
      + apply hd_symbol; discriminate.
      + apply kp_leaf. reflexivity.
      + constructor; [exact KA|constructor].
      + apply (NQ _ y_int (zfun y_list y_list)); [|discriminate]. intros fk hts ret H. apply sym_type in H. cbn in H. injection H as H1 H2. now rewrite <- H1, <- H2.
    - constructor; [exact KB|constructor].
    - apply (NQ _ y_list y_list); [|discriminate]. intros fk hts ret H. exact (U _ _ W H). }
  apply kp_call; [reflexivity|]. constructor; [|constructor]. apply C; [repeat constructor|apply kp_leaf; reflexivity|].
  apply C; [repeat constructor| |apply kp_leaf; reflexivity]. apply kp_op.
  - left. cbn. auto 10.
  - repeat constructor.
  - intros [X|X]; discriminate X.
Qed.
(** (len (cons 7 (cons (eo::add 1 1) nil))) is of type Int and evaluates to 2. *)
Example C83_example :
  fixed_literals y_E /\ (forall hd, y_good hd -> typed_program y_E y_progs y_good hd) /\ suits y_E y_progs (fun _ => None) /\
  keeps y_E y_progs y_good (fun _ => None) y_call /\ evaluates y_E y_progs (fun _ => None) y_call (y_num 2) /\
  typed y_E y_progs y_call y_int.
Proof.
  split; [exact y_fixed|]. split; [exact y_good_typed|]. split; [intros i v H; discriminate H|]. split; [apply y_keeps_call|]. split.
  - apply y_evaluates; [repeat constructor|]. exists 150%nat. vm_compute. reflexivity.
  - apply y_typed; [repeat constructor|]. exists 30%nat. vm_compute. reflexivity.
Qed.

(** Evaluation does not keep types in general:
    - the type of a binary literal may depend on its width: (eo::concat #b0 #b1) has the type of #b0;
    - (eo::zdiv #b110 #b010) has the type of numerals and evaluates to a binary literal;
    - (eo::ite false a x) has the type of a and evaluates to x;
    - nothing compares the type of a right-hand side with the declared result type of the program (the argument
      checkPreservation of ExprParser::typeCheckProgramPair is not used): (bad 7) has type Int and evaluates to nil. *)
Theorem C83_refuted :
  (exists E progs t v T, env_wf E /\ programs_of E progs /\ twf t /\ tkind t = K_EVAL_CONCAT /\
     typed E progs t T /\ evaluates E progs (fun _ => None) t v /\ ~ typed E progs v T) /\
  (exists E progs t v T, env_wf E /\ programs_of E progs /\ twf t /\ tkind t = K_EVAL_INT_DIV /\
     typed E progs t T /\ evaluates E progs (fun _ => None) t v /\ ~ typed E progs v T) /\
  (exists E progs t v T, env_wf E /\ programs_of E progs /\ twf t /\ tkind t = K_EVAL_IF_THEN_ELSE /\
     typed E progs t T /\ evaluates E progs (fun _ => None) t v /\ ~ typed E progs v T) /\
  (exists E progs t v T hd ps rhs, env_wf E /\ programs_of E progs /\ fixed_literals E /\ twf t /\
     progs hd = Some [(ps, rhs)] /\ typeCheckProgramPair (e_self E) (Node K_APPLY (hd :: ps)) rhs = Ok tt /\
     t = Node K_APPLY [hd; y_num 7] /\
     typed E progs t T /\ evaluates E progs (fun _ => None) t v /\ ~ typed E progs v T).
Proof.
  assert (Z : forall v T T', twf v -> (exists n, tc_type (tc z_E n) v = Ok (Some T')) -> T' <> T -> ~ typed z_E z_progs v T).
  { intros v T T' W H N X. apply N. eapply (C63_unique _ _ z_wf z_programs v); [exact W|now apply (C63_exact _ _ z_wf z_programs)|exact X]. }
  split; [|split; [|split]].
  - exists z_E, z_progs, (Node K_EVAL_CONCAT [Lit (LBin (mkBV 1 0)); Lit (LBin (mkBV 1 1))]), (Lit (LBin (mkBV 2 1))), (z_bv (Lit (LNum 1))).
    split; [exact z_wf|]. split; [exact z_programs|]. split; [repeat constructor|]. split; [reflexivity|]. split; [|split].
    + apply (C63_exact _ _ z_wf z_programs); [repeat constructor|]. exists 30%nat. vm_compute. reflexivity.
    + apply z_evaluates; [repeat constructor|]. exists 30%nat. vm_compute. reflexivity.
    + apply (Z _ _ (z_bv (Lit (LNum 2)))); [repeat constructor|exists 30%nat; vm_compute; reflexivity|discriminate].
  - exists z_E, z_progs, (Node K_EVAL_INT_DIV [Lit (LBin (mkBV 3 6)); Lit (LBin (mkBV 3 2))]), (Lit (LBin (mkBV 3 3))), z_int.
    split; [exact z_wf|]. split; [exact z_programs|]. split; [repeat constructor|]. split; [reflexivity|]. split; [|split].
    + apply (C63_exact _ _ z_wf z_programs); [repeat constructor|]. exists 30%nat. vm_compute. reflexivity.
    + apply z_evaluates; [repeat constructor|]. exists 30%nat. vm_compute. reflexivity.
    + apply (Z _ _ (z_bv (Lit (LNum 3)))); [repeat constructor|exists 30%nat; vm_compute; reflexivity|discriminate].
  - exists z_E, z_progs, (Node K_EVAL_IF_THEN_ELSE [Lit (LBool false); zc 3; zc 4]), (zc 4), z_int.
    split; [exact z_wf|]. split; [exact z_programs|]. split; [repeat constructor|]. split; [reflexivity|]. split; [|split].
    + apply (C63_exact _ _ z_wf z_programs); [repeat constructor|]. exists 30%nat. vm_compute. reflexivity.
    + apply z_evaluates; [repeat constructor|]. exists 30%nat. vm_compute. reflexivity.
    + apply (Z _ _ (z_bv (Lit (LNum 3)))); [repeat constructor|exists 30%nat; vm_compute; reflexivity|discriminate].
  - exists y_E, y_progs, (zapp y_bad (y_num 7)), y_nil, y_int, y_bad, [y_x], y_nil.
    split; [exact y_wf|]. split; [exact y_programs|]. split; [exact y_fixed|]. split; [repeat constructor|]. split; [reflexivity|]. split; [vm_compute; reflexivity|].
    split; [reflexivity|]. split; [|split].
    + apply y_typed; [repeat constructor|]. exists 30%nat. vm_compute. reflexivity.
    + apply y_evaluates; [repeat constructor|]. exists 30%nat. vm_compute. reflexivity.
    + intros H. apply sym_type in H. discriminate H.
Qed.
Print Assumptions C83_refuted.
