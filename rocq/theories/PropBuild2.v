(** Properties C59 to C62: applications of lambdas, opaque symbols, programs and
    rules, and operators with any number of arguments. *)
From Coq Require Import ZArith List Bool Lia Arith.
From Verif Require Import Base Kind Ints Str Literal Arity Term Match Eval SpecTerm SpecEval TermProofs EvalProofs
  ListOps SpecList Typing Build SpecBuild SpecLit BuildProofs BuildProofs2 SpecType TypeProofs BuildProofs3.
Import ListNotations.
Open Scope Z_scope.

(** The environment of the examples: 1 and 2 are constants; 3 is opaque in its
    first two arguments; the program 1 swaps 1 and 2 and maps (4 x) to (4 (p x))
    - its calls inside its right hand sides are evaluated; the program 2 has a
    type but no definition; 1 is a proof rule. *)
Definition yc (z : Z) := Sym K_CONST z.
Definition yx := Sym K_PARAM 1.
Definition yy := Sym K_PARAM 2.
Definition yp := Sym K_PROGRAM_CONST 1.
Definition yapp (f : term) (ts : list term) := fold_left (fun g x => Node K_APPLY [g; x]) ts f.
Definition y_cases : list pcase :=
  [([yc 1], yc 2); ([yc 2], yc 1); ([yapp (yc 4) [yx]], yapp (yc 4) [Node K_APPLY [yp; yx]])].
Definition y_info (t : term) : option appinfo :=
  match t with
  | Sym K_CONST 3 => Some (mkInfo A_OPAQUE (Some (Lit (LNum 2))) K_NONE None)
  | Sym K_PROGRAM_CONST 1 => Some (mkInfo A_PROGRAM (Some (program_term yp y_cases)) K_NONE None)
  | Sym K_PROGRAM_CONST 2 => Some (mkInfo A_PROGRAM None K_NONE None)
  | Sym K_PROOF_RULE 1 => Some (mkInfo A_PROOF_RULE (Some (Node K_TUPLE [t_Any; t_Any])) K_NONE None)
  | _ => None
  end.
Definition y_symtype (t : term) : option term :=
  match t with
  | Sym K_PROGRAM_CONST _ => Some (Node K_PROGRAM_TYPE [t_Bool; t_Bool])
  | Sym _ _ => Some t_Bool
  | _ => None
  end.
Definition y_E : env :=
  mkEnv y_info (fun _ => 0) (fun _ _ => t_Any) (fun _ => []) y_symtype (fun _ => None)
    (Sym K_PARAM 6) (Sym K_CONST 7) (Sym K_CONST 8) (Sym K_CONST 9) (Sym K_CONST 10).
Definition y_progs (hd : term) : option (list pcase) := if term_eqb hd yp then Some y_cases else None.
Lemma y_prog : forall hd, getProgram y_E hd = option_map (program_term hd) (y_progs hd).
Proof.
  intros hd. unfold y_progs. destruct (term_eqb hd yp) eqn:E.
  - apply term_eqb_eq in E. subst hd. reflexivity.
  - unfold getProgram. cbn [e_info y_E]. destruct hd as [k z|l|k cs]; [|reflexivity|reflexivity].
    unfold y_info. destruct k; try reflexivity; destruct z as [|[p|p|]|]; try reflexivity;
      try (destruct p; reflexivity). vm_compute in E. discriminate E.
Qed.
Ltac occurs_tac := intros u Hu;
  repeat (apply occurs_inv in Hu; destruct Hu as [-> | (? & H' & Hu)];
          [|cbn in H'; repeat (destruct H' as [<-|H']); try destruct H']).
Lemma y_progs_wf : progs_wf y_progs.
Proof.
  intros hd cases H. unfold y_progs in H. destruct (term_eqb hd yp); [|discriminate H]. injection H as <-.
  unfold y_cases, yapp, yp, yc, yx. cbn [fold_left].
  repeat constructor.
Qed.
Lemma y_wf : env_wf y_E.
Proof.
  assert (I : forall t ai, e_info y_E t = Some ai -> ai = mkInfo A_OPAQUE (Some (Lit (LNum 2))) K_NONE None \/
    ai = mkInfo A_PROGRAM (Some (program_term yp y_cases)) K_NONE None \/ ai = mkInfo A_PROGRAM None K_NONE None \/
    ai = mkInfo A_PROOF_RULE (Some (Node K_TUPLE [t_Any; t_Any])) K_NONE None).
  { intros t ai H. destruct t as [k z|l|k cs]; [|discriminate H|discriminate H]. cbn in H.
    destruct k; try discriminate H; destruct z as [|[[q|q|]|[q|q|]|]|]; try discriminate H; injection H as <-; auto. }
  constructor; try (now repeat constructor).
  - intros k i T _ H. cbn in H. destruct k; injection H as <-; repeat constructor.
  - intros t ai c H C. destruct (I t ai H) as [-> |[-> |[-> | ->]]]; try discriminate C;
      injection C as <-; unfold program_term, y_cases, yapp, yp, yc, yx; repeat constructor.
  - intros t ai H. destruct (I t ai H) as [-> |[-> |[-> | ->]]]; reflexivity.
  - intros t ai ov H N. destruct (I t ai H) as [-> |[-> |[-> | ->]]]; discriminate N.
Qed.
Lemma y_programs : programs_of y_E y_progs.
Proof. split; [exact y_progs_wf|exact y_prog]. Qed.

(** C59.  [binds vs ts s]: s gives the i-th variable the i-th argument.  The
    value of the body is taken with the meaning of evaluation of C20
    ([evaluates]: with any number of nested calls).  A result [Ok r] does not
    change with a larger bound n (MonoProofs.v). *)
Theorem C59_value : forall E progs, env_wf E -> programs_of E progs ->
  forall m vs body ts r, e_info E (Node K_LAMBDA [Node K_TUPLE vs; body]) = None ->
  length vs = length ts -> twf body -> Forall twf ts ->
  ((exists n, mkExpr E n (S m) K_APPLY (Node K_LAMBDA [Node K_TUPLE vs; body] :: ts) = Ok r) <->
   exists s, binds vs ts s /\ evaluates E progs s body r).
Proof. exact lambda_exact. Qed.
Print Assumptions C59_value.

(** If there is nothing to compute in the body, the result is the body with the
    arguments put in for the variables, all at once. *)
Theorem C59_substitution : forall E progs, env_wf E -> programs_of E progs ->
  forall vs body ts s, e_info E (Node K_LAMBDA [Node K_TUPLE vs; body]) = None ->
  length vs = length ts -> twf body -> Forall twf ts -> inert body ->
  (forall i, ~ In (Sym K_PROGRAM_CONST i) ts) -> binds vs ts s ->
  exists n0, forall n m, (n0 <= n)%nat ->
    mkExpr E n (S m) K_APPLY (Node K_LAMBDA [Node K_TUPLE vs; body] :: ts) = Ok (tsubst s body).
Proof. exact lambda_subst_exact. Qed.
Print Assumptions C59_substitution.

(** With another number of arguments nothing is substituted. *)
Theorem C59_other_arity : forall E n m vs body ts r, e_info E (Node K_LAMBDA [Node K_TUPLE vs; body]) = None ->
  ts <> [] -> length vs <> length ts -> one_by_one K_APPLY (Node K_LAMBDA [Node K_TUPLE vs; body]) ts r ->
  mkExpr E n (S m) K_APPLY (Node K_LAMBDA [Node K_TUPLE vs; body] :: ts) = Ok r.
Proof. exact mkExpr_lambda_short. Qed.
Print Assumptions C59_other_arity.

Example C59_example :
  let lam := Node K_LAMBDA [Node K_TUPLE [yx; yy]; yapp (yc 5) [yy; yx]] in
  let twice := Node K_LAMBDA [Node K_TUPLE [yx; yx]; yx] in
  env_wf y_E /\ programs_of y_E y_progs /\
  e_info y_E lam = None /\ inert (yapp (yc 5) [yy; yx]) /\
  mkExpr y_E 30 3 K_APPLY [lam; yc 1; yc 2] = Ok (yapp (yc 5) [yc 2; yc 1]) /\
  mkExpr y_E 30 3 K_APPLY [lam; yy; yx] = Ok (yapp (yc 5) [yx; yy]) /\
  mkExpr y_E 30 3 K_APPLY [twice; yc 1; yc 2] = Ok (yc 2) /\
  binds [yx; yx] [yc 1; yc 2] (fun v => if term_eqb v yx then Some (yc 2) else None) /\
  mkExpr y_E 30 3 K_APPLY [Node K_LAMBDA [Node K_TUPLE [yx]; Node K_EVAL_ADD [yx; Lit (LNum 1)]]; Lit (LNum 2)] = Ok (Lit (LNum 3)) /\
  mkExpr y_E 30 3 K_APPLY [Node K_LAMBDA [Node K_TUPLE [yx]; Node K_APPLY [yp; yx]]; yapp (yc 4) [yc 1]] = Ok (yapp (yc 4) [yc 2]) /\
  mkExpr y_E 30 3 K_APPLY [lam; yc 1] = Ok (Node K_APPLY [lam; yc 1]) /\
  mkExpr y_E 30 3 K_APPLY [lam; yc 1; yc 2; yc 5] = Ok (yapp lam [yc 1; yc 2; yc 5]).
Proof.
  cbn zeta. split; [exact y_wf|]. split; [exact y_programs|]. split; [reflexivity|].
  split. { unfold yapp, yy, yx, yc. cbn [fold_left]. occurs_tac; intros [(i & X)|[X|(k & cs & X & _ & Y)]]; try discriminate X; injection X as <- _; discriminate Y. }
  repeat split; try (vm_compute; reflexivity).
  intros v. destruct (term_eqb v yx) eqn:E.
  - apply term_eqb_eq in E. subst v. exists 1%nat. repeat split. intros [|[|[|j]]] J; try lia; discriminate.
  - cbn. intros [X|[X|[]]]; subst v; rewrite term_eqb_refl in E; discriminate E.
Qed.

(** C60.  An operator with any number of arguments is applied from the left to
    the right. *)
Theorem C60_left : forall E n m k cs c, isNaryLiteralOp k = true -> (2 <= length cs)%nat ->
  mkExpr E n (S (S m)) k (cs ++ [c]) =
  let* a := mkExpr E n (S (S m)) k cs in mkExpr E n (S (S m)) k [a; c].
Proof. exact nary_snoc. Qed.
Print Assumptions C60_left.

(** The operators that take any number of arguments. *)
Theorem C60_operators : forall k,
  isNaryLiteralOp k = true <->
  In k [K_EVAL_AND; K_EVAL_OR; K_EVAL_XOR; K_EVAL_ADD; K_EVAL_MUL; K_EVAL_CONCAT].
Proof. intros k. split; [destruct k; try discriminate; cbn; tauto|]. cbn. intros H. decompose [or] H; subst; try reflexivity; contradiction. Qed.
Print Assumptions C60_operators.

(** On values of one category: sums, products, conjunctions, disjunctions, parity,
    concatenation. *)
Definition numeral (z : Z) := Lit (LNum z).
Definition boolean (b : bool) := Lit (LBool b).
Theorem C60_values : forall E n m,
  (forall a b l, mkExpr E (S n) (S (S m)) K_EVAL_ADD (map numeral (a :: b :: l)) = Ok (numeral (a + b + fold_right Z.add 0 l))) /\
  (forall a b l, mkExpr E (S n) (S (S m)) K_EVAL_MUL (map numeral (a :: b :: l)) = Ok (numeral (a * b * fold_right Z.mul 1 l))) /\
  (forall a b l, mkExpr E (S n) (S (S m)) K_EVAL_AND (map boolean (a :: b :: l)) = Ok (boolean (forallb (fun x => x) (a :: b :: l)))) /\
  (forall a b l, mkExpr E (S n) (S (S m)) K_EVAL_OR (map boolean (a :: b :: l)) = Ok (boolean (existsb (fun x => x) (a :: b :: l)))) /\
  (forall a b l, mkExpr E (S n) (S (S m)) K_EVAL_XOR (map boolean (a :: b :: l)) =
     Ok (boolean (Nat.odd (length (filter (fun x => x) (a :: b :: l)))))) /\
  (forall a b l, mkExpr E (S n) (S (S m)) K_EVAL_CONCAT (map (fun s => Lit (LStr s)) (a :: b :: l)) = Ok (Lit (LStr (concat (a :: b :: l))))).
Proof.
  intros E n m. repeat split; intros a b l.
  - rewrite (nary_fold Z numeral Z.add) by reflexivity. do 2 f_equal. cbn [fold_left].
    generalize (a + b). induction l as [|c l IH]; intros x; cbn; [lia|]. rewrite IH. lia.
  - rewrite (nary_fold Z numeral Z.mul) by reflexivity. do 2 f_equal. cbn [fold_left].
    generalize (a * b). induction l as [|c l IH]; intros x; cbn; [lia|]. rewrite IH. lia.
  - rewrite (nary_fold bool boolean andb) by reflexivity. do 2 f_equal. cbn [fold_left forallb]. rewrite andb_assoc.
    generalize (a && b)%bool. induction l as [|c l IH]; intros x; cbn; [now rewrite andb_true_r|]. rewrite IH. now rewrite andb_assoc.
  - rewrite (nary_fold bool boolean orb) by reflexivity. do 2 f_equal. cbn [fold_left existsb]. rewrite orb_assoc.
    generalize (a || b)%bool. induction l as [|c l IH]; intros x; cbn; [now rewrite orb_false_r|]. rewrite IH. now rewrite orb_assoc.
  - rewrite (nary_fold bool boolean xorb) by (reflexivity || (intros [] []; reflexivity)). do 2 f_equal.
    assert (X : forall l x, fold_left xorb l x = xorb x (Nat.odd (length (filter (fun x => x) l)))).
    { clear. induction l as [|c l IH]; intros x; [cbn; now rewrite xorb_false_r|]. cbn [fold_left filter]. rewrite IH.
      destruct c; cbn [length]; [rewrite Nat.odd_succ, <- Nat.negb_odd|]; destruct x, (Nat.odd (length (filter (fun x => x) l))); reflexivity. }
    rewrite X. change (filter (fun x => x) (a :: b :: l)) with (if a then a :: filter (fun x => x) (b :: l) else filter (fun x => x) (b :: l)).
    destruct a; [cbn [length]; rewrite Nat.odd_succ, <- Nat.negb_odd|]; destruct (Nat.odd (length (filter (fun x => x) (b :: l)))); reflexivity.
  - rewrite (nary_fold str (fun s => Lit (LStr s)) (@app Z)) by reflexivity. do 2 f_equal. cbn [fold_left concat]. f_equal. rewrite app_assoc.
    generalize (a ++ b). induction l as [|c l IH]; intros x; cbn; [now rewrite app_nil_r|]. rewrite IH. now rewrite app_assoc.
Qed.
Print Assumptions C60_values.

Example C60_example :
  mkExpr y_E 30 3 K_EVAL_ADD (map numeral [1; 2; 3; -10]) = Ok (numeral (-4)) /\
  mkExpr y_E 30 3 K_EVAL_CONCAT [Lit (LStr [97]); Lit (LStr [98]); Lit (LStr [99])] = Ok (Lit (LStr [97; 98; 99])) /\
  mkExpr y_E 30 3 K_EVAL_ADD [numeral 1; numeral 2; yx; numeral 3] =
    Ok (Node K_EVAL_ADD [Node K_EVAL_ADD [numeral 3; yx]; numeral 3]).
Proof. repeat split; vm_compute; reflexivity. Qed.

(** C61.  [f] is declared with k opaque arguments. *)
Theorem C61_opaque : forall E n m f ai k ts us g r, declared E f A_OPAQUE ai -> ai_cterm ai = Some (Lit (LNum k)) ->
  0 <= k < 2 ^ 32 -> Z.of_nat (length ts) = k -> one_by_one K_APPLY_OPAQUE f ts g -> one_by_one K_APPLY g us r ->
  mkExpr E n (S m) K_APPLY (f :: ts ++ us) = Ok r.
Proof. exact opaque_some. Qed.
Print Assumptions C61_opaque.

Theorem C61_fewer : forall E n m i k0 ai k ts r, declared E (Sym k0 i) A_OPAQUE ai -> ai_cterm ai = Some (Lit (LNum k)) ->
  0 <= k < 2 ^ 32 -> Z.of_nat (length ts) < k -> ts <> [] -> k0 <> K_PROGRAM_CONST -> k0 <> K_PROOF_RULE ->
  one_by_one K_APPLY (Sym k0 i) ts r ->
  mkExpr E n (S m) K_APPLY (Sym k0 i :: ts) = Ok r.
Proof. exact opaque_few. Qed.
Print Assumptions C61_fewer.

Example C61_example :
  let op := Node K_APPLY_OPAQUE [Node K_APPLY_OPAQUE [yc 3; yc 1]; yc 2] in
  (exists ai, declared y_E (yc 3) A_OPAQUE ai /\ ai_cterm ai = Some (Lit (LNum 2))) /\
  one_by_one K_APPLY_OPAQUE (yc 3) [yc 1; yc 2] op /\
  mkExpr y_E 30 3 K_APPLY [yc 3; yc 1; yc 2] = Ok op /\
  mkExpr y_E 30 3 K_APPLY [yc 3; yc 1; yc 2; yc 5; yc 6] = Ok (yapp op [yc 5; yc 6]) /\
  mkExpr y_E 30 3 K_APPLY [yc 3; yc 1] = Ok (Node K_APPLY [yc 3; yc 1]).
Proof.
  cbn zeta. split. { eexists. repeat split. } split. { exact (cu_snoc _ _ [yc 1] (yc 2) _ (cu_snoc _ _ [] (yc 1) _ (cu_nil _ _))). }
  repeat split; vm_compute; reflexivity.
Qed.

(** C62.  A program applied to as many arguments as its type says is called at
    once; otherwise, and if it is stuck, the application stays as it is, with all
    arguments at one node. *)
Theorem C62_program : forall E progs, env_wf E -> programs_of E progs ->
  forall m i ai ts pt r, declared E (Sym K_PROGRAM_CONST i) A_PROGRAM ai ->
  Forall twf ts -> e_symtype E (Sym K_PROGRAM_CONST i) = Some (Node K_PROGRAM_TYPE pt) -> length pt = S (length ts) ->
  ((exists n, mkExpr E n (S m) K_APPLY (Sym K_PROGRAM_CONST i :: ts) = Ok r) <->
   (calls progs (Sym K_PROGRAM_CONST i) ts None /\ r = Node K_APPLY (Sym K_PROGRAM_CONST i :: ts)) \/
   exists body s, calls progs (Sym K_PROGRAM_CONST i) ts (Some (body, s)) /\ evaluates E progs s body r).
Proof. exact program_exact. Qed.
Print Assumptions C62_program.

Theorem C62_program_arity : forall E progs, programs_of E progs ->
  forall n m i ai ts pt, declared E (Sym K_PROGRAM_CONST i) A_PROGRAM ai ->
  e_symtype E (Sym K_PROGRAM_CONST i) = Some (Node K_PROGRAM_TYPE pt) -> length pt <> S (length ts) ->
  mkExpr E (S n) (S m) K_APPLY (Sym K_PROGRAM_CONST i :: ts) = Ok (Node K_APPLY (Sym K_PROGRAM_CONST i :: ts)).
Proof. exact program_arity. Qed.
Print Assumptions C62_program_arity.

(** A rule applied to arguments keeps them at one node. *)
Theorem C62_rule : forall E n m i ai ts, declared E (Sym K_PROOF_RULE i) A_PROOF_RULE ai ->
  (forall p, ai_cterm ai = Some p -> tkind p <> K_PARAMETERIZED) ->
  mkExpr E n (S m) K_APPLY (Sym K_PROOF_RULE i :: ts) = Ok (Node K_APPLY (Sym K_PROOF_RULE i :: ts)).
Proof. exact mkExpr_rule. Qed.
Print Assumptions C62_rule.

Example C62_example :
  env_wf y_E /\ programs_of y_E y_progs /\
  (exists ai, declared y_E yp A_PROGRAM ai) /\ (exists ai, declared y_E (Sym K_PROOF_RULE 1) A_PROOF_RULE ai) /\
  e_symtype y_E yp = Some (Node K_PROGRAM_TYPE [t_Bool; t_Bool]) /\
  mkExpr y_E 30 3 K_APPLY [yp; yapp (yc 4) [yapp (yc 4) [yc 1]]] = Ok (yapp (yc 4) [yapp (yc 4) [yc 2]]) /\
  mkExpr y_E 30 3 K_APPLY [yp; yc 5] = Ok (Node K_APPLY [yp; yc 5]) /\
  mkExpr y_E 30 3 K_APPLY [yp; yx] = Ok (Node K_APPLY [yp; yx]) /\
  mkExpr y_E 30 3 K_APPLY [yp; yc 1; yc 1] = Ok (Node K_APPLY [yp; yc 1; yc 1]) /\
  mkExpr y_E 30 3 K_APPLY [Sym K_PROGRAM_CONST 2; yc 1] = Ok (Node K_APPLY [Sym K_PROGRAM_CONST 2; yc 1]) /\
  mkExpr y_E 30 3 K_APPLY [Sym K_PROOF_RULE 1; yc 1; yc 2] = Ok (Node K_APPLY [Sym K_PROOF_RULE 1; yc 1; yc 2]).
Proof.
  split; [exact y_wf|]. split; [exact y_programs|].
  split. { eexists. repeat split. } split. { eexists. repeat split. }
  repeat split; vm_compute; reflexivity.
Qed.
