(** Applications of lambdas and programs, exactly: with a large enough bound the
    result is the one of SpecBuild.v, and no other result is possible. *)
From Coq Require Import ZArith List Bool Lia Arith.
From Verif Require Import Base Kind Ints Str Literal Arity Term Match Eval SpecTerm SpecEval TermProofs EvalProofs EvalProofs3 EvalProofs4
  ListOps Typing Build SpecBuild BuildProofs BuildProofs2 MonoProofs SpecType TypeProofs.
Import ListNotations.

Section Exact.
Variable E : env.
Variable progs : term -> option (list pcase).
Hypothesis EW : env_wf E.
Hypothesis PR : programs_of E progs.

Let HL : forall n, lop_wf (tc_lop (tc E n)).
Proof. intro n. apply wok_lop, env_wf_ok, EW. Qed.
Let OK := env_wf_ok E EW.

Lemma eval_later : forall n m t c r, (n <= m)%nat -> tc_eval (tc E n) t c = Ok r -> tc_eval (tc E m) t c = Ok r.
Proof. intros n m t c r L. apply le_ok. now apply tc_mono. Qed.

Theorem lambda_exact : forall m vs body ts r, e_info E (Node K_LAMBDA [Node K_TUPLE vs; body]) = None ->
  length vs = length ts -> twf body -> Forall twf ts ->
  ((exists n, mkExpr E n (S m) K_APPLY (Node K_LAMBDA [Node K_TUPLE vs; body] :: ts) = Ok r) <->
   exists s, binds vs ts s /\ evaluates E progs s body r).
Proof.
  intros m vs body ts r H L W F. split.
  - intros ([|n] & X); [rewrite (mkExpr_lambda _ _ _ _ _ _ H L) in X; discriminate X|].
    destruct (lambda_value E progs HL (proj1 PR) (proj2 PR) n m vs body ts r H L W F X) as (s & B & V). exists s. split; [exact B|]. now exists n.
  - intros (s & B & V). pose proof (combine_binds vs ts L) as B'.
    destruct (eval_complete E progs (rev (List.combine vs ts)) body r OK PR W (binds_wf _ _ _ B' F)) as (n & X).
    { eapply evaluates_ext; [|exact V]. intro p. exact (binds_unique _ _ _ _ B B' p). }
    exists n. rewrite (mkExpr_lambda _ _ _ _ _ _ H L), X. reflexivity.
Qed.
Theorem lambda_subst_exact : forall vs body ts s, e_info E (Node K_LAMBDA [Node K_TUPLE vs; body]) = None ->
  length vs = length ts -> twf body -> Forall twf ts -> inert body ->
  (forall i, ~ In (Sym K_PROGRAM_CONST i) ts) -> binds vs ts s ->
  exists n0, forall n m, (n0 <= n)%nat ->
    mkExpr E n (S m) K_APPLY (Node K_LAMBDA [Node K_TUPLE vs; body] :: ts) = Ok (tsubst s body).
Proof.
  intros vs body ts s H L W F I N B.
  destruct (proj2 (lambda_exact O vs body ts (tsubst s body) H L W F)) as (n & X).
  - exists s. split; [exact B|]. exists O. apply ev_subst; [exact W|exact I|]. intros p i Ep. pose proof (B p) as Bp. rewrite Ep in Bp. destruct Bp as (j & _ & Y & _).
    exact (N i (nth_error_In _ _ Y)).
  - exists n. intros n' m L'. rewrite (mkExpr_lambda E n O vs body ts H L) in X. rewrite (mkExpr_lambda E n' m vs body ts H L). revert X. apply le_ok. apply le_bind; [now apply tc_mono|]. intro. apply le_refl.
Qed.

Theorem program_exact : forall m i ai ts pt r, declared E (Sym K_PROGRAM_CONST i) A_PROGRAM ai ->
  Forall twf ts -> e_symtype E (Sym K_PROGRAM_CONST i) = Some (Node K_PROGRAM_TYPE pt) -> length pt = S (length ts) ->
  ((exists n, mkExpr E n (S m) K_APPLY (Sym K_PROGRAM_CONST i :: ts) = Ok r) <->
   (calls progs (Sym K_PROGRAM_CONST i) ts None /\ r = Node K_APPLY (Sym K_PROGRAM_CONST i :: ts)) \/
   exists body s, calls progs (Sym K_PROGRAM_CONST i) ts (Some (body, s)) /\ evaluates E progs s body r).
Proof.
  intros m i ai ts pt r D W T L. destruct PR as [HP HG].
  assert (T' : forall n, tc_type (tc E (S n)) (Sym K_PROGRAM_CONST i) = Ok (Some (Node K_PROGRAM_TYPE pt))) by (intro n; cbn; now rewrite T).
  split.
  - intros (n & X). assert (X' : mkExpr E (S n) (S m) K_APPLY (Sym K_PROGRAM_CONST i :: ts) = Ok r).
    { revert X. apply le_ok. apply mkExpr_mono; lia. }
    destruct (program_value E progs HL HP HG n m i ai ts pt r D W (T' n) X') as [A _]. destruct (A L) as [Y|(body & s & C & V)]; [left; exact Y|].
    right. exists body, s. split; [exact C|]. now exists n.
  - intros R.
    assert (NP : forall p, ai_cterm ai = Some p -> tkind p <> K_PARAMETERIZED).
    { intros p Ep. destruct D as (D1 & D2 & _). specialize (HG (Sym K_PROGRAM_CONST i)). unfold getProgram in HG. rewrite D1, D2, Ep in HG.
      destruct (progs _); [|discriminate HG]. injection HG as ->. discriminate. }
    assert (X : forall n, mkExpr E (S n) (S m) K_APPLY (Sym K_PROGRAM_CONST i :: ts) =
       let* r := evaluateProgramInternal (getProgram E) (Sym K_PROGRAM_CONST i :: ts) in
           match r with
           | Some (body, c) => let* v := tc_eval (tc E (S n)) body c in Ok (or_null v)
           | None => Ok (Node K_APPLY (Sym K_PROGRAM_CONST i :: ts))
           end).
    { intros n. rewrite (mkExpr_program _ _ _ _ _ _ D NP), program_plain. unfold getConstructorKind. destruct D as (D1 & D2 & _).
      rewrite D1, D2, T'. cbn [bind or_null tchildren]. rewrite L, Nat.eqb_refl. reflexivity. }
    destruct (calls_exec progs (getProgram E) HP HG (Sym K_PROGRAM_CONST i) ts ltac:(eexists; reflexivity) W) as (x & EX & C).
    assert (IP : is_program (Sym K_PROGRAM_CONST i)) by (eexists; reflexivity).
    destruct x as [[body c]|].
    + destruct R as [[C' _]|(body' & s & C' & V)].
      { exfalso. pose proof (calls_det _ _ _ _ _ C C') as Y. exact Y. }
      pose proof (calls_det _ _ _ _ _ C C') as [Y1 Y2]. subst body'.
      destruct (calls_wf progs HP _ ts body (ctx_find c) W C) as [Wb Wc].
      destruct (eval_complete E progs c body r OK PR Wb Wc) as (n & Z).
      { eapply evaluates_ext; [|exact V]. intro p. symmetry. apply Y2. }
      exists (S n). rewrite X, EX. cbn [bind]. rewrite (eval_later n (S n) _ _ _ ltac:(lia) Z). reflexivity.
    + destruct R as [[_ ->]|(body' & s & C' & V)].
      { exists 1%nat. rewrite X, EX. reflexivity. }
      exfalso. pose proof (calls_det _ _ _ _ _ C C') as Y. exact Y.
Qed.
Theorem program_arity : forall n m i ai ts pt, declared E (Sym K_PROGRAM_CONST i) A_PROGRAM ai ->
  e_symtype E (Sym K_PROGRAM_CONST i) = Some (Node K_PROGRAM_TYPE pt) -> length pt <> S (length ts) ->
  mkExpr E (S n) (S m) K_APPLY (Sym K_PROGRAM_CONST i :: ts) = Ok (Node K_APPLY (Sym K_PROGRAM_CONST i :: ts)).
Proof.
  intros n m i ai ts pt D T L. destruct PR as [HP HG].
  assert (NP : forall p, ai_cterm ai = Some p -> tkind p <> K_PARAMETERIZED).
  { intros p Ep. destruct D as (D1 & D2 & _). specialize (HG (Sym K_PROGRAM_CONST i)). unfold getProgram in HG. rewrite D1, D2, Ep in HG.
    destruct (progs _); [|discriminate HG]. injection HG as ->. discriminate. }
  rewrite (mkExpr_program _ _ _ _ _ _ D NP), program_plain. unfold getConstructorKind. destruct D as (D1 & D2 & _).
  rewrite D1, D2. cbn [tc tc_type getType]. rewrite T. cbn [bind or_null tchildren].
  destruct (Nat.eqb_spec (length pt) (S (length ts))); [contradiction|reflexivity].
Qed.
End Exact.
