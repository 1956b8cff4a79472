(** The environment of a run is well-formed: proofs. *)
From Coq Require Import ZArith List Bool Lia.
From Verif Require Import Base Kind Ints Str Literal Arity Term TermProofs Match SpecTerm Eval SpecEval ListOps Typing Build Scope SpecScope Lexer Parse Check
  SpecType SpecCheck ClosureProofs InvProofs InvProofs2 SpecRunEnv.
Import ListNotations.
Open Scope Z_scope.

Section Run.
Variable G : config.
Hypothesis HC : coherent G.
Hypothesis VW : variables_wf G.
Notation InvT := (Inv G TT 0).

Lemma cases_back hd cases : map case_of (map (case_term hd) cases) = cases.
Proof. rewrite map_map. rewrite <- (map_id cases) at 2. apply map_ext. intros [ps r]. reflexivity. Qed.
Lemma cterm_wf d s t a c : InvT d s -> s_marks s t = Some (a, Some c) -> twf c.
Proof.
  intros I M. destruct (iv_marks _ _ _ _ _ I _ _ _ M) as [X Y].
  assert (D : a = A_PROGRAM \/ a <> A_PROGRAM) by (destruct a; auto; right; discriminate). destruct D as [D|D].
  - apply (Q_twf (g_varinfo G) (TT 0)). apply (proj2 (Y D)). intros F. exact Logic.I.
  - exact (Q_twf _ _ _ (X D)).
Qed.
Lemma env_wf_of d s : InvT d s -> env_wf (env_of G s).
Proof.
  intros I. pose proof (env_ok_of G TT 0 HC TT_levels d s I) as EO.
  constructor.
  - intros k i T K H. cbn [env_of e_symtype] in H.
    assert (X : s_types s (Sym k i) = Some T -> twf T) by (intros Y; exact (Q_twf _ _ _ (iv_types _ _ _ _ _ I _ _ Y))).
    destruct k; try (exact (X H)). destruct (g_varinfo G i) as [[m u]|] eqn:E; [|discriminate H]. injection H as <-. exact (VW _ _ _ E).
  - intros t ai c A C. apply info_spec in A. destruct A as (_ & _ & A).
    destruct (s_marks s t) as [[a c']|] eqn:M; injection A as A1 A2; [|congruence]. rewrite C in A2. subst c'. exact (cterm_wf d s t a c I M).
  - exact (ok_kind _ _ _ EO).
  - intros t ai ov A O. pose proof (ok_over _ _ _ EO t ai ov A O) as F. revert F. apply Forall_impl. intros x. apply Q_twf.
  - intros k T H. exact (Q_twf _ _ _ (ok_lit _ _ _ EO k T H)).
  - intros m T W. constructor. reflexivity.
  - repeat split; constructor; reflexivity.
  - constructor; reflexivity.
Qed.
Lemma programs_of_run d s : InvT d s -> programs_of (env_of G s) (programs_in s).
Proof.
  intros I. destruct (iv_known _ _ _ _ _ I) as [KN _].
  assert (M : forall hd, exists cases, programs_in s hd = None /\ getProgram (env_of G s) hd = None \/
    programs_in s hd = Some cases /\ s_marks s hd = Some (A_PROGRAM, Some (program_term hd cases)) /\ getProgram (env_of G s) hd = Some (program_term hd cases)).
  { intros hd. unfold getProgram.
    assert (GP : match e_info (env_of G s) hd with Some ai => match ai_cons ai with A_PROGRAM => ai_cterm ai | _ => None end | None => None end =
      match s_marks s hd with Some (A_PROGRAM, c) => c | _ => None end).
    { cbn [env_of e_info]. destruct (builtin_kind hd), (s_marks s hd) as [[a c]|], (overloads_of (s_scope s) hd); reflexivity. }
    rewrite GP. unfold programs_in. destruct (s_marks s hd) as [[a c]|] eqn:E; [|exists []; left; auto].
    assert (D : a = A_PROGRAM \/ a <> A_PROGRAM) by (destruct a; auto; right; discriminate). destruct D as [->|D].
    - destruct (KN hd c E) as (cases & ->). exists cases. right. cbn [program_term]. rewrite cases_back. auto.
    - exists []. left. destruct a; try contradiction; auto. }
  split.
  - intros hd cases H. destruct (M hd) as (cs & [(N & _)|(N & MK & _)]); [congruence|]. rewrite H in N. injection N as <-.
    pose proof (cterm_wf d s hd _ _ I MK) as W. inversion W as [| |k l _ _ F]; subst. rewrite Forall_map in F. revert F. apply Forall_impl.
    intros [ps r] X. unfold case_term in X. inversion X as [| |k l _ _ F1]; subst. inversion F1 as [|x l X1 F2]; subst. inversion F2 as [|y l X2 _]; subst.
    split; [|exact X2]. cbn [fst] in *. inversion X1 as [| |k l _ _ F3]; subst. now inversion F3.
  - intros hd. destruct (M hd) as (cs & [(N & P)|(N & _ & P)]); rewrite N, P; reflexivity.
Qed.
End Run.
