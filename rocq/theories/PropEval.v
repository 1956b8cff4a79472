(** Properties C20, C21, C22: evaluation. *)
From Coq Require Import ZArith List Bool Lia.
From Verif Require Import Base Kind Literal Term Match Eval SpecTerm SpecEval TermProofs
  VarsProofs MatchProofs ProgProofs EvalProofs EvalProofs2 EvalProofs3 EvalProofs4.
Import ListNotations.
Open Scope Z_scope.

(** Examples: addition as the only operator; a program [len] that computes the
    length of a list; a program [loop] that does not stop. *)
Definition ex_lop (k : kind) (ds : list term) : res (option term) :=
  match k, ds with
  | K_EVAL_ADD, [Lit (LNum a); Lit (LNum b)] => Ok (Some (Lit (LNum (a + b))))
  | K_EVAL_IS_EQ, [a; b] => Ok (Some (Lit (LBool (term_eqb a b))))
  | _, _ => Ok None
  end.
Definition xP := Sym K_PARAM 1.
Definition yP := Sym K_PARAM 2.
Definition ex_cons := Sym K_CONST 3.
Definition ex_nil := Sym K_CONST 4.
Definition ex_len := Sym K_PROGRAM_CONST 5.
Definition ex_loop := Sym K_PROGRAM_CONST 6.
Definition ex_chain := Sym K_PROGRAM_CONST 7.
Definition num (z : Z) := Lit (LNum z).
Definition app (h : term) (l : list term) := Node K_APPLY (h :: l).
Definition ex_progs (hd : term) : option (list pcase) :=
  match hd with
  | Sym K_PROGRAM_CONST 5 => Some
      [([ex_nil], num 0);
       ([app ex_cons [xP; yP]], Node K_EVAL_ADD [num 1; app ex_len [yP]])]
  | Sym K_PROGRAM_CONST 6 => Some [([xP], app ex_loop [xP])]
  | Sym K_PROGRAM_CONST 7 => Some
      [([num 2], app ex_chain [num 1]); ([num 1], app ex_chain [num 0]); ([num 0], num 10)]
  | _ => None
  end.
Definition ex_prog (hd : term) : option term := option_map (program_term hd) (ex_progs hd).
Lemma ex_lop_wf : lop_wf ex_lop.
Proof.
  intros k ds r W H. destruct k; cbn in H; try discriminate H.
  - destruct ds as [|a [|b [|c ds]]]; try discriminate H. injection H as <-. constructor.
  - destruct ds as [|[| []|] [|[| []|] [|c ds]]]; try discriminate H. injection H as <-. constructor.
Qed.
Ltac no_any_tac :=
  let s := fresh "s" in let H := fresh "H" in let A := fresh "A" in
  intros s H A; red in A; subst s;
  repeat (apply occurs_inv in H; destruct H as [H|(? & H' & H)];
          [discriminate|cbn in H'; repeat (destruct H' as [<-|H']); try destruct H']).
Lemma ex_progs_wf : progs_wf ex_progs.
Proof.
  intros hd cases H. destruct hd as [k i|l|k cs]; try discriminate H.
  destruct k; try discriminate H.
  assert (E : i = 5 \/ i = 6 \/ i = 7).
  { unfold ex_progs in H. destruct i as [|p|p]; try discriminate H.
    destruct p as [[[p|p|]|[p|p|]|]|[[p|p|]|[p|p|]|]|]; try discriminate H; auto. }
  destruct E as [->|[->| ->]]; injection H as <-; repeat constructor.
Qed.

(** C20 *)
Theorem C20_evaluate_exact : forall lop progs prog,
  lop_wf lop -> progs_wf progs -> (forall hd, prog hd = option_map (program_term hd) (progs hd)) ->
  forall e c r, twf e -> sub_wf (ctx_find c) ->
  (exists n, forall fuel, (n <= fuel)%nat -> evaluate lop prog fuel e c = Ok (Some r)) <->
  ev lop progs shortcut (ctx_find c) e r.
Proof. exact evaluate_exact. Qed.
Print Assumptions C20_evaluate_exact.

Theorem C20_outcomes : forall lop progs prog,
  lop_wf lop -> progs_wf progs -> (forall hd, prog hd = option_map (program_term hd) (progs hd)) ->
  forall e c fuel, twf e -> sub_wf (ctx_find c) ->
  evaluate lop prog fuel e c = Fuel \/
  (exists r, evaluate lop prog fuel e c = Ok (Some r) /\ ev lop progs shortcut (ctx_find c) e r /\ twf r) \/
  (exists k ds, Forall twf ds /\
     (lop k ds = Err /\ evaluate lop prog fuel e c = Err \/
      lop k ds = UB /\ evaluate lop prog fuel e c = UB)).
Proof. exact evaluate_outcomes. Qed.
Print Assumptions C20_outcomes.

Theorem C20_unique : forall lop progs s t r r',
  ev lop progs shortcut s t r -> ev lop progs shortcut s t r' -> r = r'.
Proof. intros lop progs. exact (ev_det lop progs shortcut shortcut_ext). Qed.
Print Assumptions C20_unique.

Theorem C20_substitution : forall lop progs prog,
  lop_wf lop -> progs_wf progs -> (forall hd, prog hd = option_map (program_term hd) (progs hd)) ->
  forall e c, twf e -> sub_wf (ctx_find c) -> inert e ->
  (forall p i, ctx_find c p <> Some (Sym K_PROGRAM_CONST i)) ->
  exists n, forall fuel, (n <= fuel)%nat ->
    evaluate lop prog fuel e c = Ok (Some (tsubst (ctx_find c) e)).
Proof. exact evaluate_subst. Qed.
Print Assumptions C20_substitution.

Theorem C20_program_call : forall lop progs prog,
  lop_wf lop -> progs_wf progs -> (forall hd, prog hd = option_map (program_term hd) (progs hd)) ->
  forall hd args r, is_program hd -> Forall twf args ->
  (exists n, forall fuel, (n <= fuel)%nat -> evaluateProgramApp lop prog fuel (hd :: args) = Ok (Some r)) <->
  ((calls progs hd args None /\ r = Node K_APPLY (hd :: args)) \/
   exists body f, calls progs hd args (Some (body, f)) /\ ev lop progs shortcut f body r).
Proof. exact evaluateProgramApp_full. Qed.
Print Assumptions C20_program_call.
Example C20_example :
  let l := app ex_cons [num 7; app ex_cons [xP; app ex_cons [num 7; ex_nil]]] in
  lop_wf ex_lop /\ progs_wf ex_progs /\ twf (app ex_len [l]) /\
  evaluate ex_lop ex_prog 200 (app ex_len [l]) [(xP, num 8)] = Ok (Some (num 3)) /\
  evaluate ex_lop ex_prog 200 (app ex_len [l]) [] = Ok (Some (app ex_len [l])) /\
  evaluateProgramApp ex_lop ex_prog 200 [ex_len; app ex_cons [num 7; ex_nil]] = Ok (Some (num 1)) /\
  evaluate ex_lop ex_prog 200 l [(xP, num 8)] = Ok (Some (app ex_cons [num 7; app ex_cons [num 8; app ex_cons [num 7; ex_nil]]])).
Proof.
  cbn zeta. split; [exact ex_lop_wf|]. split; [exact ex_progs_wf|].
  split; [repeat constructor|]. vm_compute. auto.
Qed.

(** C21.  Full statement: the right hand side of a program case is evaluated,
    i.e. [C20_evaluate_exact] with [never] for [shortcut].  It is false of the
    code: a right hand side without parameters is returned as it is. *)
Theorem C21_program_to_the_end_refuted : exists lop progs prog hd args value,
  lop_wf lop /\ progs_wf progs /\ (forall h, prog h = option_map (program_term h) (progs h)) /\
  is_program hd /\ Forall twf args /\
  ev lop progs never (fun _ => None) (Node K_APPLY (hd :: args)) value /\
  exists fuel r, evaluateProgramApp lop prog fuel (hd :: args) = Ok (Some r) /\ r <> value.
Proof.
  exists ex_lop, ex_progs, ex_prog, ex_chain, [num 2], (num 10).
  split; [exact ex_lop_wf|]. split; [exact ex_progs_wf|]. split; [reflexivity|].
  split; [exists 7; reflexivity|]. split; [repeat constructor|]. split.
  2:{ exists 100%nat, (app ex_chain [num 0]). split; [vm_compute; reflexivity|discriminate]. }
  assert (A : forall z, evs ex_lop ex_progs never (fun _ => None) [ex_chain; num z] [ex_chain; num z]).
  { intro z. repeat constructor; intros (j & E); discriminate. }
  assert (P : is_program ex_chain) by (exists 7; reflexivity).
  assert (C : forall z, Forall closed [num z] /\ Forall inert [num z]).
  { intro z. split; (constructor; [|constructor]); intros u Hu; inversion Hu; subst.
    - split; [intros (j & E); discriminate|discriminate].
    - intros [(j & E)|[E|(k & cs & E & _)]]; discriminate. }
  assert (X : forall z, exact_instance (fun _ => None) [num z] [num z]).
  { intro z. split; [split; [reflexivity|]|intros p H; congruence].
    intros q p [<-|[]] Hp Ho. inversion Ho; subst; match goal with H : is_param _ |- _ => destruct H as (? & ?); discriminate | _ => idtac end. }
  assert (Y : forall z z' f, z <> z' -> ~ instance f [num z] [num z']).
  { intros z z' f Hz [E _]. unfold num in E. cbn in E. injection E as E. apply Hz. exact E. }
  assert (E : forall f, empty_sub f -> (forall p, f p = (fun _ : term => @None term) p)) by (intros f H p; apply H).
  Ltac sel := first [apply sel_hit; match goal with X : forall z, exact_instance _ _ _ |- _ => apply X end
                    |apply sel_next; [reflexivity|intro; match goal with Y : forall z z' f, _ -> ~ instance _ _ _ |- _ => apply (Y _ _ _); discriminate end|sel]].
  eapply ev_call_run; [left; reflexivity|apply A|exact P| |intros []|].
  { eapply call_case; [apply C|apply C|reflexivity|sel]. }
  eapply ev_call_run; [left; reflexivity|apply A|exact P| |intros []|].
  { eapply call_case; [apply C|apply C|reflexivity|sel]. }
  eapply ev_call_run; [left; reflexivity|apply A|exact P| |intros []|].
  { eapply call_case; [apply C|apply C|reflexivity|sel]. }
  apply ev_const; [reflexivity|]. intros (j & F); discriminate.
Qed.
Print Assumptions C21_program_to_the_end_refuted.

(** The true part: programs each of whose right hand sides has nothing to
    compute or contains a parameter. *)
Theorem C21_program_to_the_end_partial : forall lop progs prog,
  lop_wf lop -> progs_wf progs -> (forall hd, prog hd = option_map (program_term hd) (progs hd)) ->
  (forall h cases, progs h = Some cases -> Forall rhs_live cases) ->
  forall e c r, twf e -> sub_wf (ctx_find c) ->
  (exists n, forall fuel, (n <= fuel)%nat -> evaluate lop prog fuel e c = Ok (Some r)) <->
  ev lop progs never (ctx_find c) e r.
Proof. exact evaluate_full. Qed.
Print Assumptions C21_program_to_the_end_partial.
Example C21_example :
  let progs hd := match hd with Sym K_PROGRAM_CONST 5 => ex_progs hd | _ => None end in
  (forall h cases, progs h = Some cases -> Forall rhs_live cases) /\
  evaluate ex_lop (fun hd => option_map (program_term hd) (progs hd)) 200
    (app ex_len [app ex_cons [num 7; ex_nil]]) [] = Ok (Some (num 1)).
Proof.
  cbn zeta. split; [|vm_compute; reflexivity].
  intros h cases H. destruct h as [k i|l|k cs]; try discriminate H. destruct k; try discriminate H.
  assert (i = 5).
  { destruct i as [|p|p]; try discriminate H.
    destruct p as [[[p|p|]|[p|p|]|]|[[p|p|]|[p|p|]|]|]; try discriminate H; auto. }
  subst i. injection H as <-. constructor; [|constructor; [|constructor]].
  - left. cbn [snd]. intros u Hu. inversion Hu; subst.
    intros [(j & E)|[E|(k & cs & E & _)]]; discriminate.
  - right. exists yP, (app ex_cons [xP; yP]). split; [exists 2; reflexivity|]. split.
    + eapply occ_child; [right; left; reflexivity|]. eapply occ_child; [right; left; reflexivity|]. apply occ_here.
    + split; [left; reflexivity|]. eapply occ_child; [right; right; left; reflexivity|]. apply occ_here.
Qed.

(** C22 *)
Theorem C22_ite_lazy : forall lop progs prog,
  lop_wf lop -> progs_wf progs -> (forall hd, prog hd = option_map (program_term hd) (progs hd)) ->
  forall (b : bool) e0 e1 e2 c r,
  twf (Node K_EVAL_IF_THEN_ELSE [e0; e1; e2]) -> sub_wf (ctx_find c) ->
  (exists n, forall fuel, (n <= fuel)%nat -> evaluate lop prog fuel e0 c = Ok (Some (Lit (LBool b)))) ->
  (exists n, forall fuel, (n <= fuel)%nat ->
     evaluate lop prog fuel (Node K_EVAL_IF_THEN_ELSE [e0; e1; e2]) c = Ok (Some r)) <->
  (exists n, forall fuel, (n <= fuel)%nat -> evaluate lop prog fuel (if b then e1 else e2) c = Ok (Some r)).
Proof. exact evaluate_ite. Qed.
Print Assumptions C22_ite_lazy.

Theorem C22_ite_stuck : forall lop progs prog,
  lop_wf lop -> progs_wf progs -> (forall hd, prog hd = option_map (program_term hd) (progs hd)) ->
  forall e0 e1 e2 c v0 v1 v2,
  twf (Node K_EVAL_IF_THEN_ELSE [e0; e1; e2]) -> sub_wf (ctx_find c) -> ~ is_bool v0 ->
  (exists n, forall fuel, (n <= fuel)%nat -> evaluate lop prog fuel e0 c = Ok (Some v0)) ->
  (exists n, forall fuel, (n <= fuel)%nat -> evaluate lop prog fuel e1 c = Ok (Some v1)) ->
  (exists n, forall fuel, (n <= fuel)%nat -> evaluate lop prog fuel e2 c = Ok (Some v2)) ->
  (exists n, forall fuel, (n <= fuel)%nat ->
     evaluate lop prog fuel (Node K_EVAL_IF_THEN_ELSE [e0; e1; e2]) c
     = Ok (Some (Node K_EVAL_IF_THEN_ELSE [v0; v1; v2]))).
Proof. exact evaluate_ite_stuck. Qed.
Print Assumptions C22_ite_stuck.
Example C22_example :
  let cond := Node K_EVAL_IS_EQ [xP; num 1] in
  let ite := Node K_EVAL_IF_THEN_ELSE [cond; num 5; app ex_loop [num 0]] in
  twf ite /\
  evaluate ex_lop ex_prog 300 (app ex_loop [num 0]) [] = Fuel /\
  evaluate ex_lop ex_prog 300 ite [(xP, num 1)] = Ok (Some (num 5)) /\
  evaluate ex_lop ex_prog 300 (Node K_EVAL_IF_THEN_ELSE [ex_nil; num 5; Node K_EVAL_ADD [num 1; num 2]]) []
    = Ok (Some (Node K_EVAL_IF_THEN_ELSE [ex_nil; num 5; num 3])).
Proof. split; [repeat constructor|]. vm_compute. auto. Qed.
