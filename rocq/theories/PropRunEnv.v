(** Evaluation and types in the states of a run: properties C20 and C63, and C86. *)
From Coq Require Import String ZArith List Bool Lia.
From Verif Require Import Base Kind Ints Str Literal Arity Term TermProofs Match SpecTerm Eval SpecEval ListOps Typing SpecType TypeProofs Build SpecList SpecBuild BuildProofs
  Scope SpecScope Lexer Parse Check SpecCheck ClosureProofs InvProofs InvProofs2 SpecSym SymProofs SpecRunEnv RunEnvProofs SpecBuiltin BuiltinProofs
  Encode SpecRead SpecNames PropSym PropLocal PropNames.
Import ListNotations.
Open Scope Z_scope.

Lemma reached_inv G s : coherent G -> reached G s -> exists d, Inv G TT 0 d s.
Proof.
  intros HC (o & incs & i & v & R & NR).
  exact (run_WT G InvProofs2.no_reset no_reset_tail (fun l H => H) HC o incs i v s R NR).
Qed.
(** Whatever was read, the type checker works with well-formed terms and with the programs as they were declared, so
    that C59, C62 and C63 are about every state that is reached. *)
Theorem C63_run : forall G s, coherent G -> variables_wf G -> reached G s ->
  env_wf (env_of G s) /\ programs_of (env_of G s) (programs_in s).
Proof.
  intros G s HC VW R. destruct (reached_inv G s HC R) as (d & I). split; [exact (env_wf_of G HC VW d s I) | exact (programs_of_run G d s I)].
Qed.
Print Assumptions C63_run.
(** In every such state the types of terms are those that the typing rules give. *)
Theorem C63_run_exact : forall G s, coherent G -> variables_wf G -> reached G s -> forall t T, twf t ->
  ((exists n, tc_type (tc (env_of G s) n) t = Ok (Some T)) <-> typed (env_of G s) (programs_in s) t T).
Proof. intros G s HC VW R. destruct (C63_run G s HC VW R) as [E P]. exact (typing_exact _ _ (env_wf_ok _ E) P). Qed.
Print Assumptions C63_run_exact.
(** And terms evaluate as SpecEval.v says. *)
Theorem C20_run_exact : forall G s, coherent G -> variables_wf G -> reached G s -> forall t c r, twf t -> sub_wf (ctx_find c) ->
  ((exists n, tc_eval (tc (env_of G s) n) t c = Ok (Some r)) <-> evaluates (env_of G s) (programs_in s) (ctx_find c) t r).
Proof.
  intros G s HC VW R t c r W S. destruct (C63_run G s HC VW R) as [E P]. split.
  - intros (n & H). exact (wok_eval _ n t c r (env_wf_ok _ E) W S H _ P).
  - exact (eval_complete _ _ c t r (env_wf_ok _ E) P W S).
Qed.
Print Assumptions C20_run_exact.
(** Terms that are read are well-formed. *)
Theorem C63_run_read : forall G sig n s l t p, coherent G -> reached G s -> parseExpr G sig n (l, s) = Ok (t, p) -> twf t.
Proof.
  intros G sig n s l t p HC H E. destruct (reached_inv G s HC H) as (d & I).
  refine (Q_twf _ _ _ (proj2 (parseExpr_T G TT 0 (fun _ => True) HC TT_levels (conj (fun _ _ _ => Logic.I) (or_introl (fun F => Logic.I))) sig n d (l, s) t p I Logic.I E))).
Qed.
Print Assumptions C63_run_read.

(** C86 *)
(** The built-in lists are as the manual says in every state of a run. *)
Theorem C86_declared : forall G o incs i v s, Check.run G o incs i = Ok (v, s) -> built_in_lists (env_of G s).
Proof.
  intros G o incs i v s H. pose proof (C79_start G o incs i v s H) as K.
  assert (O : forall t m ty, s_types (st_init o) t = Some ty -> s_marks (st_init o) t = m -> old (st_init o) t ->
    s_types s t = Some ty /\ forall a, m = Some a -> s_marks s t = Some a).
  { intros t m ty T M X. destruct (K t X) as (_ & _ & A & B). split; [congruence|]. intros a ->. exact (B a M). }
  assert (L : s_types s sym_List = Some t_Type) by (eapply O; [reflexivity|reflexivity|reflexivity]).
  assert (N : s_types s sym_nil = Some sym_List) by (eapply O; [reflexivity|reflexivity|reflexivity]).
  assert (T : s_types s sym_T = Some t_Type) by (eapply O; [reflexivity|reflexivity|reflexivity]).
  destruct (O sym_cons _ _ eq_refl eq_refl eq_refl) as [C M]. specialize (M _ eq_refl).
  constructor; cbn [env_of e_listType e_listNil e_listCons e_symtype].
  - eexists. split; [reflexivity | exact L].
  - eexists. split; [reflexivity | exact N].
  - eexists. exists (n_builtins + 2). split; [reflexivity|]. split; [exact T | exact C].
  - unfold env_of. cbn [e_info e_listCons e_listNil]. rewrite M. change (builtin_kind sym_cons) with K_NONE.
    destruct (overloads_of (s_scope s) sym_cons); (eexists; split; [reflexivity|]; auto).
Qed.
Print Assumptions C86_declared.
(** Terms of any types can be in a list, in any number, and a list has type eo::List. *)
Theorem C86_typed : forall E progs, env_wf E -> programs_of E progs -> built_in_lists E -> forall ts U, Forall twf ts ->
  (typed E progs (list_of E ts) U <-> Forall (fun t => exists T, typed E progs t T) ts /\ U = e_listType E).
Proof. exact list_typed. Qed.
Print Assumptions C86_typed.
(** An application of eo::List::cons, as long as this names what it names at the start and is not overloaded, is the
    list of its arguments; an argument marked :list is a list that is put in. *)
Theorem C86_read : forall G sig s xs r s1 m, g_mk G = S m -> built_in_lists (env_of G s) -> built_in_lists (env_of G s1) ->
  getVar (s_scope s) (txt "eo::List::cons") = Some (e_listCons (env_of G s)) -> overloads_of (s_scope s1) (e_listCons (env_of G s1)) = None ->
  (reads G sig s (XL (XT T_SYMBOL (txt "eo::List::cons") :: xs)) r s1 <->
   exists ts, reads_args G sig s xs ts s1 /\
     (ts = [] /\ applied G s1 [e_listCons (env_of G s1)] r \/
      ts <> [] /\ desugar_right (e_listCons (env_of G s1)) (e_listNil (env_of G s1)) (marked (env_of G s1)) ts r)).
Proof. exact list_read. Qed.
Print Assumptions C86_read.
(** Without such arguments these are all its elements, the last one too. *)
Theorem C86_elements : forall E ts r, ts <> [] -> Forall (fun t => ~ marked E t) ts ->
  (desugar_right (e_listCons E) (e_listNil E) (marked E) ts r <-> r = list_of E ts).
Proof. exact list_elements. Qed.
Print Assumptions C86_elements.

(** A configuration in which only variables of well-formed types exist. *)
Fixpoint wfb (t : term) : bool :=
  match t with
  | Sym k _ => sym_kind k
  | Lit _ => true
  | Node k cs => negb (isSymbol k) && negb (isLiteral k) && forallb wfb cs
  end.
Lemma wfb_ok t : wfb t = true -> twf t.
Proof.
  induction t as [k i|l|k cs IH] using term_ind2; cbn [wfb]; intros H.
  - now constructor.
  - constructor.
  - apply andb_prop in H. destruct H as [H1 H2]. apply andb_prop in H1. destruct H1 as [H0 H1]. apply negb_true_iff in H0, H1.
    constructor; [exact H0 | exact H1|]. rewrite forallb_forall in H2. rewrite Forall_forall in *. auto.
Qed.
Definition num_wf (z : Z) : option (text * term) :=
  match num_var z with Some (n, t) => if wfb t then Some (n, t) else None | None => None end.
Definition cfg86 (x : string) : config := mkConfig (fun _ => 0) var_num num_wf (fun _ p => p) (fun _ => Some (txt x)) 60 60 400.
Lemma coherent86 x : coherent (cfg86 x).
Proof.
  intros n t p. cbn [cfg86 g_varinfo g_bvar]. unfold num_wf. rewrite var_num_ok. destruct (wfb t); [|discriminate]. intros H. now injection H as <-.
Qed.
Lemma variables86 x : variables_wf (cfg86 x).
Proof.
  intros i n t. cbn [cfg86 g_varinfo]. unfold num_wf. destruct (num_var i) as [[m u]|]; [|discriminate].
  destruct (wfb u) eqn:W; [|discriminate]. intros H. injection H as <- <-. now apply wfb_ok.
Qed.
Definition s86 (x : string) : st :=
  match Check.run (cfg86 x) options_init [] (InFile (txt "a.eo")) with Ok (_, s) => s | _ => st_init options_init end.
Lemma run86 x : match Check.run (cfg86 x) options_init [] (InFile (txt "a.eo")) with Ok (_, s) => no_resets s | _ => false end = true ->
  (exists v, Check.run (cfg86 x) options_init [] (InFile (txt "a.eo")) = Ok (v, s86 x)) /\ reached (cfg86 x) (s86 x).
Proof.
  intros H. unfold s86. destruct (Check.run (cfg86 x) options_init [] (InFile (txt "a.eo"))) as [[v s]| | |] eqn:R; try discriminate H.
  split; [now exists v|]. exists options_init, [], (InFile (txt "a.eo")), v. split; [exact R | exact (no_resets_ok s H)].
Qed.
(** A program, a function, and a list of three terms of different types: the constant a : Int, the function f and Bool. *)
Definition sig86 : string :=
"(declare-const Int Type) (declare-const a Int) (declare-const f (-> Int Bool))
(declare-parameterized-const = ((T Type :implicit)) (-> T T Bool))
(program $same ((x Int) (y Int)) :signature (Int Int) Bool ((($same x x) true) (($same x y) (= x y))))".
Definition name86 (n : string) : term := match getVar (s_scope (s86 sig86)) (txt n) with Some t => t | None => null_term end.
Example C63_run_example : coherent (cfg86 sig86) /\ variables_wf (cfg86 sig86) /\ reached (cfg86 sig86) (s86 sig86) /\
  programs_in (s86 sig86) (name86 "$same") <> None /\
  typed (env_of (cfg86 sig86) (s86 sig86)) (programs_in (s86 sig86)) (Node K_APPLY [name86 "f"; name86 "a"]) t_Bool /\
  evaluates (env_of (cfg86 sig86) (s86 sig86)) (programs_in (s86 sig86)) (ctx_find []) (Node K_APPLY [name86 "$same"; name86 "a"; name86 "a"]) (Lit (LBool true)).
Proof.
  assert (R : reached (cfg86 sig86) (s86 sig86)) by (apply run86; comp).
  split; [apply coherent86|]. split; [apply variables86|]. split; [exact R|]. split; [comp|]. split.
  - apply (C63_run_exact _ _ (coherent86 _) (variables86 _) R); [apply wfb_ok; comp|]. exists 20%nat. comp.
  - apply (C20_run_exact _ _ (coherent86 _) (variables86 _) R); [apply wfb_ok; comp | intros p v H; discriminate H|]. exists 20%nat. comp.
Qed.
Example C86_example : built_in_lists (env_of (cfg86 sig86) (s86 sig86)) /\
  getVar (s_scope (s86 sig86)) (txt "eo::List::cons") = Some (e_listCons (env_of (cfg86 sig86) (s86 sig86))) /\
  overloads_of (s_scope (s86 sig86)) (e_listCons (env_of (cfg86 sig86) (s86 sig86))) = None /\
  reads (cfg86 sig86) true (s86 sig86) (XL [XT T_SYMBOL (txt "eo::List::cons"); XT T_SYMBOL (txt "a"); XT T_SYMBOL (txt "f"); XT T_BOOL_TYPE (txt "Bool")])
    (list_of (env_of (cfg86 sig86) (s86 sig86)) [name86 "a"; name86 "f"; t_Bool]) (s86 sig86) /\
  typed (env_of (cfg86 sig86) (s86 sig86)) (programs_in (s86 sig86)) (list_of (env_of (cfg86 sig86) (s86 sig86)) [name86 "a"; name86 "f"; t_Bool]) sym_List.
Proof.
  assert (X : (exists v, Check.run (cfg86 sig86) options_init [] (InFile (txt "a.eo")) = Ok (v, s86 sig86)) /\ reached (cfg86 sig86) (s86 sig86)) by (apply run86; comp).
  destruct X as ((v & X) & R). pose proof (C86_declared _ _ _ _ _ _ X) as B. split; [exact B|].
  assert (V : getVar (s_scope (s86 sig86)) (txt "eo::List::cons") = Some (e_listCons (env_of (cfg86 sig86) (s86 sig86)))) by comp. split; [exact V|].
  assert (O : overloads_of (s_scope (s86 sig86)) (e_listCons (env_of (cfg86 sig86) (s86 sig86))) = None) by comp. split; [exact O|].
  destruct (C63_run _ _ (coherent86 _) (variables86 _) R) as [E P]. split.
  - apply (C86_read (cfg86 sig86) true (s86 sig86) _ _ (s86 sig86) 59 eq_refl B B V O). exists [name86 "a"; name86 "f"; t_Bool]. split.
    + eapply ra_cons; [eapply rd_name; [reflexivity | comp | comp] | comp |].
      eapply ra_cons; [eapply rd_name; [reflexivity | comp | comp] | comp |].
      eapply ra_cons; [apply rd_word; apply wt_Bool | comp |]. apply ra_nil.
    + right. split; [discriminate|]. apply C86_elements; [discriminate| |reflexivity].
      repeat (apply Forall_cons; [|]); [| | |apply Forall_nil]; intros (ai & A & C); revert A; vm_compute; intros A; first [discriminate A | injection A as <-; discriminate C].
  - apply (C86_typed _ _ E P B); [repeat (apply Forall_cons; [apply wfb_ok; comp|]); apply Forall_nil|]. split; [|reflexivity].
    repeat (apply Forall_cons; [|]); [| | |apply Forall_nil]; eexists; (apply (C63_run_exact _ _ (coherent86 _) (variables86 _) R); [apply wfb_ok; comp|]; exists 20%nat; vm_compute; reflexivity).
Qed.
(** What a text is read as. *)
Definition read86 (x t : string) : option term :=
  match parseExpr (cfg86 x) true 60 (lexer_init true true (chars_of false (txt (t ++ " "))), s86 x) with Ok (r, _) => Some r | _ => None end.
(** user_manual.md 1365-1374 *)
Definition trees : string :=
"(declare-datatypes ((Tree 0)) (((node (left Tree) (right Tree)) (leaf)))) (declare-datatypes ((Color 0)) (((red) (green) (blue))))".
(** The list of the constructors, and of the selectors, as the text of the manual has it. *)
Example C86_datatypes : Forall (fun p => read86 trees (fst p) = read86 trees (snd p) /\ read86 trees (fst p) <> None)
  [("(eo::dt_constructors Tree)", "(eo::List::cons node leaf)"); ("(eo::dt_selectors node)", "(eo::List::cons left right)");
   ("(eo::dt_selectors leaf)", "eo::List::nil"); ("(eo::dt_constructors Color)", "(eo::List::cons red green blue)");
   ("(eo::dt_selectors red)", "eo::List::nil")]%string.
Proof. repeat (apply Forall_cons; [split; comp|]). apply Forall_nil. Qed.
(** The examples there have nested applications instead.  Written like that, these are other terms: eo::List::nil
    becomes an element. *)
Theorem C86_manual_refuted : exists x t u a b, reached (cfg86 x) (s86 x) /\ In (t, u)
  [("(eo::dt_constructors Tree)", "(eo::List::cons node (eo::List::cons leaf eo::List::nil))")]%string /\
  read86 x t = Some a /\ read86 x u = Some b /\ a <> b.
Proof.
  eexists trees, _, _, _, _. split; [apply run86; comp|]. split; [left; reflexivity|]. split; [vm_compute; reflexivity|]. split; [vm_compute; reflexivity|]. discriminate.
Qed.
Print Assumptions C86_manual_refuted.
