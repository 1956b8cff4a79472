(** Names of the language: the properties. *)
From Coq Require Import String ZArith QArith List Bool Lia.
From Verif Require Import Base Kind Ints Str Literal Arity SpecLit Term TermProofs Match Eval ListOps Typing Build Scope Lexer Parse Check
  SpecCheck SpecRead SpecNames NameProofs PropRead PropLocal.
Import ListNotations.
Open Scope Z_scope.

(** C84 *)
(** The documented name of an operator, unless it was declared again, is the documented operator and nothing else. *)
Theorem C84_operator : forall G sig s n k xs r s1 m, In (n, k) documented -> original s n -> g_mk G = S m ->
  (reads G sig s (XL (XT T_SYMBOL (txt n) :: xs)) r s1 <->
   exists ts, reads_args G sig s xs ts s1 /\ mkExpr (env_of G s1) (g_n G) m k ts = Ok r).
Proof. exact operator. Qed.
Print Assumptions C84_operator.
(** Types of functions. *)
Theorem C84_arrow : forall G sig s xs r s1 m, original s "->" -> g_mk G = S m ->
  (reads G sig s (XL (XT T_SYMBOL (txt "->") :: xs)) r s1 <->
   exists ts t, reads_args G sig s xs (ts ++ [t]) s1 /\ r = fold_right (fun a b => Node K_FUNCTION_TYPE [a; b]) t ts).
Proof. exact arrow_type. Qed.
Print Assumptions C84_arrow.
(** An application of an operator to values is written for its result. *)
Theorem C84_meaning : forall G sig s nm xs ls v s1 n m, g_n G = S n -> g_mk G = S (S (S m)) ->
  original s nm -> means nm ls v -> reads_args G sig s xs (map Lit ls) s1 ->
  reads G sig s (XL (XT T_SYMBOL (txt nm) :: xs)) (Lit v) s1.
Proof. exact meaning_read. Qed.
Print Assumptions C84_meaning.
(** With these arguments it is read as nothing else. *)
Theorem C84_meaning_only : forall G sig s nm xs ls v s1 r s2 n m, g_n G = S n -> g_mk G = S (S (S m)) ->
  original s nm -> means nm ls v -> (forall ts s', reads_args G sig s xs ts s' -> ts = map Lit ls /\ s' = s1) ->
  reads G sig s (XL (XT T_SYMBOL (txt nm) :: xs)) r s2 -> r = Lit v /\ s2 = s1.
Proof. exact meaning_only. Qed.
Print Assumptions C84_meaning_only.
(** The Booleans. *)
Theorem C84_booleans : forall G sig s (b : bool) r s1, original s (if b then "true" else "false")%string ->
  (reads G sig s (XT T_SYMBOL (txt (if b then "true" else "false"))) r s1 <-> r = Lit (LBool b) /\ s1 = s).
Proof. exact boolean_names. Qed.
Print Assumptions C84_booleans.
(** The keywords of attributes and the names of the categories of literals: these and no others. *)
Theorem C84_attributes : forall n a, table_find strToAttr n = Some a <-> exists d, n = txt d /\ In (d, a) documented_attributes.
Proof. exact attribute_names. Qed.
Print Assumptions C84_attributes.
Theorem C84_literals : forall n k, table_find strToLiteralKind n = Some k <-> exists d, n = txt d /\ In (d, k) documented_literals.
Proof. exact literal_names. Qed.
Print Assumptions C84_literals.

(** The state after the first signature of the manual. *)
Definition s84 : st := s67 manual_core_signature.
Lemma original84 n : match getVar (s_scope s84) (txt n), getVar (s_scope (st_init (s_opts s84))) (txt n) with
  | Some v, Some w => term_eqb v w && match s_marks s84 v, s_marks (st_init (s_opts s84)) v with None, None => true | _, _ => false end
  | _, _ => false end = true -> original s84 n.
Proof.
  unfold original. destruct (getVar (s_scope s84) (txt n)) as [v|]; [|discriminate]. destruct (getVar (s_scope (st_init (s_opts s84))) (txt n)) as [w|]; [|discriminate].
  intros H. apply andb_prop in H. destruct H as [A B]. apply term_eqb_eq in A. subst w. exists v. split; [reflexivity|]. split; [reflexivity|].
  destruct (s_marks s84 v), (s_marks (st_init (s_opts s84)) v); congruence.
Qed.
Example C84_example : original s84 "eo::add" /\ original s84 "->" /\ original s84 "true" /\ original s84 "eo::list_nth" /\
  means "eo::add" (map LNum [1; 2; 3]) (LNum 6) /\
  reads (cfg67 manual_core_signature) true s84 (XL [XT T_SYMBOL (txt "eo::add"); XT T_INTEGER (txt "1"); XT T_INTEGER (txt "2"); XT T_INTEGER (txt "3")]) (Lit (LNum 6)) s84 /\
  reads (cfg67 manual_core_signature) true s84 (XL [XT T_SYMBOL (txt "->"); XT T_SYMBOL (txt "Int"); XT T_BOOL_TYPE (txt "Bool")])
    (Node K_FUNCTION_TYPE [Sym K_CONST 63; t_Bool]) s84.
Proof.
  assert (O : original s84 "eo::add") by (apply original84; comp). split; [exact O|].
  assert (O2 : original s84 "->") by (apply original84; comp). split; [exact O2|].
  split; [apply original84; comp|]. split; [apply original84; comp|].
  split; [exact (m_add 1 2 [3])|]. split.
  - refine (C84_meaning (cfg67 manual_core_signature) true s84 "eo::add" _ (map LNum [1; 2; 3]) _ _ 59 57 eq_refl eq_refl O (m_add 1 2 [3]) _).
    repeat (eapply ra_cons; [apply rd_word; apply wt_num; comp | discriminate |]). apply ra_nil.
  - apply (C84_arrow (cfg67 manual_core_signature) true s84 _ _ s84 59 O2 eq_refl). exists [Sym K_CONST 63], t_Bool. split; [|reflexivity].
    eapply ra_cons; [eapply rd_name; [reflexivity | comp | discriminate] | discriminate |].
    eapply ra_cons; [apply rd_word; apply wt_Bool | discriminate |]. apply ra_nil.
Qed.

(** The examples of the manual. *)
Definition read84 (x : string) (s : st) (t : string) : option term :=
  match parseExpr (cfg67 x) true 60 (lexer_init true true (chars_of false (txt (t ++ " "))), s) with Ok (r, _) => Some r | _ => None end.
Definition holds84 (x : string) (s : st) (p : Z * string * string) : bool :=
  match read84 x s (snd (fst p)), read84 x s (snd p) with
  | Some a, Some b => term_eqb a b && (negb (String.eqb (snd (fst p)) (snd p)) || match a with Node k _ => isLiteralOp k | _ => false end)
  | _, _ => false
  end.
Definition lines84 (x : string) (l : list (Z * string * string)) : list Z :=
  let s := s67 x in map (fun p => fst (fst p)) (filter (fun p => negb (holds84 x s p)) l).
(** 142 of the 149 hold; those of these lines do not. *)
Example C84_manual : lines84 manual_core_signature manual_core = [] /\ (length manual_values + length manual_core + length manual_lists = 149)%nat /\
  lines84 manual_core_signature manual_values = [899; 919; 921; 931; 938; 939] /\ lines84 manual_list_signature manual_lists = [1050].
Proof. split; [comp|]. split; [reflexivity|]. split; comp. Qed.
(** Full statement: the examples of the manual hold.  Line 899 says that 12/6 is 3, 931 reads a hexadecimal
    number as a decimal one, the empty bit-vector of 919 and 921 cannot be written, 938 and 939 are C13, and
    1050 says that eo::cons drops an element that is the nil terminator. *)
Theorem C84_manual_refuted : exists x l p, In (x, l) [(manual_core_signature, manual_values); (manual_list_signature, manual_lists)] /\ In p l /\
  read84 x (s67 x) (snd (fst p)) <> read84 x (s67 x) (snd p) /\ read84 x (s67 x) (snd p) <> None.
Proof.
  exists manual_list_signature, manual_lists, (1050, "(eo::cons and true (and a))"%string, "(and a)"%string).
  split; [right; left; reflexivity|]. split; [do 30 (first [left; reflexivity | right])|].
  assert (X : match read84 manual_list_signature (s67 manual_list_signature) "(eo::cons and true (and a))", read84 manual_list_signature (s67 manual_list_signature) "(and a)" with
    | Some a, Some b => negb (term_eqb a b) | _, _ => false end = true) by comp.
  cbn [fst snd]. destruct (read84 _ _ "(eo::cons and true (and a))") as [a|]; [|discriminate X]. destruct (read84 _ _ "(and a)") as [b|]; [|discriminate X].
  split; [|discriminate]. intros Y. injection Y as ->. rewrite term_eqb_refl in X. discriminate X.
Qed.
Print Assumptions C84_manual_refuted.
