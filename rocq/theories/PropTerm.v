(** Properties C17, C18, C19, C48, C50: terms, matching, program cases. *)
From Coq Require Import ZArith List Bool Lia.
From Verif Require Import Base Kind Literal Term Match SpecTerm TermProofs FlagsProofs
  VarsProofs MatchProofs ProgProofs.
Import ListNotations.
Open Scope Z_scope.

(** Terms used in the examples: parameters x, y, a function f, a program g. *)
Definition ex_x := Sym K_PARAM 1.
Definition ex_y := Sym K_PARAM 2.
Definition ex_f := Sym K_CONST 3.
Definition ex_a := Sym K_CONST 4.
Definition ex_b := Sym K_CONST 5.
Definition ex_g := Sym K_PROGRAM_CONST 6.
Definition ex_app (h : term) (l : list term) := Node K_APPLY (h :: l).
Lemma ex_wf : twf ex_x /\ twf ex_y /\ twf ex_f /\ twf ex_a /\ twf ex_b /\ twf ex_g.
Proof. repeat split; constructor; reflexivity. Qed.

(** C17 *)
Theorem C17_flags_exact : forall ts t, twf t ->
  exists n s s', (forall fuel, (n <= fuel)%nat ->
      computeFlags_all fuel ts [] = Ok s /\ computeFlags fuel t s = Ok s') /\
    (f_eval (get_flags s' t) = true <-> exists u, occurs u t /\ computes u) /\
    (f_nonground (get_flags s' t) = true <-> exists u, occurs u t /\ (is_param u \/ is_any u)).
Proof. exact flags_history. Qed.
Print Assumptions C17_flags_exact.
Example C17_example :
  let sub := ex_app ex_f [ex_a; ex_b] in
  let t := Node K_EVAL_EQ [ex_app ex_f [sub; ex_x]; sub] in
  twf t /\
  match computeFlags_all 50 [sub; ex_app ex_f [sub; ex_x]] [] with
  | Ok s => match computeFlags 50 t s with
            | Ok s' => get_flags s' t = mkFlags true true true /\
                       get_flags s' (ex_app ex_f [sub; ex_x]) = mkFlags true false true
            | _ => False end
  | _ => False end.
Proof. split; [repeat constructor|vm_compute; auto]. Qed.

(** C18 *)
Theorem C18_match_total : forall a b c, twf a -> exists r, match_term a b c = Ok r.
Proof. exact match_term_total. Qed.
Print Assumptions C18_match_total.

Theorem C18_match_sound : forall a b c c', twf a -> match_term a b c = Ok (Some c') ->
  (forall p v, ctx_find c p = Some v -> ctx_find c' p = Some v) /\
  (forall p v, ctx_find c' p = Some v -> ctx_find c p = Some v \/ (is_param p /\ occurs p a)) /\
  tsubst (ctx_find c') a = b /\
  (forall p, is_param p -> occurs p a -> ctx_find c' p <> None) /\ no_any a.
Proof. exact match_term_sound. Qed.
Print Assumptions C18_match_sound.

Theorem C18_match_complete : forall f a b c, twf a -> no_any a ->
  (forall p v, ctx_find c p = Some v -> f p = Some v) ->
  tsubst f a = b -> (forall p, is_param p -> occurs p a -> f p <> None) ->
  exists c', match_term a b c = Ok (Some c') /\
    (forall p v, ctx_find c' p = Some v -> f p = Some v).
Proof. exact match_term_complete. Qed.
Print Assumptions C18_match_complete.

Theorem C18_instance_unique : forall f g q, tsubst f q = tsubst g q ->
  forall p, is_param p -> occurs p q -> f p <> None -> g p <> None -> f p = g p.
Proof. exact instance_unique. Qed.
Print Assumptions C18_instance_unique.
Example C18_example : (* f x (f y x) against f a (f b a), and against f a (f b b) *)
  let pat := ex_app ex_f [ex_x; ex_app ex_f [ex_y; ex_x]] in
  twf pat /\
  match_term pat (ex_app ex_f [ex_a; ex_app ex_f [ex_b; ex_a]]) []
    = Ok (Some [(ex_y, ex_b); (ex_x, ex_a)]) /\
  match_term pat (ex_app ex_f [ex_a; ex_app ex_f [ex_b; ex_b]]) [] = Ok None.
Proof. split; [repeat constructor|vm_compute; auto]. Qed.

(** C19 *)
Theorem C19_first_case : forall prog hd args cases,
  prog hd = Some (program_term hd cases) -> cases_wf cases -> arity_ok args cases ->
  isGround hd = true -> forallb isGround args = true -> existsb isEvaluatable args = false ->
  (exists i ps rhs c, nth_error cases i = Some (ps, rhs) /\
     evaluateProgramInternal prog (hd :: args) = Ok (Some (rhs, c)) /\
     exact_instance (ctx_find c) ps args /\
     forall j ps' rhs', (j < i)%nat -> nth_error cases j = Some (ps', rhs') ->
       forall f, ~ instance f ps' args) \/
  (evaluateProgramInternal prog (hd :: args) = Ok None /\
   forall j ps' rhs', nth_error cases j = Some (ps', rhs') -> forall f, ~ instance f ps' args).
Proof. exact program_first_case. Qed.
Print Assumptions C19_first_case.

Theorem C19_stuck_arguments : forall prog hd args,
  existsb isEvaluatable args = true \/ forallb isGround (hd :: args) = false ->
  evaluateProgramInternal prog (hd :: args) = Ok None.
Proof. exact program_stuck_args. Qed.
Print Assumptions C19_stuck_arguments.
Example C19_example :
  let cases := [([ex_x; ex_x], ex_a); ([ex_app ex_f [ex_x]; ex_y], ex_y); ([ex_x; ex_y], ex_x)] in
  let prog := fun _ : term => Some (program_term ex_g cases) in
  cases_wf cases /\ arity_ok [ex_app ex_f [ex_a]; ex_b] cases /\
  evaluateProgramInternal prog [ex_g; ex_app ex_f [ex_a]; ex_b]
    = Ok (Some (ex_y, [(ex_y, ex_b); (ex_x, ex_a)])).
Proof.
  split; [|split; [repeat constructor|vm_compute; reflexivity]].
  assert (N : forall t, nonGround t = false \/ is_param t -> twf t -> no_any t).
  { intros t [G|(i & ->)] W s Ho Ha.
    - assert (nonGround t = true) by (apply nonGround_spec; [exact W|exists s; auto]). congruence.
    - inversion Ho; subst. discriminate. }
  repeat constructor; cbn [fst]; try (apply N; [right; eexists; reflexivity|constructor; reflexivity]).
  intros s Ho Ha. apply occurs_inv in Ho. destruct Ho as [->|(c & [<-|[<-|[]]] & Ho)].
  - discriminate.
  - inversion Ho; subst; discriminate.
  - inversion Ho; subst; discriminate.
Qed.

(** C48 *)
Theorem C48_accepted_case_ground : forall self hd ps rhs args c,
  twf (Node K_APPLY (hd :: ps)) -> twf rhs -> no_any rhs -> ~ occurs self rhs ->
  isGround hd = true ->
  typeCheckProgramPair self (Node K_APPLY (hd :: ps)) rhs = Ok tt ->
  length ps = length args -> forallb isGround args = true ->
  match_args ps args [] = Ok (Some c) ->
  isGround (tsubst (ctx_find c) rhs) = true.
Proof. exact accepted_case_ground. Qed.
Print Assumptions C48_accepted_case_ground.

Theorem C48_check_exact : forall self pat ret, twf pat -> twf ret ->
  (typeCheckProgramPair self pat ret = Ok tt \/ typeCheckProgramPair self pat ret = Err) /\
  (typeCheckProgramPair self pat ret = Ok tt <->
   (forall p, is_param p -> occurs p ret -> p = self \/ occurs p pat) /\
   (forall a u, In a (tl (tchildren pat)) -> occurs u a -> ~ computes u)).
Proof. exact typeCheck_exact. Qed.
Print Assumptions C48_check_exact.
Example C48_example :
  let self := Sym K_PARAM 0 in
  typeCheckProgramPair self (ex_app ex_g [ex_app ex_f [ex_x; ex_y]]) (ex_app ex_f [ex_y]) = Ok tt /\
  typeCheckProgramPair self (ex_app ex_g [ex_x]) (ex_app ex_f [ex_y]) = Err /\
  match_args [ex_app ex_f [ex_x; ex_y]] [ex_app ex_f [ex_a; ex_b]] []
    = Ok (Some [(ex_x, ex_a); (ex_y, ex_b)]).
Proof. vm_compute. auto. Qed.

(** C50 *)
Theorem C50_getVariables : forall es, Forall twf es ->
  exists l, getVariables es = Ok l /\ NoDup l /\
    forall p, In p l <-> is_param p /\ exists e, In e es /\ occurs p e.
Proof. exact getVariables_spec. Qed.
Print Assumptions C50_getVariables.

Theorem C50_hasVariable : forall e vars, twf e ->
  exists b, hasVariable e vars = Ok b /\
    (b = true <-> exists p, In p vars /\ is_param p /\ occurs p e).
Proof. exact hasVariable_spec. Qed.
Print Assumptions C50_hasVariable.
Example C50_example :
  let t := ex_app ex_f [ex_x; ex_app ex_f [ex_y; ex_x]; ex_app ex_f [ex_a]] in
  twf t /\ getVariables [t] = Ok [ex_x; ex_y] /\
  hasVariable t [ex_b; ex_y] = Ok true /\ hasVariable (ex_app ex_f [ex_x]) [ex_y] = Ok false.
Proof. split; [repeat constructor|vm_compute; auto]. Qed.
