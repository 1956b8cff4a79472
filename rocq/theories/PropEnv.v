(** Properties C80 and C68: types and values do not depend on names, and names that are bound
    inside a term. *)
From Coq Require Import String ZArith List Bool Lia.
From Verif Require Import Base Kind Ints Str Literal Arity Term TermProofs Match Eval ListOps Typing Build Scope SpecScope ScopeProofs Lexer Parse Check
  SpecCheck SpecRead Encode ReadProofs LocalProofs PropRead PropLocal SpecEnv EnvProofs SpecHide HideProofs PropCmd.
Import ListNotations.
Open Scope Z_scope.

(** ** C80 *)
(** Whatever the names stand for, the types of terms, the values of operators and the values
    of terms are the same. *)
Theorem C80_names : forall G s c n, 
  (forall t, tc_type (tc (env_of G (set_scope c s)) n) t = tc_type (tc (env_of G s) n) t) /\
  (forall k ts, tc_lop (tc (env_of G (set_scope c s)) n) k ts = tc_lop (tc (env_of G s) n) k ts) /\
  (forall t x, tc_eval (tc (env_of G (set_scope c s)) n) t x = tc_eval (tc (env_of G s) n) t x).
Proof. intros G s c n. exact (tc_same _ _ (scope_env G s (set_scope c s) (os_set s c)) n). Qed.
Print Assumptions C80_names.

(** Reading a term, whatever is bound inside of it, changes no type and no value. *)
Theorem C80_reading : forall G sig n s x l l' r p m, faithful G -> proper x -> ready l -> shows l (words x) l' ->
  parseExpr G sig n (l, s) = Ok (r, p) ->
  (forall t, tc_type (tc (env_of G (snd p)) m) t = tc_type (tc (env_of G s) m) t) /\
  (forall t c, tc_eval (tc (env_of G (snd p)) m) t c = tc_eval (tc (env_of G s) m) t c).
Proof.
  intros G sig n s x l l' r p m HF PX RL SW H. destruct (C66_exact G sig n s x l l' r p HF PX RL SW H) as [D _].
  destruct (proj1 (reads_kept G sig) _ _ _ _ D) as [O _]. destruct (tc_same _ _ (scope_env G s (snd p) O) m) as (A & _ & B). now split.
Qed.
Print Assumptions C80_reading.

(** Alternatives of symbols are the only thing in the tables of names that matters when a
    term is built, and they do matter: with [f] bound to [g] the application of [g] to [a] is
    another term, while types and values are what they were. *)
Definition f68 : term := c66 66.
Definition g68 : term := c66 67.
Notation bound68 := (bind_sym (o_ruleSymTable (s_opts (s67 sig67))) (pushScope (s_scope (s67 sig67))) (txt "f") g68) (only parsing).
Definition in68 : scope := match bound68 with Some c => c | None => s_scope (s67 sig67) end.
Lemma bound68_some : bound68 = Some in68.
Proof.
  assert (H : match bound68 with Some _ => true | None => false end = true) by (vm_compute; reflexivity).
  unfold in68. destruct bound68; [reflexivity | discriminate H].
Qed.
Example C80_names_example : let G := cfg67 sig67 in let s := s67 sig67 in reached G s /\
  mkExpr (env_of G s) 60 60 K_APPLY [g68; c66 64] = Ok (Node K_APPLY [g68; c66 64]) /\
  mkExpr (env_of G (set_scope in68 s)) 60 60 K_APPLY [g68; c66 64] = Ok (Node K_APPLY [f68; c66 64]) /\
  tc_type (tc (env_of G s) 60) (Node K_APPLY [g68; c66 65]) = Ok (Some t_Bool) /\
  tc_type (tc (env_of G (set_scope in68 s)) 60) (Node K_APPLY [g68; c66 65]) = Ok (Some t_Bool) /\
  tc_type (tc (env_of G (set_scope in68 s)) 60) (Node K_APPLY [g68; c66 64]) = Ok None.
Proof. split; [apply reached67; comp|]. repeat (split; [comp|]). comp. Qed.

(** ** C68 *)
(** Inside the scope of a name that is bound to a term, the name stands for the term, every
    other name for what it stood for, every term has the type and the value it had, and the
    alternatives of other terms are the same unless they were declared under that name. *)
Theorem C68_inside_partial : forall G s n e c m, faithful G -> reached G s -> is_rule (o_ruleSymTable (s_opts s)) e = false ->
  bind_sym (o_ruleSymTable (s_opts s)) (pushScope (s_scope s)) n e = Some c ->
  getVar c n = Some e /\ (forall k, k <> n -> getVar c k = getVar (s_scope s) k) /\
  (forall t, tc_type (tc (env_of G (set_scope c s)) m) t = tc_type (tc (env_of G s) m) t) /\
  (forall t x, tc_eval (tc (env_of G (set_scope c s)) m) t x = tc_eval (tc (env_of G s) m) t x) /\
  (forall t, t <> e -> c_mark (s_scope s) t <> Some n -> overloads_of c t = overloads_of (s_scope s) t).
Proof.
  intros G s n e c m HF R RU B. destruct (reached_rel G s HF R) as ([fs g] & RF).
  destruct (bind_sees _ _ _ _ _ _ (push_rel _ _ _ RF) RU B) as (A1 & A2 & _ & A4). destruct (C80_names G s c m) as (B1 & _ & B3). auto.
Qed.
Print Assumptions C68_inside_partial.

(** A name that is bound to a function without alternatives, and applied where this is well
    typed, stands for the function, whatever it stands for outside. *)
Theorem C68_applied_partial : forall G sig m s l l' k0 w0 k1 w1 k2 w2 n xe xs f s1 ts ty, faithful G -> reached G s ->
  let x := XL [XT k0 w0; XL [XL [XT k1 w1; xe]]; XL (XT k2 w2 :: xs)] in
  proper x -> ready l -> shows l (words x) l' ->
  is_let k0 = true -> name_of k1 w1 = Some n -> name_of k2 w2 = Some n ->
  reads G sig s xe f s1 -> plain_function s1 f ->
  Forall2 (word_where sig s n f) xs ts -> ts <> [] -> g_mk G <> 0%nat -> of_type G s (curried f ts) ty ->
  parseExpr G sig m (l, s) = Fuel \/ exists s2, parseExpr G sig m (l, s) = Ok (curried f ts, (l', s2)).
Proof.
  intros G sig m s l l' k0 w0 k1 w1 k2 w2 n xe xs f s1 ts ty HF R x PX RL SW LT N1 N2 RX PF W NE FU T.
  destruct (reached_rel G s HF R) as (F & RF).
  destruct (let_applied G sig s F k0 w0 k1 w1 k2 w2 n xe xs f s1 ts ty RF LT N1 N2 RX PF W NE FU T) as (s2 & D).
  destruct (C66_reads G sig m s x _ s2 l l' HF PX RL SW D) as [H | H]; [now left|]. right. now exists s2.
Qed.
Print Assumptions C68_applied_partial.

Example C68_inside_example : reached (cfg67 sig67) (s67 sig67) /\ is_rule (o_ruleSymTable (s_opts (s67 sig67))) g68 = false /\
  bind_sym (o_ruleSymTable (s_opts (s67 sig67))) (pushScope (s_scope (s67 sig67))) (txt "f") g68 = Some in68 /\
  getVar (s_scope (s67 sig67)) (txt "f") = Some f68.
Proof. split; [apply reached67; comp|]. split; [comp|]. split; [exact bound68_some | comp]. Qed.
(** [f] is declared outside with another type. *)
Definition x68 : sx := XL [XT T_LET (txt "let"); XL [XL [w "f"; w "g"]]; XL [w "f"; w "p"]].
Definition l68 : lexer := lexer_init true true (chars_of false (txt "(let ((f g)) (f p)) ")).
Lemma vcfg67_faithful x : faithful (cfg67 x).
Proof. intros n t. apply var_num_ok. Qed.
Example C68_applied_example : exists l' s2, let G := cfg67 sig67 in let s := s67 sig67 in reached G s /\ proper x68 /\ ready l68 /\ shows l68 (words x68) l' /\
  getVar (s_scope s) (txt "f") = Some f68 /\ reads G false s (w "g") g68 s /\ plain_function s g68 /\
  Forall2 (word_where false s (txt "f") g68) [w "p"] [c66 65] /\ of_type G s (curried g68 [c66 65]) t_Bool /\
  parseExpr G false 60 (l68, s) = Ok (curried g68 [c66 65], (l', s2)).
Proof.
  assert (H : exists l', take 13 l68 = (words x68, l')) by (eexists; vm_compute; reflexivity). destruct H as [l' H].
  pose proof (take_shows _ _ _ _ H) as SW. clear H.
  assert (R : reached (cfg67 sig67) (s67 sig67)) by (apply reached67; comp).
  assert (PX : proper x68) by (apply proper_b_ok; reflexivity).
  assert (RX : reads (cfg67 sig67) false (s67 sig67) (w "g") g68 (s67 sig67)) by (apply rd_name with (n := txt "g"); comp).
  assert (PF : plain_function (s67 sig67) g68) by (constructor; [comp | comp | comp | cbn; intuition discriminate]).
  assert (W : Forall2 (word_where false (s67 sig67) (txt "f") g68) [w "p"] [c66 65]) by (constructor; [apply ww_other with (m := txt "p"); comp | constructor]).
  assert (T : of_type (cfg67 sig67) (s67 sig67) (curried g68 [c66 65]) t_Bool) by comp.
  destruct (C68_applied_partial (cfg67 sig67) false 60 (s67 sig67) l68 l' T_LET (txt "let") T_SYMBOL (txt "f") T_SYMBOL (txt "f") (txt "f")
    (w "g") [w "p"] g68 (s67 sig67) [c66 65] t_Bool (vcfg67_faithful sig67) R PX (or_introl eq_refl) SW eq_refl eq_refl eq_refl RX PF W ltac:(discriminate) ltac:(discriminate) T) as [X | (s2 & X)].
  - exfalso. assert (Y : match parseExpr (cfg67 sig67) false 60 (l68, s67 sig67) with Fuel => true | _ => false end = false) by (vm_compute; reflexivity).
    rewrite X in Y. discriminate Y.
  - exists l', s2. cbv zeta. repeat (split; [first [assumption | now left | comp]|]). exact X.
Qed.
