(** What commands do with the things they read. *)
From Coq Require Import String ZArith List Bool Lia.
From Verif Require Import Base Kind Ints Str Literal Arity Term TermProofs Match Eval ListOps Typing Build Scope Lexer Parse Check
  SpecRead SpecCmd FrontProofs CheckProofs ReadProofs CmdProofs CmdProofs2 CmdProofs3 CmdProofs4.
Import ListNotations.
Open Scope Z_scope.

Lemma term_eqb_neq a b : a <> b -> term_eqb a b = false.
Proof. intros N. destruct (term_eqb a b) eqn:E; [|reflexivity]. apply term_eqb_eq in E. contradiction. Qed.
Lemma kind_eqb_neq a b : a <> b -> kind_eqb a b = false.
Proof. intros N. destruct (kind_eqb a b) eqn:E; [|reflexivity]. apply kind_eqb_eq in E. contradiction. Qed.
Lemma new_unmarked k n ty s v s1 : new k n ty s v s1 -> s_marks s1 v = None.
Proof. intros []. cbn -[term_eqb]. now rewrite term_eqb_refl. Qed.
Lemma first_mark v a ct s s1 : s_marks s v = None -> marked v a ct s s1 <-> s1 = with_mark v a ct s.
Proof. intros E. split; [intros [_|x X]; [reflexivity | congruence] | intros ->; now constructor]. Qed.

(** ** Facts about parameters *)
Definition is_param (p : text * term * attrs) (lo hi : Z) (s1 : st) : Prop :=
  exists i, snd (fst p) = Sym K_PARAM i /\ lo <= i < hi /\ s_names s1 (snd (fst p)) = fst (fst p) /\
    forall a v, In (a, v) (snd p) -> ~ In a kind_attrs.
Definition names_kept (s s1 : st) : Prop := s_next s <= s_next s1 /\ forall k i, i < s_next s -> s_names s1 (Sym k i) = s_names s (Sym k i).
Lemma kept_same s s1 : same s s1 -> names_kept s s1.
Proof. intros S0. split; [rewrite (same_next _ _ S0); lia|]. intros k i _. now rewrite (same_names _ _ S0). Qed.
Lemma kept_trans a b c : names_kept a b -> names_kept b c -> names_kept a c.
Proof. intros [A1 A2] [B1 B2]. split; [lia|]. intros k i L. rewrite B2 by lia. now apply A2. Qed.
Lemma kept_marked v a ct s s1 : marked v a ct s s1 -> names_kept s s1.
Proof. intros [_|x _]; (split; [cbn; lia | reflexivity]). Qed.
Lemma kept_new k n ty s v s1 : new k n ty s v s1 -> names_kept s s1.
Proof.
  intros []. split; [cbn; lia|]. intros k' i L. cbn -[term_eqb]. rewrite term_eqb_neq; [reflexivity|]. intros E. injection E as -> E. lia.
Qed.

Section Parts.
Variable G : config.
Variable sig : bool.
Hypothesis HC : forall n t, g_varinfo G (g_bvar G n t) = Some (n, t).
Notation reads := (SpecRead.reads G sig).
Notation applied := (SpecRead.applied G).
Notation of_type := (SpecRead.of_type G).
Notation pe := (parseExpr G sig (g_fuel G)).

Lemma kept_reads s x t s1 : reads s x t s1 -> names_kept s s1.
Proof. intros H. apply kept_same. exact (proj1 (reads_same G sig) _ _ _ _ H). Qed.
Lemma kept_type ev s x t s1 : type_in G sig ev s x t s1 -> names_kept s s1.
Proof. intros H. inversion H; subst. eauto using kept_reads. Qed.
Lemma kept_refl s : names_kept s s. Proof. split; [lia | reflexivity]. Qed.
Lemma kept_pair s x p s1 : pair_in G sig s x p s1 -> names_kept s s1.
Proof. intros H. inversion H; subst. eauto using kept_reads, kept_trans. Qed.
Lemma kept_attrs k of e s as_ m s1 : attrs_in G sig k of e s as_ m s1 -> names_kept s s1.
Proof. induction 1; eauto using kept_trans, kept_refl, kept_marked, kept_reads, kept_pair. Qed.
Lemma param_fact of s x p s1 : param_in G sig of s x p s1 -> names_kept s s1 /\ is_param p (s_next s) (s_next s1) s1.
Proof.
  intros H. inversion H as [y n x0 ty s2 v s3 s4 as_ m s5 N T V B A]; subst. assert (K1 := kept_type _ _ _ _ _ T). assert (K2 := kept_new _ _ _ _ _ _ V).
  assert (K3 := kept_same _ _ (same_bound _ _ _ _ B)). assert (K4 := kept_attrs _ _ _ _ _ _ _ A). split; [eauto using kept_trans|].
  inversion V; subst. destruct K1 as [K1 _], K2 as [K2 _], K3 as [K3 K3'], K4 as [K4 K4']. exists (s_next s2). cbn [fst snd].
  assert (Q : s_next s2 < s_next (SpecCmd.with_symbol K_PARAM n (Some ty) s2)) by (cbn; lia).
  split; [reflexivity|]. split; [lia|]. split; [|exact (param_attrs G sig of _ _ _ _ _ A)]. rewrite K4' by lia. rewrite K3' by lia. cbn -[term_eqb]. now rewrite term_eqb_refl.
Qed.
Lemma is_param_wider p lo hi s lo' hi' s' : is_param p lo hi s -> lo' <= lo -> hi <= hi' -> names_kept s s' -> hi <= s_next s -> is_param p lo' hi' s'.
Proof. intros (i & E & L & N & A) L1 L2 [K1 K2] H. exists i. split; [exact E|]. split; [lia|]. split; [|exact A]. rewrite <- N, E. apply K2. lia. Qed.
Lemma params_facts of s xs ps s1 : params_in G sig of s xs ps s1 ->
  names_kept s s1 /\ Forall (fun p => is_param p (s_next s) (s_next s1) s1) ps /\ NoDup (terms_of ps).
Proof.
  induction 1 as [s|s x p s1 xs ps s2 H H' IH]; [split; [apply kept_refl | split; constructor]|].
  destruct (param_fact _ _ _ _ _ H) as [K P]. destruct IH as (K' & Ps & ND). split; [eauto using kept_trans|]. split.
  - constructor; [eapply is_param_wider; [exact P | lia | apply K' | exact K' | lia]|].
    eapply Forall_impl; [|exact Ps]. intros q Q. eapply is_param_wider; [exact Q | apply K | lia | apply kept_refl | lia].
  - cbn [terms_of map]. constructor; [|exact ND]. intros I. apply in_map_iff in I. destruct I as (q & E & I). rewrite Forall_forall in Ps.
    destruct (Ps q I) as (j & E1 & L1 & _). destruct P as (i & E2 & L2 & _). rewrite E1, E2 in E. injection E as E. lia.
Qed.
Lemma attrs_of_param ps p : NoDup (terms_of ps) -> In p (explicit ps) ->
  match find (fun e => term_eqb (fst e) (snd (fst p))) (amap_of ps) with Some e => attr_mem (snd e) A_OPAQUE | None => false end = is_opaque p.
Proof.
  intros ND I. apply filter_In in I. destruct I as [I E]. apply negb_true_iff in E. induction ps as [|q ps IH]; [destruct I|]. cbn [terms_of map] in ND.
  inversion ND as [|? ? N1 N2]; subst. cbn [amap_of map find fst]. destruct I as [->|I].
  - rewrite term_eqb_refl. cbn [snd]. rewrite E. reflexivity.
  - rewrite term_eqb_neq; [now apply IH|]. intros X. apply N1. rewrite X. exact (in_map (fun p : text * term * attrs => snd (fst p)) ps p I).
Qed.
Lemma explicit_implicit (ps : list (text * term * attrs)) : Nat.ltb (length (terms_of (explicit ps))) (length (amap_of ps)) = existsb is_implicit ps.
Proof.
  unfold terms_of, amap_of. rewrite !map_length. assert (L : (length (explicit ps) <= length ps)%nat).
  { induction ps as [|p ps IH]; [reflexivity|]. unfold explicit in *. cbn [filter]. destruct (negb (is_implicit p)); cbn [length]; lia. }
  induction ps as [|p ps IH]; [reflexivity|]. unfold explicit in *. cbn [filter existsb] in *. destruct (is_implicit p); cbn [negb] in *.
  - cbn [orb length]. apply Nat.ltb_lt. assert (length (filter (fun p => negb (is_implicit p)) ps) <= length ps)%nat.
    { clear. induction ps as [|p ps IH]; [reflexivity|]. cbn [filter]. destruct (negb (is_implicit p)); cbn [length]; lia. } lia.
  - cbn [orb length] in *. rewrite <- IH; [reflexivity | lia].
Qed.

(** ** The attributes of parameters do nothing *)
Definition used (s : st) (p : term * attrs) (s1 : st) : Prop :=
  exists u, usage (snd p) u /\ match u with Some (a, ct) => marked (fst p) a ct s s1 | None => s1 = s end.
Lemma only_maps am : only (processAttributeMaps am) (fun s _ s1 => every used s am s1).
Proof.
  apply only_for. intros p. eapply only_iff; [apply only_bind; [apply only_lift|]; intros u; apply (only_option _ _ u _ _ (fun x s _ s1 => marked (fst p) (fst x) (snd x) s s1)); [intros [a ct]; apply only_mark | apply only_ret]|].
  intros s [] s1. split.
  - intros (u & s2 & (E & ->) & [((a & ct) & -> & M)|(-> & _ & ->)]); apply usage_iff in E; eexists; (split; [exact E|]); [exact M | reflexivity].
  - intros (u & U & M). apply usage_iff in U. exists u, s. split; [auto|]. destruct u as [[a ct]|]; [left; eexists; split; [reflexivity | exact M] | right; auto].
Qed.
Lemma params_used s ps lo hi s' s1 : Forall (fun p => is_param p lo hi s') ps -> every used s (amap_of ps) s1 <-> s1 = s.
Proof.
  intros H. revert s. induction H as [|p ps P H IH]; intros s.
  - split; [intros X; now inversion X | intros ->; constructor].
  - cbn [amap_of map]. assert (U : forall u, usage (if is_implicit p then attr_erase (snd p) A_IMPLICIT else snd p) u <-> u = None).
    { destruct P as (i & _ & _ & _ & P). assert (Q : forall a v, In (a, v) (if is_implicit p then attr_erase (snd p) A_IMPLICIT else snd p) -> ~ In a kind_attrs).
      { intros a v I. destruct (is_implicit p); [|exact (P a v I)]. apply filter_In in I. exact (P a v (proj1 I)). }
      intros u. split; [|intros ->; now constructor]. intros [X|before a after m1 v m2 ct E B F N C]; [reflexivity|]. exfalso. apply (Q a v); [rewrite F; apply in_or_app; right; now left|].
      rewrite E. apply in_or_app. right. now left. }
    split.
    + intros X. inversion X as [|? ? s2 ? ? (u & U1 & M) Y]; subst. apply U in U1. subst u. subst s2. now apply IH in Y.
    + intros ->. econstructor; [exists None; split; [now apply U | reflexivity]|]. now apply IH.
Qed.

(** ** Constants with parameters *)
Fixpoint pa (s : st) (ps : list term) (am : list (term * attrs)) (t : term) (o : list term) (r : term * list term) : Prop :=
  match ps with
  | [] => r = (t, o)
  | p :: ps' => exists q, param_type G s p t q /\
      if match find (fun e => term_eqb (fst e) p) am with Some e => attr_mem (snd e) A_OPAQUE | None => false end
      then pa s ps' am t (q :: o) r else o = [] /\ pa s ps' am (arrow q t) [] r
  end.
Lemma only_arrows ps am : forall t o, only (paramArrows G ps am t o) (fun s r s1 => pa s ps am t o r /\ s1 = s).
Proof.
  induction ps as [|p ps IH]; intros t o; [apply only_ret|]. cbn [paramArrows].
  eapply only_iff; [apply only_bind; [apply only_typeOf|]; intros ty; cbv zeta; apply only_bind; [apply only_lift|]; intros b; apply only_bind; [|intros q];
    [apply only_if; [apply only_if; [apply only_ret | apply only_err] | apply only_ret]
    | apply only_if; [apply IH | apply only_list; [apply IH | intros ? ?; apply only_err]]]|].
  intros s r s1. cbn [pa]. split.
  - intros (ty & s2 & (T & ->) & b & s3 & (B & ->) & q & s4 & Q & R).
    assert (Q' : param_type G s p t q /\ s4 = s).
    { destruct Q as [(-> & [(Gr & -> & ->)|(_ & [])])|(-> & -> & ->)]; (split; [|reflexivity]); [eapply pt_quoted; eassumption | eapply pt_plain; eassumption]. }
    destruct Q' as [Q' ->]. split; [exists q; split; [exact Q'|]|].
    + destruct R as [(E & R & ->)|(E & [(-> & R & ->)|(x & y & -> & [])])]; rewrite E; auto.
    + destruct R as [(E & R & ->)|(E & [(-> & R & ->)|(x & y & -> & [])])]; reflexivity.
  - intros ((q & Q & R) & ->).
    assert (Q' : exists ty b, tc_type (tc (env_of G s) (g_n G)) p = Ok ty /\ hasVariable t [p] = Ok b /\
      (b = true /\ (isGround (or_null ty) = true /\ q = Node K_QUOTE_TYPE [p] /\ s = s \/ isGround (or_null ty) = false /\ False) \/ b = false /\ q = or_null ty /\ s = s)).
    { destruct Q as [ty V T Gr|ty V T]; [exists ty, true | exists ty, false]; auto 10. }
    destruct Q' as (ty & b & T & V & Q'). exists ty, s. split; [auto|]. exists b, s. split; [auto|]. exists q, s. split; [exact Q'|].
    destruct (match find _ am with Some _ => _ | None => _ end); [left; auto | right]. destruct R as [-> R]. split; [reflexivity | left; auto].
Qed.
Lemma pa_app s am ps2 r : forall ps1 t o, pa s (ps1 ++ ps2) am t o r <-> exists t1 o1, pa s ps1 am t o (t1, o1) /\ pa s ps2 am t1 o1 r.
Proof.
  induction ps1 as [|p ps1 IH]; intros t o; cbn [app pa].
  - split; [eauto|]. intros (t1 & o1 & E & H). injection E as -> ->. exact H.
  - split.
    + intros (q & Q & R). destruct (match find _ am with Some _ => _ | None => _ end) eqn:E.
      * apply IH in R. destruct R as (t1 & o1 & R1 & R2). exists t1, o1. split; [exists q; auto | exact R2].
      * destruct R as [-> R]. apply IH in R. destruct R as (t1 & o1 & R1 & R2). exists t1, o1. split; [exists q; auto | exact R2].
    + intros (t1 & o1 & (q & Q & R1) & R2). exists q. split; [exact Q|]. destruct (match find _ am with Some _ => _ | None => _ end) eqn:E.
      * apply IH. eauto.
      * destruct R1 as [-> R1]. split; [reflexivity|]. apply IH. eauto.
Qed.
Lemma pa_arrows s am t ps : forall t1 o1,
  (forall p, In p ps -> match find (fun e => term_eqb (fst e) (snd (fst p))) am with Some e => attr_mem (snd e) A_OPAQUE | None => false end = is_opaque p) ->
  pa s (rev (terms_of ps)) am t [] (t1, o1) <-> param_arrows G s ps t t1 o1.
Proof.
  induction ps as [|p ps IH]; intros t1 o1 A; cbn [terms_of map rev].
  - cbn [pa]. split; [intros H; injection H as -> ->; constructor | intros H; inversion H; reflexivity].
  - rewrite pa_app. assert (A1 := A p (or_introl eq_refl)). assert (IH' : forall t1 o1, pa s (rev (terms_of ps)) am t [] (t1, o1) <-> param_arrows G s ps t t1 o1) by (intros; apply IH; intros; apply A; now right).
    cbn [pa]. rewrite A1. split.
    + intros (t2 & o2 & R & (q & Q & R')). apply IH' in R. destruct (is_opaque p) eqn:E; [injection R' as -> ->; now apply pw_opaque|]. destruct R' as [-> R']. injection R' as -> ->. now apply pw_arg.
    + intros H. inversion H as [|? ? ? t2 q E R Q|? ? ? t2 o q E R Q]; subst; rewrite E; do 2 eexists; (split; [apply IH'; exact R|]); exists q; auto.
Qed.
Lemma only_disambiguated pat ty n : only (mkDisambiguatedType G pat ty n) (fun s t s1 => disambiguated G s pat ty n t s1).
Proof.
  eapply only_iff; [apply only_bind; [apply only_new|]; intros p; apply only_bind; [apply only_apply|]; intros tp; apply only_bind; [apply only_node; auto|]; intros pr;
    apply only_bind; [apply only_mark|]; intros u0; apply only_bind; [apply only_new|]; intros tv; apply only_bind; [apply only_apply|]; intros app; apply only_ret|].
  intros s t s1. split.
  - intros (p & s2 & P & tp & s3 & (T & ->) & pr & s4 & (-> & ->) & u & s5 & M & tv & s6 & V & ap & s7 & (A & ->) & -> & ->).
    apply (first_mark _ _ _ _ _ (new_unmarked _ _ _ _ _ _ P)) in M. subst s5. econstructor; eassumption.
  - intros [p s2 tp tv s3 ap P T V A]. exists p, s2. split; [exact P|]. exists tp, s2. split; [auto|]. eexists _, s2. split; [auto|]. eexists tt, _.
    split; [apply (first_mark _ _ _ _ _ (new_unmarked _ _ _ _ _ _ P)); reflexivity|]. exists tv, s3. split; [exact V|]. exists ap, s3. auto.
Qed.

(** ** Rules *)
Definition rgo (s : st) : list (term * term) -> term -> term -> Prop :=
  fix go l t r := match l with [] => r = t | (a, b) :: l' => exists c, mkExpr (env_of G s) (g_n G) (g_mk G) K_EVAL_REQUIRES [a; b; t] = Ok c /\ go l' c r end.
Lemma rgo_app s l2 r : forall l1 t, rgo s (l1 ++ l2) t r <-> exists c, rgo s l1 t c /\ rgo s l2 c r.
Proof.
  induction l1 as [|[a b] l1 IH]; intros t; cbn [app rgo]; [split; [eauto | intros (c & -> & H); exact H]|]. split.
  - intros (c & E & H). apply IH in H. destruct H as (c' & H1 & H2). eauto.
  - intros (c' & (c & E & H1) & H2). exists c. split; [exact E|]. apply IH. eauto.
Qed.
Lemma rgo_requires s l t r : rgo s (rev l) t r <-> requires G s l t r.
Proof.
  revert r. induction l as [|[a b] l IH]; intros r; cbn [rev].
  - cbn [rgo]. split; [intros ->; constructor | intros H; now inversion H].
  - rewrite rgo_app. cbn [rgo]. split.
    + intros (c & H & (c' & E & ->)). apply IH in H. econstructor; eassumption.
    + intros H. inversion H as [|? ? ? ? r1 ? H1 E]; subst. exists r1. split; [now apply IH | eauto].
Qed.
Lemma only_requires l t : only (mkRequiresM G (map tuple l) t) (fun s r s1 => requires G s l t r /\ s1 = s).
Proof.
  unfold mkRequiresM. rewrite <- map_rev. apply (only_iff _ _ (fun s r s1 => rgo s (rev l) t r /\ s1 = s)); [|intros s r s1; now rewrite rgo_requires].
  revert t. induction (rev l) as [|[a b] l' IH]; intros t; [apply only_ret|]. cbn [map tuple tchildren].
  eapply only_iff; [apply only_bind; [apply only_lift|]; intros a1; apply only_bind; [apply only_lift|]; intros a2; apply only_bind; [apply only_mkE|]; intros c; apply IH|].
  intros s r s1. cbn [rgo]. split.
  - intros (a1 & s2 & (E1 & ->) & a2 & s3 & (E2 & ->) & c & s4 & (E3 & ->) & H & ->). injection E1 as <-. injection E2 as <-. eauto.
  - intros ((c & E & H) & ->). exists a, s. split; [auto|]. exists b, s. split; [auto|]. exists c, s. auto.
Qed.
Lemma only_pairck pat r : only (checkPair pat r) (fun s _ s1 => typeCheckProgramPair sym_self pat r = Ok tt /\ s1 = s).
Proof. eapply only_iff; [apply only_lift|]. intros s [] s1. reflexivity. Qed.
Lemma only_program n args r : only (ruleProgram G n args r) (fun s p s1 => rule_program G s n args r p s1).
Proof.
  destruct args as [|a0 args].
  - cbn [ruleProgram]. eapply only_iff; [apply only_if; [apply only_ret | apply only_err]|]. intros s p s1. split.
    + intros [(E & -> & ->)|(_ & [])]. apply andb_prop in E. destruct E as [E1 E2]. apply negb_true_iff in E2. now constructor.
    + intros H. inversion H as [? E1 E2|? ? ? ? ? ? ? N]; subst; [|now contradiction N]. left. rewrite E1, E2. auto.
  - set (l := a0 :: args). assert (N : l <> []) by discriminate. change (ruleProgram G n l r) with
      (let! types := mmap l (fun a => if kind_eqb (tkind a) K_PROOF then mret sym_Proof else mkSymbol K_PARAM (txt "$eo_arg_") (Some t_Type)) in
       let! prog := mkSymbol K_PROGRAM_CONST (txt "$eo_prog_" ++ n) (Some (Node K_PROGRAM_TYPE (types ++ [t_Bool]))) in
       let! ppat := mkE G K_APPLY (prog :: l) in
       checkPair ppat r ;; let! def := mkE G K_PROGRAM [Node K_TUPLE [ppat; r]] in defineProgram prog def ;; mret prog).
    eapply only_iff; [apply only_bind; [apply (only_map _ _ l _ rule_arg_type); intros a; unfold rule_arg_type; destruct (kind_eqb (tkind a) K_PROOF); [apply only_ret | apply only_new]|]; intros tys; apply only_bind; [apply only_new|]; intros p; apply only_bind; [apply only_apply|]; intros pat;
      apply only_bind; [apply only_pairck|]; intros u0; apply only_bind; [apply only_node; auto|]; intros def; apply only_bind; [apply only_mark|]; intros u1; apply only_ret|].
    + intros s p s1. split.
      * intros (tys & s2 & T & p' & s3 & P & pat & s4 & (A & ->) & u & s5 & (C & ->) & def & s6 & (-> & ->) & u1 & s7 & M & -> & ->).
        apply (first_mark _ _ _ _ _ (new_unmarked _ _ _ _ _ _ P)) in M. subst s7. econstructor; eassumption.
      * intros H. inversion H as [|? ? tys s2 ? s3 pat _ T P A C]; subst. exists tys, s2. split; [exact T|]. exists p, s3. split; [exact P|].
        exists pat, s3. split; [auto|]. exists tt, s3. split; [auto|]. eexists _, s3. split; [auto|]. eexists tt, _.
        split; [apply (first_mark _ _ _ _ _ (new_unmarked _ _ _ _ _ _ P)); reflexivity|]. auto.
Qed.

(** ** Programs *)
Lemma only_cases p arity cs : only (checkCases p arity (map tuple cs)) (fun s _ s1 => Forall (case_ok p arity) cs /\ s1 = s).
Proof.
  induction cs as [|[a b] cs IH]; [eapply only_iff; [apply only_ret|]; intros s [] s1; split; [intros [_ ->]; auto | intros [_ ->]; auto]|]. cbn [map tuple checkCases tchildren].
  eapply only_iff; [apply only_bind; [apply only_lift|]; intros pc; apply only_bind; [apply only_lift|]; intros rhs; apply only_if; [apply only_err|]; apply only_bind; [apply only_lift|]; intros hd;
    apply only_if; [apply only_err|]; apply only_if; [apply only_err|]; apply only_bind; [apply only_pairck|]; intros u0; apply IH|].
  intros s [] s1. split.
  - intros (pc & s2 & (E1 & ->) & rhs & s3 & (E2 & ->) & [(_ & [])|(K & hd & s4 & (E3 & ->) & [(_ & [])|(H & [(_ & [])|(L & u & s5 & (C & ->) & F & ->)])])]).
    injection E1 as <-. injection E2 as <-. split; [|reflexivity]. constructor; [|exact F]. apply negb_false_iff in K, H, L. apply kind_eqb_eq in K. apply term_eqb_eq in H. apply Nat.eqb_eq in L. subst hd.
    destruct a as [k i|l|k [|c args]]; try discriminate E3. cbn in K. subst k. cbn in E3. injection E3 as ->. exists args. cbn [fst snd]. split; [reflexivity|]. split; [now injection L | exact C].
  - intros (F & ->). inversion F as [|? ? (args & E & L & C) F']; subst. cbn [fst snd] in *. subst a. exists (Node K_APPLY (p :: args)), s. split; [auto|]. exists b, s. split; [auto|].
    right. split; [reflexivity|]. exists p, s. split; [auto|]. right. split; [now rewrite term_eqb_refl|]. right. split; [cbn [tchildren length]; now rewrite Nat.eqb_refl|].
    exists tt, s. auto.
Qed.
Lemma program_iff s p : (exists t, getProgram (env_of G s) p = Some t) <-> is_program s p.
Proof.
  unfold is_program. assert (E : getProgram (env_of G s) p = match s_marks s p with Some (A_PROGRAM, c) => c | _ => None end).
  { unfold getProgram, env_of. cbn [e_info]. destruct (s_marks s p) as [[a ct]|].
    - transitivity (match a with A_PROGRAM => ct | _ => None end); [|now destruct a]. now destruct (builtin_kind p).
    - destruct (builtin_kind p); try reflexivity. now destruct (overloads_of (s_scope s) p). }
  rewrite E. destruct (s_marks s p) as [[a ct]|]; [|split; intros (t & X); discriminate X]. destruct (attr_eqb a A_PROGRAM) eqn:A.
  - apply attr_eqb_eq in A. subst a. split; intros (t & X); exists t; congruence.
  - split; intros (t & X); destruct a; try discriminate X; discriminate A.
Qed.

(** ** Definitions *)
Lemma bind_param rt sc n i : exists c, bind_sym rt sc n (Sym K_PARAM i) = Some c.
Proof. unfold bind_sym. cbn [tkind kind_eqb]. rewrite andb_false_r. destruct (c_sym sc n); eauto. Qed.
Definition rebound (s : st) (v : term) (s1 : st) : Prop :=
  match bind_sym (o_ruleSymTable (s_opts s)) (s_scope s) (e_name (env_of G s) v) v with Some c => s1 = set_scope c s | None => s1 = s end.
Lemma only_rebound vs : only (mfor vs (fun v => let! s := mget in let! _ := bindState (e_name (env_of G s) v) v in mret tt)) (fun s _ s1 => every rebound s vs s1).
Proof.
  apply only_for. intros v l s. unfold rebound, bindState, mbind, mget, mupd, mret. cbn [bind fst snd].
  destruct (bind_sym (o_ruleSymTable (s_opts s)) (s_scope s) (e_name (env_of G s) v) v) as [c|]; cbn [bind fst snd]; split.
  - intros [] p X. injection X as <-. eauto.
  - intros [] s1 ->. now right.
  - intros [] p X. injection X as <-. eauto.
  - intros [] s1 ->. now right.
Qed.
Lemma rebound_named ps lo hi : forall s s1, Forall (fun p => is_param p lo hi s) ps -> every rebound s (terms_of ps) s1 <-> named_in s (map fst ps) s1.
Proof.
  induction ps as [|[[n v] m] ps IH]; intros s s1 P; cbn [terms_of map fst snd].
  - split; intros H; inversion H; constructor.
  - inversion P as [|? ? (i & E & L & N & A) P']; subst. cbn [fst snd] in *. subst v. destruct (bind_param (o_ruleSymTable (s_opts s)) (s_scope s) n i) as (c & B).
    assert (R : forall s2, rebound s (Sym K_PARAM i) s2 <-> s2 = set_scope c s).
    { intros s2. unfold rebound. change (e_name (env_of G s) (Sym K_PARAM i)) with (s_names s (Sym K_PARAM i)). rewrite N, B. reflexivity. }
    assert (P2 : Forall (fun p => is_param p lo hi (set_scope c s)) ps) by exact P'. split.
    + intros H. inversion H as [|? ? s2 ? ? H1 H2]; subst. apply R in H1. subst s2. econstructor; [exact B|]. now apply IH.
    + intros H. inversion H as [|? ? ? ? c' ? B' H1]; subst. rewrite B in B'. injection B' as <-. econstructor; [now apply R|]. now apply IH.
Qed.
Lemma named_kept s ds s1 : named_in s ds s1 -> names_kept s s1.
Proof. intros H. apply kept_same. eauto using same_named. Qed.
Lemma visible_iff ps lo hi s s1 : Forall (fun p => is_param p lo hi s) ps ->
  (existsb is_implicit ps = true /\ (exists s2, left_scope s s2 /\ every rebound (entered s2) (terms_of (explicit ps)) s1) \/ existsb is_implicit ps = false /\ s1 = s)
  <-> visible s ps s1.
Proof.
  intros P. assert (E : forall s2, left_scope s s2 -> Forall (fun p => is_param p lo hi (entered s2)) (explicit ps)).
  { intros s2 (c & _ & ->). apply Forall_forall. intros p I. apply filter_In in I. rewrite Forall_forall in P. exact (P p (proj1 I)). }
  split.
  - intros [(X & s2 & L & R)|(X & ->)].
    + eapply vi_some; [|exact L | now apply (rebound_named _ lo hi) in R; [exact R | apply E]]. apply existsb_exists in X. apply Exists_exists. exact X.
    + apply vi_all. apply Forall_forall. intros p I. destruct (is_implicit p) eqn:Y; [|reflexivity]. rewrite <- X. symmetry. apply existsb_exists. eauto.
  - intros [X|s2 s3 X L R].
    + right. split; [|reflexivity]. destruct (existsb is_implicit ps) eqn:Y; [|reflexivity]. apply existsb_exists in Y. destruct Y as (p & I & Y). rewrite Forall_forall in X. rewrite (X p I) in Y. discriminate Y.
    + left. split; [apply existsb_exists; now apply Exists_exists in X|]. exists s2. split; [exact L|]. now apply (rebound_named _ lo hi) in R; [exact R | apply E].
Qed.
Lemma only_cons v : only (consTermOf G v) (fun s ct s1 => constructor_of G s v ct /\ s1 = s).
Proof. intros l s. split; [intros ct p X; apply cons_inv in X; destruct X as [X ->]; eauto | intros ct s1 [X ->]; right; now apply cons_at]. Qed.
Lemma only_binder v vs : only (mkBinderList G v vs) (fun s r s1 => (exists ct, constructor_of G s v ct /\ applied s (ct :: vs) r) /\ s1 = s).
Proof.
  eapply only_iff; [apply only_bind; [apply only_cons|]; intros ct; apply only_apply|]. intros s r s1. split.
  - intros (ct & s2 & (C & ->) & A & ->). eauto.
  - intros ((ct & C & A) & ->). exists ct, s. auto.
Qed.

(** ** Assumptions and assertions *)
Lemma only_normal f : only (normalForm G f) (fun s r s1 => normal_form G s f r /\ s1 = s).
Proof.
  intros l s. assert (E : normalForm G f (l, s) = (if absent (s_refNf s) then mret f else mkE G K_APPLY [s_refNf s; f]) (l, s)) by reflexivity. rewrite E.
  unfold normal_form. destruct (absent (s_refNf s)); [exact (only_ret _ f l s) | exact (only_apply G [s_refNf s; f] l s)].
Qed.
Lemma only_asserts f : only (addReferenceAssert G f) (fun s _ s1 => asserts G s f s1).
Proof.
  eapply only_iff; [apply only_bind; [apply only_normal|]; intros f'; apply only_bind; [apply only_upd|]; intros u0; apply only_log|]. intros s [] s1. split.
  - intros (f' & s2 & (N & ->) & u & s3 & -> & ->). exists f'. auto.
  - intros (f' & N & ->). exists f', s. split; [auto|]. exists tt. eexists. split; [reflexivity|]. reflexivity.
Qed.
Lemma only_assumption f : only (let! ok := addAssumption G f in if ok then mret tt else merr)
  (fun s _ s1 => permitted G (set_asm (s_asm s ++ [f]) s) f /\ s1 = set_asm (s_asm s ++ [f]) s).
Proof.
  eapply only_iff; [apply only_bind; [apply only_bind; [apply only_upd|]; intros u0; apply only_bind; [apply only_get|]; intros s;
    apply only_if; [apply only_list; [apply only_bind; [apply only_normal|]; intros f'; apply only_ret | intros ? ?; apply only_ret] | apply only_ret]|]; intros ok; apply only_if; [apply only_ret | apply only_err]|].
  intros s [] s1. split.
  - intros (ok & s2 & (u & s3 & -> & s4 & s5 & (-> & ->) & H) & [(-> & _ & ->)|(_ & [])]). unfold permitted.
    destruct H as [(R & [(C & f' & s6 & (N & ->) & E & ->)|(x & y & C & _ & ->)])|(R & _ & ->)]; (split; [|reflexivity]); intros R' C'.
    + exists f'. split; [exact N|]. symmetry in E. apply existsb_exists in E. destruct E as (g & I & E). apply term_eqb_eq in E. now subst g.
    + congruence.
    + congruence.
  - intros (P & ->). exists true. eexists. split; [|left; auto]. exists tt. eexists. split; [reflexivity|]. eexists _, _. split; [split; reflexivity|].
    unfold permitted in P. destruct (s_hasRef (set_asm (s_asm s ++ [f]) s)) eqn:R; [left; split; [reflexivity|] | right; auto].
    destruct (s_asmctx (set_asm (s_asm s ++ [f]) s)) as [|x y] eqn:C; [left; split; [reflexivity|] | right; eauto]. destruct (P eq_refl eq_refl) as (f' & N & I).
    exists f'. eexists. split; [auto|]. split; [|reflexivity]. symmetry. apply existsb_exists. exists f'. split; [exact I | apply term_eqb_refl].
Qed.
Lemma only_level : only pushAssumptionScope (fun s _ s1 => s1 = with_level s).
Proof.
  eapply only_iff; [apply only_bind; [apply only_push|]; intros u0; apply only_upd|]. intros s [] s1. split.
  - intros (u & s2 & -> & ->). reflexivity.
  - intros ->. exists tt. eexists. split; reflexivity.
Qed.
Lemma only_unlevel : only popAssumptionScope (fun s _ s1 => closes_level s s1).
Proof.
  intros l s. unfold closes_level. assert (Q : popAssumptionScope (l, s) = match s_asmctx s with [] => mlift UB
    | n :: ctx => mupd (fun s => set_asmctx ctx (set_asm (firstn n (s_asm s)) s)) ;; popM end (l, s)) by reflexivity. rewrite Q.
  destruct (s_asmctx s) as [|n ctx] eqn:E.
  - split; [intros [] p X; discriminate X | intros [] s1 (n & ctx & X & _); discriminate X].
  - destruct (only_bind _ _ _ _ _ _ (only_upd (fun s => set_asmctx ctx (set_asm (firstn n (s_asm s)) s))) (fun u => only_pop) l s) as [H1 H2]. split.
    + intros u p X. destruct (H1 u p X) as (s1 & -> & u1 & s2 & -> & Y). exists s1. split; [reflexivity|]. eauto.
    + intros u s1 (n' & ctx' & X & Y). injection X as <- <-. apply H2. exists tt. eexists. split; [reflexivity | exact Y].
Qed.
Lemma only_listed ts : only (mkListM G ts) (fun s r s1 => listed G s ts r /\ s1 = s).
Proof. destruct ts as [|t ts]; [apply only_ret | apply only_apply]. Qed.
Lemma only_sort n k : only (mkTypeConstant n k) (fun s t s1 => type_constant s n k t s1).
Proof. unfold mkTypeConstant, type_constant. exact (only_new K_CONST n _). Qed.
Lemma classes_kinds k : existsb (kind_eqb k) literalKinds = true <-> In k (map snd literal_classes).
Proof.
  rewrite existsb_exists. split.
  - intros (k' & I & E). apply kind_eqb_eq in E. subst k'. cbn in *. tauto.
  - intros I. exists k. split; [cbn in *; tauto | now apply kind_eqb_eq].
Qed.
Lemma only_literals k t : only (let! s := mget in let! m := mlift (setLiteralTypeRule (s_lits s) k t) in mupd (set_lits m))
  (fun s _ s1 => In k (map snd literal_classes) /\ (s_lits s k = None \/ s_lits s k = Some t) /\ s1 = set_lits (fun k' => if kind_eqb k k' then Some t else s_lits s k') s).
Proof.
  intros l s. unfold setLiteralTypeRule, mbind, mget, mlift, mupd. cbn [bind fst snd]. destruct (existsb (kind_eqb k) literalKinds) eqn:E.
  2: { split; [intros [] p X; discriminate X | intros [] s1 (I & _)]. apply classes_kinds in I. congruence. }
  apply classes_kinds in E. destruct (s_lits s k) as [t'|] eqn:L; [destruct (term_eqb t' t) eqn:T|]; cbn [bind fst snd].
  - apply term_eqb_eq in T. subst t'. split; [intros [] p X; injection X as <-; eauto 8 | intros [] s1 (_ & _ & ->); now right].
  - split; [intros [] p X; discriminate X | intros [] s1 (_ & [X|X] & _); [discriminate X|]]. injection X as ->. rewrite term_eqb_refl in T. discriminate T.
  - split; [intros [] p X; injection X as <-; eauto 8 | intros [] s1 (_ & _ & ->); now right].
Qed.
End Parts.
