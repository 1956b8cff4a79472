(** Each command is its case of [does]. *)
From Coq Require Import String ZArith List Bool Lia.
From Verif Require Import Base Kind Ints Str Literal Arity Term TermProofs Match Eval ListOps Typing Build Scope Lexer Parse Check
  SpecRead SpecCmd FrontProofs CheckProofs ReadProofs CmdProofs CmdProofs2 CmdProofs3 CmdProofs4 CmdProofs5.
Import ListNotations.
Open Scope Z_scope.

Ltac fwd := unp; subst; repeat (match goal with
  | H : r_item _ _ _ _ _ _ |- _ => unfold r_item in H
  | H : pure _ _ _ _ _ |- _ => destruct H
  | H : o_bind _ _ _ _ _ |- _ => unfold o_bind in H
  | H : list_in _ _ _ _ _ |- _ => destruct H
  | H : _ :: _ = _ :: _ |- _ => injection H; clear H; intros
  | H : [] = _ :: _ |- _ => discriminate H
  | H : _ :: _ = [] |- _ => discriminate H
  | H : (_, _) = (_, _) |- _ => injection H; clear H; intros
  | H : XL _ = XL _ |- _ => injection H; clear H; intros
  | H : length (_ :: _) = 1%nat |- _ => injection H; clear H; intros
  | H : length ?l = 0%nat |- _ => apply length_zero_iff_nil in H
  | H : true = false |- _ => discriminate H
  | H : false = true |- _ => discriminate H
  | H : _ \/ _ |- _ => destruct H
  end; unp; subst).
Ltac bwd := repeat first [eassumption | reflexivity | match goal with
  | |- exists _, _ => eexists
  | |- _ /\ _ => split
  end | progress unfold r_bind, r_only, r_item, pure, o_bind, list_in].

Ltac skip := match goal with |- mbind (mret ?a) ?f ?p = _ => change (mbind (mret a) f p) with (f a p); cbv beta iota zeta end.
Ltac same := apply mbind_ext; intros ? ?.

Section Cmds.
Variable G : config.
Variable sig : bool.
Variable isRef : bool.
Variable inc : text -> bool -> bool -> term -> M bool.
Variable included : text -> bool -> bool -> term -> st -> st -> Prop.
Hypothesis INC : forall f a b nf, only (let! ok := inc f a b nf in if ok then mret tt else merr) (fun s _ s1 => included f a b nf s s1).
Hypothesis HC : forall n t, g_varinfo G (g_bvar G n t) = Some (n, t).
Notation reads := (SpecRead.reads G sig).
Notation applied := (SpecRead.applied G).
Notation of_type := (SpecRead.of_type G).
Notation pe := (parseExpr G sig (g_fuel G)).
Notation does := (does G sig isRef included).

Definition is_command (m : M unit) (c : command) : Prop :=
  parses CF 1 (m ;; eat T_RPAREN) (fun s i _ s1 i1 => exists xs, i = [xs] /\ i1 = [] /\ does s c xs s1) (fun _ => CF) (fun _ => O).

Lemma is_command_if m c R : parses CF 1 m R (fun _ => CO) (fun _ => 1%nat) -> (forall s xs s1, R s [xs] tt s1 [[]] <-> does s c xs s1) -> is_command m c.
Proof.
  intros H E. assert (Q := p_bind _ _ CF 1 m (fun _ => eat T_RPAREN) R _ _ _ _ _ H (fun _ => p_close CO 0)).
  intros l s i l' T. destruct (Q l s i l' T) as [Q1 Q2]. destruct i as [|xs [|? ?]]; try (destruct T as [D _ _ _]; discriminate D). split.
  - intros [] p X. destruct (Q1 tt p X) as (l1 & s1 & i1 & -> & ([] & s2 & i2 & R1 & -> & ->) & U). assert (D := ai_depth _ _ _ _ _ U). apply length_zero_iff_nil in D. subst i1.
    exists l1, s2, []. split; [reflexivity|]. split; [|exact U]. exists xs. split; [reflexivity|]. split; [reflexivity | now apply E].
  - intros [] s1 i1 (ys & Y & -> & D). injection Y as <-. apply Q2. exists tt, s1, [[]]. split; [now apply E | auto].
Qed.
Lemma e_only A c d (m : M A) P : cle c CO = true -> only m P -> parses c d m (r_only P) (fun _ => CO) (fun _ => d).
Proof. intros L H. apply (parses_le _ CO c d _ _ (fun _ => CO)); [exact L | reflexivity | now apply p_only]. Qed.

Lemma c_assume : is_command (cmdAssume G sig false) C_ASSUME.
Proof.
  eapply is_command_if; [eapply p_bind; [apply p_symbol|]; intros n; eapply p_bind; [apply p_formula; exact HC|]; intros f;
    eapply p_bind; [apply p_ret|]; intros u0; eapply p_bind; [apply p_only; apply only_bound|]; intros u1; eapply p_bind; [apply p_only; apply only_log|]; intros u2;
    apply e_only; [reflexivity | apply only_assumption]|].
  intros s xs s1. split.
  - intros H. fwd. econstructor; eauto.
  - intros H. inversion H; subst. bwd.
Qed.
Lemma c_assume_push : is_command (cmdAssume G sig true) C_ASSUME_PUSH.
Proof.
  eapply is_command_if; [eapply p_bind; [apply p_symbol|]; intros n; eapply p_bind; [apply p_formula; exact HC|]; intros f;
    eapply p_bind; [apply p_only; apply only_level|]; intros u0; eapply p_bind; [apply p_only; apply only_bound|]; intros u1; eapply p_bind; [apply p_only; apply only_log|]; intros u2;
    apply e_only; [reflexivity | apply only_assumption]|].
  intros s xs s1. split.
  - intros H. fwd. econstructor; eauto.
  - intros H. inversion H; subst. bwd. intros _ C. match goal with X : bound _ _ _ _ |- _ => destruct X as (c & _ & ->) end. discriminate C.
Qed.
Lemma only_usage m : only (mlift (processAttributeMap m)) (fun s u s1 => usage m u /\ s1 = s).
Proof. eapply only_iff; [apply only_lift|]. intros s u s1. split; intros [X ->]; (split; [now apply usage_iff | reflexivity]). Qed.
Lemma only_with_usage v (u : option (attr * option term)) :
  only (match u with Some (a, ct) => let! ok := markM v a ct in if ok then mret tt else merr | None => mret tt end)
    (fun s _ s1 => (u <> None -> s_marks s v = None) /\ s1 = with_usage v u s).
Proof.
  destruct u as [[a ct]|].
  - eapply only_iff; [apply only_mark_first|]. intros s [] s1. cbn [with_usage]. split; [intros [X ->]; auto | intros [X ->]; split; [now apply X | reflexivity]].
  - eapply only_iff; [apply only_ret|]. intros s [] s1. cbn [with_usage]. split; [intros [_ ->]; split; [congruence | reflexivity] | intros [_ ->]; auto].
Qed.
Definition constM : M unit :=
  let! name := parseSymbol in
  let! ty := parseType G pe false true in
  let! m := parseAttributeList G pe K_CONST null_term K_NONE in
  let! u := mlift (processAttributeMap m) in
  let! v := mkSymbol K_CONST name (Some ty) in
  match u with Some (a, ct) => let! ok := markM v a ct in if ok then mret tt else merr | None => mret tt end ;;
  bindM name v.
Lemma const_eq p : cmdDeclare G sig C_DECLARE_CONST p = constM p.
Proof.
  unfold cmdDeclare, constM. cbv zeta. same. skip. skip. same. rewrite mbind_assoc. same. same. cbn [rev paramArrows mkFunctionType fold_right].
  skip. skip. change (processAttributeMaps []) with (mret tt). skip. skip. same. same. reflexivity.
Qed.
Lemma c_const : is_command (cmdDeclare G sig C_DECLARE_CONST) C_DECLARE_CONST.
Proof.
  eapply is_command_if; [eapply parses_ext; [exact const_eq|]; eapply p_bind; [apply p_symbol|]; intros n; eapply p_bind; [apply p_type; exact HC|]; intros ty;
    eapply p_bind; [apply p_attrs; [exact HC | reflexivity]|]; intros m; eapply p_bind; [apply p_only; apply only_usage|]; intros u; eapply p_bind; [apply p_only; apply only_new|]; intros v;
    eapply p_bind; [apply p_only; apply only_with_usage|]; intros u0; apply p_only; apply only_bound|].
  intros s xs s1. split.
  - intros H. fwd. econstructor; eauto.
  - intros H. inversion H; subst. bwd. intros _. eapply new_unmarked. eassumption.
Qed.
Definition funM : M unit :=
  let! name := parseSymbol in
  let! tys := parseTypeList G pe false in
  let! ty := parseType G pe false true in
  let! v := mkSymbol K_CONST name (Some (mkFunctionType tys ty)) in
  bindM name v.
Lemma fun_eq p : cmdDeclare G sig C_DECLARE_FUN p = funM p.
Proof.
  unfold cmdDeclare, funM. cbv zeta. same. same. skip. same. skip. cbn [rev paramArrows].
  skip. skip. change (processAttributeMaps []) with (mret tt). skip. skip. same. skip. skip. reflexivity.
Qed.
Lemma c_fun : is_command (cmdDeclare G sig C_DECLARE_FUN) C_DECLARE_FUN.
Proof.
  eapply is_command_if; [eapply parses_ext; [exact fun_eq|]; eapply p_bind; [apply p_symbol|]; intros n; eapply p_bind; [apply p_types; exact HC|]; intros tys; eapply p_bind; [apply p_type; exact HC|]; intros ty;
    eapply p_bind; [apply p_only; apply only_new|]; intros v; apply e_only; [reflexivity|]; apply only_bound|].
  intros s xs s1. split.
  - intros H. fwd. econstructor; eauto.
  - intros H. inversion H; subst. bwd.
Qed.
Definition paramM : M unit :=
  let! name := parseSymbol in
  pushM ;;
  let! (params, amap) := parseVarListMap G pe K_CONST in
  let! ret := parseType G pe false true in
  let! m := parseAttributeList G pe K_CONST null_term K_NONE in
  let! u := mlift (processAttributeMap m) in
  let! (t1, opaque) := paramArrows G (rev params) amap ret [] in
  let! (args, r) := mlift (getFunctionType t1) in
  let! fv := mlift (let* pargs := getVariables (args ++ opaque) in findFreeVar sym_self r pargs) in
  let! (t2, ck2) := match fv with
      | None => mret (t1, u)
      | Some _ =>
          match u, opaque with
          | None, [] => let! t2 := mkDisambiguatedType G r t1 name in mret (t2, Some (A_AMB, None))
          | _, _ => merr
          end
      end in
  processAttributeMaps amap ;;
  let! (t3, ck3) :=
    match opaque with
    | [] => mret (t2, ck2)
    | _ =>
        match ck2 with
        | Some _ => merr
        | None => mret (mkFunctionType opaque t2, Some (A_OPAQUE, Some (Lit (LNum (Z.of_nat (length opaque))))))
        end
    end in
  let! v := mkSymbol K_CONST name (Some t3) in
  match ck3 with Some (a, ct) => let! ok := markM v a ct in if ok then mret tt else merr | None => mret tt end ;;
  popM ;;
  bindM name v.
Lemma param_eq p : cmdDeclare G sig C_DECLARE_PARAMETERIZED_CONST p = paramM p.
Proof.
  unfold cmdDeclare, paramM. cbv zeta. same. skip. rewrite mbind_assoc. same. same. destruct a1 as [params amap]. same. rewrite mbind_assoc. same. same.
  cbn [mkFunctionType fold_right]. same. destruct a4 as [t1 opaque]. rewrite mbind_assoc. same. destruct a4 as [args r]. rewrite mbind_assoc. reflexivity.
Qed.
Definition r_amb (n : text) (t1 r : term) (opaque : list term) (fv : option term) (u : option (attr * option term)) (s : st) (x : term * option (attr * option term)) (s1 : st) : Prop :=
  fv = None /\ x = (t1, u) /\ s1 = s \/ fv <> None /\ u = None /\ opaque = [] /\ exists t2, disambiguated G s r t1 n t2 s1 /\ x = (t2, Some (A_AMB, None)).
Lemma only_amb n t1 r opaque fv u : only (match fv with
      | None => mret (t1, u)
      | Some _ =>
          match u, opaque with
          | None, [] => let! t2 := mkDisambiguatedType G r t1 n in mret (t2, Some (A_AMB, None))
          | _, _ => merr
          end
      end) (r_amb n t1 r opaque fv u).
Proof.
  unfold r_amb. destruct fv as [v|].
  - destruct u as [u|]; [eapply only_iff; [apply only_err|]; intros s x s1; split; [intros [] | intros [(X & _)|(_ & X & _)]; discriminate X]|].
    destruct opaque as [|o opaque]; [|eapply only_iff; [apply only_err|]; intros s x s1; split; [intros [] | intros [(X & _)|(_ & _ & X & _)]; discriminate X]].
    eapply only_iff; [apply only_bind; [apply only_disambiguated|]; intros t2; apply only_ret|]. intros s x s1. split.
    + intros (t2 & s2 & D & -> & ->). right. split; [discriminate|]. eauto.
    + intros [(X & _)|(_ & _ & _ & t2 & D & ->)]; [discriminate X|]. exists t2, s1. auto.
  - eapply only_iff; [apply only_ret|]. intros s x s1. split; [intros [-> ->]; auto | intros [(_ & -> & ->)|(X & _)]; [auto | now contradiction X]].
Qed.
Definition r_opq (opaque : list term) (t2 : term) (ck2 : option (attr * option term)) (x : term * option (attr * option term)) : Prop :=
  opaque = [] /\ x = (t2, ck2) \/ opaque <> [] /\ ck2 = None /\ x = (arrows opaque t2, Some (A_OPAQUE, Some (Lit (LNum (Z.of_nat (length opaque)))))).
Lemma only_opq opaque t2 (ck2 : option (attr * option term)) : only (match opaque with
    | [] => mret (t2, ck2)
    | _ =>
        match ck2 with
        | Some _ => merr
        | None => mret (mkFunctionType opaque t2, Some (A_OPAQUE, Some (Lit (LNum (Z.of_nat (length opaque))))))
        end
    end) (fun s x s1 => r_opq opaque t2 ck2 x /\ s1 = s).
Proof.
  unfold r_opq. destruct opaque as [|o opaque].
  - eapply only_iff; [apply only_ret|]. intros s x s1. split; [intros [-> ->]; auto | intros ([(_ & ->)|(X & _)] & ->); [auto | now contradiction X]].
  - destruct ck2 as [c|]; (eapply only_iff; [first [apply only_err | apply only_ret]|]); intros s x s1.
    + split; [intros [] | intros ([(X & _)|(_ & X & _)] & _); discriminate X].
    + split; [intros [-> ->]; split; [right; split; [discriminate | auto] | reflexivity] | intros ([(X & _)|(_ & _ & ->)] & ->); [discriminate X | auto]].
Qed.
Lemma loose_iff r args b : loose r args b <-> exists fv, (let* pargs := getVariables args in findFreeVar sym_self r pargs) = Ok fv /\ b = match fv with Some _ => true | None => false end.
Proof.
  unfold loose. split.
  - intros (ps & x & V & F & ->). exists x. rewrite V. auto.
  - intros (fv & E & ->). apply bind_ok in E. destruct E as (ps & V & F). eauto.
Qed.
Lemma param_const_iff n ps ret u lo hi s0 s t3 ck3 s4 : Forall (fun p => is_param p lo hi s0) ps -> NoDup (terms_of ps) ->
  (exists t1 o args r fv t2 ck2 s5, pa G s (rev (terms_of (explicit ps))) (amap_of ps) ret [] (t1, o) /\ getFunctionType t1 = Ok (args, r) /\
     (let* pargs := getVariables (args ++ o) in findFreeVar sym_self r pargs) = Ok fv /\ r_amb n t1 r o fv u s (t2, ck2) s5 /\ every used s5 (amap_of ps) s4 /\ r_opq o t2 ck2 (t3, ck3))
  <-> param_const G s n (explicit ps) ret u t3 ck3 s4.
Proof.
  intros P ND. assert (PA : forall t1 o, pa G s (rev (terms_of (explicit ps))) (amap_of ps) ret [] (t1, o) <-> param_arrows G s (explicit ps) ret t1 o).
  { intros t1 o. apply pa_arrows. intros p I. now apply attrs_of_param. }
  split.
  - intros (t1 & o & args & r & fv & t2 & ck2 & s5 & A & F & V & B & U & Q). apply PA in A. apply (params_used _ _ _ _ _ _ P) in U. subst s5.
    destruct B as [(-> & E & ->)|(N & -> & -> & t2' & D & E)]; injection E as -> ->.
    + destruct Q as [(-> & E)|(N & -> & E)]; injection E as -> ->; [eapply pc_plain | eapply pc_opaque]; eauto; apply loose_iff; exists None; (split; [|reflexivity]); [rewrite app_nil_r in V; exact V | exact V].
    + destruct Q as [(_ & E)|(X & _)]; [injection E as -> -> | now contradiction X]. rewrite app_nil_r in V. eapply pc_amb; eauto. apply loose_iff. exists fv. split; [exact V|]. now destruct fv.
  - intros [ty args r A F L|ty o args r N A F L E|ty args r t2 s1 A F L E D]; apply PA in A; apply loose_iff in L; destruct L as (fv & V & X).
    + exists ty, [], args, r, fv, ty, u, s. rewrite app_nil_r. destruct fv; [discriminate X|]. split; [exact A|]. split; [exact F|]. split; [exact V|]. split; [left; auto|].
      split; [now apply (params_used _ _ _ _ _ _ P) | left; auto].
    + subst u. exists ty, o, args, r, fv, ty, None, s. destruct fv; [discriminate X|]. split; [exact A|]. split; [exact F|]. split; [exact V|]. split; [left; auto|].
      split; [now apply (params_used _ _ _ _ _ _ P) | right; auto].
    + subst u. exists ty, [], args, r, fv, t2, (Some (A_AMB, None)), s1. rewrite app_nil_r. destruct fv; [|discriminate X]. split; [exact A|]. split; [exact F|]. split; [exact V|].
      split; [right; split; [discriminate | eauto]|]. split; [now apply (params_used _ _ _ _ _ _ P) | left; auto].
Qed.
Lemma c_param : is_command (cmdDeclare G sig C_DECLARE_PARAMETERIZED_CONST) C_DECLARE_PARAMETERIZED_CONST.
Proof.
  eapply is_command_if; [eapply parses_ext; [exact param_eq|]; eapply p_bind; [apply p_symbol|]; intros n; eapply p_bind; [apply p_only; apply only_push|]; intros u0;
    eapply p_bind2; [apply p_params; [exact HC | discriminate]|]; intros vs am; eapply p_bind; [apply p_type; exact HC|]; intros ty;
    eapply p_bind; [apply p_attrs; [exact HC | reflexivity]|]; intros m; eapply p_bind; [apply p_only; apply only_usage|]; intros u;
    eapply p_bind2; [apply p_only; apply only_arrows|]; intros t1 o; eapply p_bind2; [apply p_only; apply only_lift|]; intros args r; eapply p_bind; [apply p_only; apply only_lift|]; intros fv;
    eapply p_bind2; [apply p_only; apply only_amb|]; intros t2 ck2; eapply p_bind; [apply p_only; apply only_maps|]; intros u1; eapply p_bind2; [apply p_only; apply only_opq|]; intros t3 ck3;
    eapply p_bind; [apply p_only; apply only_new|]; intros v;
    eapply p_bind; [apply p_only; apply only_with_usage|]; intros u2; eapply p_bind; [apply p_only; apply only_pop|]; intros u3; apply p_only; apply only_bound|].
  intros s xs s1. split.
  - intros H. fwd. match goal with P : each (param_in _ _ _) _ _ ?ps _ |- _ => destruct (params_facts _ _ _ _ _ _ _ P) as (_ & PF & ND); rename P into PI end.
    econstructor; try eassumption. eapply param_const_iff; [exact PF | exact ND|]. do 8 eexists. repeat (split; [eassumption|]). assumption.
  - intros H. inversion H; subst. match goal with P : params_in _ _ _ _ _ ?ps _, C : param_const _ _ ?n (explicit ?ps) ?ret ?u _ _ _ |- _ =>
      destruct (params_facts _ _ _ _ _ _ _ P) as (_ & PF & ND); eapply (param_const_iff n ps ret u _ _ _ _ _ _ _ PF ND) in C;
      destruct C as (t1 & o & args & r & fv & t2 & ck2 & s9 & C1 & C2 & C3 & C4 & C5 & C6) end.
    bwd. intros _. eapply new_unmarked. eassumption.
Qed.
Lemma c_literals : is_command (cmdDeclareConsts G sig) C_DECLARE_CONSTS.
Proof.
  eapply is_command_if; [eapply (parses_ext _ _ _ _ (pushM ;; bindM (txt "eo::self") sym_self ;; let! k := parseLiteralKind in let! t := parseType G pe false true in
      (let! s := mget in let! m := mlift (setLiteralTypeRule (s_lits s) k t) in mupd (set_lits m)) ;; logEvent (EvLiteral k t) ;; popM));
    [intros p; unfold cmdDeclareConsts; same; same; same; same; rewrite mbind_assoc; same; rewrite mbind_assoc; reflexivity|];
    eapply p_bind; [apply p_only; apply only_push|]; intros u0; eapply p_bind; [apply p_only; apply only_bound|]; intros u1; eapply p_bind; [apply p_class|]; intros k;
    eapply p_bind; [apply p_type; exact HC|]; intros ty; eapply p_bind; [apply p_only; apply only_literals|]; intros u2; eapply p_bind; [apply p_only; apply only_log|]; intros u3;
    apply e_only; [reflexivity | apply only_pop]|].
  intros s xs s1. split.
  - intros H. fwd; econstructor; eauto.
  - intros H. inversion H; subst. bwd. match goal with I : In (_, _) literal_classes |- _ => exact (in_map snd _ _ I) end.
Qed.
Lemma c_sort : is_command cmdDeclareSort C_DECLARE_SORT.
Proof.
  eapply is_command_if; [eapply p_bind; [apply p_symbol|]; intros n; eapply p_bind; [apply p_number|]; intros k; eapply p_bind; [apply p_only; apply only_sort|]; intros t;
    apply e_only; [reflexivity | apply only_bound]|].
  intros s xs s1. split.
  - intros H. fwd. econstructor; eauto.
  - intros H. inversion H; subst. bwd.
Qed.
Lemma c_define_const : is_command (cmdDefineConst G sig) C_DEFINE_CONST.
Proof.
  eapply is_command_if; [eapply p_bind; [apply p_symbol|]; intros n; eapply p_bind; [apply p_type; exact HC|]; intros ty; eapply p_bind; [apply p_pe; exact HC|]; intros e;
    eapply p_bind; [apply p_only; apply only_typeAs|]; intros u0; apply e_only; [reflexivity | apply only_bound]|].
  intros s xs s1. split.
  - intros H. fwd. econstructor; eauto.
  - intros H. inversion H; subst. bwd.
Qed.
Lemma only_typeparam n : only (let! v := mkSymbol K_PARAM n (Some t_Type) in bindM n v ;; mret v) (fun s v s1 => type_param s n v s1).
Proof.
  eapply only_iff; [apply only_bind; [apply only_new|]; intros v; apply only_bind; [apply only_bound|]; intros u0; apply only_ret|]. intros s v s1. unfold type_param. split.
  - intros H. fwd. bwd.
  - intros H. fwd. bwd.
Qed.
Lemma each_names xs : forall s ns s1, each (pure named) s xs ns s1 <-> Forall2 named xs ns /\ s1 = s.
Proof.
  induction xs as [|x xs IH]; intros s ns s1.
  - split; [intros H; inversion H; auto | intros [H ->]; inversion H; constructor].
  - split.
    + intros H. inversion H as [|? ? n s2 ? l ? [N ->] H']; subst. apply IH in H'. destruct H' as [F ->]. auto.
    + intros [H ->]. inversion H as [|? n ? l N F]; subst. econstructor; [split; [exact N | reflexivity] | apply IH; auto].
Qed.
Lemma p_names c d : parses c (S d) (parseSymbolList G) (r_item (fun s x ns s1 => s1 = s /\ exists xs, x = XL xs /\ Forall2 named xs ns)) (fun _ => CF) (fun _ => S d).
Proof.
  eapply item_iff; [apply p_symbols|]. intros s x ns s1. split.
  - intros (xs & -> & H). apply each_names in H. destruct H as [H ->]. eauto.
  - intros (-> & xs & -> & H). exists xs. split; [reflexivity|]. now apply each_names.
Qed.
Lemma c_define_sort : is_command (cmdDefineSort G sig) C_DEFINE_SORT.
Proof.
  eapply is_command_if; [eapply p_bind; [apply p_symbol|]; intros n; eapply p_bind; [apply p_names|]; intros ns; apply p_list;
    [eapply p_bind; [apply p_type; exact HC|]; intros ty; apply e_only; [reflexivity | apply only_bound]|];
    intros n1 ns1; eapply p_bind; [apply p_only; apply only_push|]; intros u0; eapply p_bind; [apply p_only; apply only_map; intros nn; apply only_typeparam|]; intros vs;
    eapply p_bind; [apply p_type; exact HC|]; intros ty; eapply p_bind; [apply p_only; apply only_pop|]; intros u1; eapply p_bind; [apply p_only; apply only_node; auto|]; intros vl;
    eapply p_bind; [apply p_only; apply only_node; auto|]; intros lam; apply e_only; [reflexivity | apply only_bound]|].
  intros s xs s1. split.
  - intros H. fwd.
    + match goal with F : Forall2 _ _ [] |- _ => inversion F; subst end. econstructor; eauto.
    + eapply do_define_sort_params; eauto. match goal with F : Forall2 _ _ (_ :: _) |- _ => inversion F; discriminate end.
  - intros H. inversion H; subst.
    + do 3 eexists. split; [bwd|]. exists []. do 2 eexists. split; [bwd; constructor|]. left. bwd.
    + destruct names as [|n1 names]; [match goal with F : Forall2 _ _ [] |- _ => inversion F; subst end; congruence|].
      do 3 eexists. split; [bwd|]. exists (n1 :: names). do 2 eexists. split; [bwd|]. right. bwd.
Qed.
Lemma c_reset : is_command cmdReset C_RESET.
Proof.
  eapply is_command_if; [eapply p_bind; [apply p_upd|]; intros u0; apply e_only; [reflexivity | apply only_log]|]. intros s xs s1. split.
  - intros H. fwd. constructor.
  - intros H. inversion H; subst. bwd.
Qed.
Lemma c_assert : is_command (let! a := parseFormula G pe in addReferenceAssert G a) C_ASSERT.
Proof.
  eapply is_command_if; [eapply p_bind; [apply p_formula; exact HC|]; intros f; apply e_only; [reflexivity | apply only_asserts]|]. intros s xs s1. split.
  - intros H. fwd. econstructor; eauto.
  - intros H. inversion H; subst. bwd.
Qed.
Lemma c_nothing c : c = C_EXIT \/ c = C_CHECK_SAT -> is_command (mret tt) c.
Proof.
  intros C. eapply is_command_if; [apply e_only; [reflexivity | apply only_ret]|]. intros s xs s1. split.
  - intros H. fwd; constructor.
  - intros H. destruct C as [-> | ->]; inversion H; subst; bwd.
Qed.
Lemma c_check_assuming : is_command (let! _ := parseExprList G pe in mret tt) C_CHECK_SAT_ASSUMING.
Proof.
  eapply is_command_if; [eapply p_bind; [apply p_exprs; exact HC|]; intros ts; apply e_only; [reflexivity | apply only_ret]|]. intros s xs s1. split.
  - intros H. fwd. econstructor; eauto.
  - intros H. inversion H; subst. bwd.
Qed.
Lemma c_logic : is_command (let! _ := parseSymbol in mret tt) C_SET_LOGIC.
Proof.
  eapply is_command_if; [eapply p_bind; [apply p_symbol|]; intros n; apply e_only; [reflexivity | apply only_ret]|]. intros s xs s1. split.
  - intros H. fwd. econstructor; eauto.
  - intros H. inversion H; subst. bwd.
Qed.
End Cmds.
