(** More commands: those that look at the next word, definitions, programs, steps. *)
From Coq Require Import String ZArith List Bool Lia.
From Verif Require Import Base Kind Ints Str Literal Arity Term TermProofs Match Eval ListOps Typing Build Scope Lexer Parse Check
  SpecRead SpecCmd FrontProofs CheckProofs ReadProofs CmdProofs CmdProofs2 CmdProofs3 CmdProofs4 CmdProofs5 CmdProofs6.
Import ListNotations.
Open Scope Z_scope.

Lemma token_eqb_eq a b : token_eqb a b = true <-> a = b.
Proof. split; [now destruct a, b | intros ->; now destruct b]. Qed.
Lemma token_eqb_neq a b : token_eqb a b = false <-> a <> b.
Proof. destruct (token_eqb a b) eqn:E; [apply token_eqb_eq in E | assert (a <> b) by (intros ->; now destruct b)]; split; congruence. Qed.

(** Looking at the next word. *)
Definition r_look {A} (t : token) (R1 R2 : rel A) : rel A := fun s i a s1 i1 => first i = t /\ R1 s i a s1 i1 \/ first i <> t /\ R2 s i a s1 i1.
Lemma p_look A B t d (m1 m2 : M A) (f : A -> M B) R1 R2 Q c2 d2 d3 :
  parses CO (S d) m1 R1 (fun _ => CO) d2 -> parses CO (S d) m2 R2 (fun _ => CO) d2 -> (forall a, parses CO (d2 a) (f a) (Q a) c2 d3) ->
  parses CF (S d) (let! tok := peek in let! a := (if token_eqb tok t then m1 else m2) in f a) (r_bind (r_look t R1 R2) Q) c2 d3.
Proof.
  intros H1 H2 F. eapply parses_iff;
    [eapply p_bind; [apply p_peek|]; intros tok; eapply p_bind; [apply (p_if _ CO _ (token_eqb tok t)); [exact H1 | exact H2]|]; exact F|].
  intros s i b s1 i1 _. unfold r_bind, r_look. split.
  - intros (tok & s2 & i2 & (-> & -> & ->) & a & s3 & i3 & [[T X]|[T X]] & Y).
    + apply token_eqb_eq in T. exists a, s3, i3. auto.
    + apply token_eqb_neq in T. exists a, s3, i3. auto.
  - intros (a & s3 & i3 & [[T X]|[T X]] & Y); exists (first i), s, i; (split; [auto|]); exists a, s3, i3; (split; [|exact Y]).
    + left. split; [now apply token_eqb_eq | exact X].
    + right. split; [now apply token_eqb_neq | exact X].
Qed.
Lemma p_o A c d (m : M A) R d2 : parses c d m R (fun _ => CF) d2 -> parses c d m R (fun _ => CO) d2.
Proof. apply parses_le; [now destruct c | reflexivity]. Qed.

Lemma item_map A A' B (g : A' -> A) c d (m : M A) (f : A -> M B) (R : st -> sx -> A' -> st -> Prop) (P : A' -> st -> B -> st -> Prop) c2 d2 :
  parses c d m (r_item (fun s x a s1 => exists a', R s x a' s1 /\ a = g a')) (fun _ => c2) (fun _ => d2) -> (forall a', only (f (g a')) (P a')) ->
  parses c d (mbind m f) (r_item (fun s x b s2 => exists a' s1, R s x a' s1 /\ P a' s1 b s2)) (fun _ => c2) (fun _ => d2).
Proof.
  intros H F l s i l' T. destruct (H l s i l' T) as [H1 H2]. split.
  - intros b p X. apply mbind_ok in X. destruct X as (a & p1 & X & Y). destruct (H1 a p1 X) as (l1 & s1 & i1 & -> & (x & xs & i' & -> & (a' & E & ->) & ->) & U).
    destruct (F a' l1 s1) as [F1 _]. destruct (F1 b p Y) as (s2 & -> & Z). exists l1, s2, (xs :: i'). split; [reflexivity|]. split; [|exact U]. exists x, xs, i'. eauto 6.
  - intros b s2 i1 (x & xs & i' & -> & (a' & s1 & E & Z) & ->). destruct (H2 (g a') s1 (xs :: i')) as [X|(l1 & X & U)]; [exists x, xs, i'; eauto 6 | left; now apply mbind_fuel|].
    destruct (F a' l1 s1) as [_ F2]. rewrite (mbind_at _ _ _ _ _ _ _ X). destruct (F2 b s2 Z) as [Y|Y]; [now left | right; eauto].
Qed.

Section Cmds.
Variable G : config.
Variable sig : bool.
Variable isRef : bool.
Variable inc : text -> bool -> bool -> term -> M bool.
Variable included : text -> bool -> bool -> term -> st -> st -> Prop.
Hypothesis INC : forall f a b nf, only (let! ok := inc f a b nf in if ok then mret tt else merr) (fun s _ s1 => included f a b nf s s1).
Hypothesis HC : forall n t, g_varinfo G (g_bvar G n t) = Some (n, t).
Notation reads := (SpecRead.reads G sig).
Notation applied := (SpecRead.applied G).
Notation of_type := (SpecRead.of_type G).
Notation pe := (parseExpr G sig (g_fuel G)).
Notation does := (does G sig isRef included).
Notation is_command := (is_command G sig isRef included).

Lemma c_echo : is_command cmdEcho C_ECHO.
Proof.
  eapply is_command_if; [eapply p_look; [apply p_o; apply p_str | apply p_ret |]; intros msg; apply p_only; apply only_log|].
  intros s xs s1. split.
  - intros H. unfold r_look in H. fwd; try discriminate; constructor; auto.
  - intros H. inversion H; subst.
    + exists []. do 2 eexists. split; [right; split; [discriminate | bwd]|]. bwd.
    + match goal with Q : quoted _ _ |- _ => destruct Q as (w & -> & Q) end. do 3 eexists. split; [left; split; [reflexivity|]; exists (XT T_STRING w); do 2 eexists; split; [reflexivity|]; split; [|reflexivity]; split; [exists w; eauto | reflexivity]|]. bwd.
Qed.
Lemma c_pushpop b : is_command (cmdPushPop b) (if b then C_PUSH else C_POP).
Proof.
  eapply is_command_if; [eapply p_look; [apply p_o; apply p_number | apply p_ret |]; intros k; apply p_only;
    apply (only_for _ _ _ (fun s _ s' => if b then s' = logged EvPush (entered s) else exists s1, left_scope s s1 /\ s' = logged EvPop s1)); intros [];
    (eapply only_iff; [apply (only_if _ b); (apply only_bind; [apply only_push || apply only_pop | intros u0; apply only_log])|]); intros s [] s1; unfold o_bind; split;
      [intros [(-> & [] & s2 & -> & ->)|(-> & [] & s2 & L & ->)]; eauto | destruct b; [intros ->; left; split; [reflexivity|]; bwd; exact tt | intros (s2 & L & ->); right; split; [reflexivity|]; bwd; exact tt]]|].
  intros s xs s1. split.
  - intros H. unfold r_look in H. fwd; try discriminate; destruct b; econstructor; eauto; constructor; auto.
  - intros H.
    assert (K : exists k, count xs k /\ every (fun s _ s' => if b then s' = logged EvPush (entered s) else exists s1, left_scope s s1 /\ s' = logged EvPop s1) s (repeat tt (Z.to_nat k)) s1).
    { destruct b; inversion H; subst; eauto. }
    destruct K as (k & [|x n N] & E).
    + exists 1. do 2 eexists. split; [right; split; [discriminate | bwd]|]. bwd.
    + destruct N as (w & -> & N). do 3 eexists. split; [left; split; [reflexivity|]; exists (XT T_INTEGER w); do 2 eexists; split; [reflexivity|]; split; [|reflexivity]; split; [exists w; eauto | reflexivity]|]. bwd.
Qed.
Lemma c_include : is_command (cmdInclude G sig inc false) C_INCLUDE.
Proof.
  eapply is_command_if; [eapply p_bind; [apply p_get|]; intros s0; apply (p_if _ CF 1 (false && s_hasRef s0)); [apply p_err|]; apply p_if; [apply p_err|];
    eapply p_bind; [apply p_peek|]; intros tok; apply p_if; [apply p_err|]; eapply p_bind; [apply p_str|]; intros f; eapply p_bind; [apply p_ret|]; intros nf; apply e_only; [reflexivity | apply INC]|].
  intros s xs s1. split.
  - intros H. fwd; try discriminate. match goal with X : negb (Nat.eqb _ _) = false |- _ => apply negb_false_iff in X; apply Nat.eqb_eq in X; apply length_zero_iff_nil in X end.
    eapply do_include; eauto.
  - intros H. inversion H as []; subst. match goal with Q : quoted _ _ |- _ => destruct Q as (w & -> & Q) end.
    exists s, s, [[XT T_STRING w]]. split; [auto|]. right. split; [reflexivity|]. right. match goal with C : s_asmctx _ = [] |- _ => rewrite C end. split; [reflexivity|].
    exists T_STRING. do 2 eexists. split; [auto|]. right. split; [reflexivity|]. do 3 eexists. split; [exists (XT T_STRING w); do 2 eexists; split; [reflexivity|]; split; [|reflexivity]; split; [exists w; eauto | reflexivity]|]. bwd.
Qed.
Lemma rparen_reads w s t s1 : ~ reads s (XT T_RPAREN w) t s1.
Proof. intros H. inversion H; subst; try discriminate. match goal with W : word_term _ _ _ _ _ |- _ => inversion W end. Qed.
Lemma c_reference : is_command (cmdInclude G sig inc true) C_REFERENCE.
Proof.
  eapply is_command_if; [eapply p_bind; [apply p_get|]; intros s0; apply (p_if _ CF 1 (true && s_hasRef s0)); [apply p_err|]; apply p_if; [apply p_err|];
    eapply p_bind; [apply p_peek|]; intros tok; apply p_if; [apply p_err|]; eapply p_bind; [apply p_str|]; intros f;
    eapply (parses_ext _ _ _ _ (let! t := peek in let! nf := (if token_eqb t T_RPAREN then mret null_term else pe) in let! ok := inc f (negb true) true nf in if ok then mret tt else merr));
      [intros p; rewrite mbind_assoc; reflexivity|];
    eapply p_look; [apply p_ret | apply p_o; apply p_pe; exact HC|]; intros nf; apply p_only; apply INC|].
  intros s xs s1. split.
  - intros H. unfold r_look in H. fwd; try discriminate; match goal with X : negb (Nat.eqb _ _) = false |- _ => apply negb_false_iff in X; apply Nat.eqb_eq in X; apply length_zero_iff_nil in X end.
    + eapply do_reference; eauto.
    + eapply do_reference_nf; eauto.
  - intros H. inversion H; subst; (match goal with Q : quoted _ _ |- _ => destruct Q as (w & -> & Q) end);
    (eexists s, s, [_]; split; [auto|]; right; split; [match goal with C : s_hasRef _ = _ |- _ => now rewrite C end|]; right; match goal with C : s_asmctx _ = [] |- _ => rewrite C end; split; [reflexivity|];
    exists T_STRING; do 2 eexists; split; [auto|]; right; split; [reflexivity|]; do 3 eexists; split; [exists (XT T_STRING w); do 2 eexists; split; [reflexivity|]; split; [|reflexivity]; split; [exists w; eauto | reflexivity]|]).
    + do 3 eexists. split; [left; split; [reflexivity | bwd]|]. bwd.
    + do 3 eexists. split; [right; split; [|bwd]|].
      * intros E. match goal with R : reads _ ?x _ _ |- _ => destruct x as [k v|ys]; [cbn [first] in E; subst k; now apply rparen_reads in R | discriminate E] end.
      * bwd.
Qed.

(** ** Definitions *)
Definition visM : M (list term) :=
  let! x := parseVarListMap G pe K_LAMBDA in
  let! _ := (if Nat.ltb (length (fst x)) (length (snd x)) then
     popM ;; pushM ;;
     mfor (fst x) (fun v => let! s := mget in let! _ := bindState (e_name (env_of G s) v) v in mret tt)
   else mret tt) in
  let! _ := processAttributeMaps (snd x) in
  mret (fst x).
Lemma p_vis c d : parses c (S d) visM (r_item (fun s x vs s1 => exists ps s0, list_in (param_in G sig K_LAMBDA) s x ps s0 /\ visible s0 ps s1 /\ vs = terms_of (explicit ps))) (fun _ => CF) (fun _ => S d).
Proof.
  eapply item_iff.
  - eapply item_then; [apply p_params; [exact HC | discriminate]|]. intros x.
    apply only_bind; [apply only_if; [apply only_bind; [apply only_pop|]; intros u0; apply only_bind; [apply only_push|]; intros u1; apply only_rebound | apply only_ret]|]. intros u0.
    apply only_bind; [apply only_maps|]. intros u1. apply only_ret.
  - intros s x vs s1. cbv beta. split.
    + intros ([vs0 am] & s0 & (ps & I & E) & u0 & s2 & V & u1 & s3 & U & -> & ->). injection E as -> ->. cbn [fst snd] in *. destruct I as (xs & -> & I).
      destruct (params_facts _ _ _ _ _ _ _ I) as (_ & PF & ND). apply (params_used _ _ _ _ _ _ PF) in U. subst s3. rewrite explicit_implicit in V.
      exists ps, s0. split; [exists xs; auto|]. split; [|reflexivity]. apply (visible_iff G ps _ _ s0 s2 PF). destruct V as [(X & u2 & s3 & L & u3 & s4 & -> & R)|(X & _ & ->)]; [left; eauto | right; auto].
    + intros (ps & s0 & I & V & ->). exists (terms_of (explicit ps), amap_of ps), s0. split; [eauto|]. cbn [fst snd]. destruct I as (xs & -> & I).
      destruct (params_facts _ _ _ _ _ _ _ I) as (_ & PF & ND). rewrite explicit_implicit. exists tt, s1. split.
      * apply (visible_iff G ps _ _ s0 s1 PF) in V. destruct V as [(X & s2 & L & R)|(X & ->)]; [left; split; [exact X|]; exists tt, s2; split; [exact L|]; exists tt; eauto | right; auto].
      * exists tt, s1. split; [now apply (params_used _ _ _ _ _ _ PF) | auto].
Qed.
Definition defineM : M unit :=
  pushM ;;
  let! name := parseSymbol in
  let! vars := visM in
  let! expr := pe in
  let! e := match vars with [] => mret expr | v :: vs => let! vl := mkE G K_TUPLE (v :: vs) in mkE G K_LAMBDA [vl; expr] end in
  let! _ := parseAttributeList G pe K_LAMBDA e K_NONE in
  popM ;;
  bindM name e.
Ltac skipr := match goal with |- _ = mbind (mret ?a) ?f ?p => change (mbind (mret a) f p) with (f a p); cbv beta iota zeta end.
Lemma define_eq p : cmdDefine G sig false p = defineM p.
Proof.
  unfold cmdDefine, defineM, visM. cbv beta iota. same. same. rewrite mbind_assoc. same. destruct a1 as [vars amap]. cbn [fst snd]. rewrite mbind_assoc. same. rewrite mbind_assoc. same. skipr. skip. same.
  change (is_null null_term) with true. cbv iota. skip. rewrite mbind_assoc.
  destruct vars. { skip. skipr. rewrite mbind_assoc. same. reflexivity. } rewrite !mbind_assoc. same. same. rewrite mbind_assoc. same. reflexivity.
Qed.
Lemma c_define : is_command (cmdDefine G sig false) C_DEFINE.
Proof.
  eapply is_command_if; [eapply parses_ext; [exact define_eq|]; eapply p_bind; [apply p_only; apply only_push|]; intros u0; eapply p_bind; [apply p_symbol|]; intros n;
    eapply p_bind; [apply p_vis|]; intros vars; eapply p_bind; [apply p_pe; exact HC|]; intros e;
    eapply p_bind; [apply p_list; [apply p_only; apply only_ret|]; intros v vs; eapply p_bind; [apply p_only; apply only_node; auto|]; intros vl; apply p_only; apply only_node; auto|]; intros r;
    eapply p_bind; [apply p_attrs; [exact HC | reflexivity]|]; intros m; eapply p_bind; [apply p_only; apply only_pop|]; intros u1; apply p_only; apply only_bound|].
  intros s xs s1. split.
  - intros H. fwd; (eapply do_define; try eassumption); match goal with X : terms_of _ = _ |- _ => rewrite X; reflexivity end.
  - intros H. inversion H; subst. destruct (terms_of (explicit ps)) as [|v vs] eqn:T.
    + exists tt. do 2 eexists. split; [bwd|]. do 3 eexists. split; [bwd|]. do 3 eexists. split; [bwd|]. do 3 eexists. split; [bwd|].
      do 3 eexists. split; [left; split; [exact T | bwd]|]. bwd.
    + exists tt. do 2 eexists. split; [bwd|]. do 3 eexists. split; [bwd|]. do 3 eexists. split; [bwd|]. do 3 eexists. split; [bwd|].
      do 3 eexists. split; [right; exists v, vs; split; [exact T | bwd]|]. bwd.
Qed.
Definition funDefM (vars : list term) (expr ret : term) (s : st) : M (term * term) :=
  match vars with
  | [] => mret (expr, ret)
  | _ =>
      match getVar (s_scope s) (txt "lambda") with
      | None => merr
      | Some lam =>
          let! bvl := mkBinderList G lam vars in
          let! rhs := mkE G K_APPLY [lam; bvl; expr] in
          let! types := mmap vars (typeCheck G) in
          mret (rhs, mkFunctionType types ret)
      end
  end.
Lemma each_types vs : forall s tys s1, each (fun s v ty s1 => of_type s v ty /\ s1 = s) s vs tys s1 <-> Forall2 (of_type s) vs tys /\ s1 = s.
Proof.
  induction vs as [|v vs IH]; intros s tys s1.
  - split; [intros H; inversion H; auto | intros [H ->]; inversion H; constructor].
  - split.
    + intros H. inversion H as [|? ? ty s2 ? l ? [T ->] H']; subst. apply IH in H'. destruct H' as [F ->]. auto.
    + intros [H ->]. inversion H as [|? ty ? l T F]; subst. econstructor; [split; [exact T | reflexivity] | apply IH; auto].
Qed.
Definition fdef (s0 s : st) (vars : list term) (e ret rhs ty : term) : Prop :=
  vars = [] /\ rhs = e /\ ty = ret \/
  vars <> [] /\ exists lam ct vl tys, getVar (s_scope s0) (txt "lambda") = Some lam /\ constructor_of G s lam ct /\ applied s (ct :: vars) vl /\ applied s [lam; vl; e] rhs /\
    Forall2 (of_type s) vars tys /\ ty = arrows tys ret.
Lemma fdef_iff s vars e ret rhs ty : fdef s s vars e ret rhs ty <-> definition G s vars e ret rhs ty.
Proof.
  split.
  - intros [(-> & -> & ->)|(N & lam & ct & vl & tys & L & C & A & B & F & ->)]; [constructor | eapply df_fun; eauto].
  - intros [e0 ty0|vs e0 ret0 lam ct vl r tys N L C A B F]; [left; auto | right; split; [exact N|]; exists lam, ct, vl, tys; auto 10].
Qed.
Lemma only_funDef vars e ret s0 : only (funDefM vars e ret s0) (fun s r s1 => fdef s0 s vars e ret (fst r) (snd r) /\ s1 = s).
Proof.
  unfold fdef. destruct vars as [|v vs].
  - eapply only_iff; [apply only_ret|]. intros s [rhs ty] s1. cbn [fst snd]. split.
    + intros [E ->]. injection E as -> ->. auto.
    + intros [[(_ & -> & ->)|(X & _)] ->]; [auto | now contradiction X].
  - unfold funDefM. destruct (getVar (s_scope s0) (txt "lambda")) as [lam|] eqn:L.
    + eapply only_iff; [apply only_bind; [apply only_binder|]; intros bvl; apply only_bind; [apply only_apply|]; intros rhs; apply only_bind;
        [apply only_map; intros v0; apply only_typeCheck|]; intros tys; apply only_ret|]. intros s [rhs ty] s1. cbn [fst snd]. split.
      * intros (bvl & s2 & ((ct & C & A) & ->) & rhs' & s3 & (B & ->) & tys & s4 & E & X & ->). injection X as -> ->. apply each_types in E. destruct E as [E ->]. split; [|reflexivity].
        right. split; [discriminate|]. exists lam, ct, bvl, tys. auto 8.
      * intros [[(X & _)|(_ & lam' & ct & vl & tys & X & C & A & B & F & ->)] ->]; [discriminate X|]. injection X as <-. exists vl, s. split; [eauto|].
        exists rhs, s. split; [auto|]. exists tys, s. split; [now apply each_types|]. auto.
    + eapply only_iff; [apply only_err|]. intros s r s1. split; [intros []|]. intros ([(X & _)|(_ & lam' & ct & vl & tys & X & _)] & _); discriminate X.
Qed.
Lemma only_bind2 A A' B (m : M (A * A')) (f : A -> A' -> M B) P (Q : A -> A' -> st -> B -> st -> Prop) : only m P -> (forall a b, only (f a b) (Q a b)) ->
  only (let! (a, b) := m in f a b) (fun s r s1 => exists a b s2, P s (a, b) s2 /\ Q a b s2 r s1).
Proof.
  intros H F. eapply only_iff; [apply (only_bind _ _ _ (fun x : A * A' => let (a, b) := x in f a b) P (fun x => Q (fst x) (snd x)) H); intros [a b]; apply F|].
  intros s r s1. split; [intros ([a b] & s2 & X & Y); eauto 6 | intros (a & b & s2 & X & Y); exists (a, b), s2; auto].
Qed.
Definition eqDefM (name : text) (vars : list term) (expr ret : term) : M term :=
  let! s := mget in
  match getVar (s_scope s) (txt "=") with
  | None => merr
  | Some eq =>
      let! (rhs, t) := funDefM vars expr ret s in
      let! v := mkSymbol K_CONST name (Some t) in
      let! a := mkE G K_APPLY [eq; v; rhs] in
      addReferenceAssert G a ;;
      mret v
  end.
Lemma only_eqDef n vars e ret : only (eqDefM n vars e ret) (fun s v s1 => exists eq rhs ty s2 a, getVar (s_scope s) (txt "=") = Some eq /\ definition G s vars e ret rhs ty /\
  new K_CONST n (Some ty) s v s2 /\ applied s2 [eq; v; rhs] a /\ asserts G s2 a s1).
Proof.
  eapply only_iff; [unfold eqDefM; apply only_bind; [apply only_get|]; intros s0; apply only_option; [|apply only_err]; intros eq;
    apply only_bind2; [apply only_funDef|]; intros rhs ty;
    apply only_bind; [apply only_new|]; intros v; apply only_bind; [apply only_apply|]; intros a; apply only_bind; [apply only_asserts|]; intros u0; apply only_ret|].
  intros s v s1. split.
  - intros (s0 & s2 & (-> & ->) & [(eq & E & rhs & ty & s3 & (D & ->) & v' & s4 & N & a & s5 & (A & ->) & [] & s6 & AS & -> & ->)|(_ & [])]). apply fdef_iff in D.
    exists eq, rhs, ty, s4, a. auto.
  - intros (eq & rhs & ty & s2 & a & E & D & N & A & AS). apply fdef_iff in D. exists s, s. split; [auto|]. left. exists eq. split; [exact E|]. exists rhs, ty, s. split; [auto|].
    exists v, s2. split; [exact N|]. exists a, s2. split; [auto|]. exists tt, s1. auto.
Qed.
Definition defineFunM : M unit :=
  pushM ;;
  let! name := parseSymbol in
  let! vars := visM in
  let! ret := parseType G pe false true in
  let! expr := pe in
  (if is_null ret then mret tt else typeCheckAs G expr ret) ;;
  let! v := eqDefM name vars expr ret in
  popM ;;
  bindM name v.
Lemma define_fun_eq p : cmdDefine G sig true p = defineFunM p.
Proof.
  unfold cmdDefine, defineFunM, visM. cbv beta iota. same. same. rewrite mbind_assoc. same. destruct a1 as [vars amap]. cbn [fst snd]. rewrite mbind_assoc. same. rewrite mbind_assoc. same. skipr. same. same. same.
  reflexivity.
Qed.
Lemma c_define_fun : is_command (cmdDefine G sig true) C_DEFINE_FUN.
Proof.
  eapply is_command_if; [eapply parses_ext; [exact define_fun_eq|]; eapply p_bind; [apply p_only; apply only_push|]; intros u0; eapply p_bind; [apply p_symbol|]; intros n;
    eapply p_bind; [apply p_vis|]; intros vars; eapply p_bind; [apply p_type; exact HC|]; intros ret; eapply p_bind; [apply p_pe; exact HC|]; intros e;
    eapply p_bind; [apply p_if; [apply p_only; apply only_ret | apply p_only; apply only_typeAs]|]; intros u1; eapply p_bind; [apply p_only; apply only_eqDef|]; intros v;
    eapply p_bind; [apply p_only; apply only_pop|]; intros u2; apply e_only; [reflexivity | apply only_bound]|].
  intros s xs s1. split.
  - intros H. fwd; (eapply do_define_fun; try eassumption); [unfold absent, is_null in *; congruence | auto].
  - intros H. inversion H; subst.
    exists tt. do 2 eexists. split; [bwd|]. do 3 eexists. split; [bwd|]. do 3 eexists. split; [bwd|]. do 3 eexists. split; [bwd|]. do 3 eexists. split; [bwd|].
    exists tt. do 2 eexists. split; [|bwd]. destruct (is_null ret) eqn:N; [left; bwd | right; split; [reflexivity|]; bwd; auto].
Qed.

(** ** Programs *)
Lemma p_paramList c k d : k <> K_NONE -> parses c (S d) (parseVarList G pe k)
  (r_item (fun s x vs s1 => exists ps, list_in (param_in G sig k) s x ps s1 /\ vs = terms_of (explicit ps))) (fun _ => CF) (fun _ => S d).
Proof.
  intros NK. eapply parses_ext with (m' := mbind (parseVarListMap G pe k) (fun x => let! _ := processAttributeMaps (snd x) in mret (fst x)));
    [intros p; unfold parseVarList; same; destruct a; reflexivity|].
  eapply item_iff; [eapply item_then; [apply p_params; [exact HC | exact NK]|]; intros x; apply only_bind; [apply only_maps|]; intros u0; apply only_ret|].
  intros s x vs s1. cbv beta. split.
  - intros ([vs0 am] & s0 & (ps & I & E) & u1 & s3 & U & -> & ->). injection E as -> ->. cbn [fst snd] in *. destruct I as (xs & -> & I).
    destruct (params_facts _ _ _ _ _ _ _ I) as (_ & PF & ND). apply (params_used _ _ _ _ _ _ PF) in U. subst s3. exists ps. split; [exists xs; auto | reflexivity].
  - intros (ps & I & ->). exists (terms_of (explicit ps), amap_of ps), s1. split; [eauto|]. cbn [fst snd]. destruct I as (xs & -> & I).
    destruct (params_facts _ _ _ _ _ _ _ I) as (_ & PF & ND). exists tt, s1. split; [now apply (params_used _ _ _ _ _ _ PF) | auto].
Qed.
Definition symM (s0 : st) (prev : option term) (name : text) (ty : term) : M term :=
  match prev with
  | Some p =>
      if negb (kind_eqb (tkind p) K_PROGRAM_CONST) then merr
      else match getProgram (env_of G s0) p with
           | Some _ => merr
           | None => typeCheckAs G p ty ;; mret p
           end
  | None =>
      let! p := mkSymbol K_PROGRAM_CONST name (Some ty) in
      bindM name p ;; mret p
  end.
Lemma only_sym s0 prev n ty : only (symM s0 prev n ty) (fun s p s1 =>
  prev = Some p /\ tkind p = K_PROGRAM_CONST /\ ~ is_program s0 p /\ of_type s p ty /\ s1 = s \/
  prev = None /\ exists s2, new K_PROGRAM_CONST n (Some ty) s p s2 /\ bound s2 n p s1).
Proof.
  unfold symM. destruct prev as [p|].
  - destruct (kind_eqb (tkind p) K_PROGRAM_CONST) eqn:K; cbn [negb].
    + apply kind_eqb_eq in K. destruct (getProgram (env_of G s0) p) as [t|] eqn:P.
      * eapply only_iff; [apply only_err|]. intros s q s1. split; [intros []|]. intros [(E & _ & X & _)|(E & _)]; [|discriminate E]. injection E as ->. apply X. apply (program_iff G). eauto.
      * eapply only_iff; [apply only_bind; [apply only_typeAs|]; intros u0; apply only_ret|]. intros s q s1. split.
        -- intros (u0 & s2 & (T & ->) & -> & ->). left. split; [reflexivity|]. split; [exact K|]. split; [|auto]. intros X. apply (program_iff G) in X. destruct X as (t & X). congruence.
        -- intros [(E & _ & _ & T & ->)|(E & _)]; [|discriminate E]. injection E as ->. exists tt, s. auto.
    + eapply only_iff; [apply only_err|]. intros s q s1. split; [intros []|]. intros [(E & X & _)|(E & _)]; [|discriminate E]. injection E as ->. rewrite X in K. discriminate K.
  - eapply only_iff; [apply only_bind; [apply only_new|]; intros q; apply only_bind; [apply only_bound|]; intros u0; apply only_ret|]. intros s q s1. split.
    + intros (q' & s2 & N & [] & s3 & B & -> & ->). right. eauto.
    + intros [(E & _)|(_ & s2 & N & B)]; [discriminate E|]. exists q, s2. split; [exact N|]. exists tt, s1. auto.
Qed.
Definition programM : M unit :=
  let! name := parseSymbol in
  pushM ;;
  let! _ := parseVarList G pe K_PROGRAM in
  let! tok := peek in
  let! key := if token_eqb tok T_KEYWORD then parseKeyword else merr in
  if negb (text_eqb key (txt "signature")) then merr
  else
    let! argTypes := parseTypeList G pe true in
    let! retType := parseType G pe false true in
    match argTypes with
    | [] => merr
    | a :: l =>
        let! s := mget in
        let! pvar := symM s (getVar (s_scope s) name) name (Node K_PROGRAM_TYPE ((a :: l) ++ [retType])) in
        let! tok2 := peek in
        let! program :=
          if token_eqb tok2 T_RPAREN then mret None
          else
            let! cases := parseExprPairList G pe in
            match cases with
            | [] => merr
            | c :: cs =>
                checkCases pvar (length (a :: l)) (c :: cs) ;;
                let! p := mkE G K_PROGRAM (c :: cs) in mret (Some p)
            end in
        popM ;;
        match program with
        | Some p => defineProgram pvar p
        | None => mret tt
        end ;;
        match getVar (s_scope s) name with
        | None => bindM name pvar
        | Some _ => mret tt
        end
    end.
Lemma program_eq p : cmdProgram G sig p = programM p.
Proof.
  unfold cmdProgram, programM, symM. cbv zeta. same. same. same. same. same. destruct (negb (text_eqb a3 (txt "signature"))); [reflexivity|]. same. same. destruct a4 as [|t a4]; [reflexivity|].
  same. same. same. apply mbind_left. destruct (token_eqb a8 T_RPAREN); [reflexivity|]. same. destruct a9; reflexivity.
Qed.
Lemma p_cases p arity d : parses CO (S d) (let! cases := parseExprPairList G pe in
            match cases with
            | [] => merr
            | c :: cs => checkCases p arity (c :: cs) ;; let! q := mkE G K_PROGRAM (c :: cs) in mret (Some q)
            end) (r_item (fun s x r s1 => exists xs def, x = XL xs /\ cases_in G sig s p arity [x] (Some def) s1 /\ r = Some def)) (fun _ => CF) (fun _ => S d).
Proof.
  eapply item_iff; [eapply (item_map _ _ _ (map tuple)); [apply p_pairs; exact HC|]; intros cs;
    instantiate (1 := fun cs s r s1 => cs <> [] /\ Forall (case_ok p arity) cs /\ s1 = s /\ r = Some (Node K_PROGRAM (map tuple cs)))|].
  - destruct cs as [|c cs]; [eapply only_iff; [apply only_err|]; intros s r s1; split; [intros [] | intros (X & _); now contradiction X]|].
    eapply only_iff; [apply only_bind; [apply (only_cases p arity (c :: cs))|]; intros u0; apply only_bind; [apply only_node; auto|]; intros q; apply only_ret|].
    intros s r s1. split.
    + intros (u0 & s2 & (F & ->) & q & s3 & (-> & ->) & -> & ->). split; [discriminate | auto].
    + intros (_ & F & -> & ->). exists tt, s. split; [auto|]. eexists _, s. split; [split; reflexivity | auto].
  - intros s x r s1. cbv beta. split.
    + intros (cs & s2 & (xs & -> & E) & N & F & -> & ->). exists xs, (Node K_PROGRAM (map tuple cs)). split; [reflexivity|]. split; [|reflexivity]. constructor; [|exact E | exact F].
      intros ->. inversion E. subst. now contradiction N.
    + intros (xs & def & -> & C & ->). inversion C as [|xs' cs s2 N E F X]; subst. exists cs, s1. split; [exists xs; auto|]. split; [|auto]. intros ->. inversion E. subst. now contradiction N.
Qed.
Lemma rest_eq (v : term) prog : only (match prog with Some p => defineProgram v p | None => mret tt end)
  (fun s _ s1 => match prog with Some d => marked v A_PROGRAM (Some d) s s1 | None => s1 = s end).
Proof. destruct prog as [p|]; [apply only_mark | eapply only_iff; [apply only_ret|]; intros s [] s1; split; [intros [_ ->] | intros ->]; auto]. Qed.
Lemma c_program : is_command (cmdProgram G sig) C_PROGRAM.
Proof.
  eapply is_command_if; [eapply parses_ext; [exact program_eq|]; eapply p_bind; [apply p_symbol|]; intros n; eapply p_bind; [apply p_only; apply only_push|]; intros u0;
    eapply p_bind; [apply p_paramList; discriminate|]; intros vs; eapply p_look; [apply p_o; apply p_keyword | apply p_err |]; intros key; apply p_if; [apply p_err|];
    eapply p_bind; [apply p_argTypes; exact HC|]; intros tys; eapply p_bind; [apply p_type; exact HC|]; intros ret; apply p_list; [apply p_err|]; intros t tl_;
    eapply p_bind; [apply p_get|]; intros s0; eapply p_bind; [apply p_only; apply only_sym|]; intros pv; eapply p_look; [apply p_ret | apply p_o; apply p_cases|]; intros prog;
    eapply p_bind; [apply p_only; apply only_pop|]; intros u1; eapply p_bind; [apply p_only; apply rest_eq|]; intros u2;
    apply p_option; [intros q; apply p_only; apply only_ret | apply p_only; apply only_bound]|].
  intros s xs s1. split.
  - intros H. unfold r_look in H. fwd; try discriminate. all: try contradiction.
    all: try congruence.
    all: match goal with X : negb (text_eqb _ _) = false |- _ => apply negb_false_iff in X; apply text_eqb_eq in X end.
    all: match goal with X : each (arg_type _ _) _ _ (_ :: _) _ |- _ => inversion X; subst end.
    all: try match goal with A : getVar ?a ?b = Some ?p, B : getVar ?a ?b = Some ?q |- _ => assert (p = q) by congruence; subst p; clear B end.
    all: eapply do_program; [eassumption | eassumption | eexists; split; [reflexivity | assumption] | discriminate | eassumption | eassumption
      | first [eapply py_again; eassumption | eapply py_new; eassumption] | first [eassumption | apply cs_none] | eassumption | cbv beta iota; first [reflexivity | eassumption] | cbv beta iota; first [reflexivity | eassumption]].
  - intros H. inversion H; subst. match goal with K0 : keyed _ _ |- _ => destruct K0 as (w & -> & KW) end. destruct tys as [|t0 tys]; [match goal with E : each _ _ _ [] _ |- _ => inversion E; subst; congruence end|].
    do 3 eexists. split; [bwd|]. exists tt. do 2 eexists. split; [bwd|]. do 3 eexists. split; [bwd|]. do 3 eexists. split; [left; split; [reflexivity | bwd]|].
    right. split; [rewrite KW; reflexivity|]. do 3 eexists. split; [bwd|]. do 3 eexists. split; [bwd|]. right. do 2 eexists. split; [reflexivity|].
    do 3 eexists. split; [bwd|]. match goal with Y : program_symbol _ _ _ _ _ _ _ |- _ => destruct Y as [p s9 s10 V N B|p V K2 NP T] end.
    + do 3 eexists. split; [split; [right; split; [exact V|]; exists s9; split; [exact N | exact B] | reflexivity]|].
      match goal with C : cases_in _ _ _ _ _ _ _ _ |- _ => inversion C; subst end; cbv beta iota in *; subst.
      * exists None. do 2 eexists. split; [left; split; [reflexivity | split; [reflexivity | split; reflexivity]]|]. exists tt. do 2 eexists. split; [bwd|]. exists tt. do 2 eexists. split; [split; [cbv beta iota; first [reflexivity | eassumption] | reflexivity]|]. right. split; [exact V | bwd].
      * do 3 eexists. split; [right; split; [discriminate|]; do 3 eexists; split; [reflexivity|]; split; [|reflexivity]; do 2 eexists; split; [reflexivity|]; split; [eassumption | reflexivity]|].
        exists tt. do 2 eexists. split; [bwd|]. exists tt. do 2 eexists. split; [split; [cbv beta iota; first [reflexivity | eassumption] | reflexivity]|]. right. split; [exact V | bwd].
    + do 3 eexists. split; [split; [left; bwd | reflexivity]|].
      match goal with C : cases_in _ _ _ _ _ _ _ _ |- _ => inversion C; subst end; cbv beta iota in *; subst.
      * exists None. do 2 eexists. split; [left; split; [reflexivity | split; [reflexivity | split; reflexivity]]|]. exists tt. do 2 eexists. split; [bwd|]. exists tt. do 2 eexists. split; [split; [cbv beta iota; first [reflexivity | eassumption] | reflexivity]|]. left. exists p. split; [exact V | bwd].
      * do 3 eexists. split; [right; split; [discriminate|]; do 3 eexists; split; [reflexivity|]; split; [|reflexivity]; do 2 eexists; split; [reflexivity|]; split; [eassumption | reflexivity]|].
        exists tt. do 2 eexists. split; [bwd|]. exists tt. do 2 eexists. split; [split; [cbv beta iota; first [reflexivity | eassumption] | reflexivity]|]. left. exists p. split; [exact V | bwd].
    Unshelve. all: exact tt.
Qed.
End Cmds.
