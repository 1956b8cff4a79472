(** Datatypes. *)
From Coq Require Import String ZArith List Bool Lia.
From Verif Require Import Base Kind Ints Str Literal Arity Term TermProofs Match Eval ListOps Typing Build Scope Lexer Parse Check
  SpecRead SpecCmd FrontProofs CheckProofs ReadProofs CmdProofs CmdProofs2 CmdProofs3 CmdProofs4 CmdProofs5 CmdProofs6 CmdProofs7 CmdProofs8 CmdProofs9.
Import ListNotations.
Open Scope Z_scope.

Lemma p_bindg A X B (g : X -> A) c d (m : M A) (f : A -> M B) (R : rel X) Q c1 d1 c2 d2 :
  parses c d m (fun s i a s1 i1 => exists x, R s i x s1 i1 /\ a = g x) (fun _ => c1) (fun _ => d1) -> (forall x, parses c1 d1 (f (g x)) (Q x) c2 d2) ->
  parses c d (mbind m f) (r_bind R Q) c2 d2.
Proof.
  intros H F l s i l' T. destruct (H l s i l' T) as [H1 H2]. split.
  - intros b p P. apply mbind_ok in P. destruct P as (a & p1 & P & P2). destruct (H1 a p1 P) as (l1 & s1 & i1 & -> & (x & E & ->) & U).
    destruct (F x l1 s1 i1 l' U) as [F1 _]. destruct (F1 b p P2) as (l2 & s2 & i2 & -> & Z & V). exists l2, s2, i2. split; [reflexivity|]. split; [|exact V]. exists x, s1, i1. auto.
  - intros b s2 i2 (x & s1 & i1 & E & Z). destruct (H2 (g x) s1 i1) as [P|(l1 & P & U)]; [eauto | left; now apply mbind_fuel|].
    destruct (F x l1 s1 i1 l' U) as [_ F2]. rewrite (mbind_at _ _ _ _ _ _ _ P). exact (F2 b s2 i2 Z).
Qed.

Lemma mbind_unit (m : M unit) p : (m ;; mret tt) p = m p.
Proof. unfold mbind, mret. destruct (m p) as [[[] q]| | |]; reflexivity. Qed.
Section Cmds.
Variable G : config.
Variable sig : bool.
Variable isRef : bool.
Variable included : text -> bool -> bool -> term -> st -> st -> Prop.
Hypothesis HC : forall n t, g_varinfo G (g_bvar G n t) = Some (n, t).
Notation reads := (SpecRead.reads G sig).
Notation applied := (SpecRead.applied G).
Notation of_type := (SpecRead.of_type G).
Notation pe := (parseExpr G sig (g_fuel G)).
Notation does := (does G sig isRef included).
Notation is_command := (is_command G sig isRef included).
Notation dtcon := (term * list term * bool)%type.

(** ** Selectors *)
Definition sel_add (acc : list term * list term * list (text * term)) (b : text * term * term * term) : list term * list term * list (text * term) :=
  (fst (fst acc) ++ [sel_type b], snd (fst acc) ++ [sel_term b], snd acc ++ sel_names b).
Lemma fold_sel bs : forall a b c, fold_left sel_add bs (a, b, c) = (a ++ map sel_type bs, b ++ map sel_term bs, c ++ flat_map sel_names bs).
Proof. induction bs as [|x bs IH]; intros a b c; cbn [fold_left map flat_map]; [now rewrite !app_nil_r|]. unfold sel_add at 2. cbn [fst snd]. rewrite IH, <- !app_assoc. reflexivity. Qed.
Definition selM (dt : term) (acc : list term * list term * list (text * term)) : M ((list term * list term * list (text * term)) + (list term * list term * list (text * term))) :=
  let! id := parseSymbol in
  let! t := parseType G pe false true in
  let! sel := mkSymbol K_CONST id (Some (arrow dt t)) in
  let! upd := mkSymbol K_CONST (txt "update-" ++ id) (Some (arrow dt (arrow t dt))) in
  eat T_RPAREN ;;
  mret (inl (sel_add acc (id, t, sel, upd))).
Lemma p_selectors dt tb d : parses CO (S (S d)) (parseSelectors G pe dt tb)
  (fun s i r s1 i1 => exists bs, r_items (selector G sig dt) s i bs s1 i1 /\ r = (map sel_type bs, map sel_term bs, tb ++ flat_map sel_names bs)) (fun _ => CF) (fun _ => S d).
Proof.
  eapply parses_ext with (m' := mloop (g_fuel G) (cbody (selM dt) (fun acc => acc)) ([], [], tb)).
  - intros p. unfold parseSelectors. apply mloop_ext. intros [[types sels] tb0] q. unfold cbody, selM. same. destruct a; [|reflexivity]. same. same. same. same. same. reflexivity.
  - eapply parses_iff; [apply (p_cloop G (selM dt) (selector G sig dt) sel_add (fun acc => acc) d)|].
    + intros s x b s1 H. inversion H; subst. eauto.
    + intros acc. eapply parses_iff; [unfold selM; eapply p_bind; [apply p_symbol|]; intros n; eapply p_bind; [apply p_type; exact HC|]; intros t; eapply p_bind; [apply p_only; apply only_new|]; intros sel;
        eapply p_bind; [apply p_only; apply only_new|]; intros upd; eapply p_bind; [apply p_close_o|]; intros u0; apply p_ret|].
      intros s i r s1 i1 _. split.
      * intros H. fwd. do 2 eexists. split; [reflexivity|]. split; [|reflexivity]. econstructor; eassumption.
      * intros (ys & b & -> & H & ->). inversion H; subst. bwd.
    + intros s i r s1 i1 _. split; intros (bs & I & ->); exists bs; (split; [exact I|]); now rewrite fold_sel.
Qed.

(** ** Constructors *)
Definition conM (dt : term) (params : list term) (name : text) (types sels : list term) : M (dtcon * list (text * term)) :=
  let! fv := match params with
             | [] => mret None
             | _ => mlift (let* pargs := getVariables types in findFreeVar sym_self dt pargs)
             end in
  let! ctype := match fv with
                | Some _ => mkDisambiguatedType G dt (arrows types dt) name
                | None => mret (arrows types dt)
                end in
  let! con := mkSymbol K_CONST name (Some ctype) in
  let! tester := mkSymbol K_CONST (txt "is-" ++ name) (Some (arrow dt t_Bool)) in
  mret (con, sels, match fv with Some _ => true | None => false end, [(name, con); (txt "is-" ++ name, tester)]).
Definition con_made (dt : term) (ps : list term) (n : text) (types sels : list term) (s : st) (r : dtcon * list (text * term)) (s4 : st) : Prop :=
  exists amb ty s2 c s3 t, (ps = [] /\ amb = false \/ ps <> [] /\ loose dt types amb) /\
    (if amb then disambiguated G s dt (arrows types dt) n ty s2 else ty = arrows types dt /\ s2 = s) /\
    new K_CONST n (Some ty) s2 c s3 /\ new K_CONST (txt "is-" ++ n) (Some (arrow dt t_Bool)) s3 t s4 /\
    r = ((c, sels, amb), [(n, c); (txt "is-" ++ n, t)]).
Lemma only_con dt ps n types sels : only (conM dt ps n types sels) (con_made dt ps n types sels).
Proof.
  eapply only_iff; [unfold conM; apply only_bind; [apply only_list; [apply only_ret | intros p0 ps0; apply only_lift]|]; intros fv;
    apply only_bind; [apply only_option; [intros v; apply only_disambiguated | apply only_ret]|]; intros ty; apply only_bind; [apply only_new|]; intros c;
    apply only_bind; [apply only_new|]; intros t; apply only_ret|].
  intros s r s4. unfold con_made. split.
  - intros (fv & s1 & F & ty & s2 & D & c & s3 & N & t & s5 & N2 & -> & ->).
    assert (E : s1 = s /\ (ps = [] /\ fv = None \/ ps <> [] /\ loose dt types (match fv with Some _ => true | None => false end))).
    { destruct F as [(-> & -> & ->)|(p0 & ps0 & -> & X & ->)]; [auto|]. split; [reflexivity|]. right. split; [discriminate|]. apply bind_ok in X. destruct X as (vs & X & Y). exists vs, fv. auto. }
    destruct E as [-> E]. exists (match fv with Some _ => true | None => false end), ty, s2, c, s3, t.
    split; [destruct E as [[-> ->]|E]; auto|]. split; [|auto]. destruct D as [(v & -> & D)|(-> & -> & ->)]; auto.
  - intros (amb & ty & s2 & c & s3 & t & E & D & N & N2 & ->).
    assert (F : exists fv, amb = match fv with Some _ => true | None => false end /\ ((ps = [] /\ fv = None) \/ exists p0 ps0, ps = p0 :: ps0 /\ (let* pargs := getVariables types in findFreeVar sym_self dt pargs) = Ok fv)).
    { destruct E as [[-> ->]|[NE (vs & fv & X & Y & ->)]]; [exists None; auto|]. exists fv. split; [reflexivity|]. right. destruct ps as [|p0 ps0]; [congruence|]. exists p0, ps0. split; [reflexivity|]. rewrite X. exact Y. }
    destruct F as (fv & -> & F). exists fv, s. split.
    { destruct F as [[-> ->]|(p0 & ps0 & -> & F)]; [left; auto|]. right. eauto. }
    exists ty, s2. split; [destruct fv as [v|]; [left; eauto | right; destruct D as [-> ->]; auto]|]. exists c, s3. split; [exact N|]. exists t, s4. auto.
Qed.
Definition con_add (acc : list dtcon * list (text * term)) (b : dtcon * list (text * term)) : list dtcon * list (text * term) := (fst acc ++ [fst b], snd acc ++ snd b).
Lemma fold_con bs : forall a c, fold_left con_add bs (a, c) = (a ++ map fst bs, c ++ flat_map snd bs).
Proof. induction bs as [|x bs IH]; intros a c; cbn [fold_left map flat_map]; [now rewrite !app_nil_r|]. unfold con_add at 2. cbn [fst snd]. rewrite IH, <- !app_assoc. reflexivity. Qed.
Definition consM (dt : term) (params : list term) (acc : list dtcon * list (text * term)) : M ((list dtcon * list (text * term)) + (list dtcon * list (text * term))) :=
  let! name := parseSymbol in
  let! (types, sels, tb1) := parseSelectors G pe dt (snd acc) in
  let! b := conM dt params name types sels in
  mret (inl (fst acc ++ [fst b], tb1 ++ snd b)).
Lemma p_constructors c dt ps d : parses c (S d) (parseConstructors G pe dt ps)
  (r_item (fun s x r s1 => exists bs, list_in (constructor G sig dt ps) s x bs s1 /\ r = (map fst bs, flat_map snd bs))) (fun _ => CF) (fun _ => S d).
Proof.
  apply p_any. eapply parses_ext with (m' := eat T_LPAREN ;; mloop (g_fuel G) (cbody (consM dt ps) (fun acc => acc)) ([], [])).
  - intros p. unfold parseConstructors. same. apply mloop_ext. intros [dcs tb] q. unfold cbody, consM, conM. same. destruct a0; [|reflexivity]. same. cbn [fst snd]. same. destruct a1 as [[types sels] tb1].
    repeat first [progress rewrite mbind_assoc | same]. reflexivity.
  - eapply parses_iff; [eapply p_bind; [apply p_open|]; intros u0; apply (p_cloop G (consM dt ps) (constructor G sig dt ps) con_add (fun acc => acc) d)|].
    + intros s x b s1 H. inversion H; subst. eauto.
    + intros acc. apply p_o. eapply parses_iff; [unfold consM; eapply p_bind; [apply p_symbol|]; intros n; eapply (p_bindg _ _ _ (fun bs => (map sel_type bs, map sel_term bs, snd acc ++ flat_map sel_names bs)));
        [apply (parses_le _ CO CF _ _ _ (fun _ => CF)); [reflexivity | reflexivity | apply p_selectors]|]; intros bs; eapply p_bind; [apply p_only; apply only_con|]; intros b; apply p_ret|].
      intros s i r s1 i1 _. unfold r_inner, con_add. split.
      * intros (n & s2 & i2 & (y & ys & i' & -> & (N & ->) & ->) & bs & s3 & i3 & (zs & E & SE) & b & s4 & i4 & ((amb & ty & s5 & c0 & s6 & t & L & D & N1 & N2 & ->) & ->) & -> & -> & ->).
        injection E as -> ->. eexists (y :: zs), _. split; [reflexivity|]. split; [econstructor; eassumption|]. cbn [fst snd]. rewrite <- app_assoc. reflexivity.
      * intros (ys & b & -> & H & ->). inversion H; subst. do 3 eexists. split; [bwd|]. do 3 eexists. split; [eexists; split; [reflexivity | eassumption]|]. do 3 eexists.
        split; [split; [do 6 eexists; split; [eassumption|]; split; [eassumption|]; split; [eassumption|]; split; [eassumption | reflexivity] | reflexivity]|]. cbn [fst snd]. rewrite <- app_assoc. auto.
    + intros s i a s1 i1 _. split.
      * intros (u & s2 & i2 & (-> & ys & xs & i' & -> & ->) & bs & (zs & E & H) & ->). injection E as <- <-. exists (XL ys), xs, i'. split; [reflexivity|]. split; [|reflexivity].
        exists bs. split; [exists ys; auto|]. now rewrite fold_con.
      * intros (x & xs & i' & -> & (bs & (ys & -> & H) & ->) & ->). exists tt, s, (ys :: xs :: i'). split; [split; [reflexivity | eauto 6]|]. exists bs.
        split; [exists ys; auto|]. now rewrite fold_con.
Qed.

(** ** A definition *)
Section Def.
Variable pick : list term -> M (list term * term).
Variable P : list term -> st -> list term * term -> st -> Prop.
Hypothesis HP : forall ps, only (pick ps) (P ps).
Definition instM (dt : term) (params : list term) : M term := match params with [] => mret dt | _ => mkE G K_APPLY (dt :: params) end.
Lemma only_inst dt ps : only (instM dt ps) (fun s t s1 => dt_instance G s dt ps t /\ s1 = s).
Proof. destruct ps as [|p0 ps]; [apply only_ret | apply only_apply]. Qed.
Definition restM (pushed : bool) (params : list term) : M (list term * term * list dtcon) :=
  let! (dl, dt) := pick params in
  let! dti := instM dt params in
  let! (dcs, tobind) := parseConstructors G pe dti params in
  (if pushed then eat T_RPAREN ;; popM else mret tt) ;;
  mfor tobind (fun b => bindM (fst b) (snd b)) ;;
  mret (dl, dt, dcs).
Definition rested (par : bool) (ps : list term) (s : st) (xs : list sx) (r : list term * term * list dtcon) (s1 : st) : Prop :=
  exists s3, P ps s (fst r) s3 /\ dt_rest G sig (snd (fst r)) par ps s3 xs (snd r) s1.
Lemma p_closepop d : parses CF (S d) (eat T_RPAREN ;; popM) (fun s i _ s1 i1 => i = [] :: i1 /\ left_scope s s1) (fun _ => CF) (fun _ => d).
Proof.
  eapply parses_iff; [eapply (p_bind _ _ CF (S d) _ _ _ _ (fun _ => CF) (fun _ => d)); [apply p_close|]; intros u0; apply (p_only _ CF d); apply only_pop|]. intros s i a s1 i1 _. split.
  - intros (u0 & s2 & i2 & (-> & ->) & L & ->). auto.
  - intros (-> & L). exists tt, s, i1. split; [auto | split; auto].
Qed.
Lemma p_rest_par ps d : parses CF (S (S d)) (restM true ps) (fun s i r s1 i1 => exists xs, i = [XL xs] :: i1 /\ rested true ps s xs r s1) (fun _ => CF) (fun _ => S d).
Proof.
  eapply parses_iff; [unfold restM; eapply p_bind2; [apply p_only; apply HP|]; intros dl dt; eapply p_bind; [apply p_only; apply only_inst|]; intros dti;
    eapply (p_bindg _ _ _ (fun bs => (map fst bs, flat_map snd bs))); [eapply parses_iff; [apply p_constructors|]|]|].
  - intros s i r s1 i1 _. instantiate (1 := r_item (list_in (constructor G sig dti ps))). split.
    + intros (x & xs & i' & -> & (bs & L & ->) & ->). exists bs. split; [exists x, xs, i'; auto | reflexivity].
    + intros (bs & (x & xs & i' & -> & L & ->) & ->). exists x, xs, i'. eauto 6.
  - intros bs. eapply p_bind; [apply p_closepop|]. intros u1. eapply p_bind; [apply p_only; apply only_names|]. intros u2. apply p_ret.
  - intros s i r s1 i1 _. split.
    + intros (dl & dt & s2 & i2 & (PI & ->) & t & s3 & i3 & ((DI & ->) & ->) & bs & s4 & i4 & (x & xs & i' & -> & (ys & -> & C) & ->) & u1 & s5 & i5 & (E & LS) & u2 & s7 & i7 & (NI & ->) & -> & -> & ->).
      injection E as -> ->. exists ys. split; [reflexivity|]. exists s2. split; [exact PI|]. cbn [fst snd]. econstructor; [exact DI | exact C | exact LS | exact NI].
    + intros (xs & -> & s3 & PI & DR). destruct r as [[dl dt] cs]. cbn [fst snd] in *. inversion DR as [t bs s4 s5 s6 DI C LS NI]; subst.
      exists dl, dt, s3, ([XL xs] :: i1). split; [split; auto|]. exists t, s3, ([XL xs] :: i1). split; [split; auto|]. exists bs, s4, ([] :: i1).
      split; [exists (XL xs), [], i1; split; [reflexivity|]; split; [exists xs; auto | reflexivity]|]. exists tt, s5, i1. split; [auto|].
      exists tt, s1, i1. split; [split; auto | auto].
Qed.
Lemma p_rest_plain c d : parses c (S d) (restM false []) (r_item (fun s x r s1 => exists xs, x = XL xs /\ rested false [] s xs r s1)) (fun _ => CF) (fun _ => S d).
Proof.
  eapply parses_iff; [unfold restM; eapply p_bind2; [apply p_only; apply HP|]; intros dl dt; eapply p_bind; [apply p_only; apply only_inst|]; intros dti;
    eapply (p_bindg _ _ _ (fun bs => (map fst bs, flat_map snd bs))); [eapply parses_iff; [apply p_constructors|]|]|].
  - intros s i r s1 i1 _. instantiate (1 := r_item (list_in (constructor G sig dti []))). split.
    + intros (x & xs & i' & -> & (bs & L & ->) & ->). exists bs. split; [exists x, xs, i'; auto | reflexivity].
    + intros (bs & (x & xs & i' & -> & L & ->) & ->). exists x, xs, i'. eauto 6.
  - intros bs. eapply p_bind; [apply p_ret|]. intros u1. eapply p_bind; [apply p_only; apply only_names|]. intros u2. apply p_ret.
  - intros s i r s1 i1 _. split.
    + intros (dl & dt & s2 & i2 & (PI & ->) & t & s3 & i3 & ((DI & ->) & ->) & bs & s4 & i4 & (x & xs & i' & -> & (ys & -> & C) & ->) & u1 & s5 & i5 & (_ & -> & ->) & u2 & s7 & i7 & (NI & ->) & -> & -> & ->).
      exists (XL ys), xs, i'. split; [reflexivity|]. split; [|reflexivity]. exists ys. split; [reflexivity|]. exists s2. split; [exact PI|]. cbn [fst snd]. econstructor; [exact DI | exact C | reflexivity | exact NI].
    + intros (x & xs & i' & -> & (ys & -> & s3 & PI & DR) & ->). destruct r as [[dl dt] cs]. cbn [fst snd] in *. inversion DR as [t bs s4 s5 s6 DI C LS NI]; subst.
      exists dl, dt, s3, ((XL ys :: xs) :: i'). split; [split; auto|]. exists t, s3, ((XL ys :: xs) :: i'). split; [split; auto|]. exists bs, s4, (xs :: i').
      split; [exists (XL ys), xs, i'; split; [reflexivity|]; split; [exists ys; auto | reflexivity]|]. exists tt, s4, (xs :: i'). split; [auto|].
      exists tt, s1, (xs :: i'). split; [split; auto | auto].
Qed.
Definition parM : M (list term * term * list dtcon) :=
  pushM ;;
  let! syms := parseSymbolList G in
  match syms with
  | [] => merr
  | _ =>
      let! params := mmap syms (fun sym => let! t := mkSymbol K_PARAM sym (Some t_Type) in bindM sym t ;; mret t) in
      restM true params
  end.
Lemma p_par d : parses CF (S (S d)) parM (fun s i r s1 i1 => exists w ys xs ps s2, i = [XL ys; XL xs] :: i1 /\ dt_head s (XL [XT T_PAR w; XL ys; XL xs]) true ps xs s2 /\ rested true ps s2 xs r s1)
  (fun _ => CF) (fun _ => S d).
Proof.
  eapply parses_iff; [unfold parM; eapply p_bind; [apply p_only; apply only_push|]; intros u0; eapply p_bind; [apply p_names|]; intros ns; apply p_list; [apply p_err|];
    intros n0 ns0; eapply p_bind; [apply p_only; apply only_map; intros nn; apply only_typeparam|]; intros ps; apply p_rest_par|].
  intros s i r s1 i1 _. split.
  - intros (u0 & s2 & i2 & (-> & ->) & ns & s3 & i3 & (x & xs & i' & -> & (-> & ys & -> & F) & ->) & [(-> & [])|(n0 & ns0 & -> & ps & s4 & i4 & (TP & ->) & zs & E & R)]).
    injection E as -> ->. exists [], ys, zs, ps, s4. split; [reflexivity|]. split; [|exact R].
    econstructor; [|exact F | exact TP]. intros ->. inversion F.
  - intros (w & ys & xs & ps & s2 & -> & H & R). inversion H; subst. exists tt, (entered s), ([XL ys; XL xs] :: i1). split; [split; auto|].
    match goal with F : Forall2 named ys ?ns |- _ => exists ns, (entered s), ([XL xs] :: i1); split; [exists (XL ys), [XL xs], i1; split; [reflexivity|]; split; [split; [reflexivity | eauto] | reflexivity]|];
      destruct ns as [|n0 ns]; [inversion F; subst; congruence|] end.
    right. do 2 eexists. split; [reflexivity|]. exists ps, s2, ([XL xs] :: i1). split; [split; [eassumption | reflexivity]|]. exists xs. auto.
Qed.
Definition defM : M (list term * term * list dtcon) :=
  let! tok2 := next in
  if token_eqb tok2 T_PAR then parM else reinsert tok2 ;; reinsert T_LPAREN ;; restM false [].
Definition defined (s : st) (x : sx) (r : list term * term * list dtcon) (s1 : st) : Prop :=
  exists par ps xs s2, dt_head s x par ps xs s2 /\ rested par ps s2 xs r s1.
Lemma at_unopen d l ds xs i l' : proper (XL ds) -> at_in CO (S (S d)) l (ds :: xs :: i) l' -> at_in CR (S d) (reinsertToken T_LPAREN l) ((XL ds :: xs) :: i) l'.
Proof.
  intros PX [D PR C S]. inversion PR as [|? ? P1 PR1]; subst. inversion PR1 as [|? ? P2 P3]; subst. constructor.
  - cbn in *. lia.
  - constructor; [constructor; [exact PX | exact P2] | exact P3].
  - destruct C as [C|(t & C)]; [right; left; exists T_LPAREN; cbn [reinsertToken l_peeked]; now rewrite C | right; right; exists t; cbn [reinsertToken l_peeked]; now rewrite C].
  - cbn [iwords flat_map words app] in *. rewrite <- !app_assoc in *. cbn [app] in *. now apply shows_reinsert.
Qed.
Lemma p_def d l s ds i l' : proper (XL ds) -> at_in CF (S (S d)) l (ds :: i) l' ->
  (forall a p, defM (l, s) = Ok (a, p) -> exists l1 s1, p = (l1, s1) /\ defined s (XL ds) a s1 /\ at_in CF (S d) l1 i l') /\
  (forall a s1, defined s (XL ds) a s1 -> defM (l, s) = Fuel \/ exists l1, defM (l, s) = Ok (a, (l1, s1)) /\ at_in CF (S d) l1 i l').
Proof.
  intros PX T. destruct (at_next _ _ _ _ _ T) as (t & w & l1 & i1 & N & K & W & U). unfold defM. rewrite (mbind_at _ _ _ _ _ _ _ (next_at l s t l1 N)).
  destruct (token_eqb t T_PAR) eqn:E.
  - apply token_eqb_eq in E. subst t. inversion K as [k0 w0 xs0 i0 K1 K2 A1 A2 A3 A4| |]; subst. destruct (p_par d l1 s (xs0 :: i) l' U) as [H1 H2]. split.
    + intros a p X. destruct (H1 a p X) as (l2 & s2 & i2 & -> & (w0 & ys & zs & ps & s3 & EQ & H & R) & V). injection EQ as -> ->. exists l2, s2. split; [reflexivity|]. split; [|exact V].
      exists true, ps, zs, s3. split; [inversion H; subst; econstructor; eassumption | exact R].
    + intros a s1 (par & ps & zs & s2 & H & R). inversion H; subst; [discriminate|]. eapply H2. do 5 eexists. split; [reflexivity|]. split; [eassumption|]. exact R.
  - assert (Q : exists xs i', i = xs :: i').
    { destruct T as [D _ _ _]. destruct i as [|xs i']; try discriminate D. eauto. }
    destruct Q as (xs & i' & ->). destruct (at_put _ _ _ _ _ _ _ _ _ T (or_introl eq_refl) N K) as [V _]. apply at_unopen in V; [|exact PX].
    rewrite (mbind_at _ _ _ _ _ _ _ (reinsert_at t l1 s)). rewrite (mbind_at _ _ _ _ _ _ _ (reinsert_at T_LPAREN (reinsertToken t l1) s)).
    assert (NP : par_form (XL ds) = false) by (destruct ds as [|[k0 w0|] ds]; try reflexivity; inversion K; subst; destruct t; try reflexivity; discriminate E).
    destruct (p_rest_plain CR d _ s _ l' V) as [H1 H2]. split.
    + intros a p X. destruct (H1 a p X) as (l2 & s2 & i2 & -> & (x0 & xs0 & i0 & EQ & (ys & -> & R) & ->) & Z). injection EQ as -> -> ->. exists l2, s2. split; [reflexivity|]. split; [|exact Z].
      exists false, [], ys, s. split; [now constructor | exact R].
    + intros a s1 (par & ps & zs & s2 & H & R). inversion H; subst; [|discriminate].
      destruct (H2 a s1 (xs :: i')) as [Z|Z]; [|now left | now right]. exists (XL zs), xs, i'. split; [reflexivity|]. split; [eauto | reflexivity].
Qed.
End Def.

(** ** All definitions *)
Notation dtacc := (nat * list term * list (term * list dtcon))%type.
Section Defs.
Variable dnames : list text.
Variable arities : list nat.
Ltac skipr := match goal with |- _ = mbind (mret ?a) ?f ?p => change (mbind (mret a) f p) with (f a p); cbv beta iota zeta end.
Definition pickM (i : nat) (dname : text) (dtlist : list term) (params : list term) : M (list term * term) :=
  let! dtlist1 :=
    match nth_error arities i with
    | None => let! t := mkTypeConstant dname (length params) in bindM dname t ;; mret (dtlist ++ [t])
    | Some a => if Nat.eqb (length params) a then mret dtlist else merr
    end in
  let! dt := mlift (vec_at dtlist1 i) in
  mret (dtlist1, dt).
Definition picked (i : nat) (dname : text) (dl : list term) (ps : list term) (s : st) (r : list term * term) (s1 : st) : Prop :=
  match nth_error arities i with
  | None => exists t s2, type_constant s dname (length ps) t s2 /\ bound s2 dname t s1 /\ fst r = dl ++ [t]
  | Some a => length ps = a /\ fst r = dl /\ s1 = s
  end /\ nth_error (fst r) i = Some (snd r).
Lemma only_pick i dname dl ps : only (pickM i dname dl ps) (picked i dname dl ps).
Proof.
  assert (V : forall (l : list term) a, vec_at l i = Ok a <-> nth_error l i = Some a) by (intros l a; unfold vec_at; destruct (nth_error l i); split; congruence).
  unfold pickM. destruct (nth_error arities i) as [a|] eqn:E.
  - eapply only_iff; [apply only_bind; [apply only_if; [apply only_ret | apply only_err]|]; intros dl1; apply only_bind; [apply only_lift|]; intros dt; apply only_ret|].
    intros s r s1. unfold picked. rewrite E. split.
    + intros (dl1 & s2 & [(X & -> & ->)|(_ & [])] & dt & s3 & (Y & ->) & -> & ->). apply Nat.eqb_eq in X. cbn [fst snd]. split; [auto | now apply V].
    + intros ((X & Y & ->) & Z). destruct r as [dl1 dt]. cbn [fst snd] in *. subst dl1. exists dl, s. split; [left; split; [now apply Nat.eqb_eq | auto]|]. exists dt, s. split; [split; [now apply V | reflexivity] | auto].
  - eapply only_iff; [apply only_bind; [apply only_bind; [apply only_sort|]; intros t; apply only_bind; [apply only_bound|]; intros u0; apply only_ret|]; intros dl1; apply only_bind; [apply only_lift|]; intros dt; apply only_ret|].
    intros s r s1. unfold picked. rewrite E. split.
    + intros (dl1 & s2 & (t & s3 & T & u0 & s4 & B & -> & ->) & dt & s5 & (Y & ->) & -> & ->). cbn [fst snd]. split; [eauto 6 | now apply V].
    + intros ((t & s2 & T & B & Y) & Z). destruct r as [dl1 dt]. cbn [fst snd] in *. subst dl1. exists (dl ++ [t]), s1. split; [exists t, s2; split; [exact T|]; exists tt, s1; auto|].
      exists dt, s1. split; [split; [now apply V | reflexivity] | auto].
Qed.
Definition gM (tok : token) (acc : dtacc) : M (dtacc + list (term * list dtcon)) :=
  let '(i, dtlist, out) := acc in
  if negb (token_eqb tok T_LPAREN) then
    if Nat.eqb (length dtlist) (length dnames) then reinsert tok ;; mret (inr (rev out)) else merr
  else
    match nth_error dnames i with
    | None => merr
    | Some dname => let! (dl, dt, dcs) := defM (pickM i dname dtlist) in mret (inl (S i, dl, (dt, dcs) :: out))
    end.
Definition stepR (acc : dtacc) : rel (dtacc + list (term * list dtcon)) :=
  fun s i r s1 i1 =>
    (exists ds xs i' dname dl dt dcs, i = (XL ds :: xs) :: i' /\ i1 = xs :: i' /\ nth_error dnames (fst (fst acc)) = Some dname /\
       defined (picked (fst (fst acc)) dname (snd (fst acc))) s (XL ds) (dl, dt, dcs) s1 /\ r = inl (S (fst (fst acc)), dl, (dt, dcs) :: snd acc)) \/
    (i1 = i /\ (forall ds xs i', i <> (XL ds :: xs) :: i') /\ length (snd (fst acc)) = length dnames /\ s1 = s /\ r = inr (rev (snd acc))).
Lemma p_step d acc : parses CF (S d) (let! tok := next in gM tok acc) (stepR acc) (fun r => match r with inl _ => CF | inr _ => CO end) (fun _ => S d).
Proof.
  destruct acc as [[n dl] out]. intros l s i l' T. destruct (at_next _ _ _ _ _ T) as (t & w & l1 & i1 & N & K & W & U).
  rewrite (mbind_at _ _ _ _ _ _ _ (next_at l s t l1 N)). unfold gM, stepR. cbn [fst snd]. destruct (token_eqb t T_LPAREN) eqn:E; cbn [negb].
  - apply token_eqb_eq in E. subst t. inversion K as [k0 w0 xs0 i0 K1| ds xs i' |]; subst; [discriminate K1|].
    assert (PX : proper (XL ds)) by (assert (PR := ai_proper _ _ _ _ _ T); inversion PR as [|? ? P1 P2]; subst; now inversion P1).
    destruct (nth_error dnames n) as [dname|] eqn:NE.
    + destruct (p_def (pickM n dname dl) (picked n dname dl) (only_pick n dname dl) d l1 s ds (xs :: i') l' PX U) as [H1 H2]. split.
      * intros a p X. apply mbind_ok in X. destruct X as ([[dl1 dt] dcs] & p1 & X & Y). destruct (H1 _ _ X) as (l2 & s2 & -> & D & V). injection Y as <- <-.
        exists l2, s2, (xs :: i'). split; [reflexivity|]. split; [|exact V]. left. exists ds, xs, i', dname, dl1, dt, dcs. auto 8.
      * intros a s1 i2 [(ds' & xs' & i'' & dn & dl1 & dt & dcs & E1 & -> & E2 & D & ->)|(-> & Z & _)]; [|exfalso; eapply Z; reflexivity].
        injection E1 as <- <- <-. injection E2 as <-. destruct (H2 _ _ D) as [F|(l2 & F & V)]; [left; now apply mbind_fuel|]. right. exists l2. split; [|exact V].
        rewrite (mbind_at _ _ _ _ _ _ _ F). reflexivity.
    + split; [intros a p X; discriminate X|]. intros a s1 i2 [(ds' & xs' & i'' & dn & dl1 & dt & dcs & E1 & -> & E2 & D & ->)|(-> & Z & _)]; [discriminate E2 | exfalso; eapply Z; reflexivity].
  - assert (NL : forall ds xs i', i <> (XL ds :: xs) :: i') by (intros ds xs i' ->; inversion K; subst; discriminate E).
    destruct (at_put _ _ _ _ _ _ _ _ _ T (or_introl eq_refl) N K) as [V _]. destruct (Nat.eqb (length dl) (length dnames)) eqn:L.
    + apply Nat.eqb_eq in L. rewrite (mbind_at _ _ _ _ _ _ _ (reinsert_at t l1 s)). split.
      * intros a p X. injection X as <- <-. exists (reinsertToken t l1), s, i. auto 10.
      * intros a s1 i2 [(ds' & xs' & i'' & dn & dl1 & dt & dcs & E1 & _)|(-> & _ & _ & -> & ->)]; [exfalso; eapply NL; exact E1|]. right. exists (reinsertToken t l1). auto.
    + apply Nat.eqb_neq in L. split; [intros a p X; discriminate X|].
      intros a s1 i2 [(ds' & xs' & i'' & dn & dl1 & dt & dcs & E1 & _)|(_ & _ & Z & _)]; [exfalso; eapply NL; exact E1 | contradiction].
Qed.
Definition lbodyM (acc : token * nat * list term * list (term * list dtcon)) : M (token * nat * list term * list (term * list dtcon) + list (term * list dtcon)) :=
  let '(tok, i, dtlist, out) := acc in
  let! r := gM tok (i, dtlist, out) in
  match r with inl (i', dl, o) => let! t := next in mret (inl (t, i', dl, o)) | inr o => mret (inr o) end.
Lemma p_nextloop d n : forall acc, parses CF (S d) (let! tok := next in mloop n lbodyM (tok, fst (fst acc), snd (fst acc), snd acc)) (fun s i a s1 i1 => loops stepR acc s i a s1 i1) (fun _ => CO) (fun _ => S d).
Proof.
  induction n as [|n IH]; intros [[k dl] out] l s i l' T; cbn [fst snd].
  - destruct (at_next _ _ _ _ _ T) as (t & w & l1 & i1 & N & _). rewrite (mbind_at _ _ _ _ _ _ _ (next_at l s t l1 N)). split; [intros a p X; discriminate X | intros; now left].
  - assert (E : (let! tok := next in mloop (S n) lbodyM (tok, k, dl, out)) (l, s) =
      (let! r := (let! tok := next in gM tok (k, dl, out)) in match r with inl acc => let! tok := next in mloop n lbodyM (tok, fst (fst acc), snd (fst acc), snd acc) | inr o => mret o end) (l, s)).
    { rewrite mbind_assoc. same. cbn [mloop]. unfold lbodyM at 1. rewrite mbind_assoc. same. destruct a0 as [[[k1 dl1] o1]|o]; [|reflexivity]. rewrite mbind_assoc. cbn [fst snd]. same. reflexivity. }
    rewrite E. clear E. destruct (p_step d (k, dl, out) l s i l' T) as [P1 P2]. split.
    + intros a p X. apply mbind_ok in X. destruct X as (r & p1 & X & Y). destruct (P1 _ _ X) as (l1 & s1 & i1 & -> & R & U). destruct r as [acc1|o].
      * destruct (IH acc1 l1 s1 i1 l' U) as [I1 _]. destruct (I1 _ _ Y) as (l2 & s2 & i2 & -> & L & V). exists l2, s2, i2. split; [reflexivity|]. split; [|exact V]. eapply lp_go; eassumption.
      * injection Y as <- <-. exists l1, s1, i1. split; [reflexivity|]. split; [now apply lp_stop | exact U].
    + intros a s1 i1 L. inversion L as [acc0 s0 i0 a0 s2 i2 X|acc0 s0 i0 acc1 s2 i2 a0 s3 i3 X Y]; subst; (destruct (P2 _ _ _ X) as [F|(l1 & F & U)]; [left; now apply mbind_fuel|]); rewrite (mbind_at _ _ _ _ _ _ _ F).
      * right. exists l1. auto.
      * destruct (IH acc1 l1 s2 i2 l' U) as [_ I2]. exact (I2 _ _ _ Y).
Qed.
Definition dt_decl (s : st) (h : text * nat) (t : term) (s' : st) : Prop := exists s1, type_constant s (fst h) (snd h) t s1 /\ bound s1 (fst h) t s'.
Lemma defs_eq p : parseDatatypesDef G pe dnames arities p =
  (let! dts0 := mmap (combine dnames arities) (fun p => let! t := mkTypeConstant (fst p) (snd p) in bindM (fst p) t ;; mret t) in
   let! tok := next in mloop (g_fuel G) lbodyM (tok, O, dts0, [])) p.
Proof.
  unfold parseDatatypesDef. same. same. apply mloop_ext. intros [[[tok i] dtlist] out] q. unfold lbodyM, gM.
  destruct (negb (token_eqb tok T_LPAREN)).
  { destruct (Nat.eqb (length dtlist) (length dnames)); [|reflexivity]. rewrite mbind_assoc. same. reflexivity. }
  destruct (nth_error dnames i) as [dname|]; [|reflexivity]. unfold defM. rewrite !mbind_assoc. same. destruct (token_eqb a1 T_PAR).
  - unfold parM. rewrite !mbind_assoc. same. rewrite !mbind_assoc. same. destruct a3 as [|n0 ns]; [reflexivity|]. rewrite !mbind_assoc. same.
    unfold restM, pickM, instM. cbv iota. repeat first [progress rewrite mbind_assoc | skip | skipr | same | match goal with |- context [let (_, _) := ?x in _] => is_var x; destruct x end]. reflexivity.
  - rewrite !mbind_assoc. same. rewrite !mbind_assoc. same. skip.
    unfold restM, pickM, instM. cbv iota. repeat first [progress rewrite mbind_assoc | skip | skipr | same | match goal with |- context [let (_, _) := ?x in _] => is_var x; destruct x end]. reflexivity.
Qed.
Lemma only_decl h : only (let! t := mkTypeConstant (fst h) (snd h) in bindM (fst h) t ;; mret t) (fun s t s1 => dt_decl s h t s1).
Proof.
  eapply only_iff; [apply only_bind; [apply only_sort|]; intros t; apply only_bind; [apply only_bound|]; intros u0; apply only_ret|]. intros s t s1. unfold dt_decl. split.
  - intros (t0 & s2 & T & u0 & s3 & B & -> & ->). eauto.
  - intros (s2 & T & B). exists t, s2. split; [exact T|]. exists tt, s1. auto.
Qed.
Lemma p_defs d : parses CF (S d) (parseDatatypesDef G pe dnames arities)
  (fun s i r s1 i1 => exists dts0 s2, each dt_decl s (combine dnames arities) dts0 s2 /\ loops stepR (O, dts0, []) s2 i r s1 i1) (fun _ => CO) (fun _ => S d).
Proof.
  eapply parses_ext; [exact defs_eq|]. eapply parses_iff; [eapply p_bind; [apply p_only; apply only_map; exact only_decl|]; intros dts0; apply (p_nextloop d (g_fuel G) (O, dts0, []))|].
  intros s i r s1 i1 _. split.
  - intros (dts0 & s2 & i2 & (E & ->) & L). eauto.
  - intros (dts0 & s2 & E & L). exists dts0, s2, i. split; [split; auto | exact L].
Qed.
End Defs.

(** ** The attributes *)
Definition marksM (dts : list (term * list dtcon)) : M unit :=
  mfor dts (fun d =>
    let! ct := mkListM G (map (fun c => fst (fst c)) (snd d)) in
    let! _ := markM (fst d) A_DATATYPE (Some ct) in mret tt) ;;
  mfor (flat_map snd dts) (fun c =>
    let! ct := mkListM G (snd (fst c)) in
    let! _ := markM (fst (fst c)) (if snd c then A_AMB_DATATYPE_CONSTRUCTOR else A_DATATYPE_CONSTRUCTOR) (Some ct) in
    mret tt).
Lemma only_marks dts : only (marksM dts) (fun s _ s1 => dt_marks G s dts s1).
Proof.
  eapply only_iff; [apply only_bind; [apply (only_for _ _ _ (dt_mark G)) | intros u0; apply (only_for _ _ _ (con_mark G))]|].
  - intros x. eapply only_iff; [apply only_bind; [apply only_listed|]; intros ct; apply only_mark|]. intros s u s1. unfold dt_mark. split.
    + intros (t & s2 & (L & ->) & X). eauto.
    + intros (t & L & X). exists t, s. split; [split; auto | exact X].
  - intros x. eapply only_iff; [apply only_bind; [apply only_listed|]; intros ct; apply only_mark|]. intros s u s1. unfold con_mark. split.
    + intros (t & s2 & (L & ->) & X). eauto.
    + intros (t & L & X). exists t, s. split; [split; auto | exact X].
  - intros s u s1. unfold dt_marks. split.
    + intros (u0 & s2 & X & Y). eauto.
    + intros (s2 & X & Y). exists tt, s2. auto.
Qed.

(** ** One datatype *)
Lemma loops_one n s i r s1 i1 : loops (stepR [n] []) (O, [], []) s i r s1 i1 <->
  exists ds xs i' dt dcs par ps ys s2 s3 s4, i = (XL ds :: xs) :: i' /\ i1 = xs :: i' /\ (forall zs ws, xs <> XL zs :: ws) /\ dt_head s (XL ds) par ps ys s2 /\
    type_constant s2 n (length ps) dt s3 /\ bound s3 n dt s4 /\ dt_rest G sig dt par ps s4 ys dcs s1 /\ r = [(dt, dcs)].
Proof.
  split.
  - intros L. inversion L as [acc0 s0 i0 a0 s2 i2 X|acc0 s0 i0 acc1 s2 i2 a0 s3 i3 X Y]; subst; destruct X as [(ds & xs & i' & dname & dl & dt & dcs & -> & -> & NE & D & E)|(_ & _ & E & _ & Z)]; try discriminate.
    injection E as ->. cbn [fst snd] in *. injection NE as <-. destruct D as (par & ps & ys & s4 & H & s5 & ((t & s6 & T & B & E) & NT) & R). cbn [fst snd] in *. subst dl. injection NT as ->.
    inversion Y as [acc0 s0 i0 a0 s7 i7 X|acc0 s0 i0 acc1 s7 i7 a0 s8 i8 X Y2]; subst.
    + destruct X as [(ds' & xs' & i'' & dname & dl & dt' & dcs' & _ & _ & NE & _)|(-> & NL & _ & -> & E)]; [discriminate NE|]. injection E as ->.
      exists ds, xs, i', dt, dcs, par, ps, ys, s4, s6, s5. split; [reflexivity|]. split; [reflexivity|]. split; [intros zs ws ->; eapply NL; reflexivity|]. auto 10.
    + destruct X as [(ds' & xs' & i'' & dname & dl & dt' & dcs' & _ & _ & NE & _)|(_ & _ & _ & _ & E)]; [discriminate NE | discriminate E].
  - intros (ds & xs & i' & dt & dcs & par & ps & ys & s2 & s3 & s4 & -> & -> & NL & H & T & B & R & ->). eapply lp_go.
    + left. exists ds, xs, i', n, [dt], dt, dcs. split; [reflexivity|]. split; [reflexivity|]. split; [reflexivity|]. split; [|reflexivity].
      exists par, ps, ys, s2. split; [exact H|]. exists s4. split; [|exact R]. split; [|reflexivity]. exists dt, s3. auto.
    + apply lp_stop. right. split; [reflexivity|]. split; [intros zs ws i'' E; injection E as -> ->; eapply NL; reflexivity|]. auto.
Qed.
Lemma c_datatype : is_command (cmdDatatypes G sig false) C_DECLARE_DATATYPE.
Proof.
  eapply is_command_if; [eapply (parses_ext _ _ _ _ (let! n := parseSymbol in let! dts := parseDatatypesDef G pe [n] [] in marksM dts))|].
  - intros p. unfold cmdDatatypes, marksM. rewrite mbind_assoc. same. skip. same. same. apply mbind_unit.
  - eapply p_bind; [apply p_symbol|]; intros n; eapply p_bind; [apply p_defs|]; intros dts; apply e_only; [reflexivity | apply only_marks].
  - intros s xs s1. split.
    + intros (n & s2 & i2 & (y & ys & i' & E & (N & ->) & ->) & dts & s3 & i3 & (dts0 & s4 & E0 & L) & MK & E1). injection E as -> <-. inversion E0; subst.
      apply loops_one in L. destruct L as (ds & xs & i' & dt & dcs & par & ps & ws & s5 & s6 & s7 & E2 & E3 & _ & H & T & B & R & ->). injection E2 as -> <-. injection E3 as <-. econstructor; eassumption.
    + intros H. inversion H; subst. assert (X : exists ds, x = XL ds) by (match goal with D : dt_head _ _ _ _ _ _ |- _ => inversion D; eauto end). destruct X as (ds & ->).
      do 3 eexists. split; [eexists _, _, _; split; [reflexivity|]; split; [split; [eassumption | reflexivity] | reflexivity]|].
      do 3 eexists. split; [exists [], s; split; [constructor|]; apply loops_one; do 11 eexists; split; [reflexivity|]; split; [reflexivity|]; split; [discriminate|]; split; [eassumption|];
        split; [eassumption|]; split; [eassumption|]; split; [eassumption | reflexivity]|]. split; [eassumption | reflexivity].
Qed.

(** ** Several datatypes *)
Lemma skipn_at A k (l : list A) a : nth_error l k = Some a -> skipn k l = a :: skipn (S k) l.
Proof. revert l. induction k as [|k IH]; intros [|b l] E; try discriminate E; cbn in *; [now injection E as -> | now apply IH]. Qed.
Lemma nth_some A (l : list A) k : (k < length l)%nat -> exists a, nth_error l k = Some a.
Proof. intros L. destruct (nth_error l k) as [a|] eqn:E; [eauto|]. apply nth_error_None in E. lia. Qed.
Lemma loops_many dn ar dts : length ar = length dn -> length dts = length dn -> forall k out s x0 i0 r s1 i1, (k <= length dn)%nat ->
  loops (stepR dn ar) (k, dts, out) s (x0 :: i0) r s1 i1 <->
  exists xs rest i' ds, x0 :: i0 = (xs ++ rest) :: i' /\ i1 = rest :: i' /\ (forall zs ws, rest <> XL zs :: ws) /\ (k + length xs <= length dn)%nat /\
    each (dt_def G sig) s (combine (combine (skipn k dts) (skipn k ar)) xs) ds s1 /\ r = rev out ++ ds.
Proof.
  intros LA LD. assert (FW : forall acc s i r s1 i1, loops (stepR dn ar) acc s i r s1 i1 -> forall k out, acc = (k, dts, out) -> (k <= length dn)%nat -> i <> [] ->
    exists xs rest i' ds, i = (xs ++ rest) :: i' /\ i1 = rest :: i' /\ (forall zs ws, rest <> XL zs :: ws) /\ (k + length xs <= length dn)%nat /\
      each (dt_def G sig) s (combine (combine (skipn k dts) (skipn k ar)) xs) ds s1 /\ r = rev out ++ ds).
  { intros acc s i r s1 i1 L. induction L as [acc s i a s1 i1 X|acc s i acc1 s1 i1 a s2 i2 X L IH]; intros k out -> LK NE.
    - destruct X as [(ds & xs & i' & dname & dl & dt & dcs & _ & _ & _ & _ & E)|(-> & NL & _ & -> & E)]; [discriminate E|]. injection E as ->. destruct i as [|rest i']; [congruence|].
      exists [], rest, i', []. split; [reflexivity|]. split; [reflexivity|]. split; [intros zs ws ->; eapply NL; reflexivity|]. cbn [length]. split; [lia|].
      split; [destruct (combine (skipn k dts) (skipn k ar)); constructor | cbn [snd]; now rewrite app_nil_r].
    - destruct X as [(ds & xs & i' & dname & dl & dt & dcs & -> & -> & NX & D & E)|(_ & _ & _ & _ & E)]; [|discriminate E]. injection E as ->. cbn [fst snd] in *.
      destruct D as (par & ps & ys & s4 & H & s5 & (PK & NT) & R). cbn [fst snd] in *. assert (KL : (k < length dn)%nat) by (apply nth_error_Some; congruence).
      destruct (nth_some _ ar k) as (aa & NA); [lia|]. rewrite NA in PK. destruct PK as (LP & -> & ->).
      destruct (IH (S k) ((dt, dcs) :: out) eq_refl) as (xs' & rest & i'' & ds' & E & -> & NL & LX & EA & ->); [lia | discriminate|]. injection E as -> <-.
      exists (XL ds :: xs'), rest, i', ((dt, dcs) :: ds'). split; [reflexivity|]. split; [reflexivity|]. split; [exact NL|]. cbn [length]. split; [lia|]. split.
      + rewrite (skipn_at _ k dts dt NT), (skipn_at _ k ar aa NA). cbn [combine]. econstructor; [|exact EA]. exists par, ps, ys, s4. auto.
      + cbn [rev]. now rewrite <- app_assoc. }
  intros k out s x0 i0 r s1 i1 LK. split.
  - intros L. now apply (FW _ _ _ _ _ _ L).
  - intros (xs & rest & i' & ds & E0 & -> & NL & LX & EA & ->). rewrite E0. clear E0 x0 i0. revert k out s ds EA LK LX. induction xs as [|x xs IH]; intros k out s ds EA LK LX.
    + assert (E : combine (combine (skipn k dts) (skipn k ar)) (@nil sx) = []) by (destruct (combine (skipn k dts) (skipn k ar)); reflexivity). rewrite E in EA. inversion EA; subst.
      apply lp_stop. right. cbn [fst snd]. split; [reflexivity|]. split; [intros zs ws i'' E2; injection E2 as -> _; eapply NL; reflexivity|]. split; [exact LD|]. split; [reflexivity|]. now rewrite app_nil_r.
    + cbn [length] in LX. destruct (nth_some _ ar k) as (aa & NA); [lia|]. destruct (nth_some _ dts k) as (dt & NT); [lia|]. destruct (nth_some _ dn k) as (dname & NX); [lia|].
      rewrite (skipn_at _ k dts dt NT), (skipn_at _ k ar aa NA) in EA. cbn [combine] in EA. inversion EA as [|s0 x0 a s2 xs0 l s3 D EA2]; subst.
      destruct D as (par & ps & ys & s4 & H & LP & R & E). destruct a as [dt0 dcs]. cbn [fst snd] in *. subst dt0. assert (X : exists zs, x = XL zs) by (inversion H; eauto). destruct X as (zs & ->).
      eapply lp_go; [|replace (rev out ++ (dt, dcs) :: l) with (rev ((dt, dcs) :: out) ++ l) by (cbn [rev]; now rewrite <- app_assoc); apply (IH (S k) ((dt, dcs) :: out) s2 l); [exact EA2 | lia | lia]].
      left. exists zs, (xs ++ rest), i', dname, dts, dt, dcs. split; [reflexivity|]. split; [reflexivity|]. split; [exact NX|]. split; [|reflexivity].
      exists par, ps, ys, s4. split; [exact H|]. exists s4. split; [|exact R]. split; [|exact NT]. cbn [fst snd]. rewrite NA. auto.
Qed.
Definition head_in (s : st) (h : sx) (r : text * nat) (s1 : st) : Prop := (exists y z k, h = XL [y; z] /\ named y (fst r) /\ number z k /\ snd r = Z.to_nat k) /\ s1 = s.
Definition head_add (acc : list text * list nat) (b : text * nat) : list text * list nat := (fst acc ++ [fst b], snd acc ++ [snd b]).
Lemma fold_head bs : forall a c, fold_left head_add bs (a, c) = (a ++ map fst bs, c ++ map snd bs).
Proof. induction bs as [|x bs IH]; intros a c; cbn [fold_left map]; [now rewrite !app_nil_r|]. unfold head_add at 2. cbn [fst snd]. rewrite IH, <- !app_assoc. reflexivity. Qed.
Definition headM (acc : list text * list nat) : M (list text * list nat + list text * list nat) :=
  let! name := parseSymbol in let! a := parseIntegerNumeral in eat T_RPAREN ;; mret (inl (fst acc ++ [name], snd acc ++ [Z.to_nat a])).
Lemma p_heads d : parses CO (S (S d)) (mloop (g_fuel G) (cbody headM (fun acc => acc)) ([], []))
  (fun s i r s1 i1 => exists bs, r_items head_in s i bs s1 i1 /\ r = (map fst bs, map snd bs)) (fun _ => CF) (fun _ => S d).
Proof.
  eapply parses_iff; [apply (p_cloop G headM head_in head_add (fun acc => acc) d)|].
  - intros s x b s1 ((y & z & k & -> & _) & _). eauto.
  - intros acc. eapply parses_iff; [unfold headM; eapply p_bind; [apply p_symbol|]; intros n; eapply p_bind; [apply p_number|]; intros k; eapply p_bind; [apply p_close_o|]; intros u0; apply p_ret|].
    intros s i r s1 i1 _. unfold r_inner, head_add, head_in. split.
    + intros (n & s2 & i2 & (y & ys & i' & -> & (N & ->) & ->) & k & s3 & i3 & (z & zs & i'' & E & (K & ->) & ->) & u0 & s4 & i4 & (-> & E2) & -> & -> & ->). injection E as -> <-. injection E2 as -> ->.
      exists [y; z], (n, Z.to_nat k). split; [reflexivity|]. split; [|reflexivity]. split; [exists y, z, k; auto | reflexivity].
    + intros (ys & [n k0] & -> & ((y & z & k & E & N & K & E2) & ->) & ->). injection E as ->. cbn [fst snd] in *. subst k0. bwd.
  - intros s i r s1 i1 _. split; intros (bs & I & ->); exists bs; (split; [exact I|]); now rewrite fold_head.
Qed.
Lemma each_heads s hs heads s1 : each head_in s hs heads s1 <-> Forall2 (fun h r => exists y z k, h = XL [y; z] /\ named y (fst r) /\ number z k /\ snd r = Z.to_nat k) hs heads /\ s1 = s.
Proof. exact (each_pure (text * nat) (fun h r => exists y z k, h = XL [y; z] /\ named y (fst r) /\ number z k /\ snd r = Z.to_nat k) s hs heads s1). Qed.
Lemma combine_split A B (l : list (A * B)) : combine (map fst l) (map snd l) = l.
Proof. induction l as [|[a b] l IH]; [reflexivity|]. cbn [map combine fst snd]. now rewrite IH. Qed.
Lemma each_length A B (R : st -> A -> B -> st -> Prop) s xs l s1 : each R s xs l s1 -> length l = length xs.
Proof. induction 1; cbn; congruence. Qed.
Lemma f2_length A B (P : A -> B -> Prop) l m : Forall2 P l m -> length l = length m.
Proof. induction 1; cbn; congruence. Qed.
Lemma c_datatypes : is_command (cmdDatatypes G sig true) C_DECLARE_DATATYPES.
Proof.
  eapply is_command_if; [eapply (parses_ext _ _ _ _ (eat T_LPAREN ;; let! nas := mloop (g_fuel G) (cbody headM (fun acc => acc)) ([], []) in
      match fst nas with [] => merr | _ => eat T_LPAREN ;; let! dts := parseDatatypesDef G pe (fst nas) (snd nas) in marksM dts ;; eat T_RPAREN end))|].
  - intros p. unfold cmdDatatypes, marksM, cbody, headM. rewrite !mbind_assoc. same. rewrite !mbind_assoc. same. destruct a0 as [[|n0 ns] ars]; [reflexivity|]. cbn [fst snd]. rewrite !mbind_assoc. same. skip. same. rewrite mbind_assoc. same. same. reflexivity.
  - eapply p_bind; [apply p_open|]; intros u0; eapply (p_bindg _ _ _ (fun bs => (map fst bs, map snd bs)) _ _ _ _ _ _ CF 1%nat); [apply (parses_le _ CO (down CF) _ _ _ (fun _ => CF)); [reflexivity | reflexivity | apply p_heads]|]; intros bs; cbn [fst snd]; apply p_list; [apply p_err|];
      intros n0 ns; eapply p_bind; [apply p_open|]; intros u1; eapply p_bind; [apply p_defs|]; intros dts; eapply p_bind; [apply p_only; apply only_marks|]; intros u2; apply p_close_o.
  - intros s xs s1. split.
    + intros (u0 & s2 & i2 & (-> & hs & rest & i' & E & ->) & heads & s3 & i3 & (hs' & E1 & HS) & [(_ & [])|(n0 & ns & EN & u1 & s4 & i4 & (-> & ys & rest2 & i5 & E2 & ->) & dts & s5 & i6 & (dts0 & s6 & E0 & L) & u2 & s7 & i7 & (MK & ->) & -> & E3)]).
      injection E as -> <-. injection E1 as <- <-. injection E2 as -> <-. apply each_heads in HS. destruct HS as [HS ->]. rewrite combine_split in E0.
      apply loops_many in L; [|now rewrite !map_length | rewrite map_length; exact (each_length _ _ _ _ _ _ _ E0) | lia].
      destruct L as (xs & rest & i' & ds & EX & E4 & NL & LX & EA & ->). rewrite E4 in E3. injection E3 as -> ->. injection EX as E5 ->. rewrite app_nil_r in E5. subst ys. cbn [skipn rev app] in *.
      rewrite map_length in LX. econstructor; [|exact HS | exact E0 | | exact EA | exact MK].
      * intros ->. inversion HS; subst. discriminate EN.
      * rewrite (f2_length _ _ _ _ _ HS). exact LX.
    + intros H. inversion H; subst. rename heads into hds. match goal with D : dt_marks G ?a _ s1 |- _ => rename a into sm end. match goal with E : each _ s hds _ ?b |- _ => rename b into sd end. exists tt, s, (hs :: [XL xs0] :: []). split; [split; [reflexivity | eauto 6]|].
      exists hds, s, ([XL xs0] :: []). split; [exists hs; split; [reflexivity | apply each_heads; auto]|].
      match goal with F : Forall2 _ hs hds |- _ => assert (LF := f2_length _ _ _ _ _ F) end. destruct hds as [|h0 hds]; [destruct hs; [congruence | discriminate LF]|]. right. exists (fst h0), (map fst hds). split; [reflexivity|].
      exists tt, s, (xs0 :: [] :: []). split; [split; [reflexivity | eauto 6]|]. exists ds, sm, ([] :: [] :: []). split.
      * exists dts, sd. split; [rewrite combine_split; eassumption|].
        match goal with F : each _ s _ dts sd |- _ => assert (LE := each_length _ _ _ _ _ _ _ F) end.
        apply loops_many; [now rewrite !map_length | now rewrite map_length | lia|]. exists xs0, [], [[]], ds. rewrite app_nil_r. split; [reflexivity|]. split; [reflexivity|]. split; [discriminate|].
        split; [rewrite map_length; lia|]. split; [assumption | reflexivity].
      * exists tt, s1, ([] :: [] :: []). split; [split; [assumption | reflexivity] | auto].
Qed.
End Cmds.
