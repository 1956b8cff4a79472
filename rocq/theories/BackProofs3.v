(** Proofs that printed terms are read back: definitions of shared terms. *)
From Coq Require Import String ZArith List Bool Lia.
From Verif Require Import Base Kind Ints Str Literal SpecLit Arity Term Match Eval ListOps Typing Build Scope Lexer SpecLex
  LexProofs LexProofs2 TermProofs Parse SpecRead SpecLocal Print SpecPrint PrintProofs PrintProofs2 PrintProofs3 PrintProofs4 PrintProofs5 SpecBack BackProofs BackProofs2.
Import ListNotations.
Open Scope Z_scope.

Section Shared.
Variable G : config.
Hypothesis faithful_G : forall n t, g_varinfo G (g_bvar G n t) = Some (n, t).
Hypothesis some_fuel : (0 < g_mk G)%nat.
Variables sig ll lt : bool.
Variable s : st.
Let E := env_of G s.
Notation ordinary := (ordinary G sig ll lt s).

Lemma leaf_fin t : parts E t [] -> fin E t.
Proof. intros P. constructor; rewrite <- (parts_kids E _ _ P); [exact P|intros c []]. Qed.
Lemma parts_fin t cs : parts E t cs -> Forall (fin E) cs -> fin E t.
Proof. intros P F. constructor; rewrite <- (parts_kids E _ _ P); [exact P|]. now apply Forall_forall. Qed.
Lemma symbol_fin f : named_symbol G ll lt s f -> fin E f.
Proof. intros N. apply leaf_fin. destruct N. now apply pt_sym. Qed.
Lemma ordinary_fin : forall t, ordinary t -> fin E t.
Proof.
  fix IH 2. intros t O.
  destruct O as [t NS|l LW|LT| |f a NS EI Oa|k f cs NS HW KK Os AP|v f a SF TC Of Oa|v t u SF Ot Ou|v n T SF TX OT AP|v k w c cs IB SF NK Os AP].
  - now apply symbol_fin.
  - apply leaf_fin. constructor.
  - apply leaf_fin. now constructor.
  - apply leaf_fin. now constructor.
  - apply (parts_fin _ [f; a]); [now constructor|]. constructor; [now apply symbol_fin|]. constructor; [now apply IH|constructor].
  - apply (parts_fin _ (f :: cs)); [constructor; destruct KK; subst; discriminate|]. constructor; [now apply symbol_fin|].
    clear - Os IH. induction Os as [|c cs Oc _ IHs]; [constructor|]. constructor; [exact (IH c Oc)|exact IHs].
  - apply (parts_fin _ [f; a]); [now constructor|]. constructor; [now apply IH|]. constructor; [now apply IH|constructor].
  - apply (parts_fin _ [t; u]); [now constructor|]. constructor; [now apply IH|]. constructor; [now apply IH|constructor].
  - apply (parts_fin _ [T]); [|constructor; [now apply IH|constructor]]. constructor. unfold E. cbn. now rewrite faithful_G.
  - apply (parts_fin _ (c :: cs)); [constructor; intros ->; apply builtin_kind_ok in IB; discriminate|].
    clear - Os IH. induction Os as [|d ds Oc _ IHs]; [constructor|]. constructor; [exact (IH d Oc)|exact IHs].
Qed.

(** The names of the first terms are bound to these. *)
Record bound_names (pre : list term) (T : names_table) : Prop := {
  bn_known : forall n v, getVar (s_scope s) n = Some v -> T n = Some v;
  bn_named : forall u w, naming 0 pre u = Some w -> T w = Some u;
  bn_later : forall j, (length pre <= j)%nat -> T (let_name j) = None }.
Lemma naming_in i ls u w : naming i ls u = Some w -> In u ls.
Proof.
  intros H. destruct (in_dec term_eq_dec u ls) as [I|N]; [exact I|]. apply naming_none with (i := i) in N. congruence.
Qed.
Lemma bound_ok pre T : bound_names pre T -> Forall (compound E) pre -> names_ok G ll lt s (naming 0 pre) T.
Proof.
  intros [A B C] F. constructor; [exact A|]. intros u w H. split; [|split; [now apply B|]].
  - apply naming_some in H as (j & _ & ->). apply let_word.
  - rewrite Forall_forall in F. apply F. now apply naming_in in H.
Qed.
Lemma bound_next pre T l : bound_names pre T -> bound_names (pre ++ [l]) (with_name T (let_name (length pre)) l).
Proof.
  intros [A B C]. unfold with_name. constructor.
  - intros n v H. destruct (text_eqb (let_name (length pre)) n) eqn:X; [|now apply A]. apply text_eqb_eq in X. subst n.
    apply A in H. rewrite C in H by lia. discriminate.
  - intros u w H. rewrite naming_app in H. destruct (naming 0 pre u) as [w'|] eqn:N.
    + assert (w' = w) by congruence. subst w'. destruct (text_eqb (let_name (length pre)) w) eqn:X; [|now apply B].
      apply text_eqb_eq in X. apply naming_some in N as (j & R & ->). apply let_name_inj in X. lia.
    + cbn [naming Nat.add] in H. destruct (term_eqb l u) eqn:Y; [|discriminate]. apply term_eqb_eq in Y. subst u.
      assert (w = let_name (length pre)) as -> by congruence. now rewrite (proj2 (text_eqb_eq _ _) eq_refl).
  - intros j H. rewrite app_length in H. cbn [length] in H. destruct (text_eqb (let_name (length pre)) (let_name j)) eqn:X; [|apply C; lia].
    apply text_eqb_eq, let_name_inj in X. lia.
Qed.
Lemma define_word : a_word ll lt T_EVAL_DEFINE (txt "eo::define").
Proof.
  split; [reflexivity|]. split; [discriminate|]. split; [repeat (constructor; [vm_compute; split; reflexivity|]); constructor|].
  intros rest R. apply lx_reserved; [apply res_define|now apply delimited_sym].
Qed.
Lemma defined_back : forall pre ls ds us, defined E pre ls ds us -> forall T b vs t, bound_names pre T -> Forall (compound E) (pre ++ ls) ->
  Forall ordinary ls -> ordinary t -> written E (naming 0 (pre ++ ls)) t b vs ->
  exists y, spells ll lt (defining ds b) y /\ means G sig s T y t.
Proof.
  induction 1 as [pre|pre l ls lx us ds ws W D IH]; intros T b vs t B C O Ot Wb.
  - rewrite app_nil_r in C, Wb. cbn [defining].
    destruct (proj1 (written_back G faithful_G some_fuel sig ll lt s _ _ (bound_ok pre T B C)) _ _ _ Wb Ot) as (y & S & M & _). eauto.
  - inversion O as [|? ? Ol Ols]; subst.
    assert (C1 : Forall (compound E) pre) by now apply Forall_app in C.
    assert (C2 : Forall (compound E) ((pre ++ [l]) ++ ls)) by now rewrite <- app_assoc.
    assert (Cl : compound E l) by (apply Forall_app in C as [_ C]; now inversion C).
    destruct (proj1 (written_back G faithful_G some_fuel sig ll lt s _ _ (bound_ok pre T B C1)) _ _ _ W Ol) as (yl & Sl & Ml & _).
    rewrite <- app_assoc in IH. destruct (IH (with_name T (let_name (length pre)) l) b vs t (bound_next pre T l B)) as (y & S & M); auto.
    exists (XL [XT T_EVAL_DEFINE (txt "eo::define"); XL [XL [XT T_SYMBOL (let_name (length pre)); yl]]; y]). split.
    + cbn [defining]. repeat first [exact Sl | exact S | apply sp_nil | apply sp_cons | apply sp_list | apply sp_word; first [exact define_word|apply let_word]].
    + apply me_let with (ds := [(let_name (length pre), l)]).
      * reflexivity.
      * apply ml_cons; [reflexivity|exact Ml| |apply ml_nil]. unfold skipped. now apply (ordinary_kind G sig ll lt s).
      * split; [repeat (constructor; [intros []|]); constructor|]. constructor; [|constructor]. cbn [fst snd]. split; [apply (bn_later _ _ B); lia|].
        intros K. apply (ordinary_kind G sig ll lt s l Ol) in K as [i ->]. destruct Cl as (c & cs & P). inversion P.
      * exact M.
      * unfold skipped. now apply (ordinary_kind G sig ll lt s).
Qed.

(** What is printed, in either way, is an S-expression that means the term. *)
Lemma printed_back dag n t out : (dag = true -> forall i, getVar (s_scope s) (let_name i) = None) -> ordinary t ->
  printDebug E dag n t = Ok out -> exists x y, out = render x /\ spells ll lt x y /\ means G sig s (getVar (s_scope s)) y t.
Proof.
  intros NB O H. pose proof (ordinary_fin t O) as F. destruct dag.
  - destruct (shared_print E t F) as (N & ls & ds & b & us & R & (us1 & us2 & D & Wb & _) & ND & IN & LS & LW & NL).
    assert (X : out = render (defining ds b)) by (apply (printDebug_same E true n N t); [exact H|now apply R]).
    destruct (defined_back [] ls ds us1 D (getVar (s_scope s)) b us2 t) as (y & S & M); auto.
    + constructor; [auto|intros u w Y; discriminate Y|intros j _; now apply NB].
    + apply Forall_forall. intros u I. now apply LS in I.
    + apply Forall_forall. intros u I. apply LW in I. exact (ordinary_within G faithful_G sig ll lt s u t O I).
    + exists (defining ds b), y. auto.
  - destruct (written_total E (fun _ => None) t F) as (x & us & W).
    assert (K : names_ok G ll lt s (fun _ => None) (getVar (s_scope s))) by (constructor; [auto|discriminate]).
    destruct (proj1 (written_back G faithful_G some_fuel sig ll lt s _ _ K) _ _ _ W O) as (y & S & M & _).
    exists x, y. split; [|auto]. apply (plain_print E t x n); [now exists us|exact H].
Qed.
Lemma ordinary_prints t dag : ordinary t -> exists N out, forall n, (N <= n)%nat -> printDebug E dag n t = Ok out.
Proof.
  intros O. pose proof (ordinary_fin t O) as F. destruct dag.
  - destruct (shared_print E t F) as (N & ls & ds & b & us & R & _). eauto.
  - destruct (written_total E (fun _ => None) t F) as (x & us & W). destruct (plain_prints E t x) as [N R]; [now exists us|]. eauto.
Qed.
End Shared.
