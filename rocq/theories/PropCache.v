(** C78: the cache of types. *)
From Coq Require Import String ZArith List Bool Lia.
From Verif Require Import Base Kind Ints Str Literal Arity Term TermProofs Match Eval ListOps Typing SpecTerm Build Scope Lexer Parse Check SpecRead PropRead PropLocal
  Cache SpecCache CacheProofs.
Import ListNotations.
Open Scope Z_scope.

(** A type that is delivered, from the cache or not, is the type that is computed anew, and the
    cache stays one of which this holds. *)
Theorem C78_right : forall E c nested n m t ty c', arises E c -> good_nested E nested ->
  getTypeCached E (tc_eval (tc E n)) nested m c t = Ok (Some ty, c') -> has_answer E t (Some ty) /\ arises E c' /\ incl c c'.
Proof.
  intros E c nested n m t ty c' A HN H. destruct (cached_sound E nested n m c t _ c' HN (arises_good E c A) H) as (_ & I & R).
  split; [exact (R ty eq_refl)|]. split; [exact (ar_asked E c nested n m t _ c' A HN H) | exact I].
Qed.
Print Assumptions C78_right.
(** A type that can be computed is delivered, whatever is in the cache, if the types of the parts
    of the term quote symbols only (as all types that can be written). *)
Theorem C78_found : forall E c nested t ty, arises E c -> good_nested E nested -> has_answer E t (Some ty) -> quotes_symbols E t ->
  exists n, forall m, (n <= m)%nat -> exists k c', forall j, getTypeCached E (tc_eval (tc E m)) nested (k + j) c t = Ok (Some ty, c').
Proof. intros E c nested t ty A HN. exact (cached_complete E nested t ty c HN (arises_good E c A)). Qed.
Print Assumptions C78_found.

(** Two levels of applications, a repeated part, and a literal. *)
Definition sig78 : string :=
"(declare-const Int Type) (declare-consts <numeral> Int) (declare-const f (-> Int Int Int)) (declare-const and (-> Bool Bool Bool) :right-assoc-nil true)
(program $h ((x Int)) :signature (Int) Int)
(declare-parameterized-const g ((x Int)) (eo::ite (eo::is_ok ($h x)) Int Bool))".
Definition E78 : env := env_of (cfg67 sig78) (s67 sig78).
Definition sym78 (n : string) : term := match getVar (s_scope (s67 sig78)) (txt n) with Some t => t | None => null_term end.
Definition app1 (f a : term) : term := Node K_APPLY [f; a].
Definition t78 : term := app1 (sym78 "g") (Lit (LNum 1)).
Definition u78 : term := let a := app1 (app1 (sym78 "f") (Lit (LNum 1))) (Lit (LNum 2)) in app1 (app1 (sym78 "f") a) a.
Definition keep : cache -> term -> cache := fun c _ => c.
Lemma good_keep E : good_nested E keep.
Proof. intros c t H. split; [exact H | apply incl_refl]. Qed.
Definition c78 : cache := match getTypeCached E78 (tc_eval (tc E78 30)) keep 30 [] t78 with Ok (_, c) => c | _ => [] end.
Lemma c78_arises : arises E78 c78.
Proof.
  assert (X : match getTypeCached E78 (tc_eval (tc E78 30)) keep 30 [] t78 with Ok _ => true | _ => false end = true) by (vm_compute; reflexivity).
  unfold c78. destruct (getTypeCached E78 (tc_eval (tc E78 30)) keep 30 [] t78) as [[r c]| | |] eqn:H; try discriminate X.
  exact (ar_asked E78 [] keep 30 30 t78 r c (ar_none E78) (good_keep E78) H).
Qed.
Fixpoint parts (t : term) : list term := t :: match t with Node _ cs => flat_map parts cs | _ => [] end.
Fixpoint occurs_parts u t (H : occurs u t) : In u (parts t).
Proof.
  destruct H as [|k cs c I O]; [destruct u; now left|]. cbn [parts]. right. apply in_flat_map. exists c. split; [exact I | exact (occurs_parts u c O)].
Qed.
Definition quote_ok (h : term) : bool := match h with Node K_QUOTE_TYPE (Sym _ _ :: _) => true | Node K_QUOTE_TYPE _ => false | _ => true end.
Lemma quotes_ok E n t : forallb (fun u => match tc_type (tc E n) u with Ok (Some ty) => forallb quote_ok (tchildren ty) | _ => false end) (parts t) = true -> quotes_symbols E t.
Proof.
  rewrite forallb_forall. intros H u ty q qs O A I. specialize (H u (occurs_parts u t O)). destruct (tc_type (tc E n) u) as [[uy|]| | |] eqn:U; try discriminate H.
  assert (X : uy = ty) by (pose proof (answer_det E u _ _ (ex_intro _ n U) A) as X; now injection X). subst uy. rewrite forallb_forall in H. specialize (H _ I).
  destruct q as [k i|l|k cs]; [now exists k, i | discriminate H | discriminate H].
Qed.
(** The literal 1 is in the cache, the rest of the term is not; then all parts are. *)
Example C78_example : arises E78 c78 /\ c78 = [(t78, t_Bool); (Lit (LNum 1), sym78 "Int")] /\
  has_answer E78 u78 (Some (sym78 "Int")) /\ quotes_symbols E78 u78 /\ quotes_symbols E78 t78 /\
  exists c', getTypeCached E78 (tc_eval (tc E78 30)) keep 30 c78 u78 = Ok (Some (sym78 "Int"), c') /\ length c' = 7%nat /\ arises E78 c'.
Proof.
  split; [exact c78_arises|]. split; [vm_compute; reflexivity|]. split; [exists 30%nat; vm_compute; reflexivity|].
  split; [apply (quotes_ok E78 30); vm_compute; reflexivity|]. split; [apply (quotes_ok E78 30); vm_compute; reflexivity|].
  assert (X : match getTypeCached E78 (tc_eval (tc E78 30)) keep 30 c78 u78 with Ok (Some ty, c) => term_eqb ty (sym78 "Int") && Nat.eqb (length c) 7 | _ => false end = true) by (vm_compute; reflexivity).
  destruct (getTypeCached E78 (tc_eval (tc E78 30)) keep 30 c78 u78) as [[[ty|] c]| | |] eqn:H; try discriminate X. apply andb_prop in X. destruct X as [X1 X2].
  apply term_eqb_eq in X1. apply Nat.eqb_eq in X2. subst ty. exists c. split; [reflexivity|]. split; [exact X2|].
  exact (proj1 (proj2 (C78_right E78 c78 keep 30 30 u78 _ c c78_arises (good_keep E78) H))).
Qed.

(** Full statement: also if something is declared in between.  It is false: a type that was
    computed before a program was defined stays, as long as the term is in use. *)
Definition more78 : string := " (program $h ((x Int)) :signature (Int) Int ((($h x) x)))".
Theorem C78_later_refuted : exists x y t c ty ty', reached (cfg67 x) (s67 x) /\ reached (cfg67 (x ++ y)) (s67 (x ++ y)) /\
  arises (env_of (cfg67 x) (s67 x)) c /\ let E := env_of (cfg67 (x ++ y)) (s67 (x ++ y)) in
  getTypeCached E (tc_eval (tc E 30)) keep 30 c t = Ok (Some ty, c) /\ has_answer E t (Some ty') /\ ty <> ty'.
Proof.
  exists sig78, more78, t78, c78, t_Bool, (sym78 "Int"). split; [apply reached67; vm_compute; reflexivity|]. split; [apply reached67; vm_compute; reflexivity|].
  split; [exact c78_arises|]. cbv zeta. split; [vm_compute; reflexivity|]. split; [exists 30%nat; vm_compute; reflexivity | vm_compute; discriminate].
Qed.
Print Assumptions C78_later_refuted.
