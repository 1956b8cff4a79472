(** Properties C40 and C58: reference files. *)
From Coq Require Import String ZArith List Bool Lia.
From Verif Require Import Base Kind Ints Str Literal Arity Term TermProofs Match Eval ListOps Typing Build Scope Lexer Parse Check
  SpecTerm SpecEval SpecCheck PropCheck CheckProofs2 RefProofs.
Import ListNotations.
Open Scope Z_scope.

(** An assumption outside of every assume-push, while the file begun last is a reference, has the
    same normal form as a formula asserted before; if there is no normal form, the formulas are
    compared themselves.  Missing for the full statement: as for C40_reference_partial, but for
    normal forms; the names that are overloaded are not in the log, so they are left open. *)
Theorem C40_normalized_partial : forall G o incs i v s l1 name F l2, run G o incs i = Ok (v, s) ->
  s_log s = l1 ++ (O, EvAssume name F false) :: l2 -> in_reference (map snd l2) ->
  exists F', compared_as G l2 F F' /\ asserted_as G l2 F'.
Proof. intros G o incs i v s l1 name F l2 H. exact (jr_asm _ _ (run_JR _ _ _ _ _ _ H) l1 name F l2). Qed.
Print Assumptions C40_normalized_partial.
Notation check_nf t := (run (cfg [(txt "a.eo", txt t); (txt "r.smt2", ref_file)]) options_init [] (InFile (txt "a.eo"))).
Definition w40nf : string :=
  "(declare-const q Bool) (declare-const f (-> Bool Bool)) (program nf ((x Bool)) :signature (Bool) Bool (((nf (f x)) (nf x)) ((nf x) (eo::ite (eo::is_eq x true) x q))))
   (reference ""r.smt2"" nf) (assume @a (f (f q)))".
Example C40_normalized_example : exists s l1 F l2, check_nf w40nf = Ok (Correct, s) /\
  s_log s = l1 ++ (O, EvAssume (txt "@a") F false) :: l2 /\ in_reference (map snd l2) /\
  is_null (normalizer (map snd l2)) = false /\ ~ In F (asserted (map snd l2)) /\
  check_nf (w40nf ++ "(assume @b (f true))")%string = Err.
Proof.
  destruct (run_log (check_nf w40nf) Correct) as (s & E & L); [vm_compute; reflexivity|].
  exists s, []. do 2 eexists. split; [exact E|]. rewrite L. split; [vm_compute; reflexivity|].
  split; [do 3 eexists; vm_compute; reflexivity|]. split; [vm_compute; reflexivity|]. split; [|vm_compute; reflexivity].
  vm_compute. intros [I | []]; discriminate I.
Qed.

(** Whether State::addAssumption accepts a formula: exactly the asserted formulas are accepted,
    outside of every assume-push, while the file begun last is a reference and without normal forms. *)
Theorem C40_accepts : forall G o incs i v s l F, run G o incs i = Ok (v, s) -> s_asmctx s = [] -> in_reference (events s) ->
  (forall x, In x (processed (events s)) -> is_null (snd x) = true) ->
  exists b p', addAssumption G F (l, s) = Ok (b, p') /\ (b = true <-> In F (asserted (events s))).
Proof. exact accepts_asserted. Qed.
Print Assumptions C40_accepts.
Example C40_accepts_example : exists s, check_ref w40ok [] = Ok (Correct, s) /\ s_asmctx s = [] /\ in_reference (events s) /\
  (forall x, In x (processed (events s)) -> is_null (snd x) = true) /\
  (exists F, In F (asserted (events s)) /\ F <> t_false) /\ ~ In t_false (asserted (events s)).
Proof.
  destruct (run_log (check_ref w40ok []) Correct) as (s & E & L); [vm_compute; reflexivity|].
  exists s. split; [exact E|]. unfold events. rewrite L.
  split. { destruct (run_inv _ _ _ _ _ _ E) as (_ & _ & C). exact (C Logic.I). }
  clear L E. match goal with |- context [log_of ?r] => let v := eval vm_compute in (log_of r) in replace (log_of r) with v by (vm_compute; reflexivity) end.
  split; [do 3 eexists; vm_compute; reflexivity|].
  split. { intros x [<- | [<- | []]]; reflexivity. }
  split. { eexists. split; [vm_compute; left; reflexivity | discriminate]. }
  vm_compute. intros [I | []]; discriminate I.
Qed.

Lemma in_assumed : forall F l, In F (assumed l) <-> exists name, In (EvAssume name F false) l.
Proof.
  intros F l. unfold assumed. rewrite in_flat_map. split.
  - intros (e & I & H).
    destruct e; try (match type of H with In _ (if ?b then _ else _) => destruct b end); try destruct H as [<- | []]; try destruct H.
    eexists. exact I.
  - intros (name & I). exists (EvAssume name F false). split; [exact I | now left].
Qed.
Lemma asserted_app : forall l1 l2 F, In F (asserted l2) -> In F (asserted (l1 ++ l2)).
Proof. intros l1 l2 F I. unfold asserted in *. rewrite flat_map_app. apply in_or_app. now right. Qed.

(** Full statement: if the run of a proof with a reference concludes [false] outside of every
    assume-push by valid steps, then no interpretation makes all assertions of the reference true.
    Here with the hypotheses of C39_nested_partial, and with those of C40_reference_partial for each
    assume command: it is outside of every assume-push, while the file begun last is a reference,
    without normal forms.  Missing: what is refuted there and below. *)
Theorem C58_refutation_partial : forall (W : Type) (holds : W -> term -> Prop) G o incs i v s,
  run G o incs i = Ok (v, s) -> coherent G -> well_nested (events s) ->
  (forall e, In e (events s) -> valid_step W holds e) ->
  (forall e, In e (events s) -> settled (g_varinfo G) e) ->
  (forall j e, In (S j, e) (s_log s) -> proof_free (g_varinfo G) e) ->
  (forall l1 lv name F l2, s_log s = l1 ++ (lv, EvAssume name F false) :: l2 ->
     lv = O /\ in_reference (map snd l2) /\ (forall x, In x (processed (map snd l2)) -> is_null (snd x) = true)) ->
  concluded (s_log s) (Lit (LBool false)) -> (forall w, ~ holds w (Lit (LBool false))) ->
  forall w, ~ (forall F, In F (asserted (events s)) -> holds w F).
Proof.
  intros W holds G o incs i v s R C P V S Q A K N w M. apply (N w).
  apply (C39_nested_partial W holds G o incs i v s R C P V S Q _ K w).
  intros F I. apply in_assumed in I. destruct I as (name & I). apply M. unfold events in *.
  apply in_map_iff in I. destruct I as ((lv & e) & E & I). cbn [snd] in E. subst e.
  destruct (in_split _ _ I) as (l1 & l2 & L). destruct (A _ _ _ _ _ L) as (-> & B & B').
  rewrite L, map_app. apply asserted_app. cbn [map snd asserted flat_map app].
  exact (C40_reference_partial G o incs i v s l1 name F l2 R L B B').
Qed.
Print Assumptions C58_refutation_partial.

(** Deciding the last hypothesis, for the examples. *)
Fixpoint refb (ok : nat -> list event -> bool) (l : list (nat * event)) : bool :=
  match l with
  | [] => true
  | (lv, EvAssume _ _ false) :: l2 => ok lv (map snd l2) && refb ok l2
  | _ :: l2 => refb ok l2
  end.
Lemma refb_ok : forall ok l, refb ok l = true -> forall l1 lv name F l2, l = l1 ++ (lv, EvAssume name F false) :: l2 ->
  ok lv (map snd l2) = true.
Proof.
  intros ok l H l1 lv name F l2 ->. induction l1 as [|(lv' & e) l1 IH]; cbn [app refb] in H.
  - apply andb_prop in H. apply H.
  - apply IH. destruct e; try exact H. destruct isPush; [exact H|]. apply andb_prop in H. apply H.
Qed.
Definition refs_on (lv : nat) (l : list event) : bool :=
  Nat.eqb lv 0 && match processed l with (_, true, _) :: _ => true | _ => false end &&
  forallb (fun x => is_null (snd x)) (processed l).
Lemma refs_on_ok : forall lv l, refs_on lv l = true ->
  lv = O /\ in_reference l /\ forall x, In x (processed l) -> is_null (snd x) = true.
Proof.
  intros lv l H. unfold refs_on in H. apply andb_prop in H. destruct H as [H N]. apply andb_prop in H. destruct H as [Z R].
  apply Nat.eqb_eq in Z. split; [exact Z|]. split.
  - unfold in_reference. destruct (processed l) as [|((f & [|]) & nf) rest]; try discriminate R. now exists f, nf, rest.
  - exact (proj1 (forallb_forall _ _) N).
Qed.

(** From [p] and [p => false]; interpretations give a value to [p]. *)
Definition mp : string := "(declare-const => (-> Bool Bool Bool))
(declare-rule mp ((F Bool) (H Bool)) :premises (F (=> F H)) :conclusion H)
".
Definition ref58 : text := txt "(declare-const p Bool) (assert p) (assert (=> p false))".
Definition w58 : string := (mp ++ "(reference ""r.smt2"") (assume @a p) (assume @i (=> p false))
(step @f false :rule mp :premises (@a @i))")%string.
Notation check58 := (run (cfg [(txt "a.eo", txt w58); (txt "r.smt2", ref58)]) options_init [] (InFile (txt "a.eo"))).
Definition p58 : term := Sym K_CONST 68.
Fixpoint hold58 (w : bool) (t : term) : Prop :=
  match t with
  | Node K_APPLY [Node K_APPLY [c; a]; b] => if term_eqb c f_imp then hold58 w a -> hold58 w b else True
  | Lit (LBool false) => False
  | Sym K_CONST 68 => w = true
  | _ => True
  end.
Example C58_example : exists s, check58 = Ok (Correct, s) /\ coherent (cfg [(txt "a.eo", txt w58); (txt "r.smt2", ref58)]) /\
  well_nested (events s) /\ (forall e, In e (events s) -> valid_step bool hold58 e) /\
  (forall e, In e (events s) -> settled (fun _ => None) e) /\
  (forall j e, In (S j, e) (s_log s) -> proof_free (fun _ => None) e) /\
  (forall l1 lv name F l2, s_log s = l1 ++ (lv, EvAssume name F false) :: l2 ->
     lv = O /\ in_reference (map snd l2) /\ (forall x, In x (processed (map snd l2)) -> is_null (snd x) = true)) /\
  concluded (s_log s) t_false /\ (forall w, ~ hold58 w t_false) /\
  asserted (events s) = [Node K_APPLY [Node K_APPLY [f_imp; p58]; t_false]; p58] /\
  (exists w, hold58 w p58) /\ (exists w, hold58 w (Node K_APPLY [Node K_APPLY [f_imp; p58]; t_false])).
Proof.
  destruct (run_log check58 Correct) as (s & E & L); [vm_compute; reflexivity|].
  exists s. split; [exact E|]. split; [apply cfg_coherent|].
  unfold events. rewrite L. clear L E. match goal with |- context [log_of ?r] => let v := eval vm_compute in (log_of r) in replace (log_of r) with v by (vm_compute; reflexivity) end. cbn [map snd].
  split; [nest|].
  split. { refine (proj1 (Forall_forall _ _) _); each_event; try exact I. cbn [valid_step flat_map proofs_in app].
    intros A H w M. apply (H (Node K_APPLY [Node K_APPLY [f_imp; p58]; t_false]) (or_intror (or_introl eq_refl)) w M).
    apply (H p58 (or_introl eq_refl) w M). }
  split; [apply all_settled; vm_compute; reflexivity|]. split; [apply all_free; vm_compute; reflexivity|].
  split.
  { intros l1 lv name F l2 H. apply refs_on_ok. revert H. apply (refb_ok refs_on). vm_compute. reflexivity. }
  split; [do 5 eexists; exists None; in_log|]. split; [intros w H; exact H|]. split; [reflexivity|].
  split; [now exists true|]. exists false. intros H. discriminate H.
Qed.

(** The full statement is false: after the inclusion of another file the assumptions are not
    compared with the reference any more.  Every step is valid, [false] is concluded outside of every
    assume-push, the verdict is correct, and the only assertion of the reference is satisfiable. *)
Definition w58r : string := (rules ++ "(reference ""r.smt2"") (include ""b.eo"") (assume @a false)
(step @s false :rule same :premises (@a))")%string.
Theorem C58_refuted : exists G o s (W : Type) (holds : W -> term -> Prop) w,
  run G o [] (InFile (txt "a.eo")) = Ok (Correct, s) /\ plain (events s) /\
  (exists f nf, In (f, true, nf) (processed (events s))) /\
  (forall e, In e (events s) -> valid_step W holds e) /\
  (forall l1 lv name F l2, s_log s = l1 ++ (lv, EvAssume name F false) :: l2 -> lv = O) /\
  concluded (s_log s) t_false /\ (forall w, ~ holds w t_false) /\
  asserted (events s) <> [] /\ forall F, In F (asserted (events s)) -> holds w F.
Proof.
  destruct (run_log (check_ref w58r []) Correct) as (s & E & L); [vm_compute; reflexivity|].
  do 2 eexists. exists s, unit, meaning, tt. split; [exact E|].
  unfold events. rewrite L. clear L E. match goal with |- context [log_of ?r] => let v := eval vm_compute in (log_of r) in replace (log_of r) with v by (vm_compute; reflexivity) end. unfold plain. cbn [map snd].
  split; [repeat split; not_plain|]. split; [do 2 eexists; cbn [processed flat_map app In]; eauto|].
  split; [refine (proj1 (Forall_forall _ _) _); valid_all|].
  split. { intros l1 lv name F l2 H. apply Nat.eqb_eq. revert H.
    apply (refb_ok (fun lv _ => Nat.eqb lv 0)). vm_compute. reflexivity. }
  split; [do 5 eexists; exists None; in_log|]. split; [intros w H; exact H|].
  split; [discriminate|]. intros F [<- | []]. exact I.
Qed.
Print Assumptions C58_refuted.
