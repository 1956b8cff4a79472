(** Properties C28, C29 and C37: building applications. *)
From Coq Require Import ZArith List Bool Lia Arith.
From Verif Require Import Base Kind Ints Literal Arity Term Match Eval SpecTerm SpecEval TermProofs EvalProofs
  ListOps SpecList Typing Build SpecBuild ListProofs ListProofs2 BuildProofs BuildProofs2 PropList.
Import ListNotations.
Open Scope Z_scope.

(** C28.  [declared E f a ai]: f is a symbol with attribute a (and no overloads);
    [nil_for E n f ai t1 nl]: its nil terminator, when the first argument is t1;
    [marked E t]: t is a :list parameter (BuildProofs.v). *)
Theorem C28_right_assoc_nil : forall E n m f ai t1 ts nl, declared E f A_RIGHT_ASSOC_NIL ai ->
  nil_for E n f ai t1 nl ->
  forall r, mkExpr E n (S m) K_APPLY (f :: t1 :: ts) = Ok r <-> desugar_right f nl (marked E) (t1 :: ts) r.
Proof.
  intros E n m f ai t1 ts nl D N r. split; [|exact (build_right_nil E n m f ai t1 ts nl r D N)].
  intro H. destruct (desugar_right_total E f nl (t1 :: ts)) as (r' & H'); [discriminate|].
  rewrite (build_right_nil E n m f ai t1 ts nl r' D N H') in H. injection H as <-. exact H'.
Qed.
Print Assumptions C28_right_assoc_nil.

Theorem C28_left_assoc_nil : forall E n m f ai t1 ts nl, declared E f A_LEFT_ASSOC_NIL ai ->
  nil_for E n f ai t1 nl ->
  forall r, mkExpr E n (S m) K_APPLY (f :: t1 :: ts) = Ok r <-> desugar_left f nl (marked E) (t1 :: ts) r.
Proof.
  intros E n m f ai t1 ts nl D N r. split; [|exact (build_left_nil E n m f ai t1 ts nl r D N)].
  intro H. destruct (desugar_left_total E f nl (t1 :: ts)) as (r' & H'); [discriminate|].
  rewrite (build_left_nil E n m f ai t1 ts nl r' D N H') in H. injection H as <-. exact H'.
Qed.
Print Assumptions C28_left_assoc_nil.

(** The non-singleton variants with at least two arguments that are not lists. *)
Theorem C28_non_singleton_many : forall (left : bool) E n m f ai t1 ts nl k,
  declared E f (if left then A_LEFT_ASSOC_NS_NIL else A_RIGHT_ASSOC_NS_NIL) ai ->
  nil_for E n f ai t1 nl -> unmarked (marked E) (t1 :: ts) k -> (2 <= k)%nat ->
  forall r, mkExpr E n (S m) K_APPLY (f :: t1 :: ts) = Ok r <->
    if left then desugar_left f nl (marked E) (t1 :: ts) r else desugar_right f nl (marked E) (t1 :: ts) r.
Proof.
  intros left E n m f ai t1 ts nl k D N Hk K r.
  assert (B : forall r', (if left then desugar_left f nl (marked E) (t1 :: ts) r' else desugar_right f nl (marked E) (t1 :: ts) r') ->
     mkExpr E n (S m) K_APPLY (f :: t1 :: ts) = Ok r').
  { intros r' H'. rewrite (build_ns left E n m f ai t1 ts nl r' k D N H' Hk).
    destruct (Nat.ltb_spec k 2); [lia|reflexivity]. }
  split; [|exact (B r)]. intro H.
  assert (T : exists r', if left then desugar_left f nl (marked E) (t1 :: ts) r' else desugar_right f nl (marked E) (t1 :: ts) r').
  { destruct left; [apply desugar_left_total|apply desugar_right_total]; discriminate. }
  destruct T as (r' & H'). rewrite (B r' H') in H. injection H as <-. exact H'.
Qed.
Print Assumptions C28_non_singleton_many.

(** ... and with fewer: eo::list_singleton_elim of the plain variant, which is
    computed if it can be. *)
Theorem C28_non_singleton_few : forall (left : bool) E n m f ai t1 ts nl k r,
  declared E f (if left then A_LEFT_ASSOC_NS_NIL else A_RIGHT_ASSOC_NS_NIL) ai ->
  nil_for E n f ai t1 nl -> unmarked (marked E) (t1 :: ts) k -> (k < 2)%nat ->
  (if left then desugar_left f nl (marked E) (t1 :: ts) r else desugar_right f nl (marked E) (t1 :: ts) r) ->
  (forall v, tc_lop (tc E n) K_EVAL_LIST_SINGLETON_ELIM [f; r] = Ok (Some v) ->
     mkExpr E n (S (S m)) K_APPLY (f :: t1 :: ts) = Ok v) /\
  (tc_lop (tc E n) K_EVAL_LIST_SINGLETON_ELIM [f; r] = Ok None ->
     mkExpr E n (S (S m)) K_APPLY (f :: t1 :: ts) = Ok (Node K_EVAL_LIST_SINGLETON_ELIM [f; r])).
Proof.
  intros left E n m f ai t1 ts nl k r D N Hk K H.
  rewrite (build_ns left E n (S m) f ai t1 ts nl r k D N H Hk). destruct (Nat.ltb_spec k 2); [|lia].
  cbn [mkExpr isLiteralOp mkExprLitOp checkArity length]. split.
  - intros v Hv. unfold mkExprLitOp. change (checkArity K_EVAL_LIST_SINGLETON_ELIM (length [f; r])) with true. rewrite Hv. reflexivity.
  - intro Hv. unfold mkExprLitOp. change (checkArity K_EVAL_LIST_SINGLETON_ELIM (length [f; r])) with true. rewrite Hv. reflexivity.
Qed.
Print Assumptions C28_non_singleton_few.

(** A single closed argument stands for itself. *)
Theorem C28_non_singleton_one : forall (left : bool) E n m k i f ai t nl,
  declared E f (if left then A_LEFT_ASSOC_NS_NIL else A_RIGHT_ASSOC_NS_NIL) ai -> f = Sym k i ->
  ai_cterm ai = Some nl -> tkind nl <> K_PARAMETERIZED -> ~ marked E t ->
  Forall ground_arg [f; flist left f nl [t]] -> curried f (flist left f nl [t]) -> not_app2 f nl ->
  mkExpr E (S n) (S (S m)) K_APPLY [f; t] = Ok t.
Proof.
  intros left E n m k i f ai t nl D Hf Hc Hk Hm G C N.
  assert (U : unmarked (marked E) [t] 1) by (apply um_cons; [exact Hm|constructor]).
  refine (proj1 (C28_non_singleton_few left E (S n) m f ai t [] nl 1 (flist left f nl [t]) D
            (nil_for_plain E (S n) f ai t nl Hc Hk) U (le_n 2) _) t _).
  - destruct left; [apply dl_first|apply dr_last]; exact Hm.
  - refine (run_singleton E n left f f _ nl [t] _ G C N eq_refl).
    split; [split; [eauto|left; reflexivity]|]. destruct D as (D1 & D2 & _). exists ai. split; [exact D1|].
    split; [destruct left; auto|]. unfold computeConstructorTerm. rewrite Hc.
    destruct (kind_eqb (tkind nl) K_PARAMETERIZED) eqn:Ek; [apply kind_eqb_eq in Ek; contradiction|]. reflexivity.
Qed.
Print Assumptions C28_non_singleton_one.

(** Without nil terminator, at least two arguments. *)
Theorem C28_right_assoc : forall E n m f ai ts, declared E f A_RIGHT_ASSOC ai -> ai_cterm ai = None ->
  (2 <= length ts)%nat -> exists r, mkExpr E n (S m) K_APPLY (f :: ts) = Ok r /\ assoc_right f ts r.
Proof.
  intros E n m f ai ts D Hc Hl.
  assert (T : exists r, assoc_right f ts r).
  { clear D Hc. destruct ts as [|x ts]; [cbn in Hl; lia|]. revert x Hl.
    induction ts as [|y ts IH]; intros x Hl; [cbn in Hl; lia|].
    destruct ts as [|z ts]; [eexists; constructor|]. destruct (IH y) as (r & Hr); [cbn; lia|]. eexists. constructor. exact Hr. }
  destruct T as (r & Hr). exists r. split; [|exact Hr]. exact (build_assoc false E n m f ai ts r D Hc Hr).
Qed.
Print Assumptions C28_right_assoc.
Theorem C28_left_assoc : forall E n m f ai ts, declared E f A_LEFT_ASSOC ai -> ai_cterm ai = None ->
  (2 <= length ts)%nat -> exists r, mkExpr E n (S m) K_APPLY (f :: ts) = Ok r /\ assoc_left f ts r.
Proof.
  intros E n m f ai ts D Hc Hl.
  assert (T : exists r, assoc_left f ts r).
  { clear D Hc. induction ts as [|x ts IH] using rev_ind; [cbn in Hl; lia|].
    rewrite app_length in Hl. cbn in Hl. destruct ts as [|y [|z ts]]; [cbn in Hl; lia|exists (app2 f y x); apply (al_two f y x)|].
    destruct IH as (r & Hr); [cbn; lia|]. eexists. constructor. exact Hr. }
  destruct T as (r & Hr). exists r. split; [|exact Hr]. exact (build_assoc true E n m f ai ts r D Hc Hr).
Qed.
Print Assumptions C28_left_assoc.

(** :chainable and :pairwise with combining operator [op]: with one pair the
    pair itself, otherwise what [op] makes of the pairs. *)
Theorem C28_chainable : forall E n m f ai op ts ps, declared E f A_CHAINABLE ai ->
  ai_cterm ai = Some op -> tkind op <> K_PARAMETERIZED -> neighbours f ts ps ->
  (forall p, ps = [p] -> mkExpr E n (S m) K_APPLY (f :: ts) = Ok p) /\
  (length ps <> 1%nat -> mkExpr E n (S m) K_APPLY (f :: ts) = mkExpr E n m K_APPLY (op :: ps)).
Proof. intros E n m f ai op ts ps D Hc Hk Hp. exact (build_combine E n m f ai op ts ps _ D Hc Hk (or_introl (conj eq_refl Hp))). Qed.
Print Assumptions C28_chainable.
Theorem C28_pairwise : forall E n m f ai op ts ps, declared E f A_PAIRWISE ai ->
  ai_cterm ai = Some op -> tkind op <> K_PARAMETERIZED -> ps = all_pairs f ts ->
  (forall p, ps = [p] -> mkExpr E n (S m) K_APPLY (f :: ts) = Ok p) /\
  (length ps <> 1%nat -> mkExpr E n (S m) K_APPLY (f :: ts) = mkExpr E n m K_APPLY (op :: ps)).
Proof. intros E n m f ai op ts ps D Hc Hk Hp. exact (build_combine E n m f ai op ts ps _ D Hc Hk (or_intror (conj eq_refl Hp))). Qed.
Print Assumptions C28_pairwise.

Theorem C28_arg_list : forall E n m f ai op ts, declared E f A_ARG_LIST ai ->
  ai_cterm ai = Some op -> tkind op <> K_PARAMETERIZED ->
  (forall t, ts = [t] -> marked E t -> mkExpr E n (S m) K_APPLY (f :: ts) = Ok (Node K_APPLY [f; t])) /\
  ((forall t, ts = [t] -> ~ marked E t) -> forall r, mkExpr E n m K_APPLY (op :: ts) = Ok r ->
     mkExpr E n (S m) K_APPLY (f :: ts) = Ok (Node K_APPLY [f; r])).
Proof. exact build_arg_list. Qed.
Print Assumptions C28_arg_list.

(** Symbols without attributes, and the operator _, give curried applications. *)
Theorem C28_plain : forall E n m k i ts, e_info E (Sym k i) = None -> k <> K_PROGRAM_CONST -> k <> K_PROOF_RULE ->
  ts <> [] ->
  mkExpr E n (S m) K_APPLY (Sym k i :: ts) = Ok (fold_left (fun g x => Node K_APPLY [g; x]) ts (Sym k i)).
Proof.
  intros E n m k i ts H K1 K2 Ht. cbn [mkExpr mkExprApply]. rewrite H. unfold mkExprPlain. cbn [tkind].
  assert (P : mkApplyChildren (Sym k i :: ts) = Ok (fold_left (fun g x => Node K_APPLY [g; x]) ts (Sym k i))).
  { unfold mkApplyChildren. destruct ts as [|x [|y ts]]; [contradiction|reflexivity|reflexivity]. }
  destruct k; try contradiction; exact P.
Qed.
Print Assumptions C28_plain.
Theorem C28_higher_order : forall E n m u ai f ts, e_info E u = Some ai -> ai_kind ai = K_APPLY -> ts <> [] ->
  mkExpr E n (S m) K_APPLY (u :: f :: ts) = Ok (fold_left (fun g x => Node K_APPLY [g; x]) ts f).
Proof.
  intros E n m u ai f ts H K Ht. cbn [mkExpr mkExprApply]. rewrite H, K. unfold mkApplyChildren.
  destruct ts as [|x [|y ts]]; [contradiction|reflexivity|reflexivity].
Qed.
Print Assumptions C28_higher_order.

(** Examples: the definitions of the manual (lines 296-600).  1: or
    :right-assoc-nil false, 2: :left-assoc-nil, 11: :right-assoc, 12:
    :left-assoc, 13: :right-assoc-non-singleton-nil, 14: >= :chainable 11, 15:
    distinct :pairwise 1, 16: :arg-list 1, 17: :chainable 1, parameters 20 and
    21 marked :list, 30: the operator _. *)
Definition bx_info (t : term) : option appinfo :=
  match t with
  | Sym K_CONST 1 => Some (mkInfo A_RIGHT_ASSOC_NIL (Some ex_false) K_NONE None)
  | Sym K_CONST 2 => Some (mkInfo A_LEFT_ASSOC_NIL (Some ex_false) K_NONE None)
  | Sym K_CONST 11 => Some (mkInfo A_RIGHT_ASSOC None K_NONE None)
  | Sym K_CONST 12 => Some (mkInfo A_LEFT_ASSOC None K_NONE None)
  | Sym K_CONST 13 => Some (mkInfo A_RIGHT_ASSOC_NS_NIL (Some ex_false) K_NONE None)
  | Sym K_CONST 14 => Some (mkInfo A_CHAINABLE (Some (Sym K_CONST 11)) K_NONE None)
  | Sym K_CONST 15 => Some (mkInfo A_PAIRWISE (Some (Sym K_CONST 1)) K_NONE None)
  | Sym K_CONST 16 => Some (mkInfo A_ARG_LIST (Some (Sym K_CONST 1)) K_NONE None)
  | Sym K_CONST 17 => Some (mkInfo A_CHAINABLE (Some (Sym K_CONST 1)) K_NONE None)
  | Sym K_CONST 30 => Some (mkInfo A_NONE None K_APPLY None)
  | Sym K_PARAM 20 => Some (mkInfo A_LIST None K_NONE None)
  | Sym K_PARAM 21 => Some (mkInfo A_LIST None K_NONE None)
  | _ => None
  end.
Definition bx_symtype (t : term) : option term :=
  match t with
  | Sym K_CONST z => if (1 <=? z) && (z <=? 19) && negb (z =? 3) && negb (z =? 4) && negb (z =? 5)
                     then Some (mkFunctionType [t_Bool; t_Bool] t_Bool) else Some t_Bool
  | _ => Some t_Bool
  end.
Definition bx_E : env :=
  mkEnv bx_info (fun _ => 0) (fun _ _ => t_Any) (fun _ => []) bx_symtype (fun _ => None)
    (Sym K_PARAM 6) (Sym K_CONST 7) (Sym K_CONST 8) (Sym K_CONST 9) (Sym K_CONST 10).
Definition bx (f : Z) (ts : list term) : res term := mkExpr bx_E 3 3 K_APPLY (Sym K_CONST f :: ts).
Definition px := Sym K_PARAM 22.
Definition py := Sym K_PARAM 23.
Definition pz := Sym K_PARAM 20.
Definition pw := Sym K_PARAM 21.

Example C28_example :
  let or := Sym K_CONST 1 in let and := Sym K_CONST 11 in let ge := Sym K_CONST 14 in
  let ns := Sym K_CONST 13 in let di := Sym K_CONST 15 in
  (exists ai, declared bx_E or A_RIGHT_ASSOC_NIL ai /\ nil_for bx_E 3 or ai px ex_false) /\
  marked bx_E pz /\ ~ marked bx_E px /\ unmarked (marked bx_E) [pz; px; pw] 1 /\
  bx 1 [px; py] = Ok (app2 or px (app2 or py ex_false)) /\
  bx 1 [px; pz] = Ok (app2 or px pz) /\
  bx 1 [px; pz; py] = Ok (app2 or px (concat_term or pz (app2 or py ex_false))) /\
  bx 1 [px] = Ok (app2 or px ex_false) /\
  bx 1 [pz] = Ok pz /\
  bx 1 [pz; py; pw; px] = Ok (concat_term or pz (app2 or py (concat_term or pw (app2 or px ex_false)))) /\
  bx 2 [px; pz; py] = Ok (let f := Sym K_CONST 2 in app2 f (concat_term f (app2 f ex_false px) pz) py) /\
  bx 11 [ex_a; ex_b; ex_c] = Ok (app2 and ex_a (app2 and ex_b ex_c)) /\
  bx 12 [ex_a; ex_b; ex_c] = Ok (let f := Sym K_CONST 12 in app2 f (app2 f ex_a ex_b) ex_c) /\
  bx 13 [ex_a; ex_b] = Ok (app2 ns ex_a (app2 ns ex_b ex_false)) /\
  bx 13 [ex_a] = Ok ex_a /\
  bx 13 [pz; px; pw] = Ok (Node K_EVAL_LIST_SINGLETON_ELIM [ns; concat_term ns pz (app2 ns px pw)]) /\
  bx 14 [ex_a; ex_b; ex_c] = Ok (app2 and (app2 ge ex_a ex_b) (app2 ge ex_b ex_c)) /\
  bx 14 [ex_a; ex_b] = Ok (app2 ge ex_a ex_b) /\
  bx 15 [ex_a; ex_b; ex_c] = Ok (orl [app2 di ex_a ex_b; app2 di ex_a ex_c; app2 di ex_b ex_c]) /\
  bx 16 [ex_a; ex_b; ex_c] = Ok (Node K_APPLY [Sym K_CONST 16; orl [ex_a; ex_b; ex_c]]) /\
  bx 16 [pz] = Ok (Node K_APPLY [Sym K_CONST 16; pz]) /\
  bx 30 [or; ex_a; ex_b] = Ok (app2 or ex_a ex_b) /\
  mkExpr bx_E 3 3 K_APPLY [Sym K_PARAM 23; ex_a; ex_b] = Ok (app2 py ex_a ex_b).
Proof.
  cbv zeta. split. { eexists. split; [repeat split|]. apply nil_for_plain; [reflexivity|discriminate]. }
  split. { eexists. split; reflexivity. }
  split. { intros (ai & H & _). discriminate. }
  split. { apply um_list; [eexists; split; reflexivity|]. apply um_cons; [intros (ai & H & _); discriminate|].
           apply um_list; [eexists; split; reflexivity|]. constructor. }
  repeat split; vm_compute; reflexivity.
Qed.

(** Against the manual: with :right-assoc, (or x) "denotes the partial
    application of or to x"; the code returns x. *)
Theorem C28_right_assoc_one_argument_refuted : exists E f ai t,
  declared E f A_RIGHT_ASSOC ai /\ ai_cterm ai = None /\
  tc_type (tc E 3) f = Ok (Some (mkFunctionType [t_Bool; t_Bool] t_Bool)) /\ tc_type (tc E 3) t = Ok (Some t_Bool) /\
  mkExpr E 3 3 K_APPLY [f; t] = Ok t /\ t <> Node K_APPLY [f; t].
Proof.
  exists bx_E, (Sym K_CONST 11), (mkInfo A_RIGHT_ASSOC None K_NONE None), ex_a.
  split; [repeat split|]. repeat split; try (vm_compute; reflexivity). discriminate.
Qed.
Print Assumptions C28_right_assoc_one_argument_refuted.
(** In fact for every symbol and argument. *)
Theorem C28_assoc_one_argument : forall (left : bool) E n m f ai t,
  declared E f (if left then A_LEFT_ASSOC else A_RIGHT_ASSOC) ai -> ai_cterm ai = None ->
  mkExpr E n (S m) K_APPLY [f; t] = Ok t.
Proof.
  intros left E n m f ai t D Hc. rewrite (mkExpr_attr E n m f _ _ ai D), (cct_none _ _ _ _ _ Hc). cbn [bind].
  destruct D as (_ & Ha & _). rewrite mkApplyAttr_assoc by (rewrite Ha; destruct left; reflexivity).
  rewrite Ha. destruct left; reflexivity.
Qed.
Print Assumptions C28_assoc_one_argument.

(** Against the manual: with its own declarations, (>= x) "is equivalent to
    true"; the code returns an application of the combining operator to
    nothing, which has no type. *)
Theorem C28_chainable_one_argument_refuted : exists E f ai op aio t r,
  declared E f A_CHAINABLE ai /\ ai_cterm ai = Some op /\ declared E op A_RIGHT_ASSOC aio /\
  tc_type (tc E 3) t = Ok (Some t_Bool) /\
  mkExpr E 3 3 K_APPLY [f; t] = Ok r /\ r = Node K_APPLY [op] /\ tc_type (tc E 3) r = Ok None.
Proof.
  exists bx_E, (Sym K_CONST 14), (mkInfo A_CHAINABLE (Some (Sym K_CONST 11)) K_NONE None), (Sym K_CONST 11),
    (mkInfo A_RIGHT_ASSOC None K_NONE None), ex_a, (Node K_APPLY [Sym K_CONST 11]).
  split; [repeat split|]. split; [reflexivity|]. split; [repeat split|]. repeat split; vm_compute; reflexivity.
Qed.
Print Assumptions C28_chainable_one_argument_refuted.
(** It is the nil terminator if the combining operator has one. *)
Theorem C28_combine_one_argument : forall E n m f ai op aio t nl a b, declared E f a ai ->
  (a = A_CHAINABLE \/ a = A_PAIRWISE) -> ai_cterm ai = Some op -> tkind op <> K_PARAMETERIZED ->
  declared E op b aio -> is_nil_attr b = true -> ai_cterm aio = Some nl -> tkind nl <> K_PARAMETERIZED ->
  mkExpr E n (S (S m)) K_APPLY [f; t] = Ok nl.
Proof.
  intros E n m f ai op aio t nl a b D Ha Hc Hk Do Hb Hco Hko.
  assert (P : a = A_CHAINABLE /\ neighbours f [t] [] \/ a = A_PAIRWISE /\ [] = all_pairs f [t]).
  { destruct Ha as [-> | ->]; [left|right]; (split; [reflexivity|]); [|reflexivity].
    split; [reflexivity|]. intros i x y _ H. destruct i as [|[|i]]; discriminate. }
  rewrite (proj2 (build_combine E n (S m) f ai op [t] [] a D Hc Hk P)) by discriminate.
  rewrite (mkExpr_attr E n m op _ _ aio Do). unfold computeConstructorTerm. rewrite Hco.
  destruct (kind_eqb (tkind nl) K_PARAMETERIZED) eqn:Ek; [apply kind_eqb_eq in Ek; contradiction|]. cbn [negb bind].
  destruct Do as (_ & Hb' & _). rewrite mkApplyAttr_assoc by (rewrite Hb'; destruct b; try discriminate Hb; reflexivity).
  reflexivity.
Qed.
Print Assumptions C28_combine_one_argument.
Example C28_one_example :
  bx 17 [ex_a] = Ok ex_false /\ bx 15 [ex_a] = Ok ex_false /\ bx 12 [ex_a] = Ok ex_a.
Proof. repeat split; vm_compute; reflexivity. Qed.

(** C29 *)
Theorem C29_read_back : forall E n m k i f ai t1 ts nl,
  declared E f A_RIGHT_ASSOC_NIL ai -> f = Sym k i -> ai_cterm ai = Some nl -> tkind nl <> K_PARAMETERIZED ->
  Forall (fun t => ~ marked E t) (t1 :: ts) -> Z.of_nat (length (t1 :: ts)) < 2 ^ 32 ->
  exists r, mkExpr E (S n) (S m) K_APPLY (f :: t1 :: ts) = Ok r /\
    (Forall ground_arg [f; r] -> curried f r -> not_app2 f nl ->
       tc_lop (tc E (S n)) K_EVAL_LIST_LENGTH [f; r] = Ok (Some (Lit (LNum (Z.of_nat (length (t1 :: ts)))))) /\
       forall j, tc_lop (tc E (S n)) K_EVAL_LIST_NTH [f; r; Lit (LNum (Z.of_nat j))] = Ok (nth_error (t1 :: ts) j)).
Proof.
  intros E n m k i f ai t1 ts nl D Hf Hc Hk Hm Hl. exists (rlist f nl (t1 :: ts)). split.
  - apply (build_right_nil E (S n) m f ai t1 ts nl _ D (nil_for_plain E (S n) f ai t1 nl Hc Hk)).
    apply desugar_right_rlist; [discriminate|exact Hm].
  - intros G C N. assert (L : list_op E n false f f (rlist f nl (t1 :: ts)) nl).
    { destruct D as (D1 & D2 & _). eapply list_op_plain; eauto. }
    split; [apply (run_length E n false f f _ nl (t1 :: ts) L G C N eq_refl)|]. intro j.
    rewrite (run_nth E n f f _ nl (t1 :: ts) _ L) ; try assumption; try reflexivity.
    + destruct (Z.ltb_spec (Z.of_nat j) 0); [lia|]. rewrite Nat2Z.id. reflexivity.
    + inversion G as [|? ? G1 G2]; subst. inversion G2 as [|? ? G3 _]; subst.
      apply Forall_cons; [exact G1|]. apply Forall_cons; [exact G3|]. apply Forall_cons; [|apply Forall_nil].
      split; [constructor|]. apply ground_closed; [constructor|reflexivity].
Qed.
Print Assumptions C29_read_back.

(** Different argument sequences give different terms. *)
Theorem C29_injective : forall (left : bool) E n m f ai nl t1 ts u1 us r,
  declared E f (if left then A_LEFT_ASSOC_NIL else A_RIGHT_ASSOC_NIL) ai ->
  ai_cterm ai = Some nl -> tkind nl <> K_PARAMETERIZED -> curried f nl -> not_app2 f nl ->
  Forall (fun t => ~ marked E t) (t1 :: ts) -> Forall (fun t => ~ marked E t) (u1 :: us) ->
  mkExpr E n (S m) K_APPLY (f :: t1 :: ts) = Ok r -> mkExpr E n (S m) K_APPLY (f :: u1 :: us) = Ok r ->
  t1 :: ts = u1 :: us.
Proof.
  intros left E n m f ai nl t1 ts u1 us r D Hc Hk C N M1 M2 H1 H2.
  assert (B : forall x xs, Forall (fun t => ~ marked E t) (x :: xs) ->
     mkExpr E n (S m) K_APPLY (f :: x :: xs) = Ok (flist left f nl (x :: xs))).
  { intros x xs M. destruct left.
    - apply (build_left_nil E n m f ai x xs nl _ D (nil_for_plain E n f ai x nl Hc Hk)). apply desugar_left_llist; [discriminate|exact M].
    - apply (build_right_nil E n m f ai x xs nl _ D (nil_for_plain E n f ai x nl Hc Hk)). apply desugar_right_rlist; [discriminate|exact M]. }
  rewrite (B _ _ M1) in H1. rewrite (B _ _ M2) in H2. apply (flist_inj left f nl); [exact C|exact N|congruence].
Qed.
Print Assumptions C29_injective.

(** The example of the manual (lines 365-380). *)
Example C29_example :
  let or := Sym K_CONST 1 in
  Forall (fun t => ~ marked bx_E t) [ex_a; ex_b; ex_c] /\
  bx 1 [ex_b; ex_c] = Ok (orl [ex_b; ex_c]) /\
  bx 1 [ex_a; orl [ex_b; ex_c]] = Ok (app2 or ex_a (app2 or (app2 or ex_b (app2 or ex_c ex_false)) ex_false)) /\
  bx 1 [ex_a; ex_b; ex_c] = Ok (app2 or ex_a (app2 or ex_b (app2 or ex_c ex_false))) /\
  Forall ground_arg [or; orl [ex_a; ex_b; ex_c]] /\ curried or (orl [ex_a; ex_b; ex_c]) /\ not_app2 or ex_false /\
  tc_lop (tc bx_E 3) K_EVAL_LIST_LENGTH [or; orl [ex_a; orl [ex_b; ex_c]]] = Ok (Some (ex_num 2)) /\
  tc_lop (tc bx_E 3) K_EVAL_LIST_LENGTH [or; orl [ex_a; ex_b; ex_c]] = Ok (Some (ex_num 3)) /\
  tc_lop (tc bx_E 3) K_EVAL_LIST_NTH [or; orl [ex_a; ex_b; ex_c]; ex_num 1] = Ok (Some ex_b) /\
  tc_lop (tc bx_E 3) K_EVAL_LIST_NTH [or; orl [ex_a; ex_b; ex_c]; ex_num 3] = Ok None.
Proof.
  cbv zeta. split. { repeat (apply Forall_cons; [intros (ai & H & _); discriminate|]). apply Forall_nil. }
  split; [vm_compute; reflexivity|]. split; [vm_compute; reflexivity|]. split; [vm_compute; reflexivity|].
  split; [ground_tac|]. split; [apply curriedb_ok; vm_compute; reflexivity|]. split; [apply ex_not_app2|].
  repeat split; vm_compute; reflexivity.
Qed.

(** Left-associative applications are read back in the opposite order. *)
Theorem C29_left_read_back_refuted : exists E f ai nl ts r,
  declared E f A_LEFT_ASSOC_NIL ai /\ ai_cterm ai = Some nl /\ Forall (fun t => ~ marked E t) ts /\
  mkExpr E 3 3 K_APPLY (f :: ts) = Ok r /\ Forall ground_arg [f; r] /\ curried f r /\ not_app2 f nl /\
  tc_lop (tc E 3) K_EVAL_LIST_NTH [f; r; Lit (LNum 0)] <> Ok (nth_error ts 0).
Proof.
  exists bx_E, (Sym K_CONST 2), (mkInfo A_LEFT_ASSOC_NIL (Some ex_false) K_NONE None), ex_false, [ex_a; ex_b],
    (llist (Sym K_CONST 2) ex_false [ex_a; ex_b]).
  split; [repeat split|]. split; [reflexivity|].
  split. { repeat (apply Forall_cons; [intros (ai & H & _); discriminate|]). apply Forall_nil. }
  split; [vm_compute; reflexivity|]. split; [ground_tac|]. split; [apply curriedb_ok; vm_compute; reflexivity|].
  split; [apply ex_not_app2|]. vm_compute. discriminate.
Qed.
Print Assumptions C29_left_read_back_refuted.

(** With a nil terminator that depends on a parameter, building looks at the
    type of the first element and the list operators at the type of the list:
    for cons : (-> T (Lst T) (Lst T)) :right-assoc-nil (nil T), the application
    (cons a b) is not recognised as a list.  1: cons, 2: nil, 3: Lst, 4: T,
    5: Int, 6, 7: a, b. *)
Definition hx_T := Sym K_PARAM 4.
Definition hx_Lst (t : term) := Node K_APPLY [Sym K_CONST 3; t].
Definition hx_nil (t : term) := Node K_APPLY_OPAQUE [Sym K_CONST 2; t].
Definition hx_info (t : term) : option appinfo :=
  match t with
  | Sym K_CONST 1 => Some (mkInfo A_RIGHT_ASSOC_NIL
      (Some (Node K_PARAMETERIZED [Node K_TUPLE [hx_T]; hx_nil hx_T])) K_NONE None)
  | _ => None
  end.
Definition hx_symtype (t : term) : option term :=
  match t with
  | Sym K_CONST 1 => Some (mkFunctionType [hx_T; hx_Lst hx_T] (hx_Lst hx_T))
  | Sym K_CONST 2 => Some (mkFunctionType [Node K_QUOTE_TYPE [hx_T]] (hx_Lst hx_T))
  | Sym K_CONST 3 => Some (mkFunctionType [t_Type] t_Type)
  | Sym K_CONST 5 | Sym K_PARAM 4 => Some t_Type
  | Sym K_CONST 6 | Sym K_CONST 7 => Some (Sym K_CONST 5)
  | _ => None
  end.
Definition hx_E : env :=
  mkEnv hx_info (fun _ => 0) (fun _ _ => t_Any) (fun _ => []) hx_symtype (fun _ => None)
    (Sym K_PARAM 90) (Sym K_CONST 91) (Sym K_CONST 92) (Sym K_CONST 93) (Sym K_CONST 94).
Theorem C29_parameterized_nil_refuted : exists E f ai a b nl r,
  declared E f A_RIGHT_ASSOC_NIL ai /\ nil_for E 20 f ai a nl /\ Forall (fun t => ~ marked E t) [a; b] /\
  mkExpr E 20 20 K_APPLY [f; a; b] = Ok r /\ r = rlist f nl [a; b] /\
  (exists ty, tc_type (tc E 20) r = Ok (Some ty) /\ tc_type (tc E 20) nl = Ok (Some ty)) /\
  Forall ground_arg [f; r] /\ curried f r /\ not_app2 f nl /\
  tc_lop (tc E 20) K_EVAL_LIST_LENGTH [f; r] = Ok None.
Proof.
  exists hx_E, (Sym K_CONST 1), (mkInfo A_RIGHT_ASSOC_NIL
      (Some (Node K_PARAMETERIZED [Node K_TUPLE [hx_T]; hx_nil hx_T])) K_NONE None),
    (Sym K_CONST 6), (Sym K_CONST 7), (hx_nil (Sym K_CONST 5)), (rlist (Sym K_CONST 1) (hx_nil (Sym K_CONST 5)) [Sym K_CONST 6; Sym K_CONST 7]).
  split; [repeat split|]. split. { eexists. split; [vm_compute; reflexivity|reflexivity]. }
  split. { repeat (apply Forall_cons; [intros (ai & H & _); discriminate|]). apply Forall_nil. }
  split; [vm_compute; reflexivity|]. split; [reflexivity|].
  split. { exists (hx_Lst (Sym K_CONST 5)). split; vm_compute; reflexivity. }
  split; [ground_tac|]. split; [apply curriedb_ok; vm_compute; reflexivity|].
  split. { intros x y H. discriminate. }
  vm_compute. reflexivity.
Qed.
Print Assumptions C29_parameterized_nil_refuted.

(** C37.  The declarations of the manual: 1: (-> Int Int), 2: (-> Int Int Int),
    3: (-> Real Real Real), all written "-"; the last one carries the list of
    overloads.  4: Int, 5: Real.  6 and 7: constants of type Int and Real with the
    same name. *)
Definition ov_Int := Sym K_CONST 4.
Definition ov_Real := Sym K_CONST 5.
Definition ov_minus := [Sym K_CONST 1; Sym K_CONST 2; Sym K_CONST 3].
Definition ov_info (t : term) : option appinfo :=
  match t with
  | Sym K_CONST 2 | Sym K_CONST 3 => Some (mkInfo A_NONE None K_NONE (Some ov_minus))
  | Sym K_CONST 7 => Some (mkInfo A_NONE None K_NONE (Some [Sym K_CONST 6; Sym K_CONST 7]))
  | _ => None
  end.
Definition ov_symtype (t : term) : option term :=
  match t with
  | Sym K_CONST 1 => Some (mkFunctionType [ov_Int] ov_Int)
  | Sym K_CONST 2 => Some (mkFunctionType [ov_Int; ov_Int] ov_Int)
  | Sym K_CONST 3 => Some (mkFunctionType [ov_Real; ov_Real] ov_Real)
  | Sym K_CONST 4 | Sym K_CONST 5 => Some t_Type
  | Sym K_CONST 6 => Some ov_Int
  | Sym K_CONST 7 => Some ov_Real
  | _ => None
  end.
Definition ov_E : env :=
  mkEnv ov_info (fun _ => 0) (fun _ _ => t_Any) (fun _ => []) ov_symtype
    (fun k => match k with K_NUMERAL => Some ov_Int | K_RATIONAL => Some ov_Real | _ => None end)
    (Sym K_PARAM 90) (Sym K_CONST 91) (Sym K_CONST 92) (Sym K_CONST 93) (Sym K_CONST 94).

(** The manual: "(- 1) uses the first".  It uses the second. *)
Theorem C37_first_alternative_refuted : exists E f1 f2 hd ai ov t r,
  e_info E hd = Some ai /\ ai_over ai = Some ov /\ ov = f1 :: f2 :: [hd] /\
  tc_type (tc E 9) (Node K_APPLY [f1; t]) = Ok (Some ov_Int) /\
  mkExpr E 9 3 K_APPLY [hd; t] = Ok r /\ r = Node K_APPLY [f2; t] /\ f1 <> f2.
Proof.
  exists ov_E, (Sym K_CONST 1), (Sym K_CONST 2), (Sym K_CONST 3), (mkInfo A_NONE None K_NONE (Some ov_minus)), ov_minus,
    (ex_num 1), (Node K_APPLY [Sym K_CONST 2; ex_num 1]).
  repeat split; try (vm_compute; reflexivity). discriminate.
Qed.
Print Assumptions C37_first_alternative_refuted.

(** What the code does for plain function symbols: the last declared alternative
    whose application is well typed. *)
Definition app_of (f : term) (ts : list term) : term := fold_left (fun g x => Node K_APPLY [g; x]) ts f.
Definition plain_symbol (E : env) (f : term) : Prop :=
  match e_info E f with Some fi => ai_cons fi = A_NONE /\ ai_cterm fi = None | None => True end.
Lemma try_plain : forall E mk T g hd ts, plain_symbol E g -> ts <> [] ->
  try_overload E mk T g (hd :: ts) =
  let* t := tc_type T (app_of g ts) in Ok (option_map (fun ty => (app_of g ts, ty)) t).
Proof.
  intros E mk T g hd ts Hp Ht. unfold try_overload. cbn [tl].
  assert (A : mkApplyChildren (g :: ts) = Ok (app_of g ts)).
  { unfold mkApplyChildren. destruct ts as [|x [|y ts]]; [contradiction|reflexivity|reflexivity]. }
  unfold plain_symbol in Hp. destruct (e_info E g) as [gi|]; cbn [bind]; [|rewrite A; reflexivity].
  destruct Hp as [P1 P2]. rewrite (cct_none _ _ _ _ _ P2). cbn [bind mkApplyAttr]. rewrite P1. cbn [bind]. rewrite A. reflexivity.
Qed.

Theorem C37_last_alternative_partial : forall E n m hd ai ov ts,
  e_info E hd = Some ai -> ai_kind ai = K_NONE -> ai_over ai = Some ov -> ts <> [] ->
  (forall f, In f ov -> plain_symbol E f) ->
  forall pre f post ty, ov = pre ++ f :: post ->
  tc_type (tc E n) (app_of f ts) = Ok (Some ty) ->
  (forall g, In g post -> tc_type (tc E n) (app_of g ts) = Ok None) ->
  mkExpr E n (S m) K_APPLY (hd :: ts) = Ok (app_of f ts).
Proof.
  intros E n m hd ai ov ts Hi Hk Ho Ht Hp pre f post ty Hov Hf Hpost.
  assert (T := fun g (Hg : In g ov) => try_plain E (mkExpr E n m) (tc E n) g hd ts (Hp g Hg) Ht).
  cbn [mkExpr mkExprApply]. rewrite Hi, Hk, Ho.
  assert (G : getOverload E (mkExpr E n m) (tc E n) (rev ov) (hd :: ts) None true = Ok (Some (app_of f ts))).
  { rewrite Hov, rev_app_distr. cbn [rev].
    assert (S : forall l l', (forall g, In g l -> In g post) ->
        getOverload E (mkExpr E n m) (tc E n) (l ++ l') (hd :: ts) None true =
        getOverload E (mkExpr E n m) (tc E n) l' (hd :: ts) None true).
    { intros l l'. induction l as [|g l IH]; intro Hl; [reflexivity|]. cbn [app getOverload].
      rewrite T by (rewrite Hov; apply in_or_app; right; right; apply Hl; left; reflexivity).
      rewrite (Hpost g (Hl g (or_introl eq_refl))). cbn [bind option_map]. apply IH. intros g' Hg'. apply Hl. right. exact Hg'. }
    rewrite <- app_assoc. rewrite S by (intros g Hg; apply in_rev; exact Hg). cbn [app getOverload].
    rewrite T by (rewrite Hov; apply in_or_app; right; left; reflexivity). rewrite Hf. reflexivity. }
  rewrite G. reflexivity.
Qed.
Print Assumptions C37_last_alternative_partial.

(** eo::as with a function type: the most recent alternative that has the given
    type on fresh arguments; unevaluated if there is none.  [with_dummies E args]
    types the i-th fresh symbol with the i-th argument type. *)
Theorem C37_as : forall E n m t ai ov ty args ret,
  e_info E t = Some ai -> ai_over ai = Some ov -> function_type ty args ret -> args <> [] ->
  (forall f, In f ov -> plain_symbol E f) ->
  let type_of := tc_type (tc (with_dummies E args) n) in
  let ks := map dummy (seq 0 (length args)) in
  (forall f, In f ov -> exists r, type_of (app_of f ks) = Ok r) ->
  (exists pre f post, ov = pre ++ f :: post /\ type_of (app_of f ks) = Ok (Some ret) /\
     (forall g, In g post -> type_of (app_of g ks) <> Ok (Some ret)) /\
     mkExpr E n (S m) K_AS [t; ty] = Ok f) \/
  ((forall g, In g ov -> type_of (app_of g ks) <> Ok (Some ret)) /\
     mkExpr E n (S m) K_AS [t; ty] = Ok (Node K_AS [t; ty])).
Proof.
  intros E n m t ai ov ty args ret Hi Ho Hf Hargs Hp type_of ks Hok. apply function_type_get in Hf.
  set (T := tc (with_dummies E args) n) in *.
  assert (R : mkExpr E n (S m) K_AS [t; ty] =
     let* r := getOverload E (mkExpr E n m) T (rev ov) (ty :: ks) (Some ret) false in
     Ok (match r with Some t => t | None => Node K_AS [t; ty] end)).
  { cbn [mkExpr]. rewrite Hf. cbn [bind]. rewrite Hi, Ho. reflexivity. }
  assert (K : ks <> []) by (unfold ks; destruct args; [contradiction|discriminate]).
  assert (P := fun g (Hg : In g ov) => try_plain E (mkExpr E n m) T g ty ks (Hp g Hg) K).
  rewrite R.
  destruct (getOverload_exact E (mkExpr E n m) T (rev ov) (ty :: ks) (Some ret) false) as
    [(pre & f & post & x & ty' & A & B & C & D & F)|(A & B)].
  - intros f Hin. apply in_rev in Hin. rewrite (P f Hin). fold type_of. destruct (Hok f Hin) as (r & ->). eexists. reflexivity.
  - left. assert (Hin : forall g, In g (pre ++ [f]) -> In g ov).
    { intros g Hg. apply in_rev. rewrite A. apply in_or_app. apply in_app_or in Hg. destruct Hg as [Hg|[<-|[]]]; [left; exact Hg|right; left; reflexivity]. }
    exists (rev post), f, (rev pre). split.
    { rewrite <- (rev_involutive ov), A, rev_app_distr. cbn [rev]. rewrite <- app_assoc. reflexivity. }
    subst ty'. split.
    { assert (Hfo : In f ov) by (apply Hin, in_or_app; right; left; reflexivity). rewrite (P f Hfo) in B. unfold type_of.
      destruct (tc_type T (app_of f ks)) as [[y|]| | |]; try discriminate B. cbn in B. congruence. }
    split; [|rewrite F; reflexivity].
    intros g Hg H. apply in_rev in Hg. refine (D g Hg (app_of g ks) ret _ eq_refl).
    rewrite P by (apply Hin, in_or_app; left; exact Hg). fold type_of. rewrite H. reflexivity.
  - right. split; [|rewrite B; reflexivity]. intros g Hg H. refine (A g _ (app_of g ks) ret _ eq_refl); [apply -> in_rev; exact Hg|].
    rewrite P by exact Hg. fold type_of. rewrite H. reflexivity.
Qed.
Print Assumptions C37_as.

(** eo::as with a type that is not a function type never finds anything: the
    term whose type is compared is an application to no arguments. *)
Theorem C37_as_constant_refuted : exists E t ai ov c ty,
  e_info E t = Some ai /\ ai_over ai = Some ov /\ In c ov /\ (forall f, In f ov -> plain_symbol E f) /\
  function_type ty [] ty /\
  tc_type (tc E 9) c = Ok (Some ty) /\ tc_type (tc E 9) t <> Ok (Some ty) /\
  mkExpr E 9 3 K_AS [t; ty] = Ok (Node K_AS [t; ty]).
Proof.
  exists ov_E, (Sym K_CONST 7), (mkInfo A_NONE None K_NONE (Some [Sym K_CONST 6; Sym K_CONST 7])),
    [Sym K_CONST 6; Sym K_CONST 7], (Sym K_CONST 6), ov_Int.
  split; [reflexivity|]. split; [reflexivity|]. split; [left; reflexivity|].
  split. { intros f [<-|[<-|[]]]; cbn; auto. }
  split; [now constructor|]. split; [vm_compute; reflexivity|]. split; [vm_compute; discriminate|]. vm_compute. reflexivity.
Qed.
Print Assumptions C37_as_constant_refuted.

Example C37_example :
  let m := Sym K_CONST 3 in
  mkExpr ov_E 9 3 K_APPLY [m; ex_num 0; ex_num 1] = Ok (app_of (Sym K_CONST 2) [ex_num 0; ex_num 1]) /\
  mkExpr ov_E 9 3 K_AS [m; mkFunctionType [ov_Int; ov_Int] ov_Int] = Ok (Sym K_CONST 2) /\
  mkExpr ov_E 9 3 K_AS [m; mkFunctionType [ov_Int] ov_Int] = Ok (Sym K_CONST 1) /\
  mkExpr ov_E 9 3 K_AS [m; mkFunctionType [ov_Int] ov_Real] = Ok (Node K_AS [m; mkFunctionType [ov_Int] ov_Real]) /\
  function_type (mkFunctionType [ov_Int; ov_Int] ov_Int) [ov_Int; ov_Int] ov_Int /\
  ov_minus = [Sym K_CONST 1] ++ Sym K_CONST 2 :: [Sym K_CONST 3] /\
  tc_type (tc ov_E 9) (app_of (Sym K_CONST 2) [ex_num 0; ex_num 1]) = Ok (Some ov_Int) /\
  tc_type (tc ov_E 9) (app_of (Sym K_CONST 3) [ex_num 0; ex_num 1]) = Ok None.
Proof.
  cbn zeta. do 4 (split; [vm_compute; reflexivity|]). split.
  { assert (R : forall t, tkind t <> K_EVAL_REQUIRES -> required t t) by (intros; now constructor).
    apply (ft_arrow [ov_Int] (Node K_FUNCTION_TYPE [ov_Int; ov_Int]) (Node K_FUNCTION_TYPE [ov_Int; ov_Int]) [ov_Int] ov_Int); [now apply R|].
    apply (ft_arrow [ov_Int] ov_Int ov_Int [] ov_Int); [now apply R|]. now constructor. }
  repeat split; vm_compute; reflexivity.
Qed.
