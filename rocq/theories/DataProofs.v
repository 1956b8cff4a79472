(** Datatypes: proofs. *)
From Coq Require Import String ZArith List Bool Lia.
From Verif Require Import Base Kind Ints Str Literal Arity Term TermProofs Match Eval ListOps Typing Build Scope SpecScope Lexer Parse Check
  SpecRead SpecCmd SpecData SpecSym.
From Verif Require ScopeProofs LocalProofs BuildProofs SymProofs InvProofs SpecList.
Import ListNotations.
Open Scope Z_scope.
Notation rel := ScopeProofs.rel.
Notation named := SpecCmd.named.

(** ** Symbols and names that are added *)
Definition grow (s s1 : st) : Prop := forall t, old s t -> old s1 t /\ s_names s1 t = s_names s t /\ s_marks s1 t = s_marks s t.
Definition declares (F : frames) (l : list (text * term)) : frames := fold_left declare l F.
Definition adds (s s1 : st) (l : list (text * term)) : Prop := forall F, rel F (s_scope s) -> rel (declares F l) (s_scope s1).
Definition fresh (s s1 : st) (v : term) : Prop := ~ old s v /\ old s1 v /\ s_marks s1 v = None.
Lemma grow_refl s : grow s s.
Proof. intros t H. auto. Qed.
Lemma grow_trans s1 s2 s3 : grow s1 s2 -> grow s2 s3 -> grow s1 s3.
Proof. intros A B t H. destruct (A t H) as (A1 & A2 & A3). destruct (B t A1) as (B1 & B2 & B3). split; [exact B1|]. split; congruence. Qed.
Lemma grow_same s s1 : s_next s1 = s_next s -> s_names s1 = s_names s -> s_marks s1 = s_marks s -> grow s s1.
Proof. intros A B C t H. unfold old in *. rewrite A, B, C. auto. Qed.
Lemma adds_refl s : adds s s [].
Proof. intros F H. exact H. Qed.
Lemma adds_trans s1 s2 s3 l l' : adds s1 s2 l -> adds s2 s3 l' -> adds s1 s3 (l ++ l').
Proof. intros A B F H. unfold declares. rewrite fold_left_app. apply B, A, H. Qed.
Lemma adds_nil s1 s2 s3 : adds s1 s2 [] -> adds s2 s3 [] -> adds s1 s3 [].
Proof. exact (adds_trans s1 s2 s3 [] []). Qed.
Lemma fresh_later s s1 s2 v : fresh s s1 v -> grow s1 s2 -> fresh s s2 v.
Proof. intros (A & B & C) H. destruct (H v B) as (H1 & _ & H2). split; [exact A|]. split; [exact H1 | congruence]. Qed.
Lemma fresh_sooner s s1 s2 v : grow s s1 -> fresh s1 s2 v -> fresh s s2 v.
Proof. intros H (A & B & C). split; [|auto]. intros O. apply A. apply (H v O). Qed.

Lemma rel_forget F v c : rel F c -> rel F (forget v c).
Proof. intros [[A1 A2 A3] B C]. constructor; [constructor|..]; assumption. Qed.
Lemma new_grow k n ty s v s1 : new k n ty s v s1 -> grow s s1 /\ adds s s1 [] /\ fresh s s1 v /\ s_names s1 v = n /\ tkind v = k.
Proof.
  intros H. destruct H. set (w := Sym k (s_next s)).
  assert (N : forall t, old s t -> term_eqb w t = false) by (intros t; apply SymProofs.fresh_neq).
  split; [|split; [|split; [|split; [|reflexivity]]]].
  - intros t H. split; [destruct t; cbn in *; [lia | auto | auto]|]. unfold with_symbol. cbn [logged set_log set_next set_names set_types set_marks set_scope s_names s_marks].
    fold w. now rewrite (N t H).
  - intros F H. cbn. now apply rel_forget.
  - split; [cbn; lia|]. split; [cbn; lia|]. unfold with_symbol. cbn [logged set_log set_next set_names set_types set_marks set_scope s_names s_marks]. fold w. now rewrite term_eqb_refl.
  - unfold with_symbol. cbn [logged set_log set_next set_names set_types set_marks set_scope s_names s_marks]. fold w. now rewrite term_eqb_refl.
Qed.
Lemma bound_grow s n e s1 : bound s n e s1 -> tkind e <> K_PROOF_RULE -> grow s s1 /\ adds s s1 [(n, e)].
Proof.
  intros (c & B & ->) K. split; [apply grow_same; reflexivity|]. intros F H.
  assert (R : is_rule (o_ruleSymTable (s_opts s)) e = false).
  { unfold is_rule. destruct (kind_eqb (tkind e) K_PROOF_RULE) eqn:X; [apply kind_eqb_eq in X; contradiction | apply andb_false_r]. }
  destruct (ScopeProofs.bind_rel _ _ _ n e H R) as (c' & B' & R' & _). rewrite B in B'. injection B' as <-. exact R'.
Qed.
Lemma named_grow l : forall s s1, named_in s l s1 -> Forall (fun d => tkind (snd d) <> K_PROOF_RULE) l -> grow s s1 /\ adds s s1 l.
Proof.
  intros s s1 H. induction H as [s|s n e c l s' B _ IH]; intros F; [split; [apply grow_refl | apply adds_refl]|].
  inversion F as [|x y F1 F2]; subst. destruct (bound_grow s n e (set_scope c s)) as [A1 A2]; [now exists c | exact F1|].
  destruct (IH F2) as [B1 B2]. split; [exact (grow_trans _ _ _ A1 B1) | exact (adds_trans _ _ _ [(n, e)] l A2 B2)].
Qed.
Lemma kept_grow s s1 : LocalProofs.kept s s1 -> grow s s1 /\ adds s s1 [].
Proof. intros [A B]. split; [|exact B]. unfold LocalProofs.only_scope in A. rewrite A. apply grow_same; reflexivity. Qed.

Section Data.
Variable G : config.
Variable sig : bool.
Notation reads := (SpecRead.reads G sig).
Lemma reads_grow s x t s1 : reads s x t s1 -> grow s s1 /\ adds s s1 [].
Proof. intros H. apply kept_grow. exact (proj1 (LocalProofs.reads_kept G sig) _ _ _ _ H). Qed.
Lemma type_grow ev s x t s1 : type_in G sig ev s x t s1 -> grow s s1 /\ adds s s1 [].
Proof. intros [H _]. now apply reads_grow in H. Qed.

(** What holds of the symbols [vs] made and the names [l] bound from [s] to [s1]. *)
Definition makesl (s s1 : st) (vs : list term) (l : list (text * term)) : Prop := grow s s1 /\ adds s s1 l /\ NoDup vs /\ Forall (fresh s s1) vs.
Notation makes s s1 vs := (makesl s s1 vs []).
Lemma makes_nil s s1 l : grow s s1 -> adds s s1 l -> makesl s s1 [] l.
Proof. intros A B. split; [exact A|]. split; [exact B|]. split; constructor. Qed.
Lemma nodup_app {A} (l l' : list A) : NoDup l -> NoDup l' -> (forall x, In x l -> ~ In x l') -> NoDup (l ++ l').
Proof.
  induction l as [|x l IH]; intros N N' D; [exact N'|]. inversion N; subst. cbn [app]. constructor.
  - rewrite in_app_iff. intros [I | I]; [contradiction | exact (D x (or_introl eq_refl) I)].
  - apply IH; auto. intros y I. apply D. now right.
Qed.
Lemma makesl_app s s1 s2 l l' d d' : makesl s s1 l d -> makesl s1 s2 l' d' -> makesl s s2 (l ++ l') (d ++ d').
Proof.
  intros (A1 & A2 & A3 & A4) (B1 & B2 & B3 & B4). split; [exact (grow_trans _ _ _ A1 B1)|]. split; [exact (adds_trans _ _ _ _ _ A2 B2)|].
  rewrite Forall_forall in A4, B4. split.
  - apply nodup_app; auto. intros x I J. destruct (A4 x I) as (_ & O & _). destruct (B4 x J) as (N & _). contradiction.
  - apply Forall_forall. intros x I. apply in_app_or in I. destruct I as [I | I]; [exact (fresh_later _ _ _ _ (A4 x I) B1) | exact (fresh_sooner _ _ _ _ A1 (B4 x I))].
Qed.
Lemma makes_app s s1 s2 l l' : makes s s1 l -> makes s1 s2 l' -> makes s s2 (l ++ l').
Proof. exact (makesl_app s s1 s2 l l' [] []). Qed.
Lemma makes_perm s s1 l l' d : makesl s s1 l d -> NoDup l' -> (forall x, In x l' -> In x l) -> makesl s s1 l' d.
Proof. intros (A1 & A2 & A3 & A4) N I. split; [exact A1|]. split; [exact A2|]. split; [exact N|]. rewrite Forall_forall in *. auto. Qed.
Lemma new_makes k n ty s v s1 : new k n ty s v s1 -> makes s s1 [v] /\ s_names s1 v = n /\ tkind v = k.
Proof.
  intros H. destruct (new_grow _ _ _ _ _ _ H) as (A & B & C & D & K). split; [|auto]. split; [exact A|]. split; [exact B|].
  split; [repeat constructor; intros [] | repeat constructor; assumption || apply C].
Qed.
Lemma makes_names s s1 l d : makesl s s1 l d -> forall s2 v, grow s1 s2 -> In v l -> s_names s2 v = s_names s1 v.
Proof. intros (_ & _ & _ & A) s2 v H I. rewrite Forall_forall in A. destruct (A v I) as (_ & O & _). apply (H v O). Qed.
Lemma named_first y n xs : named y n -> first (XL (y :: xs)) = n.
Proof. intros (k & w & -> & N). cbn. now rewrite N. Qed.

Lemma selector_makes dt s x r s1 : selector G sig dt s x r s1 -> makes s s1 [snd (fst r); snd r] /\
  s_names s1 (snd (fst r)) = first x /\ fst (fst (fst r)) = first x /\ tkind (snd (fst r)) = K_CONST /\ tkind (snd r) = K_CONST.
Proof.
  intros H. inversion H as [y n x0 ty s2 sel s3 upd s4 N T V U]; subst. cbn [fst snd].
  destruct (type_grow _ _ _ _ _ T) as [A1 A2]. destruct (new_makes _ _ _ _ _ _ V) as (B & BN & BK). destruct (new_makes _ _ _ _ _ _ U) as (C & CN & CK).
  rewrite (named_first _ _ [x0] N). split; [|split; [|split; [reflexivity | auto]]].
  - exact (makes_app _ _ _ [] _ (makes_nil _ _ [] A1 A2) (makes_app _ _ _ [sel] [upd] B C)).
  - rewrite <- BN. apply (makes_names _ _ _ _ B); [apply C | now left].
Qed.
Lemma disamb_makes s pat ty n t s1 : disambiguated G s pat ty n t s1 -> makes s s1 [].
Proof.
  intros H. inversion H as [p s2 tp tv s3 app P A1 V A2]; subst.
  destruct (new_grow _ _ _ _ _ _ P) as (B1 & B2 & B3 & _). destruct (new_grow _ _ _ _ _ _ V) as (C1 & C2 & _).
  assert (M : grow s (with_mark p A_PROGRAM (Some (Node K_PROGRAM [Node K_TUPLE [tp; ty]])) s2)).
  { intros u O. destruct (B1 u O) as (O1 & N1 & M1). split; [destruct u; exact O1|]. split; [exact N1|]. cbn [with_mark logged set_log set_marks s_marks].
    destruct (term_eqb p u) eqn:X; [|exact M1]. apply term_eqb_eq in X. subst u. destruct B3 as [B3 _]. contradiction. }
  apply makes_nil; [exact (grow_trans _ _ _ M C1)|]. apply (adds_nil _ s2); [exact B2|]. exact C2.
Qed.
Lemma each_sels dt s xs sels s1 : each (selector G sig dt) s xs sels s1 ->
  makes s s1 (flat_map (fun r => [snd (fst r); snd r]) sels) /\
  Forall2 (fun x r => s_names s1 (snd (fst r)) = first x /\ fst (fst (fst r)) = first x /\ tkind (snd (fst r)) = K_CONST /\ tkind (snd r) = K_CONST) xs sels.
Proof.
  intros E. induction E as [s|s x a s1 xs l s2 E1 E2 IH]; [split; [apply makes_nil; [apply grow_refl | apply adds_refl] | constructor]|].
  destruct (selector_makes _ _ _ _ _ E1) as (A & B1 & B2 & B3 & B4). destruct IH as [C D]. cbn [flat_map]. split; [exact (makes_app _ _ _ _ _ A C)|].
  constructor; [|exact D]. split; [|auto]. rewrite <- B1. apply (makes_names _ _ _ _ A); [apply C | now left].
Qed.

(** The symbols of a constructor, its names and their relation to what is written. *)
Definition con_syms (r : (term * list term * bool) * list (text * term)) : list term := fst (fst (fst r)) :: snd (fst (fst r)).
Definition con_fits (s : st) (x : sx) (r : (term * list term * bool) * list (text * term)) : Prop :=
  s_names s (fst (fst (fst r))) = first x /\ In (first x, fst (fst (fst r))) (snd r) /\
  Forall2 (fun y t => s_names s t = first y /\ In (first y, t) (snd r)) (selectors_of x) (snd (fst (fst r))) /\
  map fst (snd r) = names_con x /\ Forall (fun d => tkind (snd d) <> K_PROOF_RULE) (snd r).
Lemma sel_names_in r : In (fst (fst (fst r)), snd (fst r)) (sel_names r).
Proof. destruct r as [[[n ty] sel] upd]. now left. Qed.
Lemma constructor_makes dt ps s x r s1 : constructor G sig dt ps s x r s1 -> makes s s1 (con_syms r) /\ con_fits s1 x r.
Proof.
  intros H. inversion H as [y n xs sels s2 amb ty s3 c s4 t s5 N S0 _ D C T]; subst.
  destruct (each_sels _ _ _ _ _ S0) as [A1 A2].
  assert (B : makes s2 s3 []).
  { destruct amb; [exact (disamb_makes _ _ _ _ _ _ D)|]. destruct D as [_ ->]. apply makes_nil; [apply grow_refl | apply adds_refl]. }
  destruct (new_makes _ _ _ _ _ _ C) as (C1 & CN & CK). destruct (new_makes _ _ _ _ _ _ T) as (T1 & TN & TK).
  assert (M2 : makes s2 s1 [c]).
  { apply (makes_app _ _ _ [] _ B). apply (makes_perm _ _ _ _ _ (makes_app _ _ _ _ _ C1 T1)); [repeat constructor; intros []|]. intros v [<- | []]. now left. }
  assert (M3 : makes s s1 (flat_map (fun r => [snd (fst r); snd r]) sels ++ [c])) by exact (makes_app _ _ _ _ _ A1 M2).
  assert (SI : forall v, In v (map sel_term sels) -> In v (flat_map (fun r => [snd (fst r); snd r]) sels)).
  { intros v I. apply in_map_iff in I. destruct I as (r & <- & I). apply in_flat_map. exists r. split; [exact I | now left]. }
  assert (ND : NoDup (map sel_term sels)).
  { destruct A1 as (_ & _ & ND & _). clear - ND. induction sels as [|r l IH]; [constructor|]. cbn [flat_map app map] in *. inversion ND as [|a b N1 N2]; subst. inversion N2 as [|a b N3 N4]; subst.
    constructor; [|exact (IH N4)]. intros I. apply N1. right. apply in_map_iff in I. destruct I as (q & E & I). apply in_flat_map. exists q. split; [exact I|]. left. exact E. }
  split.
  - unfold con_syms. cbn [fst snd]. apply (makes_perm _ _ _ _ _ M3).
    + constructor; [|exact ND]. intros I. apply SI in I. destruct M3 as (_ & _ & ND3 & _). apply NoDup_remove_2 in ND3. apply ND3. rewrite app_nil_r. exact I.
    + intros v [<- | I]; apply in_or_app; [right; now left | left; auto].
  - unfold con_fits. cbn [fst snd]. rewrite (named_first _ _ xs N). cbn [selectors_of].
    split; [rewrite <- CN; apply (makes_names _ _ _ _ C1); [apply T1 | now left]|].
    split; [apply in_or_app; right; now left|]. split; [|split].
    + assert (Q : forall p, Forall2 (fun x r => s_names s2 (snd (fst r)) = first x /\ fst (fst (fst r)) = first x /\ tkind (snd (fst r)) = K_CONST /\ tkind (snd r) = K_CONST) xs p ->
        incl p sels -> Forall2 (fun y t0 => s_names s1 t0 = first y /\ In (first y, t0) (flat_map sel_names sels ++ [(n, c); (txt "is-" ++ n, t)])) xs (map sel_term p)).
      { clear - A1 M2. intros p F. induction F as [|x r xs p (F1 & F2 & _) F3 IH]; intros I; [constructor|]. cbn [map]. constructor.
        - split; [rewrite <- F1; apply (makes_names _ _ _ _ A1); [apply M2|]; apply in_flat_map; exists r; split; [apply I; now left | now left]|].
          apply in_or_app. left. apply in_flat_map. exists r. split; [apply I; now left|]. rewrite <- F2. apply sel_names_in.
        - apply IH. intros q J. apply I. now right. }
      exact (Q sels A2 (incl_refl _)).
    + rewrite map_app. unfold names_con. rewrite (named_first _ _ xs N). cbn [selectors_of map fst]. f_equal. clear - A2.
      induction A2 as [|x r xs l (F1 & F2 & _) F3 IH]; [reflexivity|]. cbn [flat_map]. rewrite map_app, IH. f_equal. destruct r as [[[m ty] sel] upd]. cbn in *. now subst m.
    + apply Forall_app. split.
      * clear - A2. induction A2 as [|x r xs l (F1 & F2 & F4 & F5) F3 IH]; [constructor|]. cbn [flat_map]. apply Forall_app. split; [|exact IH].
        destruct r as [[[m ty] sel] upd]. cbn [sel_names fst snd] in *. repeat constructor; cbn [snd]; congruence.
      * repeat constructor; cbn [snd]; congruence.
Qed.
(** ** Scopes *)
Lemma declares_in l : forall f fs g, declares (f :: fs, g) l = ((rev l ++ f) :: fs, g).
Proof. induction l as [|d l IH]; intros f fs g; [reflexivity|]. cbn [declares fold_left declare rev]. fold (declares ((d :: f) :: fs, g) l). rewrite IH, <- app_assoc. reflexivity. Qed.
Lemma declares_visible l : forall F, SpecScope.visible (declares F l) = rev l ++ SpecScope.visible F.
Proof.
  induction l as [|d l IH]; intros F; [reflexivity|]. cbn [declares fold_left rev]. fold (declares (declare F d) l). rewrite IH, <- app_assoc. f_equal.
  destruct F as [[|f fs] g]; reflexivity.
Qed.
Lemma leave_adds s s1 s2 l : adds (entered s) s1 l -> left_scope s1 s2 -> adds s s2 [].
Proof.
  intros A (c & P & ->) [fs g] R. specialize (A _ (ScopeProofs.push_rel _ _ _ R)). rewrite declares_in in A.
  destruct (ScopeProofs.pop_rel _ _ _ _ A) as (c' & P' & R2 & _). rewrite P in P'. injection P' as <-. exact R2.
Qed.
Lemma leave_grow s s1 s2 : grow (entered s) s1 -> left_scope s1 s2 -> grow s s2.
Proof. intros A (c & P & ->) t H. exact (A t H). Qed.
Lemma leave_makes s s1 s2 vs l : makesl (entered s) s1 vs l -> left_scope s1 s2 -> makesl s s2 vs [].
Proof.
  intros (A & B & C & D) L. split; [exact (leave_grow _ _ _ A L)|]. split; [exact (leave_adds _ _ _ _ B L)|]. split; [exact C|].
  destruct L as (c & _ & ->). exact D.
Qed.
Lemma left_names s1 s2 v : left_scope s1 s2 -> s_names s2 v = s_names s1 v.
Proof. intros (c & _ & ->). reflexivity. Qed.

(** ** Definitions *)
Definition syms (c : term * list term * bool) : list term := fst (fst c) :: snd (fst c).
Definition fits (s : st) (l : list (text * term)) (x : sx) (c : term * list term * bool) : Prop :=
  s_names s (fst (fst c)) = first x /\ In (first x, fst (fst c)) l /\
  Forall2 (fun y t => s_names s t = first y /\ In (first y, t) l) (selectors_of x) (snd (fst c)).
Lemma forall2_weaken {A B} (P Q : A -> B -> Prop) l m : Forall2 P l m -> (forall a b, In b m -> P a b -> Q a b) -> Forall2 Q l m.
Proof. intros F. induction F as [|a b l m H F IH]; intros W; constructor; [apply W; [now left | exact H] | apply IH; intros c d I; apply W; now right]. Qed.
Lemma fits_later s s1 s2 d l l' x c : makesl s s1 (syms c) d -> grow s1 s2 -> incl l l' -> fits s1 l x c -> fits s2 l' x c.
Proof.
  intros M H I (A & B & C). split; [rewrite <- A; apply (makes_names _ _ _ _ M); [exact H | now left]|]. split; [auto|].
  apply (forall2_weaken _ _ _ _ C). intros y t J [C1 C2]. split; [|auto]. rewrite <- C1. apply (makes_names _ _ _ _ M); [exact H | now right].
Qed.
Lemma each_cons dt ps s xs cs s1 : each (constructor G sig dt ps) s xs cs s1 ->
  makes s s1 (flat_map syms (map fst cs)) /\ Forall2 (fits s1 (flat_map snd cs)) xs (map fst cs) /\
  map fst (flat_map snd cs) = flat_map names_con xs /\ Forall (fun d => tkind (snd d) <> K_PROOF_RULE) (flat_map snd cs).
Proof.
  intros E. induction E as [s|s x a s1 xs l s2 E1 E2 IH]; [split; [apply makes_nil; [apply grow_refl | apply adds_refl] | repeat split; constructor]|].
  destruct (constructor_makes _ _ _ _ _ _ E1) as (A & F1 & F2 & F3 & F4 & F5). destruct IH as (B & C & D & K).
  cbn [flat_map map]. split; [exact (makes_app _ _ _ _ _ A B)|]. split; [|split].
  - constructor.
    + apply (fits_later s s1 s2 [] (snd a)); [exact A | apply B | intros y I; apply in_or_app; now left|]. repeat split; assumption.
    + apply (forall2_weaken _ _ _ _ C). intros y c _ (G1 & G2 & G3). split; [exact G1|]. split; [apply in_or_app; now right|].
      apply (forall2_weaken _ _ _ _ G3). intros z t _ [H1 H2]. split; [exact H1 | apply in_or_app; now right].
  - rewrite map_app, F4, D. reflexivity.
  - apply Forall_app. auto.
Qed.
Lemma each_params s ns ps s1 : each type_param s ns ps s1 -> exists l, makesl s s1 [] l.
Proof.
  intros E. induction E as [s|s n v s1 ns ps s2 (s0 & V & B) E2 (l & IH)]; [exists []; apply makes_nil; [apply grow_refl | apply adds_refl]|].
  destruct (new_grow _ _ _ _ _ _ V) as (A1 & A2 & _ & _ & K). destruct (bound_grow _ _ _ _ B) as [B1 B2]; [rewrite K; discriminate|].
  exists ([] ++ [(n, v)] ++ l). exact (makesl_app _ _ _ [] [] _ _ (makes_nil _ _ [] A1 A2) (makesl_app _ _ _ [] [] _ _ (makes_nil _ _ _ B1 B2) IH)).
Qed.
Lemma head_cons s x par ps xs s1 : dt_head s x par ps xs s1 -> constructors_of x = xs.
Proof. intros H. inversion H as [ys P|w ys ys' names ps' s2 N F E]; subst; [|reflexivity]. destruct xs as [|[[]|] [|? [|[] []]]]; try reflexivity. discriminate P. Qed.
Lemma entered_makes s : grow s (entered s).
Proof. apply grow_same; reflexivity. Qed.
(** Constructors, end of the scope of the parameters, names: from the state [s0] before the scope. *)
Lemma rest_makes dt (par : bool) ps s0 vs l s xs cs s' : makesl (if par then entered s0 else s0) s vs l -> dt_rest G sig dt par ps s xs cs s' ->
  exists l', makesl s0 s' (vs ++ flat_map syms cs) ((if par then [] else l) ++ l') /\ Forall2 (fits s' l') xs cs /\ map fst l' = flat_map names_con xs /\
    forall v, In v vs -> s_names s' v = s_names s v.
Proof.
  intros M H. inversion H as [t cs' s1 s2 s3 _ C L N]; subst. destruct (each_cons _ _ _ _ _ _ C) as (A1 & A2 & A3 & A4).
  destruct (named_grow _ _ _ N A4) as [N1 N2]. exists (flat_map snd cs'). pose proof (makesl_app _ _ _ _ _ _ _ M A1) as B. rewrite app_nil_r in B.
  assert (B2 : makesl s0 s2 (vs ++ flat_map syms (map fst cs')) (if par then [] else l)).
  { destruct par; [exact (leave_makes _ _ _ _ _ B L) | subst s2; exact B]. }
  assert (O : grow s1 s').
  { intros u Y. assert (Q : old s2 u /\ s_names s2 u = s_names s1 u /\ s_marks s2 u = s_marks s1 u).
    { destruct par; [destruct L as (c & _ & ->) | subst s2]; auto. }
    destruct Q as (Q1 & Q2 & Q3). destruct (N1 u Q1) as (P1 & P2 & P3). split; [exact P1|]. split; congruence. }
  split; [|split; [|split]].
  - pose proof (makesl_app _ _ _ _ _ _ _ B2 (makes_nil _ _ _ N1 N2)) as B3. rewrite app_nil_r in B3. exact B3.
  - apply (forall2_weaken _ _ _ _ A2). intros x c I F.
    apply (fits_later s s1 s' [] (flat_map snd cs')); [|exact O | apply incl_refl | exact F].
    destruct A1 as (Z1 & Z2 & Z3 & Z4). split; [exact Z1|]. split; [exact Z2|]. split.
    + clear - Z3 I. revert I Z3. generalize (map fst cs'). induction l as [|a l IH]; intros I Z; [destruct I|]. cbn [flat_map] in Z. destruct I as [-> | I].
      * clear IH. revert Z. generalize (syms c). intros m. induction m as [|b m IH]; intros Z; [constructor|]. inversion Z as [|? ? Z1 Z2]; subst. constructor; [intros J; apply Z1, in_or_app; now left | exact (IH Z2)].
      * apply IH; [exact I|]. clear - Z. revert Z. generalize (syms a). intros m. induction m as [|b m IH]; intros Z; [exact Z|]. inversion Z; subst. auto.
    + apply Forall_forall. intros v J. rewrite Forall_forall in Z4. apply Z4, in_flat_map. exists c. auto.
  - exact A3.
  - intros v I. destruct (makes_names _ _ _ _ M s1 v (proj1 A1) I). destruct M as (_ & _ & _ & M4). rewrite Forall_forall in M4. destruct (M4 v I) as (_ & V & _).
    apply (O v). apply (proj1 A1 v V).
Qed.
Lemma head_params s x par ps xs s1 : dt_head s x par ps xs s1 -> exists l, makesl (if par then entered s else s) s1 [] l /\ (par = false -> l = []).
Proof.
  intros H. destruct H as [ys P|w ys ys' names ps' s2 N F E]; [exists []; split; [apply makes_nil; [apply grow_refl | apply adds_refl] | auto]|].
  destruct (each_params _ _ _ _ E) as (l & M). exists l. split; [exact M | discriminate].
Qed.
Lemma def_makes s d r s' : dt_def G sig s d r s' -> exists l, makesl s s' (flat_map syms (snd r)) l /\ fst r = fst (fst d) /\
  Forall2 (fits s' l) (constructors_of (snd d)) (snd r) /\ map fst l = names_def (snd d).
Proof.
  destruct d as [[dt ar] x], r as [dt' cs]. intros (par & ps & xs & s1 & H & _ & R & E). cbn [fst snd] in *. destruct (head_params _ _ _ _ _ _ H) as (l & M & P).
  destruct (rest_makes _ _ _ _ _ _ _ _ _ _ M R) as (l' & A & B & C & _). exists l'. unfold names_def. rewrite (head_cons _ _ _ _ _ _ H).
  assert (X : (if par then [] else l) = []) by (destruct par; auto). rewrite X in A. auto.
Qed.
Lemma fits_grow s s1 s2 vs d l l' x c : makesl s s1 vs d -> incl (syms c) vs -> grow s1 s2 -> incl l l' -> fits s1 l x c -> fits s2 l' x c.
Proof.
  intros M V H I (A & B & C). split; [rewrite <- A; apply (makes_names _ _ _ _ M); [exact H | apply V; now left]|]. split; [auto|].
  apply (forall2_weaken _ _ _ _ C). intros y t J [C1 C2]. split; [|auto]. rewrite <- C1. apply (makes_names _ _ _ _ M); [exact H | apply V; now right].
Qed.
Lemma each_defs s ds rs s' : each (dt_def G sig) s ds rs s' -> exists l, makesl s s' (flat_map syms (flat_map snd rs)) l /\
  map fst l = flat_map (fun d => names_def (snd d)) ds /\
  Forall2 (fun d r => fst r = fst (fst d) /\ Forall2 (fits s' l) (constructors_of (snd d)) (snd r)) ds rs.
Proof.
  intros E. induction E as [s|s x a s1 xs l s2 E1 E2 (l2 & B1 & B2 & B3)]; [exists []; split; [apply makes_nil; [apply grow_refl | apply adds_refl] | split; constructor]|].
  destruct (def_makes _ _ _ _ E1) as (l1 & A1 & A2 & A3 & A4). exists (l1 ++ l2). cbn [flat_map]. rewrite flat_map_app, map_app, A4, B2.
  split; [exact (makesl_app _ _ _ _ _ _ _ A1 B1)|]. split; [reflexivity|]. constructor.
  - split; [exact A2|]. apply (forall2_weaken _ _ _ _ A3). intros y c I F.
    apply (fits_grow s s1 s2 _ _ l1 _ y c A1); [|apply B1 | intros z J; apply in_or_app; now left | exact F]. intros v J. apply in_flat_map. exists c. auto.
  - apply (forall2_weaken _ _ _ _ B3). intros d r _ [C1 C2]. split; [exact C1|]. apply (forall2_weaken _ _ _ _ C2). intros y c _ (G1 & G2 & G3).
    split; [exact G1|]. split; [apply in_or_app; now right|].
    apply (forall2_weaken _ _ _ _ G3). intros z t _ [H1 H2]. split; [exact H1 | apply in_or_app; now right].
Qed.

(** ** Attributes *)
Definition nolist (s : st) (t : term) : Prop := forall ct, s_marks s t <> Some (A_LIST, ct).
Definition cons_ok (s : st) : Prop := s_marks s sym_cons = Some (A_RIGHT_ASSOC_NIL, Some sym_nil) /\ overloads_of (s_scope s) sym_cons = None.
Lemma listed_eo s ts t : cons_ok s -> Forall (nolist s) ts -> listed G s ts t -> t = eo_list ts.
Proof.
  intros [C1 C2] F H. destruct ts as [|a ts]; [exact H|]. unfold listed, applied in H. destruct (g_mk G) as [|m]; [discriminate H|].
  pose (ai := mkInfo A_RIGHT_ASSOC_NIL (Some sym_nil) K_NONE None).
  assert (E : e_info (env_of G s) sym_cons = Some ai). { cbn [env_of e_info]. rewrite C1, C2. reflexivity. }
  rewrite (BuildProofs.build_right_nil (env_of G s) (g_n G) m sym_cons ai a ts sym_nil (eo_list (a :: ts))) in H; [now injection H as <- | | |].
  - split; [exact E|]. repeat split.
  - apply BuildProofs.nil_for_plain; [reflexivity | discriminate].
  - apply BuildProofs.desugar_right_rlist; [discriminate|]. rewrite Forall_forall in *. intros u I (ai' & X & Y).
    destruct (InvProofs.info_spec G s u ai' X) as (_ & _ & Z). rewrite Y in Z. specialize (F u I). unfold nolist in F.
    destruct (s_marks s u) as [[b c]|]; [injection Z as <- <-; exact (F _ eq_refl) | discriminate Z].
Qed.
Lemma every_mark {D} (K : D -> term) (L : D -> list term) (a : D -> attr) (R : st -> D -> st -> Prop) :
  (forall s d s', R s d s' -> exists t, listed G s (L d) t /\ marked (K d) (a d) (Some t) s s') -> (forall d, a d <> A_LIST) ->
  forall s ds s', every R s ds s' -> NoDup (map K ds) -> Forall (fun d => s_marks s (K d) = None /\ Forall (nolist s) (L d)) ds -> cons_ok s ->
  s_scope s' = s_scope s /\ s_names s' = s_names s /\ cons_ok s' /\ (forall t, nolist s t -> nolist s' t) /\
  (forall t, ~ In t (map K ds) -> s_marks s' t = s_marks s t) /\ Forall (fun d => s_marks s' (K d) = Some (a d, Some (eo_list (L d)))) ds.
Proof.
  intros HR HA s ds s' E. induction E as [s|s d s1 ds s2 E1 E2 IH]; intros ND F C; [auto 10|].
  inversion ND as [|? ? N1 N2]; subst. inversion F as [|? ? [F1 F2] F3]; subst. destruct (HR _ _ _ E1) as (t & T & M). apply (listed_eo _ _ _ C F2) in T. subst t.
  inversion M as [_ X|m X X']; [|congruence]. subst s1. clear M.
  assert (NL : forall t, nolist s t -> nolist (with_mark (K d) (a d) (Some (eo_list (L d))) s) t).
  { intros t H ct. cbn [with_mark logged set_log set_marks s_marks]. destruct (term_eqb (K d) t); [|exact (H ct)]. intros Y. injection Y as Y _. exact (HA d Y). }
  destruct IH as (I1 & I2 & I3 & I4 & I5 & I6).
  - exact N2.
  - rewrite Forall_forall in *. intros e I. destruct (F3 e I) as [G1 G2]. split.
    + cbn [with_mark logged set_log set_marks s_marks]. destruct (term_eqb (K d) (K e)) eqn:Y; [|exact G1]. apply term_eqb_eq in Y. exfalso. apply N1. rewrite Y. now apply in_map.
    + rewrite Forall_forall in *. auto.
  - destruct C as [C1 C2]. split; [|exact C2]. cbn [with_mark logged set_log set_marks s_marks]. destruct (term_eqb (K d) sym_cons) eqn:Y; [|exact C1]. apply term_eqb_eq in Y. congruence.
  - split; [exact I1|]. split; [exact I2|]. split; [exact I3|]. split; [auto|]. split.
    + intros t H. rewrite I5; [|intros J; apply H; now right]. cbn [with_mark logged set_log set_marks s_marks]. destruct (term_eqb (K d) t) eqn:Y; [|reflexivity].
      apply term_eqb_eq in Y. exfalso. apply H. now left.
    + constructor; [|exact I6]. rewrite I5; [|exact N1]. cbn [with_mark logged set_log set_marks s_marks]. now rewrite term_eqb_refl.
Qed.
Definition heads (cs : list (term * list term * bool)) : list term := map (fun c => fst (fst c)) cs.
Definition con_attr (c : term * list term * bool) : attr := if snd c then A_AMB_DATATYPE_CONSTRUCTOR else A_DATATYPE_CONSTRUCTOR.
Lemma nodup_left {A} (l l' : list A) : NoDup (l ++ l') -> NoDup l.
Proof. induction l as [|a l IH]; intros H; [constructor|]. inversion H; subst. constructor; [intros I; apply H2, in_or_app; now left | auto]. Qed.
Lemma nodup_right {A} (l l' : list A) : NoDup (l ++ l') -> NoDup l'.
Proof. induction l as [|a l IH]; intros H; [exact H|]. inversion H; subst. auto. Qed.
Lemma nodup_apart {A} (l l' : list A) x : NoDup (l ++ l') -> In x l -> ~ In x l'.
Proof. induction l as [|a l IH]; intros H I; [destruct I|]. inversion H; subst. destruct I as [-> | I]; [intros J; apply H2, in_or_app; now right | auto]. Qed.
Lemma heads_in c cs : In c cs -> In (fst (fst c)) (flat_map syms cs).
Proof. intros I. apply in_flat_map. exists c. split; [exact I | now left]. Qed.
Lemma nodup_heads cs : NoDup (flat_map syms cs) -> NoDup (heads cs).
Proof.
  induction cs as [|c cs IH]; intros H; [constructor|]. cbn [heads map]. cbn [flat_map] in H. constructor; [|exact (IH (nodup_right _ _ H))].
  intros I. apply in_map_iff in I. destruct I as (d & E & I). apply (nodup_apart _ _ (fst (fst c)) H); [now left|]. rewrite <- E. now apply heads_in.
Qed.
Lemma marks_done s ds s' : dt_marks G s ds s' -> NoDup (map fst ds ++ flat_map syms (flat_map snd ds)) ->
  Forall (fun v => s_marks s v = None) (map fst ds ++ flat_map syms (flat_map snd ds)) -> cons_ok s ->
  s_scope s' = s_scope s /\ s_names s' = s_names s /\
  Forall (fun d => s_marks s' (fst d) = Some (A_DATATYPE, Some (eo_list (heads (snd d))))) ds /\
  Forall (fun c => s_marks s' (fst (fst c)) = Some (con_attr c, Some (eo_list (snd (fst c))))) (flat_map snd ds).
Proof.
  intros (s1 & E1 & E2) ND F C. apply Forall_app in F. destruct F as [F1 F2]. rewrite Forall_forall in F1, F2.
  assert (NN : forall v, s_marks s v = None -> nolist s v) by (intros v X ct; congruence).
  assert (F3 : forall c, In c (flat_map snd ds) -> s_marks s (fst (fst c)) = None) by (intros c I; apply F2, heads_in, I).
  assert (F4 : forall c u, In c (flat_map snd ds) -> In u (snd (fst c)) -> s_marks s u = None).
  { intros c u I J. apply F2, in_flat_map. exists c. split; [exact I | now right]. }
  destruct (every_mark fst (fun d : term * list (term * list term * bool) => heads (snd d)) (fun _ => A_DATATYPE) (dt_mark G) (fun s d s' H => H) ltac:(discriminate) _ _ _ E1) as (A1 & A2 & A3 & A4 & A5 & A6).
  - exact (nodup_left _ _ ND).
  - apply Forall_forall. intros d I. split; [apply F1, in_map, I|]. apply Forall_forall. intros v J. apply NN. apply in_map_iff in J. destruct J as (c & <- & J).
    apply F3, in_flat_map. exists d. auto.
  - exact C.
  - destruct (every_mark (fun c : term * list term * bool => fst (fst c)) (fun c => snd (fst c)) con_attr (con_mark G) (fun s d s' H => H)) with (s := s1) (ds := flat_map snd ds) (s' := s') as (B1 & B2 & B3 & B4 & B5 & B6).
    + intros c. unfold con_attr. destruct (snd c); discriminate.
    + exact E2.
    + exact (nodup_heads _ (nodup_right _ _ ND)).
    + apply Forall_forall. intros c I. split.
      * rewrite A5; [exact (F3 c I)|]. intros J. apply (nodup_apart _ _ _ ND J), heads_in, I.
      * apply Forall_forall. intros u J. apply A4, NN, (F4 c u I J).
    + exact A3.
    + split; [congruence|]. split; [congruence|]. split; [|exact B6]. rewrite Forall_forall in *. intros d I. rewrite B5; [exact (A6 d I)|].
      intros J. apply in_map_iff in J. destruct J as (c & E & J). apply (nodup_apart _ _ (fst d) ND (in_map _ _ _ I)). rewrite <- E. now apply heads_in.
Qed.

(** ** Names *)
Lemma named_none n (l : list (text * term)) : ~ In n (map fst l) -> SpecScope.named n l = [].
Proof.
  induction l as [|[m e] l IH]; intros H; [reflexivity|]. cbn [map fst] in H. rewrite ScopeProofs.named_cons_other by (intros E; apply H; now left). apply IH. intros I. apply H. now right.
Qed.
Lemma named_app n (l l' : list (text * term)) : SpecScope.named n (l ++ l') = SpecScope.named n l ++ SpecScope.named n l'.
Proof. unfold SpecScope.named. now rewrite filter_app, map_app. Qed.
Lemma sole_named n t (l : list (text * term)) : sole (map fst l) n -> In (n, t) l -> exists l1 l2, l = l1 ++ (n, t) :: l2 /\ ~ In n (map fst l1) /\ ~ In n (map fst l2).
Proof.
  intros (a & b & E & N1 & N2) I. apply in_split in I. destruct I as (l1 & l2 & ->). exists l1, l2. split; [reflexivity|].
  rewrite map_app in E. cbn [map fst] in E. revert E. generalize (map fst l1) (map fst l2). clear l1 l2. intros p q. revert a N1. induction p as [|x p IH]; intros a N1 E.
  - destruct a as [|y a]; cbn [app] in E; [injection E as ->; auto|]. injection E as -> E. exfalso. apply N1. now left.
  - destruct a as [|y a]; cbn [app] in E; injection E as -> E.
    + exfalso. apply N2. rewrite <- E. apply in_or_app. right. now left.
    + destruct (IH a) as [I1 I2]; [intros I; apply N1; now right | exact E|]. split; [|exact I2]. intros [X | X]; [apply N1; now left | contradiction].
Qed.
Lemma adds_name s s1 F l n t : rel F (s_scope s) -> adds s s1 l -> sole (map fst l) n -> In (n, t) l -> getVar (s_scope s1) n = Some t.
Proof.
  intros R A S0 I. destruct (A F R) as [[C _ _] _ _]. unfold getVar. rewrite C. fold (SpecScope.visible (declares F l)). rewrite declares_visible.
  destruct (sole_named _ _ _ S0 I) as (l1 & l2 & -> & N1 & N2). rewrite rev_app_distr. cbn [rev]. rewrite <- !app_assoc. rewrite !named_app.
  rewrite (named_none n (rev l2)) by (rewrite map_rev, <- in_rev; exact N2). cbn [app]. now rewrite ScopeProofs.named_cons_same.
Qed.

(** ** The commands *)
Lemma cons_done s s' l F all ds x c : rel F (s_scope s) -> adds s s' l ->
  forall s2, s_scope s2 = s_scope s' -> s_names s2 = s_names s' -> map fst l = all ->
  Forall (fun c => s_marks s2 (fst (fst c)) = Some (con_attr c, Some (eo_list (snd (fst c))))) ds -> In c ds -> fits s' l x c -> con_ok s2 all x (fst (fst c)).
Proof.
  intros R A s2 E1 E2 <- M I (F1 & F2 & F3). rewrite Forall_forall in M.
  assert (Q : forall n t, In (n, t) l -> sole (map fst l) n -> getVar (s_scope s2) n = Some t).
  { intros n t J H. rewrite E1. exact (adds_name _ _ _ _ _ _ R A H J). }
  split; [split; [rewrite E2; exact F1 | intros H; exact (Q _ _ F2 H)]|]. exists (con_attr c), (snd (fst c)).
  split; [unfold con_attr; destruct (snd c); cbn; auto|]. split; [exact (M c I)|].
  apply (forall2_weaken _ _ _ _ F3). intros y t _ [H1 H2]. split; [rewrite E2; exact H1 | intros H; exact (Q _ _ H2 H)].
Qed.
Lemma cons_ok_later s0 s : cons_ok s0 -> grow s0 s -> overloads_of (s_scope s) sym_cons = None -> old s0 sym_cons -> cons_ok s.
Proof. intros [A _] H B C. split; [|exact B]. rewrite <- A. apply (H sym_cons C). Qed.
Lemma fresh_marks s s1 vs l : makesl s s1 vs l -> Forall (fun v => s_marks s1 v = None) vs.
Proof. intros (_ & _ & _ & F). rewrite Forall_forall in *. intros v I. apply (F v I). Qed.
Lemma each_heads s hs ts s1 : each (fun s (h : text * nat) t s' => exists s1, type_constant s (fst h) (snd h) t s1 /\ bound s1 (fst h) t s') s hs ts s1 ->
  exists l, makesl s s1 ts l /\ map fst l = map fst hs /\ Forall2 (fun h t => s_names s1 t = fst h /\ In (fst h, t) l) hs ts.
Proof.
  intros E. induction E as [s|s h t s1 hs ts s2 (s0 & V & B) E2 (l & M & L & F)]; [exists []; split; [apply makes_nil; [apply grow_refl | apply adds_refl] | split; constructor]|].
  destruct (new_makes _ _ _ _ _ _ V) as (A & N & K). destruct (bound_grow _ _ _ _ B) as [B1 B2]; [rewrite K; discriminate|].
  pose proof (makesl_app _ _ _ _ _ _ _ A (makes_nil _ _ _ B1 B2)) as M1. exists ((fst h, t) :: l). split; [exact (makesl_app _ _ _ [t] ts [(fst h, t)] l M1 M)|].
  split; [cbn [map fst]; now rewrite L|]. constructor.
  - split; [|now left]. rewrite (makes_names _ _ _ _ M1 s2 t (proj1 M) (or_introl eq_refl)). rewrite (makes_names _ _ _ _ A s1 t B1 (or_introl eq_refl)). exact N.
  - apply (forall2_weaken _ _ _ _ F). intros a b _ [F1 F2]. split; [exact F1 | now right].
Qed.
Lemma fits_more s l l' x c : incl l l' -> fits s l x c -> fits s l' x c.
Proof. intros I (A & B & C). split; [exact A|]. split; [auto|]. apply (forall2_weaken _ _ _ _ C). intros y t _ [H1 H2]. auto. Qed.
(** All symbols made, all names bound, all attributes set: the datatypes are as they should be. *)
Lemma data_done s s' vs l F ns xs ds s2 : rel F (s_scope s) -> makesl s s' vs l -> vs = map fst ds ++ flat_map syms (flat_map snd ds) ->
  Forall2 (fun n d => s_names s' (fst d) = n /\ In (n, fst d) l) ns ds -> Forall2 (fun x d => Forall2 (fits s' l) (constructors_of x) (snd d)) xs ds ->
  cons_ok s' -> dt_marks G s' ds s2 -> Forall2 (fun p dt => data_ok s2 (map fst l) (fst p) (snd p) dt) (combine ns xs) (map fst ds).
Proof.
  intros R M -> FN FX C K. pose proof (fresh_marks _ _ _ _ M) as FM. destruct M as (M1 & M2 & M3 & M4).
  destruct (marks_done _ _ _ K M3 FM C) as (E1 & E2 & D1 & D2).
  assert (Q : forall n t, In (n, t) l -> sole (map fst l) n -> getVar (s_scope s2) n = Some t).
  { intros n t J H. rewrite E1. exact (adds_name _ _ _ _ _ _ R M2 H J). }
  assert (W : forall ds1, incl ds1 ds -> forall ns xs, Forall2 (fun n d => s_names s' (fst d) = n /\ In (n, fst d) l) ns ds1 ->
    Forall2 (fun x d => Forall2 (fits s' l) (constructors_of x) (snd d)) xs ds1 -> Forall2 (fun p dt => data_ok s2 (map fst l) (fst p) (snd p) dt) (combine ns xs) (map fst ds1)).
  2: { exact (W ds (incl_refl _) ns xs FN FX). }
  clear FN FX ns xs. intros ds1. induction ds1 as [|d ds1 IH]; intros I ns xs FN FX; inversion FN as [|n ? ns' ? [N1 N2] FN']; inversion FX as [|x ? xs' ? X FX']; subst; [constructor|].
  cbn [combine map]. constructor; [|apply IH; auto; intros e J; apply I; now right]. cbn [fst snd].
  rewrite Forall_forall in D1. split; [split; [now rewrite E2 | intros H; exact (Q _ _ N2 H)]|]. exists (heads (snd d)). split; [apply D1, I; now left|].
  assert (J : incl (snd d) (flat_map snd ds)). { intros c J. apply in_flat_map. exists d. split; [apply I; now left | exact J]. }
  clear - R M2 E1 E2 D2 X J. unfold heads. revert X J. generalize (snd d) (constructors_of x). intros cs ys X. induction X as [|y c ys cs X _ IH]; intros J; [constructor|].
  cbn [map]. constructor; [|apply IH; intros e K; apply J; now right]. exact (cons_done s s' l F _ _ y c R M2 s2 E1 E2 eq_refl D2 (J c (or_introl eq_refl)) X).
Qed.
Lemma marks_scope s ds s' : dt_marks G s ds s' -> s_scope s' = s_scope s.
Proof.
  assert (Y : forall v a c s1 s2, marked v a c s1 s2 -> s_scope s2 = s_scope s1) by (intros v a c s1 s2 []; reflexivity).
  intros (s1 & E1 & E2). transitivity (s_scope s1).
  - clear - E2 Y. induction E2 as [|? ? ? ? ? (t & _ & M) _ IH]; [reflexivity|]. rewrite IH. exact (Y _ _ _ _ _ M).
  - clear - E1 Y. induction E1 as [|? ? ? ? ? (t & _ & M) _ IH]; [reflexivity|]. rewrite IH. exact (Y _ _ _ _ _ M).
Qed.
Definition base_ok (s : st) : Prop := (exists F, rel F (s_scope s)) /\ old s sym_cons /\ s_marks s sym_cons = Some (A_RIGHT_ASSOC_NIL, Some sym_nil).
Lemma datatypes_inv reference J s hs xs s3 : does G sig reference J s C_DECLARE_DATATYPES [XL hs; XL xs] s3 ->
  exists heads dts s1 ds s2, Forall2 (fun h (r : text * nat) => exists y z k, h = XL [y; z] /\ named y (fst r) /\ number z k /\ snd r = Z.to_nat k) hs heads /\
    each (fun s h t s' => exists s1, type_constant s (fst h) (snd h) t s1 /\ bound s1 (fst h) t s') s heads dts s1 /\
    each (dt_def G sig) s1 (combine (combine dts (map snd heads)) xs) ds s2 /\ dt_marks G s2 ds s3.
Proof. intros H. inversion H; subst. do 5 eexists. split; [eassumption|]. split; [eassumption|]. split; eassumption. Qed.
Lemma datatype_inv reference J s y x s5 : does G sig reference J s C_DECLARE_DATATYPE [y; x] s5 ->
  exists n par ps xs s1 dt s2 s3 cs s4, named y n /\ dt_head s x par ps xs s1 /\ type_constant s1 n (length ps) dt s2 /\ bound s2 n dt s3 /\
    dt_rest G sig dt par ps s3 xs cs s4 /\ dt_marks G s4 [(dt, cs)] s5.
Proof. intros H. inversion H; subst. do 10 eexists. do 5 (split; [eassumption|]). eassumption. Qed.
Lemma forall2_len {A B} (P : A -> B -> Prop) l m : Forall2 P l m -> length l = length m.
Proof. intros F. induction F; cbn; congruence. Qed.
Lemma done_all reference J hs xs s s3 : base_ok s -> does G sig reference J s C_DECLARE_DATATYPES [XL hs; XL xs] s3 ->
  length xs = length hs -> overloads_of (s_scope s3) sym_cons = None ->
  exists dts, Forall2 (fun p dt => data_ok s3 (map first hs ++ flat_map names_def xs) (fst p) (snd p) dt) (combine (map first hs) xs) dts.
Proof.
  intros ((F & R) & O & MC) H L OV. destruct (datatypes_inv _ _ _ _ _ _ H) as (hds & dts & s1 & ds & s2 & FH & EH & ED & K). clear H.
  destruct (each_heads _ _ _ _ EH) as (l1 & M1 & L1 & F1). destruct (each_defs _ _ _ _ ED) as (l2 & M2 & L2 & F2).
  pose proof (makesl_app _ _ _ _ _ _ _ M1 M2) as M.
  assert (HN : map first hs = map fst hds).
  { clear - FH. induction FH as [|h r hs rs (y & z & k & -> & N & _) _ IH]; [reflexivity|]. cbn [map]. rewrite IH, (named_first _ _ [z] N). reflexivity. }
  assert (LD : length dts = length xs).
  { rewrite <- (forall2_len _ _ _ F1), L, (forall2_len _ _ _ FH). reflexivity. }
  assert (LH : length hds = length dts) by exact (forall2_len _ _ _ F1).
  assert (X1 : map fst ds = dts /\ Forall2 (fun x d => Forall2 (fits s2 l2) (constructors_of x) (snd d)) xs ds /\ map snd (combine (combine dts (map snd hds)) xs) = xs).
  { clear - F2 LD LH. revert hds xs ds F2 LD LH. induction dts as [|t dts IH]; intros [|h hds] [|x xs] ds F2 LD LH; try discriminate; cbn [combine map] in F2; inversion F2 as [|? d ? ds' [E1 E2] F3]; subst; [repeat split; constructor|].
    destruct (IH hds xs ds' F3) as (I1 & I2 & I3); [now injection LD | now injection LH|]. cbn [fst snd combine map] in *. split; [congruence|]. split; [now constructor | congruence]. }
  destruct X1 as (X1 & X2 & X3). exists dts. rewrite <- X1.
  assert (LN : map first hs ++ flat_map names_def xs = map fst (l1 ++ l2)).
  { rewrite map_app, L1, L2, HN. f_equal. rewrite <- X3 at 1. rewrite !flat_map_concat_map, map_map. reflexivity. }
  rewrite LN. apply (data_done s s2 (dts ++ flat_map syms (flat_map snd ds)) (l1 ++ l2) F); [exact R | exact M | now rewrite X1 | | | | exact K].
  - rewrite HN. assert (W : forall ts hs2 ds2, Forall2 (fun (h : text * nat) t => s_names s1 t = fst h /\ In (fst h, t) l1) hs2 ts -> incl ts dts -> map fst ds2 = ts ->
      Forall2 (fun n (d : term * list (term * list term * bool)) => s_names s2 (fst d) = n /\ In (n, fst d) (l1 ++ l2)) (map fst hs2) ds2).
    2: { exact (W dts hds ds F1 (incl_refl _) X1). }
    clear - M1 M2. intros ts hs2 ds2 F1. revert ds2.
    induction F1 as [|h t hs ts [N1 N2] F1 IH]; intros [|d ds2] I E; try discriminate E; [constructor|]. injection E as E1 E2. cbn [map]. constructor.
    + rewrite E1. split; [|apply in_or_app; now left]. rewrite <- N1. apply (makes_names _ _ _ _ M1); [apply M2 | apply I; now left].
    + apply IH; [intros v V; apply I; now right | exact E2].
  - apply (forall2_weaken _ _ _ _ X2). intros x d _ F3. apply (forall2_weaken _ _ _ _ F3). intros y c _ F4. apply (fits_more s2 l2); [|exact F4]. intros z J2. apply in_or_app. now right.
  - split; [rewrite <- MC; apply (proj1 M sym_cons O)|]. now rewrite <- (marks_scope _ _ _ K).
Qed.
Lemma done_one reference J y x s s3 : base_ok s -> does G sig reference J s C_DECLARE_DATATYPE [y; x] s3 ->
  par_form x = false -> overloads_of (s_scope s3) sym_cons = None ->
  exists dt, data_ok s3 (first (XL [y; x]) :: names_def x) (first (XL [y; x])) x dt.
Proof.
  intros ((F & R) & O & MC) H P OV. destruct (datatype_inv _ _ _ _ _ _ H) as (n & par & ps & xs & s1 & dt & s2 & s4 & cs & s5 & N & D & V & B & RS & K). clear H.
  rewrite (named_first _ _ [x] N).
  assert (Q : par = false /\ s1 = s) by (destruct D as [ys P2|]; [auto | discriminate P]). destruct Q as [-> ->]. pose proof (head_cons _ _ _ _ _ _ D) as HC.
  destruct (new_makes _ _ _ _ _ _ V) as (A & AN & AK). destruct (bound_grow _ _ _ _ B) as [B1 B2]; [rewrite AK; discriminate|].
  pose proof (makesl_app _ _ _ _ _ _ _ A (makes_nil _ _ _ B1 B2)) as M1. cbn [app] in M1.
  destruct (rest_makes _ false _ _ _ _ _ _ _ _ M1 RS) as (l' & M & FT & LN & MN). exists dt.
  pose proof (data_done s s5 ([dt] ++ flat_map syms cs) ([(n, dt)] ++ l') F [n] [x] [(dt, cs)] s3 R M) as W. cbn [map flat_map app snd fst combine] in W. rewrite app_nil_r in W.
  rewrite LN in W. unfold names_def. rewrite HC. specialize (W eq_refl). cut (Forall2 (fun p dt => data_ok s3 (n :: flat_map names_con xs) (fst p) (snd p) dt) [(n, x)] [dt]); [intros Z; now inversion Z|]. apply W; clear W.
  - repeat constructor. cbn [fst]. rewrite (MN dt (or_introl eq_refl)). rewrite (makes_names _ _ _ _ A s4 dt B1 (or_introl eq_refl)). exact AN.
  - repeat constructor. cbn [snd]. rewrite HC. apply (forall2_weaken _ _ _ _ FT). intros z c _ F4. apply (fits_more s5 l'); [|exact F4]. intros q J2. now right.
  - split; [rewrite <- MC; apply (proj1 M sym_cons O)|]. now rewrite <- (marks_scope _ _ _ K).
  - exact K.
Qed.
End Data.
