(** Property C72, the part that holds: datatypes and their constructors and selectors. *)
From Coq Require Import String ZArith List Bool Lia.
From Verif Require Import Base Kind Ints Str Literal Arity Term TermProofs Match Eval ListOps Typing Build Scope Lexer Parse Check
  SpecRead SpecCmd SpecRun SpecCheck SpecSym SpecList SpecData DataProofs CmdProofs3 Encode PropRead PropLocal PropCmd PropSym.
Import ListNotations.
Open Scope string_scope.
Open Scope list_scope.
Open Scope Z_scope.

Lemma reached_base G s : faithful G -> reached G s -> base_ok s.
Proof.
  intros H R. split; [exact (reached_rel G s H R)|]. destruct R as (o & incs & i & v & R & _). destruct (C79_start _ _ _ _ _ _ R sym_cons) as (A & _ & _ & B).
  - vm_compute. reflexivity.
  - split; [exact A|]. apply B. vm_compute. reflexivity.
Qed.

(** If there are as many definitions as names, then afterwards there are symbols with these names which are datatypes, the constructors
    of a datatype are the ones written in its definition, in this order, and the selectors of a constructor are the ones written there;
    each of these names that is declared once in the command stands for its symbol.
    Missing: more names than definitions are accepted (C72_defined_refuted); a constant with the name eo::List::cons that overloads the constructor
    of lists. *)
Theorem C72_datatypes_partial : forall G sig reference n w hs xs l s l' r p, faithful G -> files_formed G -> reached G s ->
  w = txt "declare-datatypes" -> well_formed (XL [XT T_SYMBOL w; XL hs; XL xs]) -> l_peeked l = [] -> shows l (words (XL [XT T_SYMBOL w; XL hs; XL xs])) l' ->
  parseNextCommand G sig reference (including G n) false (l, s) = Ok (r, p) ->
  length xs = length hs -> overloads_of (s_scope (snd p)) sym_cons = None ->
  exists dts, Forall2 (fun d dt => data_ok (snd p) (map first hs ++ flat_map names_def xs) (fst d) (snd d) dt) (combine (map first hs) xs) dts.
Proof.
  intros G sig reference n w hs xs l s l' r p H F R -> W P S E L O. destruct (C69_exact G sig reference n _ l s l' r p H F W P S E) as (v & c & ys & EQ & I & D & _).
  injection EQ as <- <-. apply command_find in I. assert (c = C_DECLARE_DATATYPES) as -> by (destruct reference; vm_compute in I; now injection I as <-).
  exact (done_all G sig reference _ hs xs s (snd p) (reached_base G s H R) D L O).
Qed.
Print Assumptions C72_datatypes_partial.
(** The same for one datatype without parameters.  Missing: with parameters the datatype has no name (C72_bound_refuted). *)
Theorem C72_datatype_partial : forall G sig reference n w y x l s l' r p, faithful G -> files_formed G -> reached G s ->
  w = txt "declare-datatype" -> well_formed (XL [XT T_SYMBOL w; y; x]) -> l_peeked l = [] -> shows l (words (XL [XT T_SYMBOL w; y; x])) l' ->
  parseNextCommand G sig reference (including G n) false (l, s) = Ok (r, p) ->
  par_form x = false -> overloads_of (s_scope (snd p)) sym_cons = None ->
  exists dt, data_ok (snd p) (first (XL [y; x]) :: names_def x) (first (XL [y; x])) x dt.
Proof.
  intros G sig reference n w y x l s l' r p H F R -> W P S E L O. destruct (C69_exact G sig reference n _ l s l' r p H F W P S E) as (v & c & ys & EQ & I & D & _).
  injection EQ as <- <-. apply command_find in I. assert (c = C_DECLARE_DATATYPE) as -> by (destruct reference; vm_compute in I; now injection I as <-).
  exact (done_one G sig reference _ y x s (snd p) (reached_base G s H R) D L O).
Qed.
Print Assumptions C72_datatype_partial.

Definition sig72 : string := "(declare-const Int Type)".
Lemma cfg72_formed : files_formed (cfg67 sig72).
Proof.
  intros path bytes s sig. cbn [g_files cfg67]. unfold text_of. intros H. injection H as <-. apply (has_contents_ok 400). vm_compute. reflexivity.
Qed.
(** (declare-datatypes ((A 0) (B 1)) (((a) (b (get A) (num Int))) (par (X) ((c (d X) (e (B X))))))) *)
Definition t72 : string := "(declare-datatypes ((A 0) (B 1)) (((a) (b (get A) (num Int))) (par (X) ((c (d X) (e (B X)))))))".
Definition l72 (t : string) : lexer := lexer_init true true (chars_of false (txt t)).
Definition hs72 : list sx := [XL [w "A"; XT T_INTEGER (txt "0")]; XL [w "B"; XT T_INTEGER (txt "1")]].
Definition xs72 : list sx := [XL [XL [w "a"]; XL [w "b"; XL [w "get"; w "A"]; XL [w "num"; w "Int"]]];
  XL [XT T_PAR (txt "par"); XL [w "X"]; XL [XL [w "c"; XL [w "d"; w "X"]; XL [w "e"; XL [w "B"; w "X"]]]]]].
Notation run72 t := (parseNextCommand (cfg67 sig72) true false (including (cfg67 sig72) 60) false (l72 t, s67 sig72)) (only parsing).
Lemma well72 : well_formed (XL [w "declare-datatypes"; XL hs72; XL xs72]).
Proof. split; [apply proper_b_ok; reflexivity | intros v y Y; discriminate Y]. Qed.
Lemma reached72 : reached (cfg67 sig72) (s67 sig72).
Proof. apply reached67. vm_compute. reflexivity. Qed.
Lemma shows72 : exists l', shows (l72 t72) (words (XL [w "declare-datatypes"; XL hs72; XL xs72])) l'.
Proof.
  assert (T : exists l', take (length (words (XL [w "declare-datatypes"; XL hs72; XL xs72]))) (l72 t72) = (words (XL [w "declare-datatypes"; XL hs72; XL xs72]), l')) by (eexists; vm_compute; reflexivity).
  destruct T as [l' T]. exists l'. exact (take_shows _ _ _ _ T).
Qed.
Lemma run72_ok : exists p, run72 t72 = Ok (Some false, p) /\ overloads_of (s_scope (snd p)) sym_cons = None.
Proof.
  assert (E : match run72 t72 with Ok (Some false, (_, s)) => match overloads_of (s_scope s) sym_cons with None => true | _ => false end | _ => false end = true) by (vm_compute; reflexivity).
  destruct (run72 t72) as [[[[]|] [l1 s1]]| | |]; try discriminate E. exists (l1, s1). split; [reflexivity|]. cbn [snd]. destruct (overloads_of (s_scope s1) sym_cons); [discriminate E | reflexivity].
Qed.
Example C72_example : exists l' p, faithful (cfg67 sig72) /\ files_formed (cfg67 sig72) /\ reached (cfg67 sig72) (s67 sig72) /\
  well_formed (XL [w "declare-datatypes"; XL hs72; XL xs72]) /\ shows (l72 t72) (words (XL [w "declare-datatypes"; XL hs72; XL xs72])) l' /\
  run72 t72 = Ok (Some false, p) /\ overloads_of (s_scope (snd p)) sym_cons = None /\
  map first hs72 = [txt "A"; txt "B"] /\ names_def (hd (XL []) xs72) = [txt "a"; txt "is-a"; txt "get"; txt "update-get"; txt "num"; txt "update-num"; txt "b"; txt "is-b"] /\
  (exists dts, Forall2 (fun d dt => data_ok (snd p) (map first hs72 ++ flat_map names_def xs72) (fst d) (snd d) dt) (combine (map first hs72) xs72) dts).
Proof.
  destruct shows72 as [l' S]. destruct run72_ok as (p & X & O). exists l', p. split; [exact var_num_ok|]. split; [exact cfg72_formed|].
  split; [exact reached72|]. split; [exact well72|]. split; [exact S|]. split; [exact X|]. split; [exact O|]. do 2 (split; [vm_compute; reflexivity|]).
  exact (C72_datatypes_partial (cfg67 sig72) true false 60 (txt "declare-datatypes") hs72 xs72 (l72 t72) (s67 sig72) l' _ _ var_num_ok cfg72_formed reached72 eq_refl well72 eq_refl S X eq_refl O).
Qed.
(** Seen from outside: what the names stand for, the constructors of A and the selectors of c. *)
Example C72_seen_example : match run72 t72 with
  | Ok (_, (_, s)) =>
      let v (n : string) := match getVar (s_scope s) (txt n) with Some t => t | None => null_term end in
      s_marks s (v "A") = Some (A_DATATYPE, Some (eo_list [v "a"; v "b"])) /\ s_marks s (v "B") = Some (A_DATATYPE, Some (eo_list [v "c"])) /\
      s_marks s (v "b") = Some (A_DATATYPE_CONSTRUCTOR, Some (eo_list [v "get"; v "num"])) /\ s_marks s (v "c") = Some (A_DATATYPE_CONSTRUCTOR, Some (eo_list [v "d"; v "e"]))
  | _ => False
  end.
Proof. vm_compute. repeat split. Qed.
Example C72_one_example : match run72 "(declare-datatype A ((a) (b (get A))))" with
  | Ok (_, (_, s)) => let v (n : string) := match getVar (s_scope s) (txt n) with Some t => t | None => null_term end in
      s_marks s (v "A") = Some (A_DATATYPE, Some (eo_list [v "a"; v "b"])) /\ s_marks s (v "b") = Some (A_DATATYPE_CONSTRUCTOR, Some (eo_list [v "get"])) /\
      overloads_of (s_scope s) sym_cons = None
  | _ => False
  end.
Proof. vm_compute. repeat split. Qed.
