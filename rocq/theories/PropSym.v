(** Property C79: symbols do not change. *)
From Coq Require Import String ZArith List Bool Lia.
From Verif Require Import Base Kind Ints Str Literal Arity Term TermProofs Match Eval ListOps Typing Build Scope Lexer Parse Check
  SpecRead SpecCmd SpecRun SpecCheck SpecSym SymProofs PropRead PropCmd.
Import ListNotations.
Open Scope Z_scope.

(** A command changes neither the name nor the type of a symbol that exists, nor the attribute of a symbol that has one
    (its definition for a program or a rule, how it is applied for a constant, its constructors for a datatype). *)
Theorem C79_command : forall G sig reference n f l s r p,
  parseNextCommand G sig reference (including G n) f (l, s) = Ok (r, p) -> symbols_kept s (snd p).
Proof.
  intros G sig reference n f l s r p H.
  exact (all_next G symbols_kept kept_reading kept_symbols_same _ (all_including G symbols_kept kept_reading kept_symbols_same n) sig reference f _ _ _ H).
Qed.
Print Assumptions C79_command.
(** Neither does a whole file, with what it includes. *)
Theorem C79_file : forall G n f sig reference nf s b s',
  includeFile G n f sig reference nf s = Ok (b, s') -> symbols_kept s s'.
Proof. intros G n f sig reference nf s b s'. exact (all_include G symbols_kept kept_reading kept_symbols_same n f sig reference nf s b s'). Qed.
Print Assumptions C79_file.
(** At the end of a run every symbol that was made has the type it was made with; no symbol was made twice. *)
Theorem C79_made_once : forall G o incs i v s u ty, Check.run G o incs i = Ok (v, s) -> In (EvSymbol u ty) (events s) ->
  old s u /\ s_types s u = ty /\ length (filter (made u) (events s)) = 1%nat.
Proof.
  intros G o incs i v s u ty H I. destruct (run_log_ok G o incs i v s H u ty I) as (_ & A & B & C). auto.
Qed.
Print Assumptions C79_made_once.
(** The symbols of the start are as they were. *)
Theorem C79_start : forall G o incs i v s, Check.run G o incs i = Ok (v, s) -> symbols_kept (st_init o) s.
Proof. intros G o incs i v s. exact (all_run G symbols_kept kept_reading kept_symbols_same o incs i v s). Qed.
Print Assumptions C79_start.

(** The constant = of the signature has a type, and the constructor of lists has its attribute, when a rule is declared. *)
Example C79_example : exists p, parseNextCommand cfg70 true false (including cfg70 60) false (l69, s70) = Ok (Some false, p) /\
  old s70 (Sym K_CONST 65) /\ getVar (s_scope s70) (txt "=") = Some (Sym K_CONST 65) /\ s_names s70 (Sym K_CONST 65) = txt "=" /\
  s_types s70 (Sym K_CONST 65) = Some (arrow (Sym K_PARAM 64) (arrow (Sym K_PARAM 64) t_Bool)) /\
  old s70 sym_cons /\ s_marks s70 sym_cons = Some (A_RIGHT_ASSOC_NIL, Some sym_nil) /\ s_next s70 = 99 /\ 99 < s_next (snd p).
Proof.
  assert (E : match parseNextCommand cfg70 true false (including cfg70 60) false (l69, s70) with Ok (Some false, p) => 99 <? s_next (snd p) | _ => false end = true) by (vm_compute; reflexivity).
  destruct (parseNextCommand cfg70 true false (including cfg70 60) false (l69, s70)) as [[[[]|] p]| | |]; try discriminate E. apply Z.ltb_lt in E.
  exists p. split; [reflexivity|]. do 7 (split; [vm_compute; reflexivity|]). exact E.
Qed.
Example C79_run_example : exists s, Check.run cfg70 options_init [] (InFile (txt "p")) = Ok (Correct, s) /\ In (EvSymbol (Sym K_CONST 63) (Some t_Type)) (events s).
Proof.
  assert (E : match Check.run cfg70 options_init [] (InFile (txt "p")) with
              | Ok (Correct, s) => existsb (fun e => match e with EvSymbol u (Some ty) => term_eqb u (Sym K_CONST 63) && term_eqb ty t_Type | _ => false end) (events s)
              | _ => false end = true) by (vm_compute; reflexivity).
  destruct (Check.run cfg70 options_init [] (InFile (txt "p"))) as [[[] s]| | |]; try discriminate E. exists s. split; [reflexivity|].
  apply existsb_exists in E. destruct E as (e & I & E). destruct e as [u [ty|]| | | | | | | | | | | |]; try discriminate E.
  apply andb_prop in E. destruct E as [A B]. apply term_eqb_eq in A. apply term_eqb_eq in B. now subst u ty.
Qed.
