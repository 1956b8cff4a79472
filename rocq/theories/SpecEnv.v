(** Environments that differ in the alternatives of symbols only. *)
From Coq Require Import ZArith List Bool.
From Verif Require Import Base Kind Term Typing.
Import ListNotations.

(** What is known about a term besides its alternatives; nothing is known about most terms. *)
Definition attribute (E : env) (t : term) : attr * option term * kind :=
  match e_info E t with
  | Some ai => (ai_cons ai, ai_cterm ai, ai_kind ai)
  | None => (A_NONE, None, K_NONE)
  end.
Record same_but_over (E E' : env) : Prop := {
  sb_info : forall t, attribute E' t = attribute E t;
  sb_hash : e_hash E' = e_hash E; sb_bvar : e_bvar E' = e_bvar E; sb_name : e_name E' = e_name E;
  sb_symtype : e_symtype E' = e_symtype E; sb_littype : e_littype E' = e_littype E;
  sb_self : e_self E' = e_self E; sb_listType : e_listType E' = e_listType E; sb_listCons : e_listCons E' = e_listCons E;
  sb_listNil : e_listNil E' = e_listNil E; sb_proofType : e_proofType E' = e_proofType E }.
