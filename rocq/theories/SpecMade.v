(** What terms are made of, and what the type checker knows about that. *)
From Coq Require Import ZArith List Bool.
From Verif Require Import Base Kind Literal Term Match Typing SpecEnv.
Import ListNotations.
Open Scope Z_scope.

Section Made.
(** A set of symbols, and the name and the type of a variable. *)
Variable B : kind -> Z -> Prop.
Variable var : Z -> option (text * term).

(** Terms over the symbols, with variables whose types are such terms. *)
Inductive made_of : term -> Prop :=
| mo_symbol : forall k i, k <> K_VARIABLE -> B k i -> made_of (Sym k i)
| mo_variable : forall i n T, var i = Some (n, T) -> made_of T -> made_of (Sym K_VARIABLE i)
| mo_literal : forall l, made_of (Lit l)
| mo_node : forall k cs, Forall made_of cs -> made_of (Node k cs).

(** Whatever belongs to the symbols is made of the symbols: types, constructor terms (nil
    terminators, the cases of a program, constructors and selectors of datatypes); so are the
    types of literals, the built-in symbols and the placeholder of eo::nil. *)
Record closed_under (E : env) : Prop := {
  cu_type : forall k i T, made_of (Sym k i) -> e_symtype E (Sym k i) = Some T -> made_of T;
  cu_term : forall t ai c, made_of t -> e_info E t = Some ai -> ai_cterm ai = Some c -> made_of c;
  cu_literal : forall k T, e_littype E k = Some T -> made_of T;
  cu_variable : forall n T, made_of T -> made_of (e_bvar E n T);
  cu_listType : made_of (e_listType E); cu_listCons : made_of (e_listCons E); cu_listNil : made_of (e_listNil E);
  cu_proofType : made_of (e_proofType E); cu_tmp : B K_CONST (-1) }.

(** The same is known about the symbols, alternatives aside. *)
Record agree_on (E E' : env) : Prop := {
  ao_type : forall k i, made_of (Sym k i) -> e_symtype E' (Sym k i) = e_symtype E (Sym k i);
  ao_attribute : forall t, made_of t -> attribute E' t = attribute E t;
  ao_name : forall t, made_of t -> e_name E' t = e_name E t;
  ao_littype : forall k, e_littype E' k = e_littype E k; ao_hash : e_hash E' = e_hash E; ao_bvar : e_bvar E' = e_bvar E;
  ao_self : e_self E' = e_self E; ao_listType : e_listType E' = e_listType E; ao_listCons : e_listCons E' = e_listCons E;
  ao_listNil : e_listNil E' = e_listNil E; ao_proofType : e_proofType E' = e_proofType E }.

Definition values_made_of (c : ctx) : Prop := Forall (fun e => made_of (snd e)) c.
End Made.
