(** Terms that are read back from their printed text. *)
From Coq Require Import String ZArith List Bool.
From Verif Require Import Base Kind Ints Str Literal SpecLit Arity Term Match Eval ListOps Typing Build Scope Lexer SpecLex Parse SpecRead SpecPrint.
Import ListNotations.
Open Scope Z_scope.

Section Back.
Variable G : config.
Variables sig lexLet lexType : bool.
Variable s : st.

(** A word that stands for an operator of the language. *)
Definition stands_for (w : text) (k : kind) (v : term) : Prop := getVar (s_scope s) w = Some v /\ builtin_kind v = k.
(** A constant or parameter that is bound under its name. *)
Inductive named_symbol : term -> Prop :=
| ns_sym : forall k i, isSymbol k = true -> k <> K_VARIABLE ->
    let n := e_name (env_of G s) (Sym k i) in
    readable lexLet lexType n -> Forall (fun c => 0 < c < 255) n -> getVar (s_scope s) n = Some (Sym k i) -> named_symbol (Sym k i).
(** Names of variables that are written in a string literal as they are. *)
Definition text_char (c : Z) : Prop := 32 <= c < 127 /\ c <> 34 /\ c <> 92.
(** Literals with a text that is read as themselves. *)
Inductive literal_word : literal -> Prop :=
| lw_bool : forall b : bool, getVar (s_scope s) (txt (if b then "true" else "false")%string) = Some (Lit (LBool b)) -> literal_word (LBool b)
| lw_num : forall z, sig || negb (o_normNum (s_opts s)) = true -> literal_word (LNum z)
| lw_rat : forall q, rat_wf q -> literal_word (LRat q)
| lw_bin : forall b, bv_wf b -> 0 < bv_size b -> literal_word (LBin b)
| lw_str : forall u, str_wf u -> ~ In 34 u -> literal_word (LStr u).

(** Terms that are applications, function types, variables and operator applications over
    such symbols and literals; an application is one that is built for its parts. *)
Inductive ordinary : term -> Prop :=
| or_sym : forall t, named_symbol t -> ordinary t
| or_lit : forall l, literal_word l -> ordinary (Lit l)
| or_Type : lexType = true -> ordinary (Node K_TYPE [])
| or_Bool : ordinary (Node K_BOOL_TYPE [])
(* (f a), f without attributes *)
| or_app : forall f a, named_symbol f -> e_info (env_of G s) f = None -> ordinary a -> ordinary (Node K_APPLY [f; a])
(* (f a ... a), f with attributes that do not matter here *)
| or_self : forall k f cs, named_symbol f -> head_word (env_of G s) k f [] -> k = K_APPLY \/ k = K_APPLY_OPAQUE -> Forall ordinary cs ->
    applied G s (f :: cs) (Node k (f :: cs)) -> ordinary (Node k (f :: cs))
(* (_ f a) *)
| or_app2 : forall v f a, stands_for (txt "_") K_APPLY v -> tchildren f <> [] -> ordinary f -> ordinary a -> ordinary (Node K_APPLY [f; a])
(* (-> T U) *)
| or_arrow : forall v t u, stands_for (txt "->") K_FUNCTION_TYPE v -> ordinary t -> ordinary u -> ordinary (Node K_FUNCTION_TYPE [t; u])
(* (eo::var "x" T) *)
| or_var : forall v n T, stands_for (txt "eo::var") K_EVAL_VAR v -> Forall text_char n -> ordinary T ->
    applied G s [v; Lit (LStr n); T] (Sym K_VARIABLE (g_bvar G n T)) -> ordinary (Sym K_VARIABLE (g_bvar G n T))
(* (op a ... a) *)
| or_operator : forall v k w c cs, In (w, k) builtins -> stands_for w k v -> k <> K_APPLY -> Forall ordinary (c :: cs) ->
    applied G s (v :: c :: cs) (Node k (c :: cs)) -> ordinary (Node k (c :: cs)).
End Back.
