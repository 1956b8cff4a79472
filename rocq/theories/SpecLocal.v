(** Names that are bound inside a term: static scoping. *)
From Coq Require Import String ZArith List Bool.
From Verif Require Import Base Kind Ints Str Literal Arity Term Match Eval ListOps Typing Build Scope Lexer Parse SpecRead.
Import ListNotations.
Open Scope Z_scope.

(** What names stand for. *)
Definition names_table := text -> option term.
Definition with_name (T : names_table) (n : text) (v : term) : names_table :=
  fun m => if text_eqb n m then Some v else T m.
Definition with_names (T : names_table) (ds : list (text * term)) : names_table :=
  fold_left (fun T d => with_name T (fst d) (snd d)) ds T.
(** Different names that stand for nothing yet, for terms that are not rules. *)
Definition new_names (T : names_table) (ds : list (text * term)) : Prop :=
  NoDup (map fst ds) /\ Forall (fun d => T (fst d) = None /\ tkind (snd d) <> K_PROOF_RULE) ds.

Section Means.
Variable G : config.
Variable sig : bool.
Variable E : st.

(** [means T x t]: with names standing for what [T] says, and symbols having the
    attributes and alternatives of [E], the S-expression [x] is the term [t].  Names
    are bound only if they stand for nothing where they are bound. *)
Inductive means : names_table -> sx -> term -> Prop :=
| me_name : forall T k w n v, name_of k w = Some n -> T n = Some v -> tkind v <> K_BUILTIN_CONST -> means T (XT k w) v
| me_word : forall T k w v, word_term sig (s_opts E) k w v -> means T (XT k w) v
| me_app : forall T k w n v xs ts r, name_of k w = Some n -> T n = Some v ->
    binds (getConstructorKind (env_of G E) v) && var_list xs = false ->
    means_args T xs ts -> applied G E (v :: ts) r -> means T (XL (XT k w :: xs)) r
| me_app2 : forall T k w n ys xs ts r, name_of k w = Some n -> n = txt "_" \/ n = txt "as" ->
    means_args T (XL (XT k w :: ys) :: xs) ts -> applied G E ts r -> means T (XL (XL (XT k w :: ys) :: xs)) r
| me_binder : forall T k w n v vxs xs vs T' ct vl ts r, name_of k w = Some n -> T n = Some v ->
    getConstructorKind (env_of G E) v = A_BINDER -> var_list [XL vxs] = true ->
    means_vars T vxs vs T' -> constructor_of G E v ct -> applied G E (ct :: vs) vl ->
    means_args T' xs ts -> applied G E (v :: vl :: ts) r -> means T (XL (XT k w :: XL vxs :: xs)) r
| me_let_binder : forall T k w n v vxs xs ds ct p l cs prs vl ts r, name_of k w = Some n -> T n = Some v ->
    getConstructorKind (env_of G E) v = A_LET_BINDER -> var_list [XL vxs] = true ->
    means_defs T vxs ds -> new_names T (map (fun d => (fst (fst d), snd (fst d))) ds) ->
    constructor_of G E v ct -> tchildren ct = p :: l :: cs ->
    Forall2 (fun d r => applied G E [p; snd (fst d); snd d] r) ds prs -> applied G E (l :: prs) vl ->
    means_args (with_names T (map (fun d => (fst (fst d), snd (fst d))) ds)) xs ts ->
    applied G E (v :: vl :: ts) r -> means T (XL (XT k w :: XL vxs :: xs)) r
| me_let : forall T k w bs x ds t, is_let k = true -> means_lets T bs ds -> new_names T ds ->
    means (with_names T ds) x t -> ~ skipped t -> means T (XL [XT k w; XL bs; x]) t
| me_annotated : forall T w x as_ t, means T x t -> ~ skipped t -> attributes as_ ->
    means T (XL (XT T_ATTRIBUTE w :: x :: as_)) t
with means_args : names_table -> list sx -> list term -> Prop :=
| ma_nil : forall T, means_args T [] []
| ma_cons : forall T x t xs ts, means T x t -> ~ skipped t -> means_args T xs ts -> means_args T (x :: xs) (t :: ts)
(* each variable is visible in the types of the later ones *)
with means_vars : names_table -> list sx -> list term -> names_table -> Prop :=
| mv_nil : forall T, means_vars T [] [] T
| mv_cons : forall T k w n x ty v xs vs T', name_of k w = Some n -> T n = None ->
    means T x ty -> of_type G E ty t_Type -> isEvaluatable ty = false -> variable G E n ty v -> tkind v <> K_PROOF_RULE ->
    means_vars (with_name T n v) xs vs T' -> means_vars T (XL [XT k w; x] :: xs) (v :: vs) T'
with means_defs : names_table -> list sx -> list (text * term * term) -> Prop :=
| md_nil : forall T, means_defs T [] []
| md_cons : forall T k w n x t ty xs ds, name_of k w = Some n -> means T x t -> of_type G E t ty -> isGround ty = true ->
    means_defs T xs ds -> means_defs T (XL [XT k w; x] :: xs) ((n, Sym K_VARIABLE (g_bvar G n ty), t) :: ds)
with means_lets : names_table -> list sx -> list (text * term) -> Prop :=
| ml_nil : forall T, means_lets T [] []
| ml_cons : forall T k w n x t xs ds, name_of k w = Some n -> means T x t -> ~ skipped t -> means_lets T xs ds ->
    means_lets T (XL [XT k w; x] :: xs) ((n, t) :: ds).

Scheme means_mind := Minimality for means Sort Prop
  with means_args_mind := Minimality for means_args Sort Prop
  with means_vars_mind := Minimality for means_vars Sort Prop
  with means_defs_mind := Minimality for means_defs Sort Prop
  with means_lets_mind := Minimality for means_lets Sort Prop.
Combined Scheme means_minds from means_mind, means_args_mind, means_vars_mind, means_defs_mind, means_lets_mind.
End Means.

(** The names in an S-expression. *)
Fixpoint names_in (x : sx) : list text :=
  match x with
  | XT k w => match name_of k w with Some n => [n] | None => [] end
  | XL xs => flat_map names_in xs
  end.
Definition is_name (n : text) (k : token) (w : text) : bool :=
  match name_of k w with Some m => text_eqb n m | None => false end.
(** The S-expression with [a] in place of the name [n]. *)
Fixpoint replace (n : text) (a x : sx) : sx :=
  match x with
  | XT k w => if is_name n k w then a else x
  | XL xs => XL (map (replace n a) xs)
  end.
(** The name is not the first of a list. *)
Inductive not_applied (n : text) : sx -> Prop :=
| na_word : forall k w, not_applied n (XT k w)
| na_list : forall xs, Forall (not_applied n) xs ->
    match xs with XT k w :: _ => is_name n k w = false | _ => True end -> not_applied n (XL xs).
Definition a_name (x : sx) : Prop := exists k w n, x = XT k w /\ name_of k w = Some n.

(** Two states in which every name, rule and symbol means the same. *)
Record unchanged (s s1 : st) : Prop := {
  un_rest : s1 = set_scope (s_scope s1) s;
  un_names : forall n, getVar (s_scope s1) n = getVar (s_scope s) n;
  un_rules : forall rt n, getProofRule rt (s_scope s1) n = getProofRule rt (s_scope s) n;
  un_over : forall t, overloads_of (s_scope s1) t = overloads_of (s_scope s) t;
  un_open : c_ctx (s_scope s1) = c_ctx (s_scope s) }.
