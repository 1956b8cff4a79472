(** How terms are written: the recursive reading of S-expressions. *)
From Coq Require Import String ZArith List Bool.
From Verif Require Import Base Kind Ints Str Literal Arity Term Match Eval ListOps Typing Build Scope Lexer Parse.
Import ListNotations.
Open Scope Z_scope.

(** ** S-expressions *)
(** A word with its text, or a list in parentheses. *)
Inductive sx : Type := XT (t : token) (s : text) | XL (xs : list sx).
Fixpoint words (x : sx) : list (token * text) :=
  match x with
  | XT t s => [(t, s)]
  | XL xs => (T_LPAREN, []) :: flat_map words xs ++ [(T_RPAREN, [])]
  end.
Definition paren (t : token) : bool := match t with T_LPAREN | T_RPAREN => true | _ => false end.
Fixpoint nesting (x : sx) : Z :=
  match x with
  | XT _ _ => 0
  | XL xs => 1 + fold_right (fun y m => Z.max (nesting y) m) 0 xs
  end.
(** No word of it is a parenthesis or the end of the file, and the nesting can be
    counted in a size_t. *)
Inductive proper : sx -> Prop :=
| pr_word : forall t s, paren t = false -> t <> T_EOF -> proper (XT t s)
| pr_list : forall xs, nesting (XL xs) < 2 ^ 64 -> Forall proper xs -> proper (XL xs).

(** The lexer delivers these words, and is [l'] then. *)
Inductive shows : lexer -> list (token * text) -> lexer -> Prop :=
| sh_nil : forall l, shows l [] l
| sh_word : forall l t s l1 ws l', nextToken l = Ok (t, l1) -> (paren t = false -> tokenStr l1 = s) ->
    shows l1 ws l' -> shows l ((t, s) :: ws) l'.
(** What may have been put back before a term is read: nothing, a word, or a
    parenthesis and the word after it. *)
Definition ready (l : lexer) : Prop :=
  l_peeked l = [] \/ (exists t, l_peeked l = [t]) \/ (exists t, l_peeked l = [T_LPAREN; t]).

(** ** Words *)
Definition name_of (t : token) (s : text) : option text :=
  match t with
  | T_SYMBOL => Some s
  | T_QUOTED_SYMBOL => match s with _ :: c :: s' => Some (removelast (c :: s')) | _ => None end
  | _ => None
  end.
Definition lit (k : kind) (s : text) : res term := let* l := mkLiteral k s in Ok (Lit l).
(** The denominator of a rational is zero. *)
Inductive zero_denominator : text -> Prop :=
| zd_here : forall d, Forall (fun c => c = 48) d -> zero_denominator (47 :: d)
| zd_next : forall c s, c <> 47 -> zero_denominator s -> zero_denominator (c :: s).
(** Literals and types; outside of signatures some are normalized. *)
Inductive word_term (sig : bool) (o : options) : token -> text -> term -> Prop :=
| wt_num : forall s t, sig || negb (o_normNum o) = true -> lit K_NUMERAL s = Ok t -> word_term sig o T_INTEGER s t
| wt_norm_num : forall s q t, sig || negb (o_normNum o) = false -> rat_ofString s = Ok q ->
    lit K_RATIONAL (rat_toString q) = Ok t -> word_term sig o T_INTEGER s t
| wt_dec : forall s t, sig || negb (o_normDec o) = true -> lit K_DECIMAL s = Ok t -> word_term sig o T_DECIMAL s t
| wt_norm_dec : forall s q t, sig || negb (o_normDec o) = false -> rat_fromDecimal s = Ok q ->
    lit K_RATIONAL (rat_toString q) = Ok t -> word_term sig o T_DECIMAL s t
| wt_rat : forall s t, ~ zero_denominator s -> lit K_RATIONAL s = Ok t -> word_term sig o T_RATIONAL s t
| wt_hex : forall s t, sig || negb (o_normHex o) = true -> lit K_HEXADECIMAL (skipn 2 s) = Ok t -> word_term sig o T_HEX s t
| wt_norm_hex : forall s b t, sig || negb (o_normHex o) = false -> bv_ofString 16 (skipn 2 s) = Ok b ->
    lit K_BINARY (bv_toString 2 b) = Ok t -> word_term sig o T_HEX s t
| wt_bin : forall s t, lit K_BINARY (skipn 2 s) = Ok t -> word_term sig o T_BINARY s t
| wt_str : forall s u t, unescapeString s = Ok u -> lit K_STRING (str_toText (str_ofText true u)) = Ok t ->
    word_term sig o T_STRING s t
| wt_Type : forall s, word_term sig o T_TYPE s t_Type
| wt_Bool : forall s, word_term sig o T_BOOL_TYPE s t_Bool.

(** Attributes of an annotated term: keywords that have no meaning in the language,
    each with at most one value. *)
Definition is_keyword (x : sx) : bool := match x with XT T_KEYWORD _ => true | _ => false end.
Inductive attributes : list sx -> Prop :=
| at_nil : attributes []
| at_key : forall k xs, table_find strToAttr k = None -> match xs with [] => True | x :: _ => is_keyword x = true end ->
    attributes xs -> attributes (XT T_KEYWORD k :: xs)
| at_value : forall k x xs, table_find strToAttr k = None -> is_keyword x = false ->
    attributes xs -> attributes (XT T_KEYWORD k :: x :: xs).

(** ** Terms *)
Section Reads.
Variable G : config.
Variable sig : bool.

(** A new scope; the names of a list one after the other; leaving the scope. *)
Definition entered (s : st) : st := set_scope (pushScope (s_scope s)) s.
Inductive named_in : st -> list (text * term) -> st -> Prop :=
| ni_nil : forall s, named_in s [] s
| ni_cons : forall s n e c l s', bind_sym (o_ruleSymTable (s_opts s)) (s_scope s) n e = Some c ->
    named_in (set_scope c s) l s' -> named_in s ((n, e) :: l) s'.
Definition left_scope (s s' : st) : Prop := exists c, popScope (s_scope s) = Ok c /\ s' = set_scope c s.

(** An application, and the type of a term, in a state. *)
Definition applied (s : st) (ts : list term) (r : term) : Prop :=
  mkExpr (env_of G s) (g_n G) (g_mk G) K_APPLY ts = Ok r.
Definition of_type (s : st) (t ty : term) : Prop := tc_type (tc (env_of G s) (g_n G)) t = Ok (Some ty).
(** The variable of a name and a type. *)
Inductive variable (s : st) (n : text) (ty : term) : term -> Prop :=
| va_ground : isGround ty = true -> variable s n ty (Sym K_VARIABLE (g_bvar G n ty))
| va_other : forall l v, isGround ty = false -> lit K_STRING n = Ok l ->
    mkExpr (env_of G s) (g_n G) (g_mk G) K_EVAL_VAR [l; ty] = Ok v -> variable s n ty v.
(** The constructor term of a symbol. *)
Definition constructor_of (s : st) (v ct : term) : Prop :=
  exists ai, e_info (env_of G s) v = Some ai /\ ct = or_null (ai_cterm ai).
(** A list of variables follows. *)
Definition var_list (xs : list sx) : bool := match xs with XL (XL _ :: _) :: _ => true | _ => false end.
Definition binds (a : attr) : bool := match a with A_BINDER | A_LET_BINDER => true | _ => false end.
(** An application without a value is skipped. *)
Definition skipped (t : term) : Prop := tkind t = K_NONE.
Definition is_let (t : token) : bool := match t with T_LET | T_EVAL_DEFINE => true | _ => false end.

(** [reads s x t s']: in state [s] the S-expression [x] is the term [t]; [s'] is the
    state after it is read. *)
Inductive reads : st -> sx -> term -> st -> Prop :=
| rd_name : forall s k w n v, name_of k w = Some n -> getVar (s_scope s) n = Some v -> tkind v <> K_BUILTIN_CONST ->
    reads s (XT k w) v s
| rd_word : forall s k w v, word_term sig (s_opts s) k w v -> reads s (XT k w) v s
(* (f t ... t) *)
| rd_app : forall s k w n v xs ts s1 r, name_of k w = Some n -> getVar (s_scope s) n = Some v ->
    binds (getConstructorKind (env_of G s) v) && var_list xs = false ->
    reads_args s xs ts s1 -> applied s1 (v :: ts) r ->
    reads s (XL (XT k w :: xs)) r s1
(* ((_ f t ... t) t ... t), ((as f T) t ... t) *)
| rd_app2 : forall s k w n ys xs ts s1 r, name_of k w = Some n -> n = txt "_" \/ n = txt "as" ->
    reads_args s (XL (XT k w :: ys) :: xs) ts s1 -> applied s1 ts r ->
    reads s (XL (XL (XT k w :: ys) :: xs)) r s1
(* (f ((x T) ... (x T)) t ... t) *)
| rd_binder : forall s k w n v vxs xs vs s1 ct vl ts s2 r s3,
    name_of k w = Some n -> getVar (s_scope s) n = Some v ->
    getConstructorKind (env_of G s) v = A_BINDER -> var_list [XL vxs] = true ->
    reads_vars (entered s) vxs vs s1 -> constructor_of s1 v ct -> applied s1 (ct :: vs) vl ->
    reads_args s1 xs ts s2 -> applied s2 (v :: vl :: ts) r -> left_scope s2 s3 ->
    reads s (XL (XT k w :: XL vxs :: xs)) r s3
(* (f ((x t) ... (x t)) t ... t) *)
| rd_let_binder : forall s k w n v vxs xs ds s1 s2 ct p l cs prs vl ts s3 r s4,
    name_of k w = Some n -> getVar (s_scope s) n = Some v ->
    getConstructorKind (env_of G s) v = A_LET_BINDER -> var_list [XL vxs] = true ->
    reads_defs (entered s) vxs ds s1 -> named_in s1 (map (fun d => (fst (fst d), snd (fst d))) ds) s2 ->
    constructor_of s2 v ct -> tchildren ct = p :: l :: cs ->
    Forall2 (fun d r => applied s2 [p; snd (fst d); snd d] r) ds prs -> applied s2 (l :: prs) vl ->
    reads_args s2 xs ts s3 -> applied s3 (v :: vl :: ts) r -> left_scope s3 s4 ->
    reads s (XL (XT k w :: XL vxs :: xs)) r s4
(* (let ((x t) ... (x t)) t) *)
| rd_let : forall s k w bs js x ds s1 s2 s3 t s4 s5, is_let k = true ->
    reads_lets s bs ds s1 -> named_in (entered s1) ds s2 ->
    reads_args s2 js [] s3 -> reads s3 x t s4 -> ~ skipped t -> left_scope s4 s5 ->
    reads s (XL (XT k w :: XL bs :: js ++ [x])) t s5
(* (! t :keyword value ...) *)
| rd_annotated : forall s w js x as_ s1 t s2, reads_args s js [] s1 -> reads s1 x t s2 -> ~ skipped t ->
    attributes as_ -> reads s (XL (XT T_ATTRIBUTE w :: js ++ x :: as_)) t s2
with reads_args : st -> list sx -> list term -> st -> Prop :=
| ra_nil : forall s, reads_args s [] [] s
| ra_cons : forall s x t s1 xs ts s2, reads s x t s1 -> ~ skipped t -> reads_args s1 xs ts s2 ->
    reads_args s (x :: xs) (t :: ts) s2
| ra_skip : forall s x t s1 xs ts s2, reads s x t s1 -> skipped t -> reads_args s1 xs ts s2 ->
    reads_args s (x :: xs) ts s2
(* variables are bound one after the other *)
with reads_vars : st -> list sx -> list term -> st -> Prop :=
| rv_nil : forall s, reads_vars s [] [] s
| rv_cons : forall s k w n x ty s1 v c xs vs s2, name_of k w = Some n ->
    reads s x ty s1 -> of_type s1 ty t_Type -> isEvaluatable ty = false -> variable s1 n ty v ->
    bind_sym (o_ruleSymTable (s_opts s1)) (s_scope s1) n v = Some c ->
    reads_vars (set_scope c s1) xs vs s2 ->
    reads_vars s (XL [XT k w; x] :: xs) (v :: vs) s2
(* definitions: a name, its variable and its value *)
with reads_defs : st -> list sx -> list (text * term * term) -> st -> Prop :=
| rf_nil : forall s, reads_defs s [] [] s
| rf_cons : forall s k w n x t s1 ty xs ds s2, name_of k w = Some n ->
    reads s x t s1 -> of_type s1 t ty -> isGround ty = true -> reads_defs s1 xs ds s2 ->
    reads_defs s (XL [XT k w; x] :: xs) ((n, Sym K_VARIABLE (g_bvar G n ty), t) :: ds) s2
with reads_lets : st -> list sx -> list (text * term) -> st -> Prop :=
| rl_nil : forall s, reads_lets s [] [] s
| rl_cons : forall s k w n js x s1 t s2 xs ds s3, name_of k w = Some n ->
    reads_args s js [] s1 -> reads s1 x t s2 -> ~ skipped t -> reads_lets s2 xs ds s3 ->
    reads_lets s (XL (XT k w :: js ++ [x]) :: xs) ((n, t) :: ds) s3.

Scheme reads_mind := Minimality for reads Sort Prop
  with reads_args_mind := Minimality for reads_args Sort Prop
  with reads_vars_mind := Minimality for reads_vars Sort Prop
  with reads_defs_mind := Minimality for reads_defs Sort Prop
  with reads_lets_mind := Minimality for reads_lets Sort Prop.
Combined Scheme reads_minds from reads_mind, reads_args_mind, reads_vars_mind, reads_defs_mind, reads_lets_mind.
End Reads.
