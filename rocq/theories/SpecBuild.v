(** Specification of the desugaring of applications (user_manual.md,
    "Declarations with attributes"). *)
From Coq Require Import ZArith List Bool.
From Verif Require Import Base Kind Literal Term SpecTerm SpecList.
Import ListNotations.

(** [list_concat f a b] as a term. *)
Definition concat_term (f a b : term) : term := Node K_EVAL_LIST_CONCAT [f; a; b].

(** (f t1 ... tn) for f with a nil terminator [nl]; [marked]: the terms marked
    :list. *)
Inductive desugar_right (f nl : term) (marked : term -> Prop) : list term -> term -> Prop :=
| dr_last_list : forall t, marked t -> desugar_right f nl marked [t] t
| dr_last : forall t, ~ marked t -> desugar_right f nl marked [t] (app2 f t nl)
| dr_list : forall t ts r, marked t -> desugar_right f nl marked ts r ->
    desugar_right f nl marked (t :: ts) (concat_term f t r)
| dr_cons : forall t ts r, ~ marked t -> desugar_right f nl marked ts r ->
    desugar_right f nl marked (t :: ts) (app2 f t r).
Inductive desugar_left (f nl : term) (marked : term -> Prop) : list term -> term -> Prop :=
| dl_first_list : forall t, marked t -> desugar_left f nl marked [t] t
| dl_first : forall t, ~ marked t -> desugar_left f nl marked [t] (app2 f nl t)
| dl_list : forall t ts r, marked t -> desugar_left f nl marked ts r ->
    desugar_left f nl marked (ts ++ [t]) (concat_term f r t)
| dl_snoc : forall t ts r, ~ marked t -> desugar_left f nl marked ts r ->
    desugar_left f nl marked (ts ++ [t]) (app2 f r t).

(** Number of arguments that are not marked. *)
Inductive unmarked (marked : term -> Prop) : list term -> nat -> Prop :=
| um_nil : unmarked marked [] 0
| um_list : forall t ts n, marked t -> unmarked marked ts n -> unmarked marked (t :: ts) n
| um_cons : forall t ts n, ~ marked t -> unmarked marked ts n -> unmarked marked (t :: ts) (S n).

(** (f t1 ... tn), n >= 2, without nil terminator. *)
Inductive assoc_right (f : term) : list term -> term -> Prop :=
| ar_two : forall x y, assoc_right f [x; y] (app2 f x y)
| ar_cons : forall x ts r, assoc_right f ts r -> assoc_right f (x :: ts) (app2 f x r).
Inductive assoc_left (f : term) : list term -> term -> Prop :=
| al_two : forall x y, assoc_left f [x; y] (app2 f x y)
| al_snoc : forall x ts r, assoc_left f ts r -> assoc_left f (ts ++ [x]) (app2 f r x).

(** Neighbouring pairs, and all pairs i < j in lexicographic order. *)
Definition neighbours (f : term) (ts ps : list term) : Prop :=
  length ps = pred (length ts) /\
  forall i x y, nth_error ts i = Some x -> nth_error ts (S i) = Some y -> nth_error ps i = Some (app2 f x y).
Definition all_pairs (f : term) (ts : list term) : list term :=
  flat_map (fun i => map (fun j => app2 f (nth i ts (Lit (LBool false))) (nth j ts (Lit (LBool false))))
                       (seq (S i) (length ts - S i))) (seq 0 (length ts)).

(** The arguments and the result of a function type; a result of the form
    (eo::requires a b T) counts as T. *)
Inductive required : term -> term -> Prop :=
| rq_here : forall t, tkind t <> K_EVAL_REQUIRES -> required t t
| rq_step : forall a b c cs t, required c t -> required (Node K_EVAL_REQUIRES (a :: b :: c :: cs)) t.
Inductive function_type : term -> list term -> term -> Prop :=
| ft_result : forall t, tkind t <> K_FUNCTION_TYPE -> function_type t [] t
| ft_arrow : forall ts r r' args ret, required r r' -> function_type r' args ret ->
    function_type (Node K_FUNCTION_TYPE (ts ++ [r])) (ts ++ args) ret.

(** [s] gives every variable of [vs] the value at the same position in [ts]; of
    equal variables the last one counts. *)
Definition binds (vs ts : list term) (s : term -> option term) : Prop :=
  forall v, match s v with
            | Some t => exists i, nth_error vs i = Some v /\ nth_error ts i = Some t /\
                forall j, (i < j)%nat -> nth_error vs j <> Some v
            | None => ~ In v vs
            end.

(** The application of [f] to [ts] one by one. *)
Inductive one_by_one (k : kind) (f : term) : list term -> term -> Prop :=
| cu_nil : one_by_one k f [] f
| cu_snoc : forall ts t g, one_by_one k f ts g -> one_by_one k f (ts ++ [t]) (Node k [g; t]).
