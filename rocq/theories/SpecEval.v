(** Specification of evaluation: what a term computes to, by recursion on the
    term and without stacks, visited marks, caches or short cuts. *)
From Coq Require Import ZArith List Bool.
From Verif Require Import Base Kind Literal Term SpecTerm.
Import ListNotations.

(** A substitution gives values to parameters. *)
Definition sub := term -> option term.
Definition empty_sub (s : sub) : Prop := forall p, s p = None.

(** Nothing to compute inside; no parameter or wildcard inside. *)
Definition inert (t : term) : Prop := forall u, occurs u t -> ~ computes u.
Definition closed (t : term) : Prop := forall u, occurs u t -> ~ is_param u /\ ~ is_any u.

Definition is_application (k : kind) : Prop := k = K_APPLY \/ k = K_APPLY_OPAQUE.
Definition is_program (t : term) : Prop := exists i, t = Sym K_PROGRAM_CONST i.
Definition is_bool (t : term) : Prop := exists b, t = Lit (LBool b).

(** The case that a list of cases selects for some arguments: the first one
    that has the arguments as an instance.  The search gives up at a case with
    another number of arguments. *)
Inductive selects (args : list term) : list pcase -> option (term * sub) -> Prop :=
| sel_none : selects args [] None
| sel_arity : forall ps rhs cases, length ps <> length args ->
    selects args ((ps, rhs) :: cases) None
| sel_hit : forall ps rhs cases f, exact_instance f ps args ->
    selects args ((ps, rhs) :: cases) (Some (rhs, f))
| sel_next : forall ps rhs cases r, length ps = length args ->
    (forall f, ~ instance f ps args) -> selects args cases r ->
    selects args ((ps, rhs) :: cases) r.

Section SpecEval.
(** The built-in operators and the cases of the defined programs. *)
Variable lop : kind -> list term -> res (option term).
Variable progs : term -> option (list pcase).
(** Right hand sides that are returned without evaluating them. *)
Variable stop : term -> sub -> Prop.

(** What a program does with evaluated arguments: nothing (it is stuck) or
    continue with the right hand side of a case. *)
Inductive calls (hd : term) (args : list term) : option (term * sub) -> Prop :=
| call_stuck : ~ (Forall closed args /\ Forall inert args) -> calls hd args None
| call_undefined : Forall closed args -> Forall inert args -> progs hd = None ->
    calls hd args None
| call_case : forall cases r, Forall closed args -> Forall inert args ->
    progs hd = Some cases -> selects args cases r -> calls hd args r.

(** [ev lop progs stop s t r]: the term [t] evaluates to [r] where parameters have the values
    given by [s]. *)
Inductive ev : sub -> term -> term -> Prop :=
| ev_param : forall s i,
    ev s (Sym K_PARAM i) (match s (Sym K_PARAM i) with Some v => v | None => Sym K_PARAM i end)
| ev_const : forall s t, tchildren t = [] -> ~ is_param t -> ev s t t
| ev_ite_odd : forall s cs, length cs <> 3%nat ->
    ev s (Node K_EVAL_IF_THEN_ELSE cs) (Node K_EVAL_IF_THEN_ELSE cs)
| ev_ite_true : forall s c a b r,
    ev s c (Lit (LBool true)) -> ev s a r -> ev s (Node K_EVAL_IF_THEN_ELSE [c; a; b]) r
| ev_ite_false : forall s c a b r,
    ev s c (Lit (LBool false)) -> ev s b r -> ev s (Node K_EVAL_IF_THEN_ELSE [c; a; b]) r
| ev_ite_stuck : forall s c a b c' a' b',
    ev s c c' -> ~ is_bool c' -> ev s a a' -> ev s b b' ->
    ev s (Node K_EVAL_IF_THEN_ELSE [c; a; b]) (Node K_EVAL_IF_THEN_ELSE [c'; a'; b'])
| ev_call_run : forall s k cs hd args body f r, is_application k ->
    evs s cs (hd :: args) -> is_program hd -> calls hd args (Some (body, f)) ->
    ~ stop body f -> ev f body r -> ev s (Node k cs) r
| ev_call_done : forall s k cs hd args body f, is_application k ->
    evs s cs (hd :: args) -> is_program hd -> calls hd args (Some (body, f)) ->
    stop body f -> ev s (Node k cs) body
| ev_call_stuck : forall s k cs hd args, is_application k ->
    evs s cs (hd :: args) -> is_program hd -> calls hd args None ->
    ev s (Node k cs) (Node k (hd :: args))
| ev_apply : forall s k cs hd args, is_application k ->
    evs s cs (hd :: args) -> ~ is_program hd -> ev s (Node k cs) (Node k (hd :: args))
| ev_op : forall s k cs ds r, isLiteralOp k = true -> k <> K_EVAL_IF_THEN_ELSE -> cs <> [] ->
    evs s cs ds -> lop k ds = Ok (Some r) -> ev s (Node k cs) r
| ev_op_stuck : forall s k cs ds, isLiteralOp k = true -> k <> K_EVAL_IF_THEN_ELSE -> cs <> [] ->
    evs s cs ds -> lop k ds = Ok None -> ev s (Node k cs) (Node k ds)
| ev_other : forall s k cs ds, isLiteralOp k = false -> ~ is_application k -> cs <> [] ->
    evs s cs ds -> ev s (Node k cs) (Node k ds)
with evs : sub -> list term -> list term -> Prop :=
| evs_nil : forall s, evs s [] []
| evs_cons : forall s c cs d ds, ev s c d -> evs s cs ds -> evs s (c :: cs) (d :: ds).

(** What the operators and programs must satisfy: they are built from
    well-formed terms. *)
Definition lop_wf : Prop := forall k ds r, Forall twf ds -> lop k ds = Ok (Some r) -> twf r.
Definition progs_wf : Prop := forall hd cases, progs hd = Some cases ->
  Forall (fun pc => Forall twf (fst pc) /\ twf (snd pc)) cases.
Definition sub_wf (s : sub) : Prop := forall p v, s p = Some v -> twf v.
End SpecEval.

(** The right hand sides that the code returns as they are: without a parameter
    inside, or when the case has no parameters. *)
Definition shortcut (body : term) (f : sub) : Prop := closed body \/ empty_sub f.
(** None, as the manual says: "the returned term is evaluated". *)
Definition never (body : term) (f : sub) : Prop := False.

(** Every right hand side has nothing to compute or uses a parameter of its
    patterns. *)
Definition rhs_live (pc : pcase) : Prop :=
  inert (snd pc) \/
  exists p q, is_param p /\ occurs p (snd pc) /\ In q (fst pc) /\ occurs p q.
