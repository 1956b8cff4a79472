(** The evaluator (src/type_checker.cpp 516-852). *)
From Coq Require Import ZArith List Bool.
From Verif Require Import Base Kind Literal Term Match.
Import ListNotations.

(** EvFrame::d_visited: type_checker.cpp 533, a map from terms to [Expr].  The
    null [Expr] (a term whose children are being visited) is [None]. *)
Definition vmap := list (term * option term).
Fixpoint vfind (m : vmap) (t : term) : option (option term) :=
  match m with
  | [] => None
  | (u, v) :: m' => if term_eqb u t then Some v else vfind m' t
  end.

(** EvFrame: type_checker.cpp 517-537.  [fr_visit] has its top first; [fr_result]
    is the path of the node of the trie that d_result points to. *)
Record frame : Type := mkFrame {
  fr_init : term; fr_ctx : ctx; fr_visited : vmap; fr_visit : list term;
  fr_result : option (list term) }.
(** The constructor of EvFrame: type_checker.cpp 520-525. *)
Definition new_frame (e : term) (c : ctx) (r : option (list term)) : frame :=
  mkFrame e c [] [e] r.

(** evalTrie: type_checker.cpp 545, an ExprTrie.  A path whose node has d_data
    set is listed with the data; [None] is the null term (&ExprValue::s_null,
    which is not a null pointer).  The trie itself is modelled in Store.v. *)
Definition trie := list (list term * option term).
Fixpoint path_eqb (a b : list term) : bool :=
  match a, b with
  | [], [] => true
  | x :: a', y :: b' => term_eqb x y && path_eqb a' b'
  | _, _ => false
  end.
Fixpoint tr_find (m : trie) (key : list term) : option (option term) :=
  match m with
  | [] => None
  | (u, v) :: m' => if path_eqb u key then Some v else tr_find m' key
  end.

(** cchildren: type_checker.cpp 636-654.  [None] is a null pointer (child not
    visited yet).  A child that is only marked would be used with the null
    term as its value; that is reported as [UB] here, and it never happens
    (C20). *)
Fixpoint collect (m : vmap) (cs : list term) : res (list (option term)) :=
  match cs with
  | [] => Ok []
  | c :: cs' =>
      match vfind m c with
      | Some (Some v) => let* l := collect m cs' in Ok (Some v :: l)
      | Some None => UB
      | None => let* l := collect m cs' in Ok (None :: l)
      end
  end.
(** Use of all of cchildren; a null pointer among them is dereferenced. *)
Fixpoint all_present (l : list (option term)) : res (list term) :=
  match l with
  | [] => Ok []
  | Some v :: l' => let* r := all_present l' in Ok (v :: r)
  | None :: _ => UB
  end.

(** What the switch of type_checker.cpp 656-741 decides to do. *)
Inductive action : Type :=
| APush (body : term) (c : ctx) (key : list term)   (* newContext *)
| AWait (ts : list term)                            (* !canEvaluate: pushed on visit *)
| AVal (v : option term) (tr : trie).               (* evaluated *)

Section Eval.
(** evaluateLiteralOpInternal (type_checker.cpp 1048-1505) and
    State::getProgram (state.cpp 1584-1592). *)
Variable lop : kind -> list term -> res (option term).
Variable prog : term -> option term.

(** type_checker.cpp 656-741. *)
Definition eval_switch (tr : trie) (k : kind) (cs : list term) (ccs : list (option term))
  : res action :=
  match k with
  | K_APPLY | K_APPLY_OPAQUE =>
      let* vs := all_present ccs in
      let* hd := vec_at vs 0 in
      if kind_eqb (tkind hd) K_PROGRAM_CONST then
        match tr_find tr vs with
        | Some v => Ok (AVal v tr)
        | None =>
            let* r := evaluateProgramInternal prog vs in
            match r with
            | None => Ok (AVal None ((vs, None) :: tr))
            | Some (body, c) =>
                if isGround body || match c with [] => true | _ => false end
                then Ok (AVal (Some body) ((vs, Some body) :: tr))
                else Ok (APush body c vs)
            end
        end
      else Ok (AVal None tr)
  | K_EVAL_IF_THEN_ELSE =>
      let* c0 := vec_at ccs 0 in
      match c0 with
      | None => UB
      | Some (Lit (LBool b)) =>
          let i := if b then 1%nat else 2%nat in
          let* x := vec_at ccs i in
          match x with
          | None => let* c := vec_at cs i in Ok (AWait [c])
          | Some v => Ok (AVal (Some v) tr)
          end
      | Some _ =>
          let* x1 := vec_at ccs 1 in
          let* x2 := vec_at ccs 2 in
          let* c1 := vec_at cs 1 in
          let* c2 := vec_at cs 2 in
          match x1, x2 with
          | None, None => Ok (AWait [c2; c1])
          | None, Some _ => Ok (AWait [c1])
          | Some _, None => Ok (AWait [c2])
          | Some _, Some _ => Ok (AVal None tr)
          end
      end
  | _ =>
      if isLiteralOp k then
        let* vs := all_present ccs in
        let* r := lop k vs in
        Ok (AVal r tr)
      else Ok (AVal None tr)
  end.

(** type_checker.cpp 749-765: without a value, the term is rebuilt if one of
    its children changed. *)
Definition rebuild (cur : term) (vs : list term) : term :=
  if path_eqb (tchildren cur) vs then cur else Node (tkind cur) vs.

Inductive outcome : Type :=
| Done (r : option term)
| Next (st : list frame) (tr : trie).

(** One iteration of the inner loop (type_checker.cpp 564-783), for the top
    frame; plugins are not modelled. *)
Definition inner_step (fr : frame) (below : list frame) (tr : trie)
  (cur : term) (rest : list term) : res outcome :=
  let m := fr_visited fr in
  let upd m' v := mkFrame (fr_init fr) (fr_ctx fr) m' v (fr_result fr) in
  let finish v tr' := Ok (Next (upd ((cur, Some v) :: m) rest :: below) tr') in
  if negb (isEvaluatable cur) &&
     (isGround cur || match fr_ctx fr with [] => true | _ => false end)
  then finish cur tr
  else if kind_eqb (tkind cur) K_PARAM then
    match ctx_find (fr_ctx fr) cur with
    | Some v => finish v tr
    | None => finish cur tr
    end
  else
    let k := tkind cur in
    let cs := tchildren cur in
    match vfind m cur with
    | None =>
        if kind_eqb k K_EVAL_IF_THEN_ELSE then
          if negb (Nat.eqb (length cs) 3) then finish cur tr
          else
            let* c := vec_at cs 0 in
            Ok (Next (upd ((cur, None) :: m) (c :: cur :: rest) :: below) tr)
        else Ok (Next (upd ((cur, None) :: m) (rev cs ++ cur :: rest) :: below) tr)
    | Some None =>
        let* ccs := collect m cs in
        let* a := eval_switch tr k cs ccs in
        match a with
        | APush body c key =>
            Ok (Next (new_frame body c (Some key) :: fr :: below) tr)
        | AWait ts => Ok (Next (upd m (ts ++ cur :: rest) :: below) tr)
        | AVal (Some v) tr' => finish v tr'
        | AVal None tr' => let* vs := all_present ccs in finish (rebuild cur vs) tr'
        end
    | Some (Some _) => Ok (Next (upd m rest :: below) tr)
    end.

(** The end of a frame: type_checker.cpp 785-815.  [d_visited[init]] creates a
    null entry when there is none. *)
Definition end_frame (fr : frame) (below : list frame) (tr : trie) : res outcome :=
  let v := match vfind (fr_visited fr) (fr_init fr) with Some v => v | None => None end in
  let tr' := match fr_result fr with Some key => (key, v) :: tr | None => tr end in
  match below with
  | [] => Ok (Done v)
  | p :: below' =>
      match fr_visit p with
      | [] => UB
      | cur :: rest =>
          Ok (Next (mkFrame (fr_init p) (fr_ctx p) ((cur, v) :: fr_visited p) rest (fr_result p)
                    :: below') tr')
      end
  end.

Definition ev_step (st : list frame) (tr : trie) : res outcome :=
  match st with
  | [] => Ok (Done None)
  | fr :: below =>
      match fr_visit fr with
      | [] => end_frame fr below tr
      | cur :: rest => inner_step fr below tr cur rest
      end
  end.

(** The loops of TypeChecker::evaluate: type_checker.cpp 558-830. *)
Fixpoint ev_run (fuel : nat) (st : list frame) (tr : trie) : res (option term) :=
  match fuel with
  | O => Fuel
  | S n =>
      let* o := ev_step st tr in
      match o with
      | Done r => Ok r
      | Next st' tr' => ev_run n st' tr'
      end
  end.

(** TypeChecker::evaluate: type_checker.cpp 539-833. *)
Definition evaluate (fuel : nat) (e : term) (c : ctx) : res (option term) :=
  ev_run fuel [new_frame e c None] [].

(** TypeChecker::evaluateProgramApp: type_checker.cpp 835-852. *)
Definition evaluateProgramApp (fuel : nat) (args : list term) : res (option term) :=
  let* r := evaluateProgramInternal prog args in
  match r with
  | Some (body, c) => evaluate fuel body c
  | None => Ok (Some (Node K_APPLY args))
  end.
End Eval.
