(** Building terms: State::mkExpr and the desugaring of variadic applications
    (src/state.cpp). *)
From Coq Require Import ZArith List Bool.
From Verif Require Import Base Kind Ints Str Literal Arity Term Match Eval ListOps Typing.
Import ListNotations.
Open Scope Z_scope.

(** ExprValue::s_null: expr.cpp 24, 40, the value of a null Expr. *)
Definition null_term : term := Node K_NONE [].
Definition or_null (o : option term) : term := match o with Some t => t | None => null_term end.

(** State::mkApplyInternal: state.cpp 1222-1232. *)
Definition mkApplyInternal (children : list term) : res term :=
  match children with
  | [] => UB
  | h :: cs => Ok (fold_left (fun curr c => Node K_APPLY [curr; c]) cs h)
  end.

(** The choice made at state.cpp 653-656, 818-820 and 1209-1213. *)
Definition mkApplyChildren (children : list term) : res term :=
  if (2 <? length children)%nat then mkApplyInternal children else Ok (Node K_APPLY children).

(** Expr::getFunctionType: expr.cpp 173-194.  On a function type without
    children it indexes out of range. *)
Fixpoint strip_requires (fuel : nat) (t : term) : res term :=
  match fuel with
  | O => Fuel
  | S n =>
      match t with
      | Node K_EVAL_REQUIRES cs => let* c := vec_at cs 2 in strip_requires n c
      | _ => Ok t
      end
  end.
Fixpoint getFunctionType_loop (fuel : nat) (t : term) : res (list term * term) :=
  match fuel with
  | O => Fuel
  | S n =>
      match t with
      | Node K_FUNCTION_TYPE cs =>
          match cs with
          | [] => UB
          | _ =>
              let* r := strip_requires (S (tsize t)) (last cs null_term) in
              let* (args, ret) := getFunctionType_loop n r in
              Ok (removelast cs ++ args, ret)
          end
      | _ => Ok ([], t)
      end
  end.
Definition getFunctionType (t : term) : res (list term * term) :=
  getFunctionType_loop (S (tsize t)) t.

(** A symbol created for the occasion at state.cpp 790; [i] tells them apart. *)
Definition dummy (i : nat) : term := Sym K_CONST (- 2 - Z.of_nat i).
(** The environment in which the i-th such symbol has type [ts[i]]. *)
Definition with_dummies (E : env) (ts : list term) : env :=
  mkEnv (e_info E) (e_hash E) (e_bvar E) (e_name E)
    (fun t => match t with
              | Sym K_CONST z => if z <=? -2 then nth_error ts (Z.to_nat (- 2 - z)) else e_symtype E t
              | _ => e_symtype E t
              end)
    (e_littype E) (e_self E) (e_listType E) (e_listCons E) (e_listNil E) (e_proofType E).

Section Build.
Variable E : env.
(** The bound on nested calls in the type checker. *)
Variable n : nat.

Section Attr.
(** mkExpr. *)
Variable mk : kind -> list term -> res term.

(** One step of the loop at state.cpp 1059-1074.  The count is the number of
    children that are not marked :list. *)
Definition assoc_step (isLeft isNil : bool) (hd : term) (s : term * nat) (x : term) : term * nat :=
  let '(curr, nlist) := s in
  let args := if isLeft then [hd; curr; x] else [hd; x; curr] in
  if isNil && attr_eqb (getConstructorKind E x) A_LIST
  then (Node K_EVAL_LIST_CONCAT args, nlist)
  else (if isLeft then mkApply2 hd curr x else mkApply2 hd x curr, S nlist).

(** The associative cases of State::mkApplyAttr: state.cpp 1004-1104. *)
Definition mkApplyAssoc (a : attr) (hd : term) (args : list term) (consTerm : option term)
  : res (option term) :=
  match args with
  | [] => Ok consTerm
  | a1 :: _ =>
      let isLeft := match a with A_LEFT_ASSOC | A_LEFT_ASSOC_NIL | A_LEFT_ASSOC_NS_NIL => true | _ => false end in
      let isNsNil := match a with A_RIGHT_ASSOC_NS_NIL | A_LEFT_ASSOC_NS_NIL => true | _ => false end in
      let isNil := isNsNil || match a with A_RIGHT_ASSOC_NIL | A_LEFT_ASSOC_NIL => true | _ => false end in
      match (if isLeft then args else rev args) with
      | [] => UB
      | first :: others =>
          let addNil := isNil && negb (attr_eqb (getConstructorKind E first) A_LIST) in
          let nl := match consTerm with
                    | None => Node K_EVAL_NIL [hd; Node K_EVAL_TYPE_OF [a1]]
                    | Some c => c
                    end in
          let '(curr, nlist) :=
            if addNil then fold_left (assoc_step isLeft isNil hd) (first :: others) (nl, O)
            else fold_left (assoc_step isLeft isNil hd) others (first, O) in
          if isNsNil && (nlist <? 2)%nat
          then let* r := mk K_EVAL_LIST_SINGLETON_ELIM [hd; curr] in Ok (Some r)
          else Ok (Some curr)
      end
  end.

(** The applications built by the cases CHAINABLE (state.cpp 1112-1118) and
    PAIRWISE (state.cpp 1136-1145). *)
Fixpoint chain (hd : term) (args : list term) : list term :=
  match args with
  | x :: ((y :: _) as rest) => mkApply2 hd x y :: chain hd rest
  | _ => []
  end.
Fixpoint pairwise (hd : term) (args : list term) : list term :=
  match args with
  | x :: rest => map (mkApply2 hd x) rest ++ pairwise hd rest
  | [] => []
  end.
(** state.cpp 1119-1126 and 1146-1153. *)
Definition combine_apps (consTerm : option term) (apps : list term) : res (option term) :=
  match apps with
  | [r] => Ok (Some r)
  | _ => let* r := mk K_APPLY (or_null consTerm :: apps) in Ok (Some r)
  end.

(** State::mkApplyAttr: state.cpp 990-1220. *)
Definition mkApplyAttr (ai : appinfo) (vchildren : list term) (consTerm : option term)
  : res (option term) :=
  match vchildren with
  | [] => UB
  | hd :: args =>
      match ai_cons ai with
      | A_LEFT_ASSOC | A_RIGHT_ASSOC | A_LEFT_ASSOC_NIL | A_RIGHT_ASSOC_NIL
      | A_RIGHT_ASSOC_NS_NIL | A_LEFT_ASSOC_NS_NIL => mkApplyAssoc (ai_cons ai) hd args consTerm
      | A_CHAINABLE => combine_apps consTerm (chain hd args)
      | A_PAIRWISE => combine_apps consTerm (pairwise hd args)
      | A_ARG_LIST =>
          let* argList :=
            match args with
            | [x] =>
                if attr_eqb (getConstructorKind E x) A_LIST then Ok x
                else mk K_APPLY (or_null consTerm :: args)
            | _ => mk K_APPLY (or_null consTerm :: args)
            end in
          Ok (Some (Node K_APPLY [hd; argList]))
      | A_OPAQUE =>
          match ai_cterm ai with
          | Some (Lit (LNum z)) =>
              let nargs := toUnsignedInt z in
              if Z.of_nat (length vchildren) <=? nargs then Ok None
              else
                let k := Z.to_nat nargs in
                let op := fold_left (fun curr c => Node K_APPLY_OPAQUE [curr; c]) (firstn k args) hd in
                match skipn k args with
                | [] => Ok (Some op)
                | rest => let* r := mkApplyChildren (op :: rest) in Ok (Some r)
                end
          | _ => UB   (* reads a numeral from another literal or from no literal *)
          end
      | _ => Ok None
      end
  end.

(** One overload in State::getOverloadInternal: state.cpp 1787-1815.  The
    constructor term is computed with the head of [children], not with the
    overload. *)
Definition try_overload (T : tcfuns) (hd : term) (children : list term)
  : res (option (term * term)) :=
  let vchildren := hd :: tl children in
  let* x :=
    match e_info E hd with
    | None => Ok None
    | Some ai =>
        let* ct := computeConstructorTerm (tc_type T) (tc_eval T) ai children
                     (tc_type T (nth 1 children null_term)) in
        mkApplyAttr ai vchildren ct
    end in
  let* y := match x with Some y => Ok y | None => mkApplyChildren vchildren end in
  let* t := tc_type T y in
  Ok (option_map (fun ty => (y, ty)) t).

(** State::getOverloadInternal: state.cpp 1772-1819; [ov] in the order of the
    search, last one first. *)
Fixpoint getOverload (T : tcfuns) (ov children : list term) (retType : option term) (retApply : bool)
  : res (option term) :=
  match ov with
  | [] => Ok None
  | hd :: ov' =>
      let* r := try_overload T hd children in
      match r with
      | Some (x, ty) =>
          if match retType with None => true | Some rt => term_eqb rt ty end
          then Ok (Some (if retApply then x else hd))
          else getOverload T ov' children retType retApply
      | None => getOverload T ov' children retType retApply
      end
  end.

(** The part of mkExpr for applications that is reached when neither an
    overload nor an attribute decides: state.cpp 688-746. *)
Definition mkExprPlain (T : tcfuns) (children : list term) : res term :=
  match children with
  | [] => UB
  | hd :: args =>
      let plain :=
        match tkind hd with
        | K_PROGRAM_CONST | K_PROOF_RULE => Ok (Node K_APPLY children)
        | _ => mkApplyChildren children
        end in
      match hd with
      | Node K_LAMBDA cs =>
          let* vs := vec_at cs 0 in
          let vars := tchildren vs in
          if Nat.eqb (length vars) (length args)
          then let* body := vec_at cs 1 in
               let* r := tc_eval T body (rev (List.combine vars args)) in Ok (or_null r)
          else plain
      | Sym K_PROGRAM_CONST _ =>
          match getConstructorKind E hd with
          | A_NONE => plain
          | _ =>
              let* t := tc_type T hd in
              if Nat.eqb (length (tchildren (or_null t))) (length children)
              then
                let* r := evaluateProgramInternal (getProgram E) children in
                match r with
                | Some (body, c) => let* v := tc_eval T body c in Ok (or_null v)
                | None => plain
                end
              else plain
          end
      | _ => plain
      end
  end.

(** The part of mkExpr for applications: state.cpp 636-747. *)
Definition mkExprApply (T : tcfuns) (children : list term) : res term :=
  match children with
  | [] => UB
  | hd :: args =>
      match e_info E hd with
      | None => mkExprPlain T children
      | Some ai =>
          match ai_kind ai with
          | K_FUNCTION_TYPE =>
              match args with
              | [] => UB
              | _ => Ok (mkFunctionType (removelast args) (last args null_term))
              end
          | K_APPLY => mkApplyChildren args
          | K_NONE =>
              let* o :=
                match ai_over ai with
                | Some ov => getOverload T (rev ov) children None true
                | None => Ok None
                end in
              match o with
              | Some r => Ok r
              | None =>
                  let* ct := computeConstructorTerm (tc_type T) (tc_eval T) ai children
                               (tc_type T (nth 0 args null_term)) in
                  let* r := mkApplyAttr ai children ct in
                  match r with
                  | Some t => Ok t
                  | None => mkExprPlain T children
                  end
              end
          | k => mk k args
          end
      end
  end.

(** The cases of mkExpr for eo:: operators: state.cpp 748-778. *)
Definition mkExprLitOp (T : tcfuns) (k : kind) (children : list term) : res term :=
  match children with
  | c0 :: c1 :: ((_ :: _) as rest) =>
      if isNaryLiteralOp k then
        let* curr := mk k [c0; c1] in
        fold_left (fun acc c => let* a := acc in mk k [a; c]) rest (Ok curr)
      else if checkArity k (length children) then
        let* r := tc_lop T k children in
        Ok (match r with Some t => t | None => Node k children end)
      else Ok (Node k children)
  | _ =>
      if checkArity k (length children) then
        let* r := tc_lop T k children in
        Ok (match r with Some t => t | None => Node k children end)
      else Ok (Node k children)
  end.
End Attr.

(** State::mkExpr: state.cpp 629-839. *)
Fixpoint mkExpr (fuel : nat) (k : kind) (children : list term) : res term :=
  match fuel with
  | O => Fuel
  | S m =>
      let T := tc E n in
      match k with
      | K_APPLY => mkExprApply (mkExpr m) T children
      | K_AS_RETURN =>
          let* c0 := vec_at children 0 in
          match getConstructorKind E c0 with
          | A_AMB_DATATYPE_CONSTRUCTOR | A_AMB =>
              if Nat.eqb (length children) 2 then Ok (Node K_APPLY_OPAQUE children)
              else Ok (Node k children)
          | _ => Ok (Node k children)
          end
      | K_AS =>
          match children with
          | [c0; c1] =>
              let* (args, ret) := getFunctionType c1 in
              let dummies := map dummy (seq 0 (length args)) in
              let ov := match e_info E c0 with
                        | Some ai => match ai_over ai with Some ov => ov | None => [c0] end
                        | None => [c0]
                        end in
              let* r := getOverload (mkExpr m) (tc (with_dummies E args) n) (rev ov)
                          (c1 :: dummies) (Some ret) false in
              Ok (match r with Some t => t | None => Node k children end)
          | _ => Ok (Node k children)
          end
      | _ => if isLiteralOp k then mkExprLitOp (mkExpr m) T k children else Ok (Node k children)
      end
  end.
End Build.
