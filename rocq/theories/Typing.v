(** The type checker: operators and types (src/type_checker.cpp).

    getType, evaluateLiteralOpInternal, computeConstructorTermInternal and
    evaluate call each other.  Each is written here as a function of the others
    ([gt], [evl]) and the knot is tied by recursion on a bound, [tc] below. *)
From Coq Require Import ZArith List Bool.
From Verif Require Import Base Kind Ints Str Literal Arity Term Match Eval ListOps.
Import ListNotations.
Open Scope Z_scope.

(** AppInfo: expr_info.h 26-49.  [ai_over] is State::d_overloads of
    d_overloadName if d_isOverloaded. *)
Record appinfo : Type := mkInfo {
  ai_cons : attr; ai_cterm : option term; ai_kind : kind; ai_over : option (list term) }.

(** The parts of State that the type checker reads.
    - [e_info]: d_appData (state.h), State::getAppInfo: state.cpp 1634-1653;
    - [e_hash]: State::getHash, state.cpp 1606-1617; numbers are handed out on
      demand, [e_hash] is the assignment at the end of the run (C30);
    - [e_bvar]: State::getBoundVar, state.cpp 1354-1372, for ground types;
      variables are created on demand (C31);
    - [e_name]: the name of a symbol;
    - [e_symtype]: State::d_typeCache for symbols, set by mkSymbolInternal
      (state.cpp 603-627);
    - [e_littype]: TypeChecker::d_literalTypeRules;
    - the built-in symbols of state.cpp 167-194. *)
Record env : Type := mkEnv {
  e_info : term -> option appinfo;
  e_hash : term -> Z;
  e_bvar : text -> term -> term;
  e_name : term -> text;
  e_symtype : term -> option term;
  e_littype : kind -> option term;
  e_self : term; e_listType : term; e_listCons : term; e_listNil : term;
  e_proofType : term }.

(** d_type, d_boolType, d_any: state.cpp 167-189. *)
Definition t_Type : term := Node K_TYPE [].
Definition t_Bool : term := Node K_BOOL_TYPE [].
Definition t_Any : term := Node K_ANY [].

(** State::mkFunctionType: state.cpp 516-533. *)
Definition mkFunctionType (args : list term) (ret : term) : term :=
  fold_right (fun a r => Node K_FUNCTION_TYPE [a; r]) ret args.

(** TypeChecker::match with the set of visited pairs of the caller:
    type_checker.cpp 430-515; as [match_loop] of Match.v, but with the context
    that is left behind on failure and with the visited pairs. *)
Fixpoint matchv_loop (fuel : nat) (stack visited : list (term * term)) (c : ctx)
  : res (bool * ctx * list (term * term)) :=
  match fuel with
  | O => Fuel
  | S n =>
      match stack with
      | [] => Ok (true, c, visited)
      | (a, b) :: rest =>
          if isGround a then
            if term_eqb a b then matchv_loop n rest visited c else Ok (false, c, visited)
          else if mem_pair a b visited then matchv_loop n rest visited c
          else
            let visited' := (a, b) :: visited in
            match tchildren a with
            | [] =>
                if kind_eqb (tkind a) K_PARAM then
                  match ctx_find c a with
                  | None => matchv_loop n rest visited' (ctx_emplace c a b)
                  | Some v => if term_eqb v b then matchv_loop n rest visited' c
                              else Ok (false, c, visited')
                  end
                else Ok (false, c, visited')
            | cs =>
                let ds := tchildren b in
                if negb (Nat.eqb (length cs) (length ds)) || negb (kind_eqb (tkind a) (tkind b))
                then Ok (false, c, visited')
                else matchv_loop n (rev (combine cs ds) ++ rest) visited' c
            end
      end
  end.
Definition matchv (a b : term) (c : ctx) (visited : list (term * term)) :=
  matchv_loop (S (tsize a)) [(a, b)] visited c.

Section TypeChecker.
Variable E : env.
(** getType and evaluate. *)
Variable gt : term -> res (option term).
Variable evl : term -> ctx -> res (option term).

(** State::getConstructorKind: state.cpp 1333-1341. *)
Definition getConstructorKind (t : term) : attr :=
  match e_info E t with Some ai => ai_cons ai | None => A_NONE end.

(** TypeChecker::getOrSetLiteralTypeRule: type_checker.cpp 60-89.  Setting the
    rule to [t_Any] (mkBuiltinType: state.cpp 586-590) when there is none does
    not change later answers. *)
Definition getLiteralTypeRule (k : kind) (self : option term) : res (option term) :=
  let tp := match e_littype E k with Some t => t | None => t_Any end in
  if negb (isGround tp)
  then evl tp [(e_self E, match self with Some s => s | None => t_Any end)]
  else Ok (Some tp).

(** The loop over the arguments in getTypeAppInternal: type_checker.cpp
    359-417.  [hts]: the argument types of the head; [cs]: the arguments;
    [cts]: their types.  Simplified: the type of a quoted term is computed
    rather than looked up in the cache. *)
Fixpoint type_args (hts cs cts : list term) (c : ctx) (visited : list (term * term))
  : res (bool * ctx) :=
  match hts, cs, cts with
  | hdt :: hts', x :: cs', ct :: cts' =>
      match hdt with
      | Node K_QUOTE_TYPE qs =>
          let* q := vec_at qs 0 in
          let* cte := gt q in
          match cte with
          | Some te =>
              if term_eqb ct te then
                let* (ok, c', v') := matchv q x c visited in
                if ok : bool then type_args hts' cs' cts' c' v' else Ok (false, c')
              else Ok (false, c)
          | None => Ok (false, c)
          end
      | _ =>
          let* (ok, c', v') := matchv hdt ct c visited in
          if ok : bool then type_args hts' cs' cts' c' v' else Ok (false, c')
      end
  | _, _, _ => Ok (true, c)
  end.

(** TypeChecker::getTypeAppInternal: type_checker.cpp 327-422.  [ts]: the types
    of [children].  Returns the context as well. *)
Definition getTypeAppInternal (children ts : list term) : res (option term * ctx) :=
  let* hdType := vec_at ts 0 in
  match tkind hdType with
  | K_FUNCTION_TYPE | K_PROGRAM_TYPE =>
      let hdtypes := tchildren hdType in
      if negb (Nat.eqb (length hdtypes) (length children)) then Ok (None, [])
      else
        let* (ok, c) := type_args (removelast hdtypes) (tl children) (tl ts) [] [] in
        if ok : bool then
          match hdtypes with
          | [] => UB
          | _ => let* r := evl (last hdtypes t_Any) c in Ok (r, c)
          end
        else Ok (None, c)
  | _ => Ok (None, [])
  end.

(** TypeChecker::getLiteralOpType: type_checker.cpp 1711-1798. *)
Definition getLiteralOpType (k : kind) (children ts : list term) : res (option term) :=
  if negb (checkArity k (length ts)) then Ok None
  else
    let child i := let* t := vec_at children i in Ok (Some t) in
    let ctype i := let* t := vec_at ts i in Ok (Some t) in
    match k with
    | K_EVAL_TYPE_OF => Ok (Some t_Type)
    | K_EVAL_VAR | K_EVAL_NIL => child 1%nat
    | K_EVAL_ADD | K_EVAL_MUL | K_EVAL_NEG | K_EVAL_AND | K_EVAL_OR | K_EVAL_XOR | K_EVAL_NOT =>
        ctype 0%nat
    | K_EVAL_IF_THEN_ELSE | K_EVAL_CONS => ctype 1%nat
    | K_EVAL_REQUIRES => ctype 2%nat
    | K_EVAL_LIST_CONCAT | K_EVAL_LIST_NTH | K_EVAL_LIST_ERASE | K_EVAL_LIST_ERASE_ALL
    | K_EVAL_LIST_REV | K_EVAL_LIST_SETOF | K_EVAL_LIST_DIFF | K_EVAL_LIST_INTER
    | K_EVAL_LIST_SINGLETON_ELIM => ctype 1%nat
    | K_EVAL_CONCAT | K_EVAL_EXTRACT => ctype 0%nat
    | K_EVAL_IS_OK | K_EVAL_IS_EQ | K_EVAL_EQ | K_EVAL_IS_NEG | K_EVAL_COMPARE
    | K_EVAL_IS_Z | K_EVAL_IS_Q | K_EVAL_IS_BIN | K_EVAL_IS_STR | K_EVAL_IS_BOOL
    | K_EVAL_IS_VAR | K_EVAL_GT | K_EVAL_LIST_MINCLUDE | K_EVAL_LIST_MEQ => Ok (Some t_Bool)
    | K_EVAL_HASH | K_EVAL_INT_DIV | K_EVAL_INT_MOD | K_EVAL_TO_INT | K_EVAL_LENGTH
    | K_EVAL_FIND | K_EVAL_LIST_LENGTH | K_EVAL_LIST_FIND => getLiteralTypeRule K_NUMERAL None
    | K_EVAL_RAT_DIV | K_EVAL_TO_RAT => getLiteralTypeRule K_RATIONAL None
    | K_EVAL_NAME_OF | K_EVAL_TO_STRING => getLiteralTypeRule K_STRING None
    | K_EVAL_TO_BIN => getLiteralTypeRule K_BINARY None
    | K_EVAL_DT_CONSTRUCTORS | K_EVAL_DT_SELECTORS => Ok (Some (e_listType E))
    | _ => Ok None
    end.

(** Types of a list of terms, the last one first (getType pushes the children
    on its stack in order). *)
Fixpoint types_of (cs : list term) : res (option (list term)) :=
  match cs with
  | [] => Ok (Some [])
  | c :: cs' =>
      let* r := types_of cs' in
      match r with
      | None => Ok None
      | Some ts =>
          let* t := gt c in
          match t with
          | None => Ok None
          | Some ty => Ok (Some (ty :: ts))
          end
      end
  end.

(** TypeChecker::getTypeInternal: type_checker.cpp 222-322.  [ts]: the types of
    the children, which getType has computed before. *)
Definition getTypeInternal (t : term) (ts : list term) : res (option term) :=
  let k := tkind t in
  match k with
  | K_APPLY | K_APPLY_OPAQUE =>
      let* (r, _) := getTypeAppInternal (tchildren t) ts in Ok r
  | K_LAMBDA =>
      let* vs := vec_at (tchildren t) 0 in
      let* r := types_of (tchildren vs) in
      match r with
      | None => UB
      | Some args => let* ret := vec_at ts 1 in Ok (Some (mkFunctionType args ret))
      end
  | K_TYPE | K_BOOL_TYPE | K_FUNCTION_TYPE | K_PROGRAM_TYPE | K_ANY => Ok (Some t_Type)
  | K_PROOF =>
      let* ct := vec_at ts 0 in
      if kind_eqb (tkind ct) K_BOOL_TYPE then Ok (Some (e_proofType E)) else Ok None
  | K_QUOTE_TYPE | K_TUPLE => Ok (Some t_Any)
  | K_BOOLEAN => Ok (Some t_Bool)
  | K_NUMERAL | K_DECIMAL | K_RATIONAL | K_HEXADECIMAL | K_BINARY | K_STRING =>
      getLiteralTypeRule k (Some t)
  | K_AS | K_AS_RETURN => Ok None
  | K_PARAMETERIZED => let* ty := vec_at ts 1 in Ok (Some ty)
  | _ => if isLiteralOp k then getLiteralOpType k (tchildren t) ts else Ok None
  end.

(** TypeChecker::getType: type_checker.cpp 91-145.  Simplified: without the
    cache, which for everything but symbols only avoids repeated work. *)
Definition getType (t : term) : res (option term) :=
  match t with
  | Sym _ _ => Ok (e_symtype E t)
  | _ =>
      let* r := types_of (tchildren t) in
      match r with
      | None => Ok None
      | Some ts =>
          let* ty := getTypeInternal t ts in
          match ty with
          | None => Ok None
          | Some ty => if isGround ty && isEvaluatable ty then Ok None else Ok (Some ty)
          end
      end
  end.

(** The loop over the parameters in computeConstructorTermInternal:
    type_checker.cpp 1855-1873. *)
Definition params_ground (c : ctx) (ps : list term) : bool :=
  forallb (fun p => match ctx_find c p with Some v => isGround v | None => false end) ps.

(** TypeChecker::computeConstructorTermInternal: type_checker.cpp 1800-1878.
    [ty1]: the type of children[1]. *)
Definition computeConstructorTerm (ai : appinfo) (children : list term)
  (ty1 : res (option term)) : res (option term) :=
  match ai_cterm ai with
  | None => Ok None
  | Some ct =>
      if negb (kind_eqb (tkind ct) K_PARAMETERIZED) then Ok (Some ct)
      else
        match children with
        | hd :: c1 :: _ =>
            if negb (isNAryAttr (ai_cons ai)) then Ok None
            else
              let* thd := gt hd in
              match thd with
              | None => Ok None
              | Some th =>
                  let* tc1 := ty1 in
                  match tc1 with
                  | None => Ok None
                  | Some t1 =>
                      let* (_, c) := getTypeAppInternal [hd; c1] [th; t1] in
                      let* ps := vec_at (tchildren ct) 0 in
                      if negb (params_ground c (tchildren ps)) then Ok None
                      else let* body := vec_at (tchildren ct) 1 in evl body c
                  end
              end
        | _ => Ok None
        end
  end.

(** The test of type_checker.cpp 1303-1314: all arguments are literals. *)
Fixpoint all_literals (args : list term) : option (list literal) :=
  match args with
  | [] => Some []
  | Lit l :: args' => option_map (cons l) (all_literals args')
  | _ => None
  end.

(** State::mkList (state.cpp 877-888) on terms that are not :list parameters:
    through mkExpr and mkApplyAttr this is the right-associative list. *)
Definition mkList (args : list term) : term :=
  prependNAryChildren (e_listCons E) (e_listNil E) args false.

(** The head of a curried application: type_checker.cpp 1266-1269. *)
Fixpoint app_head (t : term) : res term :=
  match t with
  | Node K_APPLY cs => match cs with [] => UB | c :: _ => app_head c end
  | _ => Ok t
  end.

(** The placeholder symbol "tmp" of type_checker.cpp 1361. *)
Definition tmp_sym : term := Sym K_CONST (-1).

(** EVAL_DT_CONSTRUCTORS: type_checker.cpp 1257-1300. *)
Definition evaluateDtConstructors (args : list term) : res (option term) :=
  let* a0 := vec_at args 0 in
  let* isParam :=
    if kind_eqb (tkind a0) K_APPLY then
      let* t := gt a0 in
      Ok (match t with Some ty => term_eqb ty t_Type | None => false end)
    else Ok false in
  let* sym := if isParam : bool then app_head a0 else Ok a0 in
  match e_info E sym with
  | Some ai =>
      match ai_cons ai with
      | A_DATATYPE =>
          if isParam then
            match ai_cterm ai with
            | None => Ok (Some (e_listNil E))   (* the null term is not an application *)
            | Some l =>
                let* h := getNAryChildren l (e_listCons E) None false in
                match h with
                | None => Ok None
                | Some cargs =>
                    Ok (Some (mkList (map (fun c =>
                      match getConstructorKind c with
                      | A_AMB_DATATYPE_CONSTRUCTOR => Node K_APPLY_OPAQUE [c; a0]
                      | _ => c
                      end) cargs)))
                end
            end
          else Ok (ai_cterm ai)
      | _ => Ok None
      end
  | None => Ok None
  end.

(** EVAL_DT_SELECTORS: type_checker.cpp 1236-1256. *)
Definition evaluateDtSelectors (args : list term) : res (option term) :=
  let* a0 := vec_at args 0 in
  let* sym := match a0 with Node K_APPLY_OPAQUE cs => vec_at cs 0 | _ => Ok a0 end in
  match e_info E sym with
  | Some ai =>
      match ai_cons ai with
      | A_DATATYPE_CONSTRUCTOR | A_AMB_DATATYPE_CONSTRUCTOR => Ok (ai_cterm ai)
      | _ => Ok None
      end
  | None => Ok None
  end.

(** The last part of evaluateLiteralOpInternal: type_checker.cpp 1301-1505. *)
Definition evaluateLitTail (k : kind) (args : list term) : res (option term) :=
  match all_literals args with
  | Some lits =>
      if negb (checkArity k (length args)) then Ok None
      else
        let* r := Literal.evaluate k lits in
        Ok (option_map Lit r)
  | None =>
      if negb (isListLiteralOp k) then Ok None
      else
        let* a0 := vec_at args 0 in
        let* op := match a0 with Node K_PARAMETERIZED cs => vec_at cs 1 | _ => Ok a0 end in
        match e_info E op with
        | None => Ok None
        | Some ai =>
            if negb (isListNilAttr (ai_cons ai)) then Ok None
            else
              let isLeft := match ai_cons ai with
                            | A_LEFT_ASSOC_NIL | A_LEFT_ASSOC_NS_NIL => true | _ => false end in
              if kind_eqb k K_EVAL_NIL then
                let* a1 := vec_at args 1 in
                computeConstructorTerm ai [a0; tmp_sym] (Ok (Some a1))
              else
                match args with
                | _ :: a1 :: _ =>
                    let* nl := computeConstructorTerm ai [a0; a1] (gt a1) in
                    match nl with
                    | None => Ok None
                    | Some n => evaluateListOp k op n isLeft args
                    end
                | _ => Ok None
                end
        end
  end.

(** A boolean result. *)
Definition ret_bool (b : bool) : res (option term) := Ok (Some (Lit (LBool b))).

(** TypeChecker::evaluateLiteralOpInternal: type_checker.cpp 1048-1505. *)
Definition evaluateLiteralOp (k : kind) (args : list term) : res (option term) :=
  match k with
  | K_EVAL_IF_THEN_ELSE =>
      let* a0 := vec_at args 0 in
      match a0 with
      | Lit (LBool b) =>
          let* r := vec_at args (if b then 1%nat else 2%nat) in Ok (Some r)
      | _ => Ok None
      end
  | K_EVAL_REQUIRES =>
      let* a0 := vec_at args 0 in
      if isGround a0 && negb (isEvaluatable a0) then
        let* a1 := vec_at args 1 in
        if isGround a1 && negb (isEvaluatable a1) && term_eqb a0 a1
        then let* a2 := vec_at args 2 in Ok (Some a2)
        else Ok None
      else Ok None
  | _ =>
      if negb (forallb isGround args) then Ok None
      else
        match k with
        | K_EVAL_IS_OK =>
            let* a0 := vec_at args 0 in ret_bool (negb (isEvaluatable a0))
        | K_EVAL_IS_EQ =>
            let* a0 := vec_at args 0 in
            if isEvaluatable a0 then ret_bool false
            else
              let* a1 := vec_at args 1 in
              ret_bool (negb (isEvaluatable a1) && term_eqb a0 a1)
        | K_EVAL_EQ =>
            let* a0 := vec_at args 0 in
            if isEvaluatable a0 then Ok None
            else
              let* a1 := vec_at args 1 in
              if isEvaluatable a1 then Ok None else ret_bool (term_eqb a0 a1)
        | K_EVAL_HASH =>
            let* a0 := vec_at args 0 in
            if isEvaluatable a0 then Ok None
            else Ok (Some (Lit (LNum (u32 (e_hash E a0)))))
        | K_EVAL_COMPARE =>
            let* a0 := vec_at args 0 in
            if isEvaluatable a0 then Ok None
            else
              let* a1 := vec_at args 1 in
              if isEvaluatable a1 then Ok None
              else ret_bool (e_hash E a1 <? e_hash E a0)
        | K_EVAL_IS_Z => let* a0 := vec_at args 0 in ret_bool (kind_eqb (tkind a0) K_NUMERAL)
        | K_EVAL_IS_Q => let* a0 := vec_at args 0 in ret_bool (kind_eqb (tkind a0) K_RATIONAL)
        | K_EVAL_IS_BIN => let* a0 := vec_at args 0 in ret_bool (kind_eqb (tkind a0) K_BINARY)
        | K_EVAL_IS_STR => let* a0 := vec_at args 0 in ret_bool (kind_eqb (tkind a0) K_STRING)
        | K_EVAL_IS_BOOL => let* a0 := vec_at args 0 in ret_bool (kind_eqb (tkind a0) K_BOOLEAN)
        | K_EVAL_IS_VAR => let* a0 := vec_at args 0 in ret_bool (kind_eqb (tkind a0) K_VARIABLE)
        | K_EVAL_TYPE_OF =>
            let* a0 := vec_at args 0 in
            if isEvaluatable a0 then evaluateLitTail k args
            else
              let* et := gt a0 in
              match et with
              | None => Ok None   (* the null term is ground *)
              | Some ty => if isGround ty then Ok (Some ty) else evaluateLitTail k args
              end
        | K_EVAL_NAME_OF =>
            let* a0 := vec_at args 0 in
            match tkind a0 with
            | K_CONST | K_VARIABLE => Ok (Some (Lit (LStr (str_ofText false (e_name E a0)))))
            | _ => evaluateLitTail k args
            end
        | K_EVAL_VAR =>
            let* a0 := vec_at args 0 in
            match a0 with
            | Lit (LStr s) =>
                let* a1 := vec_at args 1 in
                if isEvaluatable a1 then evaluateLitTail k args
                else
                  let* ty1 := gt a1 in
                  match ty1 with
                  | Some ty =>
                      if kind_eqb (tkind ty) K_TYPE
                      then Ok (Some (e_bvar E (str_toText s) a1))
                      else evaluateLitTail k args
                  | None => evaluateLitTail k args
                  end
            | _ => evaluateLitTail k args
            end
        | K_EVAL_DT_SELECTORS => evaluateDtSelectors args
        | K_EVAL_DT_CONSTRUCTORS => evaluateDtConstructors args
        | _ => evaluateLitTail k args
        end
  end.
End TypeChecker.

(** State::getProgram: state.cpp 1584-1592. *)
Definition getProgram (E : env) (hd : term) : option term :=
  match e_info E hd with
  | Some ai => match ai_cons ai with A_PROGRAM => ai_cterm ai | _ => None end
  | None => None
  end.

(** The knot: getType, evaluateLiteralOpInternal and evaluate with at most [n]
    nested calls. *)
Record tcfuns : Type := mkTc {
  tc_type : term -> res (option term);
  tc_lop : kind -> list term -> res (option term);
  tc_eval : term -> ctx -> res (option term) }.
Fixpoint tc (E : env) (n : nat) : tcfuns :=
  match n with
  | O => mkTc (fun _ => Fuel) (fun _ _ => Fuel) (fun _ _ => Fuel)
  | S n' =>
      let p := tc E n' in
      mkTc (getType E (tc_type p) (tc_eval p))
           (evaluateLiteralOp E (tc_type p) (tc_eval p))
           (Eval.evaluate (tc_lop p) (getProgram E) n')
  end.
