(** The commands (src/cmd_parser.cpp), the steps of a proof and the inclusion of
    files (src/state.cpp), and the program itself (src/main.cpp). *)
From Coq Require Import String ZArith List Bool.
From Verif Require Import Base Kind Ints Str Literal Arity Term Match Eval ListOps Typing Build Scope Lexer Parse.
Import ListNotations.
Open Scope Z_scope.

(* ------------------------------------------------------------------ *)
(** * Commands *)

(** The tokens for commands: tokens.h 50-90. *)
Inductive command : Type :=
| C_DECLARE_CONST | C_DECLARE_DATATYPE | C_DECLARE_DATATYPES | C_DECLARE_SORT | C_ECHO | C_EXIT
| C_SET_OPTION | C_POP | C_PUSH | C_RESET
| C_ASSERT | C_DECLARE_FUN | C_DEFINE_CONST | C_DEFINE_FUN | C_DEFINE_SORT | C_CHECK_SAT
| C_CHECK_SAT_ASSUMING | C_SET_LOGIC | C_SET_INFO
| C_ASSUME | C_ASSUME_PUSH | C_DECLARE_CONSTS | C_DECLARE_PARAMETERIZED_CONST | C_DECLARE_RULE
| C_DEFINE | C_INCLUDE | C_PROGRAM | C_REFERENCE | C_STEP | C_STEP_POP.

(** CmdParser::CmdParser: cmd_parser.cpp 36-75. *)
Definition commandTable (isReference : bool) : list (text * command) :=
  map (fun p => (txt (fst p), snd p))
  ([("declare-const"%string, C_DECLARE_CONST); ("declare-datatype"%string, C_DECLARE_DATATYPE);
    ("declare-datatypes"%string, C_DECLARE_DATATYPES); ("declare-sort"%string, C_DECLARE_SORT);
    ("echo"%string, C_ECHO); ("exit"%string, C_EXIT); ("set-option"%string, C_SET_OPTION);
    ("pop"%string, C_POP); ("push"%string, C_PUSH); ("reset"%string, C_RESET)] ++
   if isReference then
   [("assert"%string, C_ASSERT); ("declare-fun"%string, C_DECLARE_FUN); ("define-const"%string, C_DEFINE_CONST);
    ("define-fun"%string, C_DEFINE_FUN); ("define-sort"%string, C_DEFINE_SORT); ("check-sat"%string, C_CHECK_SAT);
    ("check-sat-assuming"%string, C_CHECK_SAT_ASSUMING); ("set-logic"%string, C_SET_LOGIC);
    ("set-info"%string, C_SET_INFO)]
   else
   [("assume"%string, C_ASSUME); ("assume-push"%string, C_ASSUME_PUSH); ("declare-consts"%string, C_DECLARE_CONSTS);
    ("declare-parameterized-const"%string, C_DECLARE_PARAMETERIZED_CONST); ("declare-rule"%string, C_DECLARE_RULE);
    ("define"%string, C_DEFINE); ("include"%string, C_INCLUDE); ("program"%string, C_PROGRAM);
    ("reference"%string, C_REFERENCE); ("step"%string, C_STEP); ("step-pop"%string, C_STEP_POP)]).

Section Check.
Variable G : config.

Notation mkE := (mkE G).
Notation typeCheck := (typeCheck G).
Notation typeCheckAs := (typeCheckAs G).
Notation env_of := (env_of G).

(** State::getAssumptionLevel: state.cpp 1594-1597. *)
Definition levelM : M nat := let! s := mget in mret (length (s_asmctx s)).
(** null if there is none *)
Definition is_null (t : term) : bool := kind_eqb (tkind t) K_NONE.

(* ------------------------------------------------------------------ *)
(** * Assumptions *)

(** State::pushAssumptionScope: state.cpp 264-270. *)
Definition pushAssumptionScope : M unit :=
  pushM ;; mupd (fun s => set_asmctx (length (s_asm s) :: s_asmctx s) s).
(** State::popAssumptionScope: state.cpp 272-280; back() of an empty vector. *)
Definition popAssumptionScope : M unit :=
  let! s := mget in
  match s_asmctx s with
  | [] => mlift UB
  | lastSize :: ctx =>
      mupd (fun s => set_asmctx ctx (set_asm (firstn lastSize (s_asm s)) s)) ;; popM
  end.
(** State::notifyAssume: state.cpp 1385-1395. *)
Definition notifyAssume (isPush : bool) : M unit := if isPush then pushAssumptionScope else mret tt.
(** The normal form of a formula for comparison with the reference:
    state.cpp 460-464, 473-477. *)
Definition normalForm (a : term) : M term :=
  let! s := mget in
  if is_null (s_refNf s) then mret a else mkE K_APPLY [s_refNf s; a].
(** State::addAssumption: state.cpp 452-469. *)
Definition addAssumption (a : term) : M bool :=
  mupd (fun s => set_asm (s_asm s ++ [a]) s) ;;
  let! s := mget in
  if s_hasRef s then
    match s_asmctx s with
    | [] => let! aa := normalForm a in mret (existsb (term_eqb aa) (s_refs s))
    | _ => mret true
    end
  else mret true.
(** State::addReferenceAssert: state.cpp 471-481. *)
Definition addReferenceAssert (a : term) : M unit :=
  let! aa := normalForm a in
  mupd (fun s => set_refs (aa :: s_refs s) s) ;; logEvent (EvAssert a).
(** State::getCurrentAssumptions: state.cpp 1599-1604. *)
Definition currentAssumptions (s : st) : list term :=
  skipn (match s_asmctx s with [] => O | n :: _ => n end) (s_asm s).

(* ------------------------------------------------------------------ *)
(** * Steps *)

(** The collection of the premises for :premise-list: state.cpp 1489-1529. *)
Fixpoint premise_formulas (premises : list term) : res (option (list term)) :=
  match premises with
  | [] => Ok (Some [])
  | e :: ps =>
      if kind_eqb (tkind e) K_PROOF then
        let* f := vec_at (tchildren e) 0 in
        let* r := premise_formulas ps in
        Ok (option_map (cons f) r)
      else Ok None
  end.
Definition collectPremises (plCons : term) (premises : list term) : M (option term) :=
  let! fs := mlift (premise_formulas premises) in
  match fs with
  | None => mret None
  | Some [] =>
      let! s := mget in
      match e_info (env_of s) plCons with
      | None => mlift UB
      | Some ai => if isListNilAttr (ai_cons ai) then mret (Some (or_null (ai_cterm ai))) else mret None
      end
  | Some fs => let! ap := mkE K_APPLY (plCons :: fs) in mret (Some ap)
  end.

(** State::notifyStep: state.cpp 1397-1582, without a plugin.  [None]: the result
    false.  The second call, which only makes the error message, is left out.
    Result: the conclusion and, for step-pop, the assumption. *)
Definition notifyStep (rule proven : term) (premises args : list term) (isPop : bool)
  : M (option (term * option term)) :=
  let! s := mget in
  match e_info (env_of s) rule with
  | None => mret None
  | Some ai =>
      let tup := tchildren (or_null (ai_cterm ai)) in
      let! prog := mlift (vec_at tup 3) in
      let! t0 := mlift (vec_at tup 0) in
      let! t1 := mlift (vec_at tup 1) in
      let! t2 := mlift (vec_at tup 2) in
      let isAssume := term_eqb t1 (Lit (LBool true)) in
      let isConcExplicit := term_eqb t2 (Lit (LBool true)) in
      if isConcExplicit && is_null proven then mret None
      else
        let conc := if isConcExplicit then [proven] else [] in
        if Bool.eqb isPop isAssume then
          let! asm := if isPop then let! a := mlift (vec_at (currentAssumptions s) 0) in mret (Some a)
                      else mret None in
          let! prem :=
            if term_eqb t0 t_Any then mret (Some premises)
            else
              let! n := collectPremises t0 premises in
              mret (option_map (fun ap => [Node K_PROOF [ap]]) n) in
          match prem with
          | None => mret None
          | Some prem =>
              match args ++ conc ++ match asm with Some a => [a] | None => [] end ++ prem with
              | [] => mret (Some (prog, asm))
              | rest =>
                  let! r := mlift (evaluateProgramApp (tc_lop (tc (env_of s) (g_n G))) (getProgram (env_of s)) (g_n G)
                                     (prog :: rest)) in
                  (* a null result is not evaluatable; typeCheck then fails *)
                  let res := or_null r in
                  if isEvaluatable res then mret None else mret (Some (res, asm))
              end
          end
        else mret None
  end.

(* ------------------------------------------------------------------ *)
(** * The commands *)
Section Commands.
Variable sig : bool.           (* d_isSignature *)
Variable isReference : bool.   (* d_isReference *)
(** State::includeFile. *)
Variable inc : text -> bool -> bool -> term -> M bool.

Notation pe := (parseExpr G sig (g_fuel G)).
Notation parseVarListMap := (parseVarListMap G pe).
Notation parseVarList := (parseVarList G pe).
Notation parseAttributeList := (parseAttributeList G pe).
Notation parseType := (parseType G pe).
Notation parseFormula := (parseFormula G pe).

(** assume, assume-push: cmd_parser.cpp 106-127. *)
Definition cmdAssume (isPush : bool) : M unit :=
  let! name := parseSymbol in
  let! proven := parseFormula in
  notifyAssume isPush ;;
  bindM name (Node K_PROOF [proven]) ;;
  logEvent (EvAssume name proven isPush) ;;
  let! ok := addAssumption proven in
  if ok then mret tt else merr.

(** The parameters of declare-parameterized-const, from the last to the first:
    cmd_parser.cpp 163-221.  Result: the type and the opaque arguments.  The entry
    :opaque stays in the map, where it is not looked at any more. *)
Fixpoint paramArrows (ps : list term) (amap : list (term * list (attr * option term))) (t : term)
  (opaque : list term) : M (term * list term) :=
  match ps with
  | [] => mret (t, opaque)
  | p :: ps' =>
      let! pt := typeOf G p in
      let pt := or_null pt in
      let! quoted := mlift (hasVariable t [p]) in
      let! qt := if quoted then if isGround pt then mret (Node K_QUOTE_TYPE [p]) else merr else mret pt in
      let isOpaque := match find (fun e => term_eqb (fst e) p) amap with
                      | Some e => attr_mem (snd e) A_OPAQUE
                      | None => false
                      end in
      if isOpaque then paramArrows ps' amap t (qt :: opaque)
      else match opaque with
           | [] => paramArrows ps' amap (mkFunctionType [qt] t) opaque
           | _ => merr
           end
  end.

(** declare-const, declare-fun, declare-parameterized-const: cmd_parser.cpp 128-291. *)
Definition cmdDeclare (c : command) : M unit :=
  let isParam := match c with C_DECLARE_PARAMETERIZED_CONST => true | _ => false end in
  let isFun := match c with C_DECLARE_FUN => true | _ => false end in
  let! name := parseSymbol in
  let! sorts := if isFun then parseTypeList G pe false else mret [] in
  let! (params, amap) := if isParam then pushM ;; parseVarListMap K_CONST else mret ([], []) in
  let! ret := parseType false true in
  let! ck := if isFun then mret None
             else let! attrs := parseAttributeList K_CONST null_term K_NONE in
                  mlift (processAttributeMap attrs) in
  let t0 := mkFunctionType sorts ret in
  let! (t1, opaque) := paramArrows (rev params) amap t0 [] in
  let! (t2, ck2) :=
    if isParam then
      let! (argTypes, retTy) := mlift (getFunctionType t1) in
      let! fv := mlift (let* pargs := getVariables (argTypes ++ opaque) in findFreeVar sym_self retTy pargs) in
      match fv with
      | None => mret (t1, ck)
      | Some _ =>
          match ck, opaque with
          | None, [] => let! t2 := mkDisambiguatedType G retTy t1 name in mret (t2, Some (A_AMB, None))
          | _, _ => merr
          end
      end
    else mret (t1, ck) in
  processAttributeMaps amap ;;
  let! (t3, ck3) :=
    match opaque with
    | [] => mret (t2, ck2)
    | _ =>
        match ck2 with
        | Some _ => merr
        | None => mret (mkFunctionType opaque t2,
                        Some (A_OPAQUE, Some (Lit (LNum (Z.of_nat (length opaque))))))
        end
    end in
  let! v := mkSymbol K_CONST name (Some t3) in
  match ck3 with
  | Some (a, ct) => let! ok := markM v a ct in if ok then mret tt else merr
  | None => mret tt
  end ;;
  (if isParam then popM else mret tt) ;;
  bindM name v.

(** declare-datatype, declare-datatypes: cmd_parser.cpp 292-356. *)
Definition mkListM (args : list term) : M term :=
  match args with
  | [] => mret sym_nil
  | _ => mkE K_APPLY (sym_cons :: args)
  end.
Definition cmdDatatypes (isMulti : bool) : M unit :=
  let! (dnames, arities) :=
    if isMulti then
      eat T_LPAREN ;;
      let! (ns, ars) := mloop (g_fuel G) (fun acc =>
        let! more := eatChoice T_LPAREN T_RPAREN in
        if more then
          let! name := parseSymbol in
          let! a := parseIntegerNumeral in
          eat T_RPAREN ;; mret (inl (fst acc ++ [name], snd acc ++ [Z.to_nat a]))
        else mret (inr acc)) ([], []) in
      match ns with
      | [] => merr
      | _ => eat T_LPAREN ;; mret (ns, ars)
      end
    else let! name := parseSymbol in mret ([name], []) in
  let! dts := parseDatatypesDef G pe dnames arities in
  mfor dts (fun d =>
    let! ct := mkListM (map (fun c => fst (fst c)) (snd d)) in
    let! _ := markM (fst d) A_DATATYPE (Some ct) in mret tt) ;;
  mfor (flat_map snd dts) (fun c =>
    let! ct := mkListM (snd (fst c)) in
    let! _ := markM (fst (fst c)) (if snd c then A_AMB_DATATYPE_CONSTRUCTOR else A_DATATYPE_CONSTRUCTOR) (Some ct) in
    mret tt) ;;
  if isMulti then eat T_RPAREN else mret tt.

(** declare-consts: cmd_parser.cpp 357-370. *)
Definition cmdDeclareConsts : M unit :=
  pushM ;;
  bindM (txt "eo::self") sym_self ;;
  let! k := parseLiteralKind in
  let! t := parseType false true in
  let! s := mget in
  let! m := mlift (setLiteralTypeRule (s_lits s) k t) in
  mupd (set_lits m) ;;
  logEvent (EvLiteral k t) ;;
  popM.

(** The parts of declare-rule that are read: cmd_parser.cpp 383-431; a part that
    is absent leaves the keyword for the next part. *)
Definition optPart {A : Type} (key : text) (name : string) (read : M A) (dflt : A) : M (A * text) :=
  if text_eqb key (txt name) then let! a := read in let! k := parseKeyword in mret (a, k)
  else mret (dflt, key).
(** declare-rule: cmd_parser.cpp 371-544. *)
Definition mkRequiresM (reqs : list term) (ret : term) : M term :=
  (* State::mkRequires: state.cpp 547-562, from the last to the first *)
  (fix go (l : list term) (cur : term) : M term :=
     match l with
     | [] => mret cur
     | r :: l' =>
         let! a1 := mlift (vec_at (tchildren r) 0) in
         let! a2 := mlift (vec_at (tchildren r) 1) in
         let! c := mkE K_EVAL_REQUIRES [a1; a2; cur] in
         go l' c
     end) (rev reqs) ret.
(** The program of a rule: cmd_parser.cpp 461-505.  The names of the parameters for
    the types have a number there, which is not read anywhere. *)
Definition ruleProgram (name : text) (progArgs : list term) (ret : term) : M term :=
  match progArgs with
  | [] => if isGround ret && negb (isEvaluatable ret) then mret ret else merr
  | _ =>
      let! types := mmap progArgs (fun a =>
        if kind_eqb (tkind a) K_PROOF then mret sym_Proof
        else mkSymbol K_PARAM (txt "$eo_arg_") (Some t_Type)) in
      let! prog := mkSymbol K_PROGRAM_CONST (txt "$eo_prog_" ++ name)
                     (Some (Node K_PROGRAM_TYPE (types ++ [t_Bool]))) in
      let! ppat := mkE K_APPLY (prog :: progArgs) in
      checkPair ppat ret ;;
      let! def := mkE K_PROGRAM [Node K_TUPLE [ppat; ret]] in
      defineProgram prog def ;;
      mret prog
  end.
Definition cmdDeclareRule : M unit :=
  let! lvl := levelM in
  if negb (Nat.eqb lvl 0) then merr
  else
    pushM ;;
    let! name := parseSymbol in
    let! _ := parseVarList K_PROOF_RULE in
    let! key0 := parseKeyword in
    let! (assume, key1) := optPart key0 "assumption" pe null_term in
    let! (premises, plCons, key2) :=
      if text_eqb key1 (txt "premises") then
        let! ps := parseExprList G pe in let! k := parseKeyword in mret (ps, null_term, k)
      else if text_eqb key1 (txt "premise-list") then
        let! pat := pe in let! pc := pe in let! k := parseKeyword in mret ([pat], pc, k)
      else mret ([], null_term, key1) in
    let! (args, key3) := optPart key2 "args" (parseExprList G pe) [] in
    let! (reqs, key4) := optPart key3 "requires" (parseExprPairList G pe) [] in
    let! (conc, concExplicit) :=
      if text_eqb key4 (txt "conclusion") then let! c := pe in mret (c, false)
      else if text_eqb key4 (txt "conclusion-explicit") then let! c := pe in mret (c, true)
      else merr in
    let progArgs := args ++ (if concExplicit then [conc] else []) ++ (if is_null assume then [] else [assume])
                    ++ map (fun e => Node K_PROOF [e]) premises in
    let! ret := mkRequiresM reqs conc in
    popM ;;
    let! rule := mkSymbol K_PROOF_RULE name (Some t_Bool) in
    let! _ := typeCheck rule in
    let! ruleProg := ruleProgram name progArgs ret in
    bindM name rule ;;
    let! attrVal := mkE K_TUPLE [if is_null plCons then t_Any else plCons; Lit (LBool (negb (is_null assume)));
                                 Lit (LBool concExplicit); ruleProg] in
    logEvent (EvRule rule assume plCons premises args reqs conc concExplicit) ;;
    let! _ := markM rule A_PROOF_RULE (Some attrVal) in
    let! _ := parseAttributeList K_PROOF_RULE rule K_NONE in
    mret tt.

(** declare-sort: cmd_parser.cpp 545-556. *)
Definition cmdDeclareSort : M unit :=
  let! name := parseSymbol in
  let! a := parseIntegerNumeral in
  let! t := mkTypeConstant name (Z.to_nat a) in
  bindM name t.

(** define-const: cmd_parser.cpp 557-568. *)
Definition cmdDefineConst : M unit :=
  let! name := parseSymbol in
  let! ret := parseType false true in
  let! e := pe in
  typeCheckAs e ret ;;
  bindM name e.

(** define-fun, define: cmd_parser.cpp 569-669. *)
Definition cmdDefine (isFun : bool) : M unit :=
  pushM ;;
  let! name := parseSymbol in
  let! (vars, amap) := parseVarListMap K_LAMBDA in
  (if Nat.ltb (length vars) (length amap) then
     popM ;; pushM ;;
     mfor vars (fun v => let! s := mget in let! _ := bindState (e_name (env_of s) v) v in mret tt)
   else mret tt) ;;
  processAttributeMaps amap ;;
  let! ret := if isFun then parseType false true else mret null_term in
  let! expr := pe in
  (if is_null ret then mret tt else typeCheckAs expr ret) ;;
  let! result :=
    if isFun then
      let! s := mget in
      match getVar (s_scope s) (txt "=") with
      | None => merr
      | Some eq =>
          let! (rhs, t) :=
            match vars with
            | [] => mret (expr, ret)
            | _ =>
                match getVar (s_scope s) (txt "lambda") with
                | None => merr
                | Some lam =>
                    let! bvl := mkBinderList G lam vars in
                    let! rhs := mkE K_APPLY [lam; bvl; expr] in
                    let! types := mmap vars typeCheck in
                    mret (rhs, mkFunctionType types ret)
                end
            end in
          let! v := mkSymbol K_CONST name (Some t) in
          let! a := mkE K_APPLY [eq; v; rhs] in
          addReferenceAssert a ;;
          mret v
      end
    else
      let! e := match vars with
                | [] => mret expr
                | _ => let! vl := mkE K_TUPLE vars in mkE K_LAMBDA [vl; expr]
                end in
      let! _ := parseAttributeList K_LAMBDA e K_NONE in
      mret e in
  popM ;;
  bindM name result.

(** define-sort: cmd_parser.cpp 670-700. *)
Definition cmdDefineSort : M unit :=
  let! name := parseSymbol in
  let! snames := parseSymbolList G in
  match snames with
  | [] => let! t := parseType false true in bindM name t
  | _ =>
      pushM ;;
      let! vars := mmap snames (fun n => let! v := mkSymbol K_PARAM n (Some t_Type) in bindM n v ;; mret v) in
      let! t := parseType false true in
      popM ;;
      let! vl := mkE K_TUPLE vars in
      let! l := mkE K_LAMBDA [vl; t] in
      bindM name l
  end.

(** echo: cmd_parser.cpp 701-716. *)
Definition cmdEcho : M unit :=
  let! tok := peek in
  let! msg := if token_eqb tok T_STRING then parseStr else mret [] in
  logEvent (EvEcho msg).

(** include, reference: cmd_parser.cpp 723-759. *)
Definition cmdInclude (isRef : bool) : M unit :=
  let! s := mget in
  if isRef && s_hasRef s then merr
  else if negb (Nat.eqb (length (s_asmctx s)) 0) then merr
  else
    let! tok := peek in
    if negb (token_eqb tok T_STRING) then merr
    else
      let! file := parseStr in
      let! nf := if isRef then let! t := peek in if token_eqb t T_RPAREN then mret null_term else pe
                 else mret null_term in
      let! ok := inc file (negb isRef) isRef nf in
      if ok then mret tt else merr.

(** program: cmd_parser.cpp 760-858. *)
Fixpoint checkCases (pvar : term) (arity : nat) (cases : list term) : M unit :=
  match cases with
  | [] => mret tt
  | p :: cases' =>
      let! pc := mlift (vec_at (tchildren p) 0) in
      let! rhs := mlift (vec_at (tchildren p) 1) in
      if negb (kind_eqb (tkind pc) K_APPLY) then merr
      else
        let! hd := mlift (vec_at (tchildren pc) 0) in
        if negb (term_eqb hd pvar) then merr
        else if negb (Nat.eqb (length (tchildren pc)) (S arity)) then merr
        else checkPair pc rhs ;; checkCases pvar arity cases'
  end.
Definition cmdProgram : M unit :=
  let! name := parseSymbol in
  pushM ;;
  let! _ := parseVarList K_PROGRAM in
  let! tok := peek in
  let! key := if token_eqb tok T_KEYWORD then parseKeyword else merr in
  if negb (text_eqb key (txt "signature")) then merr
  else
    let! argTypes := parseTypeList G pe true in
    let! retType := parseType false true in
    match argTypes with
    | [] => merr
    | _ =>
        let progType := Node K_PROGRAM_TYPE (argTypes ++ [retType]) in
        let! s := mget in
        let prev := getVar (s_scope s) name in
        let! pvar :=
          match prev with
          | Some p =>
              if negb (kind_eqb (tkind p) K_PROGRAM_CONST) then merr
              else match getProgram (env_of s) p with
                   | Some _ => merr
                   | None => typeCheckAs p progType ;; mret p
                   end
          | None =>
              let! p := mkSymbol K_PROGRAM_CONST name (Some progType) in
              bindM name p ;; mret p
          end in
        let! tok2 := peek in
        let! program :=
          if token_eqb tok2 T_RPAREN then mret None
          else
            let! cases := parseExprPairList G pe in
            match cases with
            | [] => merr
            | _ =>
                checkCases pvar (length argTypes) cases ;;
                let! p := mkE K_PROGRAM cases in mret (Some p)
            end in
        popM ;;
        match program with
        | Some p => defineProgram pvar p
        | None => mret tt
        end ;;
        match prev with
        | None => bindM name pvar
        | Some _ => mret tt
        end
    end.

(** State::reset: state.cpp 199-210. *)
Definition cmdReset : M unit :=
  mupd (fun s => set_asmctx [] (set_asm [] (set_scope (resetScope (s_scope s)) s))) ;;
  logEvent EvReset.

(** step, step-pop: cmd_parser.cpp 868-980. *)
Definition cmdStep (isPop : bool) : M unit :=
  let! lvl := levelM in
  if isPop && Nat.eqb lvl 0 then merr
  else
    let! name := parseSymbol in
    let! tok := peek in
    let! proven := if token_eqb tok T_KEYWORD then mret null_term else parseFormula in
    let! key0 := parseKeyword in
    if negb (text_eqb key0 (txt "rule")) then merr
    else
      let! ruleName := parseSymbol in
      let! rule := getProofRuleM ruleName in
      mupd (fun s => set_used (rule :: s_used s) s) ;;
      let! t1 := peek in
      let! key1 := if token_eqb t1 T_KEYWORD then parseKeyword else mret key0 in
      let! (premises, key2) :=
        if text_eqb key1 (txt "premises") then
          let! ps := parseExprList G pe in
          let! t2 := peek in
          let! k := if token_eqb t2 T_KEYWORD then parseKeyword else mret key1 in
          mret (ps, k)
        else mret ([], key1) in
      let! args := if text_eqb key2 (txt "args") then parseExprList G pe else mret [] in
      let! r := notifyStep rule proven premises args isPop in
      match r with
      | None => merr
      | Some (conc, asm) =>
          let! ty := typeCheck conc in
          if negb (kind_eqb (tkind ty) K_BOOL_TYPE) then merr
          else if negb (is_null proven) && negb (term_eqb conc proven) then merr
          else
            (if isPop then popAssumptionScope else mret tt) ;;
            logEvent (EvStep name rule proven premises args asm conc) ;;
            bindM name (Node K_PROOF [conc])
      end.

(** push, pop: cmd_parser.cpp 998-1020. *)
Definition cmdPushPop (isPush : bool) : M unit :=
  let! tok := peek in
  let! num := if token_eqb tok T_INTEGER then parseIntegerNumeral else mret 1 in
  mfor (repeat tt (Z.to_nat num)) (fun _ =>
    if isPush then pushM ;; logEvent EvPush else popM ;; logEvent EvPop).

(** set-option: cmd_parser.cpp 1035-1060. *)
Definition cmdSetOption : M unit :=
  let! key := parseKeyword in
  (if isReference then mret tt
   else
     let! tok := peek in
     let! str := tokText in
     if token_eqb tok T_SYMBOL && (text_eqb str (txt "true") || text_eqb str (txt "false")) then
       mupd (fun s => match setOption (s_opts s) key (text_eqb str (txt "true")) with
                      | Some o => set_opts o s
                      | None => s
                      end)
     else mret tt) ;;
  parseSymbolicExpr G.

(** The commands of cmd_parser.cpp 104-1066. *)
Definition runCommand (c : command) : M unit :=
  match c with
  | C_ASSUME => cmdAssume false
  | C_ASSUME_PUSH => cmdAssume true
  | C_DECLARE_CONST | C_DECLARE_FUN | C_DECLARE_PARAMETERIZED_CONST => cmdDeclare c
  | C_DECLARE_DATATYPE => cmdDatatypes false
  | C_DECLARE_DATATYPES => cmdDatatypes true
  | C_DECLARE_CONSTS => cmdDeclareConsts
  | C_DECLARE_RULE => cmdDeclareRule
  | C_DECLARE_SORT => cmdDeclareSort
  | C_DEFINE_CONST => cmdDefineConst
  | C_DEFINE_FUN => cmdDefine true
  | C_DEFINE => cmdDefine false
  | C_DEFINE_SORT => cmdDefineSort
  | C_ECHO => cmdEcho
  | C_EXIT => mret tt
  | C_INCLUDE => cmdInclude false
  | C_REFERENCE => cmdInclude true
  | C_PROGRAM => cmdProgram
  | C_RESET => cmdReset
  | C_STEP => cmdStep false
  | C_STEP_POP => cmdStep true
  | C_ASSERT => let! a := parseFormula in addReferenceAssert a
  | C_CHECK_SAT => mret tt
  | C_CHECK_SAT_ASSUMING => let! _ := parseExprList G pe in mret tt
  | C_POP => cmdPushPop false
  | C_PUSH => cmdPushPop true
  | C_SET_LOGIC => let! _ := parseSymbol in mret tt
  | C_SET_INFO => let! _ := parseKeyword in parseSymbolicExpr G
  | C_SET_OPTION => cmdSetOption
  end.

(** CmdParser::parseNextCommand: cmd_parser.cpp 96-1070.  [None]: the result
    false; otherwise d_isFinished afterwards. *)
Definition parseNextCommand (isFinished : bool) : M (option bool) :=
  if isFinished then mret None
  else
    let! atEnd := eatChoice T_EOF T_LPAREN in
    if atEnd then mret None
    else
      let! tok := next in
      let! str := tokText in
      match tok with
      | T_SYMBOL =>
          match table_find (commandTable isReference) str with
          | Some c =>
              runCommand c ;; eat T_RPAREN ;;
              mret (Some match c with C_EXIT => true | _ => false end)
          | None => merr
          end
      | _ => merr
      end.

(** do { ... } while (p.parseNextCommand()): state.cpp 322-328, main.cpp 173-175. *)
Definition parseCommands : M unit :=
  mloop (g_fuel G) (fun fin =>
    let! r := parseNextCommand fin in
    match r with
    | None => mret (inr tt)
    | Some f => mret (inl f)
    end) false.
End Commands.

(* ------------------------------------------------------------------ *)
(** * Files *)

(** The end of State::includeFile: state.cpp 329-337; the message mentions
    d_decls[d_declsSizeCtx.back()]. *)
Definition checkClosed : M unit :=
  let! s := mget in
  match s_asmctx s with
  | [] => mret tt
  | _ => match c_ctx (s_scope s) with
         | [] => mlift UB
         | n :: _ => if Nat.ltb n (length (c_decls (s_scope s))) then merr else mlift UB
         end
  end.

(** State::includeFile: state.cpp 281-346; Parser::Parser: parser.cpp 15-26.  The
    lexer of the including file is kept aside. *)
Fixpoint includeFile (fuel : nat) (file : text) (isSig isRef : bool) (nf : term) (s : st) : res (bool * st) :=
  match fuel with
  | O => Fuel
  | S n =>
      let path := g_path G (s_input s) file in
      match g_files G path with
      | None => Ok (false, s)
      | Some bytes =>
          if existsb (text_eqb path) (s_incl s) then Ok (true, s)
          else
            let s1 := set_input path (set_refNf nf (set_hasRef isRef (set_incl (path :: s_incl s) s))) in
            let s2 := set_log ((length (s_asmctx s1), EvInclude path isRef nf) :: s_log s1) s1 in
            let inc f a b t := fun p : pst => let* r := includeFile n f a b t (snd p) in Ok (fst r, (fst p, snd r)) in
            let lex := lexer_init (negb isSig && o_parseLet (s_opts s)) isSig (chars_of false bytes) in
            let* r := (parseCommands isSig isRef inc ;;
                       mupd (set_input (s_input s)) ;; checkClosed) (lex, s2) in
            Ok (true, snd (snd r))
      end
  end.

(** The input: the name of a file or the bytes on standard input. *)
Inductive input : Type := InFile (file : text) | InStdin (bytes : text).
(** "correct" or "incomplete": main.cpp 190-207. *)
Inductive verdict : Type := Correct | Incomplete.
Definition verdict_of (s : st) : verdict :=
  if existsb (fun r => existsb (term_eqb r) (s_sorry s)) (s_used s) then Incomplete else Correct.
(** file.substr(file.size()-3)==".eo": main.cpp 183. *)
Definition endsWithEo (f : text) : bool := text_eqb (skipn (length f - 3) f) (txt ".eo").

(** The inclusions of the command line: main.cpp 145-156. *)
Fixpoint runIncludes (l : list (text * bool)) (s : st) : res st :=
  match l with
  | [] => Ok s
  | (f, isInclude) :: l' =>
      let* (ok, s') := includeFile (g_fuel G) f isInclude (negb isInclude) null_term s in
      if ok then runIncludes l' s' else Err
  end.
(** main: main.cpp 142-207, after the options are read. *)
Definition run (o : options) (includes : list (text * bool)) (i : input) : res (verdict * st) :=
  let* s := runIncludes includes (st_init o) in
  let* s' :=
    match i with
    | InFile f =>
        let* (ok, s') := includeFile (g_fuel G) f (endsWithEo f) false null_term s in
        if ok then Ok s' else Err
    | InStdin bytes =>
        let inc f a b t := fun p : pst => let* r := includeFile (g_fuel G) f a b t (snd p) in Ok (fst r, (fst p, snd r)) in
        let lex := lexer_init (o_parseLet (s_opts s)) false (chars_of true bytes) in
        let* r := parseCommands false false inc (lex, s) in
        Ok (snd (snd r))
    end in
  Ok (verdict_of s', s').
End Check.
