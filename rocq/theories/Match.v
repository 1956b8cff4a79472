(** Matching and the selection of program cases (src/type_checker.cpp). *)
From Coq Require Import ZArith List Bool.
From Verif Require Import Base Kind Literal Term.
Import ListNotations.
Open Scope Z_scope.

(** Ctx: expr.h 230, std::map from parameters to terms. *)
Definition ctx := list (term * term).
Fixpoint ctx_find (c : ctx) (p : term) : option term :=
  match c with
  | [] => None
  | (q, v) :: c' => if term_eqb q p then Some v else ctx_find c' p
  end.
(** emplace of a key that is not in the map. *)
Definition ctx_emplace (c : ctx) (p v : term) : ctx := (p, v) :: c.

Fixpoint mem_pair (a b : term) (l : list (term * term)) : bool :=
  match l with
  | [] => false
  | (x, y) :: l' => (term_eqb x a && term_eqb y b) || mem_pair a b l'
  end.

(** TypeChecker::match: type_checker.cpp 430-515.  [stack] has its top first.
    The result [Ok None] is [false]; C++ leaves a partially filled context
    behind in that case, which evaluateProgram clears; for getTypeAppInternal see
    [matchv_loop] in Typing.v. *)
Fixpoint match_loop (fuel : nat) (stack visited : list (term * term)) (c : ctx)
  : res (option ctx) :=
  match fuel with
  | O => Fuel
  | S n =>
      match stack with
      | [] => Ok (Some c)
      | (a, b) :: rest =>
          if isGround a then
            if term_eqb a b then match_loop n rest visited c else Ok None
          else if mem_pair a b visited then match_loop n rest visited c
          else
            let visited' := (a, b) :: visited in
            match tchildren a with
            | [] =>
                if kind_eqb (tkind a) K_PARAM then
                  match ctx_find c a with
                  | None => match_loop n rest visited' (ctx_emplace c a b)
                  | Some v => if term_eqb v b then match_loop n rest visited' c else Ok None
                  end
                else Ok None
            | cs =>
                let ds := tchildren b in
                if negb (Nat.eqb (length cs) (length ds)) || negb (kind_eqb (tkind a) (tkind b))
                then Ok None
                else match_loop n (rev (combine cs ds) ++ rest) visited' c
            end
      end
  end.
(** TypeChecker::match(a, b, ctx): type_checker.cpp 424-428. *)
Definition match_term (a b : term) (c : ctx) : res (option ctx) :=
  match_loop (S (tsize a)) [(a, b)] [] c.

(** The inner loop over the arguments in evaluateProgramInternal:
    type_checker.cpp 921-929. *)
Fixpoint match_args (ps xs : list term) (c : ctx) : res (option ctx) :=
  match ps, xs with
  | p :: ps', x :: xs' =>
      let* r := match_term p x c in
      match r with
      | Some c' => match_args ps' xs' c'
      | None => Ok None
      end
  | _, _ => Ok (Some c)
  end.

(** The loop over the cases: type_checker.cpp 904-936.  A case is a tuple whose
    children 0 and 1 are read. *)
Fixpoint match_cases (cases children : list term) : res (option (term * ctx)) :=
  match cases with
  | [] => Ok None
  | c :: cases' =>
      let* lhs := vec_at (tchildren c) 0 in
      let hchildren := tchildren lhs in
      if negb (Nat.eqb (length children) (length hchildren)) then Ok None
      else
        let* r := match_args (tl hchildren) (tl children) [] in
        match r with
        | Some c' => let* rhs := vec_at (tchildren c) 1 in Ok (Some (rhs, c'))
        | None => match_cases cases' children
        end
  end.

(** TypeChecker::evaluateProgramInternal: type_checker.cpp 866-941, without
    plugins and statistics.  [prog] is State::getProgram (state.cpp 1584-1592):
    the PROGRAM term of a program constant, if it has been defined.
    [Ok None] is the null term.  When a case is chosen, the context that the
    C++ code returns in [newCtx] is returned with its right hand side. *)
Definition evaluateProgramInternal (prog : term -> option term) (children : list term)
  : res (option (term * ctx)) :=
  if negb (forallb isGround children) then Ok None
  else if existsb isEvaluatable (tl children) then Ok None
  else
    let* hd := vec_at children 0 in
    match prog hd with
    | None => Ok None
    | Some p => match_cases (tchildren p) children
    end.

(** ExprParser::findFreeVar: expr_parser.cpp 1235-1251.  [self] is the
    distinguished parameter eo::self (State::mkSelf). *)
Definition findFreeVar (self : term) (e : term) (bvs : list term) : res (option term) :=
  let* efv := getVariables [e] in
  Ok (find (fun v => negb (mem_term v bvs) && negb (term_eqb v self)) efv).

(** ExprParser::ensureBound: expr_parser.cpp 1253-1265. *)
Definition ensureBound (self : term) (e : term) (bvs : list term) : res unit :=
  let* v := findFreeVar self e bvs in
  match v with None => Ok tt | Some _ => Err end.

(** ExprParser::typeCheckProgramPair: expr_parser.cpp 1216-1233. *)
Definition typeCheckProgramPair (self : term) (pat ret : term) : res unit :=
  let* bvs := getVariables [pat] in
  let* _ := ensureBound self ret bvs in
  if existsb isEvaluatable (tl (tchildren pat)) then Err else Ok tt.
