(** Printing of terms: Expr::printDebug and what it calls, src/expr.cpp 203-445, and the
    names of kinds, src/kind.cpp. *)
From Coq Require Import String ZArith List Bool.
From Verif Require Import Base Kind Ints Str Literal Arity Term Match Eval ListOps Typing Lexer.
Import ListNotations.
Open Scope Z_scope.

(** operator<<(std::ostream&, Kind): kind.cpp 15-114.  The default case (line 111) is for
    values outside of the enumeration. *)
Definition kindName (k : kind) : text :=
  match k with
  | K_NONE => txt "NONE" | K_TYPE => txt "TYPE" | K_FUNCTION_TYPE => txt "FUNCTION_TYPE"
  | K_PROGRAM_TYPE => txt "PROGRAM_TYPE" | K_BOOL_TYPE => txt "BOOL_TYPE"
  | K_QUOTE_TYPE => txt "QUOTE_TYPE" | K_APPLY => txt "APPLY" | K_LAMBDA => txt "LAMBDA"
  | K_PARAM => txt "PARAM" | K_CONST => txt "CONST" | K_BUILTIN_CONST => txt "BUILTIN_CONST"
  | K_PROGRAM_CONST => txt "PROGRAM_CONST" | K_PROOF_RULE => txt "PROOF_RULE"
  | K_VARIABLE => txt "VARIABLE" | K_TUPLE => txt "TUPLE" | K_PROGRAM => txt "PROGRAM"
  | K_AS => txt "AS" | K_AS_RETURN => txt "AS_RETURN" | K_PARAMETERIZED => txt "PARAMETERIZED"
  | K_APPLY_OPAQUE => txt "APPLY_OPAQUE" | K_ANY => txt "ANY" | K_PROOF => txt "PROOF"
  | K_BOOLEAN => txt "BOOLEAN" | K_NUMERAL => txt "NUMERAL" | K_DECIMAL => txt "DECIMAL"
  | K_RATIONAL => txt "RATIONAL" | K_HEXADECIMAL => txt "HEXADECIMAL" | K_BINARY => txt "BINARY"
  | K_STRING => txt "STRING" | K_EVAL_IS_OK => txt "EVAL_IS_OK"
  | K_EVAL_IS_EQ => txt "EVAL_IS_EQ" | K_EVAL_IF_THEN_ELSE => txt "EVAL_IF_THEN_ELSE"
  | K_EVAL_REQUIRES => txt "EVAL_REQUIRES" | K_EVAL_HASH => txt "EVAL_HASH"
  | K_EVAL_VAR => txt "EVAL_VAR" | K_EVAL_TYPE_OF => txt "EVAL_TYPE_OF"
  | K_EVAL_NAME_OF => txt "EVAL_NAME_OF" | K_EVAL_COMPARE => txt "EVAL_COMPARE"
  | K_EVAL_IS_Z => txt "EVAL_IS_Z" | K_EVAL_IS_Q => txt "EVAL_IS_Q"
  | K_EVAL_IS_BIN => txt "EVAL_IS_BIN" | K_EVAL_IS_STR => txt "EVAL_IS_STR"
  | K_EVAL_IS_BOOL => txt "EVAL_IS_BOOL" | K_EVAL_IS_VAR => txt "EVAL_IS_VAR"
  | K_EVAL_EQ => txt "EVAL_EQ" | K_EVAL_NIL => txt "EVAL_NIL" | K_EVAL_CONS => txt "EVAL_CONS"
  | K_EVAL_LIST_LENGTH => txt "EVAL_LIST_LENGTH" | K_EVAL_LIST_CONCAT => txt "EVAL_LIST_CONCAT"
  | K_EVAL_LIST_NTH => txt "EVAL_LIST_NTH" | K_EVAL_LIST_FIND => txt "EVAL_LIST_FIND"
  | K_EVAL_LIST_ERASE => txt "EVAL_LIST_ERASE"
  | K_EVAL_LIST_ERASE_ALL => txt "EVAL_LIST_ERASE_ALL" | K_EVAL_LIST_REV => txt "EVAL_LIST_REV"
  | K_EVAL_LIST_SETOF => txt "EVAL_LIST_SETOF"
  | K_EVAL_LIST_MINCLUDE => txt "EVAL_LIST_MINCLUDE" | K_EVAL_LIST_MEQ => txt "EVAL_LIST_MEQ"
  | K_EVAL_LIST_DIFF => txt "EVAL_LIST_DIFF" | K_EVAL_LIST_INTER => txt "EVAL_LIST_INTER"
  | K_EVAL_LIST_SINGLETON_ELIM => txt "EVAL_LIST_SINGLETON_ELIM" | K_EVAL_NOT => txt "EVAL_NOT"
  | K_EVAL_AND => txt "EVAL_AND" | K_EVAL_OR => txt "EVAL_OR" | K_EVAL_XOR => txt "EVAL_XOR"
  | K_EVAL_ADD => txt "EVAL_ADD" | K_EVAL_NEG => txt "EVAL_NEG" | K_EVAL_MUL => txt "EVAL_MUL"
  | K_EVAL_INT_DIV => txt "EVAL_INT_DIV" | K_EVAL_INT_MOD => txt "EVAL_INT_MOD"
  | K_EVAL_RAT_DIV => txt "EVAL_RAT_DIV" | K_EVAL_IS_NEG => txt "EVAL_IS_NEG"
  | K_EVAL_GT => txt "EVAL_GT" | K_EVAL_LENGTH => txt "EVAL_LENGTH"
  | K_EVAL_CONCAT => txt "EVAL_CONCAT" | K_EVAL_EXTRACT => txt "EVAL_EXTRACT"
  | K_EVAL_FIND => txt "EVAL_FIND" | K_EVAL_TO_INT => txt "EVAL_TO_INT"
  | K_EVAL_TO_RAT => txt "EVAL_TO_RAT" | K_EVAL_TO_BIN => txt "EVAL_TO_BIN"
  | K_EVAL_TO_STRING => txt "EVAL_TO_STRING"
  | K_EVAL_DT_CONSTRUCTORS => txt "EVAL_DT_CONSTRUCTORS"
  | K_EVAL_DT_SELECTORS => txt "EVAL_DT_SELECTORS"
  end.

(** kindToTerm: kind.cpp 116-216. *)
Definition kindToTerm (k : kind) : text :=
  match k with
  | K_TYPE => txt "Type" | K_FUNCTION_TYPE => txt "->" | K_PROGRAM_TYPE => txt "eo::arrow"
  | K_BOOL_TYPE => txt "Bool" | K_QUOTE_TYPE => txt "eo::quote" | K_TUPLE => txt "eo::tuple"
  | K_APPLY => txt "_" | K_APPLY_OPAQUE => txt "_" | K_ANY => txt "eo::?"
  | K_LAMBDA => txt "lambda" | K_PROGRAM => txt "program" | K_AS => txt "eo::as"
  | K_AS_RETURN => txt "as" | K_PARAMETERIZED => txt "eo::_" | K_PROOF => txt "eo::pf"
  | K_EVAL_IS_OK => txt "eo::is_ok" | K_EVAL_IS_EQ => txt "eo::is_eq"
  | K_EVAL_IF_THEN_ELSE => txt "eo::ite" | K_EVAL_REQUIRES => txt "eo::requires"
  | K_EVAL_HASH => txt "eo::hash" | K_EVAL_VAR => txt "eo::var"
  | K_EVAL_TYPE_OF => txt "eo::typeof" | K_EVAL_NAME_OF => txt "eo::nameof"
  | K_EVAL_COMPARE => txt "eo::cmp" | K_EVAL_IS_Z => txt "eo::is_z"
  | K_EVAL_IS_Q => txt "eo::is_q" | K_EVAL_IS_BIN => txt "eo::is_bin"
  | K_EVAL_IS_STR => txt "eo::is_str" | K_EVAL_IS_BOOL => txt "eo::is_bool"
  | K_EVAL_IS_VAR => txt "eo::is_var" | K_EVAL_EQ => txt "eo::eq" | K_EVAL_NIL => txt "eo::nil"
  | K_EVAL_CONS => txt "eo::cons" | K_EVAL_LIST_LENGTH => txt "eo::list_len"
  | K_EVAL_LIST_CONCAT => txt "eo::list_concat" | K_EVAL_LIST_NTH => txt "eo::list_nth"
  | K_EVAL_LIST_FIND => txt "eo::list_find" | K_EVAL_LIST_ERASE => txt "eo::list_erase"
  | K_EVAL_LIST_ERASE_ALL => txt "eo::list_erase_all" | K_EVAL_LIST_REV => txt "eo::list_rev"
  | K_EVAL_LIST_SETOF => txt "eo::list_setof" | K_EVAL_LIST_MINCLUDE => txt "eo::list_minclude"
  | K_EVAL_LIST_MEQ => txt "eo::list_meq" | K_EVAL_LIST_DIFF => txt "eo::list_diff"
  | K_EVAL_LIST_INTER => txt "eo::list_inter"
  | K_EVAL_LIST_SINGLETON_ELIM => txt "eo::list_singleton_elim" | K_EVAL_NOT => txt "eo::not"
  | K_EVAL_AND => txt "eo::and" | K_EVAL_OR => txt "eo::or" | K_EVAL_XOR => txt "eo::xor"
  | K_EVAL_ADD => txt "eo::add" | K_EVAL_NEG => txt "eo::neg" | K_EVAL_MUL => txt "eo::mul"
  | K_EVAL_INT_DIV => txt "eo::zdiv" | K_EVAL_INT_MOD => txt "eo::zmod"
  | K_EVAL_RAT_DIV => txt "eo::qdiv" | K_EVAL_IS_NEG => txt "eo::is_neg"
  | K_EVAL_GT => txt "eo::gt" | K_EVAL_LENGTH => txt "eo::len"
  | K_EVAL_CONCAT => txt "eo::concat" | K_EVAL_EXTRACT => txt "eo::extract"
  | K_EVAL_FIND => txt "eo::find" | K_EVAL_TO_INT => txt "eo::to_z"
  | K_EVAL_TO_RAT => txt "eo::to_q" | K_EVAL_TO_BIN => txt "eo::to_bin"
  | K_EVAL_TO_STRING => txt "eo::to_str" | K_EVAL_DT_CONSTRUCTORS => txt "eo::dt_constructors"
  | K_EVAL_DT_SELECTORS => txt "eo::dt_selectors"
  | _ => txt "[" ++ kindName k ++ txt "]"
  end.

(* ------------------------------------------------------------------ *)
(** * Symbols *)

(** The characters of simple symbols in quoteSymbol: expr.cpp 219-220. *)
Definition simple_chars : text :=
  txt "ABCDEFGHIJKLMNOPQRSTUVWXYZabcdefghijklmnopqrstuvwxyz0123456789~!@$%^&*_-+=<>.?/".
(** s.compare(0, 4, "eo::") == 0: expr.cpp 212. *)
Definition eoPrefix (s : text) : bool := text_eqb (firstn 4 s) (txt "eo::").
(** The loop with find_first_of and replace, which does not stop before every bar and
    backslash is replaced: expr.cpp 235-239. *)
Definition replaceBars (s : text) : text :=
  map (fun c => if (c =? 92) || (c =? 124) then 95 else c) s.
(** quoteSymbol: expr.cpp 203-241. *)
Definition quoteSymbol (s : text) : text :=
  match s with
  | [] => [124; 124]
  | c0 :: _ =>
      if eoPrefix s then s
      else if forallb (fun c => existsb (Z.eqb c) simple_chars) s && ((c0 <? 48) || (57 <? c0)) then s
      else
        let tmp := if (c0 =? 124) && (last s 0 =? 124) && (1 <? length s)%nat
                   then firstn (length s - 2) (skipn 1 s) else s in
        [124] ++ replaceBars tmp ++ [124]
  end.

(* ------------------------------------------------------------------ *)
(** * Terms *)
Section Print.
Variable E : env.

(** Expr::getPrintChildren: expr.cpp 243-258; the assertion that the type of the variable
    is known is undefined behaviour if it fails (the type is used then). *)
Definition getPrintChildren (e : term) : res (list term) :=
  if kind_eqb (tkind e) K_VARIABLE then
    match e_symtype E e with Some T => Ok [T] | None => UB end
  else Ok (tchildren e).

(** std::map<const ExprValue*, size_t>: the first entry for a key counts; find, erase,
    operator[] = and operator[]++. *)
Definition lmap : Type := list (term * nat).
Definition lfind (m : lmap) (e : term) : option nat :=
  option_map snd (find (fun p => term_eqb (fst p) e) m).
Definition lerase (m : lmap) (e : term) : lmap := filter (fun p => negb (term_eqb (fst p) e)) m.
Definition lset (m : lmap) (e : term) (i : nat) : lmap := (e, i) :: lerase m e.
Definition lincr (m : lmap) (e : term) : lmap :=
  lset m e (match lfind m e with Some i => S i | None => 1%nat end).

(** The loop of Expr::computeLetBinding: expr.cpp 269-296; the back of [visit] first. *)
Fixpoint countLoop (fuel : nat) (visit visited : list term) (lcount : lmap) (llv : list term)
  : res (lmap * list term) :=
  match fuel with
  | O => Fuel
  | S n =>
      match visit with
      | [] => Ok (lcount, llv)
      | cur :: rest =>
          let* cs := getPrintChildren cur in
          match cs with
          | [] => countLoop n rest visited lcount llv
          | _ =>
              if existsb (term_eqb cur) visited then
                countLoop n rest visited (lincr lcount cur)
                  (match lfind lcount cur with None => llv ++ [cur] | Some _ => llv end)
              else countLoop n (rev cs ++ visit) (cur :: visited) lcount llv
          end
      end
  end.
(** The rest of Expr::computeLetBinding: expr.cpp 297-311; the map and [ll]. *)
Definition keepShared (lcount : lmap) (llv : list term) : lmap * list term :=
  fold_left
    (fun st l => let '(lbind, ll) := st in
       match lfind lcount l with
       | Some (S (S _)) => (lset lbind l (length ll), ll ++ [l])
       | _ => st
       end) llv ([], []).
(** Expr::computeLetBinding: expr.cpp 260-312. *)
Definition computeLetBinding (fuel : nat) (e : term) : res (lmap * list term) :=
  let* (lcount, llv) := countLoop fuel [e] [] [] [] in Ok (keepShared lcount llv).

(** What is printed for a term without children to print: expr.cpp 335-374. *)
Definition printLeaf (e : term) : text :=
  match e with
  | Lit (LHex b) => txt "#x" ++ lit_toString (LHex b)
  | Lit (LBin b) => if bv_size b =? 0 then txt "(eo::to_bin 0 0)" else txt "#b" ++ lit_toString (LBin b)
  | Lit (LStr s) => [34] ++ lit_toString (LStr s) ++ [34]
  | Lit (LDec q) => txt "(! " ++ lit_toString (LDec q) ++ txt " :decimal)"
  | Lit l => lit_toString l
  | Sym k _ => if isSymbol k then quoteSymbol (e_name E e) else e_name E e
  | Node k _ => kindToTerm k
  end.
(** os << "_v" << id: expr.cpp 326. *)
Definition letName (i : nat) : text := txt "_v" ++ int_toString 10 (Z.of_nat i).
(** What is printed before the first child: expr.cpp 385-402. *)
Definition printHead (k : kind) (hd : term) : text :=
  txt "(" ++
  match k with
  | K_APPLY_OPAQUE =>
      match getConstructorKind E hd with
      | A_AMB | A_AMB_DATATYPE_CONSTRUCTOR => txt "as "
      | _ => []
      end
  | K_APPLY => match tchildren hd with [] => [] | _ => kindToTerm k ++ txt " " end
  | _ => kindToTerm k ++ txt " "
  end.

(** The loop of Expr::printDebugInternal: expr.cpp 318-419; the back of [visit] first. *)
Fixpoint printLoop (fuel : nat) (lbind : lmap) (visit : list (term * nat)) (os : text) : res text :=
  match fuel with
  | O => Fuel
  | S n =>
      match visit with
      | [] => Ok os
      | (cur, O) :: rest =>
          match lfind lbind cur with
          | Some i => printLoop n lbind rest (os ++ letName i)
          | None =>
              let* cs := getPrintChildren cur in
              match cs with
              | [] => printLoop n lbind rest (os ++ printLeaf cur)
              | c :: _ =>
                  if kind_eqb (tkind cur) K_VARIABLE then
                    printLoop n lbind ((c, O) :: (cur, 1%nat) :: rest)
                      (os ++ txt "(eo::var " ++ [34] ++ e_name E cur ++ [34] ++ txt " ")
                  else
                    printLoop n lbind ((c, O) :: (cur, 1%nat) :: rest)
                      (os ++ printHead (tkind cur) c)
              end
          end
      | (cur, S i) :: rest =>
          match nth_error (tchildren cur) (S i) with
          | None => printLoop n lbind rest (os ++ txt ")")
          | Some c => printLoop n lbind ((c, O) :: (cur, S (S i)) :: rest) (os ++ txt " ")
          end
      end
  end.
(** Expr::printDebugInternal: expr.cpp 314-420. *)
Definition printDebugInternal (fuel : nat) (e : term) (lbind : lmap) : res text :=
  printLoop fuel lbind [(e, O)] [].

(** The loop over the bindings in Expr::printDebug: expr.cpp 430-440. *)
Fixpoint printLets (fuel : nat) (ll : list term) (lbind : lmap) (os cparen : text)
  : res (lmap * text * text) :=
  match ll with
  | [] => Ok (lbind, os, cparen)
  | l :: ls =>
      (* operator[] of a map makes an entry with value 0 if there is none *)
      let id := match lfind lbind l with Some i => i | None => O end in
      let* s := printDebugInternal fuel l (lerase lbind l) in
      printLets fuel ls (lset (lerase lbind l) l id)
        (os ++ txt "(eo::define ((" ++ letName id ++ txt " " ++ s ++ txt ")) ") (cparen ++ txt ")")
  end.
(** Expr::printDebug: expr.cpp 422-445. *)
Definition printDebug (dag : bool) (fuel : nat) (e : term) : res text :=
  if dag then
    let* (lbind, ll) := computeLetBinding fuel e in
    let* (lbind', os, cparen) := printLets fuel ll lbind [] [] in
    let* s := printDebugInternal fuel e lbind' in
    Ok (os ++ s ++ cparen)
  else printDebugInternal fuel e [].
End Print.
