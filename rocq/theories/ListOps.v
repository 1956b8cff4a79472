(** Lists built from an operator with a nil terminator
    (src/type_checker.cpp 955-1046, 1507-1709). *)
From Coq Require Import ZArith List Bool.
From Verif Require Import Base Kind Literal Term.
Import ListNotations.
Open Scope Z_scope.

(** (f x) and ((f x) y). *)
Definition mkApply1 (f x : term) : term := Node K_APPLY [f; x].
Definition mkApply2 (f x y : term) : term := mkApply1 (mkApply1 f x) y.

(** The loop of getNAryChildren: type_checker.cpp 965-977.  Returns the elements
    and the term where the loop stops.  An APPLY with too few children is
    indexed out of range. *)
Fixpoint nary_loop (isLeft : bool) (op e : term) {struct e} : res (list term * term) :=
  match e with
  | Node K_APPLY cs =>
      match cs with
      | [] => UB
      | cop :: rest =>
          match cop with
          | Node K_APPLY ds =>
              match ds with
              | [] => UB
              | h :: ds' =>
                  if term_eqb h op then
                    match rest, ds' with
                    | a :: _, b :: _ =>
                        if isLeft
                        then let* (l, t) := nary_loop isLeft op b in Ok (a :: l, t)
                        else let* (l, t) := nary_loop isLeft op a in Ok (b :: l, t)
                    | _, _ => UB
                    end
                  else Ok ([], e)
              end
          | _ => Ok ([], e)
          end
      end
  | _ => Ok ([], e)
  end.

(** getNAryChildren: type_checker.cpp 955-985.  [None] is the null pointer. *)
Definition getNAryChildren (e op : term) (checkNil : option term) (isLeft : bool)
  : res (option (list term)) :=
  let* (l, t) := nary_loop isLeft op e in
  match checkNil with
  | Some nl => if term_eqb t nl then Ok (Some l) else Ok None
  | None => Ok (Some l)
  end.

(** isNAryList: type_checker.cpp 987-1004. *)
Fixpoint isNAryList (e op nl : term) (isLeft : bool) {struct e} : res bool :=
  match e with
  | Node K_APPLY cs =>
      match cs with
      | [] => UB
      | cop :: rest =>
          match cop with
          | Node K_APPLY ds =>
              match ds with
              | [] => UB
              | h :: ds' =>
                  if term_eqb h op then
                    if isLeft
                    then match ds' with b :: _ => isNAryList b op nl isLeft | [] => UB end
                    else match rest with a :: _ => isNAryList a op nl isLeft | [] => UB end
                  else Ok (term_eqb e nl)
              end
          | _ => Ok (term_eqb e nl)
          end
      end
  | _ => Ok (term_eqb e nl)
  end.

(** getNAryNthTail: type_checker.cpp 1006-1019. *)
Fixpoint getNAryNthTail (e : term) (isLeft : bool) (n : nat) : res term :=
  match n with
  | O => Ok e
  | S n' =>
      let* e' :=
        if isLeft then let* c := vec_at (tchildren e) 0 in vec_at (tchildren c) 1
        else vec_at (tchildren e) 1 in
      getNAryNthTail e' isLeft n'
  end.

(** TypeChecker::prependNAryChildren: type_checker.cpp 1021-1046. *)
Definition prependNAryChildren (op ret : term) (hargs : list term) (isLeft : bool) : term :=
  if isLeft
  then fold_left (fun r x => mkApply2 op r x) hargs ret
  else fold_right (fun x r => mkApply2 op x r) ret hargs.

(** TypeChecker::evaluateListRevInternal: type_checker.cpp 1507-1520. *)
Definition evaluateListRev (op nl : term) (isLeft : bool) (args : list term)
  : res (option term) :=
  let* a1 := vec_at args 1 in
  let* h := getNAryChildren a1 op (Some nl) isLeft in
  match h with
  | None => Ok None
  | Some hargs => Ok (Some (prependNAryChildren op nl (rev hargs) isLeft))
  end.

(** The loop of evaluateListEraseInternal: type_checker.cpp 1533-1550.  Returns
    (result, changeIndex, changeSize). *)
Fixpoint erase_loop (isAll : bool) (x : term) (hs : list term) (i : nat)
  (result : list term) (ci cz : nat) : list term * nat * nat :=
  match hs with
  | [] => (result, ci, cz)
  | h :: hs' =>
      if term_eqb h x then
        if isAll then erase_loop isAll x hs' (S i) result (S i) (length result)
        else (result, S i, cz)
      else erase_loop isAll x hs' (S i) (result ++ [h]) ci cz
  end.

(** The common end of the list functions: type_checker.cpp 1551-1565, 1595-1604
    and 1699-1708.  [resize] only ever shrinks here. *)
Definition finish_list (op a1 : term) (isLeft resize : bool) (r : list term * nat * nat)
  : res (option term) :=
  let '(result, ci, cz) := r in
  if Nat.eqb ci 0 then Ok (Some a1)
  else
    let result' := if resize then firstn cz result else result in
    let* ret := getNAryNthTail a1 isLeft ci in
    Ok (Some (prependNAryChildren op ret result' isLeft)).

(** TypeChecker::evaluateListEraseInternal: type_checker.cpp 1522-1565. *)
Definition evaluateListErase (k : kind) (op nl : term) (isLeft : bool) (args : list term)
  : res (option term) :=
  let* a1 := vec_at args 1 in
  let* h := getNAryChildren a1 op (Some nl) isLeft in
  match h with
  | None => Ok None
  | Some hargs =>
      let isAll := kind_eqb k K_EVAL_LIST_ERASE_ALL in
      match hargs with
      | [] => Ok (Some a1)
      | _ =>
          let* a2 := vec_at args 2 in
          finish_list op a1 isLeft isAll (erase_loop isAll a2 hargs 0 [] 0 0)
      end
  end.

(** The loop of evaluateListSetOfInternal: type_checker.cpp 1580-1594.  [seen]
    is a set. *)
Fixpoint setof_loop (hs seen : list term) (i : nat) (result : list term) (ci cz : nat)
  : list term * nat * nat :=
  match hs with
  | [] => (result, ci, cz)
  | h :: hs' =>
      if mem_term h seen then setof_loop hs' seen (S i) result (S i) (length result)
      else setof_loop hs' (h :: seen) (S i) (result ++ [h]) ci cz
  end.

(** TypeChecker::evaluateListSetOfInternal: type_checker.cpp 1567-1604. *)
Definition evaluateListSetOf (op nl : term) (isLeft : bool) (args : list term)
  : res (option term) :=
  let* a1 := vec_at args 1 in
  let* h := getNAryChildren a1 op (Some nl) isLeft in
  match h with
  | None => Ok None
  | Some hargs => finish_list op a1 isLeft true (setof_loop hargs [] 0 [] 0 0)
  end.

(** std::unordered_map<const ExprValue*, uint32_t>; the order of iteration is
    unspecified in C++ and the order of insertion here. *)
Definition counts := list (term * Z).
(** operator[] on a missing key inserts 0. *)
Fixpoint count_of (m : counts) (t : term) : Z :=
  match m with
  | [] => 0
  | (u, n) :: m' => if term_eqb u t then n else count_of m' t
  end.
Fixpoint count_find (m : counts) (t : term) : option Z :=
  match m with
  | [] => None
  | (u, n) :: m' => if term_eqb u t then Some n else count_find m' t
  end.
(** ++count[t]: wraps around at 2^32. *)
Fixpoint count_inc (m : counts) (t : term) : counts :=
  match m with
  | [] => [(t, 1)]
  | (u, n) :: m' => if term_eqb u t then (u, u32 (n + 1)) :: m' else (u, n) :: count_inc m' t
  end.
Definition count_list (l : list term) : counts := fold_left count_inc l [].

(** TypeChecker::evaluateListMPredInternal: type_checker.cpp 1606-1648. *)
Definition evaluateListMPred (k : kind) (op nl : term) (isLeft : bool) (args : list term)
  : res (option term) :=
  let* a1 := vec_at args 1 in
  let* h1 := getNAryChildren a1 op (Some nl) isLeft in
  match h1 with
  | None => Ok None
  | Some hargs =>
      let* a2 := vec_at args 2 in
      let* h2 := getNAryChildren a2 op (Some nl) isLeft in
      match h2 with
      | None => Ok None
      | Some hargs2 =>
          if term_eqb a1 a2 then Ok (Some (Lit (LBool true)))
          else
            let count1 := count_list hargs in
            let count2 := count_list hargs2 in
            let isEq := kind_eqb k K_EVAL_LIST_MEQ in
            if isEq && negb (Nat.eqb (length count1) (length count2))
            then Ok (Some (Lit (LBool false)))
            else
              Ok (Some (Lit (LBool
                (forallb (fun e => if isEq then count_of count2 (fst e) =? snd e
                                   else snd e <=? count_of count2 (fst e)) count1))))
      end
  end.

(** Decrement of an entry that is present, erased at 0: type_checker.cpp
    1684-1688. *)
Fixpoint count_dec (m : counts) (t : term) : counts :=
  match m with
  | [] => []
  | (u, n) :: m' =>
      if term_eqb u t then
        let n' := u32 (n - 1) in
        if n' =? 0 then m' else (u, n') :: m'
      else (u, n) :: count_dec m' t
  end.

(** The loop of evaluateListDiffInterInternal: type_checker.cpp 1678-1698. *)
Fixpoint diffinter_loop (isDiff : bool) (hs : list term) (m : counts) (i : nat)
  (result : list term) (ci cz : nat) : list term * nat * nat :=
  match hs with
  | [] => (result, ci, cz)
  | h :: hs' =>
      let found := match count_find m h with Some _ => true | None => false end in
      let m' := if found then count_dec m h else m in
      if Bool.eqb found isDiff
      then diffinter_loop isDiff hs' m' (S i) result (S i) (length result)
      else diffinter_loop isDiff hs' m' (S i) (result ++ [h]) ci cz
  end.

(** TypeChecker::evaluateListDiffInterInternal: type_checker.cpp 1650-1709. *)
Definition evaluateListDiffInter (k : kind) (op nl : term) (isLeft : bool) (args : list term)
  : res (option term) :=
  let* a1 := vec_at args 1 in
  let* h1 := getNAryChildren a1 op (Some nl) isLeft in
  match h1 with
  | None => Ok None
  | Some hargs =>
      let* a2 := vec_at args 2 in
      let* h2 := getNAryChildren a2 op (Some nl) isLeft in
      match h2 with
      | None => Ok None
      | Some hargs2 =>
          let isDiff := kind_eqb k K_EVAL_LIST_DIFF in
          if term_eqb a1 a2 then Ok (Some (if isDiff then nl else a1))
          else finish_list op a1 isLeft true
                 (diffinter_loop isDiff hargs (count_list hargs2) 0 [] 0 0)
      end
  end.

(** The cases EVAL_CONS and EVAL_LIST_CONCAT: type_checker.cpp 1381-1416. *)
Definition evaluateListConcat (k : kind) (op nl : term) (isLeft : bool) (args : list term)
  : res (option term) :=
  let isConcat := kind_eqb k K_EVAL_LIST_CONCAT in
  let tailIndex := if isLeft then 1%nat else 2%nat in
  let headIndex := if isLeft then 2%nat else 1%nat in
  let* ret := vec_at args (if isConcat then tailIndex else 2%nat) in
  let* isl := isNAryList ret op nl isLeft in
  if negb isl then Ok None
  else if negb isConcat then
    let* a1 := vec_at args 1 in
    Ok (Some (prependNAryChildren op ret [a1] isLeft))
  else
    let* hd := vec_at args headIndex in
    let* h := getNAryChildren hd op (Some nl) isLeft in
    match h with
    | None => Ok None
    | Some hargs =>
        if term_eqb ret nl then Ok (Some hd)
        else Ok (Some (prependNAryChildren op ret hargs isLeft))
    end.

(** EVAL_LIST_LENGTH: type_checker.cpp 1417-1429. *)
Definition evaluateListLength (op nl : term) (isLeft : bool) (args : list term)
  : res (option term) :=
  let* a1 := vec_at args 1 in
  let* h := getNAryChildren a1 op (Some nl) isLeft in
  match h with
  | None => Ok None
  | Some hargs => Ok (Some (Lit (LNum (Z.of_nat (length hargs)))))
  end.

(** EVAL_LIST_NTH: type_checker.cpp 1430-1453. *)
Definition evaluateListNth (op nl : term) (isLeft : bool) (args : list term)
  : res (option term) :=
  let* a2 := vec_at args 2 in
  match a2 with
  | Lit (LNum index) =>
      if negb (Ints.fitsUnsignedInt index) then Ok None
      else
        let i := Ints.toUnsignedInt index in
        let* a1 := vec_at args 1 in
        let* h := getNAryChildren a1 op (Some nl) isLeft in
        match h with
        | None => Ok None
        | Some hargs =>
            if Z.of_nat (length hargs) <=? i then Ok None
            else let* x := vec_at hargs (Z.to_nat i) in Ok (Some x)
        end
  | _ => Ok None
  end.

(** std::find. *)
Fixpoint find_term (hs : list term) (x : term) (i : Z) : option Z :=
  match hs with
  | [] => None
  | h :: hs' => if term_eqb h x then Some i else find_term hs' x (i + 1)
  end.
(** EVAL_LIST_FIND: type_checker.cpp 1454-1478. *)
Definition evaluateListFind (op nl : term) (isLeft : bool) (args : list term)
  : res (option term) :=
  let* a1 := vec_at args 1 in
  let* h := getNAryChildren a1 op (Some nl) isLeft in
  match h with
  | None => Ok None
  | Some hargs =>
      let* a2 := vec_at args 2 in
      match find_term hargs a2 0 with
      | None => Ok (Some (Lit (LNum (-1))))
      | Some i => Ok (Some (Lit (LNum i)))
      end
  end.

(** EVAL_LIST_SINGLETON_ELIM: type_checker.cpp 1490-1502. *)
Definition evaluateListSingletonElim (op nl : term) (isLeft : bool) (args : list term)
  : res (option term) :=
  let* a1 := vec_at args 1 in
  let* h := getNAryChildren a1 op (Some nl) isLeft in
  match h with
  | None => Ok None
  | Some [x] => Ok (Some x)
  | Some _ => Ok (Some a1)
  end.

(** The switch over the list operators: type_checker.cpp 1379-1505. *)
Definition evaluateListOp (k : kind) (op nl : term) (isLeft : bool) (args : list term)
  : res (option term) :=
  match k with
  | K_EVAL_CONS | K_EVAL_LIST_CONCAT => evaluateListConcat k op nl isLeft args
  | K_EVAL_LIST_LENGTH => evaluateListLength op nl isLeft args
  | K_EVAL_LIST_NTH => evaluateListNth op nl isLeft args
  | K_EVAL_LIST_FIND => evaluateListFind op nl isLeft args
  | K_EVAL_LIST_ERASE | K_EVAL_LIST_ERASE_ALL => evaluateListErase k op nl isLeft args
  | K_EVAL_LIST_REV => evaluateListRev op nl isLeft args
  | K_EVAL_LIST_SETOF => evaluateListSetOf op nl isLeft args
  | K_EVAL_LIST_MINCLUDE | K_EVAL_LIST_MEQ => evaluateListMPred k op nl isLeft args
  | K_EVAL_LIST_DIFF | K_EVAL_LIST_INTER => evaluateListDiffInter k op nl isLeft args
  | K_EVAL_LIST_SINGLETON_ELIM => evaluateListSingletonElim op nl isLeft args
  | _ => Ok None
  end.
