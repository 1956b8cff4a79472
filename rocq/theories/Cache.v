(** The cache of types: State::d_typeCache and the loop of TypeChecker::getType
    (src/type_checker.cpp 91-145, src/state.cpp 427-431, 604-627, 1654-1662). *)
From Coq Require Import ZArith List Bool.
From Verif Require Import Base Kind Ints Str Literal Arity Term Match Eval ListOps Typing.
Import ListNotations.

(** State::d_typeCache (state.h 380) without the symbols, whose entries are made
    together with them (mkSymbolInternal, state.cpp 621-623) and are [e_symtype]. *)
Definition cache : Type := list (term * term).
Fixpoint assoc (c : cache) (t : term) : option term :=
  match c with
  | [] => None
  | (u, ty) :: c' => if term_eqb u t then Some ty else assoc c' t
  end.

Section Cached.
Variable E : env.
(** TypeChecker::evaluate, see [tc_eval]. *)
Variable evl : term -> ctx -> res (option term).
(** The cache after the calls of getType that evaluate makes while the type of a
    term is computed (type_checker.cpp 1188, 1214, 1249, 1839). *)
Variable nested : cache -> term -> cache.

(** d_typeCache.find: type_checker.cpp 103-104.  The entry of a symbol may be the
    null term. *)
Definition find (c : cache) (t : term) : option (option term) :=
  match t with
  | Sym _ _ => Some (e_symtype E t)
  | _ => option_map Some (assoc c t)
  end.
(** State::lookupType: state.cpp 1654-1662. *)
Definition lookupType (c : cache) (t : term) : option term :=
  match find c t with Some r => r | None => None end.
(** The types of the children that are looked up.  The null pointer is
    dereferenced for a child without an entry (the assertions of type_checker.cpp
    243, 247, 258, 334, 377 are off by default).  Simplified: also for the kinds
    whose type does not depend on this child. *)
Fixpoint lookups (c : cache) (cs : list term) : res (list term) :=
  match cs with
  | [] => Ok []
  | x :: cs' =>
      let* ts := lookups c cs' in
      match lookupType c x with Some ty => Ok (ty :: ts) | None => UB end
  end.
(** TypeChecker::getTypeInternal (222-322) with the types that are looked up,
    also those of quoted terms (375) and of the variables of a lambda (242). *)
Definition getTypeLooked (c : cache) (t : term) : res (option term) :=
  let* ts := lookups c (tchildren t) in
  getTypeInternal E (fun u => Ok (lookupType c u)) evl t ts.

(** The loop of getType: type_checker.cpp 100-144.  [stack] is toVisit, its end
    first. *)
Fixpoint getType_loop (fuel : nat) (c : cache) (visited stack : list term) (ret : option term)
  : res (option term * cache) :=
  match fuel with
  | O => Fuel
  | S n =>
      match stack with
      | [] => Ok (ret, c)
      | cur :: rest =>
          match find c cur with
          | Some r => getType_loop n c visited rest r
          | None =>
              if negb (mem_term cur visited)
              then getType_loop n c (cur :: visited) (rev (tchildren cur) ++ cur :: rest) ret
              else
                let* r := getTypeLooked c cur in
                match r with
                | None => Ok (None, nested c cur)
                | Some ty =>
                    if isGround ty && isEvaluatable ty then Ok (None, nested c cur)
                    else getType_loop n ((cur, ty) :: nested c cur) visited rest (Some ty)
                end
          end
      end
  end.
(** TypeChecker::getType: type_checker.cpp 91-145. *)
Definition getTypeCached (fuel : nat) (c : cache) (t : term) : res (option term * cache) :=
  getType_loop fuel c [] [t] None.
End Cached.
