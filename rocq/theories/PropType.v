(** Property C63: the types that the checker computes. *)
From Coq Require Import ZArith List Bool Lia Arith.
From Verif Require Import Base Kind Ints Str Literal Arity Term Match Eval SpecTerm SpecEval TermProofs EvalProofs
  ListOps Typing SpecType TypeProofs.
Import ListNotations.
Open Scope Z_scope.

(** Example: a : Int; x : (BitVec 3); y : (BitVec 5);
    = : (-> T T Bool); BitVec : (-> Int Type);
    concat : (-> (BitVec n) (BitVec m) (BitVec (eo::add n m)));
    zero : (-> (Quote n) (BitVec n)); literals have type Int; the type of a binary
    literal is (BitVec (eo::len eo::self)). *)
Definition zc (z : Z) := Sym K_CONST z.
Definition z_int := zc 1.
Definition z_bv (n : term) := Node K_APPLY [zc 2; n].
Definition zT := Sym K_PARAM 1.
Definition zn := Sym K_PARAM 2.
Definition zm := Sym K_PARAM 3.
Definition z_self := Sym K_PARAM 4.
Definition zfun (a b : term) := Node K_FUNCTION_TYPE [a; b].
Definition z_symtype (t : term) : option term :=
  match t with
  | Sym K_CONST 1 => Some t_Type
  | Sym K_CONST 2 => Some (zfun z_int t_Type)
  | Sym K_CONST 3 => Some z_int
  | Sym K_CONST 4 => Some (z_bv (Lit (LNum 3)))
  | Sym K_CONST 5 => Some (z_bv (Lit (LNum 5)))
  | Sym K_CONST 6 => Some (zfun zT (zfun zT t_Bool))
  | Sym K_CONST 7 => Some (zfun (z_bv zn) (zfun (z_bv zm) (z_bv (Node K_EVAL_ADD [zn; zm]))))
  | Sym K_CONST 8 => Some (zfun (Node K_QUOTE_TYPE [zn]) (z_bv zn))
  | Sym K_PARAM 1 => Some t_Type
  | Sym K_PARAM _ => Some z_int
  | _ => None
  end.
Definition z_E : env :=
  mkEnv (fun _ => None) (fun _ => 0) (fun _ _ => t_Any) (fun _ => []) z_symtype
    (fun k => match k with K_NUMERAL => Some z_int | K_BINARY => Some (z_bv (Node K_EVAL_LENGTH [z_self])) | _ => None end)
    z_self (zc 20) (zc 21) (zc 22) (zc 23).
Lemma z_wf : env_wf z_E.
Proof.
  constructor; try (now repeat constructor); try discriminate.
  - intros k i T _ H. cbn in H. unfold z_symtype in H.
    repeat match type of H with context [match ?x with _ => _ end] => is_var x; destruct x end; try discriminate H;
      injection H as <-; repeat constructor.
  - intros k T H. cbn in H. destruct k; try discriminate H; injection H as <-; repeat constructor.
Qed.
Definition z_progs (hd : term) : option (list pcase) := None.
Lemma z_programs : programs_of z_E z_progs.
Proof. split; [intros hd cases H; discriminate H|intros hd; reflexivity]. Qed.
Definition zapp (f x : term) := Node K_APPLY [f; x].

(** C63.  The checker computes type T for t exactly if the typing rules of
    SpecType.v give t the type T. *)
Theorem C63_exact : forall E progs, env_wf E -> programs_of E progs -> forall t T, twf t ->
  ((exists n, tc_type (tc E n) t = Ok (Some T)) <-> typed E progs t T).
Proof. intros E progs H. exact (typing_exact E progs (env_wf_ok E H)). Qed.
Print Assumptions C63_exact.

(** A term has at most one type, and it does not depend on the bound. *)
Theorem C63_unique : forall E progs, env_wf E -> programs_of E progs -> forall t T T', twf t ->
  typed E progs t T -> typed E progs t T' -> T = T'.
Proof. intros E progs H. exact (typing_unique E progs (env_wf_ok E H)). Qed.
Print Assumptions C63_unique.
Theorem C63_bound : forall E progs, env_wf E -> programs_of E progs -> forall t T, twf t -> typed E progs t T ->
  exists n0, forall n, (n0 <= n)%nat -> tc_type (tc E n) t = Ok (Some T).
Proof. intros E progs H. exact (typing_exact_upto E progs (env_wf_ok E H)). Qed.
Print Assumptions C63_bound.

(** In particular, a function from A to B whose type has no parameters can be
    applied to the terms of type A only, and gives a term of type B. *)
Theorem C63_function : forall E progs, env_wf E -> programs_of E progs ->
  forall f x A B T, twf f -> twf x -> typed E progs f (Node K_FUNCTION_TYPE [A; B]) ->
  closed A -> tkind A <> K_QUOTE_TYPE -> closed B -> inert B ->
  (typed E progs (Node K_APPLY [f; x]) T <-> typed E progs x A /\ T = B).
Proof. exact plain_app. Qed.
Print Assumptions C63_function.

(** When the checker answers that a term has no type, it has none. *)
Theorem C63_untyped : forall E progs, env_wf E -> programs_of E progs -> forall n t T, twf t ->
  tc_type (tc E n) t = Ok None -> ~ typed E progs t T.
Proof. intros E progs H. exact (typing_none E progs (env_wf_ok E H)). Qed.
Print Assumptions C63_untyped.

Example C63_example :
  env_wf z_E /\ programs_of z_E z_progs /\
  (* (concat x y) : (BitVec 8), (zero a) : (BitVec a), #b101 : (BitVec 3) *)
  typed z_E z_progs (zapp (zapp (zc 7) (zc 4)) (zc 5)) (z_bv (Lit (LNum 8))) /\
  typed z_E z_progs (zapp (zc 7) (zc 4)) (zfun (z_bv zm) (z_bv (Node K_EVAL_ADD [Lit (LNum 3); zm]))) /\
  typed z_E z_progs (zapp (zc 8) (zc 3)) (z_bv (zc 3)) /\
  typed z_E z_progs (Lit (LBin (mkBV 3 5))) (z_bv (Lit (LNum 3))) /\
  typed z_E z_progs (zapp (zapp (zc 6) (Lit (LBin (mkBV 3 5)))) (zc 4)) t_Bool /\
  typed z_E z_progs (Node K_EVAL_IS_EQ [zc 3; zc 4]) t_Bool /\
  typed z_E z_progs (Node K_LAMBDA [Node K_TUPLE [zn; zm]; zapp (zc 8) zn]) (zfun z_int (zfun z_int (z_bv zn))) /\
  closed z_int /\ tkind z_int <> K_QUOTE_TYPE /\ closed t_Type /\ inert t_Type /\ typed z_E z_progs (zc 2) (zfun z_int t_Type) /\
  (* (= x y), (zero true) and (concat x a) have no type *)
  (forall T, ~ typed z_E z_progs (zapp (zapp (zc 6) (zc 4)) (zc 5)) T) /\
  (forall T, ~ typed z_E z_progs (zapp (zc 8) (Lit (LBool true))) T) /\
  (forall T, ~ typed z_E z_progs (zapp (zapp (zc 7) (zc 4)) (zc 3)) T).
Proof.
  split; [exact z_wf|]. split; [exact z_programs|].
  assert (CI : closed z_int) by (apply ground_closed; [repeat constructor|reflexivity]).
  assert (CT : closed t_Type) by (apply ground_closed; [repeat constructor|reflexivity]).
  assert (IT : inert t_Type) by (apply eval_inert; [repeat constructor|reflexivity]).
  repeat match goal with |- _ /\ _ => split end; try assumption; try discriminate;
    try (apply (C63_exact _ _ z_wf z_programs); [repeat constructor|exists 30%nat; vm_compute; reflexivity]).
  all: intro T; apply (C63_untyped _ _ z_wf z_programs 30); [repeat constructor|vm_compute; reflexivity].
Qed.
