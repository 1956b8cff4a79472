(** Property C17: which terms are to be evaluated, by the operators of the manual. *)
From Coq Require Import String ZArith List Bool Lia.
From Verif Require Import Base Kind Literal Term SpecTerm SpecNames PropTerm.
Import ListNotations.
Open Scope Z_scope.

(** The operators are those of the manual ([documented], user_manual.md 755-1110)
    without the two forms that give a term a type. *)
Definition operator (k : kind) : Prop :=
  k <> K_AS /\ k <> K_AS_RETURN /\ exists n, In (n, k) documented.

Lemma operator_exact : forall k, operator k <-> isLiteralOp k = true.
Proof.
  intros k. split.
  - intros (A & B & n & H). cbv [documented In] in H.
    repeat (destruct H as [H|H]; [injection H as _ <-; first [reflexivity|exfalso; apply A; reflexivity|exfalso; apply B; reflexivity]|]).
    destruct H.
  - intros H. split; [intros ->; discriminate H|]. split; [intros ->; discriminate H|].
    destruct k; try discriminate H; eexists; cbv [documented In];
      repeat first [left; reflexivity|right].
Qed.

(** As [C17_flags_exact], with the operators named. *)
Theorem C17_operators : forall ts t, twf t ->
  exists n s s', (forall fuel, (n <= fuel)%nat ->
      computeFlags_all fuel ts [] = Ok s /\ computeFlags fuel t s = Ok s') /\
    (f_eval (get_flags s' t) = true <->
     exists u, occurs u t /\
       ((exists i, u = Sym K_PROGRAM_CONST i) \/ is_any u \/
        (exists k cs, u = Node k cs /\ cs <> [] /\ operator k))).
Proof.
  intros ts t W. destruct (C17_flags_exact ts t W) as (n & s & s' & R & F & _).
  exists n, s, s'. split; [exact R|]. rewrite F.
  split; intros (u & O & C); exists u; (split; [exact O|]);
    (destruct C as [C|[C|(k & cs & E & N & L)]]; [left; exact C|right; left; exact C|]);
    right; right; exists k, cs; (split; [exact E|]); (split; [exact N|]); apply operator_exact; exact L.
Qed.
Print Assumptions C17_operators.

(** Below an application, [eo::find] counts and [eo::as] does not. *)
Example C17_operators_example :
  let t k := ex_app ex_f [Node k [ex_a; ex_b]; ex_a] in
  twf (t K_EVAL_FIND) /\ twf (t K_AS) /\ operator K_EVAL_FIND /\ ~ operator K_AS /\
  match computeFlags 50 (t K_EVAL_FIND) [], computeFlags 50 (t K_AS) [] with
  | Ok s, Ok s' => f_eval (get_flags s (t K_EVAL_FIND)) = true /\ f_eval (get_flags s' (t K_AS)) = false
  | _, _ => False end.
Proof.
  split; [repeat constructor|]. split; [repeat constructor|].
  split; [apply operator_exact; reflexivity|].
  split; [intros (A & _); apply A; reflexivity|]. vm_compute. auto.
Qed.
