From Coq Require Import ZArith QArith List Bool Lia.
From Verif Require Import Base Kind Ints Str Literal Union SpecLit LiteralProofs.
Import ListNotations.
Open Scope Z_scope.

Lemma u_intern_canonical : forall l, u_intern (u_canonical l) = Ok l.
Proof. destruct l; reflexivity. Qed.

Lemma u_evaluate_ok : forall k args,
  isNaryLiteralOp k = false \/ (exists a l, args = a :: l /\ lit_kind a <> K_NUMERAL) ->
  u_evaluate_and_intern k args = evaluate k args.
Proof.
  intros k args H. unfold u_evaluate_and_intern, u_evaluate.
  destruct (evaluate k args) as [[l|]| | |] eqn:E; try reflexivity. cbn [bind].
  destruct l; try (cbn [bind]; rewrite u_intern_canonical; reflexivity).
  destruct (isNaryLiteralOp k) eqn:N; [|reflexivity].
  exfalso. destruct H as [H|(a & r & -> & H)]; [discriminate|].
  apply evaluate_evaluate_switch in E.
  destruct k; try discriminate N; cbn [evaluate_switch] in E; injection E; intros E1;
  destruct a; cbn [lit_kind eval_nary] in *; try congruence;
    repeat match type of E1 with (if ?c then _ else _) = _ => destruct c end; try discriminate;
    destruct (fold_opt _ _ _); discriminate.
Qed.
