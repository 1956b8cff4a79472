(** Property C08, what the printed text of a string is. *)
From Coq Require Import String ZArith List Bool Lia.
From Verif Require Import Base Ints IntsProofs Str Lexer SpecLit SpecNumber SpecString StrProofs NumberProofs StringProofs.
Import ListNotations.
Open Scope Z_scope.

(** The visible ASCII characters and the space. *)
Definition visible (c : Z) : Prop := 32 <= c <= 126.
(** [written c w]: w is c itself, if it is visible and no backslash, and else an escape sequence of visible characters for it. *)
Definition written (c : Z) (w : text) : Prop :=
  (visible c /\ c <> 92 /\ w = [c]) \/ (~ (visible c /\ c <> 92) /\ escape w c /\ Forall visible w).

Theorem C08_printed : forall s, str_wf s -> exists ws, str_toText s = concat ws /\ Forall2 written s ws.
Proof.
  intros s W. exists (map char_toText s). split; [unfold str_toText; apply flat_map_concat_map|].
  induction W as [|c s Hc _ IH]; [constructor|]. cbn [map]. constructor; [|exact IH]. clear IH. unfold written, char_toText, isPrintable.
  destruct ((32 <=? c) && (c <=? 126) && negb (c =? 92)) eqn:P.
  - left. apply andb_true_iff in P as [P N]. apply andb_true_iff in P as [A B]. apply negb_true_iff, Z.eqb_neq in N.
    apply Z.leb_le in A. apply Z.leb_le in B. unfold visible. auto.
  - right. destruct (hex_text c Hc) as (F & L & R). split; [|split].
    + intros [[A B] N]. apply Z.leb_le in A. apply Z.leb_le in B. apply Z.eqb_neq in N. now rewrite A, B, N in P.
    + destruct (hex_number _ F (int_toString_nonnil 16 c)) as [v Hv]. pose proof (number_read _ _ _ Hv 0) as R2.
      rewrite R in R2. injection R2 as ->. cbn [Z.mul Z.add app]. change (0 + v) with v in *. apply es_brace; [exact Hv|lia|apply Hc].
    + unfold visible. repeat (apply Forall_cons; [lia|]). apply Forall_app. split; [|apply Forall_cons; [lia|constructor]].
      apply int_toString_digits; [lia|lia|]. intros d H. unfold dchar. destruct (d <? 10) eqn:E; [apply Z.ltb_lt in E|apply Z.ltb_ge in E]; lia.
Qed.
Print Assumptions C08_printed.
(** The characters A, DEL, backslash and 0x2ffff. *)
Example C08_printed_example : str_wf [65; 127; 92; 196607] /\ str_toText [65; 127; 92; 196607] = txt "A\u{7f}\u{5c}\u{2ffff}".
Proof. split; [repeat (apply Forall_cons; [lia|]); apply Forall_nil|vm_compute; reflexivity]. Qed.
