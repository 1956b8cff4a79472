(** Properties C69 to C72: what commands, files and runs do. *)
From Coq Require Import String ZArith List Bool Lia.
From Verif Require Import Base Kind Ints Str Literal Arity Term TermProofs Match Eval ListOps Typing Build Scope Lexer Parse Check
  SpecRead SpecCmd SpecRun Encode ReadProofs CmdProofs3 CmdProofs11 PropRead.
Import ListNotations.
Open Scope Z_scope.

(** The inclusion of files from within a file, [n] deep. *)
Definition including (G : config) (n : nat) : text -> bool -> bool -> term -> M bool :=
  fun f sig reference nf p => let* r := includeFile G n f sig reference nf (snd p) in Ok (fst r, (fst p, snd r)).

(** A command that is accepted has one of the names of commands of its file, it is what the grammar of this command
    says, the state changes as the grammar says, and the words of the command and no others are consumed. *)
Theorem C69_exact : forall G sig reference n x l s l' r p, faithful G -> files_formed G -> well_formed x -> l_peeked l = [] -> shows l (words x) l' ->
  parseNextCommand G sig reference (including G n) false (l, s) = Ok (r, p) ->
  exists w c xs, x = XL (XT T_SYMBOL w :: xs) /\ In (w, c) (command_words reference) /\
    does G sig reference (included_in G n) s c xs (snd p) /\ fst p = l' /\ (r = Some true <-> c = C_EXIT) /\ r <> None.
Proof.
  intros G sig reference n x l s l' r p H F W P S E.
  destruct (next_command G sig reference (including G n) (included_in G n) (include_only G H F n) H x l s l' W P S) as [X _].
  destruct (X r p E) as (w & c & xs & s1 & -> & I & D & -> & -> & _). exists w, c, xs. split; [reflexivity|]. split; [exact I|]. split; [exact D|]. split; [reflexivity|].
  split; [destruct c; split; (reflexivity || discriminate) | discriminate].
Qed.
Print Assumptions C69_exact.
(** Everything that the grammar allows is accepted, unless the fuel runs out. *)
Theorem C69_accepts : forall G sig reference n w c xs l s l' s1, faithful G -> files_formed G -> well_formed (XL (XT T_SYMBOL w :: xs)) -> l_peeked l = [] ->
  shows l (words (XL (XT T_SYMBOL w :: xs))) l' -> In (w, c) (command_words reference) -> does G sig reference (included_in G n) s c xs s1 ->
  parseNextCommand G sig reference (including G n) false (l, s) = Fuel \/
  exists r, parseNextCommand G sig reference (including G n) false (l, s) = Ok (r, (l', s1)).
Proof.
  intros G sig reference n w c xs l s l' s1 H F W P S I D.
  destruct (next_command G sig reference (including G n) (included_in G n) (include_only G H F n) H _ l s l' W P S) as [_ X].
  destruct (X w c xs s1 eq_refl I D) as [E|[E _]]; [now left | right; eauto].
Qed.
Print Assumptions C69_accepts.

(** A run that gives an answer is the sequence of the commands of its files, and the answer is the one that is due. *)
Theorem C70_exact : forall G o fs i v s, faithful G -> files_formed G ->
  match i with InFile _ => True | InStdin bytes => forall b, exists xs, contents (lexer_init b false (chars_of true bytes)) xs end ->
  Check.run G o fs i = Ok (v, s) -> runs G o fs i s /\ answered s v.
Proof. intros G o fs i v s H F I. exact (proj1 (run_in G H F o fs i I) v s). Qed.
Print Assumptions C70_exact.
(** Every such sequence is accepted, unless the fuel runs out. *)
Theorem C70_accepts : forall G o fs i v s, faithful G -> files_formed G ->
  match i with InFile _ => True | InStdin bytes => forall b, exists xs, contents (lexer_init b false (chars_of true bytes)) xs end ->
  runs G o fs i s -> answered s v -> Check.run G o fs i = Fuel \/ Check.run G o fs i = Ok (v, s).
Proof. intros G o fs i v s H F I. exact (proj2 (run_in G H F o fs i I) v s). Qed.
Print Assumptions C70_accepts.

(** * Examples *)
(** The S-expressions of a list of words: the lists that are open, the items of each in reverse. *)
Fixpoint sx_read (ws : list (token * text)) (open : list (list sx)) (cur : list sx) : option (list sx) :=
  match ws with
  | [] => match open with [] => Some (rev cur) | _ => None end
  | (T_LPAREN, _) :: ws' => sx_read ws' (cur :: open) []
  | (T_RPAREN, _) :: ws' => match open with up :: open' => sx_read ws' open' (XL (rev cur) :: up) | [] => None end
  | (t, s) :: ws' => sx_read ws' open (XT t s :: cur)
  end.
Fixpoint proper_b (x : sx) : bool :=
  match x with
  | XT t _ => negb (paren t) && negb (token_eqb t T_EOF)
  | XL xs => (nesting x <? 2 ^ 64) && forallb proper_b xs
  end.
Definition valued_b (x : sx) : bool :=
  match x with XL [XT T_SYMBOL w; _] => negb (text_eqb w (txt "set-info")) && negb (text_eqb w (txt "set-option")) | _ => true end.
Fixpoint words_eqb (a b : list (token * text)) : bool :=
  match a, b with
  | [], [] => true
  | (t, s) :: a', (u, v) :: b' => token_eqb t u && text_eqb s v && words_eqb a' b'
  | _, _ => false
  end.
Lemma words_eqb_eq a : forall b, words_eqb a b = true -> a = b.
Proof.
  induction a as [|[t s] a IH]; intros [|[u v] b] H; try discriminate H; [reflexivity|]. cbn [words_eqb] in H. apply andb_prop in H. destruct H as [H1 H2].
  apply andb_prop in H1. destruct H1 as [H1 H3]. apply token_eqb_eq in H1. apply text_eqb_eq in H3. rewrite (IH b H2). congruence.
Qed.
Fixpoint proper_b_ok (x : sx) : proper_b x = true -> proper x.
Proof.
  destruct x as [t s|xs]; cbn [proper_b]; intros H; apply andb_prop in H; destruct H as [H1 H2].
  - apply negb_true_iff in H1, H2. apply pr_word; [exact H1|]. intros ->. discriminate H2.
  - apply pr_list; [now apply Z.ltb_lt|]. clear H1. revert H2. induction xs as [|x xs IH]; intros H; [constructor|]. cbn [forallb] in H. apply andb_prop in H. destruct H as [H1 H2].
    constructor; [now apply proper_b_ok | now apply IH].
Qed.
Lemma valued_b_ok x : valued_b x = true -> valued x.
Proof.
  intros H w y ->. cbn [valued_b] in H. apply andb_prop in H. destruct H as [H1 H2]. apply negb_true_iff in H1, H2.
  split; intros ->; [rewrite (proj2 (text_eqb_eq _ _) eq_refl) in H1; discriminate H1 | rewrite (proj2 (text_eqb_eq _ _) eq_refl) in H2; discriminate H2].
Qed.
(** The S-expressions of a text of at most [n] words. *)
Fixpoint all_words (n : nat) (l : lexer) : option (list (token * text)) :=
  match n with
  | O => None
  | S m => match nextToken l with
           | Ok (T_EOF, _) => Some []
           | Ok (t, l1) => match all_words m l1 with Some ws => Some ((t, if paren t then [] else tokenStr l1) :: ws) | None => None end
           | _ => None
           end
  end.
Lemma all_words_ok n : forall l ws, all_words n l = Some ws -> exists l1 l2, shows l ws l1 /\ nextToken l1 = Ok (T_EOF, l2).
Proof.
  induction n as [|n IH]; intros l ws H; [discriminate H|]. cbn [all_words] in H. destruct (nextToken l) as [[t l1]| | |] eqn:N; try discriminate H.
  destruct (token_eqb t T_EOF) eqn:E.
  - apply token_eqb_eq in E. subst t. injection H as <-. exists l, l1. split; [constructor | exact N].
  - assert (Q : exists ws1, all_words n l1 = Some ws1 /\ ws = (t, if paren t then [] else tokenStr l1) :: ws1).
    { destruct (all_words n l1) as [ws1|]; [exists ws1; split; [reflexivity|]; destruct t; try discriminate E; now injection H as <- | destruct t; try discriminate E; discriminate H]. }
    destruct Q as (ws1 & A & ->). destruct (IH l1 ws1 A) as (l2 & l3 & S & M). exists l2, l3. split; [|exact M]. econstructor; [exact N | | exact S]. intros ->. reflexivity.
Qed.
Definition contents_of (n : nat) (l : lexer) : option (list sx) :=
  match all_words n l with
  | Some ws => match sx_read ws [] [] with
               | Some xs => if forallb proper_b xs && forallb valued_b xs && words_eqb ws (flat_map words xs) then Some xs else None
               | None => None
               end
  | None => None
  end.
Lemma contents_of_ok n l xs : contents_of n l = Some xs -> contents l xs.
Proof.
  unfold contents_of. destruct (all_words n l) as [ws|] eqn:A; [|discriminate]. destruct (sx_read ws [] []) as [ys|]; [|discriminate].
  destruct (forallb proper_b ys && forallb valued_b ys && words_eqb ws (flat_map words ys)) eqn:E; [|discriminate]. intros H. injection H as ->.
  apply andb_prop in E. destruct E as [E E3]. apply andb_prop in E. destruct E as [E1 E2]. apply words_eqb_eq in E3. rewrite forallb_forall in E1, E2.
  destruct (all_words_ok n l ws A) as (l1 & l2 & S & N). split; [|exists l1, l2; rewrite <- E3; auto].
  apply Forall_forall. intros x I. split; [apply proper_b_ok; auto | apply valued_b_ok; auto].
Qed.
Definition has_contents (n : nat) (bytes : text) : bool :=
  forallb (fun f : bool * bool => match contents_of n (lexer_init (fst f) (snd f) (chars_of false bytes)) with Some _ => true | None => false end)
    [(true, true); (true, false); (false, true); (false, false)].
Lemma has_contents_ok n bytes a b : has_contents n bytes = true -> exists xs, contents (lexer_init a b (chars_of false bytes)) xs.
Proof.
  unfold has_contents. rewrite forallb_forall. intros H. assert (I : In (a, b) [(true, true); (true, false); (false, true); (false, false)]) by (destruct a, b; cbn; auto).
  specialize (H _ I). cbn [fst snd] in H. destruct (contents_of n (lexer_init a b (chars_of false bytes))) as [xs|] eqn:E; [|discriminate H]. exists xs. now apply contents_of_ok in E.
Qed.

(** A signature, a rule, a proof that includes the signature. *)
Definition sig70 : string :=
"(declare-const Int Type) (declare-parameterized-const = ((T Type :implicit)) (-> T T Bool)) (declare-const P (-> Int Bool))
(declare-const and (-> Bool Bool Bool) :right-assoc-nil true)
(declare-datatypes ((Nat 0) (Lst 1)) (((zero) (succ (pred Nat))) (par (X) ((nil) (cons (head X) (tail (Lst X)))))))
(declare-rule and_elim ((F Bool) (G Bool)) :premises ((and F G)) :conclusion F)
(declare-rule scope ((F Bool) (G Bool)) :assumption F :premises (G) :conclusion (and F G))
(program $fst ((F Bool) (G Bool)) :signature (Bool) Bool ((($fst (and F G)) F)))".
Definition proof70 : string :=
"(include ""s"") (declare-const a Int) (define Q ((x Int)) (and (P x) true))
(assume-push p0 (and (P a) (Q a))) (step p1 (P a) :rule and_elim :premises (p0)) (step-pop p2 :rule scope :premises (p1))
(echo ""done"") (exit) (unknown)".
Definition files70 (p : text) : option text :=
  if text_eqb p (txt "s") then Some (txt sig70) else if text_eqb p (txt "p") then Some (txt proof70) else None.
Definition cfg70 : config := mkConfig (fun _ => 0) var_num num_var (fun _ p => p) files70 60 60 400.
Lemma cfg70_faithful : faithful cfg70. Proof. exact var_num_ok. Qed.
Lemma cfg70_formed : files_formed cfg70.
Proof.
  intros path bytes s sig. cbn [g_files cfg70]. unfold files70, text_of. destruct (text_eqb path (txt "s")); [|destruct (text_eqb path (txt "p")); [|discriminate]]; intros H; injection H as <-;
    apply (has_contents_ok 400); vm_compute; reflexivity.
Qed.
Example C70_example : exists s, faithful cfg70 /\ files_formed cfg70 /\ Check.run cfg70 options_init [] (InFile (txt "p")) = Ok (Correct, s) /\
  runs cfg70 options_init [] (InFile (txt "p")) s /\ answered s Correct /\ length (s_log s) = 59%nat.
Proof.
  assert (E : match Check.run cfg70 options_init [] (InFile (txt "p")) with Ok (Correct, s) => Nat.eqb (length (s_log s)) 59 | _ => false end = true) by (vm_compute; reflexivity).
  destruct (Check.run cfg70 options_init [] (InFile (txt "p"))) as [[[] s]| | |] eqn:X; try discriminate E. apply Nat.eqb_eq in E.
  destruct (C70_exact cfg70 options_init [] (InFile (txt "p")) Correct s cfg70_faithful cfg70_formed I X) as [R A].
  exists s. split; [exact cfg70_faithful|]. split; [exact cfg70_formed|]. auto.
Qed.

(** The state after the signature, and a rule declared there. *)
Definition s70 : st := match includeFile cfg70 60 (txt "s") true false null_term (st_init options_init) with Ok (_, s) => s | _ => st_init options_init end.
Definition t69 : string := "(declare-rule eq_res ((T Type) (x T) (y T) (F Bool)) :premises ((= x y) F) :args (x) :requires ((F true)) :conclusion-explicit (= y x) :sorry) rest".
Definition l69 : lexer := lexer_init true true (chars_of false (txt t69)).
Definition k (s : string) : sx := XT T_KEYWORD (txt s).
Definition xs69 : list sx :=
  [w "eq_res"; XL [XL [w "T"; XT T_TYPE (txt "Type")]; XL [w "x"; w "T"]; XL [w "y"; w "T"]; XL [w "F"; XT T_BOOL_TYPE (txt "Bool")]]; k ":premises"; XL [XL [w "="; w "x"; w "y"]; w "F"]; k ":args"; XL [w "x"];
   k ":requires"; XL [XL [w "F"; w "true"]]; k ":conclusion-explicit"; XL [w "="; w "y"; w "x"]; k ":sorry"].
Example C69_example : exists l' s1, well_formed (XL (w "declare-rule" :: xs69)) /\ l_peeked l69 = [] /\ shows l69 (words (XL (w "declare-rule" :: xs69))) l' /\
  parseNextCommand cfg70 true false (including cfg70 60) false (l69, s70) = Ok (Some false, (l', s1)) /\
  does cfg70 true false (included_in cfg70 60) s70 C_DECLARE_RULE xs69 s1 /\ length (s_sorry s1) = 1%nat.
Proof.
  assert (W : well_formed (XL (w "declare-rule" :: xs69))) by (split; [apply proper_b_ok; reflexivity | intros v y Y; discriminate Y]).
  assert (H : exists l', take 49 l69 = (words (XL (w "declare-rule" :: xs69)), l')) by (eexists; vm_compute; reflexivity). destruct H as [l' H]. pose proof (take_shows _ _ _ _ H) as S.
  assert (E : match parseNextCommand cfg70 true false (including cfg70 60) false (l69, s70) with Ok (Some false, (_, s)) => Nat.eqb (length (s_sorry s)) 1 | _ => false end = true) by (vm_compute; reflexivity).
  destruct (parseNextCommand cfg70 true false (including cfg70 60) false (l69, s70)) as [[[[]|] [l1 s1]]| | |] eqn:X; try discriminate E. apply Nat.eqb_eq in E.
  destruct (C69_exact cfg70 true false 60 _ l69 s70 l' _ _ cfg70_faithful cfg70_formed W eq_refl S X) as (v & c & ys & EQ & I & D & L & _). injection EQ as <- <-. cbn [fst snd] in L, D. subst l1.
  assert (C : c = C_DECLARE_RULE). { apply command_find in I. vm_compute in I. now injection I as <-. }
  subst c. exists l', s1. auto 8.
Qed.

(** A command is not always one list (why [valued] is needed in C69): a set-info without a value takes the next list for its end and its value. *)
Theorem C71_one_list_refuted : exists l l' s p, Forall proper [XL [w "set-info"; k ":status"]; XL []] /\
  shows l (words (XL [w "set-info"; k ":status"]) ++ words (XL [])) l' /\
  parseNextCommand cfg70 false true (including cfg70 60) false (l, s) = Ok (Some false, (l', p)) /\
  forall c s1, In (txt "set-info", c) (command_words true) -> ~ does cfg70 false true (included_in cfg70 60) s c [k ":status"] s1.
Proof.
  pose (l := lexer_init true false (chars_of false (txt "(set-info :status) () (exit)"))).
  assert (H : exists l', take 6 l = (words (XL [w "set-info"; k ":status"]) ++ words (XL []), l')) by (eexists; vm_compute; reflexivity). destruct H as [l' H].
  pose proof (take_shows _ _ _ _ H) as S.
  exists l, l', s70. assert (E : exists p, parseNextCommand cfg70 false true (including cfg70 60) false (l, s70) = Ok (Some false, (l', p))).
  { assert (E : match parseNextCommand cfg70 false true (including cfg70 60) false (l, s70) with Ok (Some false, (l1, _)) => Some l1 | _ => None end = Some (snd (take 6 l))) by (vm_compute; reflexivity).
    rewrite H in E. cbn [snd] in E. destruct (parseNextCommand cfg70 false true (including cfg70 60) false (l, s70)) as [[[[]|] [l1 p]]| | |]; try discriminate E. injection E as ->. now exists p. }
  destruct E as [p E]. exists p. split; [repeat constructor; discriminate|]. split; [exact S|]. split; [exact E|].
  intros c s1 I D. assert (C : c = C_SET_INFO). { apply command_find in I. vm_compute in I. now injection I as <-. }
  subst c. inversion D.
Qed.
Print Assumptions C71_one_list_refuted.

(** Full statement: for all commands.  Missing: set-info and set-option, which are accepted
    without a value (above). *)
Theorem C71_one_list_partial : forall G sig reference n w xs l s l' r p, faithful G -> files_formed G -> proper (XL (XT T_SYMBOL w :: xs)) ->
  w <> txt "set-info" -> w <> txt "set-option" -> l_peeked l = [] -> shows l (words (XL (XT T_SYMBOL w :: xs))) l' ->
  parseNextCommand G sig reference (including G n) false (l, s) = Ok (r, p) -> fst p = l'.
Proof.
  intros G sig reference n w xs l s l' r p H F P N1 N2 K S E.
  assert (W : well_formed (XL (XT T_SYMBOL w :: xs))).
  { split; [exact P|]. intros v y Y. injection Y as Y _. split; congruence. }
  destruct (C69_exact G sig reference n _ l s l' r p H F W K S E) as (v & c & ys & _ & _ & _ & X & _). exact X.
Qed.
Print Assumptions C71_one_list_partial.
Example C71_example : exists l' p, proper (XL (w "declare-rule" :: xs69)) /\ shows l69 (words (XL (w "declare-rule" :: xs69))) l' /\
  parseNextCommand cfg70 true false (including cfg70 60) false (l69, s70) = Ok (Some false, p) /\ fst p = l' /\ tokenStr l' = [41].
Proof.
  destruct C69_example as (l' & s1 & W & _ & S & X & _). exists l', (l', s1). split; [exact (proj1 W)|]. split; [exact S|]. split; [exact X|]. split; [reflexivity|].
  assert (H : exists l1, take 49 l69 = (words (XL (w "declare-rule" :: xs69)), l1) /\ tokenStr l1 = [41]) by (eexists; vm_compute; split; reflexivity).
  destruct H as (l1 & H & T). apply take_shows in H.
  replace l' with l1; [exact T|].
  pose proof (C71_one_list_partial cfg70 true false 60 (txt "declare-rule") xs69 l69 s70 l1 _ _ cfg70_faithful cfg70_formed (proj1 W) ltac:(discriminate) ltac:(discriminate) eq_refl H X) as Y.
  symmetry. exact Y.
Qed.

(** What a command leaves behind: what a name stands for, and its attribute. *)
Definition after (t : string) (f : st -> bool) : Prop :=
  match parseNextCommand cfg70 true false (including cfg70 60) false (lexer_init true true (chars_of false (txt t)), s70) with Ok (Some false, (_, s1)) => f s1 = true | _ => False end.
(** A datatype may be declared and never defined: the number of definitions is not compared with the number of names. *)
Theorem C72_defined_refuted : after "(declare-datatypes ((A 0) (B 0)) (((a))))" (fun s1 =>
  match getVar (s_scope s1) (txt "A"), getVar (s_scope s1) (txt "B") with
  | Some a, Some b => match s_marks s1 a, s_marks s1 b with Some (A_DATATYPE, _), None => true | _, _ => false end
  | _, _ => false
  end).
Proof. vm_compute. reflexivity. Qed.
Print Assumptions C72_defined_refuted.
(** A parametric datatype declared by itself has no name afterwards: it was bound in the scope of its parameters. *)
Theorem C72_bound_refuted : after "(declare-datatype D (par (X) ((mk (get X)))))" (fun s1 =>
  match getVar (s_scope s1) (txt "D"), getVar (s_scope s1) (txt "mk") with None, Some _ => true | _, _ => false end).
Proof. vm_compute. reflexivity. Qed.
Print Assumptions C72_bound_refuted.
