(** C77: the command line. *)
From Coq Require Import String ZArith List Bool Lia.
From Verif Require Import Base Kind Ints Str Literal LiteralProofs2 Arity Term Match Eval ListOps Typing Build Scope Lexer Parse Check Main SpecMain
  LexProofs TermProofs MainProofs PropRead PropLocal.
Import ListNotations.
Open Scope Z_scope.

(** Every list of arguments is a list of items in exactly one way. *)
Theorem C77_items : forall args, exists is, items args is /\ forall js, items args js -> js = is.
Proof.
  intros args. destruct (items_total (length args) args (le_n _)) as [is I]. exists is. split; [exact I|].
  intros js J. symmetry. exact (items_unique args is I js J).
Qed.
Print Assumptions C77_items.

(** If nothing ends the program early and there is at most one file, then the run has the
    options that were mentioned last, the inclusions in their order, and the file or else
    standard input; the answer is that of this run. *)
Theorem C77_run : forall G tracing stdin args is, items args is -> runnable tracing is ->
  forall d, main G tracing stdin args = Ok d <->
  exists v s i, d = Answer v s /\ Check.run G (options_of is) (includes_of is) i = Ok (v, s) /\
    (files_in is = [] /\ (exists bytes, stdin = Some bytes /\ i = InStdin bytes) \/ exists f, files_in is = [f] /\ i = InFile f).
Proof.
  intros G tr stdin args is I R d. unfold main. rewrite (read_runnable tr is args I R). cbn [bind]. destruct R as [_ L].
  destruct (files_in is) as [|f [|f' fs]] eqn:F; [| |cbn in L; lia]; cbn [hd_error].
  - destruct stdin as [bytes|].
    + split.
      * intros H. destruct (Check.run G (options_of is) (includes_of is) (InStdin bytes)) as [[v s]| | |] eqn:X; cbn [bind] in H; try discriminate H.
        injection H as <-. exists v, s, (InStdin bytes). split; [reflexivity|]. split; [exact X|]. left. eauto.
      * intros (v & s & i & -> & X & [(_ & b & B & ->)|(f & N & _)]); [|discriminate N]. injection B as ->. now rewrite X.
    + split.
      * intros H. destruct (runIncludes G (includes_of is) (st_init (options_of is))); discriminate H.
      * intros (v & s & i & -> & X & [(_ & b & B & ->)|(f & N & _)]); discriminate.
  - split.
    + intros H. destruct (Check.run G (options_of is) (includes_of is) (InFile f)) as [[v s]| | |] eqn:X; cbn [bind] in H; try discriminate H.
      injection H as <-. exists v, s, (InFile f). split; [reflexivity|]. split; [exact X|]. right. eauto.
    + intros (v & s & i & -> & X & [(N & _)|(f' & N & ->)]); [discriminate N|]. injection N as <-. now rewrite X.
Qed.
Print Assumptions C77_run.

(** Otherwise the first item that ends the program decides: a message is displayed, or the
    command line is refused, whatever follows. *)
Theorem C77_stops : forall G tracing stdin args is, items args is -> ~ runnable tracing is ->
  exists pre i post, is = pre ++ i :: post /\ runnable tracing pre /\ ~ runnable tracing (pre ++ [i]) /\
    match i with
    | IHelp => main G tracing stdin args = Ok Help
    | IConfig => main G tracing stdin args = Ok Config
    | INoTag => main G tracing stdin args = Err
    | ITrace _ | IVerbose => tracing = false /\ main G tracing stdin args = Err
    | IFile _ => length (files_in pre) = 1%nat /\ main G tracing stdin args = Err
    | ISwitch _ _ | IInclude _ | IReference _ => False
    end.
Proof. exact main_stops. Qed.
Print Assumptions C77_stops.

(** An argument that is not recognized is the name of the input file: without such a file
    there is no answer. *)
Theorem C77_unrecognized : forall G tracing stdin args is f, items args is -> In (IFile f) is -> (forall s, g_files G (g_path G (s_input s) f) = None) ->
  forall v s, main G tracing stdin args <> Ok (Answer v s).
Proof. exact main_unrecognized. Qed.
Print Assumptions C77_unrecognized.

(** The behaviour is undefined just if that of the run is; without an input the files of the command line are included all
    the same. *)
Theorem C77_undefined : forall G tracing stdin args is, items args is -> runnable tracing is ->
  (main G tracing stdin args = UB <->
   (exists i, Check.run G (options_of is) (includes_of is) i = UB /\
     (files_in is = [] /\ (exists bytes, stdin = Some bytes /\ i = InStdin bytes) \/ exists f, files_in is = [f] /\ i = InFile f)) \/
   files_in is = [] /\ stdin = None /\ runIncludes G (includes_of is) (st_init (options_of is)) = UB).
Proof.
  intros G tr stdin args is I R. unfold main. rewrite (read_runnable tr is args I R). cbn [bind]. destruct R as [_ L].
  assert (U : forall A B (r : res A) (f : A -> res B), (forall a, f a <> UB) -> (bind r f = UB <-> r = UB)).
  { intros A B r f N. destruct r; cbn [bind]; split; intros H; try discriminate H; try reflexivity. now apply N in H. }
  destruct (files_in is) as [|f [|f' fs]] eqn:F; [| |cbn in L; lia]; cbn [hd_error].
  - destruct stdin as [bytes|].
    + rewrite U by (intros []; discriminate). split.
      * intros H. left. exists (InStdin bytes). split; [exact H|]. left. split; [reflexivity|]. now exists bytes.
      * intros [(i & H & [(_ & b & B & ->) | (f & E & _)]) | (_ & B & _)]; [now injection B as -> | discriminate E | discriminate B].
    + rewrite U by discriminate. split.
      * intros H. right. auto.
      * intros [(i & H & [(_ & b & B & _) | (f & E & _)]) | (_ & _ & H)]; [discriminate B | discriminate E | exact H].
  - rewrite U by (intros []; discriminate). split.
    + intros H. left. exists (InFile f). split; [exact H|]. right. now exists f.
    + intros [(i & H & [(E & _) | (g & E & ->)]) | (E & _)]; [discriminate E | now injection E as -> | discriminate E].
Qed.
Print Assumptions C77_undefined.
Example C77_undefined_example : exists G is, items [txt "--include=a"] is /\ runnable false is /\ files_in is = [] /\
  main G false None [txt "--include=a"] = UB.
Proof.
  exists (mkConfig (fun _ => 0) Encode.var_num Encode.num_var (fun _ p => p) (fun _ => Some (txt "(declare-const f (->))")) 60 60 400), [IInclude (txt "a")].
  split; [apply (im_plain (txt "--include=a")); [exact (pi_include (txt "a")) | constructor]|]. split; [split; [repeat constructor | cbn; lia]|]. split; [reflexivity | vm_compute; reflexivity].
Qed.

(** ** Examples *)
Definition args77 : list text := map txt ["--no-parse-let"; "--include=a.eo"; "--parse-let"; "b.eo"; "--no-normalize-hex"; "--reference=r.smt2"]%string.
Definition is77 : list item :=
  [ISwitch (txt "parse-let") false; IInclude (txt "a.eo"); ISwitch (txt "parse-let") true; IFile (txt "b.eo");
   ISwitch (txt "normalize-hex") false; IReference (txt "r.smt2")].
Definition files77 (p : text) : option text :=
  if text_eqb p (txt "a.eo") then Some (txt "(declare-const p Bool)")
  else if text_eqb p (txt "r.smt2") then Some (txt "(assert p)")
  else if text_eqb p (txt "b.eo") then Some (txt "(assume h p)") else None.
Definition G77 : config := mkConfig (fun _ => 0) Encode.var_num Encode.num_var (fun _ p => p) files77 60 60 400.
Lemma no_item a : classify a = None -> forall i, ~ plain_item a i.
Proof. intros H i P. apply classify_spec in P. congruence. Qed.
Lemma is_correct r : match r with Ok (Answer Correct _) => true | _ => false end = true -> exists s, r = Ok (Answer Correct s).
Proof. destruct r as [[| |[] s]| | |]; try discriminate. eauto. Qed.
Ltac items_tac :=
  repeat first [ apply im_nil
               | refine (im_plain _ _ _ _ _ _); [first [apply (pi_on (txt "parse-let")); vm_compute; tauto | apply (pi_off (txt "parse-let")); vm_compute; tauto
                   | apply (pi_off (txt "normalize-hex")); vm_compute; tauto | apply (pi_include (txt "a.eo")) | apply (pi_reference (txt "r.smt2")) | apply pi_help] |]
               | apply im_file; [apply no_item; vm_compute; reflexivity | discriminate |] ].
Example C77_example : items args77 is77 /\ runnable false is77 /\
  options_of is77 = mkOptions true true true false false /\ includes_of is77 = [(txt "a.eo", true); (txt "r.smt2", false)] /\
  exists s, main G77 false None args77 = Ok (Answer Correct s).
Proof.
  split; [unfold args77, is77; cbn [map]; items_tac|]. split; [split; [repeat constructor|cbn; lia]|]. split; [vm_compute; reflexivity|].
  split; [vm_compute; reflexivity|]. apply is_correct. vm_compute. reflexivity.
Qed.
Example C77_stops_example : exists is, items (map txt ["b.eo"; "--help"; "-v"; "c.eo"]%string) is /\ ~ runnable false is /\
  main G77 false None (map txt ["b.eo"; "--help"; "-v"; "c.eo"]%string) = Ok Help /\ main G77 false None (map txt ["b.eo"; "-v"; "--help"]%string) = Err /\
  main G77 false None (map txt ["b.eo"; "c.eo"; "--help"]%string) = Err.
Proof.
  exists [IFile (txt "b.eo"); IHelp; IVerbose; IFile (txt "c.eo")]. split.
  { cbn [map]. items_tac. apply im_plain; [apply pi_verbose|]. items_tac. }
  split; [intros [F _]; inversion F as [|? ? _ F']; inversion F' as [|? ? X _]; exact X|]. repeat split; vm_compute; reflexivity.
Qed.
Example C77_unrecognized_example : exists is, items (map txt ["--include=a.eo"; "--normalize-number"]%string) is /\ In (IFile (txt "--normalize-number")) is /\
  (forall s, g_files G77 (g_path G77 (s_input s) (txt "--normalize-number")) = None).
Proof.
  exists [IInclude (txt "a.eo"); IFile (txt "--normalize-number")]. split; [cbn [map]; items_tac|]. split; [right; now left|]. intros s. vm_compute. reflexivity.
Qed.

(** Full statement: an argument that looks like an option and is none is refused.  It is
    false if there is a file of this name. *)
Theorem C77_refuses_refuted : exists G a, (exists r, a = txt "--" ++ r) /\ (forall i, ~ plain_item a i) /\ exists s, main G false None [a] = Ok (Answer Correct s).
Proof.
  exists (mkConfig (fun _ => 0) Encode.var_num Encode.num_var (fun _ p => p) (fun _ => Some []) 60 60 400), (txt "--normalize-number").
  split; [now exists (txt "normalize-number")|]. split; [apply no_item; vm_compute; reflexivity|]. apply is_correct. vm_compute. reflexivity.
Qed.
Print Assumptions C77_refuses_refuted.
