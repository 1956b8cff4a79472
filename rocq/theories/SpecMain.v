(** What the command line means. *)
From Coq Require Import String ZArith List Bool.
From Verif Require Import Base Kind Lexer Parse Check Main.
Import ListNotations.
Open Scope Z_scope.

(** The options that can be switched on and off. *)
Definition switches : list text :=
  map txt ["parse-let"; "print-dag"; "stats"; "stats-all"; "stats-compact"; "rule-sym-table"; "normalize-dec"; "normalize-num"; "normalize-hex"]%string.
(** The items of a command line. *)
Inductive item : Type :=
| ISwitch (k : text) (b : bool)
| IInclude (f : text)
| IReference (f : text)
| IHelp
| IConfig
| ITrace (tag : text)
| INoTag
| IVerbose
| IFile (f : text).
(** Arguments that are an item of their own and are not names of files. *)
Inductive plain_item : text -> item -> Prop :=
| pi_on : forall k, In k switches -> plain_item (txt "--" ++ k) (ISwitch k true)
| pi_off : forall k, In k switches -> plain_item (txt "--no-" ++ k) (ISwitch k false)
| pi_include : forall f, plain_item (txt "--include=" ++ f) (IInclude f)
| pi_reference : forall f, plain_item (txt "--reference=" ++ f) (IReference f)
| pi_help : plain_item (txt "--help") IHelp
| pi_config : plain_item (txt "--show-config") IConfig
| pi_verbose : plain_item (txt "-v") IVerbose.
(** The items of a list of arguments: any other argument is the name of a file. *)
Inductive items : list text -> list item -> Prop :=
| im_nil : items [] []
| im_plain : forall a i args is, plain_item a i -> items args is -> items (a :: args) (i :: is)
| im_trace : forall tag args is, items args is -> items (txt "-t" :: tag :: args) (ITrace tag :: is)
| im_no_tag : items [txt "-t"] [INoTag]
| im_file : forall a args is, (forall i, ~ plain_item a i) -> a <> txt "-t" -> items args is -> items (a :: args) (IFile a :: is).

Fixpoint files_in (is : list item) : list text :=
  match is with [] => [] | IFile f :: is => f :: files_in is | _ :: is => files_in is end.
(** The files to be included before, as signatures (true) or as references, in order. *)
Fixpoint includes_of (is : list item) : list (text * bool) :=
  match is with
  | [] => []
  | IInclude f :: is => (f, true) :: includes_of is
  | IReference f :: is => (f, false) :: includes_of is
  | _ :: is => includes_of is
  end.
(** The value of a switch is that of its last mention. *)
Fixpoint switched (k : text) (b : bool) (is : list item) : bool :=
  match is with
  | [] => b
  | ISwitch k' b' :: is => switched k (if text_eqb k' k then b' else b) is
  | _ :: is => switched k b is
  end.
Definition options_of (is : list item) : options :=
  mkOptions (switched (txt "parse-let") true is) (switched (txt "rule-sym-table") true is)
    (switched (txt "normalize-dec") true is) (switched (txt "normalize-hex") true is) (switched (txt "normalize-num") false is).
(** Items with which the program goes on, if [tracing] is available. *)
Definition goes_on (tracing : bool) (i : item) : Prop :=
  match i with
  | IHelp | IConfig | INoTag => False
  | ITrace _ | IVerbose => tracing = true
  | _ => True
  end.
(** No item ends the program and at most one file is named. *)
Definition runnable (tracing : bool) (is : list item) : Prop := Forall (goes_on tracing) is /\ (length (files_in is) <= 1)%nat.
