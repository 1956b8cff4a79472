(** The command line: main, src/main.cpp 21-207. *)
From Coq Require Import String ZArith List Bool.
From Verif Require Import Base Kind Ints Str Literal Arity Term Match Eval ListOps Typing Build Scope Lexer Parse Check.
Import ListNotations.
Open Scope Z_scope.

(** arg.compare(0, n, p) == 0 for a p of length n: main.cpp 35, 42, 49-50. *)
Definition starts (p : string) (arg : text) : bool := text_eqb (firstn (length (txt p)) arg) (txt p).
(** arg.substr(n): main.cpp 37, 44. *)
Definition substr_from (n : nat) (arg : text) : text := skipn n arg.
(** arg.substr(arg.find_first_of("=") + 1): main.cpp 53-54; if there is no such character
    find_first_of gives npos and the result is the whole argument. *)
Fixpoint after_eq (arg : text) : option text :=
  match arg with
  | [] => None
  | c :: r => if c =? 61 then Some r else after_eq r
  end.

(** What reading the arguments comes to: a message is displayed and the program ends
    (main.cpp 58-80 and 81-98), or the run starts. *)
Inductive command_line : Type :=
| ShowHelp
| ShowConfig
| Go (o : options) (includes : list (text * bool)) (file : option text).

(** The loop over the arguments: main.cpp 31-141.  [tracing]: whether EO_TRACING is defined.
    The options print-dag, stats, stats-all and stats-compact and the trace channels are not
    kept (they do not matter for the verdict). *)
Fixpoint readArgs (tracing : bool) (args : list text) (o : options) (includes : list (text * bool)) (file : option text)
  : res command_line :=
  match args with
  | [] => Ok (Go o includes file)
  | arg :: args' =>
      let set := if starts "--no-" arg then setOption o (substr_from 5 arg) false
                 else if starts "--" arg then setOption o (substr_from 2 arg) true
                 else None in
      match set with
      | Some o' => readArgs tracing args' o' includes file
      | None =>
          let isInclude := starts "--include=" arg in
          if isInclude || starts "--reference=" arg then
            let f := match after_eq arg with Some f => f | None => arg end in
            readArgs tracing args' o (includes ++ [(f, isInclude)]) file
          else if text_eqb arg (txt "--help") then Ok ShowHelp
          else if text_eqb arg (txt "--show-config") then Ok ShowConfig
          else if text_eqb arg (txt "-t") then
            match args' with
            | [] => Err
            | _ :: args'' => if tracing then readArgs tracing args'' o includes file else Err
            end
          else if text_eqb arg (txt "-v") then
            (if tracing then readArgs tracing args' o includes file else Err)
          else
            match file with
            | None => readArgs tracing args' o includes (Some arg)
            | Some _ => Err
            end
      end
  end.

(** What the program displays on success. *)
Inductive display : Type := Help | Config | Answer (v : verdict) (s : st).
Section Main.
Variable G : config.
(** main: main.cpp 21-207.  [stdin]: what can be read from standard input, nothing if that is
    a terminal (main.cpp 164-171). *)
Definition main (tracing : bool) (stdin : option text) (args : list text) : res display :=
  let* c := readArgs tracing args options_init [] None in
  match c with
  | ShowHelp => Ok Help
  | ShowConfig => Ok Config
  | Go o includes (Some f) => let* (v, s) := Check.run G o includes (InFile f) in Ok (Answer v s)
  | Go o includes None =>
      match stdin with
      | Some bytes => let* (v, s) := Check.run G o includes (InStdin bytes) in Ok (Answer v s)
      | None => let* _ := runIncludes G includes (st_init o) in Err
      end
  end.
End Main.
