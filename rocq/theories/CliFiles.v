(** Which texts a command works on: cli/src/main.rs get_instance. *)
From Coq Require Import List Bool NArith Arith String.
From Verif Require Import Base Term Checker Lexer TermIO ProofIO ProblemIO R_Rare FullTable RareIO Scheduler ParallelMain Cli CliRules.
Import ListNotations.
Local Open Scope string_scope.

(** main.rs:88-98 Input *)
Record input : Type := mkIn { i_proof : string; i_problem : option string; i_rare : option string }.

Section Files.
  (** the contents of the files that can be opened and read, and what is on standard input. Buffering (main.rs:516-525) is left out, and so are errors while a file is being read. *)
  Variable fs : string -> option text.
  Variable stdin : text.
  (** path_args.rs infer_problem_path; see [infer_problem] *)
  Variable infer : string -> option string.

  (** main.rs:516-525 *)
  Definition reader_from_path (path : string) : outcome text := match fs path with Some t => ROk t | None => RErr end.
  (** main.rs:526-529 *)
  Definition read_rare_file (i : input) : outcome (option text) :=
    match i_rare i with Some f => do t <- reader_from_path f ; ROk (Some t) | None => ROk None end.
  (** main.rs:515-566: the problem, the proof and the rules *)
  Definition get_instance (i : input) : outcome (text * text * option text) :=
    match i_problem i with
    | Some problem =>
        if String.eqb (i_proof i) "-" then
          if String.eqb problem "-" then RErr
          else do r <- read_rare_file i ; do p <- reader_from_path problem ; ROk (p, stdin, r)
        else if String.eqb problem "-" then do r <- read_rare_file i ; do q <- reader_from_path (i_proof i) ; ROk (stdin, q, r)
        else do r <- read_rare_file i ; do p <- reader_from_path problem ; do q <- reader_from_path (i_proof i) ; ROk (p, q, r)
    | None =>
        if String.eqb (i_proof i) "-" then RErr
        else do r <- read_rare_file i ; do n <- (match infer (i_proof i) with Some n => ROk n | None => RErr end) ;
             do p <- reader_from_path n ; do q <- reader_from_path (i_proof i) ; ROk (p, q, r)
    end.
  (** main.rs:474-484 with 576-604: any error, also of [get_instance], is printed as invalid. Without a file of rules there are none. *)
  Definition run_files (show : term -> string) (o : check_opts) (i : input) (x : result) : Prop :=
    match get_instance i with
    | ROk (p, q, Some r) => run_check_rules show o p q r x
    | ROk (p, q, None) => run_check (full_table show []) o p q x
    | _ => x = check_output RErr
    end.
End Files.
