(** The commands of the program: cli/src/main.rs and cli/src/path_args.rs. Not modelled: opening and reading files, logging, statistics, and the parser of the command line. *)
From Coq Require Import List Bool NArith Arith String Ascii Lia.
From Verif Require Import Base Term Checker Lexer TermIO ProofIO ProblemIO Scheduler ParallelMain.
Import ListNotations.
Local Open Scope string_scope.
Local Open Scope nat_scope.

(** main.rs:114-148 ParsingOptions (buffering of files is left out) *)
Record popts : Type := mkPO { o_apply_defs : bool; o_expand_lets : bool; o_subtyping : bool; o_strict : bool; o_hole_args : bool }.
(** main.rs:150-160 *)
Definition parser_config (o : popts) : pcfg := mkP (o_strict o) (o_subtyping o) (o_expand_lets o) false.
(** main.rs:168-191 CheckingOptions *)
Record copts : Type := mkCO { o_ignore : bool; o_skip : bool; o_allowed : option (list string); o_elaborated : bool }.
(** main.rs:193-201 *)
Definition checker_config (o : copts) : config := mkCfg (o_elaborated o) (o_ignore o || o_skip o) (match o_allowed o with Some l => l | None => [] end).
(** main.rs:308-338 CheckCommandOptions *)
Record check_opts : Type := mkChO { o_parsing : popts; o_checking : copts; o_threads : nat }.
(** The validator of the option [num_threads], 319-331 *)
Definition threads_ok (o : check_opts) : bool := Nat.ltb 0 (o_threads o).

(** What is seen of a run: a line and the exit status, or a crash *)
Inductive result : Type := Printed (line : string) (status : nat) | Crashed.

Section Commands.
  Variable table : bool -> string -> option crule.
  (** main.rs:576-604 check_command, with lib.rs:87-140 [check] and 143-205 [check_parallel]: [check_command o problem proof r] says that some execution ends with [r]. *)
  Definition check_command (o : check_opts) (problem proof : text) (r : outcome bool) : Prop :=
    match read_instance (parser_config (o_parsing o)) (o_apply_defs (o_parsing o)) (o_hole_args (o_parsing o)) problem proof with
    | ROk (prems, p) =>
        if Nat.eqb (o_threads o) 1 then r = check table (checker_config (o_checking o)) prems p
        else parallel table (checker_config (o_checking o)) prems (o_threads o) p r
    | RErr => r = RErr
    | RPanic => r = RPanic
    end.
  (** main.rs:474-484 *)
  Definition check_output (r : outcome bool) : result :=
    match r with ROk false => Printed "valid" 0 | ROk true => Printed "holey" 0 | RErr => Printed "invalid" 1 | RPanic => Crashed end.
  Definition run_check (o : check_opts) (problem proof : text) (x : result) : Prop := exists r, check_command o problem proof r /\ x = check_output r.

  (** main.rs:486-496 with elaborate_command (606-624) and lib.rs:212-272 [check_and_elaborate]; [passes] is the elaborator. The verdict comes first, then the proof. *)
  Definition elaborate_output (passes : list command -> outcome (list command)) (c : config) (prems : list term) (p : list command) : outcome (string * list command) :=
    do h <- check table c prems p ; do e <- passes p ; ROk (if h then "holey" else "valid", e).
End Commands.

(** main.rs:694-706: the names of the files for the proof and the problem of a slice, in this order. [stem] is the name of the proof file without the extension. *)
Definition slice_files (sliced_output : option (list string)) (stem from : string) : outcome (string * string) :=
  match sliced_output with
  | Some (a :: b :: _) => ROk (a, b)
  | Some _ => RPanic
  | None => ROk (stem ++ "-" ++ from ++ ".alethe", stem ++ "-" ++ from ++ ".smt2")
  end.
(** main.rs:746: the name of the file for a step *)
Definition lia_file_name (root id : string) : string := root ++ "-" ++ id ++ ".lia_smt2".

(** path_args.rs:8-18. The name of a file is given as its parts between dots, the last part first; the part before the first dot is not empty. *)
Definition smt_ext (x : string) : bool := existsb (String.eqb x) ["smt"; "smt2"; "smt_in"].
Fixpoint infer_problem (rparts : list string) : option (list string) :=
  match rparts with
  | x :: ((_ :: _) as r) => if smt_ext x then Some rparts else infer_problem r
  | _ => None
  end.
