(** The check command with a file of RARE rules. *)
From Coq Require Import List Bool NArith Arith String.
From Verif Require Import Base Term Checker Lexer TermIO ProofIO ProblemIO R_Rare FullTable RareIO Scheduler ParallelMain Cli.
Import ListNotations.

Section CommandsRules.
  Variable show : term -> string.
  (** main.rs:576-604 check_command with a file of rules (option rare_file, main.rs:97 and 519-566), lib.rs:87-140 [check] and 143-205 [check_parallel]. As [check_command], with the rules that are read
      after the proof; both checkers get the same rules. *)
  Definition check_command_rules (o : check_opts) (problem proof rules : text) (r : outcome bool) : Prop :=
    match read_instance_rules (parser_config (o_parsing o)) (o_apply_defs (o_parsing o)) (o_hole_args (o_parsing o)) problem proof rules with
    | ROk (prems, p, rs) =>
        if Nat.eqb (o_threads o) 1 then r = check (full_table show rs) (checker_config (o_checking o)) prems p
        else parallel (full_table show rs) (checker_config (o_checking o)) prems (o_threads o) p r
    | RErr => r = RErr
    | RPanic => r = RPanic
    end.
  (** main.rs:474-484 *)
  Definition run_check_rules (o : check_opts) (problem proof rules : text) (x : result) : Prop :=
    exists r, check_command_rules o problem proof rules r /\ x = check_output r.
End CommandsRules.
