(** C65: the texts that are checked are those that were named. *)
From Coq Require Import List Bool NArith Arith String Lia.
From Verif Require Import Base Term Sem Checker Lexer TermIO ProofIO ProblemIO R_Rare FullTable RareIO P_RareIO Scheduler ParallelMain Cli P_Cli CliRules P_CliRules CliFiles.
Import ListNotations.
Local Open Scope string_scope.
Local Open Scope nat_scope.

(** *** Specification: the name "-" stands for standard input, any other for the file *)
Definition source (fs : string -> option text) (stdin : text) (name : string) : option text := if String.eqb name "-" then Some stdin else fs name.
Definition problem_source (fs : string -> option text) (stdin : text) (infer : string -> option string) (i : input) : option text :=
  match i_problem i with
  | Some name => source fs stdin name
  | None => match infer (i_proof i) with Some name => fs name | None => None end
  end.
(** the file of rules is always a file *)
Definition rare_source (fs : string -> option text) (i : input) (r : option text) : Prop :=
  match i_rare i with Some name => exists t, fs name = Some t /\ r = Some t | None => r = None end.
(** standard input is wanted for the proof, and also for the problem or the problem is to be inferred *)
Definition both_stdin (i : input) : Prop := i_proof i = "-" /\ (i_problem i = Some "-" \/ i_problem i = None).

(** The problem, the proof and the rules are the contents of what was named, and there is an error exactly if one of them is not there or standard input would be needed twice. *)
Theorem C65_sources : forall fs stdin infer i p q r, get_instance fs stdin infer i = ROk (p, q, r) <->
  ~ both_stdin i /\ problem_source fs stdin infer i = Some p /\ source fs stdin (i_proof i) = Some q /\ rare_source fs i r.
Proof.
  intros fs stdin infer [pf pb rf] p q r. unfold get_instance, both_stdin, problem_source, source, rare_source, read_rare_file, reader_from_path. cbn [i_proof i_problem i_rare].
  assert (HR : forall (B : Type) (k : option text -> outcome B) b,
    obind (match rf with Some f => do t <- (match fs f with Some t => ROk t | None => RErr end) ; ROk (Some t) | None => ROk None end) k = ROk b <->
    exists r0, match rf with Some name => exists t, fs name = Some t /\ r0 = Some t | None => r0 = None end /\ k r0 = ROk b).
  { intros B k b. destruct rf as [f|]; [destruct (fs f) as [t|]|]; cbn [obind]; split.
    - intros H. exists (Some t). split; [exists t; auto|exact H].
    - intros (r0 & (t' & E & ->) & H). injection E as <-. exact H.
    - discriminate.
    - intros (r0 & (t' & E & _) & _). discriminate.
    - intros H. exists None. auto.
    - intros (r0 & -> & H). exact H. }
  destruct pb as [pb|]; destruct (String.eqb_spec pf "-") as [->|Np].
  - destruct (String.eqb_spec pb "-") as [->|Nb].
    + split; [discriminate|]. intros (H & _). destruct H. auto.
    + rewrite HR. destruct (fs pb) as [t|]; cbn [obind]; split.
      * intros (r0 & Hr & H). injection H as <- <- <-. split; [intros [_ [H|H]]; congruence|auto].
      * intros (_ & H1 & H2 & H3). injection H1 as <-. injection H2 as <-. exists r. auto.
      * intros (r0 & _ & H). discriminate.
      * intros (_ & H1 & _). discriminate.
  - destruct (String.eqb_spec pb "-") as [->|Nb]; rewrite HR.
    + destruct (fs pf) as [t|]; cbn [obind]; split.
      * intros (r0 & Hr & H). injection H as <- <- <-. split; [intros [H _]; congruence|auto].
      * intros (_ & H1 & H2 & H3). injection H1 as <-. injection H2 as <-. exists r. auto.
      * intros (r0 & _ & H). discriminate.
      * intros (_ & _ & H1 & _). discriminate.
    + destruct (fs pb) as [t|]; cbn [obind]; [destruct (fs pf) as [u|]; cbn [obind]|]; split.
      * intros (r0 & Hr & H). injection H as <- <- <-. split; [intros [H _]; congruence|auto].
      * intros (_ & H1 & H2 & H3). injection H1 as <-. injection H2 as <-. exists r. auto.
      * intros (r0 & _ & H). discriminate.
      * intros (_ & _ & H1 & _). discriminate.
      * intros (r0 & _ & H). discriminate.
      * intros (_ & H1 & _). discriminate.
  - split; [discriminate|]. intros (H & _). destruct H. auto.
  - rewrite HR. destruct (infer pf) as [nm|]; cbn [obind]; [destruct (fs nm) as [t|]; cbn [obind]; [destruct (fs pf) as [u|]; cbn [obind]|]|]; split;
      try (intros (r0 & _ & H); discriminate); try (intros (_ & H1 & H2 & _); discriminate).
    + intros (r0 & Hr & H). injection H as <- <- <-. split; [intros [H _]; congruence|auto].
    + intros (_ & H1 & H2 & H3). injection H1 as <-. injection H2 as <-. exists r. auto.
Qed.
Print Assumptions C65_sources.
(** A file that is missing, or standard input for both, is never a crash and never "valid": "invalid" is printed. *)
Theorem C65_missing : forall fs stdin infer show o i x, (forall p q r, ~ (~ both_stdin i /\ problem_source fs stdin infer i = Some p /\ source fs stdin (i_proof i) = Some q /\ rare_source fs i r)) ->
  run_files fs stdin infer show o i x -> x = Printed "invalid" 1.
Proof.
  intros fs stdin infer show o i x H. unfold run_files. destruct (get_instance fs stdin infer i) as [[[p q] r]| |] eqn:E; [|intros ->; reflexivity|intros ->; reflexivity].
  apply C65_sources in E. destruct (H p q r E).
Qed.
Print Assumptions C65_missing.
(** "valid" is said about what was named: the proof that was named is accepted for the problem that was named, with the rules that were named. *)
Theorem C65_valid : forall fs stdin infer show o i status, threads_ok o = true -> run_files fs stdin infer show o i (Printed "valid" status) ->
  exists p q r prems proof rules, problem_source fs stdin infer i = Some p /\ source fs stdin (i_proof i) = Some q /\ rare_source fs i r /\
    (match r with
     | Some t => read_instance_rules (parser_config (o_parsing o)) (o_apply_defs (o_parsing o)) (o_hole_args (o_parsing o)) p q t = ROk (prems, proof, rules)
     | None => read_instance (parser_config (o_parsing o)) (o_apply_defs (o_parsing o)) (o_hole_args (o_parsing o)) p q = ROk (prems, proof) /\ rules = []
     end) /\
    check (full_table show rules) (checker_config (o_checking o)) prems proof = ROk false.
Proof.
  intros fs stdin infer show o i status Ht H. unfold run_files in H. destruct (get_instance fs stdin infer i) as [[[p q] r]| |] eqn:E; [|discriminate|discriminate].
  apply C65_sources in E. destruct E as (_ & E1 & E2 & E3). exists p, q, r. destruct r as [t|]; destruct H as [v [Hc Ex]]; destruct v as [[]| |]; try discriminate.
  - destruct (command_rules_accepts _ _ _ _ _ _ Ht Hc) as (prems & proof & rules & rs & Hr & _ & Hk). exists prems, proof, rules. auto.
  - destruct (command_accepts _ _ _ _ _ Ht Hc) as (prems & proof & rs & Hr & _ & Hk). exists prems, proof, []. auto 6.
Qed.
Print Assumptions C65_valid.
Definition fs_ex (name : string) : option text :=
  if String.eqb name "a.smt2" then Some rt_problem else if String.eqb name "a.smt2.proof" then Some rt_proof else if String.eqb name "r.rare" then Some rt_rules else None.
Definition infer_ex (name : string) : option string := if String.eqb name "a.smt2.proof" then Some "a.smt2" else None.
Example C65_ex : forall show, threads_ok (opts0 1) = true /\
  run_files fs_ex [] infer_ex show (opts0 1) (mkIn "a.smt2.proof" None (Some "r.rare")) (Printed "valid" 0) /\
  run_files fs_ex rt_proof infer_ex show (opts0 1) (mkIn "-" (Some "a.smt2") (Some "r.rare")) (Printed "valid" 0) /\
  run_files fs_ex rt_problem infer_ex show (opts0 1) (mkIn "a.smt2.proof" (Some "-") (Some "r.rare")) (Printed "valid" 0) /\
  run_files fs_ex rt_proof infer_ex show (opts0 1) (mkIn "-" None (Some "r.rare")) (Printed "invalid" 1) /\
  run_files fs_ex rt_proof infer_ex show (opts0 1) (mkIn "a.smt2.proof" None None) (Printed "invalid" 1).
Proof.
  intros show. split; [reflexivity|]. split; [exists (ROk false); split; [vm_compute; reflexivity|reflexivity]|]. split; [exists (ROk false); split; [vm_compute; reflexivity|reflexivity]|].
  split; [exists (ROk false); split; [vm_compute; reflexivity|reflexivity]|]. split; [reflexivity|]. exists RErr. split; [vm_compute; reflexivity|reflexivity].
Qed.
(** Standard input is not available for the rules: the name "-" is that of a file there. *)
Theorem C65_rare_stdin_refuted : exists fs stdin infer i, i_rare i = Some "-" /\ i_proof i <> "-" /\ i_problem i <> Some "-" /\ source fs stdin "-" = Some stdin /\
  (exists p q, problem_source fs stdin infer i = Some p /\ source fs stdin (i_proof i) = Some q) /\ get_instance fs stdin infer i = RErr.
Proof.
  exists fs_ex, rt_rules, infer_ex, (mkIn "a.smt2.proof" None (Some "-")). split; [reflexivity|]. split; [discriminate|]. split; [discriminate|]. split; [reflexivity|].
  split; [exists rt_problem, rt_proof; split; reflexivity|]. reflexivity.
Qed.
Print Assumptions C65_rare_stdin_refuted.
