(** C61 with a file of RARE rules. *)
From Coq Require Import List Bool NArith ZArith Arith String Lia.
From Verif Require Import Base Term Sem Checker CheckerSound CheckerSem CheckerRefute Table P_Checker Lexer TermIO Parser ParserSound ProofIO ProofIOSound P_WellSorted ProblemIO
  R_Rare RareSound FullTable RareIO P_Rare P_TermIO P_RareIO Scheduler SchedSound Parallel ParallelMain P_CheckMono ParallelAccept P_Parallel Cli P_Cli CliRules.
Import ListNotations.
Local Open Scope string_scope.
Local Open Scope nat_scope.

Lemma command_rules_accepts show o problem ptxt rtxt b : threads_ok o = true -> check_command_rules show o problem ptxt rtxt (ROk b) ->
  exists prems proof rules rs, read_instance_rules (parser_config (o_parsing o)) (o_apply_defs (o_parsing o)) (o_hole_args (o_parsing o)) problem ptxt rtxt = ROk (prems, proof, rules) /\
    parse_proof rs = ROk proof /\ check (full_table show rules) (checker_config (o_checking o)) prems proof = ROk b.
Proof.
  intros Ht H. unfold check_command_rules in H. destruct (read_instance_rules _ _ _ problem ptxt rtxt) as [[[prems proof] rules]| |] eqn:E; try discriminate. exists prems, proof, rules.
  pose proof (read_instance_rules_fst _ _ _ _ _ _ _ _ _ E) as E'. unfold read_instance in E'. apply obind_ok in E'. destruct E' as [s [Hs E']]. apply obind_ok in E'. destruct E' as [p [Hp E']].
  injection E' as _ Ep. subst p. destruct (text_raws _ _ _ _ _ _ _ Hp) as [rs Hr]. exists rs.
  split; [reflexivity|]. split; [exact Hr|]. destruct (Nat.eqb (o_threads o) 1); [symmetry; exact H|]. apply Nat.ltb_lt in Ht. exact (C25_accepts_partial _ _ _ _ _ _ _ Hr Ht H).
Qed.
(** If a run with a file of rules and any number of threads prints "valid" then the three texts were read, every step was checked by the code of its rule, the empty clause is derived outside
    of subproofs, a run with one thread and without options that allow unknown rules gives the same, and, if the rules that were read are valid, the premises have no model. The last needs the
    side conditions of the rules (C01). *)
Theorem C61_rules_valid_partial : forall show o problem ptxt rtxt status, threads_ok o = true -> run_check_rules show o problem ptxt rtxt (Printed "valid" status) ->
  exists prems proof rules,
    read_instance_rules (parser_config (o_parsing o)) (o_apply_defs (o_parsing o)) (o_hole_args (o_parsing o)) problem ptxt rtxt = ROk (prems, proof, rules) /\
    (forall s, In s (proof_steps proof) -> exists r ra, full_table show rules (o_elaborated (o_checking o)) (s_rule s) = Some r /\ r ra = ROk tt /\ ra_concl ra = s_clause s /\ ra_args ra = s_args s) /\
    (exists c, In c proof /\ cmd_clause c = Some []) /\
    run_check_rules show (mkChO (o_parsing o) (mkCO false false None (o_elaborated (o_checking o))) 1) problem ptxt rtxt (Printed "valid" 0) /\
    ((forall name r, rare_find rules name = Some r -> rare_valid r) ->
     loose_proof (full_side show rules (o_elaborated (o_checking o))) proof = true -> assumes_ok (checker_config (o_checking o)) prems proof = true ->
     forall (I : interp) (E : env I), env_ok E -> ~ (forall p, In p prems -> holds E p = true)).
Proof.
  intros show o problem ptxt rtxt status Ht [r [Hc Ex]]. destruct r as [[]| |]; try discriminate. destruct (command_rules_accepts _ _ _ _ _ _ Ht Hc) as (prems & proof & rules & rs & Hr & Hp & Hk).
  exists prems, proof, rules. split; [exact Hr|].
  split; [exact (C02_valid_means_checked _ _ _ _ Hk)|]. split; [exact (C03_empty_clause_needed _ _ _ _ _ Hk (parse_shape _ _ Hp))|]. split.
  - exists (ROk false). split; [|reflexivity]. unfold check_command_rules. cbn [o_parsing o_threads o_checking Nat.eqb]. rewrite Hr. symmetry. exact (C49_unused _ _ _ _ _ _ Hk).
  - intros Hv Hl Ha. exact (C01_rules_text_partial show _ _ _ _ _ _ _ _ _ _ Hr Hv Hk Hl Ha).
Qed.
Print Assumptions C61_rules_valid_partial.
(** "holey" says that the proof is accepted with the rules of the file and some step was not checked. *)
Theorem C61_rules_holey : forall show o problem ptxt rtxt status, threads_ok o = true -> run_check_rules show o problem ptxt rtxt (Printed "holey" status) ->
  exists prems proof rules,
    read_instance_rules (parser_config (o_parsing o)) (o_apply_defs (o_parsing o)) (o_hole_args (o_parsing o)) problem ptxt rtxt = ROk (prems, proof, rules) /\
    check (full_table show rules) (checker_config (o_checking o)) prems proof = ROk true /\ (exists c, In c proof /\ cmd_clause c = Some []) /\
    exists s, In s (proof_steps proof) /\
      (In (s_rule s) (allowed (checker_config (o_checking o))) \/ full_table show rules (o_elaborated (o_checking o)) (s_rule s) = None \/ s_rule s = "hole" \/ s_rule s = "lia_generic").
Proof.
  intros show o problem ptxt rtxt status Ht [r [Hc Ex]]. destruct r as [[]| |]; try discriminate. destruct (command_rules_accepts _ _ _ _ _ _ Ht Hc) as (prems & proof & rules & rs & Hr & Hp & Hk).
  exists prems, proof, rules. split; [exact Hr|]. split; [exact Hk|]. split; [exact (C03_empty_clause_needed _ _ _ _ _ Hk (parse_shape _ _ Hp))|]. exact (proj1 (C02_holey_exact _ _ _ _ _ Hk) eq_refl).
Qed.
Print Assumptions C61_rules_holey.
(** The line and the exit status say the same. *)
Theorem C61_rules_status : forall show o problem ptxt rtxt line status, run_check_rules show o problem ptxt rtxt (Printed line status) ->
  (status = 0 <-> (line = "valid" \/ line = "holey")) /\ (status = 1 <-> line = "invalid") /\ (line = "valid" \/ line = "holey" \/ line = "invalid").
Proof. intros show o problem ptxt rtxt line status [r [_ E]]. destruct r as [[]| |]; cbn in E; try discriminate; injection E as -> ->; repeat split; intros; try discriminate; auto; destruct H; discriminate. Qed.
Print Assumptions C61_rules_status.
(** If one of the three texts cannot be read then the answer is invalid, also if the rules are not used. *)
Theorem C61_rules_unreadable : forall show o problem ptxt rtxt x,
  read_instance_rules (parser_config (o_parsing o)) (o_apply_defs (o_parsing o)) (o_hole_args (o_parsing o)) problem ptxt rtxt = RErr ->
  run_check_rules show o problem ptxt rtxt x -> x = Printed "invalid" 1.
Proof. intros show o problem ptxt rtxt x H [r [Hc ->]]. unfold check_command_rules in Hc. rewrite H in Hc. subst r. reflexivity. Qed.
Print Assumptions C61_rules_unreadable.
Example C61_rules_ex : forall show, threads_ok (opts0 1) = true /\ run_check_rules show (opts0 1) rt_problem rt_proof rt_rules (Printed "valid" 0) /\
  run_check_rules show (opts0 1) rt_problem (chars "(assume h1 (= p true)) (step t2 (cl) :rule hole :premises (h1))") rt_rules (Printed "holey" 0) /\
  run_check_rules show (opts0 1) rt_problem rt_proof (chars "") (Printed "invalid" 1) /\
  run_check_rules show (opts0 1) rt_problem rt_proof (chars "(declare-rare-rule r ((x Bool)) :args (x))") (Printed "invalid" 1).
Proof.
  intros show. split; [reflexivity|]. split; [exists (ROk false); split; [vm_compute; reflexivity|reflexivity]|].
  split; [exists (ROk true); split; [vm_compute; reflexivity|reflexivity]|]. split; exists RErr; (split; [vm_compute; reflexivity|reflexivity]).
Qed.
(** The condition on the rules is about those that were read, and the proof changes them: with a file whose rules are valid, "valid" is printed for a problem whose assertions hold in all
    models. *)
Theorem C61_rules_refuted : forall show, exists problem ptxt rtxt rules0 prems proof rules,
  read_rules_text cf0 no_state rtxt = ROk rules0 /\ (forall name r, rare_find rules0 name = Some r -> rare_valid r) /\
  read_instance_rules cf0 true false problem ptxt rtxt = ROk (prems, proof, rules) /\ run_check_rules show (opts0 1) problem ptxt rtxt (Printed "valid" 0) /\
  forall (I : interp) (E : env I), env_ok E -> forall p, In p prems -> holds E p = true.
Proof.
  intros show. destruct (C64_proof_defines_refuted show cfg_default (or_introl eq_refl)) as (problem & ptxt & rtxt & rules0 & prems & proof & rules & H0 & Hv & Hr & Hk & Hm).
  exists problem, ptxt, rtxt, rules0, prems, proof, rules. split; [exact H0|]. split; [exact Hv|]. split; [exact Hr|]. split; [|exact Hm].
  exists (ROk false). split; [|reflexivity]. unfold check_command_rules. change (parser_config (o_parsing (opts0 1))) with cf0.
  change (o_apply_defs (o_parsing (opts0 1))) with true. change (o_hole_args (o_parsing (opts0 1))) with false. rewrite Hr. symmetry. exact Hk.
Qed.
Print Assumptions C61_rules_refuted.
(** Every run ends: for all texts, options and positive numbers of threads some execution gives a line or a crash, and no execution with more threads can be stuck or go on forever. *)
Theorem C61_answers : forall show o problem ptxt rtxt, threads_ok o = true ->
  (exists x, run_check_rules show o problem ptxt rtxt x) /\
  (forall rules prems, well_founded (fun g' g => gstep (full_table show rules) (checker_config (o_checking o)) prems (o_threads o) g g') /\
     forall g, ~ final (o_threads o) g -> exists g', gstep (full_table show rules) (checker_config (o_checking o)) prems (o_threads o) g g').
Proof.
  intros show o problem ptxt rtxt Ht. split.
  - unfold run_check_rules, check_command_rules. destruct (read_instance_rules _ _ _ problem ptxt rtxt) as [[[prems proof] rules]| |] eqn:E.
    + destruct (Nat.eqb (o_threads o) 1); [eexists; eexists; split; reflexivity|]. apply Nat.ltb_lt in Ht.
      pose proof (read_instance_rules_fst _ _ _ _ _ _ _ _ _ E) as E'. unfold read_instance in E'. apply obind_ok in E'. destruct E' as [s [Hs E']]. apply obind_ok in E'. destruct E' as [p [Hp E']].
      injection E' as _ Ep. subst p. destruct (text_raws _ _ _ _ _ _ _ Hp) as [rs Hr].
      destruct (proj2 (proj2 (C25_terminates (full_table show rules) (checker_config (o_checking o)) prems (o_threads o))) proof Ht (parsed_ids _ _ Hr)) as [r Hx]. exists (check_output r), r. auto.
    + eexists; eexists; split; reflexivity.
    + eexists; eexists; split; reflexivity.
  - intros rules prems. destruct (C25_terminates (full_table show rules) (checker_config (o_checking o)) prems (o_threads o)) as [H1 [H2 _]]. auto.
Qed.
Print Assumptions C61_answers.
(** With any number of threads the command prints what it prints with one thread, if no outermost subproof concludes the empty clause, no step makes the checker panic, and the scheduler does
    not panic. Missing from the full property: the other proofs, for which it is false (C61_threads_refuted). *)
Theorem C61_rules_threads_partial : forall show po co n problem ptxt rtxt x, 0 < n ->
  (forall prems proof rules, read_instance_rules (parser_config po) (o_apply_defs po) (o_hole_args po) problem ptxt rtxt = ROk (prems, proof, rules) ->
     (forall v, In v (all_visits proof) -> end_empty v = false) /\
     (forall v, In v (all_visits proof) -> judge (full_table show rules) (checker_config co) prems v <> RPanic) /\ schedule_n n proof <> RPanic) ->
  (run_check_rules show (mkChO po co n) problem ptxt rtxt x <-> run_check_rules show (mkChO po co 1) problem ptxt rtxt x).
Proof.
  intros show po co n problem ptxt rtxt x Hn Hc. unfold run_check_rules, check_command_rules. cbn [o_parsing o_checking o_threads]. change (Nat.eqb 1 1) with true.
  destruct (read_instance_rules _ _ _ problem ptxt rtxt) as [[[prems proof] rules]| |] eqn:E; [|tauto|tauto]. destruct (Nat.eqb n 1); [tauto|].
  destruct (Hc _ _ _ eq_refl) as (He & Hj & Hs). pose proof (read_instance_rules_fst _ _ _ _ _ _ _ _ _ E) as E'. unfold read_instance in E'. apply obind_ok in E'. destruct E' as [s [_ E']].
  apply obind_ok in E'. destruct E' as [p [Hp E']]. injection E' as _ Ep. subst p. destruct (text_raws _ _ _ _ _ _ _ Hp) as [rs Hr].
  pose proof (parsed_ids _ _ Hr) as Hi. pose proof (shape_wfp _ (parse_shape _ _ Hr)) as Hw.
  assert (Heq : forall r, parallel (full_table show rules) (checker_config co) prems n proof r -> r = check (full_table show rules) (checker_config co) prems proof).
  { intros r H. exact (C25_parallel_partial _ _ _ _ _ _ Hn Hi Hw He Hj Hs H). }
  split; intros [r [H ->]].
  - exists r. auto.
  - destruct (proj2 (proj2 (C25_terminates (full_table show rules) (checker_config co) prems n)) proof Hn Hi) as [r' H']. rewrite (Heq _ H') in H'. exists r. subst r. auto.
Qed.
Print Assumptions C61_rules_threads_partial.
Example C61_rules_threads_ex : forall show, let '(prems, proof, rules) := rt_read in
  read_instance_rules (parser_config (o_parsing (opts0 2))) true false rt_problem rt_proof rt_rules = ROk (prems, proof, rules) /\
  forallb (fun v => negb (end_empty v)) (all_visits proof) = true /\
  forallb (fun v => match judge (full_table show rules) (checker_config (o_checking (opts0 2))) prems v with RPanic => false | _ => true end) (all_visits proof) = true /\
  match schedule_n 2 proof with RPanic => false | _ => true end = true.
Proof. intros show. unfold rt_read. split; [vm_compute; reflexivity|]. split; [vm_compute; reflexivity|]. split; vm_compute; reflexivity. Qed.
