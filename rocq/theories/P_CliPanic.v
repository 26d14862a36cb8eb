(** C33 for the parallel checker and for the check command. *)
From Coq Require Import List Bool NArith ZArith Arith String Lia.
From Verif Require Import Base Term Sem Sorting Rules Utils Checker CheckerRefute Table R_Rare FullTable Lexer TermIO TermIOPanic Parser ParserSound ProofIO ProofIOPanic ProblemIO
  ProblemPanic WellSorted RareIO RarePanic NoPanicPoly NoPanicFull NoPanicCheck ParsedText P_TermIO P_Panic P_PanicText Scheduler SchedSound Parallel ParallelMain ParallelAccept P_Parallel NoPanicPar ProofIOSound RareSound P_RareIO Cli P_Cli CliRules.
Import ListNotations.
Local Open Scope string_scope.
Local Open Scope nat_scope.

(** A run with one thread and a file of rules prints one of the three lines with its exit status, and never crashes, whatever the options, if the texts meet the conditions of
    C33_texts_partial. Missing from the full property: the other texts, for which it is false (C33_command_refuted). For more threads see C33_command_threads_partial. *)
Theorem C33_command_partial : forall fl show o problem proof rules x, o_threads o = 1 ->
  let cf := parser_config (o_parsing o) in let ap := o_apply_defs (o_parsing o) in
  (forall ts, lex_all problem = ROk ts -> safe cf any (defines ap) ts = true) -> lex_all problem <> RPanic ->
  (forall ts, lex_all proof = ROk ts -> safe cf named no_define ts = true) -> lex_all proof <> RPanic ->
  (forall ts, lex_all rules = ROk ts -> safe cf any any ts = true) -> lex_all rules <> RPanic ->
  (forall prems cmds rs, read_instance_rules cf ap (o_hole_args (o_parsing o)) problem proof rules = ROk (prems, cmds, rs) ->
     forallb tame prems = true /\ proof_fine fl cmds = true /\ rare_all_fine rs = true) ->
  run_check_rules show o problem proof rules x -> x = Printed "valid" 0 \/ x = Printed "holey" 0 \/ x = Printed "invalid" 1.
Proof.
  intros fl show o problem proof rules x Ht cf ap H1 H2 H3 H4 H5 H6 H7 [r [Hc ->]].
  pose proof (C33_texts_partial fl show (checker_config (o_checking o)) cf ap (o_hole_args (o_parsing o)) problem proof rules H1 H2 H3 H4 H5 H6 H7) as Hn.
  assert (Hr : r <> RPanic).
  { unfold check_command_rules in Hc. unfold run_texts in Hn. fold cf ap in Hc. destruct (read_instance_rules cf ap _ problem proof rules) as [[[prems cmds] rs]| |]; cbn [obind fst snd] in Hn.
    - rewrite Ht in Hc. cbn [Nat.eqb] in Hc. subst r. exact Hn.
    - subst r. discriminate.
    - congruence. }
  destruct r as [[]| |]; cbn [check_output]; auto. congruence.
Qed.
Print Assumptions C33_command_partial.
Definition opts_ok : check_opts := mkChO (mkPO false false false false false) (mkCO false false None false) 1.
Example C33_command_ex : o_threads opts_ok = 1 /\ parser_config (o_parsing opts_ok) = cf0 /\ o_apply_defs (o_parsing opts_ok) = false /\
  run_check_rules (fun _ => "") opts_ok ok_problem ok_proof ok_rules (Printed "valid" 0).
Proof. split; [reflexivity|]. split; [reflexivity|]. split; [reflexivity|]. exists (ROk false). split; [vm_compute; reflexivity|reflexivity]. Qed.
(** Texts for which the command crashes in every execution, without a line. *)
Theorem C33_command_refuted : Forall (fun pp => forall show x, run_check_rules show opts_ok (fst pp) (snd pp) [] x -> x = Crashed) panic_texts.
Proof.
  pose proof C33_texts_refuted as H. rewrite Forall_forall in *. intros pp Hi show x [r [Hc ->]]. destruct (H pp Hi) as (prems & cmds & Hr & Hk).
  unfold check_command_rules in Hc. change (parser_config (o_parsing opts_ok)) with cf0 in Hc. change (o_apply_defs (o_parsing opts_ok)) with false in Hc.
  change (o_hole_args (o_parsing opts_ok)) with false in Hc. rewrite Hr in Hc. cbn [opts_ok o_threads Nat.eqb] in Hc. subst r.
  change (checker_config _) with cfg_default. rewrite Hk. reflexivity.
Qed.
Print Assumptions C33_command_refuted.

(** ** Any number of threads *)
(** No execution of the parallel checker panics on the proofs of C33_no_panic_full_partial, for every number of threads for which the scheduler does not panic. The scheduler never
    panics if there are no subproofs (C26_panic_only). *)
Theorem C33_parallel_partial : forall fl show rules cfg prems n proof r, 0 < n -> ids_ok proof -> rare_all_fine rules = true -> forallb tame prems = true -> proof_fine fl proof = true ->
  (schedule_n n proof <> RPanic \/ forallb (fun c => negb (is_sub c)) proof = true) ->
  parallel (full_table show rules) cfg prems n proof r -> r <> RPanic.
Proof.
  intros fl show rules cfg prems n proof r Hn Hi Hr Hp Hf Hs. apply (parallel_no_panic fl); auto; [intros _; exists show, rules; auto|].
  destruct Hs as [Hs|Hs]; [exact Hs|]. destruct (proj2 (C26_panic_only n proof Hn Hi) Hs) as [l ->]. discriminate.
Qed.
Print Assumptions C33_parallel_partial.
(** A run with any positive number of threads prints one of the three lines, in every execution, under the conditions of C33_command_partial and that on the scheduler. *)
Theorem C33_command_threads_partial : forall fl show o problem proof rules x, threads_ok o = true ->
  let cf := parser_config (o_parsing o) in let ap := o_apply_defs (o_parsing o) in
  (forall ts, lex_all problem = ROk ts -> safe cf any (defines ap) ts = true) -> lex_all problem <> RPanic ->
  (forall ts, lex_all proof = ROk ts -> safe cf named no_define ts = true) -> lex_all proof <> RPanic ->
  (forall ts, lex_all rules = ROk ts -> safe cf any any ts = true) -> lex_all rules <> RPanic ->
  (forall prems cmds rs, read_instance_rules cf ap (o_hole_args (o_parsing o)) problem proof rules = ROk (prems, cmds, rs) ->
     forallb tame prems = true /\ proof_fine fl cmds = true /\ rare_all_fine rs = true /\
     (schedule_n (o_threads o) cmds <> RPanic \/ forallb (fun c => negb (is_sub c)) cmds = true)) ->
  run_check_rules show o problem proof rules x -> x = Printed "valid" 0 \/ x = Printed "holey" 0 \/ x = Printed "invalid" 1.
Proof.
  intros fl show o problem proof rules x Ht cf ap H1 H2 H3 H4 H5 H6 H7 Hx. destruct (Nat.eqb (o_threads o) 1) eqn:E1.
  { apply Nat.eqb_eq in E1. apply (C33_command_partial fl show o problem proof rules x E1 H1 H2 H3 H4 H5 H6); [|exact Hx]. intros prems cmds rs H. destruct (H7 _ _ _ H) as (A & B & C & _). auto. }
  destruct Hx as [r [Hc ->]]. apply Nat.ltb_lt in Ht.
  pose proof (read_instance_rules_no_panic cf ap (o_hole_args (o_parsing o)) problem proof rules H1 H2 H3 H4 H5 H6) as Hn. unfold check_command_rules in Hc. fold cf ap in Hc. rewrite E1 in Hc.
  assert (Hr : r <> RPanic).
  { destruct (read_instance_rules cf ap _ problem proof rules) as [[[prems cmds] rs]| |] eqn:E; [|subst r; discriminate|congruence].
    destruct (H7 _ _ _ eq_refl) as (A & B & C & D). pose proof (read_instance_rules_fst _ _ _ _ _ _ _ _ _ E) as E'. unfold read_instance in E'. apply obind_ok in E'. destruct E' as [s [_ E']].
    apply obind_ok in E'. destruct E' as [p [Hp E']]. injection E' as _ Ep. subst p. destruct (text_raws _ _ _ _ _ _ _ Hp) as [l Hl].
    exact (C33_parallel_partial fl show rs _ prems (o_threads o) cmds r Ht (parsed_ids _ _ Hl) C A B D Hc). }
  destruct r as [[]| |]; cbn [check_output]; auto. congruence.
Qed.
Print Assumptions C33_command_threads_partial.
(** the texts of C33_texts_ex have no subproofs *)
Example C33_command_threads_ex : match read_instance_rules cf0 false false ok_problem ok_proof ok_rules with
  | ROk (prems, cmds, rs) => forallb tame prems && proof_fine (mkFlags true true true true) cmds && rare_all_fine rs && forallb (fun c => negb (is_sub c)) cmds && negb (Nat.eqb (List.length cmds) 0)
  | _ => false end = true.
Proof. vm_compute. reflexivity. Qed.
(** and this proof has a subproof, and a schedule for three threads *)
Example C33_parallel_ex : ids_ok fine_proof /\ match schedule_n 3 fine_proof with RPanic => false | _ => true end = true /\ forallb (fun c => negb (is_sub c)) fine_proof = false.
Proof. repeat (split; [vm_compute; reflexivity|]). vm_compute. reflexivity. Qed.

(** *** What does not hold *)
(** If no command is wrong by itself and one makes the checker panic then every execution panics, with any number of threads: the panic of a thread is not lost. *)
Theorem C25_panics : forall table cfg prems n proof r, 0 < n -> ids_ok proof -> (forall v, In v (all_visits proof) -> judge table cfg prems v <> RErr) ->
  (exists v, In v (all_visits proof) /\ judge table cfg prems v = RPanic) -> parallel table cfg prems n proof r -> r = RPanic.
Proof. exact parallel_panics. Qed.
Print Assumptions C25_panics.
Definition panic_run (show : term -> string) (pp : text * text) : bool :=
  match read_instance_rules cf0 false false (fst pp) (snd pp) [] with
  | ROk (prems, cmds, rs) => forallb (fun v => match judge (full_table show rs) cfg_default prems v with RErr => false | _ => true end) (all_visits cmds)
      && existsb (fun v => match judge (full_table show rs) cfg_default prems v with RPanic => true | _ => false end) (all_visits cmds)
  | _ => false
  end.
Definition opts_par (n : nat) : check_opts := mkChO (mkPO false false false false false) (mkCO false false None false) n.
(** The texts for which the command crashes with one thread make it crash with any number of threads, in every execution. *)
Theorem C33_command_threads_refuted : Forall (fun pp => forall show n x, 0 < n -> run_check_rules show (opts_par n) (fst pp) (snd pp) [] x -> x = Crashed) panic_texts.
Proof.
  assert (K : Forall (fun pp => forall show, panic_run show pp = true) panic_texts) by (repeat (apply Forall_cons; [intros show; vm_compute; reflexivity|]); apply Forall_nil).
  pose proof C33_command_refuted as H1. rewrite Forall_forall in *. intros pp Hi show n x Hn Hx. destruct (Nat.eqb n 1) eqn:E1.
  { apply Nat.eqb_eq in E1. subst n. exact (H1 pp Hi show x Hx). }
  specialize (K pp Hi show). unfold panic_run in K. destruct Hx as [r [Hc ->]]. unfold check_command_rules in Hc. cbn [opts_par o_parsing o_threads o_checking] in Hc.
  change (parser_config _) with cf0 in Hc. change (checker_config _) with cfg_default in Hc. cbn [o_apply_defs o_hole_args] in Hc. rewrite E1 in Hc.
  destruct (read_instance_rules cf0 false false (fst pp) (snd pp) []) as [[[prems cmds] rs]| |] eqn:E; try discriminate. apply andb_true_iff in K. destruct K as [K1 K2].
  pose proof (read_instance_rules_fst _ _ _ _ _ _ _ _ _ E) as E'. unfold read_instance in E'. apply obind_ok in E'. destruct E' as [s [_ E']].
  apply obind_ok in E'. destruct E' as [p [Hp E']]. injection E' as _ Ep. subst p. destruct (text_raws _ _ _ _ _ _ _ Hp) as [l Hl].
  assert (Hr : r = RPanic); [|rewrite Hr; reflexivity]. apply (C25_panics (full_table show rs) cfg_default prems n cmds r Hn (parsed_ids _ _ Hl)); [| |exact Hc].
  - intros v Hv Ej. rewrite forallb_forall in K1. specialize (K1 v Hv). rewrite Ej in K1. discriminate.
  - apply existsb_exists in K2. destruct K2 as (v & Hv & Ej). exists v. split; [exact Hv|]. destruct (judge _ _ _ v); congruence.
Qed.
Print Assumptions C33_command_threads_refuted.
