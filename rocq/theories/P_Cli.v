(** C61, C62, C63: the commands of the program. *)
From Coq Require Import List Bool NArith ZArith Arith String Lia.
From Verif Require Import Base Term Sem Sorting Rules Polyeq Checker CheckerSound CheckerSem Table CheckerRefute CheckMono P_Checker Lexer TermIO Parser ParserSound P_TermIO ProofIO ProofIOSound P_WellSorted ProblemIO P_Problem
  Scheduler SchedSound Parallel ParallelMain ParallelAccept P_CheckMono ElabSolver ElabRefute SolverInsert P_ElabSolver SolverProblem P_SolverProblem Cli.
Import ListNotations.
Local Open Scope string_scope.
Local Open Scope nat_scope.

(** ** C25: acceptance *)
(** For every proof that was parsed, every number of threads and every interleaving: if the parallel checker accepts, so does the sequential checker, with the same verdict on holes.
    Nothing is assumed about panics, the scheduler or the steps. *)
Theorem C25_accepts_partial : forall table cfg prems n rs proof b, parse_proof rs = ROk proof -> 0 < n ->
  parallel table cfg prems n proof (ROk b) -> check table cfg prems proof = ROk b.
Proof. intros table cfg prems n rs proof b Hp Hn H. exact (parallel_accepts table cfg prems n proof b Hn (parsed_ids _ _ Hp) (shape_wfp _ (parse_shape _ _ Hp)) H). Qed.
Print Assumptions C25_accepts_partial.

(** ** C61: check *)
Lemma command_accepts table o problem ptxt b : threads_ok o = true -> check_command table o problem ptxt (ROk b) ->
  exists prems proof rs, read_instance (parser_config (o_parsing o)) (o_apply_defs (o_parsing o)) (o_hole_args (o_parsing o)) problem ptxt = ROk (prems, proof) /\
    parse_proof rs = ROk proof /\ check table (checker_config (o_checking o)) prems proof = ROk b.
Proof.
  intros Ht H. unfold check_command in H. destruct (read_instance _ _ _ problem ptxt) as [[prems proof]| |] eqn:E; try discriminate. exists prems, proof.
  pose proof E as E'. unfold read_instance in E'. apply obind_ok in E'. destruct E' as [s [Hs E']]. apply obind_ok in E'. destruct E' as [p [Hp E']]. injection E' as _ Ep. subst p. destruct (text_raws _ _ _ _ _ _ _ Hp) as [rs Hr]. exists rs.
  split; [reflexivity|]. split; [exact Hr|]. destruct (Nat.eqb (o_threads o) 1); [symmetry; exact H|]. apply Nat.ltb_lt in Ht. exact (C25_accepts_partial _ _ _ _ _ _ _ Hr Ht H).
Qed.
(** The line and the exit status say the same, whatever the texts and options. *)
Theorem C61_status : forall table o problem ptxt line status, run_check table o problem ptxt (Printed line status) ->
  (status = 0 <-> (line = "valid" \/ line = "holey")) /\ (status = 1 <-> line = "invalid") /\ (line = "valid" \/ line = "holey" \/ line = "invalid").
Proof. intros table o problem ptxt line status [r [_ E]]. destruct r as [[]| |]; cbn in E; try discriminate; injection E as -> ->; repeat split; intros; try discriminate; auto; destruct H; discriminate. Qed.
Print Assumptions C61_status.
(** If a run with any number of threads prints "valid" then the texts were read, every step was checked by the code of its rule, the empty clause is derived outside of subproofs,
    a run without options that allow unknown rules gives the same, and the premises have no model. The last needs the side conditions of the rules (C01). *)
Theorem C61_valid_partial : forall other o problem ptxt status, threads_ok o = true -> run_check (rule_table other) o problem ptxt (Printed "valid" status) ->
  exists prems proof, read_instance (parser_config (o_parsing o)) (o_apply_defs (o_parsing o)) (o_hole_args (o_parsing o)) problem ptxt = ROk (prems, proof) /\
    (forall s, In s (proof_steps proof) -> exists r ra, rule_table other (o_elaborated (o_checking o)) (s_rule s) = Some r /\ r ra = ROk tt /\ ra_concl ra = s_clause s /\ ra_args ra = s_args s) /\
    (exists c, In c proof /\ cmd_clause c = Some []) /\
    run_check (rule_table other) (mkChO (o_parsing o) (mkCO false false None (o_elaborated (o_checking o))) 1) problem ptxt (Printed "valid" 0) /\
    (loose_proof (rule_side (o_elaborated (o_checking o))) proof = true -> assumes_ok (checker_config (o_checking o)) prems proof = true ->
     forall (I : interp) (E : env I), env_ok E -> ~ (forall p, In p prems -> holds E p = true)).
Proof.
  intros other o problem ptxt status Ht [r [Hc Ex]]. destruct r as [[]| |]; try discriminate. destruct (command_accepts _ _ _ _ _ Ht Hc) as (prems & proof & rs & Hr & Hp & Hk). exists prems, proof. split; [exact Hr|].
  split; [exact (C02_valid_means_checked _ _ _ _ Hk)|]. split; [exact (C03_empty_clause_needed _ _ _ _ _ Hk (parse_shape _ _ Hp))|]. split.
  - exists (ROk false). split; [|reflexivity]. unfold check_command. cbn [o_parsing o_threads o_checking Nat.eqb]. rewrite Hr. symmetry. exact (C49_unused _ _ _ _ _ _ Hk).
  - intros Hl Ha. exact (C01_instance_partial other _ _ _ _ _ _ _ _ Hr Hk Hl Ha).
Qed.
Print Assumptions C61_valid_partial.
(** "holey" says that the proof is accepted and some step was not checked. *)
Theorem C61_holey : forall table o problem ptxt status, threads_ok o = true -> run_check table o problem ptxt (Printed "holey" status) ->
  exists prems proof, read_instance (parser_config (o_parsing o)) (o_apply_defs (o_parsing o)) (o_hole_args (o_parsing o)) problem ptxt = ROk (prems, proof) /\
    (exists c, In c proof /\ cmd_clause c = Some []) /\
    exists s, In s (proof_steps proof) /\ (In (s_rule s) (allowed (checker_config (o_checking o))) \/ table (o_elaborated (o_checking o)) (s_rule s) = None \/ s_rule s = "hole" \/ s_rule s = "lia_generic").
Proof.
  intros table o problem ptxt status Ht [r [Hc Ex]]. destruct r as [[]| |]; try discriminate. destruct (command_accepts _ _ _ _ _ Ht Hc) as (prems & proof & rs & Hr & Hp & Hk). exists prems, proof. split; [exact Hr|].
  split; [exact (C03_empty_clause_needed _ _ _ _ _ Hk (parse_shape _ _ Hp))|]. exact (proj1 (C02_holey_exact _ _ _ _ _ Hk) eq_refl).
Qed.
Print Assumptions C61_holey.
(** An unreadable problem or proof is reported as invalid, never as valid. *)
Theorem C61_unreadable : forall table o problem ptxt x, read_instance (parser_config (o_parsing o)) (o_apply_defs (o_parsing o)) (o_hole_args (o_parsing o)) problem ptxt = RErr ->
  run_check table o problem ptxt x -> x = Printed "invalid" 1.
Proof. intros table o problem ptxt x H [r [Hc ->]]. unfold check_command in Hc. rewrite H in Hc. subst r. reflexivity. Qed.
Print Assumptions C61_unreadable.
(** Both options for unknown rules mean the same. *)
Theorem C61_skip : forall table po a e n problem ptxt x, run_check table (mkChO po (mkCO true false a e) n) problem ptxt x <-> run_check table (mkChO po (mkCO false true a e) n) problem ptxt x.
Proof. intros. unfold run_check, check_command. cbn [o_parsing o_checking o_threads checker_config o_ignore o_skip o_allowed o_elaborated orb]. tauto. Qed.
Print Assumptions C61_skip.
Definition opts0 (n : nat) : check_opts := mkChO (mkPO true false false false false) (mkCO false false None false) n.
Example C61_ex : threads_ok (opts0 1) = true /\ run_check (rule_table no_rule) (opts0 1) in_problem in_proof (Printed "valid" 0) /\
  run_check (rule_table no_rule) (opts0 1) in_problem (chars "(assume h1 p) (step t2 (cl) :rule hole :premises (h1))") (Printed "holey" 0) /\
  run_check (rule_table no_rule) (opts0 1) in_problem (chars "(assume h1 p) (step t2 (cl) :rule resolution :premises (h1))") (Printed "invalid" 1) /\
  run_check (rule_table no_rule) (opts0 1) in_problem (chars "(assume h1 q)") (Printed "invalid" 1).
Proof.
  split; [reflexivity|]. split; [exists (ROk false); split; [vm_compute; reflexivity|reflexivity]|]. split; [exists (ROk true); split; [vm_compute; reflexivity|reflexivity]|].
  split; exists RErr; (split; [vm_compute; reflexivity|reflexivity]).
Qed.
(** The verdict depends on the number of threads (C25): this proof is valid with one thread and invalid with two, in every execution. *)
Definition nest_problem : text := chars "(declare-const p Bool) (assert p) (assert (not p))".
Definition nest_proof : text := chars "(assume h1 p) (assume h2 (not p)) (anchor :step t3) (step t3.t1 (cl (= p p)) :rule eq_reflexive) (step t3 (cl) :rule resolution :premises (h1 h2))".
Definition nest_prems : list term := Eval vm_compute in match read_instance cf0 true false nest_problem nest_proof with ROk (p, _) => p | _ => [] end.
Definition nest_cmds : list command := Eval vm_compute in match read_instance cf0 true false nest_problem nest_proof with ROk (_, p) => p | _ => [] end.
Lemma nest_read : read_instance cf0 true false nest_problem nest_proof = ROk (nest_prems, nest_cmds).
Proof. vm_compute. reflexivity. Qed.
(** With two threads the first proof of [C61_ex] is valid in every execution, and there is one. *)
Definition prems0 : list term := Eval vm_compute in match read_instance cf0 true false in_problem in_proof with ROk (p, _) => p | _ => [] end.
Definition proof0 : list command := Eval vm_compute in match read_instance cf0 true false in_problem in_proof with ROk (_, p) => p | _ => [] end.
Lemma read0 : read_instance cf0 true false in_problem in_proof = ROk (prems0, proof0).
Proof. vm_compute. reflexivity. Qed.
Example C61_threads_ex : forall x, run_check (rule_table no_rule) (opts0 2) in_problem in_proof x <-> x = Printed "valid" 0.
Proof.
  assert (Hi : ids_ok proof0) by (vm_compute; reflexivity).
  assert (H2 : forall r, parallel (rule_table no_rule) (mkCfg false false []) prems0 2 proof0 r -> r = ROk false).
  { intros r H. rewrite (parallel_verdict 2 ltac:(lia) proof0 Hi (rule_table no_rule) (mkCfg false false []) prems0) with (r := r); [vm_compute; reflexivity| |exact H|vm_compute; discriminate].
    intros v Hv. assert (K : forallb (fun v => match judge (rule_table no_rule) (mkCfg false false []) prems0 v with RPanic => false | _ => true end) (all_visits proof0) = true) by (vm_compute; reflexivity).
    rewrite forallb_forall in K. specialize (K v Hv). intros E. rewrite E in K. discriminate. }
  intros x; unfold run_check, check_command, opts0; cbn [o_parsing o_checking o_threads o_apply_defs o_hole_args]; change (parser_config (mkPO true false false false false)) with cf0; rewrite read0; cbn [Nat.eqb]; change (checker_config (mkCO false false None false)) with (mkCfg false false []).
  split; [intros [r [Hr ->]]; rewrite (H2 r Hr); reflexivity|]. intros ->. destruct (parallel_total (rule_table no_rule) (mkCfg false false []) prems0 2 proof0 ltac:(lia) Hi) as [r Hr]. exists r. split; [exact Hr|]. rewrite (H2 r Hr). reflexivity.
Qed.
Theorem C61_threads_refuted : forall other, exists problem ptxt,
  (forall x, run_check (rule_table other) (opts0 1) problem ptxt x <-> x = Printed "valid" 0) /\ (forall x, run_check (rule_table other) (opts0 2) problem ptxt x <-> x = Printed "invalid" 1).
Proof.
  intros other. exists nest_problem, nest_proof.
  assert (H1 : check (rule_table other) (mkCfg false false []) nest_prems nest_cmds = ROk false) by (vm_compute; reflexivity).
  assert (Hi : ids_ok nest_cmds) by (vm_compute; reflexivity).
  assert (H2 : forall r, parallel (rule_table other) (mkCfg false false []) nest_prems 2 nest_cmds r -> r = RErr).
  { intros r H. rewrite (parallel_verdict 2 ltac:(lia) nest_cmds Hi (rule_table other) (mkCfg false false []) nest_prems) with (r := r); [vm_compute; reflexivity| |exact H|vm_compute; discriminate].
    intros v Hv. assert (K : forallb (fun v => match judge (rule_table other) (mkCfg false false []) nest_prems v with RPanic => false | _ => true end) (all_visits nest_cmds) = true) by (vm_compute; reflexivity).
    rewrite forallb_forall in K. specialize (K v Hv). intros E. rewrite E in K. discriminate. }
  split; intros x; unfold run_check, check_command, opts0; cbn [o_parsing o_checking o_threads o_apply_defs o_hole_args]; change (parser_config (mkPO true false false false false)) with cf0; rewrite nest_read; cbn [Nat.eqb]; change (checker_config (mkCO false false None false)) with (mkCfg false false []).
  - rewrite H1. split; [intros [r [-> ->]]; reflexivity|]. intros ->. exists (ROk false). auto.
  - split; [intros [r [Hr ->]]; rewrite (H2 r Hr); reflexivity|]. intros ->. destruct (parallel_total (rule_table other) (mkCfg false false []) nest_prems 2 nest_cmds ltac:(lia) Hi) as [r Hr]. exists r. split; [exact Hr|]. rewrite (H2 r Hr). reflexivity.
Qed.
Print Assumptions C61_threads_refuted.

(** ** C62: elaborate *)
(** The verdict that the command [elaborate] prints is that of the proof that was given. It is printed with the proof that was made from it, whose verdict can be another: here the
    result has no holes, and here it is rejected. *)
Theorem C62_given : forall table passes c prems p line e, elaborate_output table passes c prems p = ROk (line, e) ->
  exists h, check table c prems p = ROk h /\ line = (if h then "holey" else "valid") /\ passes p = ROk e.
Proof. intros table passes c prems p line e H. unfold elaborate_output in H. apply obind_ok in H. destruct H as [h [Hh H]]. apply obind_ok in H. destruct H as [e' [He H]]. injection H as <- <-. eauto. Qed.
Print Assumptions C62_given.
Definition n_out : list command := Eval vm_compute in match elaborate lia_insert n_sp (whole "lia_generic" n_clause n_clause) 2 "t1" n_clause with ROk l => l | _ => [] end.
Definition pass_n (p : list command) : outcome (list command) := elaborate lia_insert n_sp p 2 "t1" n_clause.
Definition pass_k (p : list command) : outcome (list command) := elaborate lia_insert k_sp p 2 "t1" k_clause.
Theorem C62_verdict_refuted :
  (exists line e, elaborate_output tab pass_n cfg1 n_clause (whole "lia_generic" n_clause n_clause) = ROk (line, e) /\ line = "holey" /\ check tab cfg1 n_clause e = ROk false) /\
  (exists line e, elaborate_output tab pass_k cfg1 k_asms (whole "lia_generic" k_clause k_asms) = ROk (line, e) /\ line = "holey" /\ check tab cfg1 k_asms e = RErr).
Proof.
  split.
  - exists "holey", n_out. split; [vm_compute; reflexivity|]. split; [reflexivity|vm_compute; reflexivity].
  - exists "holey", k_out. split; [vm_compute; reflexivity|]. split; [reflexivity|vm_compute; reflexivity].
Qed.
Print Assumptions C62_verdict_refuted.

(** ** C63: names of files *)
(** The help text of [--sliced-output] names its values SLICED_PROBLEM and SLICED_PROOF, in this order (main.rs:402). The command takes the first one for the proof. *)
Theorem C63_slice_refuted : forall problem proof stem from, problem <> proof ->
  exists a b, slice_files (Some [problem; proof]) stem from = ROk (a, b) /\ a <> proof /\ b <> problem.
Proof. intros problem proof stem from H. exists problem, proof. repeat split; congruence. Qed.
Print Assumptions C63_slice_refuted.
Lemma append_inj_l a b c : (a ++ b = a ++ c)%string -> b = c.
Proof. induction a as [|x a IH]; intros H; [exact H|]. cbn in H. injection H as H. auto. Qed.
Lemma length_append a b : String.length (a ++ b) = String.length a + String.length b.
Proof. induction a as [|x a IH]; [reflexivity|]. cbn. rewrite IH. reflexivity. Qed.
Lemma append_inj_r a b c : (a ++ c = b ++ c)%string -> a = b.
Proof.
  revert b. induction a as [|x a IH]; intros [|y b] H.
  - reflexivity.
  - exfalso. apply (f_equal String.length) in H. cbn in H. rewrite length_append in H. lia.
  - exfalso. apply (f_equal String.length) in H. cbn in H. rewrite length_append in H. lia.
  - cbn in H. injection H as -> H. f_equal. auto.
Qed.
(** Without it the problem and the proof go to different files, and different steps to different files. *)
Theorem C63_default_partial : forall stem from1 from2 a1 b1 a2 b2, slice_files None stem from1 = ROk (a1, b1) -> slice_files None stem from2 = ROk (a2, b2) ->
  a1 <> b1 /\ (from1 <> from2 -> a1 <> a2 /\ b1 <> b2).
Proof.
  intros stem from1 from2 a1 b1 a2 b2 H1 H2. injection H1 as <- <-. injection H2 as <- <-. split.
  - intros E. apply append_inj_l in E. apply (append_inj_l "-") in E. apply append_inj_l in E. discriminate E.
  - intros H. split; intros E; apply append_inj_l in E; apply (append_inj_l "-") in E; apply append_inj_r in E; congruence.
Qed.
Print Assumptions C63_default_partial.
(** The files of generate-lia-problems have different names if the steps have: none is overwritten. *)
Theorem C63_lia_names : forall root (ids : list string), NoDup ids -> NoDup (map (lia_file_name root) ids).
Proof.
  intros root ids H. apply FinFun.Injective_map_NoDup; [|exact H]. intros a b E. unfold lia_file_name in E. apply append_inj_l in E. apply (append_inj_l "-") in E. exact (append_inj_r _ _ _ E).
Qed.
Print Assumptions C63_lia_names.
Definition lia_steps (proof : list command) : list step :=
  flat_map (fun c => match c with CStep s => if String.eqb (s_rule s) "lia_generic" then [s] else [] | _ => [] end) proof.
Lemma lia_fresh l : forall vis, ids_fresh_list l vis = true -> NoDup (map s_id (lia_steps l)) /\ forall i, In i (map s_id (lia_steps l)) -> ~ In i vis.
Proof.
  induction l as [|c l IH]; intros vis H; [split; [constructor|intros i []]|]. cbn [ids_fresh_list] in H. apply andb_true_iff in H. destruct H as [H1 H2]. destruct (cmd_id c) as [i|] eqn:Ei; [|discriminate].
  destruct (IH _ H2) as [A B]. destruct c as [j t|s|cs args k].
  - split; [exact A|]. intros x Hx Hv. apply (B x Hx). right. exact Hv.
  - cbn [cmd_id] in Ei. injection Ei as <-. unfold lia_steps in *. cbn [flat_map]. destruct (String.eqb (s_rule s) "lia_generic").
    + cbn [app map]. split; [constructor; [intros Hi; apply (B _ Hi); left; reflexivity|exact A]|]. intros x [<-|Hx] Hv; [|apply (B x Hx); right; exact Hv].
      cbn [ids_fresh] in H1. apply negb_true_iff in H1. assert (X : memb String.eqb (s_id s) vis = true); [|congruence].
      clear -Hv. induction vis as [|y vis IH]; [destruct Hv|]. cbn [memb existsb]. destruct Hv as [->|Hv]; [rewrite String.eqb_refl; reflexivity|]. apply orb_true_iff. right. apply IH. exact Hv.
    + cbn [app]. split; [exact A|]. intros x Hx Hv. apply (B x Hx). right. exact Hv.
  - split; [exact A|]. intros x Hx Hv. apply (B x Hx). right. exact Hv.
Qed.
Lemma omap_ids (f : step -> outcome (string * text)) l : (forall s x, f s = ROk x -> fst x = s_id s) -> forall r, omap f l = ROk r -> map fst r = map s_id l.
Proof.
  intros Hf. induction l as [|s l IH]; intros r H; cbn [omap] in H; [injection H as <-; reflexivity|]. apply obind_ok in H. destruct H as [x [Hx H]]. apply obind_ok in H. destruct H as [y [Hy H]]. injection H as <-.
  cbn [map]. rewrite (Hf _ _ Hx), (IH _ Hy). reflexivity.
Qed.
(** For every proof that is read from a text: as many files as there are lia_generic steps outside of subproofs, each with the problem of its step, and no file overwrites another one. *)
Theorem C63_lia_files : forall cf holes sdecl E D txt proof share p root files, read_proof_text cf holes sdecl E D txt = ROk proof -> lia_files share p proof = ROk files ->
  NoDup (map (fun f => lia_file_name root (fst f)) files) /\ map fst files = map s_id (lia_steps proof) /\
  (forall s, In (CStep s) proof -> s_rule s = "lia_generic" -> exists t, lia_file share p (s_clause s) = ROk t /\ In (s_id s, t) files).
Proof.
  intros cf holes sdecl E D txt proof share p root files Hr Hf. destruct (text_raws _ _ _ _ _ _ _ Hr) as [rs Hp]. apply parse_fresh in Hp.
  unfold lia_files in Hf. fold (lia_steps proof) in Hf.
  assert (Hm : map fst files = map s_id (lia_steps proof)).
  { refine (omap_ids _ _ _ _ Hf). intros s x Hx. apply obind_ok in Hx. destruct Hx as [t [_ Hx]]. injection Hx as <-. reflexivity. }
  split; [|split; [exact Hm|]].
  - rewrite <- (map_map fst (lia_file_name root)), Hm. apply C63_lia_names. apply (proj1 (lia_fresh _ _ Hp)).
  - intros s Hs Hn. assert (Hin : In s (lia_steps proof)). { unfold lia_steps. apply in_flat_map. exists (CStep s). split; [exact Hs|]. rewrite Hn. left. reflexivity. }
    clear -Hf Hin. revert files Hf Hin. induction (lia_steps proof) as [|s0 l IH]; intros files Hf Hin; [destruct Hin|]. cbn [omap] in Hf. apply obind_ok in Hf. destruct Hf as [x [Hx Hf]].
    apply obind_ok in Hf. destruct Hf as [y [Hy Hf]]. injection Hf as <-. destruct Hin as [->|Hin].
    + apply obind_ok in Hx. destruct Hx as [t [Ht Hx]]. injection Hx as <-. exists t. split; [exact Ht|left; reflexivity].
    + destruct (IH _ Hy Hin) as (t & Ht & Hi). exists t. split; [exact Ht|right; exact Hi].
Qed.
Print Assumptions C63_lia_files.
(** The loop of the code over the iterator of the proof (lib.rs:291-323): a step is taken if the depth after it is 0. The loop ends for every proof, also with subproofs, and takes the
    steps [lia_steps] of the theorem above. *)
Inductive lia_run : stack -> list step -> Prop :=
| lr_end s : iter_next s = None -> lia_run s []
| lr_take s st s' l : iter_next s = Some (CStep st, s') -> s_rule st = "lia_generic" -> List.length s' - 1 = 0 -> lia_run s' l -> lia_run s (st :: l)
| lr_skip s c s' l : iter_next s = Some (c, s') -> (forall st, c = CStep st -> s_rule st = "lia_generic" -> List.length s' - 1 <> 0) -> lia_run s' l -> lia_run s l.
Definition enter (c : command) (s : stack) : stack := match c with CSub sub _ _ => (0, sub) :: s | _ => s end.
Lemma next_at i cs out c : nth_error cs i = Some c -> iter_next ((i, cs) :: out) = Some (c, enter c ((S i, cs) :: out)).
Proof. intros H. cbn [iter_next]. rewrite H. destruct c; reflexivity. Qed.
Lemma lr_same s s' l : iter_next s = iter_next s' -> lia_run s l -> lia_run s' l.
Proof. intros E H. destruct H as [s H|s st s1 l H Hr Hd Hl|s c s1 l H Hc Hl]; rewrite E in H; [apply lr_end; exact H|eapply lr_take; eauto|eapply lr_skip; eauto]. Qed.
Lemma lr_list cs out l : Forall (fun c => forall s l, s <> [] -> lia_run s l -> lia_run (enter c s) l) cs -> out <> [] -> lia_run out l -> forall k i, List.length cs - i <= k -> lia_run ((i, cs) :: out) l.
Proof.
  intros HF Ho Hl. induction k as [|k IH]; intros i Hk; destruct (nth_error cs i) as [c|] eqn:E.
  - assert (i < List.length cs) by (apply nth_error_Some; congruence). lia.
  - apply (lr_same out); [|exact Hl]. cbn [iter_next]. rewrite E. destruct out; [congruence|reflexivity].
  - assert (i < List.length cs) by (apply nth_error_Some; congruence). eapply lr_skip; [apply next_at; exact E| |].
    + intros st -> _. cbn [enter]. destruct out; [congruence|cbn; lia].
    + rewrite Forall_forall in HF. apply (HF c (nth_error_In _ _ E)); [discriminate|]. apply IH. lia.
  - apply (lr_same out); [|exact Hl]. cbn [iter_next]. rewrite E. destruct out; [congruence|reflexivity].
Qed.
Lemma lr_enter c : forall s l, s <> [] -> lia_run s l -> lia_run (enter c s) l.
Proof. induction c as [id t|st|cs args k H] using command_ind'; intros s l Hs Hl; cbn [enter]; try exact Hl. apply (lr_list cs s l H Hs Hl (List.length cs)). lia. Qed.
Lemma lr_top proof : forall k i, List.length proof - i <= k -> lia_run [(i, proof)] (lia_steps (skipn i proof)).
Proof.
  induction k as [|k IH]; intros i Hk; destruct (nth_error proof i) as [c|] eqn:E.
  - assert (i < List.length proof) by (apply nth_error_Some; congruence). lia.
  - apply nth_error_None in E as E'. rewrite skipn_all2 by exact E'. apply lr_end. cbn [iter_next]. rewrite E. reflexivity.
  - assert (i < List.length proof) by (apply nth_error_Some; congruence). rewrite (skipn_nth _ _ _ E). specialize (IH (S i) ltac:(lia)). pose proof (next_at i proof [] c E) as En.
    unfold lia_steps in *. cbn [flat_map]. destruct c as [id t|st|cs args m].
    + eapply lr_skip; [exact En|discriminate|exact IH].
    + destruct (String.eqb_spec (s_rule st) "lia_generic") as [Er|Er]; [eapply lr_take; [exact En|exact Er|reflexivity|exact IH]|eapply lr_skip; [exact En| |exact IH]]. intros st' Es. injection Es as <-. congruence.
    + eapply lr_skip; [exact En|discriminate|]. apply lr_enter; [discriminate|exact IH].
  - apply nth_error_None in E as E'. rewrite skipn_all2 by exact E'. apply lr_end. cbn [iter_next]. rewrite E. reflexivity.
Qed.
Lemma lr_det s l : lia_run s l -> forall l', lia_run s l' -> l = l'.
Proof.
  induction 1 as [s H|s st s' l H Hr Hd Hl IH|s c s' l H Hc Hl IH]; intros l' H'; inversion H' as [s1 E|s1 st1 s2 l1 E Er1 Ed1 El1|s1 c1 s2 l1 E Ec1 El1]; subst; rewrite E in H; try discriminate H; try reflexivity;
  injection H; intros; subst; try (f_equal; apply IH; assumption); try (exfalso; eapply Ec1; eauto; fail); try (exfalso; eapply Hc; eauto; fail); auto.
Qed.
Theorem C63_lia_loop : forall proof l, lia_run [(0, proof)] l <-> l = lia_steps proof.
Proof.
  intros proof l. pose proof (lr_top proof (List.length proof) 0 ltac:(lia)) as H. cbn [skipn] in H. split; [intros Hl; apply (lr_det _ _ Hl _ H)|intros ->; exact H].
Qed.
Print Assumptions C63_lia_loop.
Example C63_lia_files_ex : exists proof files,
  read_proof_text cf0 false [] [] [] (chars "(step t1 (cl (= 1 1)) :rule lia_generic) (step t2 (cl (= 2 2)) :rule refl) (step t3 (cl (< 1 2)) :rule lia_generic)") = ROk proof /\
  lia_files no_share s_pre proof = ROk files /\ map (fun f => lia_file_name "a" (fst f)) files = ["a-t1.lia_smt2"; "a-t3.lia_smt2"].
Proof.
  match goal with |- exists _ _, ?r = _ /\ _ => let q := eval vm_compute in r in match q with ROk ?a => exists a end end.
  match goal with |- exists _, _ /\ ?r = _ /\ _ => let q := eval vm_compute in r in match q with ROk ?a => exists a end end.
  split; [vm_compute; reflexivity|]. split; [vm_compute; reflexivity|]. reflexivity.
Qed.
(** The problem of a proof file [x.smt2.alethe]: the longest prefix of the name that ends in an extension of problems, after at least one other part. *)
Definition candidate (q : list string) : Prop := exists x y r, q = x :: y :: r /\ smt_ext x = true.
Theorem C63_inferred : forall name q, infer_problem name = Some q <->
  (candidate q /\ exists pre, name = (pre ++ q)%list /\ forall pre' q', name = (pre' ++ q')%list -> candidate q' -> List.length q' <= List.length q).
Proof.
  induction name as [|x name IH]; intros q.
  - split; [discriminate|]. intros [(a & b & r & -> & _) [pre [H _]]]. destruct pre; discriminate.
  - destruct name as [|y r].
    + split; [discriminate|]. intros [(a & b & r & -> & _) [pre [H _]]]. destruct pre as [|? [|]]; discriminate.
    + cbn [infer_problem]. destruct (smt_ext x) eqn:Ex.
      * split.
        -- intros H. injection H as <-. split; [exists x, y, r; auto|]. exists []. split; [reflexivity|]. intros pre' q' E _. rewrite E, app_length. lia.
        -- intros [Hc [pre [E Hm]]]. f_equal. specialize (Hm [] (x :: y :: r) eq_refl ltac:(exists x, y, r; auto)). destruct pre as [|z pre]; [exact E|]. exfalso. apply (f_equal (@List.length string)) in E. rewrite app_length in E. cbn [List.length] in *. lia.
      * change (infer_problem (y :: r) = Some q <-> (candidate q /\ exists pre, x :: y :: r = (pre ++ q)%list /\ forall pre' q', x :: y :: r = (pre' ++ q')%list -> candidate q' -> List.length q' <= List.length q)).
        rewrite IH. split.
        -- intros [Hc [pre [E Hm]]]. split; [exact Hc|]. exists (x :: pre). split; [cbn; rewrite E; reflexivity|]. intros [|z pre'] q' E' Hc'.
           ++ cbn in E'. subst q'. destruct Hc' as (a & b & r' & E' & Ha). injection E' as <- _ _. congruence.
           ++ cbn in E'. injection E' as _ E'. exact (Hm pre' q' E' Hc').
        -- intros [Hc [pre [E Hm]]]. split; [exact Hc|]. destruct pre as [|z pre].
           ++ cbn in E. subst q. destruct Hc as (a & b & r' & E & Ha). injection E as <- _ _. congruence.
           ++ cbn in E. injection E as _ E. exists pre. split; [exact E|]. intros pre' q' E' Hc'. apply (Hm (x :: pre') q'); [cbn; rewrite E'; reflexivity|exact Hc'].
Qed.
Print Assumptions C63_inferred.
Example C63_ex : infer_problem ["proof"; "cvc5"; "smt2"; "a"] = Some ["smt2"; "a"] /\ infer_problem ["alethe"; "a"] = None /\ infer_problem ["smt2"] = None /\
  slice_files None "a.smt2" "t5" = ROk ("a.smt2-t5.alethe", "a.smt2-t5.smt2") /\ lia_file_name "a.smt2.alethe" "t5" = "a.smt2.alethe-t5.lia_smt2".
Proof. repeat split. Qed.
