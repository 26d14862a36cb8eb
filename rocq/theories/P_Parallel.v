(** C25, C26: the parallel checker and its scheduler. *)
From Coq Require Import List String ZArith NArith Bool Arith Lia Permutation.
From Verif Require Import Base Term Rules Polyeq Checker CheckerSound CheckerSem Table CheckerRefute Scheduler SchedSound Parallel ParallelMain.
Import ListNotations.
Open Scope string_scope.
Local Open Scope nat_scope.

(** (assume h1 p) (assume h2 (not p)) (anchor) (t3.t1: (= p p)) (t3: the empty clause, by resolution of h1 and h2) *)
Definition nested_proof : list command :=
  [ CAssume "h1" p_; CAssume "h2" (tNot p_);
    CSub [CStep (mkStep "t3.t1" [tEq p_ p_] "eq_reflexive" [] [] []);
          CStep (mkStep "t3" [] "resolution" [(0, 0); (0, 1)] [] [])] [] 0 ].

Lemma ids_nested : ids_ok nested_proof.
Proof. vm_compute. reflexivity. Qed.
Lemma np_of_all table cfg prems proof :
  forallb (fun v => match judge table cfg prems v with RPanic => false | _ => true end) (all_visits proof) = true ->
  forall v, In v (all_visits proof) -> judge table cfg prems v <> RPanic.
Proof. intros H v Hv E. rewrite forallb_forall in H. specialize (H v Hv). rewrite E in H. discriminate. Qed.
Lemma he_of_all proof : forallb (fun v => negb (end_empty v)) (all_visits proof) = true ->
  forall v, In v (all_visits proof) -> end_empty v = false.
Proof. intros H v Hv. rewrite forallb_forall in H. specialize (H v Hv). apply negb_true_iff in H. exact H. Qed.

(** C25 fails: a proof, with the shape the parser enforces, that the sequential checker accepts without holes,
    and that the parallel checker with two threads rejects in every execution. Its empty clause is the
    conclusion of an outermost subproof. *)
Theorem C25_parallel_refuted : forall other, exists prems proof,
  forallb shape_ok proof = true /\ ids_ok proof /\
  check (rule_table other) cfg_default prems proof = ROk false /\
  (exists r, parallel (rule_table other) cfg_default prems 2 proof r) /\
  (forall r, parallel (rule_table other) cfg_default prems 2 proof r -> r = RErr).
Proof.
  intros other. exists [p_; tNot p_], nested_proof. split; [reflexivity|]. split; [exact ids_nested|]. split; [vm_compute; reflexivity|].
  split; [apply parallel_total; [lia|exact ids_nested]|].
  intros r H. rewrite (parallel_verdict 2 ltac:(lia) nested_proof ids_nested (rule_table other) cfg_default [p_; tNot p_]
    ltac:(apply np_of_all; vm_compute; reflexivity) r H ltac:(vm_compute; discriminate)). vm_compute. reflexivity.
Qed.
Print Assumptions C25_parallel_refuted.

(** What holds: for every number of threads, every interleaving and every delay in seeing the abort flag, the
    verdict (including the holey flag) is that of the sequential checker. Conditions:
    - subproofs end in a step and have their contexts numbered in preorder (the parser does both);
    - no outermost subproof concludes the empty clause; no rule panics; the scheduler did not panic.
    [parallel t c ps n p r] says that some execution with [n] threads ends with [r]. *)
Theorem C25_parallel_partial : forall table cfg prems n proof r,
  0 < n -> ids_ok proof -> wfp proof = true ->
  (forall v, In v (all_visits proof) -> end_empty v = false) ->
  (forall v, In v (all_visits proof) -> judge table cfg prems v <> RPanic) ->
  schedule_n n proof <> RPanic ->
  parallel table cfg prems n proof r -> r = check table cfg prems proof.
Proof. intros table cfg prems n proof r Hn Hi Hw He Hp Hs H. exact (parallel_seq n Hn proof Hi table cfg prems Hp r Hw He H Hs). Qed.
Print Assumptions C25_parallel_partial.

(** The verdict does not depend on the interleaving or, given a schedule, on the number of threads. *)
Theorem C25_deterministic_partial : forall table cfg prems proof n1 n2 r1 r2,
  0 < n1 -> 0 < n2 -> ids_ok proof ->
  (forall v, In v (all_visits proof) -> judge table cfg prems v <> RPanic) ->
  schedule_n n1 proof <> RPanic -> schedule_n n2 proof <> RPanic ->
  parallel table cfg prems n1 proof r1 -> parallel table cfg prems n2 proof r2 -> r1 = r2.
Proof.
  intros table cfg prems proof n1 n2 r1 r2 H1 H2 Hi Hp Hs1 Hs2 Hr1 Hr2.
  rewrite (parallel_verdict n1 H1 proof Hi table cfg prems Hp r1 Hr1 Hs1), (parallel_verdict n2 H2 proof Hi table cfg prems Hp r2 Hr2 Hs2).
  reflexivity.
Qed.
Print Assumptions C25_deterministic_partial.

(** Every execution ends, and some verdict is always given: no deadlock, no livelock. *)
Theorem C25_terminates : forall table cfg prems n,
  well_founded (fun g' g => gstep table cfg prems n g g') /\
  (forall g, ~ final n g -> exists g', gstep table cfg prems n g g') /\
  (forall proof, 0 < n -> ids_ok proof -> exists r, parallel table cfg prems n proof r).
Proof.
  intros table cfg prems n. split; [apply par_wf|]. split; [apply par_progress|]. intros. apply parallel_total; auto.
Qed.
Print Assumptions C25_terminates.

(** the greedy-resolution proof of CheckerRefute.v, and a proof with a subproof, meet the hypotheses *)
Definition flat_sub_proof : list command :=
  [ CAssume "h1" p_; CAssume "h2" (tNot p_);
    CSub [CAssume "t3.h" p_; CStep (mkStep "t3.t1" [tEq p_ p_] "eq_reflexive" [] [] []);
          CStep (mkStep "t3" [tNot p_; tEq p_ p_] "subproof" [] [] [(1, 0)])] [] 0;
    CStep (mkStep "t4" [] "resolution" [(0, 0); (0, 1)] [] []) ].
Example C25_nonvacuous : forall other,
  ids_ok flat_sub_proof /\ wfp flat_sub_proof = true /\
  forallb (fun v => negb (end_empty v)) (all_visits flat_sub_proof) = true /\
  forallb (fun v => match judge (rule_table other) cfg_default [p_; tNot p_] v with RPanic => false | _ => true end)
    (all_visits flat_sub_proof) = true /\
  schedule_n 2 flat_sub_proof <> RPanic /\ schedule_n 3 flat_sub_proof <> RPanic /\
  check (rule_table other) cfg_default [p_; tNot p_] flat_sub_proof = ROk false /\
  parallel (rule_table other) cfg_default [p_; tNot p_] 2 flat_sub_proof (ROk false).
Proof.
  intros other. split; [vm_compute; reflexivity|]. split; [reflexivity|]. split; [vm_compute; reflexivity|].
  split; [vm_compute; reflexivity|]. split; [vm_compute; discriminate|]. split; [vm_compute; discriminate|].
  assert (E : check (rule_table other) cfg_default [p_; tNot p_] flat_sub_proof = ROk false) by (vm_compute; reflexivity).
  split; [exact E|].
  destruct (parallel_total (rule_table other) cfg_default [p_; tNot p_] 2 flat_sub_proof ltac:(lia) ltac:(vm_compute; reflexivity)) as [r Hr].
  assert (Hr' : r = check (rule_table other) cfg_default [p_; tNot p_] flat_sub_proof).
  { apply (C25_parallel_partial (rule_table other) cfg_default [p_; tNot p_] 2 flat_sub_proof r); [lia| | | | | |exact Hr].
    - vm_compute; reflexivity.
    - vm_compute; reflexivity.
    - apply he_of_all. vm_compute. reflexivity.
    - apply np_of_all. vm_compute. reflexivity.
    - vm_compute; discriminate. }
  rewrite E in Hr'. subst r. exact Hr.
Qed.

(** C26 fails: with three threads the scheduler panics on a proof that consists of a subproof of two steps,
    because one worker is given nothing but the opening of the subproof. *)
Theorem C26_scheduler_refuted : exists n proof, 0 < n /\ forallb shape_ok proof = true /\ ids_ok proof /\
  schedule_n n proof = RPanic.
Proof. exists 3, [sub2]. split; [lia|]. split; [reflexivity|]. split; vm_compute; reflexivity. Qed.
Print Assumptions C26_scheduler_refuted.

(** What holds of every schedule: running the loads as the workers do visits each step and assumption exactly
    once over all workers, with the enclosing subproofs (command lists and positions) open that the sequential
    traversal has open; each worker goes in proof order; and the usage count of each context is the number of
    workers' openings of it. [all_visits] is the plain recursive preorder traversal. *)
Theorem C26_schedule_partial : forall n proof loads usage, 0 < n -> ids_ok proof ->
  schedule_n n proof = ROk (loads, usage) ->
  exists V : nat -> list visit,
    (forall w, sched_iter (loads w) [(0, proof)] = Some (V w)) /\
    (forall w, subseq (filter leaf (V w)) (all_visits proof)) /\
    Permutation (flat_map (fun w => filter leaf (V w)) (seq 0 n)) (filter leaf (all_visits proof)) /\
    (forall k, nth k usage 0 = total (fun w => ocount k (V w)) n).
Proof. intros n proof loads usage Hn Hi. exact (schedule_n_spec n Hn proof Hi loads usage). Qed.
Print Assumptions C26_schedule_partial.

(** The same for any way of choosing the worker of each command (heap order and tie-breaking do not matter). *)
Theorem C26_any_assignment_partial : forall proof n Q (assign : Q -> N -> option (nat * Q)) (QI : Q -> Prop),
  (forall q wt, QI q -> exists w q', assign q wt = Some (w, q') /\ w < n /\ QI q') ->
  ids_ok proof -> forall q0, QI q0 ->
  let os := owners Q assign q0 (map fst (all_visits proof)) in
  (schedule Q assign q0 proof = RPanic /\ exists w, In w os /\ owned w os (all_visits proof) = []) \/
  (exists loads usage, schedule Q assign q0 proof = ROk (loads, usage) /\
     forall w, exists V, sched_iter (loads w) [(0, proof)] = Some V /\ filter leaf V = owned w os (all_visits proof)).
Proof.
  intros proof n Q assign QI Ha Hi q0 Hq os.
  destruct (schedule_spec proof n Q assign QI Ha Hi q0 Hq) as [H|(l & u & E & HV & _)]; [left; exact H|right].
  exists l, u. split; [exact E|exact HV].
Qed.
Print Assumptions C26_any_assignment_partial.

(** The panic is the only failure, it needs a worker that got only subproof openings, and so it cannot happen
    for a proof without subproofs. *)
Theorem C26_panic_only : forall n proof, 0 < n -> ids_ok proof ->
  schedule_n n proof <> RErr /\
  (forallb (fun c => negb (is_sub c)) proof = true -> exists r, schedule_n n proof = ROk r).
Proof.
  intros n proof Hn Hi. split; [apply (schedule_n_panic n Hn proof Hi)|]. intros H. exact (schedule_n_nosub n Hn proof Hi H).
Qed.
Print Assumptions C26_panic_only.
Example C26_nonvacuous :
  exists loads usage, schedule_n 2 flat_sub_proof = ROk (loads, usage) /\
    map loads [0; 1] = [[(0, Some 0); (0, Some 2); (1, Some 1); (1, None); (0, Some 3); (0, None)];
                       [(0, Some 1); (0, Some 2); (1, Some 0); (1, Some 2); (1, None); (0, None)]].
Proof. eexists. eexists. split; vm_compute; reflexivity. Qed.
