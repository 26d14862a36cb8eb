(** The parallel checker as a whole: schedule, then run the workers in any interleaving. *)
From Coq Require Import List String ZArith NArith Bool Arith Lia Permutation.
From Verif Require Import Base Term Rules Polyeq Checker Scheduler SchedSound Parallel.
Import ListNotations.
Local Open Scope nat_scope.

(** [parallel table cfg prems n proof r]: some execution with [n] threads ends with verdict [r].
    checker/parallel/mod.rs:60-139; the schedule is that of [Scheduler::new]. *)
Definition parallel (table : bool -> string -> option crule) (cfg : config) (prems : list term)
    (n : nat) (proof : list command) (r : outcome bool) : Prop :=
  match schedule_n n proof with
  | ROk (loads, _) => exists g, gsteps table cfg prems n (ginit proof loads) g /\ final n g /\ verdict n g = r
  | RErr => False
  | RPanic => r = RPanic
  end.

(** order-preserving selection *)
Inductive subseq {A} : list A -> list A -> Prop :=
| SS_nil : subseq [] []
| SS_skip x a b : subseq a b -> subseq a (x :: b)
| SS_take x a b : subseq a b -> subseq (x :: a) (x :: b).
Lemma subseq_nil {A} : forall l : list A, subseq [] l.
Proof. induction l; constructor; auto. Qed.
Lemma subseq_In {A} (a b : list A) x : subseq a b -> In x a -> In x b.
Proof. induction 1; cbn; [auto|auto|]. intros [->|H1]; auto. Qed.
Lemma owned_subseq w : forall os vs, subseq (owned w os vs) vs.
Proof.
  induction os as [|o os IH]; intros [|v vs]; try apply subseq_nil. unfold owned. cbn [combine filter map fst snd].
  destruct (Nat.eqb o w && leaf v); cbn [map]; constructor; apply IH.
Qed.
Lemma owned_leaf w os vs v : In v (owned w os vs) -> leaf v = true.
Proof.
  unfold owned. rewrite in_map_iff. intros ([o u] & <- & H). apply filter_In in H. destruct H as [_ H]. apply andb_true_iff in H. apply H.
Qed.

Lemma assign_heap n : 0 < n -> forall (q : list aload) (wt : N), heap_ok n q ->
  exists w q', heap_assign q wt = Some (w, q') /\ w < n /\ heap_ok n q'.
Proof. intros Hn q wt H. destruct (heap_assign_ok n q wt Hn H) as (w & q' & H1). eauto. Qed.

Section Main.
  Variable n : nat.
  Hypothesis Hn : 0 < n.
  Variable proof : list command.
  Hypothesis Hids : ids_ok proof.
  Let all := all_visits proof.
  Let os := owners _ heap_assign (heap_init n) (map fst all).

  Lemma os_len : List.length os = List.length all.
  Proof.
    destruct (owners_ok _ heap_assign (heap_ok n) n (assign_heap n Hn) (map fst all) (heap_init n) (heap_init_ok n)) as [H _].
    unfold os. rewrite H. apply map_length.
  Qed.
  Lemma os_lt w : In w os -> w < n.
  Proof.
    destruct (owners_ok _ heap_assign (heap_ok n) n (assign_heap n Hn) (map fst all) (heap_init n) (heap_init_ok n)) as [_ H]. apply H.
  Qed.

  (** The schedule, when there is one, covers every command once, in order within each worker. *)
  Theorem schedule_n_spec loads usage : schedule_n n proof = ROk (loads, usage) ->
    exists V : nat -> list visit,
      (forall w, sched_iter (loads w) [(0, proof)] = Some (V w)) /\
      (forall w, subseq (filter leaf (V w)) all) /\
      Permutation (flat_map (fun w => filter leaf (V w)) (seq 0 n)) (filter leaf all) /\
      (forall k, nth k usage 0 = total (fun w => ocount k (V w)) n).
  Proof.
    intros H. destruct (schedule_spec proof n _ heap_assign (heap_ok n) (assign_heap n Hn) Hids (heap_init n) (heap_init_ok n))
      as [[E _]|(loads' & usage' & E & HV & HU)]; unfold schedule_n in H; rewrite E in H; [discriminate|].
    assert (loads' = loads) by congruence. assert (usage' = usage) by congruence. subst loads' usage'.
    exists (fun w => match sched_iter (loads w) [(0, proof)] with Some V => V | None => [] end).
    assert (HV' : forall w, exists V, sched_iter (loads w) [(0, proof)] = Some V /\ filter leaf V = owned w os all) by exact HV.
    split; [|split; [|split]].
    - intros w. destruct (HV' w) as (V & EV & _). rewrite EV. reflexivity.
    - intros w. destruct (HV' w) as (V & EV & EF). rewrite EV, EF. apply owned_subseq.
    - rewrite (flat_map_ext _ (fun w => owned w os all)).
      + apply owned_perm; [apply os_len|apply os_lt].
      + intros w. destruct (HV' w) as (V & EV & EF). rewrite EV, EF. reflexivity.
    - intros k. rewrite HU. apply total_ext. intros w _. destruct (HV' w) as (V & EV & _). rewrite EV. reflexivity.
  Qed.
  (** It fails only by a panic, and only if the heap gave some worker nothing but subproof openings. *)
  Theorem schedule_n_panic : schedule_n n proof <> RErr /\
    (schedule_n n proof = RPanic -> exists w, In w os /\ owned w os all = []).
  Proof.
    unfold schedule_n. destruct (schedule_spec proof n _ heap_assign (heap_ok n) (assign_heap n Hn) Hids (heap_init n) (heap_init_ok n))
      as [[E Hw]|(loads' & usage' & E & HV & HU)]; rewrite E; split; try discriminate; auto.
  Qed.
  Theorem schedule_n_nosub : forallb (fun c => negb (is_sub c)) proof = true -> exists r, schedule_n n proof = ROk r.
  Proof.
    intros Hs. destruct (schedule_n_panic) as [H1 H2]. destruct (schedule_n n proof) as [r| |]; [eauto|congruence|]. exfalso.
    destruct (H2 eq_refl) as (w & Hw & E). clear H1 H2.
    assert (HA : forall v, In v all -> leaf v = true).
    { unfold all, all_visits. generalize 0 at 1. rewrite forallb_forall in Hs.
      assert (G : forall l i, (forall c, In c l -> negb (is_sub c) = true) -> forall v, In v (visits_list proof [] l i) -> leaf v = true).
      { induction l as [|c l IH]; intros i Hl v Hv; [destruct Hv|]. cbn [visits_list] in Hv. apply in_app_or in Hv.
        destruct Hv as [Hv|Hv]; [|eapply IH; [|exact Hv]; intros; apply Hl; right; auto].
        specialize (Hl c (or_introl eq_refl)). rewrite visits_eq in Hv. destruct c; try discriminate; destruct Hv as [<-|[]]; reflexivity. }
      intros k. apply G. exact Hs. }
    pose proof os_len as HL. revert Hw E HL HA. generalize os, all. intros o. induction o as [|x o IH]; intros vs Hw E HL HA; [destruct Hw|].
    destruct vs as [|v vs]; [discriminate|]. unfold owned in E. cbn [combine filter fst snd] in E. rewrite (HA v (or_introl eq_refl)), andb_true_r in E.
    destruct (Nat.eqb_spec x w); [discriminate|]. destruct Hw as [Hw|Hw]; [congruence|].
    apply (IH vs); auto. intros u Hu. apply HA. right. auto.
  Qed.

  Variable table : bool -> string -> option crule.
  Variable cfg : config.
  Variable prems : list term.
  Hypothesis Hnp : forall v, In v all -> judge table cfg prems v <> RPanic.

  Lemma run_hyps loads usage : schedule_n n proof = ROk (loads, usage) -> exists V : nat -> list visit,
    (forall w, sched_iter (loads w) [(0, proof)] = Some (V w)) /\
    (forall v, In v all -> leaf v = true -> exists w, w < n /\ In v (V w)) /\
    (forall w v, In v (V w) -> leaf v = true -> In v all).
  Proof.
    intros H. destruct (schedule_n_spec loads usage H) as (V & HV & HS & HP & _). exists V. split; [exact HV|]. split.
    - intros v Hv Hl. assert (Hi : In v (filter leaf all)) by (apply filter_In; auto).
      apply (Permutation_in _ (Permutation_sym HP)) in Hi. apply in_flat_map in Hi. destruct Hi as (w & Hw & Hi).
      apply in_seq in Hw. apply filter_In in Hi. exists w. split; [lia|apply Hi].
    - intros w v Hv Hl. apply (subseq_In _ _ v (HS w)). apply filter_In. auto.
  Qed.

  (** All executions give the same verdict, the one determined by the judgements. *)
  Theorem parallel_verdict r : parallel table cfg prems n proof r ->
    schedule_n n proof <> RPanic -> r = pjudge table cfg prems all.
  Proof.
    unfold parallel. intros H Hs. destruct (schedule_n n proof) as [[loads usage]| |] eqn:E; [|contradiction|congruence].
    destruct H as (g & Hg & Hf & <-). destruct (run_hyps loads usage E) as (V & HV & HC & HS).
    exact (par_verdict table cfg prems proof n loads V HV HC HS Hnp g Hg Hf).
  Qed.
  Theorem parallel_seq r : wfp proof = true -> (forall v, In v all -> end_empty v = false) ->
    parallel table cfg prems n proof r -> schedule_n n proof <> RPanic -> r = check table cfg prems proof.
  Proof.
    unfold parallel. intros Hw He H Hs. destruct (schedule_n n proof) as [[loads usage]| |] eqn:E; [|contradiction|congruence].
    destruct H as (g & Hg & Hf & <-). destruct (run_hyps loads usage E) as (V & HV & HC & HS).
    exact (par_eq_seq table cfg prems proof n loads V HV HC HS Hnp g Hw He Hg Hf).
  Qed.
End Main.

(** Some execution ends: from any state one can run to a final state; and no execution goes on for ever. *)
Lemma final_dec n g : {final n g} + {~ final n g}.
Proof.
  destruct (anyw n (fun w => negb (stopped (w_status (g_w g w))))) eqn:E.
  - right. intros H. apply anyw_true in E. destruct E as (w & Hw & E). rewrite (H w Hw) in E. discriminate.
  - left. intros w Hw. destruct (stopped (w_status (g_w g w))) eqn:Es; [reflexivity|]. exfalso.
    assert (X : anyw n (fun w => negb (stopped (w_status (g_w g w)))) = true); [|congruence]. apply anyw_true. exists w. rewrite Es. auto.
Qed.
Lemma reach_final table cfg prems n g0 g : gsteps table cfg prems n g0 g -> exists g', gsteps table cfg prems n g0 g' /\ final n g'.
Proof.
  remember (gmeas n g) as m eqn:Em. revert g Em. induction m as [m IH] using lt_wf_ind. intros g -> Hg.
  destruct (final_dec n g) as [Hf|Hf]; [eauto|]. destruct (par_progress table cfg prems n g Hf) as [g' Hs].
  apply (IH (gmeas n g')) with (g := g'); [eapply par_decreases; eauto|reflexivity|econstructor; eauto].
Qed.
Lemma par_wf table cfg prems n : well_founded (fun g' g => gstep table cfg prems n g g').
Proof.
  intros g. remember (gmeas n g) as m eqn:Em. revert g Em. induction m as [m IH] using lt_wf_ind. intros g ->.
  constructor. intros g' H. eapply IH; [|reflexivity]. eapply par_decreases; eauto.
Qed.
Lemma parallel_total table cfg prems n proof : 0 < n -> ids_ok proof -> exists r, parallel table cfg prems n proof r.
Proof.
  intros Hn Hi. unfold parallel. destruct (schedule_n n proof) as [[loads usage]| |] eqn:E; [| |eauto].
  - destruct (reach_final table cfg prems n _ _ (GS_refl table cfg prems n (ginit proof loads))) as (g & Hg & Hf). eauto.
  - exfalso. destruct (schedule_n_panic n Hn proof Hi) as [H _]. congruence.
Qed.
