(** C58: the verdict of a benchmark run is that of its instances, for every schedule. C59: the metrics are those of the samples. *)
From Coq Require Import List Bool ZArith QArith Qfield Arith Permutation Lia.
From Verif Require Import Base Bench.
Import ListNotations.
Local Open Scope nat_scope.

(** ** C58 *)
(** Specification: invalid if an instance cannot be read or is rejected, otherwise holey if one has holes, otherwise valid. *)
Definition fails (j : job) : bool := match j with JUnreadable | JRejected => true | _ => false end.
Definition has_holes (j : job) : bool := match j with JHoley => true | _ => false end.
Definition expected (jobs : list job) : verdict := if existsb fails jobs then VInvalid else if existsb has_holes jobs then VHoley else VValid.
(** a schedule for these jobs: every job is given to one worker *)
Definition schedules (jobs : list job) (schedule : list (list job)) : Prop := schedule <> [] /\ Permutation (concat schedule) jobs.

Lemma perm_existsb {A} (f : A -> bool) l l' : Permutation l l' -> existsb f l = existsb f l'.
Proof. induction 1; cbn; auto; [congruence|destruct (f x), (f y); reflexivity|congruence]. Qed.
Lemma existsb_concat {A} (f : A -> bool) l : existsb f (concat l) = existsb (existsb f) l.
Proof. induction l as [|a l IH]; cbn; [reflexivity|]. rewrite existsb_app, IH. reflexivity. Qed.
Definition readable_jobs (jobs : list job) : bool := forallb (fun j => match j with JUnreadable => false | _ => true end) jobs.
Lemma online_worker jobs : forall r, let r' := fold_left online_job jobs r in
  on_error r' = on_error r || existsb fails jobs /\
  (existsb fails jobs = false -> on_holey r' = on_holey r || existsb has_holes jobs) /\
  (readable_jobs jobs = true -> on_runs r' = on_runs r + length jobs).
Proof.
  induction jobs as [|j jobs IH]; intros r; cbn [fold_left]; cbn zeta.
  - cbn. rewrite !orb_false_r. repeat split; intros; lia.
  - destruct (IH (online_job r j)) as (H1 & H2 & H3). destruct j; cbn in *.
    + split; [rewrite H1; cbn; rewrite orb_true_r; reflexivity|]. split; intros; discriminate.
    + split; [rewrite H1; cbn; rewrite orb_true_r; reflexivity|]. split; intros H; [discriminate|]. rewrite H3 by exact H. lia.
    + split; [exact H1|]. split; intros H; [rewrite H2 by exact H; cbn; rewrite orb_true_r; reflexivity|]. rewrite H3 by exact H. lia.
    + split; [exact H1|]. split; intros H; [exact (H2 H)|]. rewrite H3 by exact H. lia.
Qed.
Lemma combine_online rs : forall r, let r' := fold_left online_combine rs r in
  on_error r' = on_error r || existsb on_error rs /\ on_holey r' = on_holey r || existsb on_holey rs /\ on_runs r' = on_runs r + list_sum (map on_runs rs).
Proof.
  induction rs as [|a rs IH]; intros r; cbn [fold_left]; cbn zeta; [cbn [existsb map]; rewrite !orb_false_r; unfold list_sum; cbn [fold_right]; split; [reflexivity|split; [reflexivity|lia]]|].
  destruct (IH (online_combine r a)) as (H1 & H2 & H3). rewrite H1, H2, H3. unfold list_sum. cbn [existsb map fold_right online_combine on_error on_holey on_runs]. rewrite !orb_assoc. split; [reflexivity|split; [reflexivity|lia]].
Qed.
Lemma online_result schedule : schedule <> [] -> exists r, run_workers online_job online0 online_combine schedule = ROk r /\
  on_error r = existsb fails (concat schedule) /\ (existsb fails (concat schedule) = false -> on_holey r = existsb has_holes (concat schedule)) /\
  (readable_jobs (concat schedule) = true -> on_runs r = length (concat schedule)).
Proof.
  intros Hn. unfold run_workers. destruct schedule as [|w ws]; [congruence|]. cbn [map]. eexists. split; [reflexivity|].
  destruct (combine_online (map (fun jobs => fold_left online_job jobs online0) ws) (fold_left online_job w online0)) as (H1 & H2 & H3). rewrite H1, H2, H3.
  destruct (online_worker w online0) as (A1 & A2 & A3). cbn [concat]. rewrite !existsb_app. rewrite A1. cbn [on_error on_runs on_holey online0 orb plus] in *.
  assert (E1 : existsb on_error (map (fun jobs => fold_left online_job jobs online0) ws) = existsb fails (concat ws)).
  { rewrite existsb_concat. clear. induction ws as [|a ws IH]; [reflexivity|]. cbn [map existsb]. rewrite IH. f_equal. apply (online_worker a online0). }
  split; [rewrite E1; reflexivity|]. split.
  - intros H. apply orb_false_iff in H. destruct H as [Ha Hb]. rewrite (A2 Ha). f_equal. rewrite existsb_concat in *. clear - Hb. induction ws as [|a ws IH]; [reflexivity|]. cbn [map existsb] in *.
    apply orb_false_iff in Hb. destruct Hb as [Hb Hc]. rewrite IH by exact Hc. f_equal. apply (online_worker a online0). exact Hb.
  - unfold readable_jobs. rewrite forallb_app, app_length. intros H. apply andb_true_iff in H. destruct H as [Ha Hb]. rewrite (A3 Ha). f_equal. clear - Hb. induction ws as [|a ws IH]; [reflexivity|].
    cbn [concat map] in *. rewrite forallb_app in Hb. apply andb_true_iff in Hb. destruct Hb as [Hb Hc]. rewrite app_length. change (on_runs (fold_left online_job a online0) + list_sum (map on_runs (map (fun jobs => fold_left online_job jobs online0) ws)) = length a + length (concat ws)). rewrite IH by exact Hc. f_equal. apply (online_worker a online0). exact Hb.
Qed.
(** For every schedule, the verdict is that of the instances, unless the run claims that it has no data, and that happens only if an instance cannot be read. *)
Theorem C58_online_partial : forall jobs schedule, jobs <> [] -> schedules jobs schedule ->
  bench_online schedule = ROk (expected jobs) \/ (bench_online schedule = ROk VNone /\ In JUnreadable jobs).
Proof.
  intros jobs schedule Hj [Hn Hp]. destruct (online_result schedule Hn) as (r & Hr & H1 & H2 & H3). unfold bench_online. rewrite Hr. cbn [obind]. unfold expected.
  rewrite <- !(perm_existsb _ _ _ Hp), H1. destruct (Nat.eqb (on_runs r) 0) eqn:E.
  - right. split; [reflexivity|]. destruct (readable_jobs (concat schedule)) eqn:Er.
    + apply Nat.eqb_eq in E. rewrite H3 in E by reflexivity. rewrite (Permutation_length Hp) in E. destruct jobs; [congruence|discriminate].
    + apply (Permutation_in _ Hp). unfold readable_jobs in Er. clear - Er. induction (concat schedule) as [|j l IH]; [discriminate|]. cbn in Er. destruct j; cbn in Er; [left; reflexivity|right; auto..].
  - left. destruct (existsb fails (concat schedule)); [reflexivity|]. rewrite H2 by reflexivity. reflexivity.
Qed.
Print Assumptions C58_online_partial.
Theorem C58_readable_partial : forall jobs schedule, jobs <> [] -> schedules jobs schedule -> ~ In JUnreadable jobs -> bench_online schedule = ROk (expected jobs).
Proof. intros jobs schedule H1 H2 H3. destruct (C58_online_partial jobs schedule H1 H2) as [H|[_ H]]; [exact H|contradiction]. Qed.
Print Assumptions C58_readable_partial.
(** With files for the measurements ([--dump-to-csv]): for every schedule the run is reported invalid exactly if an instance fails. With one worker the verdict is right. *)
Lemma csv_worker jobs : forall r, let r' := fold_left csv_job jobs r in
  Nat.ltb 0 (cs_errors r') = Nat.ltb 0 (cs_errors r) || existsb fails jobs /\ (existsb fails jobs = false -> cs_holey r' = cs_holey r || existsb has_holes jobs).
Proof.
  induction jobs as [|j jobs IH]; intros r; cbn [fold_left]; cbn zeta.
  - cbn [existsb]. rewrite !orb_false_r. split; auto.
  - destruct (IH (csv_job r j)) as (H1 & H2). destruct j; cbn in *.
    + split; [rewrite H1, orb_true_r; reflexivity|discriminate].
    + split; [rewrite H1, orb_true_r; reflexivity|discriminate].
    + split; [exact H1|]. intros H. rewrite H2 by exact H. rewrite orb_true_r. reflexivity.
    + split; [exact H1|]. intros H. exact (H2 H).
Qed.
Lemma csv_errors rs : forall r, Nat.ltb 0 (cs_errors (fold_left csv_combine rs r)) = Nat.ltb 0 (cs_errors r) || existsb (fun a => Nat.ltb 0 (cs_errors a)) rs.
Proof.
  induction rs as [|a rs IH]; intros r; cbn [fold_left existsb]; [rewrite orb_false_r; reflexivity|]. rewrite IH. cbn [csv_combine cs_errors]. rewrite orb_assoc. f_equal.
  destruct (Nat.ltb_spec 0 (cs_errors r)), (Nat.ltb_spec 0 (cs_errors a)), (Nat.ltb_spec 0 (cs_errors r + cs_errors a)); cbn; lia || reflexivity.
Qed.
Lemma csv_holey rs : forall r, cs_holey (fold_left csv_combine rs r) = cs_holey r.
Proof. induction rs as [|a rs IH]; intros r; [reflexivity|]. cbn [fold_left]. rewrite IH. reflexivity. Qed.
Theorem C58_csv_partial : forall jobs schedule, schedules jobs schedule -> exists n v, bench_csv schedule = ROk (n, v) /\
  (v = VInvalid <-> expected jobs = VInvalid) /\ (v = VHoley -> expected jobs = VHoley) /\ (expected jobs = VValid -> v = VValid) /\ (length schedule = 1 -> v = expected jobs).
Proof.
  intros jobs schedule [Hn Hp]. unfold bench_csv, run_workers, expected. rewrite <- !(perm_existsb _ _ _ Hp). destruct schedule as [|w ws]; [congruence|]. cbn [map obind]. do 2 eexists. split; [reflexivity|].
  rewrite csv_errors, csv_holey. destruct (csv_worker w csv0) as (A1 & A2). rewrite A1. change (cs_errors csv0) with 0. change (Nat.ltb 0 0) with false. cbn [orb concat]. rewrite !existsb_app.
  assert (E1 : existsb (fun a => Nat.ltb 0 (cs_errors a)) (map (fun jobs => fold_left csv_job jobs csv0) ws) = existsb fails (concat ws)).
  { rewrite existsb_concat. clear. induction ws as [|a ws IH]; [reflexivity|]. cbn [map existsb]. rewrite IH. f_equal. apply (csv_worker a csv0). }
  rewrite E1. destruct (existsb fails w) eqn:Ew; cbn [orb]; [repeat split; intros; congruence|]. rewrite (A2 eq_refl). cbn [cs_holey csv0 orb].
  destruct (existsb fails (concat ws)) eqn:Ec; [repeat split; intros; congruence|].
  destruct (existsb has_holes w); cbn [orb].
  - repeat split; intros; congruence.
  - repeat split; intros; try congruence; try (destruct (existsb has_holes (concat ws)); congruence). destruct ws; [reflexivity|discriminate].
Qed.
Print Assumptions C58_csv_partial.
(** The full statement fails: (1) a rejected proof and then an unreadable one are reported as no data; (2) with files for the measurements and two workers a proof with holes is
    reported valid, and (3) the verdict depends on the schedule; (4) the number of errors that is printed is too small. *)
Theorem C58_refuted :
  (exists jobs s, schedules jobs s /\ expected jobs = VInvalid /\ bench_online s = ROk VNone) /\
  (exists jobs s s' n n', schedules jobs s /\ schedules jobs s' /\ expected jobs = VHoley /\ bench_csv s = ROk (n, VValid) /\ bench_csv s' = ROk (n', VHoley)) /\
  (exists jobs s, schedules jobs s /\ bench_csv s = ROk (1, VInvalid) /\ length (filter fails jobs) = 3).
Proof.
  split; [|split].
  - exists [JRejected; JUnreadable], [[JRejected; JUnreadable]]. repeat split; try discriminate. apply Permutation_refl.
  - exists [JValid; JHoley], [[JValid]; [JHoley]], [[JHoley]; [JValid]], 0, 0. repeat split; try discriminate; [apply Permutation_refl|apply perm_swap].
  - exists [JRejected; JRejected; JUnreadable], [[JRejected; JRejected; JUnreadable]]. repeat split; try discriminate. apply Permutation_refl.
Qed.
Print Assumptions C58_refuted.
Example C58_ex : schedules [JValid; JHoley; JRejected; JValid] [[JHoley; JValid]; []; [JValid; JRejected]] /\ bench_online [[JHoley; JValid]; []; [JValid; JRejected]] = ROk VInvalid.
Proof.
  split; [split; [discriminate|]|reflexivity]. cbn. eapply perm_trans; [|apply perm_swap]. apply perm_skip. apply perm_skip. apply perm_swap.
Qed.

(** The whole command: every run of every instance is done by one of the workers. *)
Definition bench_runs (instances : list job) (num_runs num_jobs : nat) (schedule : list (list job)) : Prop :=
  length schedule = num_jobs /\ Permutation (concat schedule) (concat (repeat instances num_runs)).
Lemma exists_repeat (f : job -> bool) l n : 0 < n -> existsb f (concat (repeat l n)) = existsb f l.
Proof.
  intros Hn. destruct n as [|n]; [lia|]. clear Hn. induction n as [|n IH]; [cbn; rewrite app_nil_r; reflexivity|]. cbn [repeat concat] in *. rewrite existsb_app, IH. apply orb_diag.
Qed.
Lemma in_repeat_concat (j : job) l n : In j (concat (repeat l n)) -> In j l.
Proof. induction n as [|n IH]; cbn; [contradiction|]. intros H. apply in_app_or in H. tauto. Qed.
(** With at least one run and one worker the command does not panic, and if all instances can be read it prints what the instances deserve, whatever the number of runs and of workers
    and whoever gets what.  Missing: unreadable instances and --dump-to-csv (see C58_refuted), and an exit status that says more. *)
Theorem C58_command_partial : forall instances num_runs num_jobs schedule, instances <> [] -> 0 < num_runs -> 0 < num_jobs -> bench_runs instances num_runs num_jobs schedule ->
  (forall csv, bench_command csv instances num_runs schedule <> BPanic) /\
  (~ In JUnreadable instances -> bench_command false instances num_runs schedule = BDone (Some (expected instances)) 0).
Proof.
  intros instances num_runs num_jobs schedule Hi Hr Hj [Hl Hp].
  assert (Hs : schedule <> []) by (intros ->; cbn in Hl; lia).
  assert (Hq : queue_new (length instances * num_runs) = ROk tt). { unfold queue_new. destruct (Nat.eqb_spec (length instances * num_runs) 0) as [E|]; [|reflexivity]. destruct instances; [congruence|]. cbn in E. lia. }
  assert (Hc : concat (repeat instances num_runs) <> []). { destruct num_runs; [lia|]. destruct instances; [congruence|]. discriminate. }
  unfold bench_command. destruct instances as [|i0 is0]; [congruence|]. rewrite Hq. cbn [obind].
  split.
  - intros csv. unfold bench_verdict, bench_csv, bench_online, run_workers. destruct schedule as [|w ws]; [congruence|]. destruct csv; discriminate.
  - intros Hu. unfold bench_verdict. rewrite (C58_readable_partial (concat (repeat (i0 :: is0) num_runs)) schedule Hc (conj Hs Hp)) by (intros H; apply Hu, (in_repeat_concat _ _ _ H)).
    unfold expected. rewrite !exists_repeat by exact Hr. reflexivity.
Qed.
Print Assumptions C58_command_partial.
(** Without runs or without workers the command panics, for all instances.  The exit status never says that a proof was rejected. *)
Theorem C58_command_refuted :
  (forall csv instances schedule, instances <> [] -> bench_command csv instances 0 schedule = BPanic) /\
  (forall csv instances num_runs, instances <> [] -> bench_command csv instances num_runs [] = BPanic) /\
  (forall csv instances num_runs schedule printed status, bench_command csv instances num_runs schedule = BDone printed status -> status = 0) /\
  (exists schedule, bench_runs [JRejected] 1 1 schedule /\ bench_command false [JRejected] 1 schedule = BDone (Some VInvalid) 0).
Proof.
  repeat split.
  - intros csv instances schedule Hi. unfold bench_command. rewrite Nat.mul_0_r. destruct instances; [congruence|reflexivity].
  - intros csv instances num_runs Hi. unfold bench_command. destruct instances; [congruence|]. destruct (queue_new _); try reflexivity. destruct csv; reflexivity.
  - intros csv instances num_runs schedule printed status H. unfold bench_command in H. destruct instances; [congruence|]. destruct (_ ;; _); congruence.
  - exists [[JRejected]]. repeat split. apply Permutation_refl.
Qed.
Print Assumptions C58_command_refuted.
Example C58_command_ex : bench_runs [JValid; JHoley] 2 3 [[JHoley; JValid]; []; [JValid; JHoley]] /\
  bench_command false [JValid; JHoley] 2 [[JHoley; JValid]; []; [JValid; JHoley]] = BDone (Some VHoley) 0.
Proof. split; [split; [reflexivity|]|reflexivity]. cbn. apply perm_swap. Qed.

(** ** C59 *)
Section Metrics.
  Variable K : Type.
  Local Open Scope Q_scope.
  Implicit Types (m a b : metrics K) (l : list (K * Q)).
  (** metrics that are made of samples, added one by one or in parts that are combined, in any way *)
  Inductive made : metrics K -> list (K * Q) -> Prop :=
  | made0 : made metrics0 []
  | made_add m l k v : made m l -> made (add_sample m k v) (l ++ [(k, v)])
  | made_combine a b c la lb : made a la -> made b lb -> combine_metrics a b = ROk c -> made c (la ++ lb).
  (** Specification *)
  Definition sumq (l : list Q) : Q := fold_right Qplus 0 l.
  Definition nq (n : nat) : Q := inject_Z (Z.of_nat n).
  Definition mean_of l : Q := sumq (map snd l) / nq (length l).
  (** the sum of the squares of the distances to the mean *)
  Definition distances l : Q := sumq (map (fun s => (snd s - mean_of l) * (snd s - mean_of l)) l).
  Definition largest (x : K * Q) l : Prop := In x l /\ forall y, In y l -> snd y <= snd x.
  Definition smallest (x : K * Q) l : Prop := In x l /\ forall y, In y l -> snd x <= snd y.

  Lemma sumq_app (l l' : list Q) : sumq (l ++ l') == sumq l + sumq l'.
  Proof. induction l as [|x l IH]; [change (sumq []) with 0; cbn [app]; ring|]. change (sumq ((x :: l) ++ l')) with (x + sumq (l ++ l')). change (sumq (x :: l)) with (x + sumq l). rewrite IH. ring. Qed.
  Lemma nq_S n : nq (S n) == nq n + 1.
  Proof. unfold nq. rewrite Nat2Z.inj_succ. unfold Z.succ. rewrite inject_Z_plus. reflexivity. Qed.
  Lemma nq_plus n k : nq (n + k) == nq n + nq k.
  Proof. unfold nq. rewrite Nat2Z.inj_add, inject_Z_plus. reflexivity. Qed.
  Lemma nq_pos n : (0 < n)%nat -> 0 < nq n.
  Proof. intros H. unfold nq, Qlt. cbn. lia. Qed.
  Lemma nq_nz n : (0 < n)%nat -> ~ nq n == 0.
  Proof. intros H E. pose proof (nq_pos n H) as P. rewrite E in P. discriminate. Qed.
  Lemma gtq_spec x y : gtq x y = true <-> y < x.
  Proof.
    unfold gtq. rewrite negb_true_iff. split; intros H.
    - apply Qnot_le_lt. intros C. apply Qle_bool_iff in C. congruence.
    - destruct (Qle_bool x y) eqn:E; [|reflexivity]. apply Qle_bool_iff in E. exfalso. apply (Qlt_not_le _ _ H E).
  Qed.
  Lemma gtq_false x y : gtq x y = false -> x <= y.
  Proof. unfold gtq. rewrite negb_false_iff. apply Qle_bool_iff. Qed.
  (** what holds of metrics for these samples *)
  Definition right m l : Prop :=
    m_count m = length l /\ m_total m == sumq (map snd l) /\ (l <> [] -> m_mean m == mean_of l) /\ (l = [] -> m_mean m == 0) /\
    match m_max_min m with Some (mx, mn) => largest mx l /\ smallest mn l | None => l = [] end.
  Lemma right_add m l k v : right m l -> right (add_sample m k v) (l ++ [(k, v)]).
  Proof.
    intros (H1 & H2 & H3 & H4 & H5). unfold right, add_sample. cbn [m_count m_total m_mean m_max_min]. rewrite app_length. cbn [length]. split; [lia|].
    assert (Ht : m_total m + v == sumq (map snd (l ++ [(k, v)]))). { rewrite map_app, sumq_app, H2. cbn [map sumq fold_right snd]. ring. }
    split; [exact Ht|]. split; [|split].
    - intros _. unfold mean_of. rewrite Ht, app_length, H1. cbn [length]. replace (length l + 1)%nat with (S (length l)) by lia. reflexivity.
    - intros H. destruct l; discriminate.
    - destruct (m_max_min m) as [[mx mn]|].
      + destruct H5 as [[L1 L2] [S1 S2]]. split.
        * destruct (gtq v (snd mx)) eqn:E.
          -- apply gtq_spec in E. split; [apply in_or_app; right; left; reflexivity|]. intros y Hy. apply in_app_or in Hy. destruct Hy as [Hy|[<-|[]]]; [|apply Qle_refl].
             cbn. apply Qlt_le_weak. eapply Qle_lt_trans; [apply L2; exact Hy|exact E].
          -- apply gtq_false in E. split; [apply in_or_app; left; exact L1|]. intros y Hy. apply in_app_or in Hy. destruct Hy as [Hy|[<-|[]]]; [auto|exact E].
        * destruct (gtq (snd mn) v) eqn:E.
          -- apply gtq_spec in E. split; [apply in_or_app; right; left; reflexivity|]. intros y Hy. apply in_app_or in Hy. destruct Hy as [Hy|[<-|[]]]; [|apply Qle_refl].
             cbn. apply Qlt_le_weak. eapply Qlt_le_trans; [exact E|apply S2; exact Hy].
          -- apply gtq_false in E. split; [apply in_or_app; left; exact S1|]. intros y Hy. apply in_app_or in Hy. destruct Hy as [Hy|[<-|[]]]; [auto|exact E].
      + subst l. cbn. split; (split; [left; reflexivity|intros y [<-|[]]; apply Qle_refl]).
  Qed.
  Lemma sumq_perm (l l' : list Q) : Permutation l l' -> sumq l == sumq l'.
  Proof. induction 1; cbn [sumq fold_right]; [reflexivity|apply Qplus_comp; [reflexivity|assumption]|ring|etransitivity; eauto]. Qed.
  Lemma right_perm m l l' : Permutation l l' -> right m l -> right m l'.
  Proof.
    intros P (H1 & H2 & H3 & H4 & H5). assert (Hs : sumq (map snd l) == sumq (map snd l')) by (apply sumq_perm, Permutation_map, P).
    unfold right. rewrite <- (Permutation_length P), <- Hs. split; [exact H1|]. split; [exact H2|]. split; [|split].
    - intros Hn. unfold mean_of. rewrite <- Hs, <- (Permutation_length P). apply H3. intros ->. apply Permutation_nil in P. congruence.
    - intros ->. apply H4. apply Permutation_sym in P. apply Permutation_nil in P. exact P.
    - destruct (m_max_min m) as [[mx mn]|]; [|subst l; apply Permutation_nil in P; exact P]. destruct H5 as [[L1 L2] [S1 S2]].
      split; (split; [eapply Permutation_in; eauto|intros y Hy; apply Permutation_sym in P; first [apply L2|apply S2]; eapply Permutation_in; eauto]).
  Qed.
  Lemma one l m : right m l -> m_count m = 1%nat -> exists k v, m_max_min m = Some ((k, v), (k, v)) /\ l = [(k, v)].
  Proof.
    intros (H1 & _ & _ & _ & H5) Hc. rewrite Hc in H1. destruct l as [|[k v] [|]]; try discriminate. exists k, v. split; [|reflexivity].
    destruct (m_max_min m) as [[mx mn]|]; [|discriminate]. destruct H5 as [[[<-|[]] _] [[<-|[]] _]]. reflexivity.
  Qed.
  Lemma right_combine a b la lb : right a la -> right b lb -> exists c, combine_metrics a b = ROk c /\ right c (la ++ lb).
  Proof.
    intros Ha Hb. unfold combine_metrics. destruct (Nat.eqb (m_count a) 0) eqn:E0.
    { apply Nat.eqb_eq in E0. destruct la; [|destruct Ha as (Ha & _); cbn in Ha; lia]. exists b. split; [reflexivity|exact Hb]. }
    destruct (Nat.eqb (m_count b) 0) eqn:E0b.
    { apply Nat.eqb_eq in E0b. destruct lb; [|destruct Hb as (Hb & _); cbn in Hb; lia]. exists a. rewrite app_nil_r. split; [reflexivity|exact Ha]. }
    destruct (Nat.eqb (m_count a) 1) eqn:E1.
    { apply Nat.eqb_eq in E1. destruct (one la a Ha E1) as (k & v & Hm & ->). unfold add_min. rewrite Hm. eexists. split; [reflexivity|].
      eapply right_perm; [|apply right_add; exact Hb]. cbn. apply Permutation_sym, Permutation_cons_append. }
    destruct (Nat.eqb (m_count b) 1) eqn:E1b.
    { apply Nat.eqb_eq in E1b. destruct (one lb b Hb E1b) as (k & v & Hm & ->). unfold add_min. rewrite Hm. eexists. split; [reflexivity|]. apply right_add. exact Ha. }
    eexists. split; [reflexivity|]. apply Nat.eqb_neq in E0. apply Nat.eqb_neq in E0b. destruct Ha as (A1 & A2 & A3 & A4 & A5), Hb as (B1 & B2 & B3 & B4 & B5).
    unfold right. cbn [m_count m_total m_mean m_max_min]. rewrite app_length. split; [congruence|].
    assert (Ht : m_total a + m_total b == sumq (map snd (la ++ lb))) by (rewrite map_app, sumq_app, A2, B2; reflexivity). split; [exact Ht|]. split; [|split].
    - intros _. unfold mean_of. rewrite Ht, app_length, A1, B1. reflexivity.
    - intros H. destruct la; [cbn in A1; congruence|discriminate].
    - destruct (m_max_min a) as [[amx amn]|]; [|subst la; cbn in A1; congruence]. destruct (m_max_min b) as [[bmx bmn]|]; [|subst lb; cbn in B1; congruence].
      destruct A5 as [[L1 L2] [S1 S2]], B5 as [[M1 M2] [T1 T2]]. split.
      + destruct (gtq (snd amx) (snd bmx)) eqn:E.
        * apply gtq_spec in E. split; [apply in_or_app; auto|]. intros y Hy. apply in_app_or in Hy. destruct Hy as [Hy|Hy]; [auto|]. apply Qlt_le_weak. eapply Qle_lt_trans; [apply M2; exact Hy|exact E].
        * apply gtq_false in E. split; [apply in_or_app; auto|]. intros y Hy. apply in_app_or in Hy. destruct Hy as [Hy|Hy]; [|auto]. eapply Qle_trans; [apply L2; exact Hy|exact E].
      + destruct (gtq (snd bmn) (snd amn)) eqn:E.
        * apply gtq_spec in E. split; [apply in_or_app; auto|]. intros y Hy. apply in_app_or in Hy. destruct Hy as [Hy|Hy]; [auto|]. apply Qlt_le_weak. eapply Qlt_le_trans; [exact E|apply T2; exact Hy].
        * apply gtq_false in E. split; [apply in_or_app; auto|]. intros y Hy. apply in_app_or in Hy. destruct Hy as [Hy|Hy]; [|auto]. eapply Qle_trans; [exact E|apply S2; exact Hy].
  Qed.
  Lemma made_right m l : made m l -> right m l.
  Proof.
    induction 1 as [|m l k v _ IH|a b c la lb _ IHa _ IHb E].
    - unfold right. cbn. repeat split; try reflexivity; intros; congruence.
    - apply right_add. exact IH.
    - destruct (right_combine a b la lb IHa IHb) as (c' & E' & H). congruence.
  Qed.

  (** *** Squares of the distances *)
  Definition squares l : Q := sumq (map (fun s => snd s * snd s) l).
  Lemma distances_squares l : l <> [] -> distances l == squares l - sumq (map snd l) * sumq (map snd l) / nq (length l).
  Proof.
    intros Hn. assert (Hz : ~ nq (length l) == 0) by (apply nq_nz; destruct l; [congruence|cbn; lia]).
    assert (H : forall c l', sumq (map (fun s : K * Q => (snd s - c) * (snd s - c)) l') == squares l' - (2 # 1) * c * sumq (map snd l') + nq (length l') * c * c).
    { clear. intros c. induction l' as [|s l' IH]; [cbn; unfold squares, nq; cbn; ring|]. cbn [map sumq fold_right length]. fold (sumq (map (fun s : K * Q => (snd s - c) * (snd s - c)) l')). rewrite IH, nq_S.
      unfold squares. cbn [map sumq fold_right]. fold (sumq (map snd l')). fold (sumq (map (fun s : K * Q => snd s * snd s) l')). ring. }
    unfold distances. rewrite H. unfold mean_of. field. exact Hz.
  Qed.
  (** metrics that are combined only if the product of the numbers of samples is a multiple of their sum, or one of them has at most one sample *)
  Definition even_parts (n k : nat) : Prop := (n <= 1 \/ k <= 1 \/ (n * k) mod (n + k) = 0)%nat.
  Inductive made_even : metrics K -> list (K * Q) -> Prop :=
  | even0 : made_even metrics0 []
  | even_add m l k v : made_even m l -> made_even (add_sample m k v) (l ++ [(k, v)])
  | even_combine a b c la lb : made_even a la -> made_even b lb -> even_parts (m_count a) (m_count b) -> combine_metrics a b = ROk c -> made_even c (la ++ lb).
  Lemma even_made m l : made_even m l -> made m l.
  Proof. induction 1; [constructor|constructor; assumption|eapply made_combine; eauto]. Qed.
  Definition ssd_ok m l : Prop := m_ssd m == match l with [] => 0 | _ => squares l - sumq (map snd l) * sumq (map snd l) / nq (length l) end.
  Lemma ssd_add m l k v : right m l -> ssd_ok m l -> ssd_ok (add_sample m k v) (l ++ [(k, v)]).
  Proof.
    intros (H1 & H2 & H3 & H4 & _) H. unfold ssd_ok in *. unfold add_sample. cbn [m_ssd]. destruct l as [|s l].
    - cbn [app]. rewrite H, (H4 eq_refl), H1, H2. unfold squares, nq. cbn. field.
    - set (l0 := s :: l) in *. assert (Hn : l0 <> []) by discriminate. assert (Hz : ~ nq (length l0) == 0) by (apply nq_nz; cbn; lia). assert (Hz' : ~ nq (length l0) + 1 == 0).
      { rewrite <- nq_S. apply nq_nz. lia. }
      change (m_ssd m == squares l0 - sumq (map snd l0) * sumq (map snd l0) / nq (length l0)) in H.
      assert (E : match l0 ++ [(k, v)] with [] => 0 | _ => squares (l0 ++ [(k, v)]) - sumq (map snd (l0 ++ [(k, v)])) * sumq (map snd (l0 ++ [(k, v)])) / nq (length (l0 ++ [(k, v)])) end =
        squares (l0 ++ [(k, v)]) - sumq (map snd (l0 ++ [(k, v)])) * sumq (map snd (l0 ++ [(k, v)])) / nq (length (l0 ++ [(k, v)]))) by reflexivity.
      rewrite E. clear E. rewrite H, (H3 Hn), H1, H2. unfold squares. rewrite !map_app, !sumq_app, app_length. cbn [length map sumq fold_right snd]. replace (length l0 + 1)%nat with (S (length l0)) by lia.
      fold (nq (S (length l0))). rewrite nq_S. unfold mean_of. field. auto.
  Qed.
  Lemma ssd_perm m l l' : Permutation l l' -> ssd_ok m l -> ssd_ok m l'.
  Proof.
    intros P H. unfold ssd_ok in *. rewrite H. destruct l as [|s l]; [apply Permutation_nil in P; subst; reflexivity|]. destruct l' as [|s' l']; [apply Permutation_sym, Permutation_nil in P; discriminate|].
    unfold squares. rewrite (sumq_perm _ _ (Permutation_map _ P)), (sumq_perm _ _ (Permutation_map snd P)), (Permutation_length P). reflexivity.
  Qed.
  Lemma ssd_combine a b c la lb : right a la -> right b lb -> ssd_ok a la -> ssd_ok b lb -> even_parts (m_count a) (m_count b) -> combine_metrics a b = ROk c -> ssd_ok c (la ++ lb).
  Proof.
    intros Ha Hb Sa Sb He H. unfold combine_metrics in H. destruct (Nat.eqb (m_count a) 0) eqn:E0.
    { apply Nat.eqb_eq in E0. destruct la; [|destruct Ha as (Ha & _); cbn in Ha; lia]. injection H as <-. exact Sb. }
    destruct (Nat.eqb (m_count b) 0) eqn:E0b.
    { apply Nat.eqb_eq in E0b. destruct lb; [|destruct Hb as (Hb & _); cbn in Hb; lia]. rewrite app_nil_r. injection H as <-. exact Sa. }
    destruct (Nat.eqb (m_count a) 1) eqn:E1.
    { apply Nat.eqb_eq in E1. destruct (one la a Ha E1) as (k & v & Hm & ->). unfold add_min in H. rewrite Hm in H. injection H as <-.
      eapply ssd_perm; [|apply ssd_add; [exact Hb|exact Sb]]. cbn. apply Permutation_sym, Permutation_cons_append. }
    destruct (Nat.eqb (m_count b) 1) eqn:E1b.
    { apply Nat.eqb_eq in E1b. destruct (one lb b Hb E1b) as (k & v & Hm & ->). unfold add_min in H. rewrite Hm in H. injection H as <-. apply ssd_add; assumption. }
    apply Nat.eqb_neq in E0. apply Nat.eqb_neq in E0b. apply Nat.eqb_neq in E1. apply Nat.eqb_neq in E1b. injection H as <-. unfold ssd_ok in *. cbn [m_ssd].
    destruct Ha as (A1 & A2 & A3 & _ & _), Hb as (B1 & B2 & B3 & _ & _). destruct la as [|x la]; [cbn in A1; congruence|]. destruct lb as [|y lb]; [cbn in B1; congruence|].
    set (l1 := x :: la) in *. set (l2 := y :: lb) in *. cbv iota in Sa, Sb.
    change (m_ssd a == squares l1 - sumq (map snd l1) * sumq (map snd l1) / nq (length l1)) in Sa. change (m_ssd b == squares l2 - sumq (map snd l2) * sumq (map snd l2) / nq (length l2)) in Sb.
    assert (Hq : nq (m_count a * m_count b / (m_count a + m_count b)) == nq (length l1) * nq (length l2) / (nq (length l1) + nq (length l2))).
    { destruct He as [He|[He|He]]; [lia|lia|]. rewrite A1, B1 in *. pose proof (Nat.div_mod (length l1 * length l2) (length l1 + length l2) ltac:(cbn; lia)) as D. rewrite He, Nat.add_0_r in D.
      assert (Hm : nq (length l1) * nq (length l2) == (nq (length l1) + nq (length l2)) * nq (length l1 * length l2 / (length l1 + length l2))).
      { rewrite <- nq_plus. unfold nq. rewrite <- !inject_Z_mult, <- !Nat2Z.inj_mul, <- D. reflexivity. }
      rewrite Hm. field. rewrite <- nq_plus. apply nq_nz. cbn. lia. }
    fold (nq (m_count a * m_count b / (m_count a + m_count b))). rewrite Hq, Sa, Sb, (A3 ltac:(discriminate)), (B3 ltac:(discriminate)).
    change (match l1 ++ l2 with [] => 0 | _ => squares (l1 ++ l2) - sumq (map snd (l1 ++ l2)) * sumq (map snd (l1 ++ l2)) / nq (length (l1 ++ l2)) end) with
      (squares (l1 ++ l2) - sumq (map snd (l1 ++ l2)) * sumq (map snd (l1 ++ l2)) / nq (length (l1 ++ l2))).
    unfold squares. rewrite !map_app, !sumq_app, app_length, nq_plus. unfold mean_of. field.
    repeat split; try (apply nq_nz; cbn; lia). rewrite <- nq_plus. apply nq_nz. cbn. lia.
  Qed.
  Lemma even_ssd m l : made_even m l -> ssd_ok m l.
  Proof.
    induction 1 as [|m l k v Hm IH|a b c la lb Ha IHa Hb IHb He E]; [reflexivity| |].
    - apply ssd_add; [apply made_right, even_made, Hm|exact IH].
    - eapply ssd_combine; eauto; apply made_right, even_made; assumption.
  Qed.

  (** However the samples are divided and combined: number, total, mean, largest and smallest are those of all samples, and combining never panics. *)
  Theorem metrics_right : forall m l, made m l -> m_count m = length l /\ m_total m == sumq (map snd l) /\ (l <> [] -> m_mean m == mean_of l) /\
    match m_max_min m with Some (mx, mn) => largest mx l /\ smallest mn l | None => l = [] end.
  Proof. intros m l H. destruct (made_right m l H) as (H1 & H2 & H3 & _ & H5). auto. Qed.
  Theorem metrics_combine : forall a b la lb, made a la -> made b lb -> exists c, combine_metrics a b = ROk c.
  Proof. intros a b la lb Ha Hb. destruct (right_combine a b la lb (made_right _ _ Ha) (made_right _ _ Hb)) as (c & H & _). eauto. Qed.
  Theorem metrics_distances : forall m l, made_even m l -> l <> [] -> m_ssd m == distances l.
  Proof. intros m l H Hn. rewrite (distances_squares l Hn). pose proof (even_ssd m l H) as S. unfold ssd_ok in S. destruct l; [congruence|exact S]. Qed.
End Metrics.
Theorem C59_metrics : forall K (m : metrics K) l, made K m l -> m_count m = length l /\ Qeq (m_total m) (sumq (map snd l)) /\ (l <> [] -> Qeq (m_mean m) (mean_of K l)) /\
    match m_max_min m with Some (mx, mn) => largest K mx l /\ smallest K mn l | None => l = [] end.
Proof. exact metrics_right. Qed.
Print Assumptions C59_metrics.
Theorem C59_no_panic : forall K (a b : metrics K) la lb, made K a la -> made K b lb -> exists c, combine_metrics a b = ROk c.
Proof. exact metrics_combine. Qed.
Print Assumptions C59_no_panic.
(** The sum of the squared distances (from which the standard deviation is computed) is right if the parts that are combined are even. *)
Theorem C59_deviation_partial : forall K (m : metrics K) l, made_even K m l -> l <> [] -> Qeq (m_ssd m) (distances K l).
Proof. exact metrics_distances. Qed.
Print Assumptions C59_deviation_partial.
(** It is wrong in general: the product of the numbers of samples is divided by their sum without remainder. *)
Definition of_list (l : list Q) : metrics unit := fold_left (fun m v => add_sample m tt v) l metrics0.
Theorem C59_deviation_refuted : exists a b c la lb, made unit a la /\ made unit b lb /\ combine_metrics a b = ROk c /\ made unit c (la ++ lb) /\ ~ Qeq (m_ssd c) (distances unit (la ++ lb)).
Proof.
  assert (H : forall l m l0, made unit m l0 -> made unit (fold_left (fun m v => add_sample m tt v) l m) (l0 ++ map (fun v => (tt, v)) l)).
  { induction l as [|v l IH]; intros m l0 Hm; [rewrite app_nil_r; exact Hm|]. cbn [fold_left map]. replace (l0 ++ (tt, v) :: map (fun v => (tt, v)) l) with ((l0 ++ [(tt, v)]) ++ map (fun v => (tt, v)) l) by (rewrite <- app_assoc; reflexivity).
    apply IH. constructor. exact Hm. }
  pose proof (H [0%Q; 0%Q] metrics0 [] (made0 unit)) as Ha. pose proof (H [5%Q; 5%Q; 5%Q] metrics0 [] (made0 unit)) as Hb. do 5 eexists. split; [exact Ha|]. split; [exact Hb|]. split; [reflexivity|].
  split; [eapply made_combine; [exact Ha|exact Hb|reflexivity]|]. vm_compute. discriminate.
Qed.
Print Assumptions C59_deviation_refuted.
Example C59_ex : made_even unit (of_list [1%Q; 2%Q; 5%Q]) [(tt, 1%Q); (tt, 2%Q); (tt, 5%Q)] /\ even_parts 2 2 /\ even_parts 6 3.
Proof.
  split; [|split; [right; right; reflexivity|right; right; reflexivity]].
  pose proof (even_add unit _ _ tt 5%Q (even_add unit _ _ tt 2%Q (even_add unit _ _ tt 1%Q (even0 unit)))) as H. exact H.
Qed.
