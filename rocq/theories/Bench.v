(** Benchmark runs (cli/src/benchmarking.rs, cli/src/main.rs [bench_command], carcara/src/benchmarking/mod.rs) and the metrics they print (carcara/src/benchmarking/metrics.rs). *)
From Coq Require Import List Bool ZArith QArith Arith.
From Verif Require Import Base.
Import ListNotations.
Local Open Scope nat_scope.

(** ** The verdict of a run *)
(** What becomes of one instance: it cannot be read (cli/src/benchmarking.rs:40-45, the error is returned before the results are given back), it is rejected, it is accepted with
    holes, or it is accepted. Times are left out; an elaboration that panics is not modelled. *)
Inductive job : Type := JUnreadable | JRejected | JHoley | JValid.
(** mod.rs:58-83: the number of runs with measurements ([total]), [is_holey], [had_error] *)
Record online : Type := mkOn { on_runs : nat; on_holey : bool; on_error : bool }.
Definition online0 : online := mkOn 0 false false.
(** benchmarking.rs:22-84 and 94-113: the results are taken out at the beginning (28-34, [std::mem::take]) and put back at the end (82) *)
Definition online_job (r : online) (j : job) : online :=
  match j with
  | JUnreadable => mkOn 0 false true
  | JRejected => mkOn (S (on_runs r)) (on_holey r) true
  | JHoley => mkOn (S (on_runs r)) true (on_error r)
  | JValid => mkOn (S (on_runs r)) (on_holey r) (on_error r)
  end.
(** mod.rs:456-479 *)
Definition online_combine (a b : online) : online := mkOn (on_runs a + on_runs b) (on_holey a || on_holey b) (on_error a || on_error b).
(** mod.rs:280-287, 508-523: [combine] keeps the flag [is_holey] of the first one *)
Record csv : Type := mkCsv { cs_runs : nat; cs_holey : bool; cs_errors : nat }.
Definition csv0 : csv := mkCsv 0 false 0.
Definition csv_job (r : csv) (j : job) : csv :=
  match j with
  | JUnreadable => mkCsv 0 false 1
  | JRejected => mkCsv (S (cs_runs r)) (cs_holey r) (S (cs_errors r))
  | JHoley => mkCsv (S (cs_runs r)) true (cs_errors r)
  | JValid => mkCsv (S (cs_runs r)) (cs_holey r) (cs_errors r)
  end.
Definition csv_combine (a b : csv) : csv := mkCsv (cs_runs a + cs_runs b) (cs_holey a) (cs_errors a + cs_errors b).
(** 150-156: the results of the workers are combined in order; without a worker there is a panic. Each worker takes jobs from the queue until it is empty: a schedule is the list
    of the jobs that each worker gets. *)
Definition run_workers {R} (job1 : R -> job -> R) (r0 : R) (combine : R -> R -> R) (schedule : list (list job)) : outcome R :=
  match map (fun jobs => fold_left job1 jobs r0) schedule with
  | [] => RPanic
  | r :: rs => ROk (fold_left combine rs r)
  end.
Inductive verdict : Type := VNone | VInvalid | VHoley | VValid.
(** main.rs:658-671 *)
Definition bench_online (schedule : list (list job)) : outcome verdict :=
  do r <- run_workers online_job online0 online_combine schedule ;
  ROk (if Nat.eqb (on_runs r) 0 then VNone else if on_error r then VInvalid else if on_holey r then VHoley else VValid).
(** benchmarking.rs:171-197: the number of errors and the verdict that are printed *)
Definition bench_csv (schedule : list (list job)) : outcome (nat * verdict) :=
  do r <- run_workers csv_job csv0 csv_combine schedule ;
  ROk (cs_errors r, if Nat.ltb 0 (cs_errors r) then VInvalid else if cs_holey r then VHoley else VValid).

(** main.rs:625-674 and benchmarking.rs:117-158: the whole command. The outcome of an instance is the same in each of its runs. The queue has room for all runs of all instances; its
    constructor panics for capacity zero. [BDone v status]: what is printed, and the exit status; nothing is printed without instances. Errors of files are left out. *)
Inductive bench_end : Type := BDone (printed : option verdict) (status : nat) | BPanic.
(** 127 *)
Definition queue_new (capacity : nat) : outcome unit := if Nat.eqb capacity 0 then RPanic else ROk tt.
Definition bench_verdict (csv : bool) (schedule : list (list job)) : outcome verdict :=
  if csv then do r <- bench_csv schedule ; ROk (snd r) else bench_online schedule.
(** with the jobs that each worker got *)
Definition bench_command (csv : bool) (instances : list job) (num_runs : nat) (schedule : list (list job)) : bench_end :=
  match instances with
  | [] => BDone None 0
  | _ => match (queue_new (length instances * num_runs) ;; bench_verdict csv schedule) with
         | ROk v => BDone (Some v) 0
         | _ => BPanic
         end
  end.

(** ** Metrics *)
(** metrics.rs:145-156. The numbers are rational: for floating point numbers without rounding, for durations without the rounding of the mean to nanoseconds. The number of
    samples is below 2^32. *)
Section Metrics.
  Variable K : Type.
  Record metrics : Type := mkM { m_total : Q; m_count : nat; m_mean : Q; m_max_min : option ((K * Q) * (K * Q)); m_ssd : Q }.
  Definition metrics0 : metrics := mkM 0 0 0 None 0.
  Definition gtq (a b : Q) : bool := negb (Qle_bool a b).
  (** 191-219 *)
  Definition add_sample (m : metrics) (k : K) (v : Q) : metrics :=
    let total := (m_total m + v)%Q in
    let count := S (m_count m) in
    let mean := (total / inject_Z (Z.of_nat count))%Q in
    let ssd := (m_ssd m + (v - mean) * (v - m_mean m))%Q in
    let mm := match m_max_min m with
              | Some (mx, mn) => Some (if gtq v (snd mx) then (k, v) else mx, if gtq (snd mn) v then (k, v) else mn)
              | None => Some ((k, v), (k, v))
              end in
    mkM total count mean mm ssd.
  (** 229-233, 274-276 *)
  Definition add_min (m other : metrics) : outcome metrics :=
    match m_max_min m with Some (_, (k, v)) => ROk (add_sample other k v) | None => RPanic end.
  (** 223-264. The product of the counts is divided by their sum as natural numbers. *)
  Definition combine_metrics (a b : metrics) : outcome metrics :=
    if Nat.eqb (m_count a) 0 then ROk b
    else if Nat.eqb (m_count b) 0 then ROk a
    else if Nat.eqb (m_count a) 1 then add_min a b
    else if Nat.eqb (m_count b) 1 then add_min b a
    else
      let total := (m_total a + m_total b)%Q in
      let count := m_count a + m_count b in
      let delta := (m_mean b - m_mean a)%Q in
      let mm := match m_max_min a, m_max_min b with
                | x, None => x
                | None, y => y
                | Some (amx, amn), Some (bmx, bmn) => Some (if gtq (snd amx) (snd bmx) then amx else bmx, if gtq (snd bmn) (snd amn) then amn else bmn)
                end in
      ROk (mkM total count (total / inject_Z (Z.of_nat count))%Q mm
             (m_ssd a + m_ssd b + delta * delta * inject_Z (Z.of_nat (m_count a * m_count b / count)))%Q).
End Metrics.
Arguments m_total {K}. Arguments m_count {K}. Arguments m_mean {K}. Arguments m_max_min {K}. Arguments m_ssd {K}. Arguments metrics0 {K}. Arguments add_sample {K}. Arguments combine_metrics {K}. Arguments add_min {K}. Arguments mkM {K}.
