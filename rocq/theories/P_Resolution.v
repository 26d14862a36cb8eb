(** C06, C07: resolution. *)
From Coq Require Import List String ZArith.
From Verif Require Import Term Sem Base Rules R_Resolution R_ResExact.
Import ListNotations.
Open Scope string_scope.

(** C06 fails: the checker accepts [resolution] from (cl p) and (cl (not p) p) to the empty clause,
    although every interpretation has an assignment satisfying both premises. *)
Theorem C06_resolution_refuted :
  exists (c : clause) (ps : list clause),
    r_resolution c ps [] = ROk tt /\
    clause_wt c = true /\ forallb clause_wt ps = true /\
    forall I : interp, exists E : env I, env_ok E /\
      (forall p, In p ps -> clause_holds E p) /\ ~ clause_holds E c.
Proof. exact resolution_refuted. Qed.
Print Assumptions C06_resolution_refuted.

(** The part of C06 that does hold: the step is sound when no premise is a tautology [l, not l] and
    the greedy pass never meets a literal that it had already eliminated as a pivot.  Missing for the
    full property: exactly the steps excluded by these two conditions. *)
Theorem C06_resolution_sound_partial :
  forall c ps args,
    r_resolution c ps args = ROk tt ->
    (args = [] -> forallb no_compl ps = true /\ greedy_reuse c ps = false) ->
    entails ps c.
Proof. exact r_resolution_sound_partial. Qed.
Print Assumptions C06_resolution_sound_partial.

(** The reverse-unit-propagation fallback is sound without conditions, and its loop always ends. *)
Theorem C06_rup_sound : forall c ps, rup_resolution c ps = true -> entails ps c.
Proof. exact rup_resolution_sound. Qed.
Print Assumptions C06_rup_sound.
Theorem C06_rup_terminates : forall fuel cs, List.length cs < fuel -> rup_loop fuel cs <> None.
Proof. exact rup_loop_terminates. Qed.
Print Assumptions C06_rup_terminates.

(** C07: resolution with explicit pivots, in both its set and its list version. *)
Theorem C07_resolution_with_args_sound : rule_sound r_resolution_with_args.
Proof. exact r_resolution_with_args_sound. Qed.
Print Assumptions C07_resolution_with_args_sound.
Theorem C07_strict_resolution_sound : rule_sound r_strict_resolution.
Proof. exact r_strict_resolution_sound. Qed.
Print Assumptions C07_strict_resolution_sound.

(** It accepts exactly the chains of resolvents ([resolvent], [chain] and [pivots] of R_ResExact.v) on the given pivots that
    end with the literals of the conclusion. *)
Theorem C07_resolution_with_args_exact : forall c ps args,
  r_resolution_with_args c ps args = ROk tt <->
  exists p0 p1 rest pv, ps = p0 :: p1 :: rest /\ pivots args pv /\ List.length pv = List.length (p1 :: rest) /\
    chain (lits p0) (combine (p1 :: rest) pv) (lits c).
Proof. exact resolution_with_args_exact. Qed.
Print Assumptions C07_resolution_with_args_exact.

Definition pv := TVar "p" SBool.
Definition qv := TVar "q" SBool.
Definition rv := TVar "r" SBool.
Example C06_partial_witness :
  let ps := [[pv; qv]; [tNot pv; rv]; [tNot rv; qv]] in
  r_resolution [qv] ps [] = ROk tt /\ forallb no_compl ps = true /\ greedy_reuse [qv] ps = false.
Proof. repeat split; reflexivity. Qed.
Example C06_rup_witness : rup_resolution [qv] [[pv; qv]; [tNot pv; rv]; [tNot rv; qv]] = true.
Proof. reflexivity. Qed.
Example C07_witness :
  let ps := [[pv; qv]; [tNot pv; rv]; [tNot rv; qv]] in
  r_resolution_with_args [qv] ps [pv; tTrue; rv; tTrue] = ROk tt /\
  r_strict_resolution [qv; qv] ps [pv; tTrue; rv; tTrue] = ROk tt.
Proof. split; reflexivity. Qed.
