(** C11, C28: equality rules and structural clause rules. *)
From Coq Require Import List String ZArith.
From Verif Require Import Term Sem Base Rules R_Eq R_Claus R_Resolution R_Extras.
Import ListNotations.
Open Scope string_scope.

(** C11: every accepted equality step is entailed by its premises (valid when it has none). *)
Theorem C11_equality_rules_sound :
  forall name r, In (name, r) eq_rules ->
  forall c ps args, r c ps args = ROk tt -> clause_wt c = true -> forallb clause_wt ps = true ->
  forall (I : interp) (E : env I), env_ok E -> (forall p, In p ps -> clause_holds E p) -> clause_holds E c.
Proof. exact eq_rules_sound. Qed.
Print Assumptions C11_equality_rules_sound.

(** C28: reordering, shuffle, weakening, and_intro, distinct_elim, nary_elim, tautology, contraction. *)
Theorem C28_structural_rules_sound :
  forall name r, In (name, r) structural_rules ->
  forall c ps args, r c ps args = ROk tt -> clause_wt c = true -> forallb clause_wt ps = true ->
  forall (I : interp) (E : env I), env_ok E -> (forall p, In p ps -> clause_holds E p) -> clause_holds E c.
Proof. exact structural_rules_sound. Qed.
Print Assumptions C28_structural_rules_sound.

Definition av := TVar "a" SInt.
Definition bv := TVar "b" SInt.
Definition cv := TVar "c" SInt.
Definition fv := TVar "f" (SFun [SInt; SInt]).
Definition fa (t : term) := TApp fv [t].
(** a chain whose links are flipped and out of order *)
Example C11_witness_trans :
  let ps := [[tEq bv av]; [tEq cv bv]] in
  In ("trans", r_trans) eq_rules /\ r_trans [tEq av cv] ps [] = ROk tt /\
  clause_wt [tEq av cv] = true /\ forallb clause_wt ps = true.
Proof. split; [apply (nth_error_In _ 2); reflexivity|repeat split; reflexivity]. Qed.
Example C11_witness_cong :
  let ps := [[tEq bv av]] in
  In ("cong", r_cong) eq_rules /\ r_cong [tEq (fa av) (fa bv)] ps [] = ROk tt /\
  clause_wt [tEq (fa av) (fa bv)] = true /\ forallb clause_wt ps = true.
Proof. split; [apply (nth_error_In _ 5); reflexivity|repeat split; reflexivity]. Qed.
Example C28_witness_reordering :
  let p := [tEq av bv; tEq bv cv; tEq av cv] in
  let c := [tEq av cv; tEq av bv; tEq bv cv] in
  In ("reordering", r_reordering) structural_rules /\ r_reordering c [p] [] = ROk tt /\
  clause_wt c = true /\ forallb clause_wt [p] = true.
Proof. split; [apply (nth_error_In _ 0); reflexivity|repeat split; reflexivity]. Qed.
