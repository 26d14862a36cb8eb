(** C09, C10: propositional tautology and clausification rules. *)
From Coq Require Import List String ZArith.
From Verif Require Import Term Sem Base Rules R_Taut R_Claus.
Import ListNotations.
Open Scope string_scope.

(** C09: every clause accepted by a premise-free propositional rule is true in every interpretation. *)
Theorem C09_tautology_rules_valid :
  forall name r, In (name, r) taut_rules ->
  forall c ps args, r c ps args = ROk tt -> clause_wt c = true ->
  forall (I : interp) (E : env I), env_ok E -> clause_holds E c.
Proof. exact taut_rules_valid. Qed.
Print Assumptions C09_tautology_rules_valid.

(** C10: an accepted clausification step is entailed by its premise. *)
Theorem C10_clausification_rules_sound :
  forall name r, In (name, r) (taut_prem_rules ++ claus_rules) -> rule_sound r.
Proof. exact clausification_sound. Qed.
Print Assumptions C10_clausification_rules_sound.

(** The hypotheses are met by concrete steps. *)
Definition pv := TVar "p" SBool.
Definition qv := TVar "q" SBool.
Example C09_witness_and_pos :
  let c := [tNot (TOp OAnd [pv; TOp OOr [qv; pv]]); TOp OOr [qv; pv]] in
  In ("and_pos", r_and_pos) taut_rules /\ r_and_pos c [] [tInt 1] = ROk tt /\ clause_wt c = true.
Proof. split; [apply (nth_error_In _ 3); reflexivity|split; reflexivity]. Qed.
Example C09_witness_connective_def :
  let x := ("x", SInt) in
  let c := [tEq (TBind BForall [x] pv) (tNot (TBind BExists [x] (tNot pv)))] in
  In ("connective_def", r_connective_def) taut_rules /\ r_connective_def c [] [] = ROk tt /\ clause_wt c = true.
Proof. split; [apply (nth_error_In _ 22); reflexivity|split; reflexivity]. Qed.
Example C10_witness_not_and :
  let p := [tNot (TOp OAnd [pv; qv; tNot pv])] in
  let c := [tNot pv; tNot qv; tNot (tNot pv)] in
  In ("not_and", r_not_and) (taut_prem_rules ++ claus_rules) /\
  r_not_and c [p] [] = ROk tt /\ clause_wt c = true /\ forallb clause_wt [p] = true.
Proof. split; [apply (nth_error_In _ 11); reflexivity|repeat split; reflexivity]. Qed.
