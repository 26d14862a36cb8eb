(** C13, C14: linear arithmetic. *)
From Coq Require Import List String ZArith QArith.
From Verif Require Import Term Field Sem Base Rules Num Refute R_LA.
Import ListNotations.
Open Scope string_scope.

(** C13 fails.  The step that turns a strict inequality into a non-strict one over the integers is applied
    to real-valued sums: (cl (not (> x 0.0)) (>= x 1.0)) is accepted for a real [x]. *)
Theorem C13_la_generic_refuted : rule_refuted r_la_generic.
Proof. exact la_generic_refuted_real. Qed.
Print Assumptions C13_la_generic_refuted.

(** It also fails over the integers alone: with the coefficients (1/2 1/2) the clause
    (cl (not (>= x 1)) (>= x 2)) is accepted, and [x = 1] falsifies it. *)
Theorem C13_la_generic_integer_refuted :
  exists c ps args,
    r_la_generic c ps args = ROk tt /\
    c = [tNot (TOp OGe [TVar "x" SInt; tInt 1]); TOp OGe [TVar "x" SInt; tInt 2]] /\
    forall I : interp, exists E : env I, env_ok E /\ (forall p, In p ps -> clause_holds E p) /\ ~ clause_holds E c.
Proof. exact la_generic_refuted_int_explicit. Qed.
Print Assumptions C13_la_generic_integer_refuted.

(** The part of C13 that holds: the clause is valid whenever each strengthening is applied to an integer
    combination of integer atoms with a really fractional (or strict) bound, and no constant [(div m n)] that
    is not exact is read as a fraction.  Missing: exactly the steps excluded by [la_ok]. *)
Theorem C13_la_generic_sound_partial :
  forall c ps args, r_la_generic c ps args = ROk tt -> la_ok c args = true ->
  forall (I : interp) (E : env I), env_ok E -> clause_holds E c.
Proof. exact la_generic_valid. Qed.
Print Assumptions C13_la_generic_sound_partial.

(** C14: the rules without constant folding of [div]. *)
Theorem C14_linear_rules_sound :
  forall name r, In (name, r) la_rules ->
  forall c ps args, r c ps args = ROk tt -> clause_wt c = true -> forallb clause_wt ps = true ->
  forall (I : interp) (E : env I), env_ok E -> (forall p, In p ps -> clause_holds E p) -> clause_holds E c.
Proof. exact la_rules_sound. Qed.
Print Assumptions C14_linear_rules_sound.

(** la_tautology accepts (< 0 (div 1 2)), which is false: the integer quotient is 0. *)
Theorem C14_la_tautology_refuted : rule_refuted r_la_tautology.
Proof. exact la_tautology_refuted. Qed.
Print Assumptions C14_la_tautology_refuted.
(** Without inexact constant [div] terms the rule is sound. *)
Theorem C14_la_tautology_sound_partial :
  forall c ps args, r_la_tautology c ps args = ROk tt -> forallb divs_exact c = true ->
  forall (I : interp) (E : env I), env_ok E -> clause_holds E c.
Proof. exact la_tautology_valid. Qed.
Print Assumptions C14_la_tautology_sound_partial.

Definition yi := TVar "y" SInt.
(** 2x < 3y + 1, 3y <= 2x - 1 contradict each other over the integers; Farkas coefficients 1 1 *)
Example C13_partial_witness :
  let c := [tNot (TOp OLt [TOp OMult [tInt 2; xi]; TOp OAdd [TOp OMult [tInt 3; yi]; tInt 1]]);
            tNot (TOp OLe [TOp OMult [tInt 3; yi]; TOp OSub [TOp OMult [tInt 2; xi]; tInt 1]])] in
  r_la_generic c [] [tInt 1; tInt 1] = ROk tt /\ la_ok c [tInt 1; tInt 1] = true.
Proof. split; reflexivity. Qed.
(** the strengthening is really used: x > 0 and x < 1 has no integer solution *)
Example C13_partial_witness_strict :
  let c := [tNot (TOp OGt [xi; tInt 0]); tNot (TOp OLt [xi; tInt 1])] in
  r_la_generic c [] [tInt 1; tInt 1] = ROk tt /\ la_ok c [tInt 1; tInt 1] = true.
Proof. split; reflexivity. Qed.
Example C14_witness_mult :
  let d := [TOp OImplies [TOp OAnd [TOp OLt [yi; tInt 0]; TOp OLe [xi; yi]];
                          TOp OGe [TOp OMult [yi; xi]; TOp OMult [yi; yi]]]] in
  In ("la_mult_neg", la_mult_generic false) la_rules /\ la_mult_generic false d [] [] = ROk tt /\ clause_wt d = true.
Proof. split; [apply (nth_error_In _ 4); reflexivity|split; reflexivity]. Qed.
Example C14_witness_mod :
  r_mod_simplify [tEq (TOp OMod [tInt (-7); tInt 2]) (tInt 1)] [] [] = ROk tt.
Proof. reflexivity. Qed.
Example C14_partial_witness :
  let c := [TOp OOr [tNot (TOp OLe [xi; tInt 1]); TOp OLe [xi; tInt 2]]] in
  r_la_tautology c [] [] = ROk tt /\ forallb divs_exact c = true.
Proof. split; reflexivity. Qed.
