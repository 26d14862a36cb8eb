(** C12, C32, C40: the simplification rules. *)
From Coq Require Import List String ZArith QArith.
From Verif Require Import Term Field Sem Sorting Base Rules Num Refute Model R_Simp R_SimpArith R_AC.
Import ListNotations.
Open Scope string_scope.

(** C12, the Boolean rules (ite, eq, and, or, not, implies, equiv, bool, qnt _simplify), without conditions. *)
Theorem C12_boolean_simplify_sound :
  forall name r, In (name, r) bool_simp_rules ->
  forall c ps args, r c ps args = ROk tt -> clause_wt c = true -> forallb clause_wt ps = true ->
  forall (I : interp) (E : env I), env_ok E -> (forall p, In p ps -> clause_holds E p) -> clause_holds E c.
Proof. exact bool_simp_rules_sound. Qed.
Print Assumptions C12_boolean_simplify_sound.

(** C12, minus_simplify (also registered as unary_minus_simplify) *)
Theorem C12_minus_simplify_sound : rule_sound r_minus_simplify.
Proof. exact r_minus_simplify_sound. Qed.
Print Assumptions C12_minus_simplify_sound.

(** C12 and C40, ac_simp *)
Theorem C12_C40_ac_simp_sound : rule_sound r_ac_simp.
Proof. exact r_ac_simp_sound. Qed.
Print Assumptions C12_C40_ac_simp_sound.

(** C12 fails for the rules that fold constant fractions: [(div m n)] on integer literals is read as the exact
    fraction m/n.  (= ( * 2 (div 7 2)) 7), (= (+ (div 1 2) (div 1 2)) 1) and (= (< 3 (div 7 2)) true) are accepted. *)
Theorem C12_prod_simplify_refuted : rule_refuted r_prod_simplify.
Proof. exact prod_simplify_refuted. Qed.
Print Assumptions C12_prod_simplify_refuted.
Theorem C12_sum_simplify_refuted : rule_refuted r_sum_simplify.
Proof. exact sum_simplify_refuted. Qed.
Print Assumptions C12_sum_simplify_refuted.
Theorem C12_comp_simplify_refuted : rule_refuted r_comp_simplify.
Proof. exact comp_simplify_refuted. Qed.
Print Assumptions C12_comp_simplify_refuted.
(** div_simplify rewrites (div x x) to 1, also for x = 0, where SMT-LIB leaves the quotient open: for every
    interpretation there is one that differs from it only in dividing by zero and falsifies the conclusion. *)
Theorem C12_div_simplify_refuted :
  r_div_simplify [tEq (TOp OIntDiv [TVar "x" SInt; TVar "x" SInt]) (tInt 1)] [] [] = ROk tt /\
  forall I : interp, exists E : env (with_div0 I 2), env_ok E /\
    ~ clause_holds E [tEq (TOp OIntDiv [TVar "x" SInt; TVar "x" SInt]) (tInt 1)].
Proof. exact (conj eq_refl div_xx_false). Qed.
Print Assumptions C12_div_simplify_refuted.

(** The parts of C12 that hold for these rules: no inexact constant [div]; no quotient (div t t) or (/ t t)
    unless [t] is a non-zero literal. *)
Theorem C12_prod_sum_simplify_sound_partial :
  forall k c ps args, k = OAdd \/ k = OMult -> sum_prod_rule k c ps args = ROk tt -> clause_wt c = true ->
  forallb divs_exact c = true -> entails ps c.
Proof. exact sum_prod_rule_sound. Qed.
Print Assumptions C12_prod_sum_simplify_sound_partial.
Theorem C12_comp_simplify_sound_partial :
  forall c ps args, r_comp_simplify c ps args = ROk tt -> clause_wt c = true -> forallb divs_exact c = true -> entails ps c.
Proof. exact r_comp_simplify_sound. Qed.
Print Assumptions C12_comp_simplify_sound_partial.
Theorem C12_div_simplify_sound_partial :
  forall c ps args, r_div_simplify c ps args = ROk tt -> clause_wt c = true -> div_safe c = true -> entails ps c.
Proof. exact r_div_simplify_sound. Qed.
Print Assumptions C12_div_simplify_sound_partial.

(** C32: rewriting to a fixed point stops within a number of rounds linear in the size of the term, for every
    rewriting function used with [generic_simplify_rule], and never reports a cycle. *)
Theorem C32_simplify_terminates :
  forall f, In f [pure ite_step; pure eq_step; pure not_step; pure implies_step; pure equiv_step; pure bool_step; comp_step] ->
  forall t goal, exists r, until_fixed f (2 * tsize t + 5) [] t goal = Some r /\ r <> RErr.
Proof. exact all_steps_terminate. Qed.
Print Assumptions C32_simplify_terminates.

(** C40 fails for aci_simp: it removes repeated arguments of operators that are not idempotent,
    (= (+ x x) x) is accepted ... *)
Theorem C40_aci_simp_refuted : rule_refuted r_aci_simp.
Proof. exact aci_simp_refuted. Qed.
Print Assumptions C40_aci_simp_refuted.
(** ... and so is (= (concat x x y) (concat x y y)). *)
Theorem C40_aci_simp_concat_refuted : let x := TVar "x" (SBV 1) in let y := TVar "y" (SBV 1) in
  exists c, c = [tEq (TOp OBvConcat [x; x; y]) (TOp OBvConcat [x; y; y])] /\ r_aci_simp c [] [] = ROk tt /\ clause_wt c = true /\
  forall I : interp, exists E : env I, env_ok E /\ ~ clause_holds E c.
Proof. exact aci_concat_refuted. Qed.
Print Assumptions C40_aci_simp_concat_refuted.
(** The part that holds: neither side is headed by +, *, bvadd, bvmul, bvxor or concat. *)
Theorem C40_aci_simp_sound_partial :
  forall c ps args, r_aci_simp c ps args = ROk tt -> clause_wt c = true -> aci_ok c = true -> entails ps c.
Proof. exact r_aci_simp_sound. Qed.
Print Assumptions C40_aci_simp_sound_partial.

(** ** The hypotheses are met by non-trivial steps *)
Definition p_ := TVar "p" SBool.
Definition q_ := TVar "q" SBool.
Definition x_ := TVar "x" SInt.
(** needs two rounds: (=> (not p) (not p)) -> (=> p p) -> true *)
Example C12_witness_bool :
  In ("implies_simplify", r_implies_simplify) bool_simp_rules /\
  r_implies_simplify [tEq (TOp OImplies [tNot p_; tNot p_]) tTrue] [] [] = ROk tt /\
  clause_wt [tEq (TOp OImplies [tNot p_; tNot p_]) tTrue] = true.
Proof. split; [do 5 right; left; reflexivity|split; reflexivity]. Qed.
Example C12_witness_ac :
  let c := [tEq (TOp OAnd [TOp OAnd [p_; q_]; TOp OOr [p_; TOp OOr [q_; p_]]; q_]) (TOp OAnd [p_; q_; TOp OOr [p_; q_]])] in
  r_ac_simp c [] [] = ROk tt /\ clause_wt c = true.
Proof. split; vm_compute; reflexivity. Qed.
Example C12_witness_minus :
  let c := [tEq (TOp OSub [x_; tInt 0]) x_] in r_minus_simplify c [] [] = ROk tt /\ clause_wt c = true.
Proof. split; vm_compute; reflexivity. Qed.
Example C12_witness_sum :
  let c := [tEq (TOp OAdd [x_; tInt 2; x_; tInt 3]) (TOp OAdd [tInt 5; x_; x_])] in
  sum_prod_rule OAdd c [] [] = ROk tt /\ clause_wt c = true /\ forallb divs_exact c = true.
Proof. repeat split; vm_compute; reflexivity. Qed.
Example C12_witness_comp :
  let c := [tEq (TOp OLt [tInt 3; tInt 5]) tTrue] in
  r_comp_simplify c [] [] = ROk tt /\ clause_wt c = true /\ forallb divs_exact c = true.
Proof. repeat split; vm_compute; reflexivity. Qed.
Example C12_witness_div :
  let c := [tEq (TOp OIntDiv [tInt 7; tInt 2]) (tInt 3)] in
  r_div_simplify c [] [] = ROk tt /\ clause_wt c = true /\ div_safe c = true.
Proof. repeat split; vm_compute; reflexivity. Qed.
Example C40_witness_aci :
  let x := TVar "x" (SBV 4) in let y := TVar "y" (SBV 4) in
  let c := [tEq (TOp OBvOr [x; TOp OBvOr [y; x; TConst (CBV 0 4)]]) (TOp OBvOr [y; x])] in
  r_aci_simp c [] [] = ROk tt /\ clause_wt c = true /\ aci_ok c = true.
Proof. repeat split; vm_compute; reflexivity. Qed.
Example C32_witness : exists r, until_fixed (pure not_step) 20 [] (tNot (tNot (tNot (tNot tTrue)))) tTrue = Some r.
Proof. eexists. vm_compute. reflexivity. Qed.
