(** C22: the bit-blasting rules. *)
From Coq Require Import List String ZArith Bool Arith Lia.
From Verif Require Import Base Term Sem Sorting Rules R_Bv BvSound.
Import ListNotations.
Local Open Scope string_scope.
Local Open Scope Z_scope.

(** The rules of the checker whose names start with bitblast_. *)
Definition bitblast_names : list string :=
  ["bitblast_const"; "bitblast_var"; "bitblast_and"; "bitblast_or"; "bitblast_xor"; "bitblast_xnor"; "bitblast_not"; "bitblast_comp";
   "bitblast_ult"; "bitblast_slt"; "bitblast_add"; "bitblast_mult"; "bitblast_neg"; "bitblast_equal"; "bitblast_extract";
   "bitblast_concat"; "bitblast_sign_extend"].
Example C22_all : map fst bv_rules = bitblast_names. Proof. reflexivity. Qed.

(** If a rule accepts, its conclusion is one equation, and in every model and under every assignment of the variables both sides
    have the same value.  [eval] of Sem.v gives the operations their meaning as arithmetic on 0 <= z < 2^w. *)
Theorem C22_same_value : forall name r c ps args, In (name, r) bv_rules -> r c ps args = ROk tt -> clause_wt c = true ->
  exists a b, c = [TOp OEquals [a; b]] /\ forall (I : interp) (E : env I), env_ok E -> eval a E = eval b E.
Proof. exact bv_rules_same_value. Qed.
Print Assumptions C22_same_value.
Theorem C22_sound : forall name r, In (name, r) bv_rules -> rule_sound r.
Proof. exact bv_rules_sound. Qed.
Print Assumptions C22_sound.
(** Multiplying a three-bit x by five and adding y, with bits of y given explicitly, is such a conclusion. *)
Definition x3 : term := TVar "x" (SBV 3).
Definition y3 : term := tBb [TVar "p" SBool; TVar "q" SBool; TVar "p" SBool].
Definition mul5 : outcome term := shift_add_multiplier x3 (TConst (CBV 5 3)) 3.
Definition sum3 : outcome term := ripple_carry_adder x3 y3 3.
Example C22_witness_mult : match mul5 with
  | ROk t => r_bb_mult [tEq (TOp OBvMul [x3; TConst (CBV 5 3)]) t] [] [] = ROk tt /\ bool_term (tEq (TOp OBvMul [x3; TConst (CBV 5 3)]) t) = true
  | _ => False end.
Proof. vm_compute. auto. Qed.
Example C22_witness_add : match sum3 with
  | ROk t => r_bb_add [tEq (TOp OBvAdd [x3; y3]) t] [] [] = ROk tt /\ bool_term (tEq (TOp OBvAdd [x3; y3]) t) = true
  | _ => False end.
Proof. vm_compute. auto. Qed.

(** The circuits, for operands of any width: a ripple-carry adder adds and a shift-and-add multiplier multiplies modulo 2^w. *)
Theorem C22_adder : forall (I : interp) (E : env I) x y w t, env_ok E -> wt x = true -> wt y = true -> sort_of x = SBV w -> sort_of y = SBV w ->
  ripple_carry_adder x y w = ROk t -> eval t E = VBV w ((bvz (eval x E) + bvz (eval y E)) mod 2 ^ Z.of_nat w).
Proof. exact (fun I E => adder_correct E). Qed.
Print Assumptions C22_adder.
Theorem C22_multiplier : forall (I : interp) (E : env I) x y w t, env_ok E -> wt x = true -> wt y = true -> sort_of x = SBV w -> sort_of y = SBV w ->
  shift_add_multiplier x y w = ROk t -> eval t E = VBV w ((bvz (eval x E) * bvz (eval y E)) mod 2 ^ Z.of_nat w).
Proof. exact (fun I E => multiplier_correct E). Qed.
Print Assumptions C22_multiplier.
(** They are built for all operands of a positive width. *)
Theorem C22_circuits_exist : forall x y w, wt x = true -> wt y = true -> sort_of x = SBV (S w) -> sort_of y = SBV (S w) ->
  (exists t, ripple_carry_adder x y (S w) = ROk t) /\ (exists t, shift_add_multiplier x y (S w) = ROk t).
Proof. exact circuits_exist. Qed.
Print Assumptions C22_circuits_exist.
