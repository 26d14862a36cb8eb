(** C15: the polynomial rules. *)
From Coq Require Import List String ZArith QArith Bool Arith Lia Permutation.
From Verif Require Import Base Term Field Sem Sorting Rules Refute R_LA R_SimpArith CPSound CPRefute Num R_Poly PolySound PolyOrder CheckerSem Checker CheckerSound CheckerRefute Table.
Import ListNotations.
Local Open Scope string_scope.
Local Open Scope nat_scope.

(** [sorting srt]: [srt] orders the factors of a monomial, in a way that depends only on which factors there are and how often
    each occurs (the code sorts by memory address). *)

(** ** poly_simp *)
(** In general false: (div 1 2) counts as one half. *)
Theorem C15_poly_simp_refuted : forall srt, (forall l, Permutation (srt l) l) -> rule_refuted (r_poly_simp mon_eqb srt).
Proof.
  intros srt _. exists [half_eq], [], []. repeat (split; [reflexivity|]). intros I. destruct (bool_model I false) as [E [HE _]]. exists E. split; auto. split; [intros p []|].
  intros [l [[<-|[]] Hl]]. rewrite half_eq_false in Hl. discriminate.
Qed.
Print Assumptions C15_poly_simp_refuted.
Theorem C15_end_to_end_refuted : forall other cfg, cfg = cfg_default \/ cfg = cfg_elaborated ->
  exists prems proof,
    check (rule_table other) cfg prems proof = ROk false /\
    forallb bool_term prems = true /\ forallb shape_ok proof = true /\ forallb cmd_wt proof = true /\
    forall I : interp, exists E : env I, env_ok E /\ forall p, In p prems -> holds E p = true.
Proof. exact soundness_refuted_poly. Qed.
Print Assumptions C15_end_to_end_refuted.
(** Sound for integers, reals, bit-vectors and all other sorts, when every [div] of two numerals in the conclusion is exact.
    Missing from the full property: the other conclusions, for which it is false. *)
Theorem C15_poly_simp_partial : forall srt, sorting srt -> forall c ps args, r_poly_simp mon_eqb srt c ps args = ROk tt ->
  forallb divs_exact c = true -> clause_wt c = true -> forallb clause_wt ps = true -> entails ps c.
Proof.
  intros srt [Hs _] c ps args. apply poly_simp_sound; auto. intros a b H. apply mon_eqb_eq in H. subst. auto.
Qed.
Print Assumptions C15_poly_simp_partial.
(** The verdict does not depend on the addresses of terms. *)
Theorem C15_address_independent : forall srt srt', sorting srt -> sorting srt' -> forall c ps args,
  r_poly_simp mon_eqb srt c ps args = r_poly_simp mon_eqb srt' c ps args.
Proof. intros srt srt' H H' c ps args. rewrite !poly_sorted; auto. Qed.
Print Assumptions C15_address_independent.

(** ** poly_simp_rel *)
Definition rel_prem : term :=
  tEq (TOp OMult [TOp OIntDiv [TConst (CInt 1); TConst (CInt 2)]; TOp OSub [xi; TConst (CInt 0)]])
      (TOp OMult [TConst (CInt 1); TOp OSub [TConst (CInt 0); TConst (CInt 0)]]).
Definition rel_concl : term := tEq (TOp OLt [xi; TConst (CInt 0)]) (TOp OLt [TConst (CInt 0); TConst (CInt 0)]).
Theorem C15_poly_simp_rel_refuted : rule_refuted r_poly_simp_rel.
Proof.
  exists [rel_concl], [[rel_prem]], []. repeat (split; [vm_compute; reflexivity|]). intros I. destruct (envx I (-1)) as [E [HE HX]]. exists E. split; auto.
  split.
  - intros p [<-|[]]. exists rel_prem. split; [left; auto|]. apply num_eq_holds; [auto|reflexivity|left; reflexivity|].
    rewrite !nval_mult2, nval_half, !nval_cint. change (nval E (TOp OSub [TConst (CInt 0); TConst (CInt 0)])) with (inj 0 - inj 0 : iF I)%of.
    rewrite <- inj_sub, <- inj_mul. change (nval E (TOp OSub [xi; TConst (CInt 0)])) with (nval E xi - inj 0 : iF I)%of. rewrite HX, <- inj_sub, <- inj_mul. reflexivity.
  - intros [l [[<-|[]] Hl]]. apply eqv_iff in Hl. assert (A : holds E (TOp OLt [xi; TConst (CInt 0)]) = holds E (TOp OLt [TConst (CInt 0); TConst (CInt 0)])) by (unfold holds; rewrite Hl; auto).
    rewrite !holds_lt, HX, !nval_cint in A. unfold oltb in A. rewrite !inj_leb in A. discriminate.
Qed.
Print Assumptions C15_poly_simp_rel_refuted.
(** Sound when every [div] of two numerals in the premise is exact. *)
Theorem C15_poly_simp_rel_partial : forall c ps args, r_poly_simp_rel c ps args = ROk tt ->
  forallb (forallb divs_exact) ps = true -> clause_wt c = true -> forallb clause_wt ps = true -> entails ps c.
Proof. exact poly_simp_rel_sound. Qed.
Print Assumptions C15_poly_simp_rel_partial.

(** ** Witnesses *)
(** sorting functions exist ([sorting_inhabited] in Model.v); for the example, one that is right for two variables *)
Definition xr : term := TVar "x" SReal.
Definition yr : term := TVar "y" SReal.
Definition two_sort (l : list term) : list term := (filter (fun t => term_eqb t xr) l ++ filter (fun t => negb (term_eqb t xr)) l)%list.
(** (x+y)(x-y) = x*x - y*y, and with halves *)
Definition sq_eq : clause :=
  [tEq (TOp OMult [TOp OAdd [xr; yr]; TOp OSub [xr; yr]]) (TOp OSub [TOp OMult [xr; xr]; TOp OMult [yr; yr]])].
Example C15_poly_witness : r_poly_simp mon_permb (fun l => l) sq_eq [] [] = ROk tt /\ r_poly_simp mon_eqb two_sort sq_eq [] [] = ROk tt /\
  forallb divs_exact sq_eq = true /\ clause_wt sq_eq = true.
Proof. vm_compute. auto. Qed.
(** 8-bit vectors: 255 * x = -x; not so for 254 *)
Definition xv : term := TVar "x" (SBV 8).
Definition bv_eq (z : Z) : clause := [tEq (TOp OBvMul [TConst (CBV z 8); xv]) (TOp OBvNeg [xv])].
Example C15_bv_witness : r_poly_simp mon_permb (fun l => l) (bv_eq 255) [] [] = ROk tt /\ clause_wt (bv_eq 255) = true /\
  r_poly_simp mon_permb (fun l => l) (bv_eq 254) [] [] = RErr.
Proof. vm_compute. auto. Qed.
(** 2x - 2y = (6x - 6y)/3 gives the same order *)
Definition rel_ps : list clause :=
  [[tEq (TOp OMult [TConst (CReal 2); TOp OSub [xr; yr]]) (TOp OMult [TConst (CReal (1 # 3)); TOp OSub [yr; xr]])]].
Example C15_rel_witness : r_poly_simp_rel [tEq (TOp OLt [xr; yr]) (TOp OLt [yr; xr])] rel_ps [] = ROk tt /\
  r_poly_simp_rel [tEq (TOp OLt [xr; yr]) (TOp OGt [yr; xr])] rel_ps [] = RErr.
Proof. vm_compute. auto. Qed.
