(** C18, C19: comparison of terms modulo reordering of equalities and renaming of bound variables. *)
From Coq Require Import List String ZArith QArith.
From Verif Require Import Term Field Sem Sorting Base Polyeq PolyeqTerm Std PolyeqSound PolyeqRefute AlphaSound.
Import ListNotations.
Open Scope string_scope.

(** The comparison always returns (with an answer or a panic); the fuel of the model is never exhausted. *)
Theorem C19_comparison_terminates : forall c a b, peq c a b <> RErr.
Proof. exact peq_terminates. Qed.
Print Assumptions C19_comparison_terminates.

(** C19 fails: (/ 6.0 2.0 x) is identified with 3.0. *)
Theorem C19_polyeq_refuted :
  exists a b, polyeq a b = ROk true /\ wt a = true /\ wt b = true /\ sort_of a = sort_of b /\
    forall I : interp, exists E : env I, env_ok E /\ eval a E <> eval b E.
Proof. exact polyeq_refuted. Qed.
Print Assumptions C19_polyeq_refuted.
(** A second cause: (/ 2 (- 1)) is identified with the literal -0.5. *)
Theorem C19_polyeq_negative_literal_refuted :
  polyeq (TOp ORealDiv [tInt 2; TOp OSub [tInt 1]]) (TConst (CReal (-1 # 2))) = ROk true /\
  forall (I : interp) (E : env I),
    eval (TOp ORealDiv [tInt 2; TOp OSub [tInt 1]]) E <> eval (TConst (CReal (-1 # 2))) E.
Proof. exact polyeq_refuted_neg. Qed.
Print Assumptions C19_polyeq_negative_literal_refuted.
(** It may also crash: 3.0 against (/ 6.0 0.0). *)
Theorem C19_polyeq_panic_refuted : exists a b, polyeq a b = RPanic /\ wt a = true /\ wt b = true.
Proof. do 2 eexists. split; [exact polyeq_panics|split; reflexivity]. Qed.
Print Assumptions C19_polyeq_panic_refuted.
(** The part of C19 that holds: terms without negative literals and with binary [/] only.  [scoped] says that
    the name bound by a [let] occurs in its body only with the sort of the bound value. *)
Theorem C19_polyeq_sound_partial :
  forall a b, polyeq a b = ROk true -> wt a = true -> wt b = true ->
  std_lits a = true -> std_lits b = true -> scoped a = true -> scoped b = true ->
  forall (I : interp) (E : env I), env_ok E -> eval a E = eval b E.
Proof. exact polyeq_sound. Qed.
Print Assumptions C19_polyeq_sound_partial.

(** The comparison of an assumption with the problem's assertions also ignores n-ary structure, and confuses
    unary minus with the identity. *)
Theorem C19_assume_refuted :
  let assumed := TOp OGt [TOp OSub [TVar "x" SInt]; tInt 0] in
  let asserted := TOp OGt [TVar "x" SInt; tInt 0] in
  assume_eq assumed asserted = ROk true /\
  forall I : interp, exists E : env I, env_ok E /\ holds E asserted = true /\ holds E assumed = false.
Proof. exact assume_refuted_formula. Qed.
Print Assumptions C19_assume_refuted.
(** Without unary minus it is sound. *)
Theorem C19_assume_sound_partial :
  forall a b, assume_eq a b = ROk true -> wt a = true -> wt b = true ->
  std_lits a = true -> std_lits b = true -> scoped a = true -> scoped b = true ->
  no_unary_minus a = true -> no_unary_minus b = true ->
  forall (I : interp) (E : env I), env_ok E -> eval a E = eval b E.
Proof. exact assume_eq_sound. Qed.
Print Assumptions C19_assume_sound_partial.

(** C18 fails in three ways: binder lists of different lengths, pairs cached in an outer scope, and
    simultaneous [let] bindings compared in sequence. *)
Theorem C18_alpha_equiv_length_refuted :
  let a := TBind BForall [("x", SBool)] (TOp OOr [TVar "x" SBool; TVar "y" SBool]) in
  let b := TBind BForall [("x", SBool); ("y", SBool)] (TOp OOr [TVar "x" SBool; TVar "y" SBool]) in
  alpha_equiv a b = ROk true /\ wt a = true /\ wt b = true /\
  forall I : interp, exists E : env I, env_ok E /\ holds E a = true /\ holds E b = false.
Proof. exact alpha_refuted_length. Qed.
Print Assumptions C18_alpha_equiv_length_refuted.
Theorem C18_alpha_equiv_cache_refuted :
  let a := TBind BForall [("z", SBool)] (TOp OAnd [TVar "x" SBool; TBind BForall [("x", SBool)] (TVar "x" SBool)]) in
  let b := TBind BForall [("z", SBool)] (TOp OAnd [TVar "x" SBool; TBind BForall [("y", SBool)] (TVar "x" SBool)]) in
  alpha_equiv a b = ROk true /\ wt a = true /\ wt b = true /\
  forall I : interp, exists E : env I, env_ok E /\ holds E a = false /\ holds E b = true.
Proof. exact alpha_refuted_cache. Qed.
Print Assumptions C18_alpha_equiv_cache_refuted.
Theorem C18_alpha_equiv_let_refuted :
  let a := TLet [("x", tTrue); ("y", TVar "x" SBool)] (TVar "y" SBool) in
  let b := TLet [("z", tTrue); ("y", TVar "z" SBool)] (TVar "y" SBool) in
  alpha_equiv a b = ROk true /\ wt a = true /\ wt b = true /\
  forall I : interp, exists E : env I, env_ok E /\ holds E a = true /\ holds E b = false.
Proof. exact alpha_refuted_let. Qed.
Print Assumptions C18_alpha_equiv_let_refuted.

(** The part of C18 that holds: no [let], no name bound twice on a path or both bound and free, bound names occurring only
    with the sort of their binder, and binding lists of the two terms of equal length or with a difference in sorts
    ([alpha_side]; literals as in C19). *)
Theorem C18_alpha_equiv_sound_partial :
  forall a b, alpha_equiv a b = ROk true -> wt a = true -> wt b = true -> alpha_side a b = true ->
  forall (I : interp) (E : env I), env_ok E -> eval a E = eval b E.
Proof. exact alpha_equiv_sound. Qed.
Print Assumptions C18_alpha_equiv_sound_partial.
Example C18_sound_witness :
  let t x y z := TBind BForall [(x, SInt); (y, SBool)]
     (TOp OOr [TVar y SBool; TOp OGt [TVar x SInt; TVar "u" SInt]; TBind BExists [(z, SInt)] (tEq (TVar z SInt) (TVar x SInt))]) in
  let a := t "x" "y" "z" in let b := t "z" "x" "y" in
  alpha_equiv a b = ROk true /\ wt a = true /\ wt b = true /\ alpha_side a b = true /\ a <> b.
Proof. cbv zeta. repeat split; try reflexivity. discriminate. Qed.

(** Witnesses for the partial theorems. *)
Example C19_polyeq_witness :
  let a := TBind BForall [("x", SInt)] (tEq (TVar "x" SInt) (TOp OAdd [TVar "y" SInt; tInt 1])) in
  let b := TBind BForall [("x", SInt)] (tEq (TOp OAdd [TVar "y" SInt; tInt 1]) (TVar "x" SInt)) in
  polyeq a b = ROk true /\ std_lits a = true /\ scoped a = true /\ wt a = true /\ wt b = true /\ a <> b.
Proof. repeat split; try reflexivity. discriminate. Qed.
Example C19_polyeq_fraction_witness :
  polyeq (TConst (CReal (3 # 2))) (TOp ORealDiv [TConst (CReal 3); TConst (CReal 2)]) = ROk true.
Proof. reflexivity. Qed.
Example C19_assume_witness :
  let x := TVar "x" SBool in let y := TVar "y" SBool in let z := TVar "z" SBool in
  let a := TOp OAnd [x; y; z] in let b := TOp OAnd [TOp OAnd [x; y]; z] in
  assume_eq a b = ROk true /\ wt a = true /\ wt b = true /\ no_unary_minus a = true /\ no_unary_minus b = true /\ a <> b.
Proof. repeat split; try reflexivity. discriminate. Qed.
Example C19_assume_chain_witness :
  let x := TVar "x" SInt in let y := TVar "y" SInt in let z := TVar "z" SInt in
  assume_eq (TOp OLt [x; y; z]) (TOp OAnd [TOp OLt [x; y]; TOp OLt [y; z]]) = ROk true.
Proof. reflexivity. Qed.
Example C18_alpha_witness :
  alpha_equiv (TBind BForall [("x", SInt)] (TOp OGt [TVar "x" SInt; TVar "y" SInt]))
              (TBind BForall [("z", SInt)] (TOp OGt [TVar "z" SInt; TVar "y" SInt])) = ROk true.
Proof. reflexivity. Qed.
Example C18_alpha_negative_witness :
  alpha_equiv (TBind BForall [("x", SInt)] (TOp OGt [TVar "x" SInt; TVar "y" SInt]))
              (TBind BForall [("y", SInt)] (TOp OGt [TVar "y" SInt; TVar "y" SInt])) = ROk false.
Proof. reflexivity. Qed.
