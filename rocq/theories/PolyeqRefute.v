(** Pairs of terms identified by the comparisons of [Polyeq] although they differ in meaning. *)
From Coq Require Import List String ZArith QArith Bool Arith Lia.
From Verif Require Import Term Field Sem Sorting Base Rules Utils Num Refute Polyeq.
Import ListNotations.
Open Scope string_scope.

(** two well-sorted terms identified by [cmp] that some assignment of every interpretation tells apart *)
Definition cmp_refuted (cmp : term -> term -> outcome bool) : Prop :=
  exists a b, cmp a b = ROk true /\ wt a = true /\ wt b = true /\ sort_of a = sort_of b /\
    forall I : interp, exists E : env I, env_ok E /\ eval a E <> eval b E.

Definition vB (x : string) := TVar x SBool.
Definition vI (x : string) := TVar x SInt.
Definition vR (x : string) := TVar x SReal.

(** plain polyeq: (/ 6.0 2.0 x) against 3.0, the third argument is ignored *)
Definition w_div3 : term := TOp ORealDiv [TConst (CReal 6); TConst (CReal 2); vR "x"].
Lemma polyeq_refuted : cmp_refuted polyeq.
Proof.
  exists w_div3, (TConst (CReal 3)). repeat split; try reflexivity.
  intros I. destruct (env_with (I := I) "x" SReal (VN (injQ 3)) eq_refl) as [E [HE Hx]]. exists E. split; auto.
  unfold w_div3, vR. cbn [eval map eval_op fold1 fold_left eval_const]. rewrite Hx. unfold rdiv. cbn [num].
  rewrite <- !(@injQ_0 (iF I)), !injQ_eqb. cbn. rewrite <- !injQ_div by (intros H; discriminate H).
  intros H. injection H as H. apply injQ_inj in H. discriminate H.
Qed.
(** plain polyeq: (/ 2 (- 1)) against the literal -0.5 *)
Definition w_div_neg : term := TOp ORealDiv [tInt 2; TOp OSub [tInt 1]].
Lemma polyeq_refuted_neg : polyeq (TOp ORealDiv [tInt 2; TOp OSub [tInt 1]]) (TConst (CReal (-1 # 2))) = ROk true /\
  forall (I : interp) (E : env I), eval (TOp ORealDiv [tInt 2; TOp OSub [tInt 1]]) E <> eval (TConst (CReal (-1 # 2))) E.
Proof.
  split; [reflexivity|]. intros I E H. cbn [eval tInt map eval_op fold1 fold_left eval_const] in H. unfold rdiv in H. cbn [num] in H.
  change (num (vint 1)) with (inj 1 : iF I) in H. change (num (vint 2)) with (inj 2 : iF I) in H.
  rewrite <- inj_opp, <- !injQ_Z, <- (@injQ_0 (iF I)), injQ_eqb in H. cbn [Qeq_bool] in H.
  replace (Qeq_bool (inject_Z (- (1))) 0) with false in H by reflexivity.
  rewrite <- injQ_div in H by (intros K; discriminate K). apply (f_equal num) in H. cbn [num] in H.
  apply injQ_inj in H. discriminate H.
Qed.
(** polyeq can panic: a literal fraction with a zero denominator *)
Lemma polyeq_panics : polyeq (TConst (CReal 3)) (TOp ORealDiv [TConst (CReal 6); TConst (CReal 0)]) = RPanic.
Proof. reflexivity. Qed.

(** the comparison used for assumptions: (- x) against x *)
Lemma assume_refuted : cmp_refuted assume_eq.
Proof.
  exists (TOp OSub [vI "x"]), (vI "x"). repeat split; try reflexivity.
  intros I. destruct (env_with (I := I) "x" SInt (vint 1) (dom_vint 1)) as [E [HE Hx]]. exists E. split; auto.
  unfold vI. cbn [eval map eval_op]. rewrite Hx. intros H. apply (f_equal num) in H.
  change (oopp (inj 1) = inj 1 :> iF I) in H. rewrite <- inj_opp in H. apply inj_inj in H. discriminate H.
Qed.
(** ... also in formulas: assert (> x 0), assume (> (- x) 0) *)
Lemma assume_refuted_formula :
  let assumed := TOp OGt [TOp OSub [vI "x"]; tInt 0] in let asserted := TOp OGt [vI "x"; tInt 0] in
  assume_eq assumed asserted = ROk true /\
  forall I : interp, exists E : env I, env_ok E /\ holds E asserted = true /\ holds E assumed = false.
Proof.
  split; [reflexivity|].
  intros I. destruct (env_with (I := I) "x" SInt (vint 1) (dom_vint 1)) as [E [HE Hx]]. exists E. split; auto.
  unfold holds, vI, tInt. cbn [eval map eval_op chain eval_const]. rewrite Hx. cbn [truth num].
  change (num (vint 1)) with (inj 1 : iF I). change (num (vint 0)) with (inj 0 : iF I).
  rewrite <- inj_opp. unfold oltb. rewrite !inj_leb. split; reflexivity.
Qed.

(** alpha-equivalence (a): binding lists of different lengths are truncated *)
Definition a1 : term := TBind BForall [("x", SBool)] (TOp OOr [vB "x"; vB "y"]).
Definition b1 : term := TBind BForall [("x", SBool); ("y", SBool)] (TOp OOr [vB "x"; vB "y"]).
Lemma alpha_refuted_length : alpha_equiv a1 b1 = ROk true /\ wt a1 = true /\ wt b1 = true /\
  forall I : interp, exists E : env I, env_ok E /\ holds E a1 = true /\ holds E b1 = false.
Proof.
  repeat split; try reflexivity.
  intros I. destruct (env_with (I := I) "y" SBool (VB true) eq_refl) as [E [HE Hx]]. exists E. split; auto. split.
  - apply eval_all_true. intros vals Hv. apply doms1 in Hv. destruct Hv as [v [-> Hv]].
    cbn. unfold upd. cbn. rewrite Hx. cbn. apply orb_true_r.
  - destruct (holds E b1) eqn:H; [|reflexivity]. unfold holds, b1 in H. cbn [eval eval_bind truth] in H. rewrite eval_all_true in H.
    specialize (H [VB false; VB false]). cbn in H. unfold upd in H. cbn in H. symmetry. apply H. repeat constructor.
Qed.
(** (b): pairs cached in an outer scope are reused where a name is shadowed *)
Definition p_ (t : term) : term := TApp (TVar "p" (SFun [SBool; SBool])) [t].
Definition a2 : term := TBind BForall [("z", SBool)] (TOp OAnd [vB "x"; TBind BForall [("x", SBool)] (vB "x")]).
Definition b2 : term := TBind BForall [("z", SBool)] (TOp OAnd [vB "x"; TBind BForall [("y", SBool)] (vB "x")]).
Lemma alpha_refuted_cache : alpha_equiv a2 b2 = ROk true /\ wt a2 = true /\ wt b2 = true /\
  forall I : interp, exists E : env I, env_ok E /\ holds E a2 = false /\ holds E b2 = true.
Proof.
  repeat split; try reflexivity.
  intros I. destruct (env_with (I := I) "x" SBool (VB true) eq_refl) as [E [HE Hx]]. exists E. split; auto. split.
  - destruct (holds E a2) eqn:H; [|reflexivity]. unfold holds, a2 in H. cbn [eval eval_bind truth] in H. rewrite eval_all_true in H.
    specialize (H [VB false]). assert (K := H ltac:(repeat constructor)). clear H. cbn in K. apply andb_true_iff in K. destruct K as [_ K]. rewrite andb_true_r in K. rewrite iall_spec in K.
    specialize (K (VB false) eq_refl). cbn in K. symmetry. exact K.
  - unfold holds, b2. cbn [eval eval_bind truth]. apply eval_all_true. intros vals Hv. apply doms1 in Hv. destruct Hv as [v [-> Hv]].
    cbn. unfold upd. cbn. rewrite Hx. cbn. rewrite andb_true_r. apply iall_spec. intros w Hw. reflexivity.
Qed.
(** (c): the bindings of a [let] are simultaneous but compared one after the other *)
Definition a3 : term := TLet [("x", tTrue); ("y", vB "x")] (vB "y").
Definition b3 : term := TLet [("z", tTrue); ("y", vB "z")] (vB "y").
Lemma alpha_refuted_let : alpha_equiv a3 b3 = ROk true /\ wt a3 = true /\ wt b3 = true /\
  forall I : interp, exists E : env I, env_ok E /\ holds E a3 = true /\ holds E b3 = false.
Proof.
  repeat split; try reflexivity.
  intros I. destruct (env_with2 (I := I) "x" SBool (VB true) "z" SBool (VB false) eq_refl eq_refl ltac:(discriminate)) as [E [HE [Hx Hz]]].
  exists E. split; auto. unfold holds, a3, b3, vB. cbn. unfold upd. cbn. rewrite Hx, Hz. split; reflexivity.
Qed.
Lemma alpha_refuted : cmp_refuted alpha_equiv.
Proof.
  destruct alpha_refuted_length as [H1 [H2 [H3 H4]]]. exists a1, b1. repeat split; auto. intros I. destruct (H4 I) as [E [HE [K1 K2]]].
  exists E. split; auto. unfold holds in *. intros H. rewrite H in K1. congruence.
Qed.
