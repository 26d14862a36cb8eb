(** Unsound applications of quantifier rules. *)
From Coq Require Import List String ZArith Bool Arith Lia.
From Verif Require Import Base Term Field Sem Sorting Rules Refute Subst R_Quant.
Import ListNotations.
Open Scope string_scope.

(** forall_inst with x := y; the binder of y is renamed to y', which captures a free variable of that name:
    (or (not (forall ((x Bool)) (exists ((y Bool)) (and (= x x) (not (= y y')))))) (exists ((y' Bool)) (and (= y y) (not (= y' y'))))) *)
Definition vb x := TVar x SBool.
Definition fi_concl : term :=
  TOp OOr [tNot (TBind BForall [("x", SBool)] (TBind BExists [("y", SBool)] (TOp OAnd [tEq (vb "x") (vb "x"); tNot (tEq (vb "y") (vb "y'"))])));
           TBind BExists [("y'", SBool)] (TOp OAnd [tEq (vb "y") (vb "y"); tNot (tEq (vb "y'") (vb "y'"))])].
Lemma forall_inst_refuted : rule_refuted r_forall_inst.
Proof.
  exists [fi_concl], [], [vb "y"]. split; [vm_compute; reflexivity|]. split; [reflexivity|]. split; [reflexivity|].
  intros I. destruct (env_with (I := I) "y'" SBool (VB true) eq_refl) as [E [HE Hy]]. exists E. split; [exact HE|]. split; [intros p []|].
  intros Hc. apply clause_holds_b in Hc. cbn [existsb] in Hc. rewrite orb_false_r in Hc. unfold fi_concl in Hc. rewrite holds_or2, holds_not, orb_true_iff in Hc.
  destruct Hc as [Hc|Hc].
  - apply negb_true_iff in Hc.
    assert (Ht : holds E (TBind BForall [("x", SBool)] (TBind BExists [("y", SBool)] (TOp OAnd [tEq (vb "x") (vb "x"); tNot (tEq (vb "y") (vb "y'"))]))) = true); [|congruence].
    apply (eval_all_true [("x", SBool)] (fun E0 => holds E0 _) E). intros vals Hd.
    change (holds ?F (TBind BExists ?vs ?t)) with (negb (eval_all vs (fun E0 => negb (holds E0 t)) F)). apply negb_true_iff.
    match goal with |- ?b = false => destruct b eqn:Eb; [|reflexivity] end. exfalso.
    rewrite eval_all_true in Eb. specialize (Eb [VB false] ltac:(repeat constructor)). cbn beta in Eb.
    rewrite holds_and2, holds_not, negb_true_iff, andb_false_iff in Eb. destruct Eb as [Eb|Eb].
    + assert (X : forall F : env I, holds F (tEq (vb "x") (vb "x")) = true) by (intros F; apply holds_eq_iff; reflexivity). rewrite X in Eb. discriminate.
    + apply negb_false_iff, holds_eq_iff in Eb. cbn [eval vb] in Eb. inversion Hd as [|? v ? l Hv Hr]; subst. inversion Hr; subst.
      cbn in Eb. rewrite Hy in Eb. discriminate.
  - change (negb (eval_all [("y'", SBool)] (fun E0 => negb (holds E0 (TOp OAnd [tEq (vb "y") (vb "y"); tNot (tEq (vb "y'") (vb "y'"))]))) E) = true) in Hc.
    apply negb_true_iff in Hc. assert (Ha : eval_all [("y'", SBool)] (fun E0 => negb (holds E0 (TOp OAnd [tEq (vb "y") (vb "y"); tNot (tEq (vb "y'") (vb "y'"))]))) E = true); [|congruence].
    apply eval_all_true. intros vals _. rewrite holds_and2, holds_not.
    assert (X : forall F : env I, holds F (tEq (vb "y'") (vb "y'")) = true) by (intros F; apply holds_eq_iff; reflexivity). rewrite X, andb_false_r. reflexivity.
Qed.
(** (let ((y x)) y) *)
Definition lety : term := TLet [("y", vb "x")] (vb "y").
Lemma lety_holds {I} (E : env I) : env_ok E -> forall b, holds (upd E "x" SBool (VB b)) lety = b.
Proof. intros HE b. reflexivity. Qed.
Lemma dom_b {I} b : idom I SBool (VB b) = true.
Proof. reflexivity. Qed.
Lemma all_x_false {I} (E : env I) f : f (upd E "x" SBool (VB false)) = false -> eval_all [("x", SBool)] f E = false.
Proof.
  intros H. destruct (eval_all [("x", SBool)] f E) eqn:Ea; [|reflexivity]. rewrite eval_all_true in Ea.
  specialize (Ea [VB false] ltac:(repeat constructor)). cbn [upds] in Ea. congruence.
Qed.
(** (= (forall ((x Bool)) (let ((y x)) y)) (let ((y x)) y)) *)
Lemma qnt_rm_unused_refuted : rule_refuted r_qnt_rm_unused.
Proof.
  exists [tEq (TBind BForall [("x", SBool)] lety) lety], [], []. split; [vm_compute; reflexivity|]. split; [reflexivity|]. split; [reflexivity|].
  intros I. destruct (env_with (I := I) "x" SBool (VB true) eq_refl) as [E [HE Hx]]. exists E. split; [exact HE|]. split; [intros p []|].
  intros Hc. apply clause_holds_b in Hc. cbn [existsb] in Hc. rewrite orb_false_r in Hc. apply holds_eq_same in Hc.
  assert (H1 : holds E (TBind BForall [("x", SBool)] lety) = false) by (apply (all_x_false E (fun F => holds F lety)); reflexivity).
  assert (H2 : holds E lety = true) by (change (truth (E "x" SBool) = true); rewrite Hx; reflexivity). congruence.
Qed.
(** (= (forall ((x Bool)) (or (let ((y x)) y))) (or (let ((y x)) y))) *)
Lemma miniscope_split_refuted : rule_refuted r_miniscope_split.
Proof.
  exists [tEq (TBind BForall [("x", SBool)] (TOp OOr [lety])) (TOp OOr [lety])], [], [].
  split; [vm_compute; reflexivity|]. split; [reflexivity|]. split; [reflexivity|].
  intros I. destruct (env_with (I := I) "x" SBool (VB true) eq_refl) as [E [HE Hx]]. exists E. split; [exact HE|]. split; [intros p []|].
  intros Hc. apply clause_holds_b in Hc. cbn [existsb] in Hc. rewrite orb_false_r in Hc. apply holds_eq_same in Hc.
  assert (H1 : holds E (TBind BForall [("x", SBool)] (TOp OOr [lety])) = false) by (apply (all_x_false E (fun F => holds F (TOp OOr [lety]))); reflexivity).
  assert (H2 : holds E (TOp OOr [lety]) = true) by (rewrite holds_or; cbn [existsb]; change (truth (E "x" SBool) || false = true); rewrite Hx; reflexivity). congruence.
Qed.
(** (= (forall ((x Bool)) (ite (let ((y x)) y) true false)) (ite (let ((y x)) y) (forall ((x Bool)) true) (forall ((x Bool)) false))) *)
Lemma miniscope_ite_refuted : rule_refuted r_miniscope_ite.
Proof.
  exists [tEq (TBind BForall [("x", SBool)] (TOp OIte [lety; tTrue; tFalse]))
              (TOp OIte [lety; TBind BForall [("x", SBool)] tTrue; TBind BForall [("x", SBool)] tFalse])], [], [].
  split; [vm_compute; reflexivity|]. split; [reflexivity|]. split; [reflexivity|].
  intros I. destruct (env_with (I := I) "x" SBool (VB true) eq_refl) as [E [HE Hx]]. exists E. split; [exact HE|]. split; [intros p []|].
  intros Hc. apply clause_holds_b in Hc. cbn [existsb] in Hc. rewrite orb_false_r in Hc. apply holds_eq_same in Hc.
  rewrite holds_ite in Hc.
  assert (H1 : holds E (TBind BForall [("x", SBool)] (TOp OIte [lety; tTrue; tFalse])) = false) by (apply (all_x_false E (fun F => holds F (TOp OIte [lety; tTrue; tFalse]))); reflexivity).
  assert (H2 : holds E lety = true) by (change (truth (E "x" SBool) = true); rewrite Hx; reflexivity).
  assert (H3 : holds E (TBind BForall [("x", SBool)] tTrue) = true) by (apply (eval_all_true [("x", SBool)] (fun F => holds F tTrue) E); reflexivity).
  rewrite H2 in Hc. congruence.
Qed.
(** prenexing captures the free variable x:
    (or (not (forall ((y Bool)) (and x (forall ((x Bool)) (or x (not x)))))) (forall ((x Bool)) x)) *)
Lemma qnt_cnf_refuted : rule_refuted r_qnt_cnf.
Proof.
  set (phi := TOp OAnd [vb "x"; TBind BForall [("x", SBool)] (TOp OOr [vb "x"; tNot (vb "x")])]).
  exists [TOp OOr [tNot (TBind BForall [("y", SBool)] phi); TBind BForall [("x", SBool)] (vb "x")]], [], [].
  split; [vm_compute; reflexivity|]. split; [reflexivity|]. split; [reflexivity|].
  intros I. destruct (env_with (I := I) "x" SBool (VB true) eq_refl) as [E [HE Hx]]. exists E. split; [exact HE|]. split; [intros p []|].
  intros Hc. apply clause_holds_b in Hc. cbn [existsb] in Hc. rewrite orb_false_r, holds_or2, holds_not in Hc.
  assert (H1 : holds E (TBind BForall [("x", SBool)] (vb "x")) = false) by (apply (all_x_false E (fun F => holds F (vb "x"))); reflexivity).
  assert (H2 : holds E (TBind BForall [("y", SBool)] phi) = true).
  { apply (eval_all_true [("y", SBool)] (fun F => holds F phi) E). intros vals Hd. inversion Hd as [|? v ? l Hv Hr]; subst. inversion Hr; subst.
    unfold phi. rewrite holds_and2. apply andb_true_iff. split; [change (truth (E "x" SBool) = true); rewrite Hx; reflexivity|].
    apply (eval_all_true [("x", SBool)] (fun F => holds F (TOp OOr [vb "x"; tNot (vb "x")]))). intros vals' _. rewrite holds_or2, holds_not. apply orb_negb_r. }
  rewrite H1, H2 in Hc. discriminate.
Qed.
