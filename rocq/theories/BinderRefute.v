(** The rules of R_Binder.v accept invalid steps. *)
From Coq Require Import List String ZArith Bool Arith Lia.
From Verif Require Import Base Term Field Sem Sorting Rules Refute Utils Polyeq R_Simp Subst Checker CheckerSound CheckerSem Context R_Binder.
Import ListNotations.
Local Open Scope string_scope.

(** An accepted, well-sorted end step of a subproof without discharged assumptions, such that every interpretation has
    an environment of the outer context where everything inside the anchor holds as required but the conclusion fails. *)
Definition end_refuted (r : crule) : Prop :=
  exists ra a cx prev, r ra = ROk tt /\ ra_wt ra = true /\ ra_ctx ra = a :: cx /\ ra_prev ra = Some prev /\ ra_disch ra = [] /\
  forall I : interp, exists E : env I, in_ctx cx E /\
    (forall E', ext a E E' -> (forall p, In p (ra_prems ra) -> clause_holds E' p) /\ clause_holds E' prev) /\
    ~ clause_holds E (ra_concl ra).
Definition x_ := TVar "x" SBool.
Definition y_ := TVar "y" SBool.
Definition vx : string * sort := ("x", SBool).
Definition vy : string * sort := ("y", SBool).
Definition ra_end (c : term) (a : list anchor) (prev : term) : rargs := mkRA [c] [] [] [a] (Some [prev]) [].

Lemma holds_eq_refl {I} (E : env I) t : clause_holds E [tEq t t].
Proof. exists (tEq t t). split; [left; reflexivity|]. apply holds_eq_iff. reflexivity. Qed.
Lemma end_refuted_refl (r : crule) c a t :
  r (ra_end c a (tEq t t)) = ROk tt -> ra_wt (ra_end c a (tEq t t)) = true ->
  (forall I : interp, exists E : env I, env_ok E /\ holds E c = false) -> end_refuted r.
Proof.
  intros H Hw HI. exists (ra_end c a (tEq t t)), a, [], [tEq t t]. do 2 (split; [assumption|]). do 3 (split; [reflexivity|]).
  intros I. destruct (HI I) as [E [HE Hc]]. exists E. split; [constructor; auto|]. split.
  - intros E' _. split; [intros p []|apply holds_eq_refl].
  - apply not_clause_b. cbn. rewrite Hc. reflexivity.
Qed.
Lemma upd_eq {I} (E : env I) x s v : upd E x s v x s = v.
Proof. apply upd_same. Qed.

(** (= (let ((x true)) x) x), from x := true |- (= x x) *)
Lemma let_refuted : end_refuted r_let.
Proof.
  apply (end_refuted_refl _ (tEq (TLet [("x", tTrue)] x_) x_) [AAssign vx tTrue] x_); try reflexivity.
  intros I. destruct (env_with (I := I) "x" SBool (VB false) eq_refl) as [E [HE Hx]]. exists E. split; [auto|].
  rewrite holds_eq. cbn. rewrite Hx. reflexivity.
Qed.
(** (= (forall ((x Bool)) x) (forall ((y Bool)) x)), from y, x := y |- (= x x) *)
Lemma bind_refuted : end_refuted r_bind.
Proof.
  apply (end_refuted_refl _ (tEq (TBind BForall [vx] x_) (TBind BForall [vy] x_)) [AVar vy; AAssign vx y_] x_); try reflexivity.
  intros I. destruct (env_with (I := I) "x" SBool (VB true) eq_refl) as [E [HE Hx]]. exists E. split; [auto|].
  assert (H1 : eval (TBind BForall [vx] x_) E = VB false).
  { cbn [eval eval_bind vx x_ eval_all]. f_equal. apply not_true_iff_false. rewrite iall_spec. intros H. specialize (H (VB false) eq_refl).
    rewrite upd_same in H. discriminate. }
  assert (H2 : eval (TBind BForall [vy] x_) E = VB true).
  { cbn [eval eval_bind vy x_ eval_all]. f_equal. rewrite iall_spec. intros v _. rewrite upd_other by discriminate. rewrite Hx. reflexivity. }
  rewrite holds_eq, H1, H2. reflexivity.
Qed.
(** (= (exists ((x Bool)) (= x true)) (= x true)), from x := true |- (= (= x true) (= x true)) *)
Lemma onepoint_refuted : end_refuted r_onepoint.
Proof.
  apply (end_refuted_refl _ (tEq (TBind BExists [vx] (tEq x_ tTrue)) (tEq x_ tTrue)) [AAssign vx tTrue] (tEq x_ tTrue)); try reflexivity.
  intros I. destruct (env_with (I := I) "x" SBool (VB false) eq_refl) as [E [HE Hx]]. exists E. split; [auto|].
  assert (H1 : eval (TBind BExists [vx] (tEq x_ tTrue)) E = VB true).
  { cbn [eval eval_bind vx eval_all]. f_equal. apply negb_true_iff, not_true_iff_false. rewrite iall_spec. intros H.
    specialize (H (VB true) eq_refl). cbn in H. discriminate. }
  rewrite holds_eq, H1. cbn. rewrite Hx. reflexivity.
Qed.
(** (= (exists ((x Bool)) x) x), from x := (choice ((x Bool)) x) |- (= x x) *)
Lemma sko_ex_refuted : end_refuted (r_sko BExists).
Proof.
  apply (end_refuted_refl _ (tEq (TBind BExists [vx] x_) x_) [AAssign vx (TBind BChoice [vx] x_)] x_); try reflexivity.
  intros I. destruct (env_with (I := I) "x" SBool (VB false) eq_refl) as [E [HE Hx]]. exists E. split; [auto|].
  assert (H1 : eval (TBind BExists [vx] x_) E = VB true).
  { cbn [eval eval_bind vx x_ eval_all]. f_equal. apply negb_true_iff, not_true_iff_false. rewrite iall_spec. intros H.
    specialize (H (VB true) eq_refl). rewrite upd_same in H. discriminate. }
  rewrite holds_eq, H1. cbn [eval x_]. rewrite Hx. reflexivity.
Qed.
Lemma sko_forall_refuted : end_refuted (r_sko BForall).
Proof.
  apply (end_refuted_refl _ (tEq (TBind BForall [vx] x_) x_) [AAssign vx (TBind BChoice [vx] (tNot x_))] x_); try reflexivity.
  intros I. destruct (env_with (I := I) "x" SBool (VB true) eq_refl) as [E [HE Hx]]. exists E. split; [auto|].
  assert (H1 : eval (TBind BForall [vx] x_) E = VB false).
  { cbn [eval eval_bind vx x_ eval_all]. f_equal. apply not_true_iff_false. rewrite iall_spec. intros H. specialize (H (VB false) eq_refl).
    rewrite upd_same in H. discriminate. }
  rewrite holds_eq, H1. cbn [eval x_]. rewrite Hx. reflexivity.
Qed.
(** (= (let ((x p)) x) (let ((x p)) true)), from x := true |- (= x true) *)
Lemma bind_let_refuted : end_refuted r_bind_let.
Proof.
  set (c := tEq (TLet [("x", TVar "p" SBool)] x_) (TLet [("x", TVar "p" SBool)] tTrue)).
  exists (ra_end c [AAssign vx tTrue] (tEq x_ tTrue)), [AAssign vx tTrue], [], [tEq x_ tTrue].
  do 5 (split; [reflexivity|]). intros I. destruct (env_with (I := I) "p" SBool (VB false) eq_refl) as [E [HE Hx]].
  exists E. split; [constructor; auto|]. split.
  - intros E' H. split; [intros p []|]. inversion H; subst. match goal with H : ext [] _ _ |- _ => inversion H; subst end.
    exists (tEq x_ tTrue). split; [left; reflexivity|]. apply holds_eq_iff. cbn [eval x_]. rewrite upd_same. reflexivity.
  - apply not_clause_b. cbn [ra_concl ra_end existsb]. unfold c. rewrite holds_eq. cbn. rewrite Hx. reflexivity.
Qed.
(** a [let] with several bindings is simultaneous, the anchor is sequential: (= (let ((x true) (y x)) y) true) *)
Lemma let_sequential_refuted :
  let c := tEq (TLet [("x", tTrue); ("y", x_)] y_) tTrue in
  let a := [AAssign vx tTrue; AAssign vy x_] in
  let ra := ra_end c a (tEq y_ tTrue) in
  r_let ra = ROk tt /\ ra_wt ra = true /\
  forall I : interp, exists E : env I, env_ok E /\ (forall E', ext a E E' -> holds E' (tEq y_ tTrue) = true) /\ holds E c = false.
Proof.
  cbv zeta. do 2 (split; [reflexivity|]). intros I. destruct (env_with (I := I) "x" SBool (VB false) eq_refl) as [E [HE Hx]].
  exists E. split; [auto|]. split.
  - intros E' H. inversion H; subst. match goal with H : ext [_] _ _ |- _ => inversion H; subst end.
    match goal with H : ext [] _ _ |- _ => inversion H; subst end. apply holds_eq_iff. cbn [eval y_ x_]. rewrite upd_same.
    rewrite upd_same. reflexivity.
  - rewrite holds_eq. cbn. rewrite Hx. reflexivity.
Qed.
