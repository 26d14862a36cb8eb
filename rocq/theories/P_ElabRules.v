(** C34: the first pass of the elaborator, for refl, forall_inst, ite_intro and bfun_elim steps. *)
From Coq Require Import List String ZArith QArith Bool Arith Lia.
From Verif Require Import Base Term Sem Rules Utils Std Checker Polyeq Subst Context R_Eq R_Binder R_Quant R_Bfun R_Resolution R_Extras Table Elab ElabSound ElabCong ElabRefute ElabPolyeq ElabPolyeqSound ElabRules P_ElabPolyeq.
Import ListNotations.
Open Scope string_scope.
Local Open Scope nat_scope.
Local Open Scope list_scope.

(** A refl step that the checker accepts because [x] and [y] are equivalent (each of them is a side of the equality, or the side with the context applied): if
    they are equal up to the sides of equalities, the elaborator does not panic, and replaces the step by a derivation of the same clause that is accepted in
    elaborated mode, where refl needs syntactic equality after applying the context to the left side.
    [applied]: the applications of the context give [l'] and [r'], also if the right side comes first (that histories of applications do not matter is C31). *)
Theorem C34_refl_partial other seen alpha d k cx l r l' r' x y st ps args :
  refl_pair (fresh_stack cx) [tEq l r] = ROk (x, y, st) -> applied cx l l' r r' ->
  efrag k x = true -> efrag k y = true -> polyeq x y = ROk true -> Forall (accepted other cx) ps ->
  exists n, elab_refl (eq_elab seen alpha d) cx [tEq l r] ps args = ROk n /\ eclause n = [tEq l r] /\ accepted other cx n.
Proof. intros H1 H2 H3 H4 H5 H6. eapply elab_refl_ok; eauto. apply (poly_equality other seen alpha d k). repeat split; auto. Qed.
Print Assumptions C34_refl_partial.

(** A forall_inst step whose instance [p] is equal to the computed instance [e] up to the sides of equalities. *)
Theorem C34_forall_inst_partial other seen alpha d k cx bs body p e ps args : let c := [TOp OOr [tNot (TBind BForall bs body); p]] in
  r_forall_inst c (map eclause ps) args = ROk tt -> (do m <- subst_new (inst_map bs args) ; subst m body) = ROk e ->
  efrag k p = true -> efrag k e = true -> polyeq p e = ROk true -> Forall (accepted other cx) ps ->
  exists n, elab_forall_inst (eq_elab seen alpha d) c ps args = ROk n /\ eclause n = c /\ accepted other cx n.
Proof.
  intros c H1 H2 H3 H4 H5 H6. apply elab_forall_inst_ok; auto. intros q bs' body' e' p' E1 E2 E3 _. subst q. unfold c in E1. injection E1 as <- <- <-. rewrite H2 in E3. injection E3 as <-.
  apply (poly_equality other seen alpha d k), poly_sym. repeat split; auto.
Qed.
Print Assumptions C34_forall_inst_partial.

(** Accepted ite_intro steps; the whole clause is in the fragment. *)
Theorem C34_ite_intro_partial other seen d k cx c ps args : r_ite_intro c (map eclause ps) args = ROk tt -> forallb (efrag k) c = true -> Forall (accepted other cx) ps ->
  exists n, elab_ite_intro (fun _ => pelab seen d) c ps args = ROk n /\ eclause n = c /\ accepted other cx n.
Proof. intros H1 H2 H3. exact (elab_ite_intro_ok other k seen d cx c ps args H2 H1 H3). Qed.
Print Assumptions C34_ite_intro_partial.

(** Accepted bfun_elim steps; the result [e] that the rule computes and the literal [g] of the clause are in the fragment. *)
Theorem C34_bfun_elim_partial other seen alpha d k cx psi e b g n args : eclause n = [psi] -> bfun_term psi = ROk (e, b) -> r_bfun_elim [g] [[psi]] args = ROk tt ->
  efrag k e = true -> efrag k g = true -> accepted other cx n ->
  exists n', elab_bfun_elim (eq_elab seen alpha d) [g] [n] args = ROk n' /\ eclause n' = [g] /\ accepted other cx n'.
Proof.
  intros H1 H2 H3 H4 H5 H6. destruct (polyeq_step_ok other seen alpha d k cx [g] [n] args "bfun_elim") as (n' & E & H).
  - eapply PF_bfun_elim; eauto; cbn [map]; rewrite H1; auto.
  - auto.
  - exists n'. split; [|exact H]. unfold polyeq_step in E. cbn [String.eqb Ascii.eqb Bool.eqb] in E. unfold unwrapped in E. destruct (elab_bfun_elim _ _ _ _); congruence.
Qed.
Print Assumptions C34_bfun_elim_partial.

(** The pass over a whole proof (a tree, without subproof steps and assumptions): if the steps are of these kinds, or of rules that the pass leaves alone and accepted
    in elaborated mode, then the pass does not panic, and its result is accepted in elaborated mode and has the same conclusion.
    Missing for C34: alpha-equivalent terms, terms outside of the fragment (see the refutations here and in P_ElabPolyeq.v). *)
Theorem C34_polyeq_pass_partial other seen alpha d k cx n : polyeq_fits_all other k cx n ->
  exists n', polyeq_pass (eq_elab seen alpha d) cx n = ROk n' /\ eclause n' = eclause n /\ accepted other cx n'.
Proof. intros H. exact (polyeq_pass_ok other seen alpha d k n cx H). Qed.
Print Assumptions C34_polyeq_pass_partial.

(** ** Example: one step of each kind, all with flipped equalities, and a step of another rule on top *)
Definition no_alpha : term -> term -> outcome enode := fun _ _ => RPanic.
Definition xcx : list (list anchor) := [[AAssign ("x", sU) (vU "a")]].
Definition t_refl : term := tEq (TOp ONot [tEq (vU "x") (vU "b")]) (TOp ONot [ba]).
Definition s_refl : enode := EStep [t_refl] "refl" [] [].
Definition t_forall : term := TOp OOr [tNot (TBind BForall [("y", sU)] (tEq (vU "y") (vU "b"))); ba].
Definition s_forall : enode := EStep [t_forall] "forall_inst" [] [vU "a"].
Definition ite_ab : term := TOp OIte [vB "p"; vU "a"; vU "b"].
Definition t_ite : term := let root := tEq ite_ab (vU "c") in tEq root (TOp OAnd [tEq (vU "c") ite_ab; TOp OIte [vB "p"; tEq (vU "a") ite_ab; tEq ite_ab (vU "b")]]).
Definition s_ite : enode := EStep [t_ite] "ite_intro" [] [].
Definition t_psi : term := TBind BForall [("q", SBool)] (TOp OOr [vB "q"; ab]).
Definition t_bfun : term := TOp OAnd [TOp OOr [tFalse; ab]; TOp OOr [tTrue; ba]].
Definition s_bfun : enode := EStep [t_bfun] "bfun_elim" [EPrem [t_psi]] [].
Definition s_all : enode := EStep [TOp OAnd [t_refl; t_forall; t_ite; t_bfun]] "and_intro" [s_refl; s_forall; s_ite; s_bfun] [].
Example pass_fits other : polyeq_fits_all other true xcx s_all.
Proof.
  split; [|split; [|split; [|split; [|split]]]].
  - apply PF_other; [reflexivity|]. apply (run_plain other "and_intro" r_and_intro); [cbn; tauto|]. vm_compute. reflexivity.
  - split; [|exact Logic.I]. destruct (refl_pair (fresh_stack xcx) [t_refl]) as [[[x y] st]| |] eqn:E; [|vm_compute in E; discriminate|vm_compute in E; discriminate].
    pose proof E as E'. vm_compute in E'. injection E' as E1 E2 E3.
    eapply PF_refl; [reflexivity| |exact E|].
    + unfold applied. do 3 eexists. split; [vm_compute; reflexivity|]. split; vm_compute; reflexivity.
    + subst x y. repeat split; vm_compute; reflexivity.
  - split; [|exact Logic.I]. eapply PF_forall_inst; [reflexivity|vm_compute; reflexivity|vm_compute; reflexivity|]. repeat split; vm_compute; reflexivity.
  - split; [|exact Logic.I]. apply PF_ite_intro; vm_compute; reflexivity.
  - split; [|split; exact Logic.I]. eapply PF_bfun_elim; try reflexivity; vm_compute; reflexivity.
  - exact Logic.I.
Qed.
Definition rule_of (n : enode) : string := match n with EPrem _ => "" | EStep _ r _ _ => r | ESub _ _ r _ _ _ => r end.
Example pass_changes : match polyeq_pass (eq_elab un no_alpha 0) xcx s_all with ROk (EStep _ _ ps _) => map rule_of ps | _ => [] end = ["trans"; "resolution"; "trans"; "resolution"].
Proof. vm_compute. reflexivity. Qed.

(** ** Refutations: accepted steps for which the pass panics *)
(** a flipped equality below a choice term *)
Definition ch (t : term) : term := TBind BChoice [("x", sU)] t.
Theorem C34_refl_choice_refuted : exists c, r_refl (mkRA c [] [] [] None []) = ROk tt /\
  forall seen alpha d, polyeq_step (eq_elab seen alpha d) [] c "refl" [] [] = RPanic.
Proof. exists [tEq (ch ab) (ch ba)]. split; [vm_compute; reflexivity|]. intros seen alpha d. vm_compute. reflexivity. Qed.
Print Assumptions C34_refl_choice_refuted.
(** an instance with a flipped equality below a choice term *)
Theorem C34_forall_inst_choice_refuted : exists c args, r_forall_inst c [] args = ROk tt /\
  forall seen alpha d, polyeq_step (eq_elab seen alpha d) [] c "forall_inst" [] args = RPanic.
Proof.
  exists [TOp OOr [tNot (TBind BForall [("y", sU)] (tEq (vU "y") (ch ab))); tEq (vU "c") (ch ba)]], [vU "c"]. split; [vm_compute; reflexivity|]. intros seen alpha d. vm_compute. reflexivity.
Qed.
Print Assumptions C34_forall_inst_choice_refuted.
