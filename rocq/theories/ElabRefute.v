(** Accepted steps whose elaboration is rejected or panics. *)
From Coq Require Import List String ZArith Bool Arith Lia Permutation.
From Verif Require Import Base Term Sem Rules R_Taut R_Claus R_Eq R_Resolution R_Extras R_ResExact Utils Checker R_Binder R_Simp Table Elab ElabSound ElabCong ElabFlip ElabTrans ElabCongr ElabRes.
Import ListNotations.
Open Scope string_scope.
Local Open Scope nat_scope.
Local Open Scope list_scope.

(** a necessary condition of [accepted] that computes *)
Fixpoint okb (n : enode) : bool :=
  match n with
  | EPrem _ => true
  | EStep c r ps args =>
      match find (fun e : string * rule => String.eqb (fst e) r) intro_rules with
      | Some e => is_ok (snd e c (map eclause ps) args)
      | None => true
      end && forallb okb ps
  | ESub _ _ _ _ _ _ => true
  end.
Lemma accepted_okb other n : forall cx, accepted other cx n -> okb n = true.
Proof.
  revert n. fix IH 1. intros n cx. destruct n as [c|c r ps args|a c r ps args prev]; intros H; [reflexivity| |reflexivity].
  cbn [okb]. apply andb_true_iff. split.
  - destruct H as [H _]. destruct (find (fun e : string * rule => String.eqb (fst e) r) intro_rules) as [[r' f]|] eqn:Ef; [|reflexivity].
    apply find_some in Ef. destruct Ef as [Hin E]. cbn [fst] in E. apply String.eqb_eq in E. subst r'. apply (run_plain other r f _ Hin) in H.
    cbn [ra_concl ra_prems ra_args snd] in *. rewrite H. reflexivity.
  - destruct H as [_ H]. induction ps as [|p ps IHp]; [reflexivity|]. destruct H as [H1 H2]. cbn [forallb]. rewrite (IH p cx H1). cbn [andb]. apply IHp, H2.
Qed.
Lemma rejected other cx n : okb n = false -> ~ accepted other cx n.
Proof. intros H Ha. apply accepted_okb in Ha. congruence. Qed.

Definition sU : sort := SAtom "U" [].
Definition vU (x : string) : term := TVar x sU.
Definition vB (x : string) : term := TVar x SBool.
Definition ne (x y : string) : term := tNot (tEq (vU x) (vU y)).
Definition eqv_ (x y : string) : term := tEq (vU x) (vU y).

(** ** eq_transitive *)
(** the conclusion is one of the hypotheses: (not (= a b)), (not (= c d)), (= a b) *)
Definition et_extra : clause := [ne "a" "b"; ne "c" "d"; eqv_ "a" "b"].
(** the conclusion holds by reflexivity: (not (= a b)), (not (= c d)), (= a a) *)
Definition et_refl : clause := [ne "a" "b"; ne "c" "d"; eqv_ "a" "a"].
(** the chain goes there and back: (not (= b a)), (not (= a b)), (not (= a c)), (= a c) *)
Definition et_twins : clause := [ne "b" "a"; ne "a" "b"; ne "a" "c"; eqv_ "a" "c"].
(** ** eq_congruent *)
Definition fU (x y : string) : term := TApp (TVar "f" (SFun [sU; sU; sU])) [vU x; vU y].
(** (not (= a b)), (not (= b a)), (= (f a a) (f b b)) *)
Definition ec_twins : clause := [ne "a" "b"; ne "b" "a"; tEq (fU "a" "a") (fU "b" "b")].
(** (not (= b a)), (not (= a b)), (= (f a b) (f b a)) *)
Definition ec_swap : clause := [ne "b" "a"; ne "a" "b"; tEq (fU "a" "b") (fU "b" "a")].

(** the step with clause [c] is accepted by [r], and its elaboration by [e] is rejected by the checker, whatever the context *)
Definition step_rejected (r : rule) (e : clause -> list term -> outcome enode) (c : clause) : Prop :=
  r c [] [] = ROk tt /\ exists n, e c [] = ROk n /\ forall other cx, ~ accepted other cx n.
Ltac refute c e :=
  split; [vm_compute; reflexivity|];
  let n := eval vm_compute in (match e c (@nil term) with ROk n => n | _ => EPrem [] end) in
  exists n; split; [vm_compute; reflexivity|intros ? ?; apply rejected; vm_compute; reflexivity].
Theorem et_extra_rejected : step_rejected r_eq_transitive elab_eq_transitive et_extra. Proof. refute et_extra elab_eq_transitive. Qed.
Theorem et_refl_rejected : step_rejected r_eq_transitive elab_eq_transitive et_refl. Proof. refute et_refl elab_eq_transitive. Qed.
Theorem et_twins_rejected : step_rejected r_eq_transitive elab_eq_transitive et_twins. Proof. refute et_twins elab_eq_transitive. Qed.
Theorem ec_twins_rejected : step_rejected r_eq_congruent elab_eq_congruent ec_twins. Proof. refute ec_twins elab_eq_congruent. Qed.
Theorem ec_swap_rejected : step_rejected r_eq_congruent elab_eq_congruent ec_swap. Proof. refute ec_swap elab_eq_congruent. Qed.

(** ** resolution *)
Definition prems_of (ps : list clause) : list (nat * enode) := combine (seq 0 (List.length ps)) (map EPrem ps).
Definition n_ (x : string) : term := tNot (vB x).
(** what remains is [false], which the checker drops: (cl p q false), (cl (not p)), (cl (not q)) give (cl) *)
Definition rs_false : list clause := [[vB "p"; vB "q"; tFalse]; [n_ "p"]; [n_ "q"]].
(** four negations added: (cl p f), (cl (not p)) give (cl (not (not (not (not f))))) *)
Definition rs_four : list clause := [[vB "p"; vB "f"]; [n_ "p"]].
(** two negations dropped: (cl p (not (not f))), (cl (not p)) give (cl f) *)
Definition rs_drop : list clause := [[vB "p"; tNot (n_ "f")]; [n_ "p"]].
(** a premise that is not resolved upon: (cl a), (cl b), (cl (not a)) give (cl b) *)
Definition rs_idle : list clause := [[vB "a"]; [vB "b"]; [n_ "a"]].
(** a pivot used twice: (cl a b), (cl (not a) c), (cl (not a) d) give (cl b c d) *)
Definition rs_twice : list clause := [[vB "a"; vB "b"]; [n_ "a"; vB "c"]; [n_ "a"; vB "d"]].
(** a premise concluding the empty clause *)
Definition rs_empty : list clause := [[]; [vB "a"]].
(** accepted by unit propagation only *)
Definition rs_rup : list clause :=
  [[n_ "a"]; [vB "a"; vB "b"]; [n_ "b"; vB "a"; n_ "h"; vB "g"; vB "c"]; [vB "g"; vB "h"]; [n_ "g"]].
Definition res_rejected (c : clause) (ps : list (nat * enode)) : Prop :=
  r_resolution c (map eclause (map snd ps)) [] = ROk tt /\ exists n, elab_resolution "resolution" c ps [] = ROk n /\ forall other cx, ~ accepted other cx n.
Definition res_panics (c : clause) (ps : list (nat * enode)) : Prop :=
  r_resolution c (map eclause (map snd ps)) [] = ROk tt /\ elab_resolution "resolution" c ps [] = RPanic.
Ltac refute_res c ps :=
  split; [vm_compute; reflexivity|];
  let n := eval vm_compute in (match elab_resolution "resolution" c ps (@nil term) with ROk n => n | _ => EPrem [] end) in
  exists n; split; [vm_compute; reflexivity|intros ? ?; apply rejected; vm_compute; reflexivity].
Theorem rs_false_rejected : res_rejected [] (prems_of rs_false). Proof. refute_res (@nil term) (prems_of rs_false). Qed.
Theorem rs_four_rejected : res_rejected [tNot (tNot (tNot (n_ "f")))] (prems_of rs_four). Proof. refute_res [tNot (tNot (tNot (n_ "f")))] (prems_of rs_four). Qed.
Theorem rs_drop_panics : res_panics [vB "f"] (prems_of rs_drop). Proof. split; vm_compute; reflexivity. Qed.
Theorem rs_idle_rejected : res_rejected [vB "b"] (prems_of rs_idle). Proof. refute_res [vB "b"] (prems_of rs_idle). Qed.
Theorem rs_twice_rejected : res_rejected [vB "b"; vB "c"; vB "d"] (prems_of rs_twice). Proof. refute_res [vB "b"; vB "c"; vB "d"] (prems_of rs_twice). Qed.
Theorem rs_empty_rejected : res_rejected [] (prems_of rs_empty). Proof. refute_res (@nil term) (prems_of rs_empty). Qed.
Theorem rs_same_rejected : res_rejected [vB "a"] [(0, EPrem [vB "a"]); (0, EPrem [vB "a"])]. Proof. refute_res [vB "a"] [(0, EPrem [vB "a"]); (0, EPrem [vB "a"])]. Qed.
Theorem rs_rup_panics : res_panics [vB "c"] (prems_of rs_rup). Proof. split; vm_compute; reflexivity. Qed.
