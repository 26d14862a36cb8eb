(** Inputs on which substitution and free variables go wrong. *)
From Coq Require Import List String Ascii ZArith QArith Bool Arith Lia.
From Verif Require Import Base Term Field Sem Sorting Rules Refute Utils R_Simp Subst SubstSound SubstClean.
Import ListNotations.
Local Open Scope string_scope.

Definition vi (x : string) : term := TVar x SInt.
Definition vb (x : string) : term := TVar x SBool.
Definition eq2 (a b : term) : term := TOp OEquals [a; b].

(** (a) the fresh name is already free in the body: {x := y} turns (forall ((y Int)) (= y' y)) into
    (forall ((y' Int)) (= y' y')) *)
Definition cap_t : term := TBind BForall [("y", SInt)] (eq2 (vi "y'") (vi "y")).
Definition cap_m : smap := [(vi "x", vi "y")].
Lemma cap_run : subst cap_m cap_t = ROk (TBind BForall [("y'", SInt)] (eq2 (vi "y'") (vi "y'"))).
Proof. reflexivity. Qed.
Lemma vint_neq (I : interp) : (vint 0 : value I) <> vint 1.
Proof. intros H. apply (f_equal (veqb (vint 0))) in H. cbv [veqb veqb_ vint] in H. rewrite !inj_eqb in H. discriminate. Qed.
Lemma dom_vint (I : interp) z : idom I SInt (vint z) = true.
Proof. apply dom_int. eauto. Qed.
Lemma all_int_false (I : interp) (E : env I) y (f : env I -> bool) z : f (upd E y SInt (vint z)) = false -> eval_all [(y, SInt)] f E = false.
Proof.
  intros H. destruct (eval_all [(y, SInt)] f E) eqn:H1; [|reflexivity]. rewrite eval_all_true in H1.
  specialize (H1 [vint z]). rewrite <- H1, <- H; [reflexivity|]. repeat constructor. apply dom_vint.
Qed.
Theorem subst_capture_refuted : subst_new cap_m = ROk cap_m /\ wt cap_t = true /\ no_let cap_t = true /\
  exists t', subst cap_m cap_t = ROk t' /\ forall (I : interp) (E : env I), holds E t' = true /\ holds (sub_env cap_m E) cap_t = false.
Proof.
  split; [reflexivity|]. split; [reflexivity|]. split; [reflexivity|]. eexists. split; [apply cap_run|]. intros I E. split.
  - cbn [holds eval eval_bind truth]. unfold holds. cbn [eval eval_bind truth]. apply eval_all_true. intros vals Hd. cbn. rewrite veqb_refl. reflexivity.
  - unfold holds. cbn [cap_t eval eval_bind truth].
    set (E1 := sub_env cap_m E).
    assert (Hc : forall z, truth (eval (eq2 (vi "y'") (vi "y")) (upd E1 "y" SInt (vint z))) = veqb (E1 "y'" SInt) (vint z)).
    { intros z. cbn. rewrite andb_true_r. reflexivity. }
    destruct (veqb (E1 "y'" SInt) (vint 0)) eqn:Ez.
    + apply (all_int_false I E1 "y" _ 1). rewrite Hc. apply veqb_eq in Ez. rewrite Ez. apply not_true_iff_false. intros H. apply veqb_eq in H. apply (vint_neq I H).
    + apply (all_int_false I E1 "y" _ 0). rewrite Hc. exact Ez.
Qed.

(** (b) the fresh name is bound by the same binder: {x := y} turns (forall ((y' Int) (y Int)) (= y' y)) into
    (forall ((y' Int) (y' Int)) (= y' y')) *)
Definition mrg_t : term := TBind BForall [("y'", SInt); ("y", SInt)] (eq2 (vi "y'") (vi "y")).
Lemma mrg_run : subst cap_m mrg_t = ROk (TBind BForall [("y'", SInt); ("y'", SInt)] (eq2 (vi "y'") (vi "y'"))).
Proof. reflexivity. Qed.
Theorem subst_merge_refuted : wt mrg_t = true /\ no_let mrg_t = true /\ (forall x s, free_in x s mrg_t = false) /\
  exists t', subst cap_m mrg_t = ROk t' /\ forall (I : interp) (E : env I), holds E t' = true /\ holds (sub_env cap_m E) mrg_t = false.
Proof.
  split; [reflexivity|]. split; [reflexivity|]. split.
  { intros x s. cbn. unfold svar_eqb. cbn [fst snd]. destruct (String.eqb x "y'"), (String.eqb x "y"), (sort_eqb s SInt); reflexivity. }
  eexists. split; [apply mrg_run|]. intros I E. split.
  - unfold holds. cbn [eval eval_bind truth]. apply eval_all_true. intros vals Hd. cbn. rewrite veqb_refl. reflexivity.
  - unfold holds. cbn [mrg_t eval eval_bind truth]. set (E1 := sub_env cap_m E). apply not_true_iff_false. rewrite eval_all_true.
    intros H. specialize (H [vint 0; vint 1]). assert (Hd : Forall2 (fun s v => idom I s v = true) (map snd [("y'", SInt); ("y", SInt)]) [vint 0; vint 1]) by (repeat constructor; apply dom_vint).
    specialize (H Hd). 
    assert (H' : veqb (vint 0 : value I) (vint 1) && true = true) by exact H. rewrite andb_true_r in H'. apply veqb_eq in H'. apply (vint_neq I H').
Qed.

(** (c) the values of a [let] are not substituted: {x := true} leaves the let in
    (or (forall ((w Bool)) w) (let ((z x)) z)) alone *)
Definition let_t : term := TOp OOr [TBind BForall [("w", SBool)] (vb "w"); TLet [("z", vb "x")] (vb "z")].
Definition let_m : smap := [(vb "x", TOp OTrue [])].
Lemma let_run : subst let_m let_t = ROk let_t.
Proof. reflexivity. Qed.
Theorem subst_let_refuted : subst_new let_m = ROk let_m /\ wt let_t = true /\
  exists t', subst let_m let_t = ROk t' /\ forall I : interp, exists E : env I, env_ok E /\
    holds E t' = false /\ holds (sub_env let_m E) let_t = true.
Proof.
  split; [reflexivity|]. split; [reflexivity|]. eexists. split; [apply let_run|]. intros I.
  destruct (env_with (I := I) "x" SBool (VB false)) as [E [HE Hx]]; [reflexivity|]. exists E. split; [auto|].
  assert (HA : forall E : env I, eval_all [("w", SBool)] (fun E' => truth (E' "w" SBool)) E = false).
  { intros E0. apply not_true_iff_false. rewrite eval_all_true. intros H. specialize (H [VB false]).
    assert (Hd : Forall2 (fun s v => idom I s v = true) (map snd [("w", SBool)]) [VB false]) by (repeat constructor). specialize (H Hd). discriminate. }
  split; unfold holds; cbn [let_t eval eval_bind eval_op map existsb truth vb]; rewrite HA; cbn; [rewrite Hx; reflexivity|reflexivity].
Qed.
(** (d) and a [let] reached before any quantifier makes it panic *)
Theorem subst_let_panics : exists m t, subst_new m = ROk m /\ wt t = true /\ subst m t = RPanic.
Proof. exists let_m, (TLet [("z", vb "x")] (vb "z")). repeat split. Qed.

(** C29: variables that occur only in the value of a [let] are not found *)
Theorem fvars_refuted : exists t x s, wt t = true /\ ~ In (x, s) (fvars t) /\
  forall I : interp, exists E E' : env I, env_ok E /\ env_ok E' /\ (forall y s', (y, s') <> (x, s) -> E y s' = E' y s') /\ holds E t <> holds E' t.
Proof.
  exists (TLet [("z", vb "x")] (vb "z")), "x", SBool. split; [reflexivity|]. split; [intros []|]. intros I.
  destruct (env_exists (I := I)) as [E HE]. exists (upd E "x" SBool (VB true)), (upd E "x" SBool (VB false)).
  split; [apply env_ok_upd; auto|]. split; [apply env_ok_upd; auto|]. split; [intros y s Hn; rewrite !upd_other; auto|]. cbn. discriminate.
Qed.
