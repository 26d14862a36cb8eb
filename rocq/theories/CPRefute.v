(** Unsound steps accepted by the cutting planes rules. *)
From Coq Require Import List String Ascii ZArith QArith Bool Arith Lia Field.
From Verif Require Import Base Term Field Sem Sorting Rules Refute Utils Num R_LA R_CP CPSound BinderSound.
Import ListNotations.
Local Open Scope string_scope.
Local Open Scope Z_scope.

Definition xi := TVar "x" SInt.
Definition yi := TVar "y" SInt.
(** the product of c and t is at least k *)
Definition ge1 (c : Z) (t : term) (k : Z) : term := TOp OGe [TOp OMult [tInt c; t]; tInt k].

Section H.
  Context {I : interp}.
  Add Field FCPR : (o_th (iF I)).
  Lemma ge1_holds (E : env I) c t z k : nval E t = inj z -> holds E (ge1 c t k) = (k <=? c * z).
  Proof.
    intros H. unfold holds, ge1. cbn [eval map eval_op truth chain]. rewrite andb_true_r. cbn [num fold_left map].
    fold (nval E t). rewrite H. change (eval (tInt c) E) with (@vint I c). change (eval (tInt k) E) with (@vint I k). cbn [num vint].
    rewrite <- (inj_leb (iF I)). f_equal. rewrite inj_mul. ring.
  Qed.
End H.
Lemma envx (I : interp) x : exists E : env I, env_ok E /\ nval E xi = inj x.
Proof. destruct (env_with (I := I) "x" SInt (vint x) (dom_vint x)) as [E [HE Hx]]. exists E. split; auto. unfold nval, xi. cbn [eval]. rewrite Hx. reflexivity. Qed.
Lemma envxy (I : interp) x y : exists E : env I, env_ok E /\ nval E xi = inj x /\ nval E yi = inj y.
Proof.
  destruct (env_with2 (I := I) "x" SInt (vint x) "y" SInt (vint y) (dom_vint x) (dom_vint y)) as [E [HE [Hx Hy]]]; [discriminate|].
  exists E. split; auto. unfold nval, xi, yi. cbn [eval]. rewrite Hx, Hy. auto.
Qed.
Lemma tilde_neq k : String.eqb (tilde k) k = false.
Proof. apply String.eqb_neq. intros H. apply (f_equal String.length) in H. cbn in H. lia. Qed.
Lemma unwrap_ge1 show c k : unwrap_pb show (ge1 c xi k) = ROk ([(show xi, c)], k).
Proof. reflexivity. Qed.
Ltac cpred :=
  unfold first_lit, idx, unwrap; cbn [nth_error obind];
  repeat match goal with |- context [len_is ?l ?n] => change (len_is l n) with (@ROk unit tt); cbn [obind] end;
  rewrite ?unwrap_ge1; cbn [obind fst snd].
(** A coefficient of the conclusion that is 0 is not compared: x >= 1 and x >= 1 give 0 x >= 2. *)
Lemma cp_addition_accepts show : r_cp_addition show [ge1 0 xi 2] [[ge1 1 xi 1]; [ge1 1 xi 1]] [] = ROk tt.
Proof.
  unfold r_cp_addition. cpred.
  generalize (show xi). intros kx. unfold add_pbsums. cbn [fold_left fst snd]. unfold pget, pins. cbn [im_get im_insert]. rewrite String.eqb_refl.
  unfold reduce_pbsum. cbn [map fst fold_left]. unfold reduce_step. cbn [fst snd]. unfold pget. cbn [im_get].
  rewrite ?String.eqb_refl, ?tilde_neq. unfold same_keys, subset_keys, pget.
  destruct (is_negated kx); cbn [ofor obind fst snd im_get]; rewrite ?String.eqb_refl; reflexivity.
Qed.
Lemma cp_addition_refuted show : rule_refuted (r_cp_addition show).
Proof.
  exists [ge1 0 xi 2], [[ge1 1 xi 1]; [ge1 1 xi 1]], []. split; [apply cp_addition_accepts|]. split; [reflexivity|]. split; [reflexivity|].
  intros I. destruct (envx I 1) as [E [HE Hx]]. exists E. split; auto. split.
  - intros p [<-|[<-|[]]]; apply one_holds; rewrite (ge1_holds E _ _ _ _ Hx); reflexivity.
  - intros H. apply one_holds in H. rewrite (ge1_holds E _ _ _ _ Hx) in H. discriminate.
Qed.
(** a negative factor: x >= 0 gives -x >= 0 *)
Lemma cp_multiplication_refuted show : rule_refuted (r_cp_multiplication show).
Proof.
  exists [ge1 (-1) xi 0], [[ge1 1 xi 0]], [tInt (-1)]. split.
  { unfold r_cp_multiplication. cpred. change (as_integer_err (tInt (-1))) with (ROk (-1)). cbn [obind]. generalize (show xi). intros kx.
    unfold same_keys, subset_keys, match_coeffs, pget. cbn [ofor obind fst snd im_get]. rewrite ?String.eqb_refl. reflexivity. }
  split; [reflexivity|]. split; [reflexivity|].
  intros I. destruct (envx I 1) as [E [HE Hx]]. exists E. split; auto. split.
  - intros p [<-|[]]; apply one_holds; rewrite (ge1_holds E _ _ _ _ Hx); reflexivity.
  - intros H. apply one_holds in H. rewrite (ge1_holds E _ _ _ _ Hx) in H. discriminate.
Qed.
(** Only the first literal of the premise is looked at.  The variables are 0 or 1 in the counterexample. *)
Definition refuted01 (r : rule) : Prop :=
  exists c ps args,
    r c ps args = ROk tt /\ clause_wt c = true /\ forallb clause_wt ps = true /\
    forall I : interp, exists E : env I,
      env_ok E /\ zero_one E (cp_terms c ps) /\ (forall p, In p ps -> clause_holds E p) /\ ~ clause_holds E c.
Lemma refuted01_refuted r : refuted01 r -> rule_refuted r.
Proof. intros [c [ps [args [H1 [H2 [H3 H4]]]]]]. exists c, ps, args. do 3 (split; auto). intros I. destruct (H4 I) as [E [? [? ?]]]. eauto. Qed.
Lemma first_only r args : r [ge1 1 xi 1] [[ge1 1 xi 1; ge1 1 yi 1]] args = ROk tt -> refuted01 r.
Proof.
  intros H. eexists _, _, _. split; [exact H|]. split; [reflexivity|]. split; [reflexivity|].
  intros I. destruct (envxy I 0 1) as [E [HE [Hx Hy]]]. exists E. split; auto. split; [|split].
  - intros a Ha. cbn in Ha. destruct Ha as [<-|[<-|[<-|[]]]]; fold xi yi; rewrite ?Hx, ?Hy, ?inj_0, ?inj_1; auto.
  - intros p [<-|[]]. exists (ge1 1 yi 1). split; [right; left; auto|]. rewrite (ge1_holds E _ _ _ _ Hy); reflexivity.
  - intros Hc. apply one_holds in Hc. rewrite (ge1_holds E _ _ _ _ Hx) in Hc. discriminate.
Qed.
Lemma cp_division_refuted01 show : refuted01 (r_cp_division show).
Proof.
  apply (first_only _ [tInt 1]). unfold r_cp_division. cpred. change (as_integer_err (tInt 1)) with (ROk 1). cbn [obind]. cpred. generalize (show xi). intros kx.
  unfold same_keys, subset_keys, match_coeffs, pget. cbn [ofor obind fst snd im_get]. rewrite ?String.eqb_refl. reflexivity.
Qed.
Lemma cp_saturation_refuted01 show : refuted01 (r_cp_saturation show).
Proof.
  apply (first_only _ []). unfold r_cp_saturation. cpred. generalize (show xi). intros kx.
  unfold same_keys, subset_keys, match_coeffs, pget. cbn [ofor obind fst snd im_get]. rewrite ?String.eqb_refl. reflexivity.
Qed.
(** Saturation with a negative constant: x + y >= -1 gives -x - y >= -1, with a premise of one literal and variables that are 0 or 1. *)
Definition ge2 (c d k : Z) : term := TOp OGe [TOp OAdd [TOp OMult [tInt c; xi]; TOp OMult [tInt d; yi]]; tInt k].
Lemma cp_saturation_refuted_sign show : show xi <> show yi ->
  exists p c, r_cp_saturation show [c] [[p]] [] = ROk tt /\ bool_term p = true /\ bool_term c = true /\
  forall I : interp, exists E : env I, env_ok E /\ zero_one E [c; p] /\ holds E p = true /\ holds E c = false.
Proof.
  intros Hs. exists (ge2 1 1 (-1)), (ge2 (-1) (-1) (-1)). split.
  { assert (U : forall c d k, unwrap_pb show (ge2 c d k) = ROk ([(show xi, c); (show yi, d)], k)).
    { intros c d k. unfold unwrap_pb. change (pb_ineq (ge2 c d k)) with (@ROk (list (lit * Z) * Z) ([(false, xi, c); (false, yi, d)], k)).
      unfold hash_of. cbn. unfold key. cbn. destruct (String.eqb_spec (show yi) (show xi)); [congruence|]. reflexivity. }
    unfold r_cp_saturation. cpred. rewrite !U. cbn [obind fst snd].
    unfold same_keys, subset_keys, match_coeffs, pget. cbn [ofor obind fst snd im_get]. rewrite ?String.eqb_refl.
    destruct (String.eqb_spec (show yi) (show xi)); [congruence|]. reflexivity. }
  split; [reflexivity|]. split; [reflexivity|].
  intros I. destruct (envxy I 1 1) as [E [HE [Hx Hy]]]. exists E. split; auto. split.
  - intros a Ha. cbn in Ha. destruct Ha as [<-|[<-|[<-|[<-|[]]]]]; fold xi yi; rewrite ?Hx, ?Hy, ?inj_1; auto.
  - assert (V : forall c d k, holds E (ge2 c d k) = (k <=? c + d)).
    { intros c d k. rewrite <- (inj_leb (iF I)). unfold holds, ge2. cbn [eval map eval_op truth chain]. rewrite andb_true_r.
      cbn [num fold_left map]. change (num (eval xi E)) with (nval E xi). change (num (eval yi E)) with (nval E yi). rewrite Hx, Hy.
      change (eval (tInt c) E) with (@vint I c). change (eval (tInt d) E) with (@vint I d). change (eval (tInt k) E) with (@vint I k). cbn [num vint].
      f_equal. rewrite inj_add, inj_1. rewrite !(Radd_0_l (F_R (o_th (iF I)))), !(Rmul_1_l (F_R (o_th (iF I)))).
      rewrite !(Rmul_comm (F_R (o_th (iF I))) _ o1), !(Rmul_1_l (F_R (o_th (iF I)))). reflexivity. }
    rewrite !V. auto.
Qed.
(** any term may be the literal *)
Lemma cp_literal_refuted : rule_refuted r_cp_literal.
Proof.
  exists [TOp OGe [xi; tInt 0]], [], [xi]. do 3 (split; [reflexivity|]).
  intros I. destruct (envx I (-1)) as [E [HE Hx]]. exists E. split; auto. split; [intros p []|].
  intros H. apply one_holds in H. unfold holds in H. cbn [eval map eval_op truth chain] in H. rewrite andb_true_r in H.
  change (num (eval xi E)) with (nval E xi) in H. rewrite Hx in H.
  change (num (eval (tInt 0) E)) with (inj 0 : iF I) in H. rewrite inj_leb in H. discriminate.
Qed.
(** cp_normalize: a unary minus is dropped, and a double negation is taken for a single one *)
Definition minus_x := TOp OGe [TOp OSub [xi]; tInt 0].
Definition x_ge0 := TOp OGe [xi; tInt 0].
Lemma minus_model (I : interp) : exists E : env I, env_ok E /\ holds E x_ge0 = true /\ holds E minus_x = false.
Proof.
  destruct (envx I 1) as [E [HE Hx]]. exists E. split; auto.
  unfold holds, minus_x, x_ge0. cbn [eval map eval_op truth chain num]. change (num (eval xi E)) with (nval E xi).
  rewrite Hx. cbn [num]. change (num (vint 0)) with (inj 0 : iF I). change (num (eval (tInt 0) E)) with (inj 0 : iF I). rewrite <- inj_opp, !inj_leb. auto.
Qed.
Lemma cp_normalize_refuted_minus : rule_refuted r_cp_normalize.
Proof.
  exists [tEq minus_x x_ge0], [], []. do 3 (split; [vm_compute; reflexivity|]).
  intros I. destruct (minus_model I) as [E [HE [H1 H2]]]. exists E. split; auto. split; [intros p []|].
  intros H. apply one_holds in H. rewrite holds_eq_bool in H by (reflexivity || auto). rewrite H1, H2 in H. discriminate.
Qed.
Definition n1 (t : term) := TOp OSub [tInt 1; t].
Lemma cp_normalize_refuted_dneg : exists c, r_cp_normalize c [] [] = ROk tt /\ clause_wt c = true /\
  (forall a b, c = [tEq a b] -> sub_ok a = true /\ sub_ok b = true) /\
  forall I : interp, exists E : env I, env_ok E /\ zero_one E [ge1 1 xi 1] /\ ~ clause_holds E c.
Proof.
  exists [tEq (ge1 1 (n1 xi) 1) (ge1 1 (n1 (n1 xi)) 1)]. do 2 (split; [vm_compute; reflexivity|]). split.
  { intros a b H. injection H as <- <-. auto. }
  intros I. destruct (envx I 1) as [E [HE Hx]]. exists E. split; auto. split.
  { intros a Ha. cbn in Ha. destruct Ha as [<-|[]]. fold xi. rewrite Hx, inj_1. auto. }
  assert (N : forall t z, nval E t = inj z -> nval E (n1 t) = inj (1 - z)).
  { intros t z Ht. rewrite (neg_lit_val E (n1 t) t eq_refl), Ht, inj_sub, inj_1. auto. }
  intros H. apply one_holds in H. rewrite holds_eq_bool in H by (reflexivity || auto). apply Bool.eqb_prop in H. revert H.
  rewrite (ge1_holds E _ _ _ _ (N _ _ Hx)), (ge1_holds E _ _ _ _ (N _ _ (N _ _ Hx))). discriminate.
Qed.
