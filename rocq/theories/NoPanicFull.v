(** The cutting planes rules and RARE rules do not panic, outside of stated cases. *)
From Coq Require Import List String ZArith NArith QArith Bool Arith Lia.
From Verif Require Import Base Term Field Sem Sorting Rules Utils Num Subst R_CP R_Rare NoPanic NoPanicCtx NoPanicRules.
Import ListNotations.
Local Open Scope nat_scope.

Lemma np_pb_entries t : pb_entries t <> RPanic.
Proof. unfold pb_entries. assert (H : forall x, pb_entry x <> RPanic) by (intros x; unfold pb_entry; np; apply np_integer). np; apply H. Qed.
Lemma np_unwrap_pb show t : unwrap_pb show t <> RPanic.
Proof. unfold unwrap_pb, pb_ineq. np; try apply np_integer; apply np_pb_entries. Qed.
Lemma np_same_keys a b : same_keys a b <> RPanic.
Proof. unfold same_keys, subset_keys. np. Qed.
Lemma np_match_coeffs f a b : match_coeffs f a b <> RPanic.
Proof. unfold match_coeffs. np. Qed.
Ltac np_cp := np; first [apply np_integer|apply np_unwrap_pb|apply np_same_keys|apply np_match_coeffs|auto].
Lemma cp_addition_safe show c ps args : r_cp_addition show c ps args <> RPanic.
Proof. unfold r_cp_addition, first_lit. np_cp. Qed.
Lemma cp_multiplication_safe show c ps args : r_cp_multiplication show c ps args <> RPanic.
Proof. unfold r_cp_multiplication, first_lit. np_cp. Qed.
(** the premise has a literal *)
Lemma cp_division_safe show c p ps args : p <> [] -> r_cp_division show c (p :: ps) args <> RPanic.
Proof. intros H. destruct p as [|x p]; [congruence|]. unfold r_cp_division, first_lit. np_cp. Qed.
Lemma cp_division_prems show c args : r_cp_division show c [] args <> RPanic.
Proof. discriminate. Qed.
Lemma cp_saturation_safe show c p ps args : p <> [] -> r_cp_saturation show c (p :: ps) args <> RPanic.
Proof. intros H. destruct p as [|x p]; [congruence|]. unfold r_cp_saturation, first_lit. np_cp. Qed.
Lemma cp_literal_safe c ps args : c <> [] -> r_cp_literal c ps args <> RPanic.
Proof. intros H. destruct c as [|x c]; [congruence|]. unfold r_cp_literal. np_cp. Qed.

(** ** RARE *)
(** the names used by a rule are declared, and its terms contain no [let] *)
Definition rare_fine (r : rare_rule) : bool :=
  forallb (fun x => match param_find (rr_params r) x with Some _ => true | None => false end) (rr_args r)
  && forallb no_let (rr_concl r :: rr_prems r).
Definition rare_all_fine (rules : rare_rules) : bool := forallb (fun p => rare_fine (snd p)) rules.
Lemma rare_find_fine rules name r : rare_all_fine rules = true -> rare_find rules name = Some r -> rare_fine r = true.
Proof.
  induction rules as [|[n q] l IH]; [discriminate|]. cbn [rare_all_fine forallb rare_find snd]. intros H E. apply andb_true_iff in H.
  destruct (list_eqb N.eqb name n); [injection E as <-; tauto|apply IH; tauto].
Qed.
Lemma np_rare_map ps l : forall m, forallb (fun x => match param_find ps x with Some _ => true | None => false end) (map fst l) = true -> rare_map ps l m <> RPanic.
Proof.
  induction l as [|[x t] l IH]; intros m H; cbn [rare_map]; [discriminate|]. cbn [map fst forallb] in H. apply andb_true_iff in H. destruct H as [H1 H2].
  destruct (param_find ps x); [|discriminate]. cbn [unwrap obind]. apply IH. exact H2.
Qed.
Lemma np_rewrite_meta t : rewrite_meta t <> RPanic.
Proof. destruct (rewrite_meta_total t) as [t' ->]. discriminate. Qed.
Lemma np_rare_prems ps : forall rps S, forallb no_let rps = true -> List.length rps = List.length ps -> rare_prems S rps ps <> RPanic.
Proof.
  induction ps as [|p ps IH]; intros rps S H Hl; [destruct rps; discriminate|]. destruct rps as [|rp rps]; [discriminate Hl|]. cbn [rare_prems]. apply np_bind; [apply np_premise|]. intros t _.
  cbn [forallb] in H. apply andb_true_iff in H. destruct H as [H1 H2].
  destruct (sub_apply_total S rp H1) as (u & S1 & ok & E). rewrite E. cbn [obind]. apply np_bind; [apply np_rewrite_meta|]. intros v _.
  apply np_bind; [apply np_teq|]. intros _ _. apply IH; auto.
Qed.
Lemma rare_safe rules c ps args : rare_all_fine rules = true -> r_rare rules c ps args <> RPanic.
Proof.
  intros Hr. unfold r_rare. destruct args as [|[[]| | | | | | |] ts]; try discriminate. apply np_bind; [apply np_ok_or|]. intros r Hf.
  assert (Hfine : rare_fine r = true). { destruct (rare_find rules s) eqn:E; [|discriminate]. injection Hf as <-. eapply rare_find_fine; eauto. }
  unfold rare_fine in Hfine. apply andb_true_iff in Hfine. destruct Hfine as [F1 F2]. cbn [forallb] in F2. apply andb_true_iff in F2. destruct F2 as [F2 F3].
  apply np_bind; [apply np_rassert|]. intros _ _. apply np_bind; [apply np_rassert|]. intros u1 Hc. apply rassert_ok in Hc. apply Nat.eqb_eq in Hc.
  destruct c as [|x [|? ?]]; try discriminate.
  apply np_bind.
  { apply np_rare_map. apply forallb_forall. intros y Hy. apply in_map_iff in Hy. destruct Hy as [[a b] [<- Hy]]. apply in_rev in Hy. apply in_combine_l in Hy.
    rewrite forallb_forall in F1. apply F1. exact Hy. }
  intros m _. apply np_bind; [apply np_rassert|]. intros u2 Hp. apply rassert_ok in Hp. apply Nat.eqb_eq in Hp.
  apply np_bind; [apply np_subst_new|]. intros m' _. apply np_bind; [apply np_rare_prems; auto|]. intros S1 _.
  destruct (sub_apply_total S1 (rr_concl r) F2) as (got & S2 & ok & E). rewrite E. cbn [obind].
  apply np_bind; [np; apply np_rewrite_meta|]. intros _ _. apply np_bind; [apply np_rewrite_meta|]. intros v _. cbn [idx nth_error unwrap obind]. apply np_teq.
Qed.
