(** Rules that never panic. *)
From Coq Require Import List String ZArith NArith QArith Bool Arith Lia.
From Verif Require Import Base Term Field Sem Sorting Rules Utils R_Taut R_Claus R_Resolution R_Eq R_Extras Num R_LA R_Simp.
Import ListNotations.
Local Open Scope nat_scope.

(** no argument is an integer that does not fit into 64 bits; see [as_usize] *)
Definition small (t : term) : bool := match t with TConst (CInt z) => Z.ltb z (2 ^ 64) | _ => true end.
Definition rule_safe (r : rule) : Prop :=
  forall c ps args, clause_wt c = true -> forallb clause_wt ps = true -> forallb small args = true -> r c ps args <> RPanic.

Lemma np_bind {A B} (e : outcome A) (f : A -> outcome B) : e <> RPanic -> (forall a, e = ROk a -> f a <> RPanic) -> obind e f <> RPanic.
Proof. intros H1 H2. destruct e as [a| |]; cbn [obind]; [auto|discriminate|congruence]. Qed.
Lemma np_rassert b : rassert b <> RPanic.
Proof. destruct b; discriminate. Qed.
Lemma np_teq a b : teq a b <> RPanic.
Proof. apply np_rassert. Qed.
Lemma np_ok_or {A} (o : option A) : ok_or o <> RPanic.
Proof. destruct o; discriminate. Qed.
Lemma np_len_is {A} (l : list A) n : len_is l n <> RPanic.
Proof. apply np_rassert. Qed.
Lemma np_len_ge {A} (l : list A) n : len_ge l n <> RPanic.
Proof. apply np_rassert. Qed.
Lemma np_rm_neg t : rm_neg t <> RPanic.
Proof. apply np_ok_or. Qed.
Lemma np_m_ops o t : m_ops o t <> RPanic.
Proof. apply np_ok_or. Qed.
Lemma np_m_op1 o t : m_op1 o t <> RPanic.
Proof. apply np_ok_or. Qed.
Lemma np_m_op2 o t : m_op2 o t <> RPanic.
Proof. apply np_ok_or. Qed.
Lemma np_m_op3 o t : m_op3 o t <> RPanic.
Proof. apply np_ok_or. Qed.
Lemma np_m_bind b t : m_bind b t <> RPanic.
Proof. apply np_ok_or. Qed.
Lemma np_premise p : premise_term p <> RPanic.
Proof. destruct p as [|a [|? ?]]; discriminate. Qed.
Lemma np_usize t : small t = true -> as_usize t <> RPanic.
Proof.
  unfold small, as_usize. destruct t as [[z| | |]| | | | | | |]; intros H; try discriminate. rewrite H. destruct (Z.leb 0 z); discriminate.
Qed.
Lemma np_ofor {A B} (f : A -> outcome B) l : (forall a, In a l -> f a <> RPanic) -> ofor f l <> RPanic.
Proof.
  induction l as [|a l IH]; intros H; cbn [ofor]; [discriminate|]. apply np_bind; [apply H; left; auto|]. intros b _. apply IH. intros x Hx. apply H; right; auto.
Qed.
Lemma np_omap {A B} (f : A -> outcome B) l : (forall a, In a l -> f a <> RPanic) -> omap f l <> RPanic.
Proof.
  induction l as [|a l IH]; intros H; cbn [omap]; [discriminate|]. apply np_bind; [apply H; left; auto|]. intros b _.
  apply np_bind; [apply IH; intros x Hx; apply H; right; auto|discriminate].
Qed.
Lemma np_lit n l : lit n l <> RPanic.
Proof. destruct n; [apply np_rm_neg|discriminate]. Qed.
Lemma idx_lt {A} (l : list A) n : n < List.length l -> idx l n <> RPanic.
Proof. intros H. unfold idx, unwrap. destruct (nth_error l n) eqn:E; [discriminate|]. apply nth_error_None in E. lia. Qed.

(** the lengths of lists known from checks *)
Ltac len_split H :=
  match type of H with
  | List.length ?l = 0 => apply length_zero_iff_nil in H; subst l
  | List.length ?l = S _ => destruct l as [|? l]; [discriminate H|cbn [List.length] in H; apply eq_add_S in H; len_split H]
  | _ => idtac
  end.
Ltac npstep :=
  match goal with
  | |- obind (len_is ?l ?n) _ <> RPanic =>
      apply np_bind; [apply np_len_is|let H := fresh "Hlen" in intros ? H; apply len_is_ok in H; try (len_split H)]
  | |- obind (len_ge ?l ?n) _ <> RPanic =>
      apply np_bind; [apply np_len_ge|let H := fresh "Hlen" in intros ? H; apply len_ge_ok in H]
  | |- obind (idx (_ :: _) _) _ <> RPanic => cbn [idx nth_error unwrap obind]
  | |- obind (ROk _) _ <> RPanic => cbn [obind]
  | |- obind _ _ <> RPanic => apply np_bind; [|let H := fresh "Hr" in intros ? H]
  | |- RErr <> RPanic => discriminate
  | |- ROk _ <> RPanic => discriminate
  | |- rassert _ <> RPanic => apply np_rassert
  | |- teq _ _ <> RPanic => apply np_teq
  | |- ok_or _ <> RPanic => apply np_ok_or
  | |- len_is _ _ <> RPanic => apply np_len_is
  | |- len_ge _ _ <> RPanic => apply np_len_ge
  | |- rm_neg _ <> RPanic => apply np_rm_neg
  | |- m_ops _ _ <> RPanic => apply np_m_ops
  | |- m_op1 _ _ <> RPanic => apply np_m_op1
  | |- m_op2 _ _ <> RPanic => apply np_m_op2
  | |- m_op3 _ _ <> RPanic => apply np_m_op3
  | |- m_bind _ _ <> RPanic => apply np_m_bind
  | |- premise_term _ <> RPanic => apply np_premise
  | |- lit _ _ <> RPanic => apply np_lit
  | |- as_usize _ <> RPanic => apply np_usize; try assumption
  | |- ofor _ _ <> RPanic => apply np_ofor; intros ? ?
  | |- omap _ _ <> RPanic => apply np_omap; intros ? ?
  | |- idx _ _ <> RPanic => apply idx_lt; cbn [List.length] in *; try lia
  | |- (if ?b then _ else _) <> RPanic => destruct b eqn:?
  | |- match ?x with _ => _ end <> RPanic => destruct x eqn:?
  end.
Ltac np := repeat (npstep; cbn [fst snd]; cbv beta).
Ltac np_start r := intros c ps args Hwc Hwp Hsm; unfold r.
(** small arguments, once the list of arguments is known *)
Ltac smalls :=
  repeat match goal with H : forallb small (_ :: _) = true |- _ => cbn [forallb] in H; apply andb_true_iff in H; destruct H end.

Lemma taut_safe name r : In (name, r) taut_rules -> rule_safe r.
Proof.
  unfold taut_rules. cbn [In]. intros H. repeat match type of H with _ \/ _ => destruct H as [H|H] end; [..|destruct H]; injection H as _ <-;
  intros c ps args Hwc Hwp Hsm.
  all: unfold r_true, r_false, r_not_not, r_and_pos, r_and_neg, r_or_pos, r_or_neg, r_xor_pos1, r_xor_pos2, r_xor_neg1, r_xor_neg2, r_implies_pos, r_implies_neg1, r_implies_neg2,
    r_equiv_pos1, r_equiv_pos2, r_equiv_neg1, r_equiv_neg2, r_ite_pos1, r_ite_pos2, r_ite_neg1, r_ite_neg2, r_connective_def, taut3, taut_ite.
  all: np; smalls; auto.
Qed.
Lemma taut_prem_safe name r : In (name, r) taut_prem_rules -> rule_safe r.
Proof.
  unfold taut_prem_rules. cbn [In]. intros H. repeat match type of H with _ \/ _ => destruct H as [H|H] end; [..|destruct H]; injection H as _ <-;
  intros c ps args Hwc Hwp Hsm.
  all: unfold r_equiv1, r_equiv2, r_not_equiv1, r_not_equiv2, r_ite1, r_ite2, r_not_ite1, r_not_ite2, prem2, prem_ite.
  all: np; smalls; auto.
Qed.
Lemma claus_safe name r : In (name, r) claus_rules -> rule_safe r.
Proof.
  unfold claus_rules. cbn [In]. intros H. repeat match type of H with _ \/ _ => destruct H as [H|H] end; [..|destruct H]; injection H as _ <-;
  intros c ps args Hwc Hwp Hsm.
  all: unfold r_and, r_not_or, r_or, r_not_and, r_xor1, r_xor2, r_not_xor1, r_not_xor2, r_implies, r_not_implies1, r_not_implies2, prem2.
  all: np; smalls; auto.
Qed.

Lemma np_nth {A} (l : list A) n : n < List.length l -> unwrap (nth_error l n) <> RPanic.
Proof. apply idx_lt. Qed.
Lemma np_not_eq t : not_eq t <> RPanic.
Proof. unfold not_eq. np. Qed.
Lemma np_prem_eq p : prem_eq p <> RPanic.
Proof. unfold prem_eq. np. Qed.
Lemma np_check_cong : forall fa ps ga, check_cong ps fa ga <> RPanic.
Proof.
  induction fa as [|f fa IH]; intros ps ga; cbn [check_cong]; [destruct ps; discriminate|].
  destruct ga as [|g ga]; [destruct ps; discriminate|]. destruct ps as [|p ps].
  - destruct (term_eqb f g); [apply IH|discriminate].
  - destruct (pair_is p f g); [apply IH|]. destruct (term_eqb f g); [apply IH|discriminate].
Qed.
Ltac np_eq := first [apply np_not_eq|apply np_prem_eq|apply np_check_cong|apply np_nth; lia].
Lemma eq_safe name r : In (name, r) eq_rules -> rule_safe r.
Proof.
  unfold eq_rules. cbn [In]. intros H. repeat match type of H with _ \/ _ => destruct H as [H|H] end; [..|destruct H]; injection H as _ <-;
  intros c ps args Hwc Hwp Hsm.
  all: unfold r_eq_reflexive, r_eq_transitive, r_trans, r_eq_congruent, r_eq_congruent_pred, r_cong, r_ho_cong, r_symm, r_not_symm, r_eq_symmetric, generic_congruent.
  all: np; try np_eq; auto.
  all: try (apply find_chain_fuel; lia).
Qed.

Lemma op_wt_of o l : wt (TOp o l) = true -> forallb wt l = true /\ op_wt o (map sort_of l) = true.
Proof. cbn [wt]. apply andb_true_iff. Qed.
Lemma m_op2_wt o t a b : m_op2 o t = ROk (a, b) -> wt t = true -> wt a = true /\ wt b = true.
Proof.
  intros H Hw. apply m_op2_ok in H. cbn [fst snd] in H. subst t. apply op_wt_of in Hw. destruct Hw as [Hw _]. cbn [forallb] in Hw.
  apply andb_true_iff in Hw. destruct Hw as [? Hw]. apply andb_true_iff in Hw. tauto.
Qed.
Ltac in_list H := unfold rule_safe; cbn [In] in H; repeat match type of H with _ \/ _ => destruct H as [H|H] end; [..|destruct H]; injection H as _ <-; intros c ps args Hwc Hwp Hsm.

Lemma distinct_elim_safe : rule_safe r_distinct_elim.
Proof.
  np_start r_distinct_elim. np; unfold chk_diseq; np. all: exfalso.
  all: match goal with H : m_op2 _ ?t = ROk ?x, H' : m_ops _ (fst ?x) = ROk _ |- _ => destruct x as [l0 r0]; cbn [fst snd] in *;
    apply m_op2_wt in H; [|unfold clause_wt, bool_term in Hwc; cbn [forallb] in Hwc; rewrite !andb_true_iff in Hwc; tauto]; apply m_ops_ok in H'; subst l0;
    destruct H as [H _]; apply op_wt_of in H; destruct H as [_ H]; discriminate H end.
Qed.
Lemma structural_safe name r : In (name, r) structural_rules -> rule_safe r.
Proof.
  intros H. unfold structural_rules, extra_rules, claus_def_rules in H. cbn [app In] in H.
  repeat match type of H with _ \/ _ => destruct H as [H|H] end; [..|destruct H]; injection H as _ <-; try exact distinct_elim_safe;
  intros c ps args Hwc Hwp Hsm.
  all: unfold r_reordering, r_shuffle, r_weakening, r_and_intro, r_nary_elim, r_tautology, r_contraction.
  all: np.
Qed.

(** ** Resolution *)
Lemma np_parse_pivot p : parse_pivot p <> RPanic.
Proof. unfold parse_pivot. np. Qed.
Lemma np_binary ins rem cur next pivot pol : binary_resolution ins rem cur next pivot pol <> RPanic.
Proof.
  unfold binary_resolution. destruct pol; np; match goal with |- (let (_, _) := ?x in _) <> _ => destruct x end; np.
Qed.
Lemma np_chain ins rem steps : forall cur, res_chain ins rem cur steps <> RPanic.
Proof.
  induction steps as [|[p [pivot pol]] l IH]; intros cur; cbn [res_chain]; [discriminate|]. apply np_bind; [apply np_binary|auto].
Qed.
Lemma np_generic ins rem init ps args : generic_resolution ins rem init ps args <> RPanic.
Proof.
  unfold generic_resolution. destruct ps as [|p0 [|p1 ps]]; try discriminate. apply np_bind; [apply np_len_is|intros _ _].
  apply np_bind; [apply np_omap; intros; apply np_parse_pivot|]. intros; apply np_chain.
Qed.
Lemma resolution_args_safe : rule_safe r_resolution_with_args.
Proof. np_start r_resolution_with_args. apply np_bind; [apply np_generic|]. intros res _. cbv zeta. np. Qed.
Lemma strict_resolution_safe : rule_safe r_strict_resolution.
Proof. np_start r_strict_resolution. apply np_bind; [apply np_generic|]. intros res _. np. Qed.
Lemma resolution_safe : rule_safe r_resolution.
Proof.
  np_start r_resolution. destruct args as [|a args]; [|apply resolution_args_safe; auto].
  destruct c as [|l c].
  - destruct ps as [|[|t [|u p]] [|q ps]]; np.
  - np.
Qed.

(** ** Linear arithmetic *)
Lemma np_number t : as_number_err t <> RPanic.
Proof. apply np_ok_or. Qed.
Lemma np_signed t : as_signed_number_err t <> RPanic.
Proof. apply np_ok_or. Qed.
Lemma la_safe name r : In (name, r) [("la_rw_eq", r_la_rw_eq); ("la_disequality", r_la_disequality); ("la_totality", r_la_totality);
  ("mod_simplify", r_mod_simplify)]%string -> rule_safe r.
Proof.
  intros H. in_list H.
  all: unfold r_la_rw_eq, r_la_disequality, r_la_totality, r_mod_simplify, not_op2, int_literal.
  all: repeat (np; try apply np_signed; try apply np_number).
Qed.

(** ** Simplification *)
Lemma np_fix f t goal : terminating f -> (forall u, f u <> RPanic) -> fix_point f t goal <> RPanic.
Proof.
  intros Ht Hf. unfold fix_point. destruct (Ht t goal) as [r [Hr _]]. rewrite Hr. intros ->. revert Hr.
  assert (G : forall n seen u, until_fixed f n seen u goal <> Some RPanic); [|apply G].
  induction n as [|n IH]; intros seen u; cbn [until_fixed]; [discriminate|]. destruct (memb term_eqb u seen); [discriminate|].
  destruct (f u) as [[next|]| |] eqn:E; try discriminate; [destruct (term_eqb next goal); [discriminate|apply IH]|]. destruct (Hf _ E).
Qed.
Lemma np_simplify f : terminating f -> (forall u, f u <> RPanic) -> rule_safe (generic_simplify f).
Proof.
  intros H1 H2. np_start generic_simplify. np; apply np_fix; auto.
Qed.
Lemma np_pure f u : pure f u <> RPanic.
Proof. discriminate. Qed.
Lemma bool_simp_safe name r : In (name, r) bool_simp_rules -> rule_safe r.
Proof.
  intros H. unfold bool_simp_rules in H. cbn [In] in H.
  repeat match type of H with _ \/ _ => destruct H as [H|H] end; [..|destruct H]; injection H as _ <-.
  all: try (apply np_simplify; [first [exact ite_term|exact eq_term|exact not_term|exact implies_term|exact equiv_term|exact bool_term_step]|apply np_pure]).
  - np_start r_and_simplify. unfold and_or_simplify. np.
  - np_start r_or_simplify. unfold and_or_simplify. np.
  - np_start r_qnt_simplify. np.
Qed.

(** ** Linear arithmetic with division *)
(** no division by a numeral that is zero *)
Definition zero_lit (t : term) : bool := match as_signed_number t with Some y => Qeq_bool y 0 | None => false end.
Fixpoint nodiv0 (t : term) : bool :=
  match t with
  | TOp o l => (match o, l with
                | (OIntDiv | ORealDiv), [_; b] => negb (zero_lit b)
                | _, _ => true
                end) && forallb nodiv0 l
  | TApp f l => nodiv0 f && forallb nodiv0 l
  | TBind _ _ b => nodiv0 b
  | TLet bs b => forallb (fun p => nodiv0 (snd p)) bs && nodiv0 b
  | TPOp _ a l => forallb nodiv0 a && forallb nodiv0 l
  | _ => true
  end.
Lemma nodiv0_args o l : nodiv0 (TOp o l) = true -> forallb nodiv0 l = true.
Proof. cbn [nodiv0]. intros H. apply andb_true_iff in H. tauto. Qed.
Lemma np_ufraction t : nodiv0 t = true -> as_unsigned_fraction t <> RPanic.
Proof.
  intros H. unfold as_unsigned_fraction.
  assert (G : forall a b, match op2 OIntDiv t with Some p => Some p | None => op2 ORealDiv t end = Some (a, b) -> zero_lit b = false).
  { intros a b. destruct (op2 OIntDiv t) as [[x y]|] eqn:E1.
    - intros K. injection K as <- <-. apply op2_some in E1. cbn [fst snd] in E1. subst t. cbn [nodiv0] in H. apply andb_true_iff in H.
      destruct H as [H _]. apply negb_true_iff in H. exact H.
    - intros K. apply op2_some in K. cbn [fst snd] in K. subst t. cbn [nodiv0] in H. apply andb_true_iff in H.
      destruct H as [H _]. apply negb_true_iff in H. exact H. }
  destruct (match op2 OIntDiv t with Some p => Some p | None => op2 ORealDiv t end) as [[a b]|]; [|discriminate].
  specialize (G a b eq_refl). unfold zero_lit in G. destruct (as_signed_number a); [|discriminate]. destruct (as_signed_number b); [|discriminate].
  rewrite G. discriminate.
Qed.
Lemma np_fraction t : nodiv0 t = true -> as_fraction t <> RPanic.
Proof.
  intros H. unfold as_fraction. destruct (op1 OSub t) as [x|] eqn:E; [|apply np_ufraction; auto].
  apply op1_some in E. subst t. apply nodiv0_args in H. cbn [forallb] in H. rewrite andb_true_r in H.
  apply np_bind; [apply np_ufraction; auto|discriminate].
Qed.
Lemma np_add_other t q lc : nodiv0 t = true -> add_other t q lc <> RPanic.
Proof. intros H. unfold add_other. apply np_bind; [apply np_fraction; auto|]. intros [r|] _; discriminate. Qed.
Lemma np_add_term t : forall q lc, wt t = true -> nodiv0 t = true -> add_term t q lc <> RPanic.
Proof.
  induction t using term_ind'; intros q lc Hw Hd; try (apply np_add_other; exact Hd).
  assert (Hall : forall (g : Q) l' lc', incl l' args -> add_all (fun a => add_term a g) l' lc' <> RPanic).
  { intros g l'. induction l' as [|a l' IHl]; intros lc' Hi; cbn [add_all]; [discriminate|].
    apply op_wt_of in Hw. destruct Hw as [Hw _]. pose proof (nodiv0_args _ _ Hd) as Hd'. rewrite forallb_forall in Hw, Hd'.
    rewrite Forall_forall in H. apply np_bind.
    - apply H; [|apply Hw|apply Hd']; apply Hi; left; auto.
    - intros b _. apply IHl. intros x Hx. apply Hi. right. exact Hx. }
  cbn [add_term]. destruct (op_eqb o OAdd); [apply Hall, incl_refl|].
  destruct (op_eqb o OSub) eqn:Es.
  - destruct args as [|a [|b r]].
    + apply op_eqb_eq in Es. subst o. discriminate Hw.
    + change (add_term a (- q) lc <> RPanic). apply op_wt_of in Hw. destruct Hw as [Hw _]. apply nodiv0_args in Hd. cbn [forallb] in *. rewrite andb_true_r in *.
      apply (Forall_inv H); auto.
    + apply np_bind; [|intros lc' _; apply Hall; apply incl_tl, incl_refl].
      apply op_wt_of in Hw. destruct Hw as [Hw _]. apply nodiv0_args in Hd. cbn [forallb] in *. apply andb_true_iff in Hw, Hd. apply (Forall_inv H); tauto.
  - destruct (op_eqb o OMult) eqn:Em; [|apply np_add_other; exact Hd].
    destruct args as [|a [|b [|? r]]]; try (apply np_add_other; exact Hd).
    pose proof (proj1 (op_wt_of _ _ Hw)) as Hw'. pose proof (nodiv0_args _ _ Hd) as Hd'. cbn [forallb] in Hw', Hd'. rewrite !andb_true_iff in Hw', Hd'.
    apply np_bind; [apply np_fraction; tauto|]. intros fa _. apply np_bind; [apply np_fraction; tauto|]. intros fb _.
    pose proof (Forall_inv H) as Ha. pose proof (Forall_inv (Forall_inv_tail H)) as Hb.
    destruct fa; [apply Hb; tauto|]. destruct fb; [apply Ha; tauto|discriminate].
Qed.
Lemma negate_inner_args t o l : negate_inner t = Some (o, l) -> wt t = true -> nodiv0 t = true -> forallb wt l = true /\ forallb nodiv0 l = true.
Proof.
  unfold negate_inner. intros H Hw Hd.
  assert (K : forall o' l', wt (TOp o' l') = true -> nodiv0 (TOp o' l') = true -> forallb wt l' = true /\ forallb nodiv0 l' = true).
  { intros o' l' H1 H2. split; [apply op_wt_of in H1; tauto|eapply nodiv0_args; eauto]. }
  destruct (remove_negation t) as [u|] eqn:Er.
  - assert (Hu : wt u = true /\ nodiv0 u = true).
    { unfold remove_negation in Er. apply op1_some in Er. subst t. apply K in Hw; auto. cbn [forallb] in Hw. rewrite !andb_true_r in Hw. exact Hw. }
    destruct u as [| | |o' l'| | | |]; try (destruct t as [| | |o1 l1| | | |]; try discriminate; destruct (negate_operator o1); [|discriminate];
      injection H as _ <-; apply K with o1; auto).
    destruct (is_cmp o'); [|discriminate]. injection H as _ <-. apply K with o'; tauto.
  - destruct t as [| | |o1 l1| | | |]; try discriminate. destruct (negate_operator o1); [|discriminate]. injection H as _ <-. apply K with o1; auto.
Qed.
Lemma np_diseq t : wt t = true -> nodiv0 t = true -> diseq_of t <> RPanic.
Proof.
  intros Hw Hd. unfold diseq_of, negate_disequality. apply np_bind.
  - apply np_bind; [apply np_ok_or|]. intros [o l] H. apply ok_or_ok in H. apply negate_inner_args in H; auto. cbn [snd fst].
    destruct l as [|a [|b [|? ?]]]; try discriminate. destruct H as [H1 H2]. cbn [forallb] in H1, H2. rewrite !andb_true_iff in H1, H2.
    apply np_bind; [apply np_add_term; tauto|]. intros la _. apply np_bind; [apply np_add_term; tauto|discriminate].
  - intros [[o s1] s2] _. cbv zeta. destruct o; discriminate.
Qed.
Lemma diseq_op t o d : diseq_of t = ROk (o, d) -> o <> OLt /\ o <> OLe.
Proof.
  unfold diseq_of. intros H. apply obind_ok in H. destruct H as [[[o' s1] s2] [H1 H]]. cbv zeta in H.
  destruct o'; injection H as <- <-; split; discriminate.
Qed.
Lemma np_la_lit phi a : wt phi = true -> nodiv0 phi = true -> la_lit phi a <> RPanic.
Proof.
  intros Hw Hd. unfold la_lit. apply np_bind; [apply np_diseq; auto|]. intros [o d] H. apply diseq_op in H. destruct H as [H1 H2].
  apply np_bind; [|discriminate]. unfold strengthen. cbn [fst snd]. destruct o; try discriminate; try congruence; destruct (is_integer_times _ _); discriminate.
Qed.
Lemma la_generic_safe c ps args : clause_wt c = true -> forallb nodiv0 c = true -> forallb nodiv0 args = true -> r_la_generic c ps args <> RPanic.
Proof.
  intros Hw Hd Ha. unfold r_la_generic. apply np_bind; [apply np_len_is|intros _ _]. apply np_bind.
  - apply np_omap. intros a Hi. rewrite forallb_forall in Ha. apply np_bind; [apply np_fraction; auto|]. intros o _. apply np_ok_or.
  - intros qs _. apply np_bind; [|intros; apply np_rassert]. clear Ha. generalize (OEquals, lc_new). revert qs. induction c as [|phi c IH]; intros qs acc; cbn [la_fold]; [discriminate|].
    destruct qs as [|q qs]; [discriminate|]. unfold clause_wt in Hw. cbn [forallb] in Hw, Hd. apply andb_true_iff in Hw, Hd.
    destruct Hw as [Hb Hw]. unfold bool_term in Hb. apply andb_true_iff in Hb. destruct Hd as [Hd0 Hd].
    apply np_bind; [apply np_la_lit; tauto|]. intros od _. apply IH; assumption.
Qed.
Lemma la_tautology_safe c ps args : clause_wt c = true -> forallb nodiv0 c = true -> r_la_tautology c ps args <> RPanic.
Proof.
  intros Hw Hd. unfold r_la_tautology. npstep.
  cbn [idx nth_error unwrap obind]. unfold clause_wt in Hw. cbn [forallb] in Hw, Hd. rewrite andb_true_r in Hw, Hd.
  unfold bool_term in Hw. apply andb_true_iff in Hw.
  destruct (op2 OOr t) as [[f s]|]; [|apply np_bind; [apply np_diseq; tauto|intros; apply np_rassert]].
  unfold assert_le, assert_lt. repeat (np; try apply np_signed).
Qed.
