(** Soundness of the quantifier rules (R_Quant.v). *)
From Coq Require Import List String ZArith Bool Arith Lia.
From Verif Require Import Base Term Field Sem Sorting Rules Utils Polyeq Std PolyeqSound R_Simp Subst SubstSound SubstClean AlphaSound
  Checker CheckerSem Context ContextSound R_Binder BinderSound OnepointSound R_Quant.
Import ListNotations.
Local Open Scope nat_scope.
Local Notation doms I := (Forall2 (fun s v => idom I s v = true)).

Lemma as_quant_ok t q vs u : ok_or (as_quant t) = ROk (q, vs, u) -> t = TBind q vs u /\ (q = BForall \/ q = BExists).
Proof.
  intros H. apply ok_or_ok in H. unfold as_quant in H. destruct t as [| | | | |b vs' u'| |]; try discriminate.
  destruct b; try discriminate; injection H as <- <- <-; auto.
Qed.
Lemma quant_body q vs u : (q = BForall \/ q = BExists) -> wt (TBind q vs u) = true -> bool_term u = true.
Proof. intros [-> | ->]; cbn [wt]; unfold bool_term; rewrite !andb_true_iff; tauto. Qed.

Section Q.
  Context {I : interp}.
  Implicit Types E : env I.
  Lemma sgn_inj q a b : sgn q a = sgn q b -> a = b.
  Proof. unfold sgn. destruct (binder_beq q BForall), a, b; cbn; congruence. Qed.
  Lemma sgn_invol q b : sgn q (sgn q b) = b.
  Proof. unfold sgn. destruct (binder_beq q BForall); auto using negb_involutive. Qed.
  Lemma holds_quant q vs u E : (q = BForall \/ q = BExists) -> sgn q (holds E (TBind q vs u)) = eval_all vs (fun E' => sgn q (holds E' u)) E.
  Proof. intros H. unfold holds at 1. rewrite eval_quant by auto. cbn [truth]. apply sgn_invol. Qed.
  (** instantiating a universal in an environment that only differs on its variables *)
  Lemma eval_all_inst vs (f : env I -> bool) E E' : env_ok E' -> eval_all vs f E = true ->
    f (upds E vs (map (fun v => E' (fst v) (snd v)) vs)) = true.
  Proof. intros HE H. apply (proj1 (eval_all_true vs f E)); auto. apply doms_self; auto. Qed.
  Lemma holds_agree E E' t : (forall x s, free_in x s t = true -> E x s = E' x s) -> holds E t = holds E' t.
  Proof. intros H. unfold holds. rewrite (eval_agree t E E' H). reflexivity. Qed.
  (** Only the bound variables that occur free in the body matter. *)
  Lemma eval_all_incl q vs ws t E : env_ok E -> (forall x s, free_in x s t = true -> In (x, s) ws -> In (x, s) vs) ->
    eval_all vs (fun E' => sgn q (holds E' t)) E = true -> eval_all ws (fun E' => sgn q (holds E' t)) E = true.
  Proof.
    intros HE Hi H. apply eval_all_true. intros vals Hd. set (E' := upds E ws vals).
    assert (HE' : env_ok E') by (apply env_ok_upds; auto).
    rewrite <- (eval_all_inst vs _ E E' HE' H) at 1. cbn beta. f_equal. apply holds_agree. intros x s Hf. symmetry. apply upds_self.
    destruct (svmem (x, s) ws) eqn:Em; [left; apply Hi; auto; apply svmem_In; auto|right]. symmetry. apply upds_notin.
    intros Hin. apply svmem_In in Hin. congruence.
  Qed.
  Lemma eval_all_same q vs ws t E : env_ok E -> (forall x s, free_in x s t = true -> (In (x, s) ws <-> In (x, s) vs)) ->
    eval_all vs (fun E' => sgn q (holds E' t)) E = eval_all ws (fun E' => sgn q (holds E' t)) E.
  Proof.
    intros HE H. apply eq_true_iff_eq. split; apply eval_all_incl; auto; intros x s Hf; apply H; auto.
  Qed.
  Lemma upds_app vs ws : forall E v1 v2, List.length vs = List.length v1 -> upds E (vs ++ ws) (v1 ++ v2) = upds (upds E vs v1) ws v2.
  Proof. induction vs as [|[x s] r IH]; intros E [|v r1] v2 Hl; try discriminate; cbn [app upds]; auto. Qed.
  Lemma eval_all_app vs ws (f : env I -> bool) : forall E, eval_all (vs ++ ws) f E = eval_all vs (eval_all ws f) E.
  Proof.
    induction vs as [|[x s] r IH]; intros E; cbn [app eval_all]; auto. apply iall_ext. intros v Hv. apply IH.
  Qed.
  (** Equality of two formulas from equality of their truth values. *)
  Lemma eq_by_truth E a b : env_ok E -> clause_wt [tEq a b] = true -> sort_of a = SBool -> (holds E a = holds E b) -> clause_holds E [tEq a b].
  Proof.
    intros HE Hw Hs H. apply clause_wt_one in Hw. destruct (bool_eq_l _ _ Hw Hs) as [B1 B2]. apply holds_tEq.
    rewrite (eval_bool a), (eval_bool b) by auto. congruence.
  Qed.
End Q.
Lemma quant_sort q vs u : (q = BForall \/ q = BExists) -> sort_of (TBind q vs u) = SBool.
Proof. intros [-> | ->]; reflexivity. Qed.

(** ** qnt_join *)
Lemma sv_dedup_In l : forall seen v, In v (sv_dedup seen l) <-> In v l /\ ~ In v seen.
Proof.
  induction l as [|w l IH]; intros seen v; cbn [sv_dedup]; [intuition|]. destruct (svmem w seen) eqn:E.
  - apply svmem_In in E. rewrite IH. split; [intros [H1 H2]; split; [right|]; auto|]. intros [[->|H1] H2]; [contradiction|auto].
  - assert (Hn : ~ In w seen) by (intros H; apply svmem_In in H; congruence). cbn [In]. rewrite IH. cbn [In]. split.
    + intros [->|[H1 H2]]; [auto|]. split; [auto|]. intros H. apply H2. auto.
    + intros [[->|H1] H2]; [auto|]. destruct (svar_eqb w v) eqn:Ev; [apply svar_eqb_eq in Ev; auto|]. right. split; [auto|].
      intros [->|H]; [|contradiction]. rewrite (proj2 (svar_eqb_eq v v) eq_refl) in Ev. discriminate.
Qed.
Ltac ostepn H n H1 := apply obind_ok in H; destruct H as [n [H1 H]].
Ltac ostep H H1 := let n := fresh "un" in apply obind_ok in H; destruct H as [n [H1 H]].
Lemma one_clause (c : clause) u : len_is c 1 = ROk u -> exists x, c = [x].
Proof. intros H. destruct u. apply len_is_ok, len1 in H. exact H. Qed.
Lemma qnt_join_sound : rule_sound r_qnt_join.
Proof.
  intros c ps args H Hw _ I E HE _. unfold r_qnt_join in H. ostep H H1. apply one_clause in H1. destruct H1 as [t ->].
  cbn [idx nth_error unwrap obind] in H. ostepn H pp H1. destruct pp as [l r]. apply m_op2_ok in H1. cbn [fst snd] in *. subst t.
  ostepn H pp H1. destruct pp as [[q1 b1] l1]. apply as_quant_ok in H1. destruct H1 as [-> Q1].
  ostepn H pp H1. destruct pp as [[q2 b2] l2]. apply as_quant_ok in H1. destruct H1 as [-> Q2].
  ostepn H pp H1. destruct pp as [[q3 b3] r3]. apply as_quant_ok in H1. destruct H1 as [-> Q3].
  ostep H H1. apply rassert_ok, binder_beq_eq in H1. subst q2. ostep H H1. apply rassert_ok, binder_beq_eq in H1. subst q3.
  ostep H H1. apply teq_ok in H1. subst r3. apply rassert_ok, binds_eqb_eq in H. subst b3.
  apply eq_by_truth; auto; [apply quant_sort; auto|]. apply (sgn_inj q1). rewrite !holds_quant by auto.
  rewrite <- (eval_all_same q1 (b1 ++ b2)%list (sv_dedup [] (b1 ++ b2)%list)); auto.
  - rewrite eval_all_app. apply eval_all_ext. intros vals _. apply holds_quant. auto.
  - intros x1 s _. rewrite sv_dedup_In. intuition.
Qed.
(** ** qnt_rm_unused *)
Definition qnt_rm_ok (c : clause) (_ : list clause) (_ : list term) : bool :=
  match c with [x] => match op2 OEquals x with Some (TBind _ _ phi, _) => no_let phi | _ => false end | _ => false end.
Lemma svmem_free v phi : no_let phi = true -> svmem v (fvars phi) = false -> free_in (fst v) (snd v) phi = false.
Proof.
  intros Hl H. destruct (free_in (fst v) (snd v) phi) eqn:E; [|reflexivity]. apply (fvars_spec phi Hl) in E.
  destruct v as [x s]. apply svmem_In in E. cbn [fst snd] in *. congruence.
Qed.
Lemma qnt_rm_unused_sound c ps args : r_qnt_rm_unused c ps args = ROk tt -> qnt_rm_ok c ps args = true -> clause_wt c = true ->
  forallb clause_wt ps = true -> entails ps c.
Proof.
  intros H Hok Hw _ I E HE _. unfold r_qnt_rm_unused in H. ostep H H1. apply one_clause in H1. destruct H1 as [t ->].
  cbn [idx nth_error unwrap obind] in H. ostepn H pp H1. destruct pp as [l r]. apply m_op2_ok in H1. cbn [fst snd] in *. subst t.
  ostepn H pp H1. destruct pp as [[q lv] phi]. apply as_quant_ok in H1. destruct H1 as [-> Q1].
  cbn [qnt_rm_ok] in Hok. fold (tEq (TBind q lv phi) r) in Hok. rewrite op2_tEq in Hok.
  assert (Hf : forall x s, svmem (x, s) (fvars phi) = false -> free_in x s phi = false) by (intros y s; apply (svmem_free (y, s)); auto).
  apply eq_by_truth; auto; [apply quant_sort; auto|]. apply (sgn_inj q). rewrite holds_quant by auto.
  destruct (negb (existsb (fun v => svmem v (fvars phi)) lv) && term_eqb phi r) eqn:Ea.
  - apply andb_true_iff in Ea. destruct Ea as [E1 E2]. apply term_eqb_eq in E2. subst r. apply negb_true_iff in E1.
    rewrite (eval_all_same q lv [] phi E HE); [reflexivity|]. intros y s Hy. split; [intros []|]. intros Hin. exfalso.
    assert (Hs : existsb (fun v => svmem v (fvars phi)) lv = true); [|congruence]. apply existsb_exists. exists (y, s). split; [auto|].
    destruct (svmem (y, s) (fvars phi)) eqn:Es; [reflexivity|]. rewrite (Hf _ _ Es) in Hy. discriminate.
  - ostepn H pp H1. destruct pp as [[q2 rv] phi2]. apply as_quant_ok in H1. destruct H1 as [-> Q2].
    ostep H H1. apply rassert_ok, binder_beq_eq in H1. subst q2. ostep H H1. apply teq_ok in H1. subst phi2.
    ostep H H1. apply rassert_ok in H1. apply rassert_ok in H. rewrite forallb_forall in H, H1. rewrite holds_quant by auto.
    apply eval_all_same; auto. intros y s Hy. split; intros Hin.
    + apply svmem_In. auto.
    + apply H in Hin. apply orb_true_iff in Hin. destruct Hin as [Hin|Hin]; [apply svmem_In; auto|]. apply negb_true_iff in Hin.
      rewrite (Hf _ _ Hin) in Hy. discriminate.
Qed.
(** ** Negation normal form *)
Section NNF.
  Context {I : interp}.
  Implicit Types E : env I.
  Definition pol_val (pol b : bool) : bool := if pol then b else negb b.
  Lemma lit_holds pol t E : holds E (lit pol t) = pol_val pol (holds E t).
  Proof. destruct pol; reflexivity. Qed.
  Lemma two_pairs_holds pol a b c d E : holds E (two_pairs pol a b c d) =
    if pol then (holds E a || holds E b) && (holds E c || holds E d) else holds E a && holds E b || holds E c && holds E d.
  Proof. destruct pol; unfold two_pairs; rewrite ?holds_and2, ?holds_or2, ?holds_and2, ?holds_or2; reflexivity. Qed.
  Lemma nnf_holds t : forall pol E, bool_term t = true -> env_ok E -> holds E (nnf pol t) = pol_val pol (holds E t).
  Proof.
    induction t using term_ind'; intros pol E Hb HE; try (cbn [nnf]; apply lit_holds).
    - (* TOp *) cbn [nnf].
      assert (HL : forall o', (o' = OAnd \/ o' = OOr) -> o = o' -> forall pol a, In a args -> holds E (nnf pol a) = pol_val pol (holds E a)).
      { intros o' Ho' -> pol' a Ha. rewrite Forall_forall in H. apply (H a Ha); auto. apply (bool_args o' args); [tauto|exact Hb|exact Ha]. }
      destruct (op_eqb o ONot) eqn:E1.
      { apply op_eqb_eq in E1. subst o. destruct args as [|x [|]]; try apply lit_holds. inversion H; subst.
        assert (Hx : bool_term x = true) by (rewrite <- bool_term_not; exact Hb). rewrite H2 by auto. rewrite holds_not'. destruct pol; cbn; [|rewrite negb_involutive]; reflexivity. }
      destruct (op_eqb o OAnd) eqn:E2.
      { apply op_eqb_eq in E2. subst o. specialize (HL OAnd (or_introl eq_refl) eq_refl).
        destruct pol; cbn [pol_val]; [rewrite !holds_and|rewrite holds_or, holds_and]; clear H Hb E1;
        (induction args as [|a r IH]; [reflexivity|]; cbn [map existsb forallb]; rewrite IH by (intros p b Hi; apply HL; right; auto);
         rewrite HL by (left; auto); cbn [pol_val]; rewrite ?negb_andb; reflexivity). }
      destruct (op_eqb o OOr) eqn:E3.
      { apply op_eqb_eq in E3. subst o. specialize (HL OOr (or_intror eq_refl) eq_refl).
        destruct pol; cbn [pol_val]; [rewrite !holds_or|rewrite holds_or, holds_and]; clear H Hb E1 E2;
        (induction args as [|a r IH]; [reflexivity|]; cbn [map existsb forallb]; rewrite IH by (intros p b Hi; apply HL; right; auto);
         rewrite HL by (left; auto); cbn [pol_val]; rewrite ?negb_orb; reflexivity). }
      destruct (op_eqb o OImplies) eqn:E4.
      { apply op_eqb_eq in E4. subst o. destruct args as [|p [|q [|]]]; try apply lit_holds. inversion H as [|? ? Hp Hr]; subst. inversion Hr as [|? ? Hq Hr']; subst.
        pose proof (bool_args OImplies [p; q] ltac:(tauto) Hb) as HB.
        rewrite holds_implies. destruct pol; [rewrite holds_or2|rewrite holds_and2];
          rewrite Hp, Hq by (auto; apply HB; cbn; auto); cbn [negb pol_val]; destruct (holds E p), (holds E q); reflexivity. }
      destruct (op_eqb o OIte) eqn:E5.
      { apply op_eqb_eq in E5. subst o. destruct args as [|p [|q [|r [|]]]]; try apply lit_holds.
        inversion H as [|? ? Hp Hr]; subst. inversion Hr as [|? ? Hq Hr']; subst. inversion Hr' as [|? ? Hx _]; subst.
        destruct (ite_args_wt p q r (bool_term_wt _ Hb)) as [B1 [B2 [B3 B4]]].
        assert (Bs : sort_of q = SBool) by (exact (bool_term_sort _ Hb)).
        assert (Bq : bool_term q = true) by (unfold bool_term; rewrite B2, Bs; reflexivity).
        assert (Br : bool_term r = true) by (unfold bool_term; rewrite B3, <- B4, Bs; reflexivity).
        rewrite two_pairs_holds, holds_ite, !Hp, Hq, Hx by auto. destruct pol; cbn [negb pol_val]; destruct (holds E p), (holds E q), (holds E r); reflexivity. }
      destruct (op_eqb o OEquals) eqn:E6; [|apply lit_holds].
      apply op_eqb_eq in E6. subst o. destruct args as [|p [|q [|]]]; try apply lit_holds.
      destruct (sort_eqb (sort_of p) SBool) eqn:Es; [|apply lit_holds]. apply sort_eqb_eq in Es.
      inversion H as [|? ? Hp Hr]; subst. inversion Hr as [|? ? Hq Hr']; subst.
      destruct (bool_eq_l p q Hb Es) as [B1 B2]. change (TOp OEquals [p; q]) with (tEq p q).
      rewrite two_pairs_holds, (holds_eq_bool E p q B1 B2 HE), !Hp, !Hq by auto.
      destruct pol; cbn [negb pol_val]; destruct (holds E p), (holds E q); reflexivity.
    - (* TBind *)
      destruct b; try (cbn [nnf]; apply lit_holds); cbn [nnf]; assert (Hq := quant_body _ _ _ ltac:(auto) (bool_term_wt _ Hb)).
      + assert (Hx : forall p, eval_all vs (fun E' => pol_val p (holds E' (nnf p t))) E = eval_all vs (fun E' => holds E' t) E).
        { intros p. apply eval_all_ext. intros vals Hd. rewrite IHt by (auto; apply env_ok_upds; auto). destruct p; cbn; [|rewrite negb_involutive]; reflexivity. }
        destruct pol; [exact (Hx true)|exact (f_equal negb (Hx false))].
      + assert (Hx : forall p, eval_all vs (fun E' => pol_val (negb p) (holds E' (nnf p t))) E = eval_all vs (fun E' => negb (holds E' t)) E).
        { intros p. apply eval_all_ext. intros vals Hd. rewrite IHt by (auto; apply env_ok_upds; auto). destruct p; reflexivity. }
        destruct pol; cbn [pol_val].
        * exact (f_equal negb (Hx true)).
        * change (holds E (TBind BExists vs t)) with (negb (eval_all vs (fun E' => negb (holds E' t)) E)). rewrite negb_involutive. exact (Hx false).
  Qed.
End NNF.
Lemma free_two pol a b c d x s : free_in x s (two_pairs pol a b c d) = free_in x s a || free_in x s b || (free_in x s c || free_in x s d).
Proof. destruct pol; cbn; rewrite !orb_false_r, ?orb_assoc; reflexivity. Qed.
Lemma nnf_free t x s : forall pol, free_in x s (nnf pol t) = true -> free_in x s t = true.
Proof.
  induction t using term_ind'; intros pol; cbn [nnf]; try (destruct pol; cbn [lit]; unfold tNot; cbn [free_in existsb]; rewrite ?orb_false_r; auto; fail).
  - assert (HL : free_in x s (lit pol (TOp o args)) = true -> free_in x s (TOp o args) = true) by (destruct pol; cbn [lit]; unfold tNot; cbn [free_in existsb]; rewrite ?orb_false_r; auto).
    assert (HM : forall o', free_in x s (TOp o' (map (nnf pol) args)) = true -> free_in x s (TOp o args) = true).
    { intros o'. cbn [free_in]. rewrite !existsb_exists. intros [a [Ha Hf]]. apply in_map_iff in Ha. destruct Ha as [a' [<- Ha]].
      exists a'. split; auto. rewrite Forall_forall in H. eapply H; eauto. }
    destruct (op_eqb o ONot).
    { destruct args as [|a [|]]; auto. inversion H; subst. cbn [free_in existsb]. rewrite orb_false_r. intros Hf. eapply H2; eauto. }
    destruct (op_eqb o OAnd); [apply HM|]. destruct (op_eqb o OOr); [apply HM|]. destruct (op_eqb o OImplies).
    { destruct args as [|p [|q [|]]]; auto. inversion H as [|? ? Hp Hr]; subst. inversion Hr as [|? ? Hq Hr']; subst.
      cbn [free_in existsb]. rewrite !orb_false_r, !orb_true_iff. intros [Hf|Hf]; eauto. }
    destruct (op_eqb o OIte).
    { destruct args as [|p [|q [|r [|]]]]; auto. inversion H as [|? ? Hp Hr]; subst. inversion Hr as [|? ? Hq Hr']; subst. inversion Hr' as [|? ? Hx _]; subst.
      rewrite free_two, !orb_true_iff. cbn [free_in existsb]. rewrite !orb_false_r, !orb_true_iff. intros [[Hf|Hf]|[Hf|Hf]]; eauto. }
    destruct (op_eqb o OEquals); auto. destruct args as [|p [|q [|]]]; auto. destruct (sort_eqb (sort_of p) SBool); auto.
    inversion H as [|? ? Hp Hr]; subst. inversion Hr as [|? ? Hq Hr']; subst.
    rewrite free_two, !orb_true_iff. cbn [free_in existsb]. rewrite !orb_false_r, !orb_true_iff. intros [[Hf|Hf]|[Hf|Hf]]; eauto.
  - assert (HB : forall b', free_in x s (TBind b' vs (nnf pol t)) = true -> free_in x s (TBind b vs t) = true).
    { intros b'. cbn [free_in]. rewrite !andb_true_iff. intros [H1 H2]. eauto. }
    destruct b; [apply HB|apply HB| |]; destruct pol; cbn [lit]; unfold tNot; cbn [free_in existsb]; rewrite ?orb_false_r; auto.
Qed.
(** ** Prenexing weakens: what holds in E holds after prenexing in every environment that agrees with E on the free variables *)
Lemma prenex_holds {I} t : forall E E' : env I, env_ok E' -> (forall x s, free_in x s t = true -> E x s = E' x s) ->
  holds E t = true -> holds E' (snd (prenex t)) = true.
Proof.
  induction t using term_ind'; intros E E' HE Ha Hh; cbn [prenex]; try (cbn [snd]; rewrite <- (holds_agree E E'); auto; fail).
  - destruct (op_eqb o OAnd || op_eqb o OOr) eqn:Eo; [|cbn [snd]; rewrite <- (holds_agree E E'); auto]. cbn [snd].
    assert (HL : forall a, In a args -> holds E a = true -> holds E' (snd (prenex a)) = true).
    { intros a Hin Hha. rewrite Forall_forall in H. apply (H a Hin E E'); auto. intros x s Hf. apply Ha. cbn [free_in]. apply existsb_exists; eauto. }
    apply orb_true_iff in Eo. destruct Eo as [Eo|Eo]; apply op_eqb_eq in Eo; subst o.
    + rewrite holds_and in *. rewrite forallb_forall in *. intros b Hb. apply in_map_iff in Hb. destruct Hb as [a [<- Hin]]. auto.
    + rewrite holds_or in *. apply existsb_exists in Hh. destruct Hh as [a [Hin Hh]]. apply existsb_exists. exists (snd (prenex a)).
      split; [apply in_map_iff; eauto|auto].
  - destruct b; try (cbn [snd]; rewrite <- (holds_agree E E'); auto; fail). cbn [snd].
    assert (Hh' : eval_all vs (fun E0 => holds E0 t) E = true) by exact Hh.
    apply (IHt _ E' HE) in Hh' || apply (eval_all_inst vs _ E E' HE) in Hh'. refine (IHt _ E' HE _ Hh'). intros x s Hf. apply upds_self.
    destruct (svmem (x, s) vs) eqn:Em; [left; apply svmem_In; auto|right; apply Ha]. cbn [free_in]. rewrite Hf, andb_true_r.
    apply negb_true_iff. exact Em.
Qed.
(** ** Conjunctive normal form *)
Definition cnf_holds {I} (E : env I) (f : list (list term)) : bool := forallb (fun c => existsb (holds E) c) f.
Lemma distribute_holds {I} (E : env I) fs : forall r, distribute fs = ROk r -> existsb (cnf_holds E) fs = true -> cnf_holds E r = true.
Proof.
  induction fs as [|f fs IH]; intros r H Hh; [discriminate|]. destruct fs as [|g fs].
  - cbn in H. injection H as <-. cbn in Hh. rewrite orb_false_r in Hh. exact Hh.
  - remember (g :: fs) as gs eqn:Eg. assert (H' : (do t <- distribute gs ; ROk (flat_map (fun h => map (fun k => h ++ k)%list t) f)) = ROk r) by (rewrite Eg in *; exact H).
    apply obind_ok in H'. destruct H' as [t [Ht Hr]]. injection Hr as <-. cbn [existsb] in Hh. apply orb_true_iff in Hh.
    unfold cnf_holds. apply forallb_forall. intros c Hc. apply in_flat_map in Hc. destruct Hc as [h [Hh1 Hc]]. apply in_map_iff in Hc. destruct Hc as [k [<- Hk]].
    rewrite existsb_app. apply orb_true_iff. destruct Hh as [Hh|Hh].
    + left. unfold cnf_holds in Hh. rewrite forallb_forall in Hh. auto.
    + right. specialize (IH _ Ht Hh). unfold cnf_holds in IH. rewrite forallb_forall in IH. auto.
Qed.
Lemma cnf_sound {I} (E : env I) t : forall f, cnf t = ROk f -> holds E t = true -> cnf_holds E f = true.
Proof.
  assert (HL : forall t f, ROk [[t]] = ROk f -> holds E t = true -> cnf_holds E f = true).
  { intros u f H Hh. injection H as <-. cbn. rewrite Hh. reflexivity. }
  induction t using term_ind'; intros f Hc Hh; cbn [cnf] in Hc; try (eapply HL; eauto; fail).
  assert (HF : forall fs, omap cnf args = ROk fs -> Forall2 (fun a g => holds E a = true -> cnf_holds E g = true) args fs).
  { clear Hc Hh. intros fs Hfs. apply omap_Forall2 in Hfs. revert H. induction Hfs as [|a g l l' Hag _ IH]; intros H; constructor; inversion H; subst; auto. }
  destruct (op_eqb o OAnd) eqn:E1.
  - apply op_eqb_eq in E1. subst o. apply obind_ok in Hc. destruct Hc as [fs [Hfs Hc]]. injection Hc as <-. apply HF in Hfs. rewrite holds_and in Hh.
    clear - Hfs Hh. induction Hfs as [|a g l l' Hag _ IH]; [reflexivity|]. cbn [forallb List.concat] in *. apply andb_true_iff in Hh. destruct Hh as [H1 H2].
    unfold cnf_holds in *. rewrite forallb_app. rewrite Hag by auto. apply IH; auto.
  - destruct (op_eqb o OOr) eqn:E2; [|eapply HL; eauto]. apply op_eqb_eq in E2. subst o. apply obind_ok in Hc. destruct Hc as [fs [Hfs Hc]].
    apply HF in Hfs. rewrite holds_or in Hh. apply (distribute_holds E fs f Hc).
    clear - Hfs Hh. induction Hfs as [|a g l l' Hag _ IH]; [discriminate|]. cbn [existsb] in *. apply orb_true_iff in Hh. apply orb_true_iff.
    destruct Hh; auto.
Qed.
Lemma cnf_clause_holds {I} (E : env I) c t : cnf_clause c = ROk t -> existsb (holds E) c = true -> holds E t = true.
Proof.
  intros H Hh. destruct c as [|a [|b r]]; [discriminate| |]; cbn in H; injection H as <-; [cbn in Hh; rewrite orb_false_r in Hh; auto|]. rewrite holds_or. exact Hh.
Qed.
(** the bindings of the right-hand side do not capture a variable that is free on the left *)
Definition qnt_cnf_ok (c : clause) (_ : list clause) (_ : list term) : bool :=
  match c with
  | [x] =>
      match op2 OOr x with
      | Some (l, TBind _ rb _) =>
          match op1 ONot l with
          | Some (TBind _ lb phi) => forallb (fun v => negb (free_in (fst v) (snd v) (TBind BForall lb phi))) rb
          | _ => false
          end
      | _ => false
      end
  | _ => false
  end.
Lemma qnt_cnf_sound c ps args : r_qnt_cnf c ps args = ROk tt -> qnt_cnf_ok c ps args = true -> clause_wt c = true ->
  forallb clause_wt ps = true -> entails ps c.
Proof.
  intros H Hok Hw _ I E HE _. unfold r_qnt_cnf in H. ostep H H1. apply one_clause in H1. destruct H1 as [t ->].
  cbn [idx nth_error unwrap obind] in H. ostepn H pp H1. destruct pp as [l r]. apply m_op2_ok in H1. cbn [fst snd] in *. subst t.
  ostepn H u H1. apply m_op1_ok in H1. subst l.
  ostepn H pp H1. destruct pp as [[lq lb] phi]. apply as_quant_ok in H1. destruct H1 as [-> Q1].
  ostepn H pp H1. destruct pp as [[rq rb] phi']. apply as_quant_ok in H1. destruct H1 as [-> Q2].
  ostep H H1. apply rassert_ok, binder_beq_eq in H1. subst lq. ostep H H1. apply rassert_ok, binder_beq_eq in H1. subst rq.
  destruct (prenex (nnf true phi)) as [new pre] eqn:Ep. ostepn H cs Hcs. ostepn H cls Hcl.
  ostep H H1. clear H1. ostep H H1. apply rassert_ok, existsb_exists in H1. destruct H1 as [k [Hk1 Hk2]]. apply term_eqb_eq in Hk2. subst k. clear H.
  cbn in Hok. rewrite forallb_forall in Hok.
  apply clause_wt_one in Hw. pose proof (bool_args OOr _ ltac:(tauto) Hw) as HB.
  assert (Hb := HB _ (or_introl eq_refl)). fold (tNot (TBind BForall lb phi)) in Hb. rewrite bool_term_not in Hb.
  apply bool_term_wt, quant_body in Hb; auto.
  apply one_holds. rewrite holds_or2, holds_not'. destruct (holds E (TBind BForall lb phi)) eqn:Hh; [|reflexivity]. cbn [negb orb].
  assert (Hh' : eval_all lb (fun E0 => holds E0 phi) E = true) by exact Hh.
  apply (eval_all_true rb (fun E0 => holds E0 phi')). intros vals Hd. set (E' := upds E rb vals). assert (HE' : env_ok E') by (apply env_ok_upds; auto).
  apply (eval_all_inst lb _ E E' HE') in Hh'. set (E1 := upds E lb (map (fun v => E' (fst v) (snd v)) lb)) in *.
  assert (HE1 : env_ok E1) by (apply env_ok_upds; auto; apply doms_self; auto).
  assert (Hn : holds E1 (nnf true phi) = true) by (rewrite nnf_holds; auto).
  assert (Hp : holds E' (snd (prenex (nnf true phi))) = true).
  { apply (prenex_holds _ E1 E' HE'); auto. intros x0 s Hf. apply nnf_free in Hf. apply upds_self.
    destruct (svmem (x0, s) lb) eqn:Em; [left; apply svmem_In; auto|right]. symmetry. apply upds_notin. intros Hin. apply Hok in Hin.
    cbn [free_in fst snd] in Hin. rewrite Hf, andb_true_r, negb_involutive in Hin. unfold svmem in Em. congruence. }
  rewrite Ep in Hp. cbn [snd] in Hp. pose proof (cnf_sound E' _ _ Hcs Hp) as Hc. unfold cnf_holds in Hc. rewrite forallb_forall in Hc.
  apply omap_Forall2 in Hcl. clear - Hcl Hk1 Hc. induction Hcl as [|a b l l' Hab _ IH]; [destruct Hk1|].
  destruct Hk1 as [->|Hk]; [eapply cnf_clause_holds; eauto; apply Hc; left; auto|]. apply IH; auto. intros c Hin. apply Hc. right; auto.
Qed.
(** ** forall_inst *)
Lemma inst_env {I} bs : forall args m (E : env I), List.length args = List.length bs -> forall x s,
  sub_env (fold_left (fun m p => sins m (TVar (fst (fst p)) (snd (fst p))) (snd p)) (combine bs args) m) E x s =
  upds (sub_env m E) bs (map (fun a => eval a E) args) x s.
Proof.
  induction bs as [|[y sy] bs IH]; intros [|a args] m E Hl x s; try discriminate; [reflexivity|]. cbn [combine fold_left map upds fst snd].
  rewrite IH by (cbn in Hl; lia). apply upds_pt. intros z sz. unfold sub_env, upd. rewrite sget_sins.
  destruct (term_eqb (TVar z sz) (TVar y sy)) eqn:E1.
  - apply term_eqb_eq in E1. injection E1 as -> ->. rewrite String.eqb_refl, (proj2 (sort_eqb_eq sy sy) eq_refl). reflexivity.
  - destruct (String.eqb z y && sort_eqb sz sy) eqn:E2; [|reflexivity]. apply andb_true_iff in E2. destruct E2 as [Q1 Q2].
    apply String.eqb_eq in Q1. apply sort_eqb_eq in Q2. subst. rewrite (proj2 (term_eqb_eq _ _) eq_refl) in E1. discriminate.
Qed.
Lemma inst_good ps : forall m, good_map m -> (forall p, In p ps -> snd (fst p) = sort_of (snd p) /\ wt (snd p) = true /\ no_let (snd p) = true) ->
  good_map (fold_left (fun m p => sins m (TVar (fst (fst p)) (snd (fst p))) (snd p)) ps m).
Proof.
  induction ps as [|[[y sy] a] ps IH]; intros m Hm H; [exact Hm|]. cbn [fold_left fst snd]. apply IH; [|intros p Hp; apply H; right; auto].
  destruct (H _ (or_introl eq_refl)) as [H1 [H2 H3]]. cbn [fst snd] in *. intros k v Hk. rewrite sget_sins in Hk.
  destruct (term_eqb k (TVar y sy)) eqn:E; [|auto]. apply term_eqb_eq in E. injection Hk as <-. exists y, sy.
  split; [auto|]. split; [auto|]. split; [auto|]. intros z sz. apply fvars_spec. exact H3.
Qed.
(** the substitution captures nothing, and the comparison up to renaming is reliable *)
Definition forall_inst_ok (c : clause) (_ : list clause) (args : list term) : bool :=
  match c with
  | [x] =>
      match op2 OOr x with
      | Some (l, r) =>
          match op1 ONot l with
          | Some (TBind BForall bs phi) =>
              forallb (fun a => wt a && no_let a) args && subst_flag (inst_map bs args) phi &&
              match subst (inst_map bs args) phi with ROk e => alpha_ok r e | _ => false end
          | _ => false
          end
      | None => false
      end
  | _ => false
  end.
Lemma forall_inst_sound c ps args : r_forall_inst c ps args = ROk tt -> forall_inst_ok c ps args = true -> clause_wt c = true ->
  forallb clause_wt ps = true -> entails ps c.
Proof.
  intros H Hok Hw _ I E HE _. unfold r_forall_inst in H. ostep H H1. apply one_clause in H1. destruct H1 as [t ->].
  cbn [idx nth_error unwrap obind] in H. ostepn H pp H1. destruct pp as [l r]. apply m_op2_ok in H1. cbn [fst snd] in *. subst t.
  ostepn H u H1. apply m_op1_ok in H1. subst l. ostepn H pp H1. destruct pp as [bs phi]. apply m_bind_ok in H1. cbn [fst snd] in *. subst u.
  ostepn H un0 H1. destruct un0. apply len_is_ok in H1. rename H1 into Hl. ostepn H un1 H1. destruct un1. rename H1 into Hs.
  ostepn H sg H1. unfold subst_new in H1. apply obind_ok in H1. destruct H1 as [u [_ H1]]. injection H1 as <-.
  ostepn H e He. ostepn H b Hb. apply rassert_ok in H. subst b. rename Hb into Hal.
  assert (Hok' : forallb (fun a => wt a && no_let a) args && subst_flag (inst_map bs args) phi &&
    match subst (inst_map bs args) phi with ROk e => alpha_ok r e | _ => false end = true) by exact Hok. clear Hok. rename Hok' into Hok.
  rewrite He in Hok. rewrite !andb_true_iff in Hok. destruct Hok as [[Hargs Hfl] Hao]. rewrite forallb_forall in Hargs.
  apply clause_wt_one in Hw. pose proof (bool_args OOr _ ltac:(tauto) Hw) as HB.
  assert (Wr := bool_term_wt _ (HB r (or_intror (or_introl eq_refl)))).
  assert (Hb := HB _ (or_introl eq_refl)). fold (tNot (TBind BForall bs phi)) in Hb. rewrite bool_term_not in Hb.
  apply bool_term_wt, quant_body in Hb; auto.
  assert (HS : forall p, In p (combine bs args) -> snd (fst p) = sort_of (snd p) /\ wt (snd p) = true /\ no_let (snd p) = true).
  { intros p Hp. destruct (ofor_ok _ _ _ Hs p Hp) as [un2 Hx]. apply rassert_ok, sort_eqb_eq in Hx. destruct p as [v a].
    apply in_combine_r in Hp. apply Hargs in Hp. apply andb_true_iff in Hp. cbn [fst snd] in *. tauto. }
  assert (Hg : good_map (inst_map bs args)) by (apply inst_good; [intros k v Hk; discriminate|exact HS]).
  unfold subst_flag in Hfl. unfold subst in He. destruct (sub_apply (sub_of (inst_map bs args)) phi) as [[[p S'] ok]| |] eqn:HA; try discriminate.
  cbn [obind fst] in He. injection He as ->. subst ok. unfold sub_apply in HA.
  apply (apply_sound _ (inst_map bs args)) in HA; [|apply inv_s_of; auto|apply bool_term_wt; auto]. destruct HA as [_ [S1 [S2 S3]]].
  pose proof (alpha_ok_sound _ _ Hal Wr S1 Hao I E HE) as Heq.
  apply one_holds. rewrite holds_or2, holds_not'. destruct (holds E (TBind BForall bs phi)) eqn:Hh; [|reflexivity]. cbn [negb orb].
  assert (Hh' : eval_all bs (fun E0 => holds E0 phi) E = true) by exact Hh.
  unfold holds. rewrite Heq, S3.
  rewrite (eval_ext phi _ (upds E bs (map (fun a => eval a E) args))).
  - apply (proj1 (eval_all_true bs (fun E0 => holds E0 phi) E) Hh').
    clear - HS Hl HE. revert args Hl HS. induction bs as [|v bs IH]; intros [|a args] Hl HS; try discriminate; cbn [map]; constructor.
    + destruct (HS (v, a) (or_introl eq_refl)) as [H1 [H2 _]]. cbn [fst snd] in *. rewrite H1. apply eval_dom; auto.
    + apply IH; [cbn in Hl; lia|]. intros p Hp. apply HS. right; auto.
  - intros x1 s. unfold inst_map. rewrite inst_env by exact Hl. apply upds_pt. intros; reflexivity.
Qed.

(** ** miniscoping *)
Lemma mini_match_ok b1 o1 b2 o2 x b o bs phis rs : mini_match b1 o1 b2 o2 x = ROk (b, o, bs, phis, rs) ->
  x = tEq (TBind b bs (TOp o phis)) (TOp o rs) /\ (b = b1 /\ o = o1 \/ b = b2 /\ o = o2).
Proof.
  assert (HS : forall b o bs phis rs, mini_shape b o x = Some (bs, phis, rs) -> x = tEq (TBind b bs (TOp o phis)) (TOp o rs)).
  { intros b' o' bs' phis' rs'. unfold mini_shape. destruct (op2 OEquals x) as [[l r]|] eqn:E1; [|discriminate]. apply op2_some in E1. subst x.
    destruct (as_bind b' l) as [[v u]|] eqn:E2; [|discriminate]. apply as_bind_some in E2. subst l.
    destruct (as_op o' r) as [l|] eqn:E3; [|discriminate]. apply as_op_some in E3. subst r.
    destruct (as_op o' u) as [l'|] eqn:E4; [|discriminate]. apply as_op_some in E4. subst u. intros H. injection H as <- <- <-. reflexivity. }
  unfold mini_match. destruct (mini_shape b1 o1 x) as [[[v p] r]|] eqn:E1.
  - intros H. injection H as <- <- <- <- <-. auto.
  - destruct (mini_shape b2 o2 x) as [[[v p] r]|] eqn:E2; [|discriminate]. intros H. injection H as <- <- <- <- <-. auto.
Qed.
Lemma miniscope_distribute_sound : rule_sound r_miniscope_distribute.
Proof.
  intros c ps args H Hw _ I E HE _. unfold r_miniscope_distribute in H. ostep H H1. apply one_clause in H1. destruct H1 as [t ->].
  cbn [idx nth_error unwrap obind] in H. ostepn H pp H1. destruct pp as [[[[b o] bs] phis] rs]. apply mini_match_ok in H1. destruct H1 as [-> Hbo].
  ostepn H un0 H1. destruct un0. apply len_is_ok in H1. rename H1 into Hl.
  assert (Hq : b = BForall \/ b = BExists) by tauto.
  apply eq_by_truth; auto; [apply quant_sort; auto|]. apply (sgn_inj b). rewrite holds_quant by auto.
  assert (HT : forall (E : env I) l, sgn b (holds E (TOp o l)) = forallb (fun p => sgn b (holds E p)) l).
  { intros E0 l. destruct Hbo as [[-> ->]|[-> ->]]; [apply holds_and|]. rewrite holds_or. unfold sgn. cbn [binder_beq].
    induction l as [|a l IH]; [reflexivity|]. cbn [existsb forallb]. rewrite negb_orb, IH. reflexivity. }
  rewrite HT. assert (HP : Forall2 (fun phi r => r = TBind b bs phi) phis rs).
  { pose proof (ofor_ok _ _ _ H) as H'. clear - H' Hl. revert rs Hl H'. induction phis as [|p phis IH]; intros [|r rs] Hl H'; try discriminate; constructor.
    - destruct (H' (p, r) (or_introl eq_refl)) as [un2 H'']. clear H'. rename H'' into H'. destruct un2. unfold mini_pair in H'. ostepn H' bi H1. apply m_bind_ok in H1. cbn [fst snd] in *.
      ostep H' H2. apply rassert_ok, binds_eqb_eq in H2. apply teq_ok in H'. congruence.
    - apply IH; [cbn in Hl; lia|]. intros q Hq. apply H'. right; auto. }
  transitivity (forallb (fun p => eval_all bs (fun E' => sgn b (holds E' p)) E) phis).
  - apply eq_true_iff_eq. rewrite eval_all_true, forallb_forall. split.
    + intros Ha p Hp. apply eval_all_true. intros vals Hd. specialize (Ha vals Hd). cbn beta in Ha. rewrite HT, forallb_forall in Ha. auto.
    + intros Ha vals Hd. rewrite HT. apply forallb_forall. intros p Hp. specialize (Ha p Hp). rewrite eval_all_true in Ha. auto.
  - clear - HP Hq. induction HP as [|p r l l' -> _ IH]; [reflexivity|]. cbn [forallb]. rewrite holds_quant, IH by auto. reflexivity.
Qed.
Definition split_ok (c : clause) (_ : list clause) (_ : list term) : bool :=
  match c with [x] => match op2 OEquals x with Some (_, r) => no_let r | _ => false end | _ => false end.
Lemma take_all_ok bs : forall set set', take_all bs set = ROk set' -> incl bs set /\ incl set' set /\ forall v, In v bs -> ~ In v set'.
Proof.
  induction bs as [|v bs IH]; intros set set' H; cbn [take_all] in H.
  - injection H as <-. split; [intros v []|]. split; [apply incl_refl|intros v []].
  - destruct (svmem v set) eqn:Em; [|discriminate]. apply svmem_In in Em. apply IH in H. destruct H as [H1 [H2 H3]].
    assert (Hr : incl (sv_remove v set) set) by (intros w Hw; unfold sv_remove in Hw; apply filter_In in Hw; tauto).
    split; [|split].
    + intros w [<-|Hw]; [auto|]. apply Hr, H1, Hw.
    + intros w Hw. apply Hr, H2, Hw.
    + intros w [<-|Hw]; [|auto]. intros Hw. apply H2 in Hw. unfold sv_remove in Hw. apply filter_In in Hw.
      rewrite (proj2 (svar_eqb_eq v v) eq_refl) in Hw. destruct Hw; discriminate.
Qed.
Section Split.
  Context {I : interp}.
  Variables (b : binder) (bs : list (string * sort)).
  Hypothesis Hq : b = BForall \/ b = BExists.
  Lemma split_pairs_ok : forall ps set, split_pairs b set ps = ROk tt -> incl set bs ->
    (forall phi r v, In (phi, r) ps -> In v bs -> free_in (fst v) (snd v) r = false) ->
    (forall phi r, In (phi, r) ps -> r = phi \/ exists vs, r = TBind b vs phi) /\
    (forall phi r v, In (phi, r) ps -> In v bs -> free_in (fst v) (snd v) phi = true -> In v set) /\
    forall E : env I, env_ok E -> (forall phi r, In (phi, r) ps -> sgn b (holds E r) = false) ->
    exists E', env_ok E' /\ (forall x s, ~ In (x, s) set -> E' x s = E x s) /\ forall phi r, In (phi, r) ps -> sgn b (holds E' phi) = false.
  Proof.
    induction ps as [|[phi r] ps IH]; intros set H Hi Hf.
    { split; [intros p q []|]. split; [intros p q v []|]. intros E HE _. exists E. split; [auto|]. split; [auto|]. intros p q []. }
    cbn [split_pairs] in H. assert (Hf' : forall p q v, In (p, q) ps -> In v bs -> free_in (fst v) (snd v) q = false) by (intros p q v Hp; apply (Hf p q v); right; auto).
    pose proof (fun v => Hf phi r v (or_introl eq_refl)) as Hfr.
    destruct (term_eqb phi r) eqn:Er.
    - apply term_eqb_eq in Er. subst r. destruct (IH set H Hi Hf') as [H0 [H1 H2]]. split; [|split].
      + intros p q [Hp|Hp]; [injection Hp as <- <-; auto|eauto].
      + intros p q v [Hp|Hp] Hv Hx; [injection Hp as <- <-; rewrite Hfr in Hx by auto; discriminate|eauto].
      + intros E HE Hr. destruct (H2 E HE) as [E' [A1 [A2 A3]]]; [intros p q Hp; apply (Hr p q); right; auto|].
        exists E'. split; [auto|]. split; [auto|]. intros p q [Hp|Hp]; [|eauto]. injection Hp as <- <-.
        rewrite <- (Hr phi phi) by (left; auto). f_equal. apply holds_agree. intros x s Hx. apply A2. intros Hin. apply Hi in Hin.
        specialize (Hfr _ Hin). cbn [fst snd] in Hfr. congruence.
    - ostepn H bi H1. apply m_bind_ok in H1. destruct bi as [vs inner]. cbn [fst snd] in *. ostep H H2. apply teq_ok in H2. subst inner r.
      ostepn H set' H2. apply take_all_ok in H2. destruct H2 as [T1 [T2 T3]].
      destruct (IH set' H (fun v Hv => Hi v (T2 v Hv)) Hf') as [H0 [H1 H2]].
      assert (Hfp : forall v, In v bs -> free_in (fst v) (snd v) phi = true -> In v vs).
      { intros v Hv Hx. specialize (Hfr v Hv). cbn [free_in] in Hfr. rewrite Hx, andb_true_r in Hfr. apply negb_false_iff in Hfr.
        apply svmem_In. destruct v. exact Hfr. }
      split; [|split].
      + intros p q [Hp|Hp]; [injection Hp as <- <-; eauto|eauto].
      + intros p q v [Hp|Hp] Hv Hx; [injection Hp as <- <-; apply T1, Hfp; auto|apply T2; eauto].
      + intros E HE Hr. destruct (H2 E HE) as [E1 [A1 [A2 A3]]]; [intros p q Hp; apply (Hr p q); right; auto|].
        assert (Hr1 : sgn b (holds E1 (TBind b vs phi)) = false).
        { rewrite <- (Hr phi (TBind b vs phi)) by (left; auto). f_equal. apply holds_agree. intros x s Hx. apply A2. intros Hin.
          apply T2, Hi in Hin. specialize (Hfr _ Hin). cbn [fst snd] in Hfr. congruence. }
        rewrite holds_quant in Hr1 by auto. destruct (eval_all_witness vs (fun E' => sgn b (holds E' phi)) E1) as [vals [V1 V2]].
        rewrite Hr1 in V2. exists (upds E1 vs vals). split; [apply env_ok_upds; auto|]. split.
        * intros x s Hn. rewrite upds_notin by (intros Hin; apply Hn, T1, Hin). apply A2. intros Hin. apply Hn, T2, Hin.
        * intros p q [Hp|Hp]; [injection Hp as <- <-; exact V2|]. rewrite <- (A3 p q Hp). f_equal. apply holds_agree. intros x s Hx.
          apply upds_notin. intros Hin. apply (T3 _ Hin). apply (H1 p q (x, s) Hp); auto.
  Qed.
End Split.
Lemma miniscope_split_sound c ps args : r_miniscope_split c ps args = ROk tt -> split_ok c ps args = true -> clause_wt c = true ->
  forallb clause_wt ps = true -> entails ps c.
Proof.
  intros H Hok Hw _ I E HE _. unfold r_miniscope_split in H. ostep H H1. apply one_clause in H1. destruct H1 as [t ->].
  cbn [idx nth_error unwrap obind] in H. ostepn H pp H1. destruct pp as [[[[b o] bs] phis] rs]. apply mini_match_ok in H1. destruct H1 as [-> Hbo].
  ostepn H un0 H1. destruct un0. apply len_is_ok in H1. rename H1 into Hl. ostepn H un1 H1. destruct un1. rename H1 into Hsp. apply rassert_ok in H.
  assert (Hq : b = BForall \/ b = BExists) by tauto. cbn [split_ok] in Hok. rewrite op2_tEq in Hok.
  apply eq_by_truth; auto; [apply quant_sort; auto|]. apply (sgn_inj b). rewrite holds_quant by auto.
  assert (HT : forall (E : env I) l, sgn b (holds E (TOp o l)) = existsb (fun p => sgn b (holds E p)) l).
  { intros E0 l. destruct Hbo as [[-> ->]|[-> ->]]; [apply holds_or|]. rewrite holds_and. unfold sgn. cbn [binder_beq].
    induction l as [|a l IH]; [reflexivity|]. cbn [existsb forallb]. rewrite negb_andb, IH. reflexivity. }
  assert (Hf : forall v, In v bs -> free_in (fst v) (snd v) (TOp o rs) = false).
  { intros v Hv. apply svmem_free; [exact Hok|]. apply negb_true_iff in H. destruct (svmem v (fvars (TOp o rs))) eqn:Em; [|reflexivity].
    rewrite <- H. symmetry. apply existsb_exists. eauto. }
  assert (Hc1 : forall phi, In phi phis -> exists r, In (phi, r) (combine phis rs)).
  { clear - Hl. revert rs Hl. induction phis as [|p phis IH]; intros [|r rs] Hl phi Hp; try discriminate; [destruct Hp|]; destruct Hp as [->|Hp]; cbn; eauto.
    destruct (IH rs ltac:(cbn in Hl; lia) _ Hp) as [r' Hr]. eauto. }
  assert (Hc2 : forall r, In r rs -> exists phi, In (phi, r) (combine phis rs)).
  { clear - Hl. revert rs Hl. induction phis as [|p phis IH]; intros [|r rs] Hl phi Hp; try discriminate; [destruct Hp|]; destruct Hp as [->|Hp]; cbn; eauto.
    destruct (IH rs ltac:(cbn in Hl; lia) _ Hp) as [r' Hr]. eauto. }
  assert (Hfr : forall phi r v, In (phi, r) (combine phis rs) -> In v bs -> free_in (fst v) (snd v) r = false).
  { intros phi r v Hp Hv. specialize (Hf v Hv). cbn [free_in] in Hf. destruct (free_in (fst v) (snd v) r) eqn:Ef; [|reflexivity].
    rewrite <- Hf. symmetry. apply existsb_exists. exists r. split; [|auto]. apply in_combine_r in Hp. exact Hp. }
  destruct (split_pairs_ok (I := I) b bs Hq _ _ Hsp (incl_refl _) Hfr) as [P1 [P2 P3]].
  rewrite HT. apply eq_true_iff_eq. split.
  - intros Ha. destruct (existsb (fun p => sgn b (holds E p)) rs) eqn:Ex; [reflexivity|]. exfalso.
    destruct (P3 E HE) as [E' [A1 [A2 A3]]].
    { intros phi r Hp. destruct (sgn b (holds E r)) eqn:Er; [|reflexivity]. rewrite <- Ex. symmetry. apply existsb_exists. exists r.
      apply in_combine_r in Hp. auto. }
    apply (eval_all_inst bs _ E E' A1) in Ha. cbn beta in Ha. rewrite HT in Ha. apply existsb_exists in Ha. destruct Ha as [phi [Hp Ha]].
    destruct (Hc1 _ Hp) as [r Hr]. rewrite <- (holds_agree E') in Ha; [rewrite (A3 _ _ Hr) in Ha; discriminate|].
    intros x s _. symmetry. apply upds_self. destruct (svmem (x, s) bs) eqn:Em; [left; apply svmem_In; auto|right]. symmetry. apply A2.
    intros Hin. apply svmem_In in Hin. congruence.
  - intros Ha. apply eval_all_true. intros vals Hd. rewrite HT. apply existsb_exists in Ha. destruct Ha as [r [Hr Ha]].
    destruct (Hc2 _ Hr) as [phi Hp]. apply existsb_exists. exists phi. split; [apply in_combine_l in Hp; exact Hp|].
    assert (HE' : env_ok (upds E bs vals)) by (apply env_ok_upds; auto).
    assert (Ha' : sgn b (holds (upds E bs vals) r) = true).
    { rewrite <- Ha. f_equal. apply holds_agree. intros x s Hx. apply upds_notin. intros Hin. pose proof (Hfr _ _ _ Hp Hin) as Hz. cbn [fst snd] in Hz. congruence. }
    destruct (P1 _ _ Hp) as [->|[vs ->]]; [exact Ha'|]. rewrite holds_quant in Ha' by auto. apply (eval_all_inst vs _ _ (upds E bs vals) HE') in Ha'.
    rewrite <- Ha'. f_equal. apply holds_agree. intros x s _. symmetry. apply upds_self. auto.
Qed.
Definition miniscope_ite_ok (c : clause) (_ : list clause) (_ : list term) : bool :=
  match c with
  | [x] => match op2 OEquals x with Some (_, r) => match op3 OIte r with Some (p, _, _) => no_let p | None => false end | _ => false end
  | _ => false
  end.
Lemma miniscope_ite_sound c ps args : r_miniscope_ite c ps args = ROk tt -> miniscope_ite_ok c ps args = true -> clause_wt c = true ->
  forallb clause_wt ps = true -> entails ps c.
Proof.
  intros H Hok Hw _ I E HE _. unfold r_miniscope_ite in H. ostep H H1. apply one_clause in H1. destruct H1 as [t ->].
  cbn [idx nth_error unwrap obind] in H. ostepn H pp H1. destruct pp as [l r]. apply m_op2_ok in H1. cbn [fst snd] in *. subst t.
  ostepn H pp H1. destruct pp as [bs body]. apply m_bind_ok in H1. cbn [fst snd] in *. subst l.
  ostepn H pp H1. destruct pp as [[p1 p2] p3]. apply m_op3_ok in H1. cbn [fst snd] in *. subst body.
  ostepn H pp H1. destruct pp as [[q1 q2] q3]. apply m_op3_ok in H1. cbn [fst snd] in *. subst r.
  ostepn H pp H1. destruct pp as [b2 r2]. apply m_bind_ok in H1. cbn [fst snd] in *. subst q2.
  ostepn H pp H1. destruct pp as [b3 r3]. apply m_bind_ok in H1. cbn [fst snd] in *. subst q3.
  ostep H H1. apply teq_ok in H1. subst q1. ostep H H1. apply teq_ok in H1. subst r2. ostep H H1. apply teq_ok in H1. subst r3.
  ostep H H1. apply rassert_ok, binds_eqb_eq in H1. subst b2. ostep H H1. apply rassert_ok, binds_eqb_eq in H1. subst b3. apply rassert_ok in H.
  cbn in Hok.
  apply eq_by_truth; auto. rewrite holds_ite.
  assert (Hf : forall v, In v bs -> free_in (fst v) (snd v) p1 = false).
  { intros v Hv. apply svmem_free; [exact Hok|]. apply negb_true_iff in H. destruct (svmem v (fvars p1)) eqn:Em; [|reflexivity].
    rewrite <- H. symmetry. apply existsb_exists. eauto. }
  assert (Hc : forall vals, holds (upds E bs vals) p1 = holds E p1).
  { intros vals. apply holds_agree. intros x s Hx. apply upds_notin. intros Hin. specialize (Hf _ Hin). cbn [fst snd] in Hf. congruence. }
  change (holds E (TBind BForall bs (TOp OIte [p1; p2; p3]))) with (eval_all bs (fun E' => holds E' (TOp OIte [p1; p2; p3])) E).
  change (holds E (TBind BForall bs p2)) with (eval_all bs (fun E' => holds E' p2) E).
  change (holds E (TBind BForall bs p3)) with (eval_all bs (fun E' => holds E' p3) E).
  destruct (holds E p1) eqn:E1; apply eval_all_ext; intros vals Hd; rewrite holds_ite, Hc; reflexivity.
Qed.
