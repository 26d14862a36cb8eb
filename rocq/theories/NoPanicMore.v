(** More rules that never panic: arithmetic simplification without division by zero, ac_simp, and the quantifier rules that only
    compare terms. *)
From Coq Require Import List String ZArith NArith QArith Bool Arith Lia.
From Verif Require Import Base Term Field Sem Sorting Rules Utils R_Taut Num R_LA R_Simp R_SimpArith R_AC R_Binder R_Quant NoPanic.
Import ListNotations.
Local Open Scope nat_scope.

Lemma concl_args c o t x : m_op2 o t = ROk x -> c = [t] -> clause_wt c = true -> forallb nodiv0 c = true ->
  wt (fst x) = true /\ wt (snd x) = true /\ nodiv0 (fst x) = true /\ nodiv0 (snd x) = true.
Proof.
  intros H -> Hw Hd. apply m_op2_ok in H. subst t. unfold clause_wt in Hw. cbn [forallb] in Hw, Hd. rewrite andb_true_r in Hw, Hd.
  unfold bool_term in Hw. apply andb_true_iff in Hw. destruct Hw as [Hw _]. apply op_wt_of in Hw. destruct Hw as [Hw _]. apply nodiv0_args in Hd.
  cbn [forallb] in Hw, Hd. rewrite andb_true_r in Hw, Hd. apply andb_true_iff in Hw, Hd. tauto.
Qed.
Lemma np_any_fraction l : forallb nodiv0 l = true -> any_fraction l <> RPanic.
Proof.
  induction l as [|t l IH]; intros H; cbn [any_fraction]; [discriminate|]. cbn [forallb] in H. apply andb_true_iff in H.
  apply np_bind; [apply np_fraction; tauto|]. intros [q|] _; [discriminate|]. apply IH. tauto.
Qed.
Lemma np_loop k l : forall res q, forallb nodiv0 l = true -> sum_prod_loop k l res q <> RPanic.
Proof.
  induction l as [|t l IH]; intros res q H; cbn [sum_prod_loop]; [discriminate|]. cbn [forallb] in H. apply andb_true_iff in H.
  apply np_bind; [apply np_fraction; tauto|]. intros [f|] _; cbv zeta; [|apply IH; tauto]. destruct (_ && _); [discriminate|]. apply IH. tauto.
Qed.
Lemma np_sum_prod k ts u : In k [OAdd; OMult] -> wt u = true -> nodiv0 ts = true -> nodiv0 u = true -> sum_prod ts u k <> RPanic.
Proof.
  intros Hk Hw Ht Hu. unfold sum_prod. apply np_bind.
  - destruct (as_op k u) as [[|a0 rest]|] eqn:E.
    + apply as_op_some in E. subst u. destruct Hk as [<-|[<-|[]]]; discriminate Hw.
    + apply as_op_some in E. subst u. apply nodiv0_args in Hu. cbn [forallb] in Hu. apply andb_true_iff in Hu.
      apply np_bind; [apply np_any_fraction; tauto|]. intros [|] _; [discriminate|]. apply np_bind; [apply np_fraction; tauto|].
      intros [q|] _; [destruct (Qeq_bool _ _)|]; discriminate.
    + apply np_bind; [apply np_fraction; auto|]. intros [q|] _; discriminate.
  - intros [uc ua] _. apply np_bind; [apply np_m_ops|]. intros tl Htl. apply m_ops_ok in Htl. subst ts. apply nodiv0_args in Ht.
    apply np_bind; [apply np_loop; auto|]. intros [res tot] _. destruct (match res with [r] => _ | _ => false end); [discriminate|apply np_rassert].
Qed.
Lemma sum_prod_safe k c ps args : In k [OAdd; OMult] -> clause_wt c = true -> forallb nodiv0 c = true -> sum_prod_rule k c ps args <> RPanic.
Proof.
  intros Hk Hw Hd. unfold sum_prod_rule. npstep. cbn [idx nth_error unwrap obind]. apply np_bind; [apply np_m_op2|]. intros [x y] H.
  eapply concl_args in H; eauto. cbn [fst snd] in H.
  destruct (sum_prod y x k) eqn:E; [discriminate| |].
  - apply np_sum_prod; tauto.
  - exfalso. revert E. apply np_sum_prod; tauto.
Qed.
Lemma signed_int t q : wt t = true -> sort_of t = SInt -> as_signed_number t = Some q -> Qis_int q = true.
Proof.
  intros Hw Hs H. unfold as_signed_number in H. destruct (op1 OSub t) as [x|] eqn:E.
  - apply op1_some in E. subst t. destruct (as_number x) as [r|] eqn:Er; [|discriminate]. injection H as <-.
    destruct x as [[z|r'| |]| | | | | | |]; try discriminate; injection Er as <-; try (cbn in Hs; discriminate).
    unfold Qis_int. cbn. rewrite Z.mod_1_r. reflexivity.
  - destruct t as [[z|r'| |]| | | | | | |]; try discriminate; injection H as <-; try (cbn in Hs; discriminate).
    unfold Qis_int. cbn. rewrite Z.mod_1_r. reflexivity.
Qed.
Lemma div_simplify_safe c ps args : clause_wt c = true -> forallb nodiv0 c = true -> r_div_simplify c ps args <> RPanic.
Proof.
  intros Hw Hd. unfold r_div_simplify. npstep. cbn [idx nth_error unwrap obind]. apply np_bind; [apply np_m_op2|]. intros [lhs rhs] H.
  eapply concl_args in H; eauto. cbn [fst snd] in H. destruct H as [W1 [W2 [D1 D2]]].
  assert (G : (do nd <- (match op2 OIntDiv lhs with
                | Some v => ROk (v, true)
                | None => do v <- m_op2 ORealDiv lhs ; ROk (v, false)
                end) ;
      let '((numer, denom), is_int_div) := nd in
      if term_eqb numer denom then
        do q <- as_signed_number_err rhs ; rassert (Qeq_bool q 1)
      else if match as_number denom with Some n => Qeq_bool n 1 | None => false end then teq rhs numer
      else
        do d <- as_signed_number_err denom ;
        if Qeq_bool d 0 then RErr else
        do n <- as_signed_number_err numer ;
        do expected <- (if is_int_div
                        then if Qis_int n && Qis_int d then ROk (inject_Z (ediv (Qnumer n) (Qnumer d))) else RPanic
                        else ROk (n / d)%Q) ;
        do q <- as_fraction_err rhs ; rassert (Qeq_bool q expected)) <> RPanic).
  { apply np_bind; [np|]. intros [[numer denom] isint] Hnd.
    assert (Hint : isint = true -> forall q, (as_signed_number numer = Some q \/ as_signed_number denom = Some q) -> Qis_int q = true).
    { intros -> q Hq. destruct (op2 OIntDiv lhs) as [[n0 d0]|] eqn:E.
      - injection Hnd as <- <-. apply op2_some in E. cbn [fst snd] in E. subst lhs. apply op_wt_of in W1. destruct W1 as [W1 Ho]. cbn [forallb] in W1. rewrite andb_true_r in W1.
        apply andb_true_iff in W1. cbn [op_wt map] in Ho. assert (Hs : sort_of n0 = SInt /\ sort_of d0 = SInt).
        { cbn in Ho. destruct (sort_of n0), (sort_of d0); try discriminate; auto. }
        destruct Hq as [Hq|Hq]; eapply signed_int; try exact Hq; tauto.
      - apply obind_ok in Hnd. destruct Hnd as [v [_ Hnd]]. discriminate. }
    destruct (term_eqb numer denom); [apply np_bind; [apply np_signed|intros; apply np_rassert]|].
    destruct (match as_number denom with Some n => Qeq_bool n 1 | None => false end); [apply np_teq|].
    apply np_bind; [apply np_signed|]. intros d Hd'. apply ok_or_ok in Hd'. destruct (Qeq_bool d 0); [discriminate|].
    apply np_bind; [apply np_signed|]. intros n Hn. apply ok_or_ok in Hn.
    apply np_bind.
    - destruct isint; [|discriminate]. rewrite (Hint eq_refl n), (Hint eq_refl d) by auto. discriminate.
    - intros e _. apply np_bind; [|intros; apply np_rassert]. apply np_bind; [apply np_fraction; auto|]. intros; apply np_ok_or. }
  destruct lhs; try exact G. np.
Qed.
Lemma minus_safe : rule_safe r_minus_simplify.
Proof.
  np_start r_minus_simplify. assert (G : forall a b u, minus_check a b u <> RPanic).
  { intros a b u. unfold minus_check. repeat (np; try apply np_signed; try apply np_number). }
  np; apply G.
Qed.
Lemma ac_safe : rule_safe r_ac_simp.
Proof. np_start r_ac_simp. np. Qed.

(** the fixed-point loop for a step function that is safe on some terms and stays among them *)
Lemma np_fix_on (P : term -> Prop) f t goal : terminating f -> (forall u, P u -> f u <> RPanic) -> (forall u v, P u -> f u = ROk (Some v) -> P v) ->
  P t -> fix_point f t goal <> RPanic.
Proof.
  intros Ht Hf Hk HP. unfold fix_point. destruct (Ht t goal) as [r [Hr _]]. rewrite Hr. intros ->. revert Hr.
  assert (G : forall n seen u, P u -> until_fixed f n seen u goal <> Some RPanic); [|apply G; auto].
  induction n as [|n IH]; intros seen u Hu; cbn [until_fixed]; [discriminate|]. destruct (memb term_eqb u seen); [discriminate|].
  destruct (f u) as [[next|]| |] eqn:E; try discriminate; [destruct (term_eqb next goal); [discriminate|apply IH; eapply Hk; eauto]|]. destruct (Hf _ Hu E).
Qed.
Lemma comp_simplify_safe c ps args : clause_wt c = true -> forallb nodiv0 c = true -> r_comp_simplify c ps args <> RPanic.
Proof.
  intros Hw Hd. unfold r_comp_simplify, generic_simplify. npstep. cbn [idx nth_error unwrap obind]. apply np_bind; [apply np_m_op2|]. intros [x y] H.
  eapply concl_args in H; eauto. cbn [fst snd] in H.
  assert (A : forall o u p q, op2 o u = Some (p, q) -> nodiv0 u = true -> nodiv0 p = true /\ nodiv0 q = true).
  { intros o u p q E Hu. apply op2_some in E. cbn [fst snd] in E. subst u. apply nodiv0_args in Hu. cbn [forallb] in Hu. rewrite andb_true_r in Hu. apply andb_true_iff in Hu. exact Hu. }
  assert (P1 : forall u, nodiv0 u = true -> comp_step u <> RPanic).
  { intros u Hu. unfold comp_step. destruct (op2 OLt u) as [[p q]|] eqn:E1.
    - apply A in E1; auto. apply np_bind; [apply np_fraction; tauto|]. intros fa _. apply np_bind; [apply np_fraction; tauto|discriminate].
    - destruct (op2 OLe u) as [[p q]|] eqn:E2.
      + apply A in E2; auto. apply np_bind; [apply np_fraction; tauto|]. intros fa _. apply np_bind; [apply np_fraction; tauto|discriminate].
      + destruct (op2 OGe u) as [[p q]|]; [discriminate|]. destruct (op2 OGt u) as [[p q]|]; discriminate. }
  assert (P2 : forall u v, nodiv0 u = true -> comp_step u = ROk (Some v) -> nodiv0 v = true).
  { intros u v Hu. unfold comp_step.
    assert (B : forall o p q, In o [OLe] -> nodiv0 p = true -> nodiv0 q = true -> nodiv0 (TOp o [p; q]) = true).
    { intros o p q [<-|[]] Hp Hq. cbn [nodiv0 forallb]. rewrite Hp, Hq. reflexivity. }
    assert (C : forall b, nodiv0 (tBool b) = true) by (intros []; reflexivity).
    assert (N : forall t0, nodiv0 t0 = true -> nodiv0 (tNot t0) = true) by (intros t0 Ht; unfold tNot; cbn [nodiv0 forallb]; rewrite Ht; reflexivity).
    destruct (op2 OLt u) as [[p q]|] eqn:E1.
    - apply A in E1; auto. intros K. apply obind_ok in K. destruct K as [fa [_ K]]. apply obind_ok in K. destruct K as [fb [_ K]]. injection K as <-.
      assert (D : nodiv0 (if term_eqb p q then tFalse else tNot (TOp OLe [q; p])) = true) by (destruct (term_eqb p q); [reflexivity|apply N, B; cbn; tauto]).
      destruct fa, fb; auto.
    - destruct (op2 OLe u) as [[p q]|] eqn:E2.
      + apply A in E2; auto. intros K. apply obind_ok in K. destruct K as [fa [_ K]]. apply obind_ok in K. destruct K as [fb [_ K]]. injection K as K.
        destruct fa, fb; [injection K as <-; apply C|destruct (term_eqb p q); [injection K as <-; reflexivity|discriminate]..].
      + destruct (op2 OGe u) as [[p q]|] eqn:E3; [|destruct (op2 OGt u) as [[p q]|] eqn:E4; [|discriminate]]; intros K; injection K as <-.
        * apply A in E3; auto. apply B; cbn; tauto.
        * apply A in E4; auto. apply N, B; cbn; tauto. }
  apply np_bind; [apply (np_fix_on (fun u => nodiv0 u = true)); auto; [apply comp_term|tauto]|]. intros res _. destruct (term_eqb res y); [discriminate|].
  apply np_bind; [apply (np_fix_on (fun u => nodiv0 u = true)); auto; [apply comp_term|tauto]|]. intros back _. apply np_rassert.
Qed.

(** ** Quantifier rules *)
Lemma np_mini b1 o1 b2 o2 x : mini_match b1 o1 b2 o2 x <> RPanic.
Proof. unfold mini_match. np. Qed.
Lemma np_take bs : forall set, take_all bs set <> RPanic.
Proof. induction bs as [|v bs IH]; intros set; cbn [take_all]; [discriminate|]. destruct (svmem v set); [apply IH|discriminate]. Qed.
Lemma np_split b ps : forall set, split_pairs b set ps <> RPanic.
Proof.
  induction ps as [|[phi r] ps IH]; intros set; cbn [split_pairs]; [discriminate|]. destruct (term_eqb phi r); [apply IH|].
  apply np_bind; [apply np_m_bind|]. intros bi _. apply np_bind; [apply np_teq|]. intros _ _. apply np_bind; [apply np_take|]. intros; apply IH.
Qed.
Definition quant_rules : list (string * rule) :=
  [("qnt_join", r_qnt_join); ("qnt_rm_unused", r_qnt_rm_unused); ("miniscope_distribute", r_miniscope_distribute);
   ("miniscope_split", r_miniscope_split); ("miniscope_ite", r_miniscope_ite)]%string.
Lemma quant_safe name r : In (name, r) quant_rules -> rule_safe r.
Proof.
  intros H. unfold quant_rules in H. in_list H.
  all: unfold r_qnt_join, r_qnt_rm_unused, r_miniscope_distribute, r_miniscope_split, r_miniscope_ite.
  all: repeat (np; try apply np_mini; try apply np_split; unfold mini_pair).
Qed.
