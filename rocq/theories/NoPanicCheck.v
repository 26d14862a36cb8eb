(** The checker never panics on proofs whose references are in range, whose subproofs end with a step, and whose steps are outside
    the cases in which a rule panics. *)
From Coq Require Import List String ZArith NArith QArith Bool Arith Lia.
From Verif Require Import Base Term Field Sem Sorting Rules Utils Num R_Taut R_Claus R_Resolution R_Eq R_Extras R_LA R_Simp R_SimpArith R_AC R_Binder R_Quant R_Bv BvSound
  Polyeq PBSound StrSound2 Subst Checker CheckerSound Context Table R_PB NoPanic NoPanicBv NoPanicPoly NoPanicMore NoPanicCtx NoPanicRules NoPanicStr NoPanicPrem
  R_CP R_Rare FullTable NoPanicFull.
Import ListNotations.
Local Open Scope nat_scope.
Local Open Scope string_scope.

(** ** The cases of each rule that do not panic *)
(** la_mult_pos, la_mult_neg: the second hypothesis, if it is an operation, is a comparison *)
Definition mult_ok (c : clause) : bool :=
  match c with
  | [TOp OImplies [TOp OAnd [_; TOp o _]; _]] => memb op_eqb o [OEquals; OLt; OGt; OLe; OGe]
  | _ => true
  end.
Definition bv_names : list string := map fst bv_rules.
Definition arith_names : list string := ["la_generic"; "la_tautology"; "sum_simplify"; "prod_simplify"; "comp_simplify"; "div_simplify"].
Definition ctx_names : list string := ["refl"; "bind"; "let"; "onepoint"; "sko_ex"; "sko_forall"; "bind_let"].
Definition str_names : list string := map fst str_partial.
Definition pb_names : list string := "pbblast_pbbvar" :: map fst pb_partial.
(** the rules that Table.v leaves open; they are covered for the table of FullTable.v, except for cp_division and cp_saturation, which panic
    when the first premise is the empty clause *)
Definition uncovered : list string := unmodelled.
Definition full_quiet (name : string) (c : clause) : bool :=
  memb String.eqb name ["cp_addition"; "cp_multiplication"; "rare_rewrite"] || (String.eqb name "cp_literal" && negb (Nat.eqb (List.length c) 0)).
(** what is asked of all clauses of the proof, so that it holds for the premises of the rules that need it *)
Record flags := mkFlags {
  fl_div : bool;    (* no division by a zero numeral: poly_simp_rel *)
  fl_calm : bool;   (* no [let] and no real division: bfun_elim *)
  fl_str : bool;    (* no empty strings: the cprop rules *)
  fl_full : bool    (* not a condition on clauses: the rules that Table.v leaves open are those of FullTable.v *) }.
Definition extra_ok (f : flags) (t : term) : bool := (negb (fl_div f) || nodiv0 t) && (negb (fl_calm f) || calm t) && (negb (fl_str f) || noempty t).
Section Flags.
Variable fl : flags.
(** the condition on a step inside subproofs with the anchors [cx] *)
Definition quiet (cx : list (list anchor)) (name : string) (c : clause) (args : list term) : bool :=
  if memb String.eqb name uncovered then fl_full fl && full_quiet name c
  else if memb String.eqb name bv_names then pos_clause c && (negb (String.eqb name "bitblast_equal") || bv_equation c)
  else if memb String.eqb name ["la_mult_pos"; "la_mult_neg"] then mult_ok c
  else if memb String.eqb name arith_names then forallb nodiv0 c && forallb nodiv0 args
  else if memb String.eqb name ["poly_simp"; "bv_poly_simp"] then forallb nodiv0 c
  else if memb String.eqb name ctx_names then forallb calm c && forallb (forallb anchor_calm) cx
  else if String.eqb name "forall_inst" then forallb calm c && forallb calm args
  else if memb String.eqb name ["drup"; "drat"] then forallb drup_arg args
  else if memb String.eqb name ["poly_simp_rel"; "bv_poly_simp_eq"] then fl_div fl
  else if String.eqb name "bfun_elim" then fl_calm fl
  else if String.eqb name "evaluate" then forallb ev_calm c
  else if memb String.eqb name cprop_names then fl_str fl
  else if memb String.eqb name str_names then forallb tame args
  else if memb String.eqb name pb_names then negb (Nat.eqb (List.length c) 0) && pos_clause c
  else true.

(** a well-sorted clause whose terms can be compared *)
Definition good_clause (c : clause) : bool := clause_wt c && forallb tame c && forallb (extra_ok fl) c.
Definition good_cmd (c : command) : Prop := exists cl, cmd_clause c = Some cl /\ good_clause cl = true.
Record good_ra (ra : rargs) : Prop := {
  g_concl : good_clause (ra_concl ra) = true;
  g_prems : forallb clause_wt (ra_prems ra) = true;
  g_tame : forallb (forallb tame) (ra_prems ra) = true;
  g_extra : forallb (forallb (extra_ok fl)) (ra_prems ra) = true;
  g_args : forallb small (ra_args ra) = true;
  g_prev : forall p, ra_prev ra = Some p -> good_clause p = true /\ ra_ctx ra <> [];
  g_disch : Forall good_cmd (ra_disch ra) }.

Lemma mult_safe b c ps args : mult_ok c = true -> la_mult_generic b c ps args <> RPanic.
Proof.
  intros Hm. unfold la_mult_generic. apply np_bind; [apply np_len_is|]. intros u0 Hlen0; apply len_is_ok in Hlen0. destruct c as [|x [|? ?]]; try discriminate.
  cbn [idx nth_error unwrap obind]. apply np_bind; [apply np_m_op2|]. intros [h sc] Hi. apply m_op2_ok in Hi. cbn [fst snd] in *. subst x.
  apply np_bind; [apply np_m_op2|]. intros [mz orig] Ha. apply m_op2_ok in Ha. cbn [fst snd] in *. subst h.
  apply np_bind; [apply np_m_op2|]. intros mm _. apply np_bind; [apply np_number|]. intros z _. apply np_bind; [apply np_rassert|]. intros _ _.
  destruct orig as [| | |o l| | | |]; try discriminate. cbn [mult_ok] in Hm. apply (memb_In op_eqb op_eqb_eq) in Hm.
  apply np_bind; [apply np_len_is|]. intros u1 Hl; apply len_is_ok in Hl. destruct l as [|a [|b0 [|? ?]]]; try discriminate. cbn [idx nth_error unwrap obind].
  assert (X : exists o', (if b then ROk o else flip_cmp o) = ROk o' /\ In o' [OEquals; OLt; OGt; OLe; OGe]).
  { cbn [In] in Hm. destruct Hm as [<-|[<-|[<-|[<-|[<-|[]]]]]]; destruct b; eexists; (split; [reflexivity|cbn; tauto]). }
  destruct X as [o' [-> Ho']]. cbn [obind].
  apply np_bind; [cbn [In] in Ho'; destruct Ho' as [<-|[<-|[<-|[<-|[<-|[]]]]]]; apply np_m_op2|]. intros mlr _. np.
Qed.
Lemma memb_map_fst {A} name (a : A) l : In (name, a) l -> memb String.eqb name (map fst l) = true.
Proof. intros H. apply (memb_In String.eqb String.eqb_eq). apply in_map_iff. exists (name, a). auto. Qed.
Lemma bv_covered n : memb String.eqb n bv_names = true -> memb String.eqb n uncovered = false.
Proof.
  assert (H : forallb (fun x => negb (memb String.eqb x uncovered)) bv_names = true) by (vm_compute; reflexivity). intros Hn.
  apply (memb_In String.eqb String.eqb_eq) in Hn. rewrite forallb_forall in H. apply H in Hn. apply negb_true_iff in Hn. exact Hn.
Qed.
(** the rules that Table.v leaves open *)
Definition other_fine (other : bool -> string -> crule) : Prop :=
  fl_full fl = true -> exists show rules, rare_all_fine rules = true /\ forall elab name, other elab name = full_other show rules elab name.
Lemma full_safe show rules elab name ra : rare_all_fine rules = true -> full_quiet name (ra_concl ra) = true -> full_other show rules elab name ra <> RPanic.
Proof.
  intros Hr Hq. unfold full_quiet in Hq. apply orb_true_iff in Hq. destruct Hq as [Hq|Hq].
  - apply (memb_In String.eqb String.eqb_eq) in Hq. cbn [In] in Hq. destruct Hq as [<-|[<-|[<-|[]]]]; cbn.
    + apply cp_addition_safe.
    + apply cp_multiplication_safe.
    + apply rare_safe. exact Hr.
  - apply andb_true_iff in Hq. destruct Hq as [H1 H2]. apply String.eqb_eq in H1. subst name. apply cp_literal_safe. intros E. cbn in E. rewrite E in H2. discriminate.
Qed.
Lemma good_parts c : good_clause c = true -> clause_wt c = true /\ forallb tame c = true /\ forallb (extra_ok fl) c = true.
Proof. unfold good_clause. rewrite !andb_true_iff. tauto. Qed.
Lemma extra_all (Q : term -> bool) : (forall t, extra_ok fl t = true -> Q t = true) -> forall ps, forallb (forallb (extra_ok fl)) ps = true -> forallb (forallb Q) ps = true.
Proof. intros H ps Hp. apply forallb_forall. intros c Hc. apply forallb_forall. intros t Ht. rewrite forallb_forall in Hp. specialize (Hp c Hc). rewrite forallb_forall in Hp. auto. Qed.
Lemma extra_div : fl_div fl = true -> forall t, extra_ok fl t = true -> nodiv0 t = true.
Proof. intros H t. unfold extra_ok. rewrite H, !andb_true_iff. tauto. Qed.
Lemma extra_calm : fl_calm fl = true -> forall t, extra_ok fl t = true -> calm t = true.
Proof. intros H t. unfold extra_ok. rewrite H, !andb_true_iff. tauto. Qed.
Lemma extra_str : fl_str fl = true -> forall t, extra_ok fl t = true -> noempty t = true.
Proof. intros H t. unfold extra_ok. rewrite H, !andb_true_iff. tauto. Qed.

Lemma pb_cond (c : clause) : negb (Nat.eqb (List.length c) 0) && pos_clause c = true -> c <> [] /\ pos_clause c = true.
Proof. intros H. apply andb_true_iff in H. destruct H as [H1 H2]. split; [|exact H2]. intros ->. discriminate. Qed.
Lemma pb_safe n r ok c ps args : In (n, (r, ok)) pb_partial -> c <> [] -> pos_clause c = true -> clause_wt c = true -> r c ps args <> RPanic.
Proof.
  intros H Hc Hp Hw. unfold pb_partial in H. cbn [In] in H. repeat match type of H with _ \/ _ => destruct H as [H|H] end; [..|destruct H]; injection H as _ <- _.
  1-5: apply unsigned_safe; [|exact Hc]; intros [[x y] [a b]]; apply np_constraint.
  - apply signed_lt_safe; auto.
  - apply signed_gt_safe; auto.
  - apply signed_gt_safe; auto.
  - apply signed_lt_safe; auto.
  - apply pb_const_safe; auto.
  - apply bitwise_safe; auto using xor_bit_safe. left; reflexivity.
  - apply bitwise_safe; auto using and_bit_safe. right; left; reflexivity.
  - apply xor_ith_safe; auto.
  - apply and_ith_safe; auto.
Qed.

Lemma np_disch ds : forall c, Forall good_cmd ds -> forallb tame c = true -> disch_ok ds c <> RPanic.
Proof.
  induction ds as [|d ds IH]; intros [|t c] Hd Hc; cbn [disch_ok]; try discriminate; try (destruct d; discriminate). inversion Hd as [|? ? Hd1 Hd2]; subst.
  cbn [forallb] in Hc. apply andb_true_iff in Hc. destruct Hc as [Hc1 Hc2]. destruct d as [id a| |]; try discriminate.
  destruct Hd1 as [cl [E G]]. injection E as <-. apply good_parts in G. destruct G as [_ [G _]]. cbn [forallb] in G. rewrite andb_true_r in G.
  apply np_bind; [apply np_rm_neg|]. intros t' Ht. apply rm_neg_ok in Ht. subst t. apply np_bind; [|intros _ _; apply IH; auto].
  apply np_assert_polyeq; [exact G|]. unfold tNot in Hc1. cbn [tame forallb] in Hc1. apply andb_true_iff in Hc1. destruct Hc1 as [_ Hc1]. rewrite andb_true_r in Hc1. exact Hc1.
Qed.
Lemma subproof_good ra : good_ra ra -> subproof ra <> RPanic.
Proof.
  intros [Hc _ _ _ _ Hp Hd]. unfold subproof. apply good_parts in Hc. destruct Hc as [_ [Hc _]].
  apply np_bind; [apply np_ok_or|]. intros prev Hprev. apply ok_or_ok in Hprev. destruct (Hp _ Hprev) as [Hpg _]. apply good_parts in Hpg. destruct Hpg as [_ [Hpg _]].
  apply np_bind; [apply np_rassert|]. intros [] Hl. apply rassert_ok, Nat.eqb_eq in Hl. apply np_bind; [apply np_disch; auto|]. intros _ _.
  apply np_bind; [destruct prev as [|p [|? ?]]; discriminate|]. intros phi Hphi. apply np_bind; [apply np_nth; lia|]. intros l Hl'.
  apply np_assert_polyeq.
  - unfold unwrap in Hl'. destruct (nth_error (ra_concl ra) _) eqn:E; [|discriminate]. injection Hl' as <-. apply nth_error_In in E. rewrite forallb_forall in Hc. auto.
  - destruct prev as [|p [|? ?]]; try discriminate; injection Hphi as <-; [reflexivity|]. cbn [forallb] in Hpg. rewrite andb_true_r in Hpg. exact Hpg.
Qed.

Section Table.
  Variable other : bool -> string -> crule.
  Lemma entry_safe elab name e ra : In (name, e) (entries elab) -> quiet (ra_ctx ra) name (ra_concl ra) (ra_args ra) = true -> good_ra ra -> e_run e ra <> RPanic.
  Proof.
    intros HI Hq Hg. pose proof Hg as [Hc Hps Htp Hex Hargs Hprev Hd]. apply good_parts in Hc. destruct Hc as [Hw [Ht _]].
    assert (S1 : forall r, rule_safe r -> plain r ra <> RPanic) by (intros r Hr; apply Hr; auto).
    assert (Hpc : ra_prev ra <> None -> ra_ctx ra <> []). { intros Hn. destruct (ra_prev ra) as [p|] eqn:E; [|congruence]. apply (Hprev p eq_refl). }
    unfold entries in HI. rewrite !in_app_iff in HI. destruct HI as [H|[H|[H|[H|[H|[]]]]]].
    - apply in_map_iff in H. destruct H as [[n r] [H1 H2]]. injection H1 as <- <-. cbn [e_plain e_run snd fst] in *. unfold plain_rules in H2. rewrite !in_app_iff in H2.
      destruct H2 as [H|[H|[H|[H|[H|[H|[H|[H|H]]]]]]]].
      + apply S1. eapply taut_safe; eauto.
      + apply S1. eapply taut_prem_safe; eauto.
      + apply S1. eapply claus_safe; eauto.
      + apply S1. eapply eq_safe; eauto.
      + apply S1. eapply structural_safe; eauto.
      + unfold la_rules in H. cbn [In] in H. destruct H as [H|[H|[H|[H|[H|[H|[]]]]]]].
        * apply S1. apply (la_safe n). left; exact H.
        * apply S1. apply (la_safe n). right; left; exact H.
        * apply S1. apply (la_safe n). right; right; left; exact H.
        * injection H as <- <-. apply mult_safe. exact Hq.
        * injection H as <- <-. apply mult_safe. exact Hq.
        * apply S1. apply (la_safe n). right; right; right; left; exact H.
      + apply S1. eapply bool_simp_safe; eauto.
      + pose proof (memb_map_fst _ _ _ H) as Hm. unfold quiet in Hq. rewrite (bv_covered n Hm) in Hq. unfold bv_names in Hq. rewrite Hm in Hq. apply andb_true_iff in Hq. destruct Hq as [Hq1 Hq2].
        apply (bv_safe n); auto. intros ->. exact Hq2.
      + cbn [In] in H. destruct H as [H|[H|[H|[H|[H|[H|[H|[H|[H|[H|[]]]]]]]]]]]; injection H as <- <-; try discriminate Hq.
        * apply S1, strict_resolution_safe.
        * apply S1, minus_safe.
        * apply S1, minus_safe.
        * apply S1, ac_safe.
        * apply S1, (quant_safe "qnt_join"). left; reflexivity.
        * apply S1, (quant_safe "miniscope_distribute"). right; right; left; reflexivity.
        * apply drup_safe. exact Hq.
        * apply pb_var_safe. apply pb_cond in Hq. tauto.
        * apply S1, neg_fixed_prefix_safe.
        * apply S1, neg_fixed_suffix_safe.
    - apply in_map_iff in H. destruct H as [[n [r ok]] [H1 H2]]. injection H1 as <- <-. cbn [e_partial e_run snd fst] in *. unfold partial_rules in H2. rewrite !in_app_iff in H2.
      destruct H2 as [H|[H|H]].
      + assert (HA : memb String.eqb n arith_names = true -> quiet (ra_ctx ra) n (ra_concl ra) (ra_args ra) = forallb nodiv0 (ra_concl ra) && forallb nodiv0 (ra_args ra)).
        { intros Hn. apply (memb_In String.eqb String.eqb_eq) in Hn. unfold arith_names in Hn. cbn [In] in Hn. destruct Hn as [<-|[<-|[<-|[<-|[<-|[<-|[]]]]]]]; reflexivity. }
        cbn [In] in H. repeat match type of H with _ \/ _ => destruct H as [H|H] end; try contradiction; injection H as <- <- <-; try discriminate Hq.
        all: try (rewrite HA in Hq by reflexivity; apply andb_true_iff in Hq; destruct Hq as [Hq1 Hq2]).
        * apply la_generic_safe; auto.
        * apply la_tautology_safe; auto.
        * apply (sum_prod_safe OAdd); auto. left; reflexivity.
        * apply (sum_prod_safe OMult); auto. right; left; reflexivity.
        * apply comp_simplify_safe; auto.
        * apply div_simplify_safe; auto.
        * apply S1, aci_safe.
        * apply andb_true_iff in Hq. apply forall_inst_safe; tauto.
        * apply S1, (quant_safe "qnt_rm_unused"). right; left; reflexivity.
        * apply S1, qnt_cnf_safe.
        * apply S1, (quant_safe "miniscope_split"). right; right; right; left; reflexivity.
        * apply S1, (quant_safe "miniscope_ite"). right; right; right; right; left; reflexivity.
        * apply bfun_elim_safe; auto. apply (extra_all calm (extra_calm Hq) _ Hex).
        * apply ite_intro_safe; auto.
        * apply S1, cp_normalize_safe.
        * apply poly_simp_safe; auto.
        * apply poly_simp_safe; auto.
        * apply poly_simp_rel_safe. apply (extra_all nodiv0 (extra_div Hq) _ Hex).
        * apply poly_simp_rel_safe. apply (extra_all nodiv0 (extra_div Hq) _ Hex).
        * apply evaluate_safe; auto.
        * apply drup_safe. exact Hq.
      + assert (Hpb : ra_concl ra <> [] /\ pos_clause (ra_concl ra) = true).
        { apply pb_cond. unfold pb_partial in H. cbn [In] in H. repeat match type of H with _ \/ _ => destruct H as [H|H] end; [..|destruct H]; injection H as <- _ _; exact Hq. }
        destruct Hpb as [Hne Hpos]. eapply pb_safe; eauto.
      + destruct (memb String.eqb n cprop_names) eqn:En.
        { pose proof (memb_In String.eqb String.eqb_eq n cprop_names) as [En' _]. specialize (En' En). unfold cprop_names in En'. cbn [In] in En'.
          assert (Hs : fl_str fl = true) by (destruct En' as [<-|[<-|[]]]; exact Hq). pose proof (extra_all noempty (extra_str Hs) _ Hex) as Hne.
          unfold str_partial in H. cbn [In] in H. repeat match type of H with _ \/ _ => destruct H as [H|H] end; [..|destruct H]; injection H as <- <- _; try discriminate En;
          [apply cprop_prefix_safe|apply cprop_suffix_safe]; auto. }
        assert (Hta : forallb tame (ra_args ra) = true).
        { unfold str_partial in H. cbn [In] in H. repeat match type of H with _ \/ _ => destruct H as [H|H] end; [..|destruct H]; injection H as <- _ _; try discriminate En; exact Hq. }
        apply (str_safe _ _ _ H En); auto.
    - destruct elab; cbn [In] in H; destruct H as [H|[H|[]]]; injection H as <- <-; apply S1; apply resolution_args_safe || apply resolution_safe.
    - assert (HC : memb String.eqb name ctx_names = true -> forall r, safe_ctx r -> r ra <> RPanic).
      { intros Hn r Hr. assert (Hq' : quiet (ra_ctx ra) name (ra_concl ra) (ra_args ra) = forallb calm (ra_concl ra) && forallb (forallb anchor_calm) (ra_ctx ra)).
        { apply (memb_In String.eqb String.eqb_eq) in Hn. unfold ctx_names in Hn. cbn [In] in Hn. destruct Hn as [<-|[<-|[<-|[<-|[<-|[<-|[<-|[]]]]]]]]; reflexivity. }
        rewrite Hq' in Hq. apply andb_true_iff in Hq. apply Hr; tauto. }
      unfold binder_rules in H. cbn [In] in H. destruct H as [H|[H|[H|[H|[H|[H|[H|[]]]]]]]]; injection H as <- <-; (apply HC; [reflexivity|]).
      + destruct elab; [apply strict_refl_calm|apply refl_calm].
      + apply bind_calm.
      + apply let_calm.
      + apply onepoint_calm.
      + apply sko_calm.
      + apply sko_calm.
      + apply bind_let_calm.
    - injection H as <- <-. apply subproof_good, Hg.
  Qed.
  Lemma table_safe elab name r ra : other_fine other -> rule_table other elab name = Some r -> quiet (ra_ctx ra) name (ra_concl ra) (ra_args ra) = true -> good_ra ra -> r ra <> RPanic.
  Proof.
    intros Hother. unfold rule_table. destruct (assoc name (entries elab)) as [e|] eqn:E.
    - intros H. injection H as <-. apply assoc_In in E. eapply entry_safe; eauto.
    - destruct (memb String.eqb name unmodelled) eqn:Eu.
      + intros H Hq _. injection H as <-. unfold quiet, uncovered in Hq. rewrite Eu in Hq. apply andb_true_iff in Hq. destruct Hq as [Hf Hq].
        destruct (Hother Hf) as (show & rules & Hr & Ho). rewrite Ho. apply full_safe; auto.
      + destruct (String.eqb name "hole" || String.eqb name "lia_generic"); [|discriminate]. intros H. injection H as <-. discriminate.
  Qed.
End Table.

(** ** Whole proofs *)
(** a reference (depth, index) to a command of the enclosing lists of commands, whose lengths are [lens], outermost first *)
Definition in_range (lens : list nat) (p : nat * nat) : bool :=
  match nth_error lens (fst p) with Some n => Nat.ltb (snd p) n | None => false end.
Definition step_fine (lens : list nat) (cx : list (list anchor)) (s : step) : bool :=
  good_clause (s_clause s) && forallb small (s_args s) && forallb (in_range lens) (s_prems s) && forallb (in_range lens) (s_disch s)
  && quiet cx (s_rule s) (s_clause s) (s_args s).
Fixpoint cmd_fine (lens : list nat) (cx : list (list anchor)) (c : command) : bool :=
  match c with
  | CAssume _ t => good_clause [t]
  | CStep s => step_fine lens cx s
  | CSub cs a _ => Nat.leb 2 (List.length cs) && (match last cs (CAssume "" tTrue) with CStep _ => true | _ => false end)
      && forallb (cmd_fine (lens ++ [List.length cs]) (a :: cx)) cs
  end.
Definition proof_fine (proof : list command) : bool := forallb (cmd_fine [List.length proof] []) proof.

Lemma fine_shape c : forall lens cx, cmd_fine lens cx c = true -> shape_ok c = true.
Proof.
  induction c as [id t|s|cs a k IH] using command_ind'; intros lens cx H; [reflexivity..|]. cbn [cmd_fine shape_ok] in *. rewrite !andb_true_iff in H. destruct H as [[H1 H2] H3].
  rewrite H1, H2. apply forallb_forall. intros x Hx. rewrite Forall_forall in IH. rewrite forallb_forall in H3. apply (IH x Hx _ _ (H3 x Hx)).
Qed.
Lemma fine_good lens cx c : cmd_fine lens cx c = true -> good_cmd c.
Proof.
  destruct c as [id t|s|cs a k]; cbn [cmd_fine]; intros H.
  - exists [t]. auto.
  - exists (s_clause s). split; [reflexivity|]. unfold step_fine in H. rewrite !andb_true_iff in H. tauto.
  - rewrite !andb_true_iff in H. destruct H as [[H1 H2] H3]. destruct (last cs (CAssume "" tTrue)) as [|s|] eqn:El; try discriminate. apply Nat.leb_le in H1.
    exists (s_clause s). split; [apply cmd_clause_last; [destruct cs; [cbn in H1; lia|discriminate]|exact El]|].
    rewrite forallb_forall in H3. assert (Hs : In (CStep s) cs). { rewrite (list_last cs (CAssume "" tTrue)) by lia. rewrite El. apply in_or_app. right; left; reflexivity. }
    apply H3 in Hs. cbn [cmd_fine] in Hs. unfold step_fine in Hs. rewrite !andb_true_iff in Hs. tauto.
Qed.
(** the open lists of commands *)
Definition stack_fine (lens : list nat) (stk : stack) : Prop :=
  map (fun e => List.length (snd e)) (rev stk) = lens /\ Forall (fun e => Forall good_cmd (snd e)) stk.
Lemma get_command_fine lens stk p : stack_fine lens stk -> in_range lens p = true -> exists c, get_command stk p = ROk c /\ good_cmd c.
Proof.
  intros [H1 H2] Hp. unfold in_range in Hp. unfold get_command. rewrite <- H1, nth_error_map in Hp. destruct (nth_error (rev stk) (fst p)) as [e|] eqn:E; [|discriminate].
  cbn [option_map] in Hp. apply Nat.ltb_lt in Hp. cbn [unwrap obind]. destruct (nth_error (snd e) (snd p)) as [c|] eqn:E2; [|apply nth_error_None in E2; lia].
  exists c. split; [reflexivity|]. apply nth_error_In in E. apply in_rev in E. rewrite Forall_forall in H2. specialize (H2 e E). rewrite Forall_forall in H2.
  apply H2. eapply nth_error_In; eauto.
Qed.
Lemma get_premise_fine lens stk p : stack_fine lens stk -> in_range lens p = true -> exists c, get_premise stk p = ROk c /\ good_clause c = true.
Proof.
  intros Hs Hp. destruct (get_command_fine lens stk p Hs Hp) as [c [E [cl [E2 G]]]]. unfold get_premise. rewrite E. cbn [obind]. rewrite E2. exists cl. auto.
Qed.
Lemma omap_fine {A B} (f : A -> outcome B) (Q : B -> Prop) l : (forall a, In a l -> exists b, f a = ROk b /\ Q b) -> exists bs, omap f l = ROk bs /\ Forall Q bs.
Proof.
  induction l as [|a l IH]; intros H; cbn [omap]; [exists []; auto|]. destruct (H a (or_introl eq_refl)) as [b [E Hb]]. destruct (IH (fun x Hx => H x (or_intror Hx))) as [bs [E2 Hbs]].
  rewrite E, E2. cbn [obind]. exists (b :: bs). auto.
Qed.
Lemma stack_push lens cx a cs stk i : forallb (cmd_fine (lens ++ [List.length cs]) (a :: cx)) cs = true -> stack_fine lens stk -> stack_fine (lens ++ [List.length cs]) ((i, cs) :: stk).
Proof.
  intros Hc [H1 H2]. split; [cbn [rev]; rewrite map_app, H1; reflexivity|]. constructor; [|auto]. cbn [snd]. apply Forall_forall. intros c Hx. rewrite forallb_forall in Hc. eapply fine_good; eauto.
Qed.

Section Check.
  Variable other : bool -> string -> crule.
  Variable cfg : config.
  Variable prems : list term.
  Hypothesis Hprems : forallb tame prems = true.
  Hypothesis Hother : other_fine other.
  Notation table := (rule_table other).

  Lemma np_any t : tame t = true -> forall ps, forallb tame ps = true -> any_polyeq t ps <> RPanic.
  Proof.
    intros Ht. induction ps as [|p ps IH]; intros H; cbn [any_polyeq]; [discriminate|]. cbn [forallb] in H. apply andb_true_iff in H.
    apply np_bind; [|intros [|] _; [discriminate|apply IH; tauto]]. destruct (peq_total cfg_assume t p Ht (proj1 H)) as [r E]. unfold assume_eq. rewrite E. discriminate.
  Qed.
  Lemma np_check_discharge cs : forall i d ds, check_discharge i cs d ds <> RPanic.
  Proof. induction cs as [|c cs IH]; intros i d ds; cbn [check_discharge]; [discriminate|]. destruct (_ && _); [discriminate|apply IH]. Qed.
  Lemma np_do_step lens cx i cs out st s : step_fine lens cx s = true -> stack_fine lens ((i, cs) :: out) -> st_ctx st = cx ->
    (out <> [] -> 2 <= List.length cs /\ cx <> []) -> do_step table cfg ((i, cs) :: out) st s <> RPanic.
  Proof.
    intros Hf Hs Hx Ho. unfold step_fine in Hf. rewrite !andb_true_iff in Hf. destruct Hf as [[[[F1 F2] F3] F4] F5]. rewrite forallb_forall in F3, F4. set (stk := (i, cs) :: out) in *.
    assert (Hprev : exists prev, previous_command stk = ROk prev /\ forall p, prev = Some p -> good_clause p = true /\ cx <> []).
    { unfold previous_command. destruct (is_end_step stk) eqn:Ee; [|exists None; split; [reflexivity|discriminate]].
      assert (Hout : out <> []). { intros ->. discriminate. } destruct (Ho Hout) as [H2 Hcx]. unfold stk. replace (Nat.ltb (List.length cs) 2) with false by (symmetry; apply Nat.ltb_ge; lia).
      destruct (nth_error cs (List.length cs - 2)) as [c|] eqn:E; [|exists None; split; [reflexivity|discriminate]].
      assert (Hc : good_cmd c). { destruct Hs as [_ Hs]. inversion Hs as [|? ? Hs1 _]; subst. cbn [snd] in Hs1. rewrite Forall_forall in Hs1. apply Hs1. eapply nth_error_In; eauto. }
      destruct Hc as [cl [E2 G]]. rewrite E2. exists (Some cl). split; [reflexivity|]. intros p Hp. injection Hp as <-. auto. }
    destruct Hprev as [prev [Ep Hp]].
    destruct (omap_fine (get_premise stk) (fun c => good_clause c = true) (s_prems s)) as [ps [Eps Gps]]; [intros a Ha; eapply get_premise_fine; eauto|].
    destruct (omap_fine (get_command stk) good_cmd (s_disch s)) as [ds [Eds Gds]]; [intros a Ha; eapply get_command_fine; eauto|].
    unfold do_step, mk_rargs. rewrite Ep, Eps, Eds. cbn [obind]. set (ra := mkRA _ _ _ _ _ _).
    assert (Hra : good_ra ra).
    { constructor; cbn [ra ra_concl ra_prems ra_args ra_prev ra_ctx ra_disch]; auto; [| | |intros p Hpp; rewrite Hx; apply Hp; exact Hpp];
      apply forallb_forall; intros c Hc; rewrite Forall_forall in Gps; apply Gps, good_parts in Hc; tauto. }
    apply np_bind; [|discriminate]. unfold step_core. destruct (memb String.eqb (s_rule s) (allowed cfg)); [discriminate|]. destruct (_ && _); [discriminate|].
    destruct (table (elaborated cfg) (s_rule s)) as [r|] eqn:Et; [|destruct (ignore_unknown cfg); discriminate].
    apply np_bind; [eapply table_safe; [exact Hother|exact Et|cbn [ra ra_concl ra_args ra_ctx]; rewrite Hx; exact F5|exact Hra]|]. intros _ _.
    apply np_bind; [|discriminate]. destruct (is_end_step stk); [|discriminate]. destruct (if in_subproof stk then _ else _); [apply np_check_discharge|discriminate].
  Qed.
  Lemma np_run c : forall lens cx i cs out st, cmd_fine lens cx c = true -> stack_fine lens ((i, cs) :: out) -> st_ctx st = cx ->
    (out <> [] -> 2 <= List.length cs /\ cx <> []) -> run table cfg prems c ((i, cs) :: out) st <> RPanic.
  Proof.
    induction c as [id t|s|sub args k IH] using command_ind'; intros lens cx i cs out st Hf Hs Hx Ho.
    - cbn [run do_command]. cbn [cmd_fine] in Hf. apply good_parts in Hf. destruct Hf as [_ [Hf _]]. cbn [forallb] in Hf. rewrite andb_true_r in Hf.
      apply np_bind; [|intros [|] _; discriminate]. unfold check_assume. destruct (in_subproof _); [discriminate|]. destruct (memb _ _ _); [discriminate|].
      destruct (elaborated cfg); [discriminate|]. apply np_any; auto.
    - cbn [run do_command]. eapply np_do_step; eauto.
    - rewrite run_sub. pose proof Hf as Hsh. apply fine_shape in Hsh. cbn [cmd_fine] in Hf. rewrite !andb_true_iff in Hf. destruct Hf as [[F1 F2] F3]. apply Nat.leb_le in F1.
      cbn [shape_ok] in Hsh. rewrite !andb_true_iff in Hsh. destruct Hsh as [_ Hsh]. rewrite forallb_forall in Hsh.
      pose proof (fun j => stack_push lens cx args sub ((i, cs) :: out) j F3 Hs) as Hpush. rewrite Forall_forall in IH. rewrite forallb_forall in F3.
      assert (G : forall l j s0, incl l sub -> j + List.length l = List.length sub -> st_ctx s0 = args :: cx -> run_list table cfg prems sub ((i, cs) :: out) l j s0 <> RPanic).
      { induction l as [|x l IHl]; intros j s0 Hl Hj Hc; cbn [run_list]; [discriminate|]. cbn [List.length] in Hj. assert (Hin : In x sub) by (apply Hl; left; reflexivity).
        apply np_bind.
        - apply (IH x Hin (lens ++ [List.length sub])%list (args :: cx)); auto. intros _. split; [exact F1|discriminate].
        - intros s1 H1. destruct l as [|y l]; [discriminate|]. apply IHl; [intros z Hz; apply Hl; right; exact Hz|lia|].
          apply run_ctx in H1; [destruct H1 as [H1 _]; congruence|apply Hsh; exact Hin|right; cbn [List.length] in Hj; lia]. }
      apply G; [apply incl_refl|reflexivity|]. cbn [st_ctx]. rewrite Hx. reflexivity.
  Qed.
  Theorem check_no_panic proof : proof_fine proof = true -> check table cfg prems proof <> RPanic.
  Proof.
    intros Hf. rewrite check_eq. apply np_bind; [|intros st _; destruct (st_reached st); discriminate]. unfold proof_fine in Hf. pose proof Hf as Hf'. rewrite forallb_forall in Hf.
    assert (Hs : forall j, stack_fine [List.length proof] [(j, proof)]).
    { intros j. split; [reflexivity|]. constructor; [|constructor]. apply Forall_forall. intros c Hc. eapply fine_good. apply Hf. exact Hc. }
    assert (G : forall l j s0, incl l proof -> st_ctx s0 = [] -> run_list table cfg prems proof [] l j s0 <> RPanic); [|apply G; [apply incl_refl|reflexivity]].
    induction l as [|x l IHl]; intros j s0 Hl Hc; cbn [run_list]; [discriminate|]. assert (Hin : In x proof) by (apply Hl; left; reflexivity). apply np_bind.
    - apply (np_run x [List.length proof] []); auto. congruence.
    - intros s1 H1. apply IHl; [intros z Hz; apply Hl; right; exact Hz|]. apply run_ctx in H1; [destruct H1 as [H1 _]; congruence|eapply fine_shape; apply Hf; exact Hin|left; reflexivity].
  Qed.
End Check.
End Flags.

(** ** What the parser guarantees: well-sorted clauses, references to earlier commands, subproofs that end with a step *)
Fixpoint cmd_parsed (lens : list nat) (c : command) : bool :=
  match c with
  | CAssume _ t => bool_term t
  | CStep s => clause_wt (s_clause s) && forallb (in_range lens) (s_prems s) && forallb (in_range lens) (s_disch s)
  | CSub cs _ _ => Nat.leb 2 (List.length cs) && (match last cs (CAssume "" tTrue) with CStep _ => true | _ => false end)
      && forallb (cmd_parsed (lens ++ [List.length cs])) cs
  end.
Definition proof_parsed (proof : list command) : bool := forallb (cmd_parsed [List.length proof]) proof.

(** ** Proofs that make the checker panic *)
Definition pstep (rule : string) (c : clause) (args : list term) : command := CStep (mkStep "t1" c rule [] args []).
Definition pv (w : nat) (x : string) : term := TVar x (SBV w).
Definition r0 : term := TOp ORealDiv [tReal (inject_Z 2); tReal (inject_Z 0)].
Definition xr : term := TVar "x" SReal.
Definition sv (x : string) : term := TVar x SString.
Definition cp1 : term := tEq (TOp OStrConcat [sv "x"; sv "y"; sv "z"]) (TOp OStrConcat [TConst (CStr []); sv "w"]).
Definition cp2 : term := tNot (tEq (TOp OStrLen [sv "x"]) (tInt 0)).
Definition panicking : list (list term * list command) :=
  [ (* an argument of [and] that does not fit into 64 bits *)
    ([TOp OAnd [tTrue; tTrue]], [CAssume "h" (TOp OAnd [tTrue; tTrue]); CStep (mkStep "t1" [tTrue] "and" [(0, 0)] [tInt (2 ^ 64)] [])]);
    ([], [pstep "and_pos" [tNot (TOp OAnd [tTrue; tTrue]); tTrue] [tInt (2 ^ 64)]]);
    (* divisions by zero *)
    ([], [pstep "la_generic" [TOp OLt [tReal (inject_Z 0); r0]] [tReal (inject_Z 1)]]);
    ([], [pstep "la_tautology" [TOp OLt [tReal (inject_Z 0); r0]] []]);
    ([], [pstep "sum_simplify" [tEq (TOp OAdd [r0; xr]) xr] []]);
    ([], [pstep "comp_simplify" [tEq (TOp OLt [r0; xr]) tTrue] []]);
    ([], [pstep "evaluate" [tEq (TOp OIntDiv [tInt 1; tInt 0]) (tInt 0)] []]);
    (* an assumption compared with an assertion of the problem *)
    ([tEq xr (tReal (inject_Z 3))], [CAssume "h" (tEq xr r0)]);
    ([tEq xr (tReal (inject_Z (-3)))], [CAssume "h" (tEq xr (TOp ORealDiv [tInt 0; TOp OSub [tInt 3]]))]);
    (* hypotheses that are not comparisons *)
    ([], [pstep "la_mult_pos" [TOp OImplies [TOp OAnd [TOp OGt [TVar "x" SInt; tInt 0]; TOp OAnd [tTrue; tTrue]]; tTrue]] []]);
    (* bit-vectors of width zero, and an equation between other sorts *)
    ([], [pstep "bitblast_ult" [tEq (TOp OBvULt [pv 0 "x"; pv 0 "y"]) tTrue] []]);
    ([], [pstep "bitblast_equal" [tEq (tEq (pv 0 "x") (pv 0 "y")) tTrue] []]);
    ([], [pstep "bitblast_equal" [tEq (tEq tTrue tTrue) tTrue] []]);
    (* missing conclusion *)
    ([], [pstep "pbblast_bveq" [] []]);
    (* the sign of a bit-vector of width zero *)
    ([], [pstep "pbblast_bvslt" [tEq (TOp OBvSLt [pv 0 "x"; pv 0 "y"]) (TOp OGe [TOp OAdd [TOp OSub [tInt 0; TOp OMult [tInt 1; int_of 0 (pv 0 "y")]];
       TOp OSub [TOp OMult [tInt 1; int_of 0 (pv 0 "x")]; tInt 0]]; tInt 1])] []]);
    (* an instance of a [let], and an argument that is not a clause *)
    ([], [pstep "forall_inst" [TOp OOr [tNot (TBind BForall [("x", SBool)] (TLet [("z", TVar "x" SBool)] (TVar "z" SBool))); tTrue]] [tTrue]]);
    ([], [pstep "drup" [] [tTrue]]);
    (* a right-hand side that begins with the empty string *)
    ([cp1; cp2], [CAssume "h1" cp1; CAssume "h2" cp2; CStep (mkStep "t1" [tEq (sv "x") (TOp OStrConcat [sv "x"; sv "y"])] "concat_cprop_prefix" [(0, 0); (0, 1)] [] [])]);
    (* a [let] under the substitution of an anchor *)
    ([], [CSub [CStep (mkStep "t1" [tEq (TLet [("z", TVar "x" SBool)] (TVar "z" SBool)) tTrue] "refl" [] [] []); CStep (mkStep "t2" [tTrue] "true" [] [] [])]
               [AAssign ("x", SBool) tTrue] 0]) ].
(** with the cutting planes rules: an empty clause as premise of cp_division and cp_saturation, and as conclusion of cp_literal *)
Definition panicking_full : list (list term * list command) :=
  [ ([], [pstep "hole" [] []; CStep (mkStep "t2" [tTrue] "cp_division" [(0, 0)] [tInt 2] [])]);
    ([], [pstep "hole" [] []; CStep (mkStep "t2" [tTrue] "cp_saturation" [(0, 0)] [] [])]);
    ([], [pstep "cp_literal" [] [tTrue]]) ].
