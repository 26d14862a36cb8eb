(** C33: for every parsed proof the checker returns a verdict or an error; it does not panic. *)
From Coq Require Import List String ZArith NArith QArith Bool Arith Lia.
From Verif Require Import Base Term Field Sem Sorting Rules R_Taut R_Claus R_Resolution R_Eq R_Extras R_LA R_Simp R_SimpArith R_AC R_Binder R_Quant R_Bv BvSound Polyeq
  Checker Table CheckerRefute NoPanic NoPanicBv NoPanicPoly NoPanicMore NoPanicCtx NoPanicRules NoPanicStr NoPanicPrem
  Utils R_Str StrSound StrSound2 R_Bfun R_Eval R_Poly R_CP R_Drup R_PB PBSound R_Rare FullTable NoPanicFull NoPanicCheck.
Import ListNotations.
Local Open Scope nat_scope.
Local Open Scope string_scope.

(** ** Whole proofs.  [proof_fine] asks, beyond what the parser guarantees ([proof_parsed]): numeral arguments below 2^64, no division by a
    zero numeral where terms are compared or read as fractions, and for the rules named in [quiet] the conditions listed there; [fl] chooses
    which further conditions all clauses satisfy, as needed by the rules that panic depending on their premises.  The rules that Table.v
    leaves open ([other], named in [uncovered]) are not used here. *)
Theorem C33_no_panic_partial : forall fl other cfg prems proof, fl_full fl = false -> forallb tame prems = true -> proof_fine fl proof = true ->
  check (rule_table other) cfg prems proof <> RPanic.
Proof. intros fl other cfg prems proof Hf Hp H. apply (check_no_panic fl); auto. intros H2. congruence. Qed.
Print Assumptions C33_no_panic_partial.
(** With the cutting planes rules and RARE rules, whose names must be declared and whose terms contain no [let].  Missing: cp_division and
    cp_saturation in whole proofs; see C33_cutting_planes_safe for single steps. *)
Theorem C33_no_panic_full_partial : forall fl show rules cfg prems proof, rare_all_fine rules = true -> forallb tame prems = true ->
  proof_fine fl proof = true -> check (full_table show rules) cfg prems proof <> RPanic.
Proof. intros fl show rules cfg prems proof Hr Hp H. apply (check_no_panic fl); auto. intros _. exists show, rules. auto. Qed.
Print Assumptions C33_no_panic_full_partial.
(** a proof with a subproof, a binder, resolution and arithmetic *)
Definition px (x : string) : term := TOp OGt [TVar x SInt; tInt 0].
Definition fine_prems : list term := [TBind BForall [("x", SInt)] (px "x"); tNot (TBind BForall [("y", SInt)] (px "y"))].
Definition fine_proof : list command :=
  [ CAssume "h1" (TBind BForall [("x", SInt)] (px "x")); CAssume "h2" (tNot (TBind BForall [("y", SInt)] (px "y")));
    CSub [CStep (mkStep "t1.t1" [tEq (TVar "x" SInt) (TVar "y" SInt)] "refl" [] [] []);
          CStep (mkStep "t1.t2" [tEq (px "x") (px "y")] "cong" [(1, 0)] [] []);
          CStep (mkStep "t1" [tEq (TBind BForall [("x", SInt)] (px "x")) (TBind BForall [("y", SInt)] (px "y"))] "bind" [] [] [])]
         [AVar ("y", SInt); AAssign ("x", SInt) (TVar "y" SInt)] 0;
    CSub [CAssume "t2.h" (px "z"); CStep (mkStep "t2.t1" [TOp OLe [tInt 0; tInt 1]] "la_tautology" [] [] []);
          CStep (mkStep "t2" [tNot (px "z"); TOp OLe [tInt 0; tInt 1]] "subproof" [] [] [(1, 0)])] [] 1;
    CStep (mkStep "t3" [tNot (TBind BForall [("x", SInt)] (px "x")); TBind BForall [("y", SInt)] (px "y")] "equiv1" [(0, 2)] [] []);
    CStep (mkStep "t4" [] "resolution" [(0, 4); (0, 0); (0, 1)] [] []) ].
Example fine_proof_ok : forallb tame fine_prems = true /\ proof_fine (mkFlags true true true false) fine_proof = true /\
  check (rule_table (fun _ _ _ => RErr)) cfg_default fine_prems fine_proof = ROk false.
Proof. vm_compute. auto. Qed.
(** a rule (or true x) = true, applied, and a cutting planes step *)
Definition or_true : rare_rule :=
  mkRare [("x", (SBool, false))] ["x"] [] (tEq (TOp OOr [tTrue; TVar "x" SBool]) tTrue).
Definition pb2 (k : Z) : term := TOp OGe [TOp OMult [tInt k; TVar "a" SInt]; tInt k].
Definition full_proof : list command :=
  [ CAssume "h1" (tNot (tEq (TOp OOr [tTrue; TVar "p" SBool]) tTrue)); CAssume "h2" (pb2 1);
    CStep (mkStep "t1" [tEq (TOp OOr [tTrue; TVar "p" SBool]) tTrue] "rare_rewrite" [] [TConst (CStr [1%N]); TVar "p" SBool] []);
    CStep (mkStep "t2" [pb2 2] "cp_multiplication" [(0, 1)] [tInt 2] []);
    CStep (mkStep "t3" [] "resolution" [(0, 2); (0, 0)] [] []) ].
Example full_proof_ok : let prems := [tNot (tEq (TOp OOr [tTrue; TVar "p" SBool]) tTrue); pb2 1] in
  rare_all_fine [([1%N], or_true)] = true /\ forallb tame prems = true /\ proof_fine (mkFlags true true true true) full_proof = true /\
  check (full_table (fun _ => "a") [([1%N], or_true)]) cfg_default prems full_proof = ROk false.
Proof. vm_compute. auto. Qed.
(** being fine is more than being parsed *)
Theorem C33_fine_parsed : forall fl c lens cx, cmd_fine fl lens cx c = true -> cmd_parsed lens c = true.
Proof.
  intros fl. induction c as [id t|s|cs a k IH] using command_ind'; intros lens cx H; cbn [cmd_fine cmd_parsed] in *.
  - unfold good_clause, clause_wt in H. cbn [forallb] in H. rewrite !andb_true_r in H. rewrite !andb_true_iff in H. tauto.
  - unfold step_fine, good_clause in H. rewrite !andb_true_iff in *. tauto.
  - rewrite !andb_true_iff in *. destruct H as [H1 H2]. split; [exact H1|]. apply forallb_forall. intros x Hx. rewrite Forall_forall in IH. rewrite forallb_forall in H2.
    apply (IH x Hx _ _ (H2 x Hx)).
Qed.
Print Assumptions C33_fine_parsed.
(** The full statement fails: parsed proofs on which the checker panics. *)
Theorem C33_no_panic_refuted : forall other prems proof, In (prems, proof) panicking ->
  forallb bool_term prems = true /\ proof_parsed proof = true /\ check (rule_table other) cfg_default prems proof = RPanic.
Proof.
  intros other prems proof H. unfold panicking in H. cbn [In] in H.
  repeat match type of H with _ \/ _ => destruct H as [H|H] end; try contradiction; injection H as <- <-; (split; [vm_compute; reflexivity|]; split; vm_compute; reflexivity).
Qed.
Print Assumptions C33_no_panic_refuted.
Example panicking_ex : List.length panicking = 19.
Proof. reflexivity. Qed.
(** also with the cutting planes rules *)
Theorem C33_no_panic_full_refuted : forall show rules prems proof, In (prems, proof) panicking_full ->
  forallb bool_term prems = true /\ proof_parsed proof = true /\ check (full_table show rules) cfg_default prems proof = RPanic.
Proof.
  intros show rules prems proof H. unfold panicking_full in H. cbn [In] in H.
  repeat match type of H with _ \/ _ => destruct H as [H|H] end; try contradiction; injection H as <- <-; (split; [vm_compute; reflexivity|]; split; vm_compute; reflexivity).
Qed.
Print Assumptions C33_no_panic_full_refuted.
Example panicking_full_ex : List.length panicking_full = 3.
Proof. reflexivity. Qed.

(** the cutting planes rules; division and saturation need a premise with a literal, cp_literal a conclusion with one *)
Theorem C33_cutting_planes_safe : forall show c ps args,
  r_cp_addition show c ps args <> RPanic /\ r_cp_multiplication show c ps args <> RPanic /\
  (~ In [] ps -> r_cp_division show c ps args <> RPanic /\ r_cp_saturation show c ps args <> RPanic) /\
  (c <> [] -> r_cp_literal c ps args <> RPanic).
Proof.
  intros show c ps args. split; [apply cp_addition_safe|]. split; [apply cp_multiplication_safe|]. split; [|apply cp_literal_safe].
  intros H. destruct ps as [|p ps]; [split; discriminate|]. assert (Hp : p <> []) by (intros ->; apply H; left; reflexivity).
  split; [apply cp_division_safe|apply cp_saturation_safe]; exact Hp.
Qed.
Print Assumptions C33_cutting_planes_safe.
(** RARE rules whose names are declared and whose terms contain no [let], for arbitrary steps *)
Theorem C33_rare_safe : forall rules c ps args, rare_all_fine rules = true -> r_rare rules c ps args <> RPanic.
Proof. exact rare_safe. Qed.
Print Assumptions C33_rare_safe.
(** ** Single rules, on well-sorted clauses and arguments below 2^64 *)
Theorem C33_tautology_rules_safe : forall name r, In (name, r) taut_rules -> rule_safe r.
Proof. exact taut_safe. Qed.
Print Assumptions C33_tautology_rules_safe.
Theorem C33_clausification_rules_safe : forall name r, In (name, r) (taut_prem_rules ++ claus_rules) -> rule_safe r.
Proof. intros name r H. apply in_app_iff in H. destruct H; [eapply taut_prem_safe|eapply claus_safe]; eauto. Qed.
Print Assumptions C33_clausification_rules_safe.
Theorem C33_equality_rules_safe : forall name r, In (name, r) eq_rules -> rule_safe r.
Proof. exact eq_safe. Qed.
Print Assumptions C33_equality_rules_safe.
Theorem C33_structural_rules_safe : forall name r, In (name, r) structural_rules -> rule_safe r.
Proof. exact structural_safe. Qed.
Print Assumptions C33_structural_rules_safe.
Theorem C33_resolution_safe : rule_safe r_resolution /\ rule_safe r_resolution_with_args /\ rule_safe r_strict_resolution.
Proof. split; [exact resolution_safe|]. split; [exact resolution_args_safe|exact strict_resolution_safe]. Qed.
Print Assumptions C33_resolution_safe.
Theorem C33_simplification_safe : forall name r, In (name, r) bool_simp_rules -> rule_safe r.
Proof. exact bool_simp_safe. Qed.
Print Assumptions C33_simplification_safe.
Theorem C33_quantifier_rules_safe : forall name r, In (name, r) quant_rules -> rule_safe r.
Proof. exact quant_safe. Qed.
Print Assumptions C33_quantifier_rules_safe.
Theorem C33_arithmetic_rules_safe : forall c ps args, clause_wt c = true -> forallb nodiv0 c = true -> forallb nodiv0 args = true ->
  r_la_generic c ps args <> RPanic /\ r_la_tautology c ps args <> RPanic /\ r_sum_simplify c ps args <> RPanic /\ r_prod_simplify c ps args <> RPanic /\
  r_comp_simplify c ps args <> RPanic /\ r_div_simplify c ps args <> RPanic.
Proof.
  intros c ps args H1 H2 H3. split; [apply la_generic_safe; auto|]. split; [apply la_tautology_safe; auto|]. split; [apply (sum_prod_safe OAdd); auto; left; auto|].
  split; [apply (sum_prod_safe OMult); auto; right; left; auto|]. split; [apply comp_simplify_safe; auto|apply div_simplify_safe; auto].
Qed.
Print Assumptions C33_arithmetic_rules_safe.
Theorem C33_bitblasting_safe : forall name r, In (name, r) bv_rules -> forall c ps args, clause_wt c = true -> pos_clause c = true ->
  (name = "bitblast_equal" -> bv_equation c = true) -> r c ps args <> RPanic.
Proof. exact bv_safe. Qed.
Print Assumptions C33_bitblasting_safe.
Theorem C33_binder_rules_safe : safe_ctx r_refl /\ safe_ctx r_strict_refl /\ safe_ctx r_bind /\ safe_ctx r_let /\ safe_ctx r_onepoint /\
  (forall q, safe_ctx (r_sko q)) /\ safe_ctx r_bind_let.
Proof.
  split; [exact refl_calm|]. split; [exact strict_refl_calm|]. split; [exact bind_calm|]. split; [exact let_calm|]. split; [exact onepoint_calm|].
  split; [exact sko_calm|exact bind_let_calm].
Qed.
Print Assumptions C33_binder_rules_safe.
(** Comparisons have a result: they neither panic nor run out of fuel. *)
Theorem C33_comparison_total : forall c a b, tame a = true -> tame b = true -> exists r, peq c a b = ROk r.
Proof. exact peq_total. Qed.
Print Assumptions C33_comparison_total.
Example comparison_ex : tame (TOp ORealDiv [tReal (inject_Z 6); tReal (inject_Z 2)]) = true /\ tame (tReal (inject_Z 3)) = true /\
  polyeq (TOp ORealDiv [tReal (inject_Z 6); tReal (inject_Z 2)]) (tReal (inject_Z 3)) = ROk true.
Proof. vm_compute. auto. Qed.
Example bitblasting_ex : let c := [tEq (TOp OBvULt [pv 2 "x"; pv 2 "y"]) tTrue] in
  clause_wt c = true /\ pos_clause c = true /\ In ("bitblast_ult", r_bb_ult) bv_rules.
Proof. split; [reflexivity|]. split; [reflexivity|]. unfold bv_rules. cbn [In]. repeat (try (left; reflexivity); right). Qed.
Example arithmetic_ex : let c := [TOp OLt [tReal (inject_Z 0); TOp ORealDiv [tReal (inject_Z 2); tReal (inject_Z 3)]]] in
  clause_wt c = true /\ forallb nodiv0 c = true.
Proof. split; reflexivity. Qed.

(** ** Further rules *)
Theorem C33_more_rules_safe : rule_safe r_aci_simp /\ rule_safe r_qnt_cnf /\ rule_safe r_cp_normalize.
Proof. split; [exact aci_safe|]. split; [exact qnt_cnf_safe|exact cp_normalize_safe]. Qed.
Print Assumptions C33_more_rules_safe.
(** ite_intro compares terms, forall_inst substitutes in them, poly_simp divides *)
Theorem C33_instance_rules_safe : forall c ps args, clause_wt c = true ->
  (forallb tame c = true -> r_ite_intro c ps args <> RPanic) /\
  (forallb calm c = true -> forallb calm args = true -> r_forall_inst c ps args <> RPanic) /\
  (forallb nodiv0 c = true -> forall meqb srt, r_poly_simp meqb srt c ps args <> RPanic).
Proof.
  intros c ps args Hw. split; [intros; apply ite_intro_safe; auto|]. split; [intros; apply forall_inst_safe; auto|]. intros. apply poly_simp_safe; auto.
Qed.
Print Assumptions C33_instance_rules_safe.
(** drup and drat, when every argument is a clause or the deletion of a nonempty clause *)
Theorem C33_drup_safe : forall K (keqb : K -> K -> bool) hash rat c ps args, forallb drup_arg args = true -> r_drup keqb hash rat c ps args <> RPanic.
Proof. intros. apply drup_safe; auto. Qed.
Print Assumptions C33_drup_safe.
(** poly_simp_rel, when no premise divides by a zero numeral *)
Theorem C33_poly_rel_safe : forall c ps args, forallb (forallb nodiv0) ps = true -> r_poly_simp_rel c ps args <> RPanic.
Proof. intros. apply poly_simp_rel_safe; auto. Qed.
Print Assumptions C33_poly_rel_safe.
(** the pseudo-Boolean bit-blasting rules, when the conclusion is not empty and has no bit-vector of width zero *)
Theorem C33_pbblasting_safe : forall name r ok, In (name, (r, ok)) pb_partial -> forall c ps args, c <> [] -> pos_clause c = true -> clause_wt c = true -> r c ps args <> RPanic.
Proof. intros name r ok H c ps args. eapply pb_safe; eauto. Qed.
Print Assumptions C33_pbblasting_safe.
Example more_rules_ex :
  let c := [TOp OOr [tNot (TBind BForall [("x", SInt)] (px "x")); TOp OGt [tInt 7; tInt 0]]] in
  let d := [tEq (TOp OAdd [TVar "x" SInt; TVar "x" SInt]) (TOp OMult [tInt 2; TVar "x" SInt])] in
  clause_wt c = true /\ forallb calm c = true /\ r_forall_inst c [] [tInt 7] = ROk tt /\
  clause_wt d = true /\ forallb nodiv0 d = true /\ r_poly_simp mon_permb (fun l => l) d [] [] = ROk tt.
Proof. vm_compute. auto 10. Qed.
Example drup_ex : let a := TVar "a" SBool in let args := [TOp OCl [a]; TOp ODelete [TOp OCl [a; tNot a]]; TOp OCl []] in
  forallb drup_arg args = true /\ forallb drup_arg [tTrue] = false.
Proof. vm_compute. auto. Qed.
Example pbblasting_ex : [ex_slt] <> [] /\ pos_clause [ex_slt] = true /\ clause_wt [ex_slt] = true /\ r_pb_slt [ex_slt] [] [] = ROk tt.
Proof. split; [discriminate|]. vm_compute. auto. Qed.
(** the string rules, when the arguments can be compared; for concat_cprop_prefix and concat_cprop_suffix also: the premises contain no empty string constant
    outside of binders and applications (see [panicking]) *)
Theorem C33_string_rules_safe : forall name r ok, In (name, (r, ok)) str_partial ->
  forall c ps args, clause_wt c = true -> forallb tame c = true -> forallb clause_wt ps = true -> forallb (forallb tame) ps = true -> forallb tame args = true ->
  (name = "concat_cprop_prefix" \/ name = "concat_cprop_suffix" -> forallb (forallb noempty) ps = true) -> r c ps args <> RPanic.
Proof.
  intros name r ok H c ps args H1 H2 H3 H4 H5 Hn. destruct (memb String.eqb name cprop_names) eqn:E; [|apply (str_safe name r ok H E); auto].
  unfold str_partial in H. cbn [In] in H. repeat match type of H with _ \/ _ => destruct H as [H|H] end; [..|destruct H]; injection H as <- <- _; try discriminate E;
  [apply cprop_prefix_safe|apply cprop_suffix_safe]; auto.
Qed.
Print Assumptions C33_string_rules_safe.
(** bfun_elim, when the premise has no [let] and no real division *)
Theorem C33_bfun_elim_safe : forall c ps args, forallb tame c = true -> forallb (forallb calm) ps = true -> r_bfun_elim c ps args <> RPanic.
Proof. exact bfun_elim_safe. Qed.
Print Assumptions C33_bfun_elim_safe.
Example bfun_ex : let q := TBind BForall [("b", SBool)] (TOp OOr [TVar "b" SBool; TVar "a" SBool]) in
  forallb calm [q] = true /\ r_bfun_elim [TOp OAnd [TOp OOr [tFalse; TVar "a" SBool]; TOp OOr [tTrue; TVar "a" SBool]]] [[q]] [] = ROk tt.
Proof. vm_compute. auto. Qed.
Theorem C33_string_neg_rules_safe : rule_safe r_neg_fixed_prefix /\ rule_safe r_neg_fixed_suffix.
Proof. split; [exact neg_fixed_prefix_safe|exact neg_fixed_suffix_safe]. Qed.
Print Assumptions C33_string_neg_rules_safe.
Example string_rules_ex :
  let c := [tEq (sv "x") (sv "y")] in let ps := [[tEq (TOp OStrConcat [sv "x"; sv "z"]) (TOp OStrConcat [sv "y"; sv "z"])]] in
  In ("concat_eq", (r_concat_eq, str_ok)) str_partial /\ clause_wt c = true /\ forallb tame c = true /\ forallb clause_wt ps = true /\
  forallb (forallb tame) ps = true /\ forallb tame [tTrue] = true /\ r_concat_eq c ps [tTrue] = ROk tt.
Proof. split; [left; reflexivity|]. vm_compute. auto 10. Qed.
(** evaluate: divisions only by numerals different from zero, signed bit-vector operators and rotations on positive widths, arithmetic shifts and left rotations by at most the width,
    and indices below 2^64.  Missing: the other terms, on some of which evaluate panics (see [panicking]). *)
Theorem C33_evaluate_safe_partial : forall c ps args, clause_wt c = true -> forallb ev_calm c = true -> r_evaluate c ps args <> RPanic.
Proof. exact evaluate_safe. Qed.
Print Assumptions C33_evaluate_safe_partial.
Example evaluate_ex : let c := [tEq (TOp OAdd [tInt 2; TOp OMult [tInt 3; TOp OIntDiv [tInt 8; tInt 2]]]) (tInt 14)] in
  clause_wt c = true /\ forallb ev_calm c = true /\ r_evaluate c [] [] = ROk tt.
Proof. vm_compute. auto. Qed.
Example evaluate_bv_ex : let x := TConst (CBV 5 4) in let ext := TPOp PSignExtend [tInt 4] [TOp OBvSub [x; TConst (CBV 1 4)]] in
  let c := [tEq (TPOp PBvExtract [tInt 3; tInt 0] [TOp OBvAShr [ext; TConst (CBV 2 8)]]) (TConst (CBV 1 4))] in
  clause_wt c = true /\ forallb ev_calm c = true /\ r_evaluate c [] [] = ROk tt.
Proof. vm_compute. auto. Qed.
(** C16: evaluation never changes the width of a bit-vector, whatever the term; if the result is a literal, it is a literal of the sort of the term *)
Theorem C16_width : forall t z w, wt t = true -> evaluate t = ROk (TConst (CBV z w)) -> sort_of t = SBV w.
Proof. intros t z w Hw He. exact (evaluate_compat t Hw _ _ He eq_refl). Qed.
Print Assumptions C16_width.
Example C16_width_ex : let t := TOp OBvConcat [TPOp PRepeat [tInt 2] [TConst (CBV 5 4)]; TOp OBvSDiv [TConst (CBV 13 4); TConst (CBV 2 4)]] in
  wt t = true /\ sort_of t = SBV 12 /\ exists z, evaluate t = ROk (TConst (CBV z 12)).
Proof. split; [vm_compute; reflexivity|]. split; [vm_compute; reflexivity|]. eexists. vm_compute. reflexivity. Qed.
