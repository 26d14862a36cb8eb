{
 "claims": [
  {
   "property": "C01",
   "status": "partial",
   "theorems": [
    "C01_soundness_refuted",
    "C01_elaborated_soundness_refuted",
    "C01_assume_soundness_refuted",
    "C01_check_sound_partial",
    "C01_check_sound_relative_partial",
    "C01_end_step_refuted",
    "C01_let_refuted",
    "C01_parsed_sound_partial",
    "C01_counterexamples_parse",
    "C01_check_sound_full_partial",
    "C01_text_partial",
    "C01_instance_partial",
    "C01_rules_text_partial"
   ],
   "note": "Refuted in general by end-to-end witnesses; proved relative to a sound rule table and, with all rules modelled except the external ones (hole, lia_generic), under wf_proof (visible premises, no rebound variables in outer premises, side conditions of the rules; cp_division, cp_saturation and cp_literal excluded)."
  },
  {
   "property": "C02",
   "status": "proved",
   "theorems": [
    "C02_holey_exact",
    "C02_valid_means_checked"
   ],
   "note": ""
  },
  {
   "property": "C03",
   "status": "proved",
   "theorems": [
    "C03_empty_clause_needed",
    "C03_verdict_exact",
    "C03_loop_is_traversal"
   ],
   "note": "For proofs of the shape the parser produces."
  },
  {
   "property": "C04",
   "status": "partial",
   "theorems": [
    "C04_elaborated_assume_exact",
    "C04_assume_refuted",
    "C04_assume_entailed_partial"
   ],
   "note": "Refuted (unary minus is ignored by the comparison); proved for standard terms and in elaborated mode."
  },
  {
   "property": "C05",
   "status": "partial",
   "theorems": [
    "C05_all_assumptions_discharged",
    "C05_discharge_sound_partial"
   ],
   "note": "Discharging sound when the conclusion does not mention anchor variables and terms are standard."
  },
  {
   "property": "C06",
   "status": "partial",
   "theorems": [
    "C06_resolution_refuted",
    "C06_resolution_sound_partial",
    "C06_rup_sound",
    "C06_rup_terminates"
   ],
   "note": "The full property is false of the code (greedy resolution); the partial theorem excludes tautological premises and reuse of an eliminated pivot."
  },
  {
   "property": "C07",
   "status": "proved",
   "theorems": [
    "C07_resolution_with_args_sound",
    "C07_strict_resolution_sound",
    "C07_resolution_with_args_exact"
   ],
   "note": ""
  },
  {
   "property": "C08",
   "status": "partial",
   "theorems": [
    "C08_drup_sound",
    "C08_drup_collision_refuted",
    "C08_drat_refuted",
    "C08_end_to_end_refuted",
    "C08_drat_partial",
    "C08_rup_exact",
    "C08_order",
    "C08_hash"
   ],
   "note": "drup is sound for every clause, drat for the empty clause, provided no other clause has the 64-bit hash of the conclusion (otherwise refuted: C08_drup_collision_refuted). drat with a non-empty conclusion is refuted, also end to end. Unit propagation with watched literals is proved to terminate without panics and to be exact, and the verdict is independent of hash map order and of the hash function."
  },
  {
   "property": "C09",
   "status": "proved",
   "theorems": [
    "C09_tautology_rules_valid"
   ],
   "note": "ite_intro is treated as C41"
  },
  {
   "property": "C10",
   "status": "proved",
   "theorems": [
    "C10_clausification_rules_sound"
   ],
   "note": ""
  },
  {
   "property": "C11",
   "status": "proved",
   "theorems": [
    "C11_equality_rules_sound"
   ],
   "note": ""
  },
  {
   "property": "C12",
   "status": "partial",
   "theorems": [
    "C12_boolean_simplify_sound",
    "C12_minus_simplify_sound",
    "C12_C40_ac_simp_sound",
    "C12_prod_simplify_refuted",
    "C12_sum_simplify_refuted",
    "C12_comp_simplify_refuted",
    "C12_div_simplify_refuted",
    "C12_prod_sum_simplify_sound_partial",
    "C12_comp_simplify_sound_partial",
    "C12_div_simplify_sound_partial"
   ],
   "note": "Boolean simplify rules, minus_simplify and ac_simp proved in full; prod/sum/comp/div_simplify refuted (inexact constant div, x/x with x = 0) and proved sound outside those cases."
  },
  {
   "property": "C13",
   "status": "partial",
   "theorems": [
    "C13_la_generic_refuted",
    "C13_la_generic_integer_refuted",
    "C13_la_generic_sound_partial"
   ],
   "note": "The full property is false of the code; the partial theorem excludes unjustified integer strengthening and inexact constant div."
  },
  {
   "property": "C14",
   "status": "partial",
   "theorems": [
    "C14_linear_rules_sound",
    "C14_la_tautology_refuted",
    "C14_la_tautology_sound_partial"
   ],
   "note": "All rules but la_tautology are sound; la_tautology reads (div m n) of numerals as an exact fraction."
  },
  {
   "property": "C15",
   "status": "partial",
   "theorems": [
    "C15_poly_simp_refuted",
    "C15_poly_simp_rel_refuted",
    "C15_end_to_end_refuted",
    "C15_poly_simp_partial",
    "C15_poly_simp_rel_partial",
    "C15_address_independent"
   ],
   "note": "poly_simp and poly_simp_rel (and their bit-vector aliases) are refuted for inexact (div a b) of numerals; proved sound when such divisions are exact, for all sorts. The verdict is independent of the addresses used to sort factors."
  },
  {
   "property": "C16",
   "status": "partial",
   "theorems": [
    "C16_evaluate_refuted",
    "C16_end_to_end_refuted",
    "C16_evaluate_partial",
    "C16_rule_partial",
    "C16_panics",
    "C16_width"
   ],
   "note": "Evaluation proved to keep value and sort of every term meeting eval_safe (in-range literals, no signed operation on a set sign bit, no extraction with its top bit set, non-negative dividends of div and mod). Refuted for the others, also end to end; panics exhibited. A bit-vector result always has the width of the sort of the term (C16_width)."
  },
  {
   "property": "C17",
   "status": "partial",
   "theorems": [
    "C17_subst_refuted",
    "C17_subst_closed_refuted",
    "C17_subst_let_refuted",
    "C17_subst_panic_refuted",
    "C17_subst_total_partial",
    "C17_subst_partial",
    "C17_subst_textbook_partial"
   ],
   "note": "Refuted in general: fresh name captured, fresh name merged with another variable of the same binder, let values skipped, panic on let. Proved: total without let; meaning preserved on tidy terms (renaming included) and textbook substitution when no name is rebound."
  },
  {
   "property": "C18",
   "status": "partial",
   "theorems": [
    "C18_alpha_equiv_length_refuted",
    "C18_alpha_equiv_cache_refuted",
    "C18_alpha_equiv_let_refuted",
    "C18_alpha_equiv_sound_partial"
   ],
   "note": "Refuted in three ways (binding lists of different lengths, pairs cached in an outer scope, simultaneous let). Soundness proved for terms without let, without names bound twice on a path or both bound and free, and with binding lists of equal length or different sorts (alpha_side)."
  },
  {
   "property": "C19",
   "status": "partial",
   "theorems": [
    "C19_comparison_terminates",
    "C19_polyeq_refuted",
    "C19_polyeq_negative_literal_refuted",
    "C19_polyeq_panic_refuted",
    "C19_polyeq_sound_partial",
    "C19_assume_refuted",
    "C19_assume_sound_partial",
    "C19_fragment"
   ],
   "note": "False in general; proved for terms with non-negative literals, binary division and (for the assumption comparison) no unary minus. C19_fragment: with numerals of one kind and no negated or divided literals the comparison is exactly equality up to flipping equalities, whatever its cache."
  },
  {
   "property": "C20",
   "status": "partial",
   "theorems": [
    "C20_qnt_join_sound",
    "C20_miniscope_distribute_sound",
    "C20_nnf_equivalent",
    "C20_cnf_implied",
    "C20_forall_inst_refuted",
    "C20_qnt_rm_unused_refuted",
    "C20_qnt_cnf_refuted",
    "C20_miniscope_split_refuted",
    "C20_miniscope_ite_refuted",
    "C20_forall_inst_sound_partial",
    "C20_qnt_rm_unused_sound_partial",
    "C20_qnt_cnf_sound_partial",
    "C20_miniscope_split_sound_partial",
    "C20_miniscope_ite_sound_partial"
   ],
   "note": "qnt_join and miniscope_distribute are sound without conditions; the other rules are refuted in general (variable capture, free variables hidden in let) and proved sound when nothing is captured and no let is involved."
  },
  {
   "property": "C21",
   "status": "partial",
   "theorems": [
    "C21_bind_refuted",
    "C21_let_refuted",
    "C21_onepoint_refuted",
    "C21_sko_ex_refuted",
    "C21_sko_forall_refuted",
    "C21_bind_let_refuted",
    "C21_bind_sound_partial",
    "C21_let_sound_partial",
    "C21_bind_let_sound_partial",
    "C21_onepoint_sound_partial",
    "C21_sko_sound_partial",
    "C21_refl_sound_partial"
   ],
   "note": "All six rules are refuted as they stand (variables of the anchor leak, capture, sequential vs simultaneous let). Proved sound under decidable side conditions on the variables; conditions are met by the usual steps (witnesses). refl included."
  },
  {
   "property": "C22",
   "status": "proved",
   "theorems": [
    "C22_same_value",
    "C22_sound",
    "C22_adder",
    "C22_multiplier",
    "C22_circuits_exist"
   ],
   "note": "All seventeen bitblast_* rules, for every width; the circuits are also specified on their own."
  },
  {
   "property": "C23",
   "status": "partial",
   "theorems": [
    "C23_cp_addition_refuted",
    "C23_cp_addition_partial",
    "C23_cp_multiplication_refuted",
    "C23_cp_multiplication_partial",
    "C23_cp_division_refuted",
    "C23_cp_division_partial",
    "C23_cp_saturation_refuted",
    "C23_cp_saturation_sign_refuted",
    "C23_cp_saturation_partial",
    "C23_pb_meaning",
    "C23_cp_literal_refuted",
    "C23_cp_literal_partial",
    "C23_cp_normalize_refuted",
    "C23_cp_normalize_negation_refuted",
    "C23_cp_normalize_partial",
    "C23_end_to_end_refuted"
   ],
   "note": "Each rule is refuted in general and proved sound under stated conditions (printed names distinct, no repeated literal in a sum, premise clauses of one literal, signs; 0/1 literals for division and saturation). The printer of terms is a parameter."
  },
  {
   "property": "C24",
   "status": "partial",
   "theorems": [
    "C24_unsigned_refuted",
    "C24_signed_refuted",
    "C24_nonbit_refuted",
    "C24_unsigned_partial",
    "C24_signed_partial",
    "C24_pbbvar",
    "C24_pbbconst_refuted",
    "C24_pbbconst_partial",
    "C24_capture_refuted",
    "C24_and_not_a_bit_refuted",
    "C24_bvxor_partial",
    "C24_bvand_partial",
    "C24_ith_bit_refuted",
    "C24_xor_ith_bit_partial",
    "C24_and_ith_bit_partial",
    "C24_bit_term",
    "C24_panics",
    "C24_end_to_end_refuted"
   ],
   "note": "All rules but pbblast_pbbvar are refuted in general (sums over some of the bits, width 1, elements that are not bits, 32-bit wrap, capture, missing lower bound); proved for every width under decidable conditions on the conclusion."
  },
  {
   "property": "C25",
   "status": "partial",
   "theorems": [
    "C25_parallel_refuted",
    "C25_parallel_partial",
    "C25_deterministic_partial",
    "C25_terminates",
    "C25_accepts_partial",
    "C25_panics"
   ],
   "note": "Refuted in general (an outermost subproof concluding the empty clause counts only sequentially); equality with the sequential verdict proved for every interleaving and thread count otherwise, plus termination and determinism. Rule panics excluded; shared pools and context locks are abstracted. What a parallel run accepts is accepted by the sequential checker with the same verdict, for every parsed proof and without further conditions (C25_accepts_partial). If no command is wrong by itself and one makes the checker panic, every execution panics (C25_panics; witness: the texts of C33_command_threads_refuted)."
  },
  {
   "property": "C26",
   "status": "partial",
   "theorems": [
    "C26_scheduler_refuted",
    "C26_schedule_partial",
    "C26_any_assignment_partial",
    "C26_panic_only"
   ],
   "note": "Refuted: the scheduler panics when a worker gets only subproof openings. Otherwise every step and assumption is visited exactly once, in order, with the right subproofs open, for any assignment of commands to workers."
  },
  {
   "property": "C27",
   "status": "proved",
   "theorems": [
    "C27_references",
    "C27_names",
    "C27_ids_unique",
    "C27_shape",
    "C27_no_panic",
    "C27_empty_id_panics"
   ],
   "note": "Over texts whose terms are already parsed. Also: the only panic of the main loop is the empty command id."
  },
  {
   "property": "C28",
   "status": "partial",
   "theorems": [
    "C28_structural_rules_sound",
    "C09_tautology_rules_valid",
    "C28_bfun_elim_refuted",
    "C28_bfun_elim_meaning_partial",
    "C28_bfun_elim_total",
    "C28_bfun_elim_partial"
   ],
   "note": "connective_def is among the C09 rules; bfun_elim is refuted in general and proved sound when no variable is captured"
  },
  {
   "property": "C29",
   "status": "partial",
   "theorems": [
    "C29_free_vars_refuted",
    "C29_free_vars_partial",
    "C29_never_too_many"
   ],
   "note": "Exact for terms without let; refuted with let (values of let bindings are not visited). Never reports a variable that is not free."
  },
  {
   "property": "C30",
   "status": "proved",
   "theorems": [
    "C30_hash_consing",
    "C30_terms",
    "C30_stable"
   ],
   "note": "For every allocator that returns unused addresses and every sequence of additions to one pool."
  },
  {
   "property": "C31",
   "status": "partial",
   "theorems": [
    "C31_stale_cache_refuted",
    "C31_capture_refuted",
    "C31_self_refuted",
    "C31_context_partial"
   ],
   "note": "Refuted in full (stale cache, capture by a later declared variable, self-mentioning assignment). Partial: in every history of hygienic anchors each application preserves the value in all environments the anchors allow. Threads sharing contexts are not modelled."
  },
  {
   "property": "C32",
   "status": "proved",
   "theorems": [
    "C32_simplify_terminates"
   ],
   "note": "Every rewriting function used with the fixed-point loop reaches a normal form within 2*size+5 rounds."
  },
  {
   "property": "C33",
   "status": "partial",
   "theorems": [
    "C33_no_panic_partial",
    "C33_no_panic_refuted",
    "C33_fine_parsed",
    "C33_tautology_rules_safe",
    "C33_clausification_rules_safe",
    "C33_equality_rules_safe",
    "C33_structural_rules_safe",
    "C33_resolution_safe",
    "C33_simplification_safe",
    "C33_quantifier_rules_safe",
    "C33_arithmetic_rules_safe",
    "C33_bitblasting_safe",
    "C33_binder_rules_safe",
    "C33_comparison_total",
    "C33_more_rules_safe",
    "C33_instance_rules_safe",
    "C33_drup_safe",
    "C33_poly_rel_safe",
    "C33_pbblasting_safe",
    "C33_string_neg_rules_safe",
    "C33_string_rules_safe",
    "C33_bfun_elim_safe",
    "C33_evaluate_safe_partial",
    "C33_no_panic_full_partial",
    "C33_no_panic_full_refuted",
    "C33_cutting_planes_safe",
    "C33_rare_safe",
    "C33_parsed",
    "C33_texts_partial",
    "C33_texts_refuted",
    "C33_command_partial",
    "C33_command_refuted",
    "C33_parallel_partial",
    "C33_command_threads_partial",
    "C33_command_threads_refuted"
   ],
   "note": "Proved for whole proofs under explicit conditions (numeral arguments below 2^64, no division by zero numerals where fractions are read or terms compared, bit-vectors of positive width, no let or real division where the context is applied); refuted in general by nineteen parsed proofs that make the checker panic. The cutting planes rules and RARE rules are covered by C33_no_panic_full_partial. Missing: cp_division and cp_saturation in whole proofs (they panic when the premise is the empty clause), and evaluate beyond the operators of ev_calm. C33_parsed: proofs read from a text satisfy proof_parsed. C33_texts_partial / C33_texts_refuted state the property from the three texts to the verdict. For the check command with one thread: C33_command_partial says that one of the three lines is printed, under the conditions of C33_texts_partial; C33_command_refuted gives texts for which it crashes. Witness: C33_command_ex with C33_texts_ex. For every number of threads and every execution, given a schedule: C33_parallel_partial, C33_command_threads_partial (witnesses C33_parallel_ex with fine_proof_ok, C33_command_threads_ex). The crashing texts crash with any number of threads, in every execution (C33_command_threads_refuted)."
  },
  {
   "property": "C34",
   "status": "partial",
   "theorems": [
    "C34_trans",
    "C34_cong",
    "C34_eq_transitive_partial",
    "C34_eq_transitive_refuted",
    "C34_eq_transitive_refl_refuted",
    "C34_eq_transitive_twins_refuted",
    "C34_eq_congruent_partial",
    "C34_eq_congruent_refuted",
    "C34_eq_congruent_swap_refuted",
    "C34_resolution_partial",
    "C34_resolution_true",
    "C34_resolution_refuted",
    "C34_resolution_negations_refuted",
    "C34_resolution_idle_refuted",
    "C34_resolution_rup_refuted",
    "C34_local_partial",
    "C34_local_list_partial",
    "C34_uncrowd_list_partial",
    "C34_uncrowd_partial",
    "C34_uncrowd_order",
    "C34_uncrowd_refuted",
    "C34_uncrowd_panic_refuted",
    "C34_reorder_partial",
    "C34_last_passes_partial",
    "C34_reorder_and_intro_refuted",
    "C34_reorder_no_pivots_refuted",
    "C34_reorder_contraction_refuted",
    "C34_reorder_crowded_refuted",
    "C34_polyeq_partial",
    "C34_assume_partial",
    "C34_assume_chain_refuted",
    "C34_assume_choice_refuted",
    "C34_assume_indexed_refuted",
    "C34_assume_direction_refuted",
    "C34_assume_and_refuted",
    "C34_assume_left_refuted",
    "C34_assume_numeral_refuted",
    "C34_pipeline_panic_refuted",
    "C34_subproof_partial",
    "C34_subproof_assume_panic_refuted",
    "C34_subproof_nested_panic_refuted",
    "C34_refl_partial",
    "C34_forall_inst_partial",
    "C34_ite_intro_partial",
    "C34_bfun_elim_partial",
    "C34_polyeq_pass_partial",
    "C34_refl_choice_refuted",
    "C34_forall_inst_choice_refuted"
   ],
   "note": "Modelled: the local pass (trans, eq_transitive, cong, eq_congruent, resolution without pivots), the polyeq pass for assumptions, uncrowding and the removal of reordering steps. trans and cong always elaborate to accepted proofs of the same clause; the others under conditions, with rejected or panicking witnesses otherwise. C34_local_partial lifts the local pass to whole proofs; C34_local_list_partial goes from an accepted list of commands through the node graph and the pass back to a list, which exists (no panic) and is accepted in elaborated mode; C34_uncrowd_list_partial says the same of the uncrowding pass; C34_polyeq_partial and C34_assume_partial cover the polyeq pass on terms without indexed operators, choice, lambda, n-ary chains and mixed numerals (each restriction has a refutation); C34_last_passes_partial covers uncrowding followed by the removal of reordering steps. C34_pipeline_panic_refuted: with the passes in their default order, a flipped equality that also occurs below a quantifier makes the conversion to a list of commands panic. Missing: rotation of premises in uncrowding, alpha equivalence in the polyeq pass, ids, external solvers. The first pass (refl, forall_inst, ite_intro, bfun_elim) is covered for terms of the fragment that are equal up to the sides of equalities; its mode for alpha-equivalent terms is an arbitrary function."
  },
  {
   "property": "C35",
   "status": "partial",
   "theorems": [
    "C35_references_refuted",
    "C35_discharge_refuted",
    "C35_assumption_refuted",
    "C35_panic_refuted",
    "C35_unused_refuted",
    "C35_assertions_refuted",
    "C35_end_refuted",
    "C35_slice_partial",
    "C35_step_partial"
   ],
   "note": "False in general (ids reused in closed subproofs, late assumptions, last steps with premises, ...): refuted seven ways. Proved for every proof with unique ids and tidy subproofs and every distance: the slice exists, is a cut of the original text, contains every command at distance <= D unchanged, those at D+1 with the same clause, and the requested step itself."
  },
  {
   "property": "C36",
   "status": "proved",
   "theorems": [
    "C36_round_trip",
    "C36_result",
    "C36_any_proof",
    "C36_accepted"
   ],
   "note": "For every parsed proof, and for every proof of that shape with valid references: the round trip is the identity except for context ids."
  },
  {
   "property": "C37",
   "status": "partial",
   "theorems": [
    "C37_structure_partial",
    "C37_discharge_refuted",
    "C37_integers",
    "C37_reals",
    "C37_strings_partial",
    "C37_strings_refuted",
    "C37_symbols_partial",
    "C37_symbols_refuted",
    "C37_tokens_partial",
    "C37_tokens_refuted",
    "C37_sequences_partial",
    "C37_blank",
    "C33_lexer_panic",
    "C33_lexer_panic_refuted",
    "C37_terms_partial",
    "C37_terms_shared_partial",
    "C37_terms_refuted",
    "C37_terms_names_refuted",
    "C37_proof_partial",
    "C37_rule_names_refuted",
    "C37_discharge_names_refuted",
    "C37_hole_args_refuted"
   ],
   "note": "Structure of proofs, tokens, constants and symbols, terms with sharing of subterms (readable terms), and whole proofs from characters to characters (readable commands). Refuted in general."
  },
  {
   "property": "C38",
   "status": "partial",
   "theorems": [
    "C38_cp_addition",
    "C38_cp_multiplication",
    "C38_cp_division",
    "C38_cp_saturation",
    "C38_onepoint_refuted",
    "C38_onepoint_partial",
    "C38_drup",
    "C38_poly_simp",
    "C38_resolution",
    "C38_reordering"
   ],
   "note": "Cutting planes, drup/drat, poly_simp, resolution with pivots and reordering: same verdict for every order. onepoint: same verdict if the conclusion has no let; with let the order of the hash set decides between acceptance and a panic (refuted)."
  },
  {
   "property": "C39",
   "status": "partial",
   "theorems": [
    "C39_concat_eq_partial",
    "C39_concat_unify_partial",
    "C39_concat_conflict_partial",
    "C39_concat_csplit_prefix_partial",
    "C39_concat_csplit_suffix_partial",
    "C39_concat_split_partial",
    "C39_concat_lprop_partial",
    "C39_concat_cprop_prefix_partial",
    "C39_concat_cprop_suffix_partial",
    "C39_cprop_prefix_refuted",
    "C39_cprop_suffix_refuted",
    "C39_cprop_panics",
    "C39_length_pos_partial",
    "C39_length_non_empty_partial",
    "C39_decompose_partial",
    "C39_decompose_rev_refuted",
    "C39_decompose_neg_refuted",
    "C39_re_inter_partial",
    "C39_re_unfold_neg_fixed",
    "C39_re_unfold_neg_partial",
    "C39_re_unfold_neg_refuted",
    "C39_re_concat_unfold_pos_partial",
    "C39_re_concat_unfold_pos_refuted",
    "C39_re_star_unfold_pos_refuted"
   ],
   "note": "All 20 rules modelled. Word equations sound for premises in standard form (str_ok); cprop, decompose, re_unfold_neg, re_concat_unfold_pos sound under the stated conditions and refuted in general; re_kleene_star_unfold_pos refuted; fixed-length rules sound without condition; cprop rules panic on an empty constant."
  },
  {
   "property": "C40",
   "status": "partial",
   "theorems": [
    "C12_C40_ac_simp_sound",
    "C40_aci_simp_refuted",
    "C40_aci_simp_concat_refuted",
    "C40_aci_simp_sound_partial"
   ],
   "note": "ac_simp proved; aci_simp refuted (drops repeated arguments of non-idempotent operators) and proved for the remaining head operators."
  },
  {
   "property": "C41",
   "status": "partial",
   "theorems": [
    "C41_ite_intro_refuted",
    "C41_ite_intro_partial"
   ],
   "note": "refuted in general; sound where the comparison of terms is"
  },
  {
   "property": "C42",
   "status": "partial",
   "theorems": [
    "C42_thread_partial",
    "C42_local_pool_refuted",
    "C42_thread_sort_refuted",
    "C42_local_sort_refuted"
   ],
   "note": "Proved for pointers a thread obtains from additions while the shared pool does not change; refuted when the shared pool grows, for sorts of new terms, and for sorts of terms of the shared pool."
  },
  {
   "property": "C43",
   "status": "partial",
   "theorems": [
    "C43_variables_partial",
    "C43_define_fun_partial",
    "C43_let_partial",
    "C43_scoping_refuted",
    "C43_define_fun_refuted",
    "C43_division_refuted",
    "C43_division_literal",
    "C43_sort_parameter_refuted"
   ],
   "note": "Right for variables whose name is neither defined nor an operator, and for expansions without let and without clashes with bound names; refuted in general. C43_division_literal: which divisions of numerals are read as one numeral. Witness: C43_sort_hidden_ex."
  },
  {
   "property": "C44",
   "status": "partial",
   "theorems": [
    "C44_no_panic_partial",
    "C44_no_panic_refuted",
    "C33_lexer_panic",
    "C44_proof_partial",
    "C44_proof_refuted",
    "C44_problem_partial",
    "C44_instance_partial",
    "C44_problem_refuted",
    "C44_rules_partial",
    "C44_instance_rules_partial",
    "C44_rules_refuted"
   ],
   "note": "No panic for texts whose indices are numerals below 2^64 and that have no @d, eo or (if expanded) let; refuted in general. Also for the text of whole proofs (no empty symbols), of whole problems, and both together; without define-fun if definitions are applied. Files of RARE rules as well, alone and together with a problem and a proof."
  },
  {
   "property": "C45",
   "status": "partial",
   "theorems": [
    "C45_rewrite_total",
    "C45_rewrite_partial",
    "C45_rare_partial",
    "C45_plain_rules_partial",
    "C45_empty_list_refuted",
    "C45_empty_conjunction_refuted",
    "C45_capture_refuted",
    "C45_panic_refuted",
    "C45_no_panic_partial",
    "C45_end_to_end_refuted",
    "C45_meta_match"
   ],
   "note": "Refuted in general: and/or with an empty list are rewritten to the wrong constant (end-to-end witness), bound variables may be merged by the substitution, an undeclared name in :args panics. Proved: rewriting terminates; accepted steps of valid rules are entailed when the instance is well-sorted, there is no let, and bound names of the rule are not used by the arguments; for rules without lists and polymorphism validity is just that premises imply the conclusion."
  },
  {
   "property": "C46",
   "status": "partial",
   "theorems": [
    "C46_hole_ids_refuted",
    "C46_distinct",
    "C46_pass_partial",
    "C46_subproof_ids_refuted",
    "C46_two_passes_refuted"
   ],
   "note": "Ids given out for one replaced step are distinct and prefixed, for any nesting; one pass over a proof with independent ids keeps ids distinct. Refuted for inner steps named like new steps, for two passes, and for inserted solver proofs."
  },
  {
   "property": "C47",
   "status": "partial",
   "theorems": [
    "C47_lia_partial",
    "C47_hole_partial",
    "C47_no_panic",
    "C47_hole_unused_refuted",
    "C47_hole_order_refuted",
    "C47_lia_flipped_refuted",
    "C47_lia_twice_refuted",
    "C47_lia_unknown_refuted",
    "C47_lia_list_partial",
    "C47_hole_list_partial",
    "C47_lia_outer_refuted",
    "C47_lia_text_partial",
    "C47_lia_constants_refuted"
   ],
   "note": "Acceptance of the inserted nodes in the graph; the conversion of the changed graph to a list of commands ends without a panic, and the list is accepted and has no holes left if the solver's proof has none; for solver proofs without context rules whose assumptions are the negated literals. Refuted for flipped, repeated, unused and reordered assumptions, for unknown rules and for nested subproofs that discharge outer assumptions. With the texts: for clauses without negative and fractional constants every answer that is read for the written problem and accepted is inserted and accepted; refuted for negative constants. Witness: C47_lia_text_ex."
  },
  {
   "property": "C48",
   "status": "partial",
   "theorems": [
    "C48_strict_partial"
   ],
   "note": "Holds for proofs whose refl steps conclude terms that the term comparison handles (no division by a literal zero). The converse fails (example)."
  },
  {
   "property": "C49",
   "status": "proved",
   "theorems": [
    "C49_lenient",
    "C49_unused"
   ],
   "note": "For every rule table."
  },
  {
   "property": "C50",
   "status": "partial",
   "theorems": [
    "C50_assertions_partial",
    "C50_order_refuted"
   ],
   "note": "Proved when no comparison of an assertion with an assumption can panic; in general the order matters because a comparison can panic."
  },
  {
   "property": "C51",
   "status": "partial",
   "theorems": [
    "C51_names",
    "C51_text",
    "C51_verdict",
    "C51_relative_refuted"
   ],
   "note": "The check is independent of names for all renamings; reading a text commutes with renamings that respect the relative names of :discharge; refuted without this condition."
  },
  {
   "property": "C52",
   "status": "proved",
   "theorems": [
    "C52_order"
   ],
   "note": ""
  },
  {
   "property": "C53",
   "status": "proved",
   "theorems": [
    "C53_terms",
    "C53_proofs",
    "C53_problem_defs"
   ],
   "note": "For the whole term parser and proof parser of the model (no polymorphic sorts or RARE-only operators). The definitions of the problem are assumed well sorted; C53_problem_defs proves that those read from the text of a problem are."
  },
  {
   "property": "C54",
   "status": "partial",
   "theorems": [
    "C54_partial",
    "C54_in_force_refuted"
   ],
   "note": "Refuted: push, pop, reset-assertions, exit and the scope of check-sat-assuming are ignored. Proved for printed scripts of declarations and assertions."
  },
  {
   "property": "C55",
   "status": "partial",
   "theorems": [
    "C55_partial",
    "C55_same_partial",
    "C55_fractions_refuted",
    "C55_definitions_refuted",
    "C55_meaning_partial"
   ],
   "note": "Proved under conditions on names, sorts and terms (rproblem), with negative and fractional constants read as applications; refuted for fractions and for functions that are defined and not expanded. With negative and fractional constants the assertions that are read hold in the same interpretations (C55_meaning_partial). Witness: C55_meaning_ex."
  },
  {
   "property": "C56",
   "status": "partial",
   "theorems": [
    "C56_premises_partial",
    "C56_funs_rec_refuted",
    "C56_assert_refuted",
    "C53_problem_defs"
   ],
   "note": "Premises are well sorted unless define-funs-rec names a function twice; refuted in that case, and refuted for Boolean: assert accepts terms of any sort. Witness: C56_logic_ex."
  },
  {
   "property": "C57",
   "status": "partial",
   "theorems": [
    "C57_rec_partial",
    "C57_recs_partial",
    "C57_define_partial",
    "C57_applied_partial"
   ],
   "note": "For different parameters, and different names in define-funs-rec. If definitions are applied: under the conditions on names of C43_define_fun_partial (refuted without them, C43_define_fun_refuted). The value of a lambda is not related to application in the semantics."
  },
  {
   "property": "C58",
   "status": "partial",
   "theorems": [
    "C58_online_partial",
    "C58_readable_partial",
    "C58_csv_partial",
    "C58_refuted",
    "C58_command_partial",
    "C58_command_refuted"
   ],
   "note": "For every schedule the verdict of the run with online metrics is that of the instances, or the run says that there is no data and some instance cannot be read; it is exact if all instances can be read. With --dump-to-csv: invalid exactly if an instance fails, exact with one worker. The rest is refuted: results of a worker are lost when an instance cannot be read, and with files for the measurements the flag for holes of all workers but the first is dropped. Witness: C58_ex. The whole command with numbers of runs and workers: C58_command_partial; it panics for zero runs or workers, and its exit status is 0 for rejected proofs (C58_command_refuted)."
  },
  {
   "property": "C59",
   "status": "partial",
   "theorems": [
    "C59_metrics",
    "C59_no_panic",
    "C59_deviation_partial",
    "C59_deviation_refuted"
   ],
   "note": "Number, total, mean, maximum and minimum are right for every way of adding and combining; the squared deviations if the parts are even, and refuted in general (truncating division). Over rationals, without the rounding of floating point numbers. Witness: C59_ex."
  },
  {
   "property": "C60",
   "status": "partial",
   "theorems": [
    "C60_file_partial",
    "C60_solver_partial",
    "C60_files_partial",
    "C60_sharing_refuted",
    "C60_definitions_refuted"
   ],
   "note": "Without sharing of terms: the text is written, can be read, and its assertions hold exactly if the clause does not. With sharing refuted: names of shared terms can be names of the problem. Functions that are only defined are not declared (refuted). Witness: C60_ex, C60_hole_ex, C60_files_ex."
  },
  {
   "property": "C61",
   "status": "partial",
   "theorems": [
    "C61_status",
    "C61_valid_partial",
    "C61_holey",
    "C61_unreadable",
    "C61_skip",
    "C61_threads_refuted",
    "C61_rules_valid_partial",
    "C61_rules_status",
    "C61_rules_unreadable",
    "C61_rules_refuted",
    "C61_rules_holey",
    "C61_answers",
    "C61_rules_threads_partial"
   ],
   "note": "Soundness of valid with the side conditions of C01. The exit status agrees with the line; valid with any number of threads means that the texts were read, all steps checked and the sequential run without lenient options says the same; holey means accepted with an unchecked step; unreadable input is invalid. Refuted: the verdict depends on the number of threads. Reading files and the parser of the command line are not modelled. Witness: C61_ex, C61_threads_ex. With a file of rules: the same for valid (C61_rules_valid_partial), holey, status and unreadable texts; soundness needs that the rules as read are valid, and a file whose own rules are valid is not enough (C61_rules_refuted). Witness: C61_rules_ex. Every run ends with an answer or a crash (C61_answers). Under the conditions of C25_parallel_partial the line does not depend on the number of threads (C61_rules_threads_partial, witness C61_rules_threads_ex)."
  },
  {
   "property": "C62",
   "status": "partial",
   "theorems": [
    "C62_given",
    "C62_verdict_refuted"
   ],
   "note": "Refuted: the verdict is that of the proof that was given (C62_given), and the printed proof can be rejected, or have no holes although holey is printed."
  },
  {
   "property": "C63",
   "status": "partial",
   "theorems": [
    "C63_slice_refuted",
    "C63_default_partial",
    "C63_lia_names",
    "C63_inferred",
    "C63_lia_files",
    "C63_lia_loop"
   ],
   "note": "Refuted for --sliced-output: the names of the two files are swapped with respect to the help text. Proved: default names are different, names of generated files are different for different steps, the inferred problem is the longest prefix with an extension of problems. Witness: C63_ex. C63_lia_files: for every proof read from a text the files of generate-lia-problems are one per lia_generic step outside of subproofs, with different names. C63_lia_loop: the loop over the iterator takes exactly these steps."
  },
  {
   "property": "C64",
   "status": "partial",
   "theorems": [
    "C64_sorts_partial",
    "C64_apart_partial",
    "C64_proof_defines_refuted",
    "C64_scope_refuted",
    "C64_sort_scope_refuted",
    "C64_arguments_refuted",
    "C64_duplicates_refuted"
   ],
   "note": "The terms of the rules are well sorted, and the rules do not depend on the definitions of problem and proof if no symbol of the file is defined there. In general the property is refuted: a name in the proof changes the rules, so that a false proof is accepted with valid rules; parameters and the sorts they define are visible in all later rules; undeclared arguments and duplicates are accepted. Parameters of a ParamSort are not modelled."
  },
  {
   "property": "C65",
   "status": "partial",
   "theorems": [
    "C65_sources",
    "C65_missing",
    "C65_valid",
    "C65_rare_stdin_refuted"
   ],
   "note": "Proved for a file system in which a file can be read entirely or not at all; errors in the middle of a file are not modelled, and the inference of the name of the problem is a parameter (see C63 for it). Finding: standard input cannot be given as the file of rules, - is the name of a file there. Witness: C65_ex."
  }
 ]
}