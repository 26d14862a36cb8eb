{"id": "C01", "title": "Accepted proof implies unsatisfiable problem", "statement": "If checking a proof against a problem reports success without holes (Ok(false): 'valid'), then the conjunction of the problem's assertions has no model.", "quantifier": "every problem, every proof, every interpretation of the declared symbols", "why_tests_cant": "the claim is universally quantified over proofs and over all (infinite) models; a test only exercises one proof and can never exhibit absence of a model", "anchors": ["carcara/src/checker/mod.rs:ProofChecker::check_impl", "carcara/src/checker/shared.rs:check_step_core", "carcara/src/checker/shared.rs:get_rule_shared"]}
{"id": "C02", "title": "'valid' is never reported when some step was not checked", "statement": "The checker answers 'holey' exactly when at least one executed step was accepted without running a real rule check (hole, lia_generic, an allowed rule, or an unknown rule under ignore-unknown-rules); answer 'valid' means every step's rule function accepted it.", "quantifier": "every proof, every configuration (allowed rules, ignore-unknown-rules, elaborated)", "why_tests_cant": "depends on the combination of all steps and options of an unbounded proof; a missed flag on one path turns an unchecked proof into a certified one", "anchors": ["carcara/src/checker/shared.rs:check_step_core", "carcara/src/checker/mod.rs:Config"]}
{"id": "C03", "title": "Acceptance requires a top-level empty clause", "statement": "A run ends in success only if some step outside every subproof concludes the empty clause; otherwise it ends in an error, whatever else the proof contains.", "quantifier": "every proof, including nested subproofs of any depth", "why_tests_cant": "requires all nestings and all positions of empty clauses", "anchors": ["carcara/src/checker/mod.rs:check_impl", "carcara/src/checker/parallel/mod.rs:worker_thread_check"]}
{"id": "C04", "title": "A top-level assume is justified by an assertion", "statement": "Every outermost 'assume' accepted by the checker is entailed by one of the problem's assertions; under the elaborated option it is literally one of the assertions.", "quantifier": "every assumed term, every set of assertions", "why_tests_cant": "the matching is modulo reordering of equalities and n-ary encodings; the space of term pairs is infinite", "anchors": ["carcara/src/checker/shared.rs:check_assume_shared", "carcara/src/ast/polyeq.rs:Polyeq"]}
{"id": "C05", "title": "Local assumptions never escape their subproof", "statement": "When a subproof containing assumptions is closed with the discharging rule, the exported clause holds in every model that satisfies the enclosing facts, without assuming the local assumptions; every local assumption must be listed as discharged.", "quantifier": "every subproof, any nesting depth, any number of assumptions", "why_tests_cant": "scoping bugs appear only for particular nestings of assumptions, anchors and references", "anchors": ["carcara/src/checker/rules/subproof.rs:subproof", "carcara/src/checker/shared.rs:check_discharge_shared"]}
{"id": "C06", "title": "Resolution without pivots is sound", "statement": "If the checker accepts a (th_)resolution step that gives no pivots, then the conclusion clause is entailed by the premise clauses.", "quantifier": "every list of premises (any number, any length, with duplicates, negations of any depth) and every conclusion", "why_tests_cant": "the pivot-guessing algorithm has order-dependent state; unsound combinations are rare and adversarial", "anchors": ["carcara/src/resolution.rs:greedy_resolution", "carcara/src/resolution.rs:rup_resolution", "carcara/src/checker/rules/resolution.rs:resolution"]}
{"id": "C07", "title": "Resolution with pivots is sound", "statement": "If the checker accepts a resolution step with explicit pivots (resolution_with_args / strict_resolution), the conclusion is entailed by the premises.", "quantifier": "every list of premises, pivots, polarities and conclusion", "why_tests_cant": "unbounded clause sets; multiset bookkeeping errors only show on particular duplicates", "anchors": ["carcara/src/resolution.rs:apply_generic_resolution", "carcara/src/checker/rules/resolution.rs"]}
{"id": "C08", "title": "DRUP/DRAT steps are sound", "statement": "If a drup (drat) step concluding the empty clause is accepted, then the premise clauses are unsatisfiable; if a drup step concluding a clause is accepted, the clause is entailed.", "quantifier": "every clause set and every sequence of additions and deletions", "why_tests_cant": "unit propagation with deletion over unbounded derivations", "anchors": ["carcara/src/drup.rs", "carcara/src/checker/rules/drup.rs"]}
{"id": "C09", "title": "Tautology rules introduce only valid clauses", "statement": "Every clause accepted by the premise-free propositional rules (true, false, not_not, and_pos, and_neg, or_pos, or_neg, xor_*, implies_*, equiv_*, ite_*) is true in all interpretations.", "quantifier": "every term instance (any number of conjuncts/disjuncts, arbitrary subterms, any index argument)", "why_tests_cant": "the subterms are arbitrary and the arities unbounded", "anchors": ["carcara/src/checker/rules/tautology.rs"]}
{"id": "C10", "title": "Clausification rules preserve truth", "statement": "For each clausification rule (and, not_or, or, not_and, xor1/2, not_xor1/2, implies, not_implies*, equiv*, not_equiv*, ite*, not_ite*), an accepted conclusion is entailed by its premise.", "quantifier": "every premise term and conclusion", "why_tests_cant": "arities unbounded, arbitrary subterms", "anchors": ["carcara/src/checker/rules/tautology.rs", "carcara/src/checker/rules/clausification.rs"]}
{"id": "C11", "title": "Equality reasoning rules are sound", "statement": "Accepted instances of eq_reflexive, trans, eq_transitive, cong, eq_congruent, eq_congruent_pred, symm, not_symm, eq_symmetric are entailed by their premises.", "quantifier": "every chain length, every orientation and ordering of equalities, every function/operator application of any arity", "why_tests_cant": "chains and argument lists are unbounded and may be permuted/flipped arbitrarily", "anchors": ["carcara/src/checker/rules/transitivity.rs", "carcara/src/checker/rules/congruence.rs", "carcara/src/checker/rules/extras.rs", "carcara/src/checker/rules/reflexivity.rs"]}
{"id": "C12", "title": "Simplification rules preserve meaning", "statement": "If ite/eq/and/or/not/implies/equiv/bool/qnt/div/prod/sum/minus/comp/ac simplify accepts (= lhs rhs), then lhs and rhs have the same value in every interpretation.", "quantifier": "every well-sorted term pair", "why_tests_cant": "rewriting to a fixed point through arbitrary intermediate terms", "anchors": ["carcara/src/checker/rules/simplification.rs"]}
{"id": "C13", "title": "la_generic accepts only valid linear-arithmetic clauses", "statement": "If la_generic accepts a clause with its Farkas coefficients, the clause is true for all integer/real values of its atoms.", "quantifier": "every number of inequalities, every rational coefficient, every integer/real mix", "why_tests_cant": "infinite coefficient and value space; the integer strengthening step is only valid for integer-valued sums", "anchors": ["carcara/src/checker/rules/linear_arithmetic.rs:la_generic"]}
{"id": "C14", "title": "Other linear arithmetic rules are sound", "statement": "Clauses accepted by la_disequality, la_totality, la_tautology, la_rw_eq, la_mult_pos, la_mult_neg are valid.", "quantifier": "every term and every constant", "why_tests_cant": "values range over infinite domains", "anchors": ["carcara/src/checker/rules/linear_arithmetic.rs"]}
{"id": "C15", "title": "Polynomial normalisation identifies only equal terms", "statement": "If poly_simp / poly_simp_rel accepts, both sides denote the same value for every assignment (integers, reals and bit-vectors).", "quantifier": "every polynomial term of any degree and nesting", "why_tests_cant": "monomial merging over unbounded expressions", "anchors": ["carcara/src/checker/rules/polynomial.rs"]}
{"id": "C16", "title": "evaluate computes SMT-LIB values", "statement": "If the evaluate rule accepts (= t c), then the ground term t denotes c under SMT-LIB semantics (Booleans, Euclidean integer division, reals, bit-vectors).", "quantifier": "every ground term built from the supported operators", "why_tests_cant": "wrong corner cases only for signs, widths or boundary values", "anchors": ["carcara/src/ast/evaluate.rs", "carcara/src/checker/rules/extras.rs"]}
{"id": "C17", "title": "Substitution is capture avoiding", "statement": "Applying a substitution to a term denotes the same as evaluating the term in an environment updated with the substituted values; free variables of the substituted values are never captured by binders.", "quantifier": "every substitution, every term with nested binders and lets", "why_tests_cant": "capture happens only for particular coincidences of names", "anchors": ["carcara/src/ast/substitution.rs:Substitution::apply"]}
{"id": "C18", "title": "Alpha-equivalence test is sound", "statement": "If two terms are reported alpha-equivalent they denote the same value in every interpretation.", "quantifier": "all pairs of terms with arbitrarily nested binders", "why_tests_cant": "shadowing and caching bugs need specific nestings", "anchors": ["carcara/src/ast/polyeq.rs:alpha_equiv"]}
{"id": "C19", "title": "Equality modulo reordering is sound", "statement": "If two terms are reported equal modulo reordering of equalities, they denote the same value in every interpretation.", "quantifier": "all pairs of terms", "why_tests_cant": "infinite term space; n-ary operators and constants have several encodings", "anchors": ["carcara/src/ast/polyeq.rs:polyeq"]}
{"id": "C20", "title": "Quantifier rules are sound", "statement": "Conclusions accepted by forall_inst, qnt_join, qnt_rm_unused, qnt_cnf and the miniscope rules are valid in all interpretations with non-empty domains.", "quantifier": "every quantified term", "why_tests_cant": "domains and formulas are unbounded", "anchors": ["carcara/src/checker/rules/quantifier.rs"]}
{"id": "C21", "title": "Binder subproof rules are sound", "statement": "Conclusions accepted by bind, let, onepoint, sko_ex, sko_forall and bind_let are entailed when the inner step holds for every value of the variables introduced by the anchor.", "quantifier": "every anchor context, every inner conclusion", "why_tests_cant": "contexts interact with substitution and shadowing in unboundedly many ways", "anchors": ["carcara/src/checker/rules/subproof.rs", "carcara/src/ast/context.rs"]}
{"id": "C22", "title": "Bit-blasting rules are correct", "statement": "If a bitblast_* rule accepts, the bit-vector operation and the bit-level term denote the same value for all inputs, at every width.", "quantifier": "every width, every operand value", "why_tests_cant": "2^(2w) operand pairs per width, unboundedly many widths; multipliers and adders are carry-propagating circuits", "anchors": ["carcara/src/checker/rules/bitvectors.rs"]}
{"id": "C23", "title": "Cutting-plane rules are sound", "statement": "cp_addition, cp_multiplication, cp_division, cp_saturation, cp_literal and cp_normalize conclude only inequalities implied by their premises for all 0/1 assignments.", "quantifier": "every pseudo-Boolean constraint with arbitrary integer coefficients", "why_tests_cant": "infinite coefficient space, hash-map based bookkeeping", "anchors": ["carcara/src/checker/rules/cutting_planes.rs"]}
{"id": "C24", "title": "Pseudo-Boolean blasting rules are sound", "statement": "pbblast_* rules accept only equivalences between a bit-vector relation and its pseudo-Boolean encoding that hold for all bit-vector values.", "quantifier": "every width, every bit-vector value", "why_tests_cant": "2^(2w) values per width, all widths", "anchors": ["carcara/src/checker/rules/pb_blasting.rs"]}
{"id": "C25", "title": "Parallel checking gives the same verdict as sequential checking", "statement": "For every number of worker threads and every interleaving, the parallel checker accepts a proof iff the sequential checker accepts it, with the same holey flag.", "quantifier": "every proof, number of threads, schedule and interleaving", "why_tests_cant": "schedules are exponentially many and depend on tie-breaking", "anchors": ["carcara/src/checker/parallel/mod.rs", "carcara/src/checker/parallel/scheduler.rs"]}
{"id": "C26", "title": "The scheduler assigns every command exactly once and keeps scoping", "statement": "Over all worker schedules each step/assume of the proof is visited exactly once, in a thread that has the right enclosing subproofs open, and never panics.", "quantifier": "every proof tree, every number of workers, every heap tie-breaking", "why_tests_cant": "combinatorial number of proof shapes and balancings", "anchors": ["carcara/src/checker/parallel/scheduler.rs:Scheduler::new", "carcara/src/checker/parallel/scheduler.rs:ScheduleIter"]}
{"id": "C27", "title": "Premises of a parsed proof always resolve to earlier visible commands", "statement": "After a successful parse, every premise/discharge reference of every step denotes a command that occurs earlier and is in the same or an enclosing subproof, so following it never panics and gives the clause with that id.", "quantifier": "every proof text accepted by the parser", "why_tests_cant": "scoping of ids over unbounded nesting", "anchors": ["carcara/src/parser/mod.rs:parse_proof", "carcara/src/ast/proof.rs:ProofIter::get_premise"]}
{"id": "C28", "title": "Structural clause rules are sound", "statement": "reordering, shuffle, contraction, weakening, and_intro, tautology, bfun_elim, nary_elim, distinct_elim, connective_def conclude only entailed clauses.", "quantifier": "every clause/term", "why_tests_cant": "clauses are unbounded multisets", "anchors": ["carcara/src/checker/rules/extras.rs", "carcara/src/checker/rules/clausification.rs", "carcara/src/checker/rules/resolution.rs"]}
{"id": "C29", "title": "Free-variable computation is exact", "statement": "The set of free variables reported for a term contains every variable its value depends on, and only variables occurring free.", "quantifier": "every term with nested binders and lets", "why_tests_cant": "nesting and shadowing unbounded", "anchors": ["carcara/src/ast/pool/mod.rs:free_vars_with_priorities"]}
{"id": "C30", "title": "Hash-consing makes pointer equality structural equality", "statement": "Within one pool, two terms are pointer-equal iff they are structurally equal, after any sequence of additions.", "quantifier": "every sequence of pool operations", "why_tests_cant": "history-dependent invariant over unbounded sequences", "anchors": ["carcara/src/ast/pool/mod.rs", "carcara/src/ast/pool/storage.rs", "carcara/src/ast/rc.rs"]}
{"id": "C31", "title": "Substitution context stack follows scoping", "statement": "After any sequence of opening and closing anchors, the substitution in force is the one determined by the currently open anchors only.", "quantifier": "every sequence of push/pop/apply operations", "why_tests_cant": "caches make results history dependent", "anchors": ["carcara/src/ast/context.rs:ContextStack"]}
{"id": "C32", "title": "Simplification by fixed point terminates", "statement": "Rewriting to a fixed point either stops with a normal form, reports a cycle, or fails; it never loops forever.", "quantifier": "every term and every simplification function", "why_tests_cant": "non-termination is not observable by a finite test", "anchors": ["carcara/src/checker/rules/simplification.rs:generic_simplify_rule"]}
{"id": "C33", "title": "Checking does not crash", "statement": "For every parsed proof the checker returns a verdict or an error; it does not panic.", "quantifier": "every parsed problem and proof", "why_tests_cant": "crashes need specific malformed arguments for one of ~150 rules", "anchors": ["carcara/src/checker/rules"]}
{"id": "C34", "title": "Elaboration preserves conclusions and validity", "statement": "Elaborated proofs conclude the same clause and every newly inserted step is accepted by the corresponding rule.", "quantifier": "every proof accepted by the checker", "why_tests_cant": "rewrites arbitrary proofs", "anchors": ["carcara/src/elaborator"]}
{"id": "C35", "title": "Slicing keeps a valid self-contained proof", "statement": "The slice of a proof at a step contains that step and all steps it transitively depends on, with intact references.", "quantifier": "every proof and step", "why_tests_cant": "dependency graphs unbounded", "anchors": ["carcara/src/slice.rs"]}
{"id": "C36", "title": "Proof graph conversion round-trips", "statement": "Converting a proof to its node graph and back yields a proof with the same conclusion in which every premise precedes its use.", "quantifier": "every proof", "why_tests_cant": "unbounded sharing and nesting", "anchors": ["carcara/src/ast/node.rs"]}
{"id": "C37", "title": "Printing then parsing gives the same tokens/terms", "statement": "Printed symbols, strings, numbers and terms are read back by the lexer/parser as the same symbols, strings, numbers and terms.", "quantifier": "every symbol, string, number and term", "why_tests_cant": "quoting and escapes over all strings", "anchors": ["carcara/src/ast/printer.rs", "carcara/src/parser/lexer.rs"]}
{"id": "C38", "title": "Verdict does not depend on hash iteration order", "statement": "Rules that iterate over hash maps/sets (cutting planes, multiset comparison, resolution) return the same verdict for every iteration order.", "quantifier": "every iteration order of the underlying tables", "why_tests_cant": "iteration order is randomised per process", "anchors": ["carcara/src/checker/rules/cutting_planes.rs", "carcara/src/resolution.rs", "carcara/src/utils.rs"]}
{"id": "C39", "title": "String and regular expression rules are sound", "statement": "Conclusions accepted by the string rules (concat_eq, concat_unify, concat_conflict, ...) are entailed by their premises for all strings.", "quantifier": "all strings", "why_tests_cant": "strings unbounded", "anchors": ["carcara/src/checker/rules/strings.rs"]}
{"id": "C40", "title": "aci_simp and rewrite-style extra rules preserve meaning", "statement": "If aci_simp / ac_simp accepts (= a b), then a and b denote the same value.", "quantifier": "all terms", "why_tests_cant": "associativity/commutativity/idempotence over unbounded nested applications", "anchors": ["carcara/src/checker/rules/extras.rs", "carcara/src/checker/rules/simplification.rs"]}
{"id": "C41", "title": "Introducing definitions of if-then-else terms is sound", "statement": "Every equation accepted for the rule ite_intro, between a formula and its conjunction with definitions of if-then-else terms, is valid.", "quantifier": "every conclusion of an ite_intro step", "why_tests_cant": "terms are unbounded and comparisons are modulo an equivalence on terms", "anchors": ["carcara/src/checker/rules/tautology.rs: ite_intro", "carcara/src/ast/polyeq.rs"]}
{"id": "C42", "title": "Hash-consing across the pools of a parallel check", "statement": "During a parallel check every worker thread sees one pointer per term structure, also across the global, shared and thread-local pools, and the sort reported for a term is its sort.", "quantifier": "every interleaving of additions by contexts and worker threads", "why_tests_cant": "depends on the interleaving of additions to a pool shared between threads", "anchors": ["carcara/src/ast/pool/advanced.rs LocalPool::add", "carcara/src/ast/pool/advanced.rs LocalPool::sort", "carcara/src/ast/pool/mod.rs compute_sort"]}
{"id": "C43", "title": "Names in terms denote what SMT-LIB says, and definitions are expanded with their meaning", "statement": "A symbol in a parsed term stands for the innermost bound variable of that name, otherwise for the definition or declaration of that name; the application of a function introduced by define-fun, a let that is expanded and a division of numerals have the value that the written term has.", "quantifier": "every text of a term, every set of definitions and declarations", "why_tests_cant": "nesting of binders, definitions and arguments is unbounded and the failures depend on coincidences of names", "anchors": ["carcara/src/parser/mod.rs: parse_term, parse_application, FunctionDef::apply, parse_let_term, interpret_div_as_real_lit", "carcara/src/ast/substitution.rs"]}
{"id": "C44", "title": "Reading a term never crashes", "statement": "Whatever text is given as a term, the parser returns a term or an error; it does not panic.", "quantifier": "every text, every set of definitions and declarations, every parser configuration", "why_tests_cant": "the set of texts is infinite; panics are in rare combinations of tokens", "anchors": ["carcara/src/parser/mod.rs: parse_term, parse_application, parse_sort, make_op, make_indexed_op", "carcara/src/parser/lexer.rs"]}
{"id": "C45", "title": "Steps of RARE rewrite rules are instances of the rule", "statement": "If the checker accepts a rare_rewrite step, its conclusion follows from its premises whenever the named RARE rule is valid, i.e. whenever all well-sorted instances of the rule (arguments for parameters, lists spliced) are valid; checking such a step ends with an answer.", "quantifier": "every set of RARE rules (polymorphic and list parameters included), every step, every list of arguments, all interpretations", "why_tests_cant": "the rules are supplied by the user and the arguments range over all terms and lists of terms, including the empty list", "anchors": ["carcara/src/checker/rules/rare.rs: check_rare", "carcara/src/rare/mod.rs: get_rules, match_meta_terms, reconstruct_meta_terms, check_rewrites, rewrite_meta_terms", "carcara/src/ast/rare_rules.rs"]}
{"id": "C46", "title": "Steps added by elaboration get ids that are not in use", "statement": "The ids that the elaborator gives to the steps it adds in place of a step are different from each other and from all ids of the proof, so that the elaborated proof can be printed and read again, with every reference resolved to the intended step.", "quantifier": "every proof, every step the elaborator replaces, every number and nesting of the steps added, and every sequence of elaboration passes", "why_tests_cant": "Ids of inputs are arbitrary strings and the added ids depend on the nesting of the derivations; clashes appear only for particular combinations of input ids and passes.", "anchors": ["carcara/src/elaborator/mod.rs: IdHelper::next_id, push, pop", "carcara/src/elaborator/hole.rs: insert_solver_proof", "carcara/src/elaborator/subproof.rs: subproof", "carcara/src/elaborator/uncrowding.rs: uncrowd_resolution", "carcara/src/elaborator/resolution.rs: resolution"]}
{"id": "C47", "title": "Inserting an external solver's proof keeps the proof accepted", "statement": "If a proof is accepted up to a lia_generic step or a hole, and an external solver returns a refutation of the negated literals of the step which the checker accepts on its own, then the elaborated proof, in which the step is replaced by the solver's proof, is accepted and the step's conclusion is unchanged; the elaborator does not crash.", "quantifier": "every proof, every lia_generic, all_simplify or rare_rewrite step at any depth, and every proof returned by the solver that the checker accepts", "why_tests_cant": "The solver is an external program: its proofs can have any steps, assumptions in any order and number, nested subproofs and any ids.", "anchors": ["carcara/src/elaborator/hole.rs: insert_solver_proof, increase_subproof_depth", "carcara/src/elaborator/lia_generic.rs: insert_solver_proof", "carcara/src/ast/node.rs: ProofNode::get_assumptions_of_depth, traverse"]}
{"id": "C48", "title": "Elaborated mode is stricter than normal mode", "statement": "Every proof that the checker accepts with the elaborated option is accepted without it, with the same verdict (valid or holey).", "quantifier": "every problem, every proof, every choice of the other options and of RARE rules", "why_tests_cant": "the two modes use different code for resolution, refl and assume; that one accepts whatever the other does must hold for every step", "anchors": ["carcara/src/checker/shared.rs: check_assume_shared, get_rule_shared", "carcara/src/checker/rules/reflexivity.rs: strict_refl, refl", "carcara/src/checker/rules/resolution.rs: resolution, resolution_with_args"]}
{"id": "C49", "title": "Lenient options only ever add holes", "statement": "Ignoring unknown rules or allowing more rules never makes an accepted proof rejected and never turns a holey verdict into a valid one; a proof reported valid under some options is valid without them.", "quantifier": "every problem, proof and pair of option sets", "why_tests_cant": "the options take part in every step of every proof", "anchors": ["carcara/src/checker/mod.rs: Config", "carcara/src/checker/shared.rs: check_step_core"]}
{"id": "C50", "title": "The verdict does not depend on the order, number or repetition of further assertions", "statement": "If a proof is accepted for a problem, it is accepted with the same verdict for a problem with the same assertions in another order, repeated, or with additional ones.", "quantifier": "every problem, every proof, every extension or permutation of the assertions", "why_tests_cant": "assumptions are compared with the assertions one after the other until one matches; a comparison that crashes is seen only for some orders", "anchors": ["carcara/src/checker/shared.rs: check_assume_shared"]}
{"id": "C51", "title": "The verdict does not depend on the names of steps", "statement": "Replacing the names of the steps and assumptions of a proof throughout by other, different names changes neither whether the proof can be read nor the verdict.", "quantifier": "every proof text and every renaming", "why_tests_cant": "the set of texts and renamings is infinite; names in :discharge are resolved relative to the step", "anchors": ["carcara/src/parser/mod.rs: parse_proof, parse_step_premise, parse_discharge_premise", "carcara/src/checker/mod.rs: check"]}
{"id": "C52", "title": "A proof is traversed completely and in order", "statement": "Iterating over a proof yields every command exactly once, in the order of the text and with a subproof before its commands, reports its nesting depth, and reports exactly the last command of each subproof as the one closing it.", "quantifier": "every proof, arbitrarily nested", "why_tests_cant": "nesting is unbounded", "anchors": ["carcara/src/ast/iter.rs: ProofIter::next, depth, is_end_step"]}
{"id": "C53", "title": "Terms of a parsed proof are well sorted", "statement": "Whatever the text of a proof is, if it is read without an error, then every term in it is well sorted: assumptions and literals of clauses are Boolean, operators and functions are applied to arguments of the right number and sorts, also after definitions and lets have been expanded, and the value of an anchor's assignment has the sort of its variable.", "quantifier": "all texts of proofs, all parser configurations, all well-sorted definitions of the problem", "why_tests_cant": "The checkers of the rules rely on it for every term; a test only tries some texts, while sorts must hold for all nestings of applications, binders, definitions and substitutions.", "anchors": ["carcara/src/parser/mod.rs: make_op, make_app, make_indexed_op, parse_term, parse_proof", "carcara/src/ast/substitution.rs: Substitution::apply"]}
{"id": "C54", "title": "The premises of a proof are the assertions in force at the check", "statement": "The set of premises that a proof may assume is the set of assertions that are in force at the check that the proof is for: not those that were popped, reset or made after the end of the script, and the assumptions of a check only for that check.", "quantifier": "all SMT-LIB scripts", "why_tests_cant": "Scripts are sequences of commands of any length, with push and pop nested arbitrarily.", "anchors": ["carcara/src/parser/mod.rs: parse_problem, parse_check_sat_assuming", "carcara/src/ast/problem.rs: Problem"]}
{"id": "C55", "title": "The problem written for a slice is the problem that was read", "statement": "The problem file that is written beside a sliced proof can be read, and is read with the same logic, sorts, functions and assertions, so that the sliced proof is checked against the same premises.", "quantifier": "all problems that can be read and all sets of their assertions", "why_tests_cant": "Names, sorts and terms are unbounded; printing must invert parsing for all of them.", "anchors": ["carcara/src/ast/printer.rs: Display for ProblemPrelude, write_asserts", "cli/src/main.rs: slice_command", "carcara/src/parser/mod.rs: parse_problem"]}
{"id": "C56", "title": "The premises of a parsed problem are well sorted and Boolean", "statement": "Whatever the text of a problem is, if it is read without an error, then every premise is well sorted and Boolean, and every definition is well sorted.", "quantifier": "all texts of problems, all parser configurations", "why_tests_cant": "The checker relies on it for every premise; a test only tries some texts.", "anchors": ["carcara/src/parser/mod.rs: parse_problem, parse_define_fun, parse_define_funs_rec, parse_check_sat_assuming"]}
{"id": "C57", "title": "The functions that a problem defines have the meaning of their definitions", "statement": "After define-fun, define-fun-rec or define-funs-rec, the premises (or the expansions, if definitions are applied) say exactly that the function with this name has the value of the body for all values of the parameters, in the order in which they are written, and the body is read with the parameters, and for recursive definitions the functions, in scope.", "quantifier": "all problems and definitions, all interpretations", "why_tests_cant": "The meaning quantifies over all values of the parameters and all interpretations of the other symbols.", "anchors": ["carcara/src/parser/mod.rs: parse_define_fun, parse_define_funs_rec, FunctionDef::apply"]}
{"id": "C58", "title": "The verdict of a benchmark run is that of its instances", "statement": "A benchmark run over instances prints invalid if some instance cannot be read or is rejected, otherwise holey if some accepted proof has holes, and otherwise valid, and reports the number of instances that failed, no matter how many workers there are and which worker gets which instance.", "quantifier": "all nonempty lists of instances, all numbers of workers, all schedules", "why_tests_cant": "The division of the instances among the workers depends on timing; the wrong verdicts need particular divisions.", "anchors": ["cli/src/benchmarking.rs: run_job, worker_thread, run_benchmark, run_csv_benchmark", "cli/src/main.rs: bench_command", "carcara/src/benchmarking/mod.rs: OnlineBenchmarkResults, CsvBenchmarkResults, CollectResults::combine"]}
{"id": "C59", "title": "The metrics of a benchmark are those of all samples", "statement": "However the samples are divided among workers and in whatever order the partial metrics are combined, the number, total, mean, largest and smallest sample and standard deviation that are printed are those of the list of all samples, and combining never panics.", "quantifier": "all lists of samples, all ways of adding and combining", "why_tests_cant": "It must hold for every division of the samples among workers.", "anchors": ["carcara/src/benchmarking/metrics.rs: OnlineMetrics::add_sample, combine, NullMetrics"]}
{"id": "C60", "title": "Problems written for external solvers say that the clause is false", "statement": "The problem that is given to an external solver for a step, or written to a file by generate-lia-problems, can be read, declares what the original problem declares, and is satisfied exactly by the interpretations that make the clause of the step false; so it is unsatisfiable exactly if the clause is valid. Exactly the lia_generic steps outside of subproofs get a file, in order.", "quantifier": "all declarations, clauses and proofs with printable names, sorts and terms", "why_tests_cant": "It must hold for every clause, every name and every constant that can occur in a step.", "anchors": ["carcara/src/ast/printer.rs: write_lia_smt_instance", "carcara/src/elaborator/lia_generic.rs: get_problem_string", "carcara/src/elaborator/hole.rs: get_problem_string", "carcara/src/lib.rs: generate_lia_smt_instances"]}
{"id": "C61", "title": "The line and the exit status of the check command are right", "statement": "The command check prints valid (exit status 0) only if the problem and the proof can be read, every step was checked by its rule and the empty clause is derived; then the premises of the problem have no model. It prints holey only if the proof is accepted and some step was not checked. In all other cases it prints invalid and the exit status is 1. This holds for every number of threads, and the number of threads does not matter.", "quantifier": "all texts of problems and proofs, all options, all numbers of threads and interleavings", "why_tests_cant": "It must hold for every input, option and schedule of the threads.", "anchors": ["cli/src/main.rs: main, check_command, ParsingOptions, CheckingOptions", "carcara/src/lib.rs: check, check_parallel"]}
{"id": "C62", "title": "The verdict that elaborate prints is that of the proof it prints", "statement": "The command elaborate prints a verdict and a proof; the verdict is what check says about this proof.", "quantifier": "all problems, proofs and pipelines", "why_tests_cant": "It must hold for every proof and every elaboration.", "anchors": ["cli/src/main.rs: main, elaborate_command", "carcara/src/lib.rs: check_and_elaborate"]}
{"id": "C63", "title": "Files are found and written under the right names", "statement": "The command slice writes the sliced problem and the sliced proof to the files that were named for them, by default to different files for the problem and the proof and for different steps; generate-lia-problems never overwrites a file it has written; the problem that is inferred for a proof file is the longest prefix of its name that ends in an extension of problem files.", "quantifier": "all names of files and steps", "why_tests_cant": "It must hold for all names.", "anchors": ["cli/src/main.rs: slice_command, generate_lia_problems_command", "cli/src/path_args.rs: infer_problem_path"]}
{"id": "C64", "title": "A file of RARE rules is read as it is written, whatever the problem and the proof define", "statement": "If `check` is given a file of RARE rewrite rules, then the rules that `rare_rewrite` steps may use are the rules the file declares: each with its own parameters, premises, arguments and conclusion, all terms well sorted, and independent of the definitions and names that the (untrusted) proof introduces. A rule that uses undeclared names, and two rules with one name, are reported as errors.", "quantifier": "all texts of problems, proofs and files of rules", "why_tests_cant": "The files are read one after the other by one parser whose tables are not reset; whether something of one file changes the meaning of another depends on all combinations of names in the three texts.", "anchors": ["carcara/src/parser/rare/mod.rs:parse_parameters", "carcara/src/parser/rare/mod.rs:parse_rule", "carcara/src/parser/rare/mod.rs:parse_rare", "carcara/src/parser/mod.rs:parse_instance_with_pool", "carcara/src/ast/rare_rules.rs:RuleDefinition"]}
{"id": "C65", "title": "The check command works on the files that were named", "statement": "The problem, the proof and the rules that are checked are the contents of the files named on the command line, with - for standard input and the inferred file if no problem is named. Standard input is never used twice. If something that was named cannot be opened, invalid is printed and the exit status is 1; valid is only printed if the named proof is accepted for the named problem with the named rules.", "quantifier": "all file systems, contents of standard input, combinations of names and options, numbers of threads and interleavings", "why_tests_cant": "It must hold for all combinations of names and all contents of files.", "anchors": ["cli/src/main.rs: get_instance, check_command, Input"]}
