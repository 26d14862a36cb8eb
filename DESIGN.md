# Design: a Rocq model of the Carcara proof checker

Source modelled: `/repo/carcara/src` (Rust). Nothing in `/repo` is built or run; the model is a
function-by-function transcription and every definition cites the file and lines it models.
Rocq/Coq 8.16.1, logical root `Verif`, standard library only.

## 1. Architecture of the model

| layer | files | content |
|---|---|---|
| terms | `Term.v` | `ast/term.rs`: terms, sorts, operators, constants, structural equality (hash-consing: pointer equality = structural equality, justified separately by C30) |
| pool | `Pool.v`, `P_Pool.v` | `ast/pool/storage.rs`, `ast/pool/advanced.rs`: additions and lookups by address |
| semantics (specification) | `Field.v`, `Sem.v` | SMT-LIB meaning of terms: many-sorted interpretations with arbitrary universes; Int embedded in an arbitrary Archimedean ordered field for Real; bit-vectors as (width, value); quantifiers over non-empty sorts; a clause holds iff one of its literals evaluates to true |
| sorts | `Sorting.v` | the parser's sort checks (`parser/mod.rs: make_op`) as a predicate and the lemma that well-sorted terms denote values of their sort |
| rules | one file per Rust rule file | each rule as a total function to `ROk / RErr / RPanic` |
| checker | `Checker.v`, ... | iteration, premises, contexts, discharge, holes, empty clause |
| infrastructure | parallel scheduler, pool, context stack, substitution, polyeq, lexer/printer, node graph, slicing, elaboration | as each is modelled |
| properties | `P_*.v` | only theorem statements closed by `exact`, with `Print Assumptions` and a non-vacuity `Example` |
| node graph | `Nodes.v`, `P_Nodes.v` | `ast/node.rs`: both conversions; nodes carry their address; the explicit stack of `proof_list_to_nodes` is a recursion |
| checker/rules/bitvectors.rs | R_Bv.v, BvSound.v, P_Bv.v | all of it |
| `checker/rules/pb_blasting.rs` | `R_PB.v`, `PBSound.v`, `PBRefute.v`, `P_PB.v` | all rules |
| slice.rs | Slice.v, SliceRefute.v, SliceSound.v, SliceCopy.v, SliceMain.v, P_Slice.v | slicing a proof at a step; refutations; specification of dependence; completeness of the slice |
| checker/rules/strings.rs | R_Str.v, StrSound.v, StrSound2.v, StrRefute.v, P_Strings.v | all 20 rules; soundness, counterexamples |
| `elaborator/{mod,transitivity,congruence,resolution}.rs` (local pass), `resolution.rs` (tracing) | `Elab`, `ElabSound`, `ElabCong`, `ElabFlip`, `ElabTrans`, `ElabCongr`, `ElabRes`, `ElabLocal`, `ElabRefute`, `P_Elab` | elaboration of trans, eq_transitive, cong, eq_congruent and resolution steps as functions to trees of steps; acceptance by the modelled checker in elaborated mode. Not modelled: ids, depths, sharing (trees), solver calls (hole, lia_generic). |
| checker/rules/cutting_planes.rs, subproof.rs (hash tables) | HashOrder.v, P_Hash.v | the rules that iterate over a HashMap or HashSet, with the order as a parameter |
| checker/mod.rs, checker/shared.rs, checker/rules (panics) | NoPanic.v, NoPanicBv.v, NoPanicPoly.v, NoPanicMore.v, NoPanicCtx.v, NoPanicRules.v, NoPanicStr.v, NoPanicPrem.v, NoPanicFull.v, ParsedText.v, NoPanicCheck.v, P_Panic.v | crash freedom of rules and of the whole checker |
| parser/lexer.rs, ast/printer.rs (tokens, constants, symbols) | Lexer.v, LexerSound.v, P_Lexer.v | all of the lexer (positions dropped), printing of tokens, symbols and constants |
| parser/mod.rs (terms and sorts: 109-134, 234-594, 648-690, 1319-1958), ast/printer.rs (terms) | TermIO, TermIOSound, TermIOPanic, P_TermIO | printing terms with names for shared subterms; reading terms and sorts from tokens; expansion of definitions and lets |
| `checker/rules/rare.rs`, `rare/mod.rs`, rule records of `ast/rare_rules.rs` | `R_Rare.v`, `RareSound.v`, `P_Rare.v` | complete; the parser of RARE files is not modelled, parameters of a `ParamSort` do not exist |
| `checker/mod.rs` get_rule, all rules | `FullTable.v` | `Table.v` plus cp_* and rare_rewrite; only `hole` and `lia_generic` are not checked (holey) |
| `elaborator/{uncrowding,reordering}.rs`, `mutate` in `elaborator/mod.rs` | `ElabUncrowd`, `ElabUncrowdSound`, `P_ElabUncrowd`, `ElabReorder`, `ElabReorderSound`, `P_ElabReorder` | uncrowding of resolution steps (without `uncrowd_rotation`), removal of reordering steps, both over whole proofs. `mutate` tells a pass that premises changed by comparing addresses, and re-wraps every step: in the model a premise counts as changed unless it is an assumption. |
| elaborator/polyeq.rs, elaborator/mod.rs:203-249 (assumptions) | ElabPolyeq, ElabPolyeqSound, ElabGraph, P_ElabPolyeq | comparison without alpha equivalence; the elaborator's cache is an arbitrary oracle saying which equalities were derived outside of a subproof |
| elaborator/mod.rs 445-477 (IdHelper) | ElabIds.v | ids of added steps; the id helper, its use by the polyeq elaborator |
| elaborator/hole.rs, elaborator/lia_generic.rs (insertion of a solver's proof), ast/node.rs traverse and get_assumptions_of_depth | ElabSolver.v, ElabSolverSound.v, SolverInsert.v | the solver itself is arbitrary: any proof that the checker accepts; starting the process and printing the problem are not modelled |
| ast/node.rs with checker/mod.rs | GraphAccept.v | every node of the graph of an accepted proof is accepted by its rule in its context |
| elaborator/subproof.rs, ids in elaborator/polyeq.rs | ElabSubproof.v | on node graphs with ids, depths and discharged assumptions |
| checker/mod.rs, checker/shared.rs, ast/iter.rs, parser/mod.rs | CheckMono.v, ParserRename.v, P_CheckMono.v | comparison of two runs of the checker (modes, options, assertions, names); order of traversal; renaming of texts |
| ast/node.rs into_list with checker/mod.rs | GraphCheck.v, GraphTree.v, GraphWf.v, GraphDone.v | the list made of an accepted node graph: conversion ends, list is accepted; structure of the graphs of accepted proofs |
| elaborator/mod.rs mutate (the local pass over a node graph) | GraphPass.v, ElabOver.v, P_LocalList.v, P_UncrowdList.v | the list made after the local pass or after uncrowding: no panic, accepted in elaborated mode |
| elaborator/mod.rs mutate (replacement of a step), with hole.rs and lia_generic.rs | GraphReplace.v, GraphInsert.v, GraphOwn.v, SolverList.v | the list made after a step is replaced by a solver's proof |
| parser/mod.rs (parse_proof and the parsers of commands), ast/printer.rs (write_proof, write_step) | ProofIO, ProofIOSound, ProofIOPanic, P_ProofIO | whole proofs as text: all commands, attributes, anchors, line breaks, the names of shared terms across commands |
| parser/mod.rs (sort checks), ast/substitution.rs | WellSorted, P_WellSorted | sorts of the terms that are read, over TermIO.v and ProofIO.v |
| parser/mod.rs (parse_problem and the parsers of its commands), ast/printer.rs (ProblemPrelude, write_asserts), cli/src/main.rs (slice_command, the problem written) | ProblemIO, ProblemWt, ProblemIOSound, P_Problem, P_ProblemPrint | SMT-LIB scripts as text: declarations, definitions, sorts, assertions, logic (other commands are skipped, as in the code) |
| parser/mod.rs (parse_problem, panics; definitions) | ProblemPanic, P_ProblemPanic, P_Define | no panic when problems are read; the meaning of definitions |
| cli/src/benchmarking.rs, cli/src/main.rs (bench), carcara/src/benchmarking | Bench.v, P_Bench.v | verdict of runs for all schedules, metrics; times, the queue and printing are left out |
| ast/printer.rs (write_lia_smt_instance), elaborator/hole.rs and lia_generic.rs (get_problem_string), lib.rs (generate_lia_smt_instances) | SolverProblem.v, P_SolverProblem.v | the text of the problem for a clause, which steps get a file; running the solver is not modelled: its answer is any text |
| cli/src/main.rs (check_command, elaborate_command, names of files, options), cli/src/path_args.rs, lib.rs (check, check_parallel, check_and_elaborate) | Cli.v, ParallelAccept.v, P_Cli.v | options, verdict, printed line and exit status from the texts; reading files, logging and the parser of the command line are not modelled |
| parser/rare/mod.rs, parser/mod.rs:79-101 | RareIO.v, DefsApart.v | the reader of RARE rule files, on tokens, after the problem and the proof; without [ParamSort] parameters |
| `elaborator/{reflexivity,quantifiers,tautology,clausification}.rs`, `elaborate_polyeq` in `elaborator/mod.rs` | `ElabRules.v`, `P_ElabRules.v` | the first pass of the elaborator on refl, forall_inst, ite_intro and bfun_elim steps; the elaboration of alpha-equivalent terms is an arbitrary function, ids are left out |

A rule is *sound* when: if the rule function returns `ROk` on (conclusion, premises, args), then for every
interpretation and every environment in which all premise clauses hold, the conclusion clause holds.

Interpretations carry their own decision procedure for quantifiers (`all`/`choice` operators with their
specification as record fields), so no classical axiom is needed; every classical structure gives one.

Conventions: Rust `unwrap`/index panics are the explicit outcome `RPanic`; `rug` integers are `Z`, rationals `Q`;
`usize` is `nat` where only used as a length/index. Timing/statistics/logging/error payloads are dropped.

## 2. Properties: plan and method

* C01 end-to-end soundness: induction over the command list/iterator, using the per-rule soundness theorems, for
  the fragment of rules proved sound; for the full rule set the property is **refuted** with concrete accepted
  proofs of satisfiable problems (see section 4).
* C02, C03, C05: invariants of the checker loop (`check_impl`), by induction over the proof tree.
* C04: `check_assume_shared`; exact for elaborated mode, modulo polyeq otherwise (refuted for unary minus).
* C06, C07, C08: propositional semantics of clauses over literals (negation count, term), transcription of the
  greedy / RUP / generic resolution algorithms.
* C09, C10, C11, C12, C14, C28, C40: direct semantic proofs per rule.
* C13: linear-combination algebra over the ordered field.
* C15: polynomial semantics preserved by each arithmetic operation of the normaliser.
* C16: evaluator (R_Eval.v, all operators of ast/evaluate.rs) against the semantics; one lemma per operator, then induction on the term (EvalSound.v).
* C17, C18, C19, C29, C31: term-level algorithms, induction over terms.
* C20: every rule of `quantifier.rs` as a function; soundness by the semantics of quantifiers over non-empty domains (`QuantSound.v`): unconditional for `qnt_join`, `miniscope_distribute`; under conditions on capture and `let` for the others, which are refuted in general. The cache of the negation normal form is left out (it is keyed by term and polarity, so it does not change the result).
* C21: quantifier semantics.
* C22: bitvectors.rs is modelled completely (R_Bv.v): build_term_vec, the ripple-carry adder, the shift-and-add multiplier with its rows of carries, and the seventeen rules. Values are sums of bits; the adder is proved by induction on the width, each row of the multiplier is shown to be an adder of the previous row and a shifted operand, and comparisons are proved by induction from the least significant bit. No rule is refuted: the number of bits that bitblast_extract does not check is fixed by the sorts of the equation.
* C23: `cutting_planes.rs` as functions on maps from printed literals to coefficients, with the printer as a parameter; the value of a sum is preserved by the map operations (`CPSound.v`). Sound under conditions on the names of literals, on distinct literals, and on signs; refuted in general.
* C24: every rule of pb_blasting.rs as a function (R_PB.v). Proved for every width (PBSound.v): unsigned comparisons when each sum has a summand for every bit, signed ones when each sum has a summand for every bit but the sign, `bvxor`/`bvand` and their one-bit forms when the operands are bits and do not mention `z`, constants whose elements are 0 or 1; `pbblast_pbbvar` unconditionally. Each other case is refuted (PBRefute.v).
* C25, C26: scheduler as a state machine; invariant relating each worker's schedule to the proof tree.
* C27: parser state machine for proof commands (Parser.v: frames, scoped id table, context ids) over texts whose terms are already parsed; invariant by induction on the text (ParserSound.v). The specification is the printer's view (`print_proof`: each reference replaced by the id of the command it denotes) plus the iterator (`yields`).
* C30: pool as a table of (address, node) where a node holds the addresses of its subterms, with an arbitrary allocator that returns unused addresses (a theorem hypothesis); `Pool.v`. The structure of an address is a relation over the table. Proved for every sequence of additions.
* C42: the layered pools of a worker thread (global, shared, own). Proved while the shared pool does not change, for pointers obtained from additions; three refutations otherwise. Not modelled: which nodes `compute_sort` adds (any node may be added), the free variable caches.
* C32: fixed point loop with the `seen` set: termination measure and result characterisation.
* C33: the model keeps every panic of the rules (failed unwrap, index out of range, division by zero, unreachable!) as the value RPanic. Theorem: for proofs that satisfy `proof_fine` the checker returns a verdict or an error (induction over the commands, with the stack of open command lists as invariant; for the rules with contexts: substitution maps calm terms to calm terms and keeps sorts). The drup, pseudo-Boolean, polynomial, aci_simp, qnt_cnf, forall_inst and ite_intro rules are covered as well (`NoPanicRules.v`), and the string rules (`NoPanicStr.v`); the rules that panic depending on their premises (bfun_elim, poly_simp_rel, concat_cprop_prefix, concat_cprop_suffix; `NoPanicPrem.v`) are covered under a condition on all clauses of the proof, evaluate for terms of `ev_calm` (divisions by nonzero numerals, signed and indexed operators on positive widths with indices that fit; the width of a value is shown to be that of the sort of the term, `C16_width`). The cutting planes and RARE rules are covered with the table of FullTable.v. Not covered are cp_division and cp_saturation in whole proofs; they panic when their premise is the empty clause. The unrestricted statement is refuted by nineteen parsed proofs (`panicking`). Uncrowding is proved through naive resolution of literal lists (`nchain`): contractions before the point where a literal is needed keep the chain of resolvents. Uncrowding and removal of reorderings are then composed for whole proofs (`C34_last_passes_partial`). From texts (P_PanicText.v): what is read satisfies `proof_parsed` (C33_parsed), and reading a problem, a proof and rules and then checking does not panic under the conditions of C44 and C33 together (C33_texts_partial); three pairs of texts that are read and then make the checker panic (C33_texts_refuted). For the check command see P_CliPanic.v: one thread (C33_command_partial, C33_command_refuted), and any number of threads (C33_parallel_partial, C33_command_threads_partial, C33_command_threads_refuted; C25_panics says that the panic of a thread is not lost; NoPanicPar.v lifts the theorem on commands to the visits of the workers).
* C34: the passes are functions from a step to a tree of steps (`enode`); `accepted` runs the modelled rule table in elaborated mode on every step. Proved per rule and for whole proofs (`elab_local`), by induction on the tree; witnesses where the result is rejected. `C34_local_list_partial` and `C34_uncrowd_list_partial` are about lists of commands: accepted list, node graph, pass over the graph, list again, checker in elaborated mode. The steps of the first pass: a refl, forall_inst, ite_intro or bfun_elim step that the checker accepts becomes a derivation of the same clause accepted in elaborated mode, if the compared terms are in the fragment of C34_polyeq_partial and equal up to the sides of equalities (C34_polyeq_pass_partial for whole trees).
* C35: slice.rs as functions on the parsed proof (Slice.v): map of references, breadth-first search, context of the step, copying loop. Independent specification (SliceSound.v): `needs` (dependence through n references), `cut` (lines left out or turned into holes), `present`. Proved for proofs with unique ids and tidy subproofs (SliceMain.v, slice_complete): the slice exists, prints, is a cut of the text and contains everything at distance at most D. False in general, seven ways (SliceRefute.v).
* C37: lexer/printer round trips. Structure of the text: `C37_structure_partial` (P_Parser.v). Characters: Lexer.v models the lexer and the printing of tokens and constants over lists of code points; round trip for integers and reals (unconditional), strings, symbols and all tokens (under conditions, refuted without), and for sequences of tokens with white space between them (P_Lexer.v). Terms with sharing: P_TermIO.v. Whole proofs, from characters to characters: `C37_proof_partial` (P_ProofIO.v), which joins the three; refuted for rules and first discharged ids that need quotes.
* C38: each loop over a hash map or hash set takes its order from a parameter; the verdict is proved equal for all orders (cutting planes, drup, poly_simp, onepoint without let).
* C39: All rules of checker/rules/strings.rs are modelled (R_Str.v) on top of an interpretation of str.substr and of regular expressions as sets of strings (re_laws, Sem.v; satisfied by the model in Model.v). Word-equation rules (concat_eq, concat_unify, concat_conflict, csplit, split, lprop) are proved sound for premises in standard form; cprop, string_decompose, re_unfold_neg and re_concat_unfold_pos are sound under stated conditions and refuted in general; re_kleene_star_unfold_pos is refuted; the two fixed-length rules are sound.
* C41: `ite_intro`, refuted through the comparison of C19, proved on terms where that comparison is sound.
* C36: `to_nodes` by recursion over commands, `to_list` as the loop over the todo stack with fuel. Proved: for every parsed proof both succeed and the result is the same proof with the context ids reset; its printed text is unchanged.
* C43: the parser of terms (TermIO.v) on the lexer model. A symbol alone: proved for undefined names. Expansion of define-fun and let: proved right under the conditions of the substitution theorem (C17), for all definitions and arguments. Three refutations (a definition captures a bound variable; renamed bound variable captures; `(/ 1 2 3)` is read as 1/2).
* C44: the parser of terms does not panic for tokens that satisfy an explicit condition, for any length, and its fuel is enough; eight texts that make it panic. The same for the text of whole proofs (`C44_proof_partial`), where also empty ids and definitions with `let` panic; for problems (`ProblemPanic.v`), and for files of RARE rules (`RarePanic.v`).
* C45: RARE rules: `R_Rare.v` models check_rare with the matching engine and rewrite_meta_terms (fuel, proved sufficient by a weight); specification `flat` (splice lists), `instance`, `rare_valid` (all well-sorted instances valid). Rewriting keeps the normal form `red (flat t)`, which has the value of `flat t` if that is well-sorted; with C17 this gives entailment. Refuted for empty lists, merged bound variables, undeclared names.
* C46: model `IdHelper` (stack of counters) and show by induction over any nesting of added steps and subproofs that ids are distinct and prefixed by the replaced id; one pass over a proof whose ids are independent keeps ids distinct. Refuted in general: subproof elaboration when the subproof has a step called `<id>.t1` (the naming veriT uses), local then uncrowding pass, and hole insertion.
* C47: model the insertion of solver proofs (shift of depths and ids, collection of assumptions, closing subproof, not_not and resolution steps) on node graphs, with any accepted solver proof. First prove that the graph of an accepted list is accepted node by node (C36_accepted), then that the insertion keeps this; panics excluded. Then prove that the conversion of the changed graph to a list ends and that the checker accepts the list, without holes if the solver's proof had none. Refutations where the assumptions are not exactly the negated literals.
* C48: simulation between the runs in elaborated and normal mode: related states, for every step the normal rule accepts what the strict rule accepts (`strict_mono` from `check_mono`).
* C49: the same simulation with the holey flags ordered; the converse for valid proofs from C02.
* C50: the same simulation; an assumption accepted by the first matching assertion is accepted by any list containing it, as long as no comparison panics; refuted in general.
* C51: renaming commutes with every function of the checker and of the parser (equalities by induction); refuted for names given relative to a step.
* C52: the sequence of results of `iter_next` from the start equals the textual enumeration of the proof (induction on commands).
* C53: for every text, the terms that the parser returns are well sorted (WellSorted.v): induction over the parser's fuel; substitution keeps sorts whatever it captures. With it C01 is stated from the text of the proof (`C01_text_partial`).
* C54: ProblemIO.v models the reader of scripts. The specification `in_force` (P_Problem.v) is written over scripts without the reader. Refuted by four scripts for which a proof from assertions not in force is accepted although those in force are satisfiable; proved for printed scripts without these commands.
* C55: round trip of the printed problem (`problem_round` in ProblemIOSound.v), by the chain lemmas of the round trip of terms (C37). The terms that are read have the same value in every interpretation (P_ProblemMeaning.v).
* C56: invariant `pok` over the commands of a script (ProblemWt.v), from the sorts of the terms that are read (C53).
* C57: the premises that definitions add are evaluated in an arbitrary interpretation and compared with `is_function` (P_Define.v), which says for all values of the parameters what the function is.
* C58: instances are abstracted to their outcome, a schedule is the list of jobs of each worker; the fold over each worker and the combination are modelled, the verdict compared with that of the multiset of jobs. Refuted for unreadable instances and for --dump-to-csv. The whole command with its numbers of runs and workers is `bench_command` (C58_command_partial).
* C59: metrics over rationals; inductive predicate for all ways of making metrics from samples; invariants by induction. The deviation is refuted.
* C60: the text is a list of pieces as for C55; it is read back with the reader of problems, and the meaning of the assertions is compared with that of the clause. Sharing of terms is an oracle; proved without sharing, refuted with it.
* C61: compose the reader of instances, the sequential checker and the parallel machine; the parallel part needs that whatever a parallel run accepts the sequential checker accepts (ParallelAccept.v: an invariant of the workers that allows panics). With a file of rules the command is modelled in CliRules.v, and the theorems are in P_CliRules.v.
* C62: the elaborator is a parameter; the verdict printed is compared with that of the result on two witnesses.
* C63: names of files as strings, or as lists of parts for the inferred problem. The files of generate-lia-problems for proofs that are read from a text: one per step, none overwritten (C63_lia_files).
* C64: the reader of rule files is modelled with the state that earlier files leave behind. Proved: sorts, independence of definitions whose names do not occur, soundness from three texts (C01_rules_text_partial). The full property is refuted.
* C65: get_instance over a file system as a function from names to contents (CliFiles.v); a separate specification says which text each name stands for, and the theorem is an equivalence. Composed with the theorems on check (C61).

## 3. Trusted base

* Coq's kernel (and `vm_compute` for the closed computations).
* `coqchk -silent -o`, run once on the 204 modules of commit 8fca773 (later modules were not run through it), ended without an error. It lists four axioms, all of the standard library: `constructive_indefinite_description`, `functional_extensionality_dep`, `propositional_extensionality`, `classic`; and no type-in-type, unsafe fixpoint or assumed positivity.
* `Print Assumptions` output of each property theorem is shown in the build log; expected answer everywhere is
  `Closed under the global context` unless listed in section 5.
* The reading of the Rust code: the correspondence between model and code is by inspection only.
* Not modelled: the parsing of command-line options, timing, logging, statistics, error message contents, memory/stack limits, `rug`, `indexmap`
  and `rustc` themselves. Of the command line only the control flow of check, elaborate, slice and bench and the choice of input files are modelled (Cli.v, CliRules.v, CliFiles.v, Bench.v).
* Arithmetic: `Integer` and `Rational` of `rug` are Coq's Z and Q; `modulo` is Euclidean. Overflow of fixed-width integers is a panic where the code converts with `unwrap`, and left out for counters (lengths, depths, indices).
* Terms are trees and equality of terms is structural, which hash-consing decides by address (C30). Caches that map a term to the result computed for it are left out wherever the result is a function of the term; where a cache outlives its context it is modelled.
* Substitutions: the keys are variables (the code accepts any term as key but inserts only variables); `alpha_equiv` is the comparison modulo renaming of Polyeq.v.
* drup.rs: clauses are stored under a 64-bit hash; the model takes the hash as a parameter, and soundness is stated for hashes under which no other clause collides with the conclusion (a collision is a finding).
* polynomial rules: monomials are sorted by address in the code; the model takes the comparison and the sorting function as parameters, so that no result depends on addresses.
* evaluate: the casts between machine words in the bit-vector functions are ignored (widths and shift amounts are unbounded).
* bitvectors.rs: vectors are lists; an index beyond the end is a panic, decided once per vector, since the code reads every index below the width. `unreachable!` is a panic.
* pb_blasting.rs: the value of a `pbbterm` is the vector whose bit i is set exactly when element i equals 1 (the code gives no meaning to other integers). `int_of` is 0 or 1.
* Slicing: the queue of the breadth-first search is modelled level by level, the stack of frames of the copying loop as recursion, the overflow of `max_distance + 1` is left out, terms are shared structure and the prelude/problem text is not modelled.
* Strings are lists of code points; `str.len` counts code points, `utf8_len` models the byte length Rust's `len()` returns. Regular expressions are interpreted abstractly: the record field `ire : re_laws iop` (Sem.v) states which strings are in each expression; Model.v exhibits an interpretation.
* Elaborator model: a proof is a tree (no sharing, no cache), premises of a step have distinct addresses unless stated, ids and depths are left out, an error returned by an elaboration function is a panic because its caller unwraps it.
* The tables of the crate indexmap (IndexMap, IndexSet) are taken to iterate in insertion order; only std HashMap and HashSet have an arbitrary order. The scheduler's set used_by is walked in list order.
* Lexer: `char::is_whitespace` is given by the table of White_Space code points, `rug`'s parsing and printing of numbers by positional notation.
* Terms as text (TermIO.v): names are strings of characters below 256; the prefix of names for shared terms is `@p_`; which subterms are shared is an arbitrary function `share` (in the code: reference counts and closedness); `defined_constants` and the strict SMT-LIB printing option are not modelled; polymorphic sorts, RARE rules and the operators only used there are not modelled.
* The pass over a node graph (GraphPass.v): the outbound premises of a subproof are collected again as in mutate; the cache of mutate is left out, as the new node of a node does not depend on how it is reached; a premise of the replaced step is recognised by its clause, so of two premises with the same clause the new steps refer to the first; ids are arbitrary; the closing step of a subproof is not elaborated (its rule must not be one of the elaborated rules). In C47 `replace_node` maps the outbound premises that were there instead of collecting them again.
* Uncrowding with `uncrowd_rotation` (off by default in the command line) is not modelled; the order in which its hash map lists the literals is irrelevant (`C34_uncrowd_order`).
* Node graphs (C36, C47, subproof elaboration): `Rc` pointers are addresses (natural numbers); acceptance of a graph (`gok`) is that every step is accepted by its rule given the clauses of its premises, the anchors of the open subproofs and its discharged assumptions, and that the closing step of each subproof discharges all assumptions used in it. That the list made of an accepted graph is accepted by the checker is proved for graphs with the structure of the graph of a proof (`wfg` in GraphWf.v: depths, homes, sharing; `graph_check` in GraphCheck.v), and that the conversion ends without a panic for such graphs with complete outbound premises (`graph_done` in GraphDone.v). Both are kept by the replacement of a step (GraphReplace.v) and by the insertion of a solver's proof (GraphInsert.v).
* Proofs as text (ProofIO.v): all tokens are read before the first command (in the code one at a time, so that an error of the lexer may come after an error of the parser; both are errors); no constant definitions are printed;
* Bench.v: samples are rational numbers (no rounding of floating point numbers or durations); an instance is represented by its outcome; the queue gives each instance to exactly one worker (crossbeam's ArrayQueue).

## 4. Findings (code violates the property; each is proved as a `..._refuted` theorem where modelled)

Each entry gives the witness that is proved in the model. All are readings of the code as it stands; none was run.

| Where | What happens | Theorem |
|---|---|---|
| `resolution` without pivots | (cl p), (cl (not p) p) resolve to the empty clause; a satisfiable problem gets "valid" | C06_resolution_refuted, C01_soundness_refuted |
| `la_generic` | x > 0 for a real x gives x >= 1; x >= 1 gives x >= 2 with coefficients 1/2 | C13_la_generic_refuted, C13_la_generic_integer_refuted, C01_elaborated_soundness_refuted |
| `la_tautology`, `sum_/prod_/comp_simplify` | the constant (div 1 2) is read as one half | C14_la_tautology_refuted, C12_*_refuted |
| `div_simplify` | (div x x) = 1 without x != 0 | C12_div_simplify_refuted |
| `assume` matching | n-ary flattening equates terms that differ | C04_assume_refuted, C19_assume_refuted, C01_assume_soundness_refuted |
| `polyeq` | negative literals, panics on odd terms | C19_polyeq_* |
| `alpha_equiv` | binder lengths, cache, let | C18_alpha_equiv_* |
| `aci_simp` | drops duplicates under operators that are not idempotent; concat | C40_aci_simp_* |
| parallel checker | an outermost subproof that concludes (cl) is accepted sequentially and rejected in parallel | C25_parallel_refuted |
| substitution | the fresh name y' for a bound y captures a free or bound y'; values of `let` are skipped; panics on `let` before a quantifier | C17_subst_*_refuted |
| free variables | variables that occur only in the value of a `let` are not found | C29_free_vars_refuted |
| scheduler | panics if a worker is assigned nothing but subproof openings | C26_scheduler_refuted |
| context stack | results cached before a variable is declared again are reused; a variable declared by an inner anchor captures the variables of outer assigned terms; an assigned term may mention the variable it is assigned to | C31_stale_cache_refuted, C31_capture_refuted, C31_self_refuted |
| `bind`, `let`, `onepoint`, `sko_ex`, `sko_forall`, `bind_let` | the end steps do not check that the variables of the anchor are gone from the exported clause: x := true gives (= (let ((x true)) x) x); y, x := y gives (= (forall ((x Bool)) x) (forall ((y Bool)) x)); a global variable of the same name is then constrained | C21_*_refuted, C01_let_refuted |
| closing a subproof | any rule may close a subproof with an anchor: `refl` under x := false exports (= x false) | C01_end_step_refuted |
| `forall_inst` | the renaming of bound variables captures a free y' | C20_forall_inst_refuted |
| `qnt_cnf` | prenexing captures a free variable with the name of a prenexed one | C20_qnt_cnf_refuted |
| `qnt_rm_unused`, `miniscope_split`, `miniscope_ite` | variables that occur only in the value of a `let` count as unused | C20_*_refuted |
| `bfun_elim` | renaming the variables of an inner binder captures a free variable | C28_bfun_elim_refuted |
| `cp_addition` | a zero coefficient in the conclusion is not compared: x >= 1, x >= 1 give 0x >= 2 | C23_cp_addition_refuted |
| `cp_multiplication` | the factor may be negative | C23_cp_multiplication_refuted |
| `cp_division`, `cp_saturation` | the length of the premise clause is not checked, only its first literal is used (also for 0/1 variables) | C23_cp_division_refuted, C23_cp_saturation_refuted |
| `cp_saturation` | negative constant | C23_cp_saturation_sign_refuted |
| `cp_literal` | any integer term is accepted as a literal | C23_cp_literal_refuted |
| `cp_normalize` | drops a unary minus (end to end in both modes); takes (- 1 (- 1 x)) for (- 1 x) | C23_cp_normalize_refuted, C23_cp_normalize_negation_refuted, C23_end_to_end_refuted |
| `drat` | a clause added as RAT may be the conclusion although it does not follow: drat proves p and (not p) from nothing (end to end in both modes); sound for the empty conclusion | C08_drat_refuted, C08_end_to_end_refuted, C08_drat_partial |
| `poly_simp`, `poly_simp_rel` | `(div 1 2)` counts as one half: `(= (* 2 (div 1 2)) 1)` is accepted, and a coefficient `(div 1 2)` (whose value is 0) as a positive one. Sound when every `div` of two numerals is exact (bit-vectors, integers, reals and other sorts). The verdict does not depend on the addresses by which factors are sorted | `C15_poly_simp_refuted`, `C15_poly_simp_rel_refuted`, `C15_end_to_end_refuted`, `C15_poly_simp_partial`, `C15_poly_simp_rel_partial`, `C15_address_independent` |
| `evaluate` | Evaluation of terms is wrong for: `div`/`mod` of a negative dividend (truncated, not Euclidean); every signed bit-vector operation (`bvsub` included) on a value whose sign bit is set (the code takes `2^w - x` instead of `x - 2^w`); `extract` when the top extracted bit is set (the bit is dropped). It panics on division by zero, on `bvashr` by more than the width, and on `rotate_left` by more than the width. Otherwise it keeps the value and the sort | `C16_evaluate_refuted`, `C16_end_to_end_refuted`, `C16_evaluate_partial`, `C16_rule_partial`, `C16_panics` |
| parser, empty id | `parse_proof` gives the root frame the end id `""`; a top-level `assume`/`step` named `\|\|` is taken for its end and pops the last scope: the parser panics. No other id makes the main loop panic | `C27_empty_id_panics`, `C27_no_panic` |
| printer/parser, discharge | A discharged id is first looked up relative to the step's id. The printer writes absolute ids, so `t5.h1` discharged by `t5` is read back as `t5.t5.h1` if such a command exists: printing and parsing gives a different proof | `C37_discharge_refuted`, `C37_structure_partial` |
| `drup` | clauses are compared by 64-bit hashes only: a collision with the conclusion is accepted | C08_drup_collision_refuted |
| `ite_intro` | inherits the comparison modulo literals: `(= (/ 2 (- 1)) -0.5)` is accepted | C41_ite_intro_refuted |
| `LocalPool::add` (parallel checking) | looks in the shared pool before the thread's own: a term added by the thread and later by a context has two pointers | `C42_local_pool_refuted` |
| `LocalPool::sort` (parallel checking) | for a term of the shared pool returns the term instead of its sort | `C42_local_sort_refuted` |
| `compute_sort` in a `LocalPool` | stores sorts in the thread's own pool only, so the sort of a new term differs (by pointer) from the same sort in the global pool | `C42_thread_sort_refuted` |
| `pbblast_bveq`, `bvult`, `bvugt`, `bvuge`, `bvule` | a sum may leave out the high bits, so `(= #b00 #b10)` is blasted to an equation over bit 0 only; a satisfiable problem gets "valid" in both modes | C24_unsigned_refuted, C24_end_to_end_refuted |
| `pbblast_bvslt`, `bvsgt`, `bvsge`, `bvsle` | for width 1 the sign bit is counted twice | C24_signed_refuted |
| `pbblast_*` over `pbbterm` | the elements of a `pbbterm` are not required to be 0 or 1: vectors of 2 and 3 compare as different integers although both have no bit set | C24_nonbit_refuted |
| `pbblast_pbbconst` | the elements are wrapped to 32 bits, so the element 2^32+1 counts as 1 | C24_pbbconst_refuted |
| `pbblast_bvxor`, `pbblast_bvand` | the choice binds `z` and captures a free `z` of the operands | C24_capture_refuted |
| `pbblast_bvand` | the choice term has no lower bound: with both bits 0 it may be -1, and later comparison steps treat it as a bit | C24_and_not_a_bit_refuted |
| `pbblast_bvxor_ith_bit`, `pbblast_bvand_ith_bit` | the arguments may be any integers (5 and 5) | C24_ith_bit_refuted |
| `pbblast_*` | an empty conclusion is a panic | C24_panics |
| slice | ids may be reused in closed subproofs, but the slicer looks premises up by id: the reference to `x` becomes a reference to `y` | C35_references_refuted |
| slice | an assumption after a nested subproof: the last step discharges an ordinary step, or the assumption is missing from the slice | C35_discharge_refuted, C35_assumption_refuted |
| slice | the last step of an enclosing subproof has a premise that is not kept: panic (`unwrap` of the index) | C35_panic_refuted |
| slice | the next-to-last command of the enclosing subproof is a subproof: nothing in the slice uses the requested step | C35_unused_refuted |
| slice | only leading assumptions become assertions of the new problem | C35_assertions_refuted |
| slice | a step named `slice_end` makes the slice unreadable | C35_end_refuted |
| concat_cprop_prefix | the overlap of the constant with the middle part is computed on terms, although the middle part may be a variable (x ++ y ++ z = "abc", x not empty, gives: x starts with "ab"); panics if the constant is empty | C39_cprop_prefix_refuted, C39_cprop_panics |
| concat_cprop_suffix | the second part of the right-hand side is taken for the last one | C39_cprop_suffix_refuted |
| string_decompose | with argument true the length is stated of the suffix (which need not have it); a negative length yields two empty parts | C39_decompose_rev_refuted, C39_decompose_neg_refuted |
| re_concat_unfold_pos, re_kleene_star_unfold_pos | component k_i is put into the language of the concatenation of all remaining expressions instead of its own one | C39_re_concat_unfold_pos_refuted, C39_re_star_unfold_pos_refuted |
| re_unfold_neg | the bound variable L captures a free variable L of the string or the expression | C39_re_unfold_neg_refuted |
| elaboration of `eq_transitive` | a step whose conclusion follows from fewer than two of its equalities (e.g. it is one of them) becomes an eq_transitive step with too few literals; an equality used in both directions becomes a resolution with a missing pivot | `C34_eq_transitive_refuted`, `_refl_refuted`, `_twins_refuted` |
| elaboration of `eq_congruent` | hypotheses (= a b) and (= b a) together: the inserted resolution step drops a literal that its clause has | `C34_eq_congruent_refuted`, `_swap_refuted` |
| elaboration of `resolution` | leftover `false` is dropped by the checker but not by the elaborated step; conclusion with four extra negations is rejected, with two fewer panics; premises that are not resolved upon, or a pivot that is used twice, give the wrong number of pivots or a missing pivot; a premise that occurs twice is removed; a step accepted only by unit propagation panics the elaborator (`unwrap`) | `C34_resolution_refuted`, `_negations_refuted`, `_idle_refuted`, `_rup_refuted` |
| onepoint | the points are visited in the order of a hash set; if a point with a `let` comes before the first one with a quantifier the substitution panics, otherwise the step is accepted | C38_onepoint_refuted |
| and, and_pos, … | an argument >= 2^64 panics (`to_usize().unwrap()`, ast/term.rs:1054) | C33_no_panic_refuted |
| assume, polyeq | comparing a real literal with (/ a 0.0), or a negative real literal with (/ 0 (- 3)), panics: zero denominator of a Rational | C33_no_panic_refuted |
| bitblast_ult, bitblast_equal | bit-vectors of width 0 (accepted by the parser) and equations between other sorts panic | C33_no_panic_refuted |
| refl inside an anchor | a let under a substitution whose names have not been computed panics | C33_no_panic_refuted |
| cp_division, cp_saturation, cp_literal | an empty clause as premise (as conclusion for cp_literal) panics: the length is not checked before `clause[0]` | C33_no_panic_full_refuted |
| lexer, strings | The printer escapes only quotes. A string that contains the characters `\u{61}` (a valid Alethe value, e.g. the result of evaluating a concatenation) is printed as is and read back as `a` | `C37_strings_refuted` |
| printer, symbols | `quote_symbol` does not quote a symbol that begins with a dash and a digit: the symbol `\|-5\|` is printed `-5` and read back as a number. Symbols with a bar make it panic | `C37_symbols_refuted` |
| lexer, `1/` | A number followed by a slash without digits panics (`parse().unwrap()` on an empty string) | `C33_lexer_panic`, `C33_lexer_panic_refuted` |
| reading of symbols | a definition (define-fun or :named) takes precedence over a bound variable of the same name: with `(define-fun x () Bool false)`, `(exists ((x Bool)) x)` is read as `(exists ((x Bool)) false)` | `C43_scoping_refuted` |
| define-fun | expansion inherits the capture of the substitution: with f(x) := (forall ((y Int)) (= y' y)), `(f y)` is read as `(forall ((y' Int)) (= y' y'))` | `C43_define_fun_refuted` |
| reading of `/` | `(/ 1 2 3)` is read as the literal 1/2 | `C43_division_refuted` |
| printing of terms | `(cl)` is printed `cl`; array constants are printed with `_` instead of `as`; a shared head of an application is printed `(@p_0 …)`: none of them can be read | `C37_terms_refuted` |
| names of shared terms | `@p_0` may be a symbol of the problem; then the printed term is read as another one | `C37_terms_names_refuted` |
| reading of terms | panics on `@d`, `(_ bvnot 3)`, `(_ bv5 -1)`, `(_ BitVec -1)`, `((_ int_to_bv -3) x)`, indices from 2^64 on, and applications of functions whose body has a let | `C44_no_panic_refuted` |
| rare_rewrite | `(or)` is rewritten to true and `(and)` to false: with empty lists the valid rule bool-or-false proves `(= (or false) true)`; accepted end to end in both modes | C45_empty_list_refuted, C45_empty_conjunction_refuted, C45_end_to_end_refuted |
| rare_rewrite | a bound variable renamed by the substitution may be merged with another variable of the same binder, so a valid rule proves a false statement | C45_capture_refuted |
| rare_rewrite | a name in `:args` that is not declared as a parameter makes the checker panic | C45_panic_refuted |
| uncrowding | rejected when a literal that was resolved away comes back in a later premise; panic when the first premise has the first pivot twice | `C34_uncrowd_refuted`, `C34_uncrowd_panic_refuted` |
| removal of reordering steps | and_intro below a reordering is rejected afterwards; a resolution without pivots next to an empty clause, and a contraction that keeps a repetition, panic; a crowded resolution becomes a rejected step with a larger clause (even in proofs without reordering steps) | `C34_reorder_and_intro_refuted`, `C34_reorder_no_pivots_refuted`, `C34_reorder_contraction_refuted`, `C34_reorder_crowded_refuted` |
| elaboration of assumptions | panics for a chain of equalities against the conjunction of its links, for a flipped equality below choice, lambda or an indexed operator; rejected steps for n-ary implications (wrong direction), n-ary `and`/`or` (nary_elim does not know them), left associative operators with two differing arguments (reversed premises) and 1 against 1.0 | `C34_assume_chain_refuted`, `_choice_`, `_indexed_`, `_direction_`, `_and_`, `_left_`, `_numeral_refuted` |
| default elaboration pipeline | an equality flipped both outside and below a quantifier: the polyeq pass copies the derived equality into the bind subproof by a reordering step, the last pass removes that step, and converting the proof to a list panics (`malformed subproof!`) | `C34_pipeline_panic_refuted` |
| hole elaboration (hole.rs) | a literal that the solver's proof does not use is not discharged: the closing subproof step has fewer assumptions than its clause needs and is rejected | C47_hole_unused_refuted |
| hole elaboration (hole.rs) | assumptions are collected in traversal order, the clause is in the order of the literals: rejected if they differ | C47_hole_order_refuted |
| hole elaboration (hole.rs) | the subproof is called `root.t1`, the solver's steps `root.<id>`: two steps called `root.t1` if the solver has a step `t1`; the result is accepted but cannot be read after printing | C46_hole_ids_refuted |
| lia_generic elaboration | the solver may assume a literal with flipped equality (accepted by the checker): the assumption is not found by term equality, is not discharged, and the result is rejected | C47_lia_flipped_refuted |
| lia_generic elaboration | a literal assumed twice by the solver: one assumption is not discharged | C47_lia_twice_refuted |
| lia_generic elaboration | the solver's proof is checked with unknown rules ignored; the result has steps that a strict check rejects | C47_lia_unknown_refuted |
| subproof elaboration (subproof.rs) | new steps are called `<id>.t1`, ..., where `<id>` is the id of the closing step: clash with inner steps named that way (as veriT does) | C46_subproof_ids_refuted |
| subproof elaboration (subproof.rs) | `as_step().unwrap()` on the previous command: panics if it is an assumption or a subproof | C34_subproof_assume_panic_refuted, C34_subproof_nested_panic_refuted |
| local pass, then uncrowding | both number new steps from `<id>.t1`; the step that keeps `<id>` after the local pass is split by uncrowding: two steps `t3.t1` | C46_two_passes_refuted |
| assume | the order of the assertions decides between acceptance and a crash: comparing (= 3.0 y) with (= (/ 6.0 0.0) y) panics | C50_order_refuted |
| :discharge | renaming an assumption consistently makes a text unreadable if its discharge name was given relative to the step | C51_relative_refuted |
| lia_generic elaboration | a solver proof with an unneeded nested subproof that discharges an outer assumption: accepted on its own, rejected after the insertion | C47_lia_outer_refuted |
| printing of rules | the rule of a step is printed without quotes: a rule called \|resolution :premises (h1 h2)\| is printed as a resolution step with two premises, which is accepted, while the proof that is printed is rejected | C37_rule_names_refuted |
| printing of `:discharge` | the first discharged id is printed without quotes: the printed text of an accepted proof cannot be read | C37_discharge_names_refuted |
| `hole` arguments | the arguments of holes are printed, but dropped when read without --parse-hole-args | C37_hole_args_refuted |
| SMT-LIB scripts | `push`, `pop`, `reset-assertions`, `exit` are ignored and the assumptions of every `check-sat-assuming` are premises: a proof of false is accepted for assertions in force that are satisfiable | C54_in_force_refuted |
| `assert` | accepts terms that are not Boolean | C56_assert_refuted |
| `define-funs-rec` | a name used twice gives an ill-sorted premise | C56_funs_rec_refuted |
| `define-sort` | a parameter with the name of an earlier sort definition is read as that definition | C43_sort_parameter_refuted |
| problem of a slice | a fraction is read back as a division (outside of real-only logics): the sliced proof is rejected as an elaborated proof | C55_fractions_refuted |
| problem of a slice | functions from `define-fun-rec`, or `define-fun` if definitions are not applied, are not declared: the problem cannot be read | C55_definitions_refuted |
| reading a problem | panics for an applied definition with a `let` in its body, `@d`, negative or large indices, `(_ bvx 3)` | C44_problem_refuted |
| bench | a worker loses all its earlier results when an instance cannot be read (`?` after `mem::take`): a rejected proof followed by an unreadable one gives "no benchmark data collected" instead of invalid, and the number of errors is too small | C58_refuted |
| bench --dump-to-csv | combining keeps `is_holey` of the first worker only: a proof with holes is reported as valid, depending on the schedule | C58_refuted |
| bench | `--num-runs 0` and `--num-jobs 0` panic (queue of capacity 0, `reduce` of no results); the exit status is 0 also when invalid is printed | C58_command_refuted |
| benchmark metrics | `(self.count * other.count / count) as f64` divides integers: wrong standard deviation of combined metrics | C59_deviation_refuted |
| problems for solvers | shared terms are named `p_0`, `p_1`, … even if the problem declares a function with this name: the problem can be unsatisfiable although the clause is not valid | C60_sharing_refuted |
| problems for solvers | functions introduced by define-fun are not declared when definitions are not applied | C60_definitions_refuted |
| lia_generic elaboration | negative constants of the clause are printed as `(- 3)`, so the assumptions of the solver's proof are other terms than the negated literals, and the result is rejected | C47_lia_constants_refuted |
| check --rare-file | prints valid for a problem whose assertions hold in all models, although the rules of the file are valid (the proof redefines a parameter) | C61_rules_refuted |
| --rare-file - | - is the name of a file, not standard input, unlike for the problem and the proof | C65_rare_stdin_refuted |
| check --num-threads | the printed verdict depends on the number of threads (text of a problem and proof) | C61_threads_refuted |
| elaborate | the verdict printed is that of the proof that was given, not of the proof printed: holey is printed with a proof without holes, and with a proof that is rejected | C62_verdict_refuted |
| slice --sliced-output | documented as SLICED_PROBLEM SLICED_PROOF, but the proof is written to the first file and the problem to the second | C63_slice_refuted |
| parse_instance_with_pool | definitions of the proof (`define-fun`, `:named`) hold in the file of rules, also for its parameters: with a valid rule and `(! y :named x)` in the proof, false is derived from a valid assertion | C64_proof_defines_refuted |
| parse_parameters | no scope is opened: parameters, and the sorts they define, are visible in all later rules | C64_scope_refuted, C64_sort_scope_refuted |
| parse_rule | names in `:args` need not be parameters; the checker panics at the first use | C64_arguments_refuted |
| parse_rare | of two rules with one name (or two conclusions) the last one counts, without an error | C64_duplicates_refuted |
| refl, forall_inst | an accepted step with a flipped equality below a choice term makes the first pass of the elaborator panic | C34_refl_choice_refuted, C34_forall_inst_choice_refuted |

Modelling decisions of the parallel checker: the outcome of a command is a function of its inputs (the shared term
pool and the locks around contexts are not modelled, but the exact usage counts of contexts are); a set abort flag may be
seen after any delay; panics of rules are excluded by hypothesis; overflow of weights is ignored; statistics are dropped.

Modelling decisions for substitution: keys are variables (RARE sort variables are left out), `wt` terms contain no
`bv` constants built from terms. The flag in the result of `apply` is not part of the code; it records that nothing was
captured on the way and is discharged by `tidy`. The cache is part of the state of the model; `apply_sound` has an invariant on it.

Modelling decisions for the binder rules: in the rule table `refl` and the closing rules see a context stack with empty caches
(`fresh_stack`); C31 says when the caches are transparent. The points of `onepoint` are visited in list order (a hash set in the
code). The comparison `alpha_equiv` is used where it is proved sound (C18_alpha_equiv_sound_partial: `alpha_ok`).

Modelling decisions for contexts: one thread; a level's cumulative substitution is an option instead of the counter
`num_cumulative_calculated`. With several threads the same level may be recomputed (and its cache lost), so by
C31_stale_cache_refuted the result of an application may depend on the schedule; this is not modelled.

## 5. Axioms

Every theorem named in MANIFEST.json is closed under the global context (no axioms), except where stated
there. `theories/Model.v` proves `interp_inhabited`: an interpretation exists, so the quantification over
interpretations is not vacuous (and `sorting_inhabited`: terms can be sorted, as poly_simp assumes). Deciding quantifiers needs classical logic, so this one file uses the standard
library's `classic`, `constructive_indefinite_description`, `functional_extensionality_dep` and
`propositional_extensionality`. No other file depends on it.
