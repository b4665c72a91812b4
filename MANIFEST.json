{
 "claims": [
  {
   "property": "C01",
   "status": "proved",
   "theorems": [
    "c01_literal_roundtrip",
    "c01_literal_equality",
    "c01_literal_order",
    "c01_literal_complement",
    "c01_literal_flag",
    "c01_literal_fromId",
    "c01_literal_xor",
    "c01_literal_values"
   ],
   "note": ""
  },
  {
   "property": "C02",
   "status": "proved",
   "theorems": [
    "c02_toLit_toInt",
    "c02_toInt_toLit",
    "c02_decode_encode"
   ],
   "note": ""
  },
  {
   "property": "C03",
   "status": "proved",
   "theorems": [
    "c03_binary_reason",
    "c03_ternary_reason",
    "c03_generic_reason",
    "c03_reason_injective"
   ],
   "note": "64-bit build; pointers are words aligned to 4"
  },
  {
   "property": "C04",
   "status": "proved",
   "theorems": [
    "c04_info_fields"
   ],
   "note": ""
  },
  {
   "property": "C05",
   "status": "proved",
   "theorems": [
    "c05_preference_hierarchy"
   ],
   "note": ""
  },
  {
   "property": "C06",
   "status": "proved",
   "theorems": [
    "c06_luby_is_luby_sequence",
    "c06_luby_sequence_unique",
    "c06_luby_positive",
    "c06_luby_last_indices_refuted",
    "c06_log2_is_floor_log",
    "c06_unlimited_schedule_counts",
    "c06_limit_restarts_sequence"
   ],
   "note": "for idx < 2^32-2; at the last two 32-bit indices the code returns 0 (refuted)"
  },
  {
   "property": "C07",
   "status": "partial",
   "theorems": [
    "c07_advance_is_repeated_next_partial",
    "c07_advance_luby_is_repeated_next",
    "c07_luby_length_form",
    "c07_advance_double_refuted",
    "c07_no_limit"
   ],
   "note": "exact-arithmetic version of the closed form; with the double arithmetic of the code the claim fails for huge lengths (refuted)"
  },
  {
   "property": "C08",
   "status": "proved",
   "theorems": [
    "c08_normal_form",
    "c08_same_solutions",
    "c08_verdict",
    "c08_no_overflow",
    "c08_merge_overflow_refuted",
    "c08_bound_overflow_refuted"
   ],
   "note": "for inputs on which creation does not overflow; overflowing inputs exist (refuted)"
  },
  {
   "property": "C09",
   "status": "partial",
   "theorems": [
    "c09_ge_meaning",
    "c09_eq_meaning_partial",
    "c09_eq_divided_refuted",
    "c09_eq_soft_refuted"
   ],
   "note": "the full claim is false of the code: hard equalities without unit weight and equalities with an unassigned W are refuted"
  },
  {
   "property": "C37",
   "status": "proved",
   "theorems": [
    "c37_choose_is_binomial"
   ],
   "note": ""
  },
  {
   "property": "C10",
   "status": "proved",
   "theorems": [
    "c10_reasons_sound",
    "c10_conflicts_sound",
    "c10_rules_applied",
    "c10_accepted_assignments_satisfy"
   ],
   "note": ""
  },
  {
   "property": "C11",
   "status": "proved",
   "theorems": [
    "c11_backtracking_restores"
   ],
   "note": ""
  },
  {
   "property": "C12",
   "status": "proved",
   "theorems": [
    "c12_prepare_equivalent",
    "c12_prepare_simplified",
    "c12_status_exact",
    "c12_documented_order_refuted",
    "c12_duplicates_refuted"
   ],
   "note": "without clause_force_simplify the precondition of distinct variables is needed (refuted otherwise); the order documented in clause.h is not the one implemented"
  },
  {
   "property": "C14",
   "status": "proved",
   "theorems": [
    "c14_trail_agrees",
    "c14_levels_monotone",
    "c14_no_undefined",
    "c14_undo_exact",
    "c14_phases_saved"
   ],
   "note": "Model of class Assignment (packed 32-bit words, trail, saved phases) and Solver::assume/force/undoUntil. Out-of-order implied literals are C15."
  },
  {
   "property": "C15",
   "status": "proved",
   "theorems": [
    "c15_true_iff_live",
    "c15_never_outlives",
    "c15_survives",
    "c15_retracted",
    "c15_above_projective_level_refuted"
   ],
   "note": "Histories in which backtrack() with a projective backtrack level is called on that level only; without this restriction the property is refuted (no-learning search under projected enumeration)."
  },
  {
   "property": "C13",
   "status": "proved",
   "theorems": [
    "c13_propagate",
    "c13_complete",
    "c13_backtrack",
    "c13_sound",
    "c13_entailed",
    "c13_entailed_implied",
    "c13_implied_kept",
    "c13_consistent",
    "c13_conflict"
   ],
   "note": "Clauses in all representations (binary, ternary, small, large, shared) created and removed at any time, root levels pushed and popped, literals implied below the root level kept by backtracking; other constraints only as sources of forced literals. Contracted clauses are not modelled here."
  },
  {
   "property": "C16",
   "status": "proved",
   "theorems": [
    "c16_entailed",
    "c16_decision_sequence_refuted"
   ],
   "note": "For every implication graph and all settings of minimisation, reverse arcs and representation; on-the-fly subsumption is not modelled. If the clause may be replaced by the decision sequence, no decision may have been flipped without a reason (refuted otherwise)."
  },
  {
   "property": "C17",
   "status": "proved",
   "theorems": [
    "c17_asserting",
    "c17_unit_after_backjump",
    "c17_flags_restored",
    "c17_lbd",
    "c17_info"
   ],
   "note": ""
  },
  {
   "property": "C18",
   "status": "proved",
   "theorems": [
    "c18_exact",
    "c18_subset",
    "c16_entailed",
    "c17_asserting"
   ],
   "note": ""
  },
  {
   "property": "C19",
   "status": "proved",
   "theorems": [
    "c19_core",
    "c19_core_no_learning",
    "c19_flipped_refuted"
   ],
   "note": "Without decisions flipped without reason (refuted otherwise)."
  },
  {
   "property": "C20",
   "status": "proved",
   "theorems": [
    "c20_no_error",
    "c20_terminates",
    "c20_sat",
    "c20_unsat",
    "c20_decides",
    "c20_assumptions_hold",
    "c20_push_refused",
    "c20_levels",
    "c20_core",
    "c20_top_conflict",
    "c20_stored",
    "c20_false_decision_refuted"
   ],
   "note": "Sessions of adding clauses, pushing and popping assumptions, searching, restarting and deleting learnt clauses, on top of the models of propagation (C13) and conflict analysis (C16-C19). No post propagators or other constraints; heuristics return free variables (otherwise refuted)."
  },
  {
   "property": "C26",
   "status": "proved",
   "theorems": [
    "c26_no_error",
    "c26_models",
    "c26_once",
    "c26_complete",
    "c26_enumerates",
    "c26_exact"
   ],
   "note": "RecordFinder (decision, projection and domain nogoods), EnumerationConstraint::update and the loop of SequentialSolve::doSolve on top of the model of search (C20): any decisions, restarts, deletions of learnt clauses, assumptions and step literal. One solver, no minimize constraint, no auxiliary variables."
  },
  {
   "property": "C27",
   "status": "proved",
   "theorems": [
    "c27_no_error",
    "c27_members",
    "c27_top",
    "c27_sorted",
    "c27_stale_refuted"
   ],
   "note": "The comparator may change between calls as long as queued keys are reported by update/increase/decrease; positions are unbounded naturals."
  },
  {
   "property": "C30",
   "status": "proved",
   "theorems": [
    "c30_order",
    "c30_no_error",
    "c30_unlinked",
    "c30_remove",
    "c30_find",
    "c30_clear",
    "c30_added_twice_refuted"
   ],
   "note": "Pointer model of the list; adding the last member a second time is a precondition violation that the check in add misses (refuted)."
  },
  {
   "property": "C21",
   "status": "proved",
   "theorems": [
    "c21_split",
    "c21_split_history",
    "c21_partition",
    "c21_copy",
    "c21_decisions_only_refuted"
   ],
   "note": "For solvers reached by any history of assume, force, backtrack, undo and root-level changes (state model of C15); forced literals follow from the constraints. Solver-local auxiliary variables other than the tag literal block splitting; the tag literal is assumed true in the models considered."
  },
  {
   "property": "C22",
   "status": "proved",
   "theorems": [
    "c22_costs",
    "c22_levels",
    "c22_none",
    "c22_no_error",
    "c22_form",
    "c22_order",
    "c22_lower",
    "c22_readd",
    "c22_bound",
    "c22_bound_rejected"
   ],
   "note": "MinimizeBuilder::build with its helpers, MinimizeBuilder::add(prio,...) of an existing constraint and SharedMinimizeData::setMode bounds are modelled with exact 64-bit sums (Z) and 32-bit weights; addition of 64-bit sums is assumed not to overflow (fewer than 2^32 literals)."
  },
  {
   "property": "C23",
   "status": "proved",
   "theorems": [
    "c23_reason",
    "c23_reason_bound",
    "c23_conflict",
    "c23_conflict_bound",
    "c23_complete",
    "c23_level",
    "c23_total",
    "c23_sum",
    "c23_exhausted",
    "c23_target"
   ],
   "note": "DefaultMinimize: propagate, undoLevel, reason, computeImplicationSet, propagateImpl (both modes), relaxBound and the search for the level of a new bound in integrateBound, for every history of assignments, levels, propagations, undo, relaxing and new bounds. The rest of the solver is an arbitrary environment. Which bounds are tried (updateBounds) belongs to C24."
  },
  {
   "property": "C24",
   "status": "proved",
   "theorems": [
    "c24_exhausted",
    "c24_optimal",
    "c24_stays_exhausted",
    "c24_split_optimal",
    "c24_improves",
    "c24_lower",
    "c24_no_overflow",
    "c24_linear",
    "c24_hier_bound_refuted",
    "c24_low_component_refuted",
    "c24_race_refuted",
    "c24_zero_step_refuted",
    "c24_unsat_bound_loops_refuted"
   ],
   "note": "SharedMinimizeData::setOptimum/incLower and DefaultMinimize::integrateBound/updateBounds/commitUpperBound/commitLowerBound/handleUnsat/relaxBound/stepInit for any number of interleaved solvers; a solver is abstracted to the set of costs on its path. Five refutations show what happens outside the stated conditions (multi-level user bounds, a bound component below the lower bound, interrupted reads of a step-less solver, cost differences of 2^32, an unsatisfiable user bound). Termination is not claimed."
  },
  {
   "property": "C25",
   "status": "proved",
   "theorems": [
    "c25_exact",
    "c25_bounds",
    "c25_progress"
   ],
   "note": "addCurrent, CBFinder and SharedConstraint for any number of interleaved solvers; search is abstracted to 'reports any model on its path satisfying its constraints, gives up only if there is none'."
  },
  {
   "property": "C38",
   "status": "partial",
   "theorems": [
    "c38_no_error",
    "c38_exact_partial",
    "c38_terminates_partial",
    "c38_propagated",
    "c38_pending_refuted"
   ],
   "note": "QueryFinder on top of the full model of search (C20), one solver. Exact whenever every query is assumed on a root level of its own (ownLevels); the code does not guarantee this: c38_pending_refuted gives a run in which a cautious consequence is lost. With propagation before selecting a query (not in the code) it is exact without condition (c38_propagated)."
  },
  {
   "property": "C35",
   "status": "proved",
   "theorems": [
    "c35_deferred",
    "c35_same",
    "c35_partial_removal_refuted"
   ],
   "note": "Dirty::add/cleanup and removeWatch/removeUndoWatch. Condition: all watches of the removed constraints are removed (they are destroyed); c35_partial_removal_refuted shows that it is needed."
  },
  {
   "property": "C36",
   "status": "proved",
   "theorems": [
    "c36_protected",
    "c36_order",
    "c36_lowest"
   ],
   "note": "reduceLearnts with all four algorithms; heap functions of the C++ library are parameters with their standard specification; the float computation of the number to remove and of the linear threshold are parameters."
  },
  {
   "property": "C32",
   "status": "proved",
   "theorems": [
    "c32_meaning",
    "c32_eliminated"
   ],
   "note": "SatBuilder: addClause, satisfied, addConstraint, addObjective, addAssumption, doEndProgram; the solver behind it is any sound propagation (soundProp)."
  },
  {
   "property": "C33",
   "status": "proved",
   "theorems": [
    "c33_product",
    "c33_shared",
    "c33_reuse_refuted"
   ],
   "note": "PBBuilder::addProduct, productSubsumed, product index. c33_reuse_refuted: products survive startProgram."
  },
  {
   "property": "C34",
   "status": "partial",
   "theorems": [
    "c34_meaning_partial",
    "c34_hard_unaffected_partial",
    "c34_single_bound_refuted",
    "c34_single_eq_refuted",
    "c34_eq_excludes_refuted"
   ],
   "note": "PBBuilder::addConstraint. Missing: equalities and trivially satisfied soft constraints over one literal; for these the code does not satisfy the claim (refutations)."
  },
  {
   "property": "C39",
   "status": "proved",
   "theorems": [
    "c39_no_unfounded_set_left",
    "c39_total_assignment_founded",
    "c39_check_exact",
    "c39_start_succeeds"
   ],
   "note": "DefaultUnfoundedCheck function by function (init, propagate, propagateFixpoint, updateAssignment, findUfs, findSource, isValidSource, source propagation, falsifyUfs) over arbitrary well-formed graphs (gwf). Not modelled: disjunctive heads, the minimality check, incremental extension of the graph, 32-bit ranges of counters."
  },
  {
   "property": "C40",
   "status": "proved",
   "theorems": [
    "c40_nogoods_sound",
    "c40_nogoods_assert"
   ],
   "note": "computeReason, isExternal, addIfReason, AddReasonLit, assertAtom (distinct and common reasons) and the atoms forced false in init. Loop formulas as constraints (LoopFormula objects) and the selection of reason literals by level (only the set of literals is modelled) are left out."
  },
  {
   "property": "C29",
   "status": "proved",
   "theorems": [
    "c29_broadcast",
    "c29_no_error",
    "c29_lock_free",
    "c29_destructor"
   ],
   "note": "Interleaving model of MultiQueue at the level of single accesses to shared variables: publish, unsafePublish, tryConsume, release, the free list with reuse of nodes, reserve, destructor. Memory is sequentially consistent (the code uses seq_cst atomics), allocation does not fail; pop, hasItems and registration of threads during use are left out."
  },
  {
   "property": "C28",
   "status": "proved",
   "theorems": [
    "c28_two_vectors",
    "c28_sizes",
    "c28_no_leak",
    "c28_aligned",
    "c28_unlimited_refuted"
   ],
   "note": "left_right_rep and left_right_sequence with all operations, byte-level memory, 31/32-bit arithmetic, any number of objects on one heap. Objects up to 2^30 bytes and element sizes up to 65536; beyond that the 31-bit capacity overflows (c28_unlimited_refuted). Arguments of push are values (no reference into the container itself)."
  },
  {
   "property": "C31",
   "status": "proved",
   "theorems": [
    "c31_conflict_sound",
    "c31_no_model_lost",
    "c31_model_extends",
    "c31_equisatisfiable",
    "c31_multishot_conflict_sound",
    "c31_multishot_no_model_lost",
    "c31_multishot_model_extends",
    "c31_bce_second_extension_refuted",
    "c31_bce_multishot_refuted"
   ],
   "note": "SatElite function by function: attach/detach, subsumption queue, backwardSubsume, subsumes, strengthening, propagateFacts, subsumed, addResolvent, bceVe, eliminateVars, SatPreprocessor::preprocess, simplify of clauses, doExtendModel and extendModel, for every script of elimination steps, any heuristic choice and time-out. Other constraints are an arbitrary set over frozen variables. Multi-shot: any number of steps without blocked clause elimination, eliminated variables are not used again, variables seen earlier are frozen (freezeSeen). The two refuted theorems show why blocked clause elimination is restricted to one model and one step. First call with open = [] of extendModel; termination and absence of undefined behaviour are not claimed."
  },
  {
   "property": "C41",
   "status": "proved",
   "theorems": [
    "c41_translation_keeps_answer_sets",
    "c41_translation_complete",
    "c41_translation_total",
    "c41_rule_can_be_replaced",
    "c41_shift_sound",
    "c41_shift_redundant",
    "c41_shift_refuted",
    "c41_negative_bound_refuted"
   ],
   "note": "RuleTransform with all strategies, handleNatively for all modes, addRule/transformExtended without simplifyRule (C42). Modes scc, nhcf and integ translate later, in the prepared program; their rules go through the same transformation. c41_negative_bound_refuted: RuleTransform itself throws on a true sum with a negative bound (simplifyRule removes such bounds before)."
  },
  {
   "property": "C42",
   "status": "proved",
   "theorems": [
    "c42_simplification_keeps_answer_sets",
    "c42_flags_cleared",
    "c42_normal_form",
    "c42_program_keeps_answer_sets",
    "c42_after_exception_refuted"
   ],
   "note": "simplifyRule with all of simplifyNormal, simplifySum and pushHead, and what addFact, addIntegrity and assignValue learn. Propagation through bodies that exist already, equivalences and externals are not modelled. c42_after_exception_refuted: a rule rejected with an exception leaves flags set and the next rule loses a literal."
  },
  {
   "property": "C43",
   "status": "proved",
   "theorems": [
    "c43_component_shifting_keeps_answer_sets",
    "c43_heads_within_components"
   ],
   "note": "finalizeDisjunctions on programs with distinct head atoms (C42) and disjunctions over conjunctions (C41). Gamma rules with an auxiliary atom and the simplification of the new rules are left out. Example c43_components_needed shows that the hypothesis on components cannot be dropped."
  },
  {
   "property": "C44",
   "status": "proved",
   "theorems": [
    "c44_components_exact",
    "c44_components_respect_dependencies",
    "c44_numbers_follow_dependencies",
    "c44_search_and_split_keep_answer_sets"
   ],
   "note": "SccChecker with explicit call stack, for any graph with at most noNode nodes; successor lists are those that pass doVisit. The list of atoms in components (sccAtoms) is not modelled. In the program theorems each rule has its own body and disjunction node (no sharing)."
  },
  {
   "property": "C45",
   "status": "proved",
   "theorems": [
    "c45_completion_exact",
    "c45_completion_and_foundedness_give_answer_sets",
    "c45_unfounded_sets_by_component",
    "c45_tight_programs"
   ],
   "note": "addConstraints for bodies, atoms and disjunctions, with literals shared in any way between nodes. Hypothesis prepared: shifted rules or support edges are there for each disjunction (C43). The choice of literals and merged or removed nodes are not modelled."
  },
  {
   "property": "C46",
   "status": "proved",
   "theorems": [
    "c46_graph_wellformed",
    "c46_graph_gives_answer_sets",
    "c46_rest_on_total_assignment_is_answer_set",
    "c46_nogoods_keep_answer_sets"
   ],
   "note": "addSccs on an empty graph for programs without disjunctions, PrgBody::scc with its 64 bit mask. Components are numbered as by the search (C44); atoms left out of the search have a rule without body. Disjunctions, components with head cycles and later incremental steps are not modelled."
  },
  {
   "property": "C47",
   "status": "proved",
   "theorems": [
    "c47_preprocessing_ends",
    "c47_answer_sets_one_to_one",
    "c47_solver_models_are_the_answer_sets",
    "c47_nodes_without_literal_are_false",
    "c47_ignored_atoms_have_a_true_body"
   ],
   "note": "First step of a program without disjunctions, equivalence search off; bodies and values are already simplified (C41, C42). Composes with C45 and C46. Values found during preprocessing and later incremental steps are not modelled."
  },
  {
   "property": "C48",
   "status": "proved",
   "theorems": [
    "c48_reported_are_models",
    "c48_no_model_twice",
    "c48_complete",
    "c48_update_never_fails",
    "c48_at_most"
   ],
   "note": "One solver, no minimize constraint. Search is a transition system whose steps are decisions, unit propagation, learning of implied clauses, deletion, restarts, backtracking and models in any order; that a search ends is C13 and C16. Splitting of work and sharing of models between solvers are not modelled."
  },
  {
   "property": "C49",
   "status": "proved",
   "theorems": [
    "c49_lower_bound_sound",
    "c49_model_is_optimal",
    "c49_bounds_meet",
    "c49_nothing_left",
    "c49_few_cores",
    "c49_level_fixed",
    "c49_lexicographic",
    "c49_levels_passed",
    "c49_user_bounds_refuted",
    "c49_raise_overflow_refuted"
   ],
   "note": "Numbers are unbounded in the model. Two faults of the code are proved as refutations: with lexicographic bounds given by the user, a level passed over at the start keeps the bound of the next level although it is already better (c49_user_bounds_refuted); the raise of the lower bound for a core violated on level 0 is a product of 32-bit numbers that overflows (c49_raise_overflow_refuted). Which cores and models are found is arbitrary; conflict analysis that finds them is C19 and C20."
  },
  {
   "property": "C50",
   "status": "proved",
   "theorems": [
    "c50_complete_sound",
    "c50_complete_optimum",
    "c50_ends_complete",
    "c50_reports_solutions",
    "c50_reports_once",
    "c50_no_deadlock",
    "c50_restart_race_refuted",
    "c50_restart_abandoned_refuted",
    "c50_tentative_limit_refuted",
    "c50_memory_refuted"
   ],
   "note": "What one solver does between two accesses to shared variables is arbitrary but correct (C20, C21, C23, C26, C48). Atomics are sequentially consistent, as in the code. c50_no_deadlock holds in every configuration. Completeness and no repetition hold in the configurations named in the statement; outside of them they are false of the code: splitting with global restarts can end complete without exploring the space (c50_restart_race_refuted, c50_restart_abandoned_refuted), a limit during enumeration of optima can end complete with one optimum (c50_tentative_limit_refuted), a thread out of memory repeats models (c50_memory_refuted). Exchange of nogoods is C29 and C30; iterative solving (generator) is not modelled."
  },
  {
   "property": "C51",
   "status": "proved",
   "theorems": [
    "c51_delivery",
    "c51_nothing_lost",
    "c51_empty_refuted",
    "c51_no_error",
    "c51_alone",
    "c51_references",
    "c51_destructor",
    "c51_topology"
   ],
   "note": "Every access to shared memory is one step; memory is sequentially consistent, as the atomics of the code are; allocation gives fresh addresses. c51_empty_refuted: while a publish call is open, receive can find nothing although later calls have returned; such nogoods arrive later (c51_nothing_lost)."
  },
  {
   "property": "C52",
   "status": "proved",
   "theorems": [
    "c52_visit",
    "c52_refused",
    "c52_no_error",
    "c52_alone",
    "c52_once_refuted",
    "c52_refused_visible_refuted",
    "c52_count",
    "c52_count_refuted"
   ],
   "note": "Every access to shared memory is one step; memory is sequentially consistent; allocation gives fresh addresses. Three stronger expectations are refuted: a clause can be added twice, the clause that makes an addition be refused need not yet be visible for all its literals, and the counter of learnt short clauses can miss additions."
  },
  {
   "property": "C53",
   "status": "proved",
   "theorems": [
    "c53_meaning",
    "c53_represents",
    "c53_quiet",
    "c53_propagate",
    "c53_unit_propagate",
    "c53_reverse",
    "c53_clean_learnt_refuted",
    "c53_learnt_count_refuted"
   ],
   "note": "One thread; clauses have literals over different variables, none removed before, and a true literal or two unassigned ones (as the clause creator ensures). Propagation to the end covers short clauses only. For learnt clauses added while the graph was shared, two stronger expectations are refuted: satisfied entries can stay, and the number of learnt clauses can stay positive although none is left."
  },
  {
   "property": "C54",
   "status": "proved",
   "theorems": [
    "c54_acyclic",
    "c54_propagated",
    "c54_sound",
    "c54_conflict",
    "c54_ends",
    "c54_attach",
    "c54_reattach",
    "c54_tags",
    "c54_attach_refuted"
   ],
   "note": "Adjacency comes from the list of edges, not from the sorted arrays and offsets; learnt clauses and stored reasons are entries of a log; propagation in between is any function that extends the assignment or fails. Coverage of edges by watches is proved when edges are attached behind the old ones, and after edges were sorted anew if no two share a literal; it is refuted for edges that share a literal, with a cycle that passes the check."
  },
  {
   "property": "C55",
   "status": "proved",
   "theorems": [
    "c55_adjacency",
    "c55_no_error",
    "c55_indices"
   ],
   "note": "Node ids are unbounded; the end mark of the array is a flag; pointers are rests of lists."
  },
  {
   "property": "C56",
   "status": "proved",
   "theorems": [
    "c56_no_error",
    "c56_view",
    "c56_calls",
    "c56_check_undone",
    "c56_always_refuted"
   ],
   "note": "Clauses added by the user, locks and the front that limits checks are not modelled. c56_always_refuted: in undo mode Always a checked level is not undone if a watched literal becomes true after the check and a conflict arises before it is reported."
  },
  {
   "property": "C57",
   "status": "proved",
   "theorems": [
    "c57_exact",
    "c57_none_lost",
    "c57_frozen",
    "c57_frozen_only",
    "c57_exact_refuted"
   ],
   "note": "Changes of a step precede the initialisation of the solvers in this step. c57_exact_refuted: a solver that misses the step in which a watch is removed keeps the watch; this is why c57_exact asks for solvers without such gaps."
  }
 ]
}