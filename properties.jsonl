{"id": "C01", "title": "Literals are an injective, reversible encoding of (variable, sign)", "statement": "For every variable below varMax and every sign, the Literal built from them reports exactly that variable and sign, its id identifies the pair uniquely (two literals are == iff they have the same variable and sign, whatever their watch flags), fromId(id) gives the literal back, operator~ is an involution that flips the sign and keeps the variable, flag()/unflag() never change variable or sign, and nothing overflows the 32-bit representation.", "quantifier": "every variable v < 2^30, every sign, every flag state", "why_tests_cant": "2^31 literals times flag states; a test samples a handful of ids near zero and cannot see a shift that loses the top bit.", "anchors": ["clasp/literal.h: Literal, operator~, operator==, fromId, operator^"]}
{"id": "C02", "title": "Integer literal conversions round-trip", "statement": "toLit(toInt(p)) == p for every non-sentinel literal p, toInt(toLit(i)) == i for every non-zero int i with |i| < varMax, and decodeLit(encodeLit(p)) == p for every literal p including the two sentinels, with all intermediate values inside int32.", "quantifier": "every literal with variable < varMax; every int32 in the legal range", "why_tests_cant": "The range has 2^31 values and the boundary cases (sentinels, varMax-1) are exactly the ones sampled tests skip.", "anchors": ["clasp/literal.h: toLit, toInt, encodeLit, decodeVar, decodeLit"]}
{"id": "C03", "title": "A stored reason can always be read back", "statement": "Storing a constraint pointer, a binary reason literal or a ternary pair of reason literals in an Antecedent and reading it back yields the same kind and the same data; the three kinds and the null reason are mutually distinguishable.", "quantifier": "every 4-byte aligned 64-bit pointer, every pair of literals with any variable < 2^30 and any sign", "why_tests_cant": "The 64-bit tagged encoding has too many values to enumerate; an off-by-one shift only corrupts high variable ids.", "anchors": ["clasp/constraint.h: Antecedent"]}
{"id": "C04", "title": "Constraint type, activity, lbd and flags of a learnt nogood do not interfere", "statement": "Setting one of the score/info attributes of a learnt nogood (activity, lbd, type, tagged, aux, bumped flag) and reading any of them afterwards gives the (documented, saturated) value set last for that attribute and leaves all other attributes unchanged (re-setting activity or lbd starts a fresh score and thereby clears the bumped mark; an lbd of 0 means unknown and reads as the maximum); activity and lbd saturate at their documented maxima instead of wrapping.", "quantifier": "every sequence of attribute updates with arbitrary 32-bit arguments", "why_tests_cant": "Packed bit-field interference appears only for specific value combinations and long update histories.", "anchors": ["clasp/constraint.h: ConstraintScore, ConstraintInfo"]}
{"id": "C05", "title": "Value preferences of a variable obey the documented hierarchy", "statement": "After any history of preference updates, the sign/preference reported for a variable is the one of the highest-ranked level that is set (user > saved > preferred > default), and setting one level never changes what another level stores.", "quantifier": "every sequence of set/save operations on a variable's preference set", "why_tests_cant": "State is a packed byte reached through arbitrary histories.", "anchors": ["clasp/solver_types.h: ValueSet"]}
{"id": "C06", "title": "The Luby restart sequence is the mathematical Luby sequence", "statement": "With a Luby schedule the i-th interval is base * luby(i), where luby is the sequence 1,1,2,1,1,2,4,... defined by luby(2^k-1)=2^(k-1) and luby(i)=luby(i-2^(k-1)+1) for 2^(k-1) <= i < 2^k-1, and with an outer limit the sequence restarts from its beginning each time the limit is hit.", "quantifier": "every index i below 2^32 - 1, every base", "why_tests_cant": "The sequence is infinite; tests check the first few elements.", "anchors": ["src/solver_strategies.cpp: lubyR", "src/solver_strategies.cpp: ScheduleStrategy::current", "src/solver_strategies.cpp: ScheduleStrategy::next"]}
{"id": "C07", "title": "Fast-forwarding a restart schedule equals stepping it", "statement": "advanceTo(n) leaves a schedule strategy in exactly the state reached by resetting it and calling next() n times, for geometric, arithmetic and Luby schedules, with and without outer limit.", "quantifier": "every n, every schedule kind and every outer limit", "why_tests_cant": "Requires comparing a closed form against unboundedly many steps.", "anchors": ["src/solver_strategies.cpp: ScheduleStrategy::advanceTo", "src/solver_strategies.cpp: ScheduleStrategy::next"]}
{"id": "C08", "title": "Normalising a weight constraint preserves its meaning", "statement": "The normalised weight constraint built from any list of (literal, weight) pairs and any bound - after removing assigned literals, merging duplicates, flipping negative weights, cancelling complementary literals, clamping, and turning uniform weights into a cardinality constraint - has exactly the same satisfying total assignments as the original one; the reported sat/unsat/open verdict is right, all remaining weights are positive and sorted, no variable occurs twice and the reported reach is the sum of the weights.", "quantifier": "every list of weighted literals (positive, negative, zero weights, duplicates, complementary pairs), every bound, every consistent top-level assignment, every total assignment extending it", "why_tests_cant": "Inputs are unbounded lists of integers; equivalence quantifies over all assignments.", "anchors": ["src/weight_constraint.cpp: WeightLitsRep::create"]}
{"id": "C09", "title": "An equality weight constraint holds exactly when the sum equals the bound", "statement": "Adding 'sum = bound' as a constraint (weight-constraint equality option, as used for OPB '=' constraints) admits exactly the total assignments whose weighted sum equals the bound.", "quantifier": "every list of weighted literals and every bound", "why_tests_cant": "Only particular weight/bound combinations (uniform weights not dividing the bound) expose a wrong normalisation.", "anchors": ["src/weight_constraint.cpp: WeightConstraint::create", "src/program_builder.cpp: PBBuilder::addConstraint"]}
{"id": "C10", "title": "Weight-constraint propagation is sound, complete at full assignments and justified", "statement": "Whenever a weight constraint forces a literal (or reports a conflict), every total assignment that extends the current assignment and satisfies W <-> sum >= bound makes that literal true (there is none, on conflict); the reason it later reports consists only of literals that were true before the propagated literal and alone entail it; and when all literals are assigned without conflict the equivalence holds.", "quantifier": "every normalised weight constraint, every sequence of assignments to its literals", "why_tests_cant": "Histories of assignments are unbounded and the reason is recomputed lazily after arbitrary further assignments.", "anchors": ["src/weight_constraint.cpp: WeightConstraint::propagate", "src/weight_constraint.cpp: WeightConstraint::reason", "src/weight_constraint.cpp: WeightConstraint::undoLevel"]}
{"id": "C11", "title": "Backtracking restores a weight constraint exactly", "statement": "Undoing a decision level restores the constraint's slack to the value it had before the level was entered, for any sequence of propagations and undos.", "quantifier": "every interleaving of propagate/undoLevel calls respecting the solver's stack discipline", "why_tests_cant": "Unbounded histories.", "anchors": ["src/weight_constraint.cpp: WeightConstraint::undoLevel", "src/weight_constraint.cpp: WeightConstraint::updateConstraint"]}
{"id": "C12", "title": "Preparing a clause keeps its meaning and orders its watches", "statement": "ClauseCreator::prepare returns a clause that is satisfied by exactly the same total assignments extending the top-level assignment as the input clause, contains no literal that is false at level 0, no duplicate and no complementary pair (for simplifying calls), is reported as satisfied only if it really is, and puts two literals with maximal watch order first.", "quantifier": "every literal list, every solver assignment", "why_tests_cant": "Unbounded clause sizes and assignments.", "anchors": ["src/clause.cpp: ClauseCreator::prepare", "src/clause.cpp: ClauseCreator::watchOrder", "src/clause.cpp: ClauseCreator::status"]}
{"id": "C13", "title": "Watched-literal propagation never misses or invents a consequence", "statement": "After unit propagation terminates without conflict no clause in the database is falsified or unit-but-unassigned; every literal it assigns is entailed by the clauses and the decisions; if it reports a conflict some clause is falsified by the current assignment.", "quantifier": "every set of clauses, every decision sequence", "why_tests_cant": "Depends on all propagation orders and watch histories.", "anchors": ["src/solver.cpp: Solver::unitPropagate", "src/clause.cpp: Clause::updateWatch", "src/solver.cpp: ClauseHead::propagate"]}
{"id": "C14", "title": "The assignment and its trail always agree, and undoing is exact", "statement": "After any sequence of assign/undo operations a literal is true iff it is on the trail, no variable is on the trail twice, decision-level information of trail entries is non-decreasing by segment, and undoing to a level restores exactly the assignment at the time that level was opened (except for saved phases).", "quantifier": "every sequence of decisions, forced literals and backjumps", "why_tests_cant": "Unbounded histories.", "anchors": ["clasp/solver_types.h: Assignment", "src/solver.cpp: Solver::undoUntil", "src/solver.cpp: Solver::force"]}
{"id": "C15", "title": "Literals implied on lower levels survive backtracking to that level", "statement": "A literal forced with an implication level below the current decision level stays assigned after any backtracking that does not go below its implication level, and is retracted once backtracking goes below it.", "quantifier": "every sequence of force-at-level, decision and undo operations", "why_tests_cant": "Interaction only visible over long histories.", "anchors": ["src/solver.cpp: Solver::force", "clasp/solver_types.h: ImpliedList", "src/solver.cpp: Solver::undoUntil"]}
{"id": "C16", "title": "Every learnt clause is a logical consequence of the problem", "statement": "The conflict clause produced by conflict analysis is entailed by the constraints that acted as reasons (it holds in every model of the problem), for any implication graph.", "quantifier": "every reachable conflict state with arbitrary reasons", "why_tests_cant": "Number of implication graphs is unbounded.", "anchors": ["src/solver.cpp: Solver::analyzeConflict"]}
{"id": "C17", "title": "Every learnt clause is asserting", "statement": "All literals of the conflict clause are false, exactly one of them was assigned on the conflict level, it is the first one, and after backjumping to the computed level every other literal is still false while the first is unassigned.", "quantifier": "every reachable conflict state above the root level", "why_tests_cant": "Number of implication graphs is unbounded.", "anchors": ["src/solver.cpp: Solver::analyzeConflict", "src/solver.cpp: Solver::finalizeConflictClause"]}
{"id": "C18", "title": "Conflict-clause minimisation only removes redundant literals", "statement": "The minimised conflict clause is a subset of the unminimised one and is still entailed by the problem and still asserting, for local and recursive minimisation.", "quantifier": "every conflict clause and implication graph", "why_tests_cant": "Recursive minimisation with caching explores unbounded graphs.", "anchors": ["src/solver.cpp: Solver::simplifyConflictClause", "src/solver.cpp: Solver::ccMinimize", "src/solver.cpp: Solver::ccRemovable"]}
{"id": "C19", "title": "The unsatisfiable core of assumptions is correct", "statement": "When solving under assumptions fails, the reported core consists only of assumption literals (decisions at or below the root level) and the problem together with the core is unsatisfiable.", "quantifier": "every conflict under every set of assumptions", "why_tests_cant": "Unbounded implication graphs.", "anchors": ["src/solver.cpp: Solver::resolveToCore"]}
{"id": "C20", "title": "Search answers are correct", "statement": "For a problem given by clauses: if search reports SAT the current assignment is total and satisfies every clause and every assumption; if it reports UNSAT no model of the clauses satisfies the assumptions; without limits every search ends with one of the two; everything learnt follows from the clauses alone, so later calls under other assumptions stay correct; learnt-clause deletion, restarts and heuristics cannot change this.", "quantifier": "every set of clauses, every heuristic, every restart and deletion policy, every sequence of adding clauses, pushing and popping assumptions and searching", "why_tests_cant": "All interleavings of decisions, restarts and deletions.", "anchors": ["src/solver.cpp: Solver::search", "src/solver.cpp: Solver::resolveConflict", "src/solver.cpp: Solver::reduceLearnts"]}
{"id": "C21", "title": "Splitting a search space loses and duplicates nothing", "statement": "When a solver hands over a guiding path by split (once or repeatedly), every model of the constraints that the solver still had to visit - one that extends its guiding path and was not left by backtracking - is left to exactly one of the solver and the receivers of the handed-over paths, and no model already left is handed over again.", "quantifier": "every assignment state in which splitting is allowed", "why_tests_cant": "All decision stacks and backtracked literals.", "anchors": ["src/solver.cpp: Solver::split", "src/solver.cpp: Solver::copyGuidingPath", "src/solver.cpp: Solver::splittable"]}
{"id": "C22", "title": "Minimize statements keep their costs when normalised", "statement": "For every total assignment extending the top-level assignment and every priority, the cost computed from the built minimize data (per-level adjustment plus the weights of its true literals) equals the sum of the weights of the true literals of the original minimize statements with that priority; levels are ordered by decreasing priority.", "quantifier": "every multiset of (priority, literal, weight), every top-level assignment, every total assignment", "why_tests_cant": "Unbounded inputs with duplicates, complementary literals, negative weights, shared literals between priorities.", "anchors": ["src/minimize_constraint.cpp: MinimizeBuilder::prepareLevels", "src/minimize_constraint.cpp: MinimizeBuilder::mergeLevels", "src/minimize_constraint.cpp: MinimizeBuilder::createShared"]}
{"id": "C23", "title": "Bound propagation of minimize statements is sound and lexicographic", "statement": "A minimize constraint forces a literal false only if every total assignment extending the current one and making it true has a cost vector lexicographically greater than the current bound; and a total assignment not excluded has cost lexicographically not greater than the bound.", "quantifier": "every multi-level minimize constraint (negative lower-level weights included), every bound, every partial assignment", "why_tests_cant": "Multi-level comparison with cached comparison level over arbitrary propagate/undo histories.", "anchors": ["src/minimize_constraint.cpp: SharedMinimizeData::imp", "src/minimize_constraint.cpp: DefaultMinimize::propagateImpl", "src/minimize_constraint.cpp: DefaultMinimize::computeImplicationSet"]}
{"id": "C24", "title": "Branch-and-bound terminates only with the optimum", "statement": "When branch-and-bound optimisation (solvers of any step types, any number of them running concurrently and sharing bounds, on the whole search space or on disjoint parts) stops with a last model, no model has a lexicographically smaller cost; if it stops without a model, none is within the initial bound; the best model is only ever replaced by a strictly better one; reported lower bounds never exceed the optimum. This holds if the user's initial bound constrains the most important level only, costs of one level differ by less than 2^32-1 when steps grow or shrink, and step-less solvers read shared bounds in one piece; outside of these conditions it can fail.", "quantifier": "every set of cost vectors, every number of solvers and interleaving, every order in which models are found, all step types", "why_tests_cant": "All search histories.", "anchors": ["src/minimize_constraint.cpp: DefaultMinimize::integrateBound", "src/minimize_constraint.cpp: DefaultMinimize::updateBounds", "src/minimize_constraint.cpp: DefaultMinimize::commitLowerBound", "src/minimize_constraint.cpp: SharedMinimizeData::setOptimum"]}
{"id": "C25", "title": "Brave and cautious consequences are exact", "statement": "When consequence enumeration completes, the reported set is exactly the union (brave) or the intersection (cautious) of the models, restricted to the output literals; every intermediate estimate is a lower (brave) or upper (cautious) bound of it.", "quantifier": "every set of models, every number of solvers and every interleaving in which they find models, with the default algorithm (the query algorithm is a property of its own)", "why_tests_cant": "All search histories and schedules.", "anchors": ["src/cb_enumerator.cpp: CBConsequences::addCurrent", "src/cb_enumerator.cpp: CBConsequences::CBFinder"]}
{"id": "C26", "title": "Model enumeration reports every model exactly once", "statement": "Enumerating with solution recording reports each (projected) model exactly once and stops only when all have been reported.", "quantifier": "every set of models, every projection set, every search order", "why_tests_cant": "All search histories.", "anchors": ["src/model_enumerators.cpp: ModelEnumerator::RecordFinder", "src/model_enumerators.cpp: ModelEnumerator::BacktrackFinder"]}
{"id": "C27", "title": "The indexed priority queue always yields a maximal element", "statement": "After any sequence of push/pop/update/remove/increase/decrease operations the queue contains exactly the keys pushed and not removed, membership queries are right, and top() has no queued key with strictly higher priority.", "quantifier": "every operation sequence, every strict weak order, arbitrary priority changes announced by update/increase/decrease", "why_tests_cant": "Unbounded histories.", "anchors": ["clasp/util/indexed_priority_queue.h: indexed_priority_queue"]}
{"id": "C28", "title": "The two-ended watch-list container behaves like two independent sequences", "statement": "After any sequence of push_left/push_right/pop/erase/shrink/copy/move operations, including reallocations and inline storage, the left and right iteration orders are those of two independent vectors.", "quantifier": "every operation sequence, every element size combination", "why_tests_cant": "Overlap bugs need particular size ratios and histories.", "anchors": ["clasp/util/left_right_sequence.h: left_right_rep", "clasp/util/left_right_sequence.h: left_right_sequence"]}
{"id": "C29", "title": "Broadcast queue delivers every published item once to every consumer, in order", "statement": "For every interleaving of publishers and consumers each registered consumer receives exactly the published items in publication order without duplicates or losses, and an item is released exactly once and only after the last consumer has moved past it.", "quantifier": "every number of threads, every interleaving of atomic steps", "why_tests_cant": "Schedules cannot be enumerated by tests.", "anchors": ["clasp/util/multi_queue.h: MultiQueue"]}
{"id": "C30", "title": "Post propagators run in priority order", "statement": "After any sequence of add/remove calls the propagator list is sorted by priority, propagators with equal priority keep insertion order, find(prio) returns the first propagator with that priority (or none), and removal removes exactly the given propagator.", "quantifier": "every add/remove sequence", "why_tests_cant": "Unbounded histories.", "anchors": ["src/constraint.cpp: PropagatorList"]}
{"id": "C31", "title": "Variable elimination and clause simplification preserve satisfiability and models can be reconstructed", "statement": "After SatElite-style preprocessing (subsumption, self-subsumption, variable elimination by clause distribution, blocked clause elimination) the simplified clauses are satisfiable iff the original ones are, and extending any model of the simplified clauses over the eliminated variables yields a model of all original clauses.", "quantifier": "every clause set, every order of elimination steps", "why_tests_cant": "All clause sets and elimination orders.", "anchors": ["src/satelite.cpp: SatElite::bceVe", "src/satelite.cpp: SatElite::subsumes", "src/satelite.cpp: SatElite::doExtendModel"]}
{"id": "C32", "title": "(Max)SAT clauses are read with their meaning intact", "statement": "Each DIMACS clause added to the SAT builder - after removal of duplicate, complementary, true and false literals - constrains total assignments exactly like the original clause; soft clauses contribute their weight to the cost exactly when violated.", "quantifier": "every clause, every weight, every total assignment", "why_tests_cant": "Unbounded inputs.", "anchors": ["src/program_builder.cpp: SatBuilder::addClause", "src/program_builder.cpp: SatBuilder::satisfied", "src/program_builder.cpp: SatBuilder::doEndProgram"]}
{"id": "C33", "title": "Pseudo-Boolean products denote conjunctions", "statement": "The literal returned for a product term of an OPB problem is true in a model exactly when all literals of the product are true; equal products share one literal.", "quantifier": "every list of literals, every history of products", "why_tests_cant": "Unbounded inputs and histories.", "anchors": ["src/program_builder.cpp: PBBuilder::addProduct", "src/program_builder.cpp: PBBuilder::productSubsumed"]}
{"id": "C34", "title": "Soft pseudo-Boolean constraints cost their weight exactly when violated", "statement": "For each soft constraint of a WBO problem the objective increases by the constraint's cost exactly in the assignments violating it, and hard satisfiability is unaffected.", "quantifier": "every soft constraint, every assignment", "why_tests_cant": "Unbounded inputs; equality and trivially satisfied soft constraints are rarely tested.", "anchors": ["src/program_builder.cpp: PBBuilder::addConstraint"]}
{"id": "C35", "title": "Deferred watch removal equals immediate removal", "statement": "Removing constraints' watches through the deferred clean-up of watch lists leaves in every watch list exactly the watches of constraints not removed, in unchanged order.", "quantifier": "every set of removed constraints and every watch list content", "why_tests_cant": "Unbounded watch lists.", "anchors": ["src/solver.cpp: Solver::Dirty"]}
{"id": "C36", "title": "Learnt-clause reduction never deletes protected nogoods", "statement": "Deleting learnt nogoods keeps every locked nogood, every nogood within the glue limit and removes at most the requested number; the database afterwards contains exactly the not-removed nogoods.", "quantifier": "every learnt database, every reduction policy and score", "why_tests_cant": "Unbounded databases.", "anchors": ["src/solver.cpp: Solver::reduceLearnts", "src/solver.cpp: Solver::reduceLinear", "src/solver.cpp: Solver::reduceSort", "src/solver.cpp: Solver::reduceSortInPlace"]}
{"id": "C37", "title": "Binomial coefficients used by hybrid schedules and bounds are exact", "statement": "The helper that computes n over k returns the mathematical binomial coefficient whenever all intermediate products fit the machine integer.", "quantifier": "every n and k", "why_tests_cant": "Unbounded arguments.", "anchors": ["clasp/util/misc_types.h: choose"]}
{"id": "C38", "title": "Cautious consequences by queries are exact", "statement": "When cautious consequences are computed by testing candidate literals one by one (query algorithm), the computation ends and the last reported set is exactly the intersection of the models, restricted to the output literals; every intermediate report is an upper bound, and literals reported as definite are consequences.", "quantifier": "every problem, every search behaviour, every choice of the next candidate", "why_tests_cant": "All search histories.", "anchors": ["src/cb_enumerator.cpp: CBConsequences::QueryFinder", "src/enumerator.cpp: EnumerationConstraint::update"]}
{"id": "C39", "title": "The unfounded set check leaves no unfounded set behind", "statement": "Whenever the unfounded set checker of a non-tight program reports that it has nothing more to do, every nonempty set of atoms that are not false contains an atom with an external support: a body that is not false and does not depend on the set. In particular the true atoms of every total assignment accepted by the checker are founded. Each check ends, and a set it reports is nonempty, contains only atoms that are not false, and has no external support.", "quantifier": "every dependency graph with normal, choice, cardinality and weight rules, every initial assignment, every history of assignments, checks, conflicts, new decision levels and backtracking, every order of notifications", "why_tests_cant": "Unbounded graphs and histories; source pointers are kept across backtracking, so errors appear only after particular histories.", "anchors": ["src/unfounded_check.cpp: DefaultUnfoundedCheck::propagateFixpoint", "src/unfounded_check.cpp: DefaultUnfoundedCheck::findUfs", "src/unfounded_check.cpp: DefaultUnfoundedCheck::findSource", "src/unfounded_check.cpp: DefaultUnfoundedCheck::updateAssignment", "src/unfounded_check.cpp: DefaultUnfoundedCheck::propagateSource", "src/unfounded_check.cpp: DefaultUnfoundedCheck::isValidSource", "clasp/unfounded_check.h: DefaultUnfoundedCheck"]}
{"id": "C40", "title": "Loop nogoods are sound and asserting", "statement": "Every literal forced and every nogood added by the unfounded set checker holds in every total assignment that extends the initial one, respects the bodies and has founded true atoms - so no answer set is lost. When a nogood is added, all its literals but the first are false; the first becomes true or a conflict is reported.", "quantifier": "every dependency graph, every history of the checker, every such total assignment", "why_tests_cant": "All answer sets of all programs.", "anchors": ["src/unfounded_check.cpp: DefaultUnfoundedCheck::assertAtom", "src/unfounded_check.cpp: DefaultUnfoundedCheck::computeReason", "src/unfounded_check.cpp: DefaultUnfoundedCheck::isExternal", "src/unfounded_check.cpp: DefaultUnfoundedCheck::addIfReason", "src/unfounded_check.cpp: DefaultUnfoundedCheck::init"]}
{"id": "C41", "title": "Translating extended rules keeps the answer sets", "statement": "In every translation mode, replacing choice rules, cardinality rules and weight rules by normal rules with auxiliary atoms keeps the answer sets one for one: each answer set of the given program belongs to exactly one answer set of the translated program that agrees with it on all given atoms, and vice versa. The translation ends, and only kinds of rules the mode leaves untouched remain. Shifted versions of a disjunction are consequences of it.", "quantifier": "every program with disjunctive, choice, cardinality and weight rules, every mode, every strategy, every size of sums", "why_tests_cant": "Unbounded programs; auxiliary atoms are shared between parts of a sum.", "anchors": ["src/logic_program_types.cpp: RuleTransform::transform", "src/logic_program_types.cpp: RuleTransform::Impl::transformChoice", "src/logic_program_types.cpp: RuleTransform::Impl::transformDisjunction", "src/logic_program_types.cpp: RuleTransform::Impl::transformSelect", "src/logic_program_types.cpp: RuleTransform::Impl::transformSplit", "src/logic_program.cpp: LogicProgram::transformExtended", "src/logic_program.cpp: LogicProgram::handleNatively", "src/logic_program.cpp: LogicProgram::addRule"]}
{"id": "C42", "title": "Simplifying a rule keeps the answer sets", "statement": "When a rule is added, removing known and duplicate literals, merging and cutting weights, turning sums into counts or conjunctions, dropping head atoms and dropping the rule altogether never change the answer sets of the program, given that what is known about atoms follows from the rest of the program. The simplified rule has no duplicates and no known atoms.", "quantifier": "every rule, every program that entails the known values, every state of knowledge (true, weakly true, false, irrelevant, fact)", "why_tests_cant": "All rules in all contexts.", "anchors": ["src/logic_program.cpp: LogicProgram::simplifyRule", "src/logic_program.cpp: LogicProgram::simplifyNormal", "src/logic_program.cpp: LogicProgram::simplifySum", "src/logic_program.cpp: LogicProgram::pushHead", "src/logic_program.cpp: LogicProgram::litVal", "clasp/logic_program_types.h: AtomState"]}
{"id": "C43", "title": "Splitting disjunctions along the components keeps the answer sets", "statement": "When the program is finished, each disjunction is replaced by one rule per strongly connected component of its head: head atoms outside the component become negative body literals. Given that positive dependencies lead only to the same component or to lower ones, the answer sets stay the same, with and without the extra shifted rules, and no disjunction is left whose head spans two components.", "quantifier": "every program with disjunctive, choice, cardinality and weight rules, every assignment of components that respects the dependencies", "why_tests_cant": "All programs with head cycles.", "anchors": ["src/logic_program.cpp: LogicProgram::finalizeDisjunctions"]}
{"id": "C44", "title": "The component search finds exactly the strongly connected components", "statement": "The search for components of the positive dependency graph ends on every graph. Two different nodes get the same component number iff each can be reached from the other; a node gets a number iff there is such another node; the numbers form an interval from the given start; all node identifiers are reset. The resulting components respect the dependencies of the program, so that splitting disjunctions along them keeps the answer sets.", "quantifier": "every graph, every program, every start number, every initial identifiers", "why_tests_cant": "Unbounded graphs; the search is an iterative version of Tarjan's algorithm that reuses node identifiers as low links.", "anchors": ["src/logic_program_types.cpp: SccChecker::visitDfs", "src/logic_program_types.cpp: SccChecker::recurse", "src/logic_program_types.cpp: SccChecker::onNode", "clasp/logic_program_types.h: SccChecker"]}
{"id": "C45", "title": "The constraints for a program are its completion", "statement": "The clauses and weight constraints handed to the solver for a prepared program hold under an assignment exactly if every body's literal has the truth value of the body, the true atoms form a model of the rules, every true atom is supported, and fixed values are respected. Such an assignment is an answer set exactly if no non-empty set of true atoms is unfounded, for which it is enough to look at sets within one component of the program; for tight programs the constraints alone describe the answer sets.", "quantifier": "every prepared program with plain, choice, cardinality, weight and disjunctive rules, shared bodies and literals, every fixed values, every assignment", "why_tests_cant": "All programs and all assignments; literals of atoms and bodies can coincide in any pattern.", "anchors": ["src/logic_program.cpp: LogicProgram::addConstraints", "src/logic_program.cpp: toConstraint", "src/logic_program_types.cpp: PrgBody::addConstraints", "src/logic_program_types.cpp: PrgAtom::addConstraints", "clasp/logic_program_types.h: PrgNode::trueLit"]}
{"id": "C46", "title": "The dependency graph fits the program", "statement": "The graph built for the unfounded set checker from a program and its components is well formed, and no unfounded set in the graph is the same as no unfounded set in the program for every assignment that satisfies the program's constraints. So when the checker has come to rest under a total assignment satisfying the constraints, the true atoms are an answer set, and every nogood it ever adds holds for every answer set.", "quantifier": "every prepared program without disjunctions, every numbering of components against the dependencies, every set of literals false on the top level, every history of the checker", "why_tests_cant": "All programs, component structures and search histories; a missing edge or a wrong component of one body shows only on particular assignments.", "anchors": ["src/dependency_graph.cpp: PrgDepGraph::addSccs", "src/dependency_graph.cpp: PrgDepGraph::addPreds", "src/dependency_graph.cpp: PrgDepGraph::addHeads", "src/dependency_graph.cpp: PrgDepGraph::initBody", "src/dependency_graph.cpp: PrgDepGraph::initAtom", "src/logic_program_types.cpp: PrgBody::scc"]}
{"id": "C47", "title": "Preprocessing represents each answer set exactly once", "statement": "The simple preprocessing (no equivalence search) always ends. The literals it chooses for atoms and bodies represent the answer sets exactly: each assignment that satisfies the generated constraints and passes the unfounded set check is an answer set respecting the fixed values, each such answer set is represented by an assignment, and two assignments for the same answer set agree on every variable made. Atoms and bodies that get no literal are false in every answer set.", "quantifier": "every program without disjunctions in simplified form, every choice of fixed values, every order in which supported bodies are visited", "why_tests_cant": "All programs, with all ways atoms and bodies can share a variable; a wrongly shared variable or a body dropped as unsupported loses or invents answer sets only for particular programs.", "anchors": ["src/asp_preprocessor.cpp: Preprocessor::preprocessSimple", "src/asp_preprocessor.cpp: Preprocessor::addHeadsToUpper", "src/asp_preprocessor.cpp: Preprocessor::propagateAtomVar", "src/logic_program_types.cpp: PrgHead::assignVar", "src/logic_program_types.cpp: PrgBody::assignVar", "src/logic_program_types.cpp: PrgBody::propagateSupported"]}
{"id": "C48", "title": "Enumeration by backtracking reports every model exactly once", "statement": "With enumeration by backtracking, with or without projection, every reported assignment is a model of the clauses under the assumptions, no two reported models agree on all (projected) variables, and when the search is exhausted every model agrees with a reported one on them, whatever was decided, learnt, forgotten or restarted in between. The step after a model is always possible.", "quantifier": "every set of clauses and assumptions, every set of projected variables, every order of decisions, propagation, conflicts, learning, deletion, restarts, every literal the heuristic picks, restart-on-model on or off", "why_tests_cant": "All interleavings of search and enumeration; a model is lost or repeated only for particular orders of decisions on projected and other variables and backjumps between two models.", "anchors": ["src/model_enumerators.cpp: ModelEnumerator::BacktrackFinder::doUpdate", "src/model_enumerators.cpp: ModelEnumerator::BacktrackFinder::doCommitModel", "src/model_enumerators.cpp: ModelEnumerator::BacktrackFinder::propagate", "src/solver.cpp: Solver::backtrack", "src/solver.cpp: Solver::undoUntil", "clasp/solver.h: Solver::setBacktrackLevel"]}
{"id": "C49", "title": "Core-guided optimisation stops only with the optimum", "statement": "With unsatisfiable-core based optimisation, whichever of the algorithms (oll, one, k, pmres) and options (succinct, preprocessing with disjoint cores, stratification, trimming) is used and whichever cores and models the search finds, the reported lower bound is never above the cost of a model within the current bound. A model that satisfies all assumptions while no core is waiting is optimal and costs exactly the lower bound; when lower and upper bound meet, the best model is optimal; when the constraints become unsatisfiable, no model is within the bound. Each core raises the lower bound, so there are at most as many cores as there are cost units. With several levels, the models left after the last level are exactly the lexicographically optimal ones.", "quantifier": "every problem, every objective with positive or negative weights and repeated literals, every sequence of cores, models, trimming attempts and literals found true on level 0, every option and algorithm, every number of levels", "why_tests_cant": "The constraints added for a core depend on all cores before it; a wrong bound in one of them loses an optimum only for particular sequences of overlapping cores and weights.", "anchors": ["src/minimize_constraint.cpp: UncoreMinimize::addCore", "src/minimize_constraint.cpp: UncoreMinimize::addOll", "src/minimize_constraint.cpp: UncoreMinimize::addK", "src/minimize_constraint.cpp: UncoreMinimize::addPmr", "src/minimize_constraint.cpp: UncoreMinimize::addOllCon", "src/minimize_constraint.cpp: UncoreMinimize::closeCore", "src/minimize_constraint.cpp: UncoreMinimize::pushPath", "src/minimize_constraint.cpp: UncoreMinimize::handleUnsat", "src/minimize_constraint.cpp: UncoreMinimize::addNext", "src/minimize_constraint.cpp: UncoreMinimize::initLevel", "src/minimize_constraint.cpp: UncoreMinimize::fixLevel"]}
{"id": "C50", "title": "Parallel solving reports every solution, none twice, and never blocks", "statement": "With any number of threads, competing or splitting the search space, and in every interleaving: if the search ends complete, then all solutions under the assumptions were reported (enumeration), or one with the smallest costs (optimisation), or all with the smallest costs (enumeration of optima); if nothing was reported, there is none. If nobody stops it (no interrupt, limit or error), it ends complete. Everything reported is a solution. No solution is reported twice, and costs only get smaller during optimisation. Threads never wait for each other for ever: unless all have left, one can go on and, if it sleeps, it was notified. The claims on completeness and repetition hold for splitting without global restarts and without enumeration of optima, and for enumeration by backtracking as long as no thread runs out of memory; for the excluded combinations they are false of the code, with runs as proof.", "quantifier": "every problem, every number of threads up to 64, every schedule of the threads at the granularity of accesses to shared variables, every point at which an interrupt, a limit, an error, a split, a model, a restart request or a spurious wake-up happens", "why_tests_cant": "The number of interleavings of threads at flags, queue, barrier and condition variable is unbounded, and a lost path or a wrong 'no work left' shows only in a few of them.", "anchors": ["src/parallel_solve.cpp: ParallelSolve::solveParallel", "src/parallel_solve.cpp: ParallelSolve::requestWork", "src/parallel_solve.cpp: SharedData::requestWork", "src/parallel_solve.cpp: ParallelSolve::waitOnSync", "src/parallel_solve.cpp: ParallelSolve::initQueue", "src/parallel_solve.cpp: ParallelSolve::terminate", "src/parallel_solve.cpp: ParallelSolve::commitModel", "src/parallel_solve.cpp: ParallelSolve::commitUnsat", "src/parallel_solve.cpp: ParallelSolve::requestRestart", "src/parallel_solve.cpp: ParallelSolve::exception", "src/parallel_solve.cpp: SharedData::enterWait", "src/parallel_solve.cpp: SharedData::leaveAlgorithm"]}
{"id": "C51", "title": "Nogoods passed between threads arrive once, in order, and live as long as they are used", "statement": "With lock-free distribution, for any number of threads, any topology and in every interleaving: a thread receives from every other thread what that thread published for it, in the order of publication, nothing twice and nothing of its own; when it finds nothing to receive and no publish call is open, it has received all. No access to memory outside of an allocated node happens. Every call returns if its thread goes on, whatever the others are doing. A nogood is deleted exactly once, when all threads to which it was sent and, if the sender keeps it, the sender have given it back, and not earlier. The destructor frees every block of memory once and deletes exactly the nogoods no client holds. In every topology listening is mutual, never to oneself, and everyone is reached from everyone.", "quantifier": "every number of threads from two on, every relation of who listens to whom, every sequence of calls of every thread and every interleaving of their accesses to shared memory", "why_tests_cant": "A node linked too late, reused too early or a wrong number of references shows only in some interleavings of many threads, and there are unboundedly many.", "anchors": ["src/parallel_solve.cpp: LocalDistribution::publish", "src/parallel_solve.cpp: LocalDistribution::receive", "src/parallel_solve.cpp: LocalDistribution::allocNode", "src/parallel_solve.cpp: LocalDistribution::freeNode", "src/parallel_solve.cpp: LocalDistribution::~LocalDistribution", "src/parallel_solve.cpp: ParallelSolveOptions::initPeerMask", "clasp/util/multi_queue.h: MPSCPtrQueue", "clasp/util/multi_queue.h: LockFreeStack::push", "src/clause.cpp: SharedLiterals::release", "src/solver.cpp: Solver::distribute"]}
{"id": "C52", "title": "Short clauses learnt by several threads are neither lost nor invented", "statement": "While the short clauses are shared between threads, in every interleaving of additions and visits: once the addition of a clause of two or three literals has returned, every visit of the consequences of the negation of one of its literals that starts afterwards and runs to its end yields what the clause says; a visit yields nothing more often than clauses saying so were asked to be added, and never half an entry. An addition is refused only if a clause that subsumes it was asked to be added before. No access outside of a block happens, and a thread running alone finishes its call unless another one was stopped while holding the lock of a block. The number of learnt clauses of a length is never reported too high, is positive once one was added, and is exact if one thread adds.", "quantifier": "every number of threads, every sequence of additions and visits of every thread, every number of clauses per literal and every interleaving of their accesses to shared memory", "why_tests_cant": "A size published before its cells, a block replaced while somebody writes to it or an entry read across the end of a block shows only in some interleavings, and there are unboundedly many.", "anchors": ["src/shared_context.cpp: ShortImplicationsGraph::add", "src/shared_context.cpp: ShortImplicationsGraph::ImplicationList::addLearnt", "src/shared_context.cpp: ShortImplicationsGraph::ImplicationList::hasLearnt", "src/shared_context.cpp: ShortImplicationsGraph::Block::tryLock", "src/shared_context.cpp: ShortImplicationsGraph::Block::addUnlock", "clasp/shared_context.h: ShortImplicationsGraph::forEach"]}
{"id": "C53", "title": "Short clauses keep their meaning when true literals are removed", "statement": "For every history of adding clauses of two or three literals (as problem or learnt clauses, or while the graph is shared), extending the top-level assignment by propagation and removing true literals: under the top-level assignment, what a visit of the consequences of every literal says is equivalent to all clauses that were added. Without shared additions the graph is exactly a list of clauses, each listed once for each of its literals, the numbers of binary, ternary and learnt clauses are theirs, and once all true literals were removed only unassigned variables are left. Propagating a literal to the end terminates, sets only consequences with reasons that were true before, leaves nothing to propagate, and fails only if the clauses and the literal cannot be satisfied together. A reversed arc is found iff an entry made of acceptable literals exists.", "quantifier": "every history of additions, assignments and removals, every clause set, every literal propagated", "why_tests_cant": "Removing a literal updates the lists of other literals while walking one of them; a forgotten or wrongly matched entry loses or invents an implication only for particular sets of clauses and orders of removal.", "anchors": ["src/shared_context.cpp: ShortImplicationsGraph::add", "src/shared_context.cpp: ShortImplicationsGraph::removeTrue", "src/shared_context.cpp: ShortImplicationsGraph::remove_bin", "src/shared_context.cpp: ShortImplicationsGraph::remove_tern", "src/shared_context.cpp: ShortImplicationsGraph::propagate", "src/shared_context.cpp: ShortImplicationsGraph::reverseArc", "src/solver.cpp: Solver::unitPropagate"]}
{"id": "C54", "title": "Edges that are enabled never form a cycle", "statement": "For every graph whose edges are enabled by literals, and every history of assignments, checks, new decision levels and backjumps: once nothing is queued, the enabled edges have no cycle, and with full propagation every edge that would close a cycle of enabled edges is disabled. A check terminates. Every literal it sets to false comes with a reason that was true before and that, with the literal, enables all edges of a cycle, so no solution without a cycle is lost; it fails only for an unavoidable cycle or if propagation it asked for fails. Adding edges makes every new edge checked when it becomes enabled and disables self-loops.", "quantifier": "every graph, every history of assignments, checks and backjumps, every result of the propagation in between, every sequence of added edges", "why_tests_cant": "A cycle is found or missed depending on the order in which edges become enabled and on the part of the graph two searches have visited before; tests exercise few graphs and orders.", "anchors": ["src/dependency_graph.cpp: AcyclicityCheck::propagateFixpoint", "src/dependency_graph.cpp: AcyclicityCheck::dfsForward", "src/dependency_graph.cpp: AcyclicityCheck::dfsBackward", "src/dependency_graph.cpp: AcyclicityCheck::addClauseLit", "src/dependency_graph.cpp: AcyclicityCheck::startSearch", "src/dependency_graph.cpp: ExtDepGraph::attach", "src/solver.cpp: Solver::getWatch"]}
{"id": "C55", "title": "The graph of external edges holds exactly the edges that were added", "statement": "For every history of adding edges, freezing and unfreezing the graph, and whatever order sorting leaves equal edges in: a frozen graph lists for every node exactly the edges leaving it and exactly those entering it, each as often as it was added, and reading the lists never leaves the arrays. Freezing never fails, adding fails only while the graph is frozen. As long as the generation reported by the graph is unchanged, edges keep their indices; the generation never decreases.", "quantifier": "every sequence of edges, freezes and unfreezes, every result of an unstable sort", "why_tests_cant": "Offsets of nodes are kept across incremental steps and overwritten only for nodes with new edges; a stale offset shows only for particular node numbers and orders of steps.", "anchors": ["src/dependency_graph.cpp: ExtDepGraph::addEdge", "src/dependency_graph.cpp: ExtDepGraph::update", "src/dependency_graph.cpp: ExtDepGraph::finalize", "clasp/dependency_graph.h: ExtDepGraph::fwdBegin", "clasp/dependency_graph.h: ExtDepGraph::fwdNext", "clasp/dependency_graph.h: ExtDepGraph::invBegin", "clasp/dependency_graph.h: ExtDepGraph::invNext", "clasp/dependency_graph.h: ExtDepGraph::CmpArc"]}
{"id": "C56", "title": "User-defined propagators are told about changes consistently", "statement": "For every sequence of decisions, assignments of watched literals, rounds of propagation, checks and backtracking: the changes reported to a user-defined propagator and not undone are, in order, a beginning of the watched literals that are true; what is missing belongs to the current level and is reported by the next round. Leaving a level calls undo exactly once with exactly the literals of the level that were reported, and without reported literals undo is not called unless empty calls were asked for. A level that is left right after a check is undone in that mode. No requirement or assertion of the adapter fails.", "quantifier": "every history of decisions, assignments, propagation rounds, checks and backtracking, both undo modes", "why_tests_cant": "A user's own state is only right if reports and undos match on every search path; an unmatched undo needs conflicts that arise between the assignment of a watched literal and its report.", "anchors": ["src/clingo.cpp: ClingoPropagator::registerUndo", "src/clingo.cpp: ClingoPropagator::registerUndoCheck", "src/clingo.cpp: ClingoPropagator::propagate", "src/clingo.cpp: ClingoPropagator::undoLevel", "src/clingo.cpp: ClingoPropagator::propagateFixpoint", "clasp/clingo.h: ClingoPropagatorUndo_t"]}
{"id": "C57", "title": "Solvers watch exactly the literals a user-defined propagator asked for", "statement": "For every sequence of calls that add or remove watches (for one solver or for all) or freeze literals, spread over any number of steps of an incremental search, with recording of the history enabled: a solver that takes part in every step since it exists, or is new in the current step, watches after its initialisation exactly the literals whose last call for this solver is an addition. A solver that missed steps has at least these watches. Preparing a step freezes every literal that some solver shall watch because of calls of this step, and every literal that was asked to be frozen, and no other.", "quantifier": "every sequence of calls, steps, solvers added and removed, and order of initialisation", "why_tests_cant": "Only the last of several changes of a literal is applied, after sorting, and new solvers replay a history; wrong results need particular sequences over several steps and solvers.", "anchors": ["src/clingo.cpp: ClingoPropagatorInit::addWatch", "src/clingo.cpp: ClingoPropagatorInit::removeWatch", "src/clingo.cpp: ClingoPropagatorInit::freezeLit", "src/clingo.cpp: ClingoPropagatorInit::prepare", "src/clingo.cpp: ClingoPropagatorInit::init", "src/clingo.cpp: ClingoPropagatorInit::unfreeze", "src/clingo.cpp: ClingoPropagatorInit::History::add", "src/clingo.cpp: ClingoPropagatorInit::Change"]}
