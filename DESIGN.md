# Formal model of potassco/clasp in Coq 8.16.1

Source under study: `/repo` (read as text, never built or run).
Properties: `properties.jsonl`; status per property: `MANIFEST.json`;
mutation experiments: `seeded/LOG.jsonl`.

## Layout

`rocq/theories/` is flat. For an area `X`:

* `XModel.v`  – Gallina transcription of the C++ functions; every definition
  cites the file and lines it models and names every simplification.
  No theorem about the area's properties lives here.
* `XSpec.v`   – the independent specification the theorems are stated against
  (only where the specification needs definitions of its own).
* `XProofs.v` – lemmas.
* `XThms.v`   – the property theorems only: statement, `exact lemma`,
  `Print Assumptions`, and an `Example` exhibiting a concrete non-trivial
  instance of the hypotheses.

## Trusted base

* Coq 8.16.1 kernel (`coqc`; `vm_compute` is used for concrete examples and
  refutation witnesses).
* `Print Assumptions` stands under every property theorem and prints `Closed under the
  global context` for every one of them: no axiom is used, not even of the standard library.
  (The checker also lists seven axioms of `Coq.ssr.ssrunder`; they come with loading
  `lia`'s dependencies and no theorem depends on them.)
* Only Coq's standard library is imported.
* The transcription of C++ into Gallina, done by hand from the cited lines.
* Conventions used everywhere: C++ `uint32`/`int32`/`int64` are modelled as
  `N`/`Z`; where a property is about the machine representation (bit-packing,
  wrap-around) the reduction modulo the word size is written out; elsewhere the
  theorem carries explicit range hypotheses, or the comment says that unbounded
  integers are used. Containers (`PodVector`, `LitVec`, arrays) are lists or
  functions; pointers to constraints are indices or the constraint itself.
  Loops are structural recursion, or recursion on explicit fuel where exhaustion
  is a separate outcome excluded by the theorem.

## Plan per property

| id | model | proof idea |
|----|-------|-----------|
| C01 | 32-bit `Literal` word operations on `N` with `land/lxor/shiftl` and explicit mod 2^32 | bit-level reasoning (`N.testbit`) for all v < 2^30 |
| C02 | `toLit/toInt/encodeLit/decodeLit` on `Z` with int32 range checks | case analysis + arithmetic |
| C03 | `Antecedent` 64-bit word: constructors and accessors | bit-level reasoning for all literals and aligned pointers |
| C04 | `ConstraintScore`/`ConstraintInfo` bit-fields | get/set algebra over all words, induction over update histories |
| C05 | `ValueSet` byte | get/set algebra, induction over histories |
| C06 | `lubyR` and Luby case of `ScheduleStrategy::current/next` | strong induction, against the textbook recursive definition |
| C07 | `ScheduleStrategy::next/advanceTo` over exact integers | induction on n; closed form vs. iteration |
| C08 | `WeightLitsRep::create` loop by loop (merge, cancel, flip, sort, clamp, cardinality detection) | semantic equivalence lemma per loop, composed |
| C09 | `WeightConstraint::create` with `create_eq_bound` | refutation by witness + conditional equivalence |
| C10, C11 | `WeightConstraint::propagate/reason/undoLevel` as a state machine with slack, undo stack and trail | invariants by induction over operations |
| C12 | `ClauseCreator::prepare/watchOrder/status` | induction over the literal list |
| C13 | Watch lists with `Clause::updateWatch`, `ClauseHead::propagate`, propagation queue | two-watch invariant by induction over propagation steps |
| C14, C15 | `Assignment`, `force`, `assume`, `undoUntil`, `ImpliedList` | invariants over operation sequences |
| C16-C19 | trail with levels and reasons; `analyzeConflict`, `ccMinimize`, `ccRemovable`, `finalizeConflictClause`, `resolveToCore` | loop invariants over the trail; entailment by resolution |
| C20 | transition system for `search` (decide/propagate/conflict/learn/backjump/restart/delete) | invariants by induction over arbitrary runs |
| C21 | `copyGuidingPath`/`split` | set-theoretic partition of total assignments |
| C22 | `MinimizeBuilder::prepareLevels/mergeLevels/createShared` | cost preservation per stage |
| C23, C24 | `SharedMinimizeData::imp`, `DefaultMinimize` propagation and bound management | lexicographic order lemmas, invariants over histories |
| C25, C26 | consequence finder and recording enumerator over an abstract solver that may return any not-yet-excluded model | invariants over runs |
| C27 | `indexed_priority_queue` with heap and index arrays | heap + index invariants over all operation sequences |
| C28 | byte-level `left_right_rep` (left/right offsets, realloc) | refinement to a pair of lists |
| C29 | `MultiQueue` as an interleaving transition system | invariants over all schedules |
| C30 | `PropagatorList` linked list as list | sortedness and stability by induction |
| C31 | clause-set transformations of `SatElite` and `doExtendModel` | semantic lemmas per step, reconstruction by induction over the elimination stack |
| C32-C34 | `SatBuilder`, `PBBuilder` clause/constraint construction | semantic equivalence; refutations where the code is wrong |
| C35 | `Solver::Dirty` clean-up | list filter equality |
| C36 | `reduceLinear/reduceSort/reduceSortInPlace` | multiset and protection invariants |
| C37 | `choose` with its interleaved multiplications and divisions | Pascal triangle, exactness of every division |
| C38 | `CBConsequences::QueryFinder` on top of the model of search (C20) | invariants over the sequence of queries; refutation by a concrete run |
| C39 | `DefaultUnfoundedCheck`: source pointers, queues, counters and bodies with weights | invariant of source pointers, acyclic source graph, induction over arbitrary histories of assignments, undo and checks |
| C40 | the nogoods built by `computeReason`, `addIfReason`, `assertAtom` | external bodies of an unfounded set are false; semantic argument over stable models |
| C41 | `RuleTransform` (choice, disjunction, select, split), `handleNatively`, `transformExtended`, the translating part of `addRule` | stable models of a program are compared by the reduct; auxiliary atoms are defined by acyclic rules, so they can be added and eliminated one sum at a time |
| C42 | `simplifyRule`, `simplifyNormal`, `simplifySum`, `pushHead`, `litVal`, the marks of `AtomState` | each step keeps the rule's truth under every pair (reduct candidate, model) that respects the known values |
| C43 | `finalizeDisjunctions` with the flags of components and gamma rules | induction over the ranks of components: a smaller model of the new reduct yields a smaller model of the old one |
| C44 | `SccChecker`: explicit call stack, low links kept in node identifiers | big-step lemma for one call by induction on the number of nodes not seen; invariant with ghost visit numbers and the list of open nodes |
| C45 | `addConstraints` of bodies, atoms and disjunctions on a prepared program, literals arbitrary | loop invariant for the clause of a body; completion in terms of edges, then of rules; unfounded sets as differences M minus N; a lowest component of an unfounded set |
| C46 | `addSccs` with pass 1 and 2, `addPreds`, `addHeads`, `initBody`, `initAtom`, `PrgBody::scc` | numbering is injective, adjacency lists match; unfounded sets of the graph and of the program are translated into each other per component; composition with C39, C40, C45 |
| C47 | `preprocessSimple`, `addHeadToUpper`, `addHeadsToUpper`, `propagateAtomVar`, `PrgHead::assignVar`, `PrgBody::assignVar`, `propagateSupported` | invariant of the worklist: what a body lacks is what its goals outside the closure weigh; the closure contains every answer set; shared literals mean the same; composition with C45 and C46 |
| C48 | `BacktrackFinder::doUpdate`, `doCommitModel`, `propagate`, `reason`, `Solver::backtrack`, `undoUntil`, `setBacktrackLevel` | invariant of a transition system: each reported model is contradicted by a projected literal of a level that cannot be jumped over or by a nogood still attached to one; the sibling of each such level is either done or holds the model |
| C49 | `UncoreMinimize`: `initLevel`, `pushPath`, `handleUnsat`, `addNext`, `addCore`, `addOll`, `addOllCon`, `addK`, `addPmr`, `closeCore`, `fixLit`, `fixLevel`, `pushTrim` | potential: weight of violated assumptions plus what is still hidden in cores; every step keeps "cost of a model = lower bound + potential" up to new variables (simulation with offsets, composed over the loops of each algorithm) |
| C50 | `ParallelSolve` and its `SharedData` as a transition system: threads with program points, shared flags, queue, barrier and condition variable; solvers are arbitrary but correct | invariants over all interleavings: counting of waiting threads, coverage (each solution is excluded, claimed by a thread or in the queue), disjointness of claims, what completeness means at each program point |
| C51 | `LocalDistribution` with its queues, free lists and stack of blocks as a transition system with one step per access to shared memory; reference counts; `initPeerMask` on numbers | ghost places of all nodes (free list, hand of a thread, queue, block) and links that are still missing; what is in transit is what was published and not received; references are the sum of the shares of all threads; destructor by induction on the queues; topologies by properties of exclusive or |
| C52 | the learnt blocks of all lists of a shared `ShortImplicationsGraph` as a transition system with one step per access to shared memory: first block, sizes with lock bits, cells, counters | ghost contents of a block and of the blocks after it; only the holder of the lock of a first block changes it; what a visit has seen plus what lies before it bounds what was added at its start from above and the contents from below; running alone by a measure |
| C53 | the whole `ShortImplicationsGraph` used by one thread: binary, ternary and learnt lists, counters, removal loops, visits | the lists are permutations of the entries of a list of clauses; closed forms of the removal loops; every clause has a true literal or two free ones, kept by quiet assignments; propagation to the end by an invariant on visited literals |
| C54 | `AcyclicityCheck`: queue, both searches with parents, reasons; `ExtDepGraph::attach`; tags of searches | parents of visited nodes give walks of enabled arcs; visited sets are exactly reachability; invariant of histories: enabled arcs that are not queued have no cycle, arcs that would close one are false; measure: queued arcs and arcs that are not true |
| C55 | `ExtDepGraph`: arrays of arcs and inverse arcs, offsets, generation, iteration | offsets of sorted lists are the first positions of nodes; committed part represented by its offsets, pending arcs only between new nodes, or nothing committed and stale offsets only at nodes that will be overwritten |
| C56 | `ClingoPropagator`: trail, undo marks, reported part, level; user view as a stack | trail is sorted by level and equals the true watched literals; marks correspond one to one to the levels with an undo watch, an index is the number of literals below the level; unreported literals are of the current level |
| C57 | `ClingoPropagatorInit`: list of changes, history, steps, watches of each solver | effect of a list of changes on one literal of one solver is constant or the identity, hence idempotent and monotone; stable sorting keeps it; history is the effect of earlier steps |

## What is modelled and what is not

Area prefixes are file name prefixes in `rocq/theories`. The comment above each
definition gives the lines; this list gives the boundary of each area.

| area | properties | modelled | left out |
|------|-----------|----------|----------|
| Lit | C01, C02 | `Literal` word, `toLit`, `toInt`, `encodeLit`, `decodeLit` | hashing, printing |
| Pack | C03-C05 | `Antecedent`, `ConstraintScore`, `ConstraintInfo`, `ValueSet` | 32-bit builds; pointers are words aligned to 4 |
| Sched | C06, C07, C37 | `lubyR`, `log2`, `choose`, `ScheduleStrategy` | dynamic (averaging) restarts; `double` arithmetic only in the refutation of C07 |
| Wc | C08, C09 | `WeightLitsRep::create/propagate`, `WeightConstraint::create` with all flags | sharing of weight literals between threads, memory layout |
| Wp | C10, C11 | `WeightConstraint` init, propagate, reason, undoLevel, active part | simplify, cloning |
| Cl | C12 | `ClauseCreator::prepare`, `status`, `watchOrder`, `ClauseRep` | random and "least" watch choice (a parameter) |
| Bp | C13 | unit propagation over binary/ternary implication lists, small, large and shared clauses; creation and removal at any level; root levels | contracted (compressed) clauses, other constraint classes (they appear as forced literals only), `simplify` |
| As | C14 | `Assignment`, `assume`, `force`, `undoUntil`, saved phases | front-queue of simplify |
| Im | C15 | `ImpliedList`, `force(p, level, ...)`, backtrack level, root level | see the refutation in C15 |
| Ca | C16-C19 | `analyzeConflict`, `ccMinimize`, `ccRemovable`, `ccHasReverseArc`, `finalizeConflictClause`, `resolveToCore`, lbd | on-the-fly subsumption, heuristic bumping |
| Se | C20 | `search`, `solve` rounds with restarts and deletion, `pushRoot`, `popRoot`, `addClause`, on top of Bp and Ca | post propagators, lookahead, parallel message handling; decisions and limits are arbitrary oracles |
| Gp | C21 | `copyGuidingPath`, `splittable`, `split` | message passing between threads |
| Mn, Mz, Bb | C22-C24 | `MinimizeBuilder`, `DefaultMinimize`, `SharedMinimizeData` for any number of interleaved solvers | core-guided optimisation (`UncoreMinimize`), 64-bit overflow of sums |
| Cb, Qf | C25, C38 | `CBConsequences`, `CBFinder`, `QueryFinder`, `SharedConstraint` | statistics, output |
| En | C26 | `RecordFinder`, `EnumerationConstraint::update`, loop of `SequentialSolve` | parallel enumeration; `BacktrackFinder` is C48 |
| Iq, Pl | C27, C30 | `indexed_priority_queue`, `PropagatorList` | memory management |
| Sb, Pb | C32-C34 | `SatBuilder`, `PBBuilder` | the parsers in front of them; the solver behind is any sound propagation |
| Dw | C35 | `Solver::Dirty`, `removeWatch`, `removeUndoWatch` | |
| Rd | C36 | `reduceLearnts` with all algorithms | float computation of the number to remove (parameter) |
| Lr | C28 | `left_right_rep`, `left_right_sequence`: bytes, inline and heap buffers, 31/32-bit members, several objects | references into the container as arguments of push, failing allocation |
| El | C31 | `SatElite` and `SatPreprocessor`: clause store with the memory behind shrunk clauses, occurrence and watch lists, marks, subsumption queue, backward subsumption, self-subsumption, `subsumed`, resolution, variable elimination, blocked clauses, the stack of removed clauses, `doExtendModel`, `extendModel` | choice of the next variable (heap) and of limits: any script; other constraints: any set of assignments over frozen variables with any sound propagation; counters and statistics; termination (fuel) |
| Mq | C29 | `MultiQueue` with its free list: every access to a shared variable is a step, any number of threads | `pop`, `hasItems`, weak memory (the code uses `seq_cst`), failing allocation |
| Uf | C39, C40 | `DefaultUnfoundedCheck` for normal, weighted and extended bodies | disjunctive heads and minimality check, incremental graphs, `LoopFormula` objects |
| Lp, Rt | C41 | extended rules and their translation in every mode | reuse of auxiliary atoms after an exception, the later translation of modes scc, nhcf and integ, theory atoms |
| Sr | C42 | simplification of rules and what is learned from facts and integrity constraints | propagation through existing bodies, equivalences, externals, hashes of bodies |
| Ds | C43 | splitting of disjunctions by components | merging of supports (`getEqAtomLit`), simplification of the new rules, numbering of non-HCF components |
| Tj | C44 | component search (Tarjan) and its use for C43 | `sccAtoms`, the tests of `doVisit`, sharing of bodies and disjunctions between rules |
| Cp | C45 | completion constraints of a prepared program | choice of literals, merged or removed nodes, incremental step literals, freezing, the dependency graph (Uf) |
| Dg | C46 | dependency graph from a prepared program | disjunctions, non-HCF components, further steps, freezing |
| Vs | C47 | simple preprocessing | disjunctions, equivalences, simplification and value propagation on the way, later steps |
| Bk | C48 | `BacktrackFinder` with the backtrack level of the solver | minimize constraint, splitting, `simplify` of projection nogoods at level 0, auxiliary variables |
| Uc | C49 | `UncoreMinimize` in mode optimize | parallel solving, mode enumOpt/enumerate, the table of cores with its free list, simplification of closed constraints, what the search does to find cores |
| Ps | C50 | `ParallelSolve`: `solveParallel`, `requestWork`, `terminate`, `waitOnSync`, `initQueue`, `commitModel`, `commitUnsat`, `requestRestart`, `exception`, `SharedData` | exchange of nogoods (C29), generator, statistics, winner, weak memory (the atomics of the code are sequentially consistent), when splits and restarts are requested |
| Ld | C51 | `LocalDistribution`, `MPSCPtrQueue`, `LockFreeStack::push`, `SharedLiterals::release`, `Solver::distribute` (references only), `initPeerMask` | contents of nogoods, policy of what is distributed (C29), weak memory, failing allocation |
| Ig | C52 | `ShortImplicationsGraph::add` (shared), `addLearnt`, `hasLearnt`, `Block::tryLock`, `Block::addUnlock`, `forEach` over learnt blocks | weak memory, failing allocation, what visitors do |
| Bt | C53 | `ShortImplicationsGraph::add`, `remove_bin`, `remove_tern`, `removeTrue`, `simplifyLearnt`, `forEach`, `propagate`, `reverseArc`; `Solver::unitPropagate` for short clauses | list layout, order of erased entries, other constraints in `unitPropagate`, `propagateBin` |
| Ac | C54 | `AcyclicityCheck::propagateFixpoint`, `dfsForward`, `dfsBackward`, `addClauseLit`, `startSearch`, `propagate`; `ExtDepGraph::attach`, `Solver::getWatch` | `detach`, `ReasonStore` lookup, finalizeConflictClause on the learnt clause, tags inside the searches |
| Eg | C55 | `ExtDepGraph::addEdge`, `update`, `finalize`, `fwdBegin`, `fwdNext`, `invBegin`, `invNext`, `CmpArc` | std::sort (any ordered permutation), freezing of variables, 32-bit node ids |
| Un | C56 | `ClingoPropagator::registerUndo`, `registerUndoCheck`, `propagate`, `undoLevel`, one round of `propagateFixpoint` | locks, epoch, front, clauses of the user, `isModel` |
| Pw | C57 | `ClingoPropagatorInit::addWatch`, `removeWatch`, `freezeLit`, `prepare`, `init`, `unfreeze`, `History::add`, `Change` | disabling the history, watches changed during search, changes after the first initialisation of a step |

## Findings

Places where the code as written does not have the property a reader would expect.
Each one marked (T) is a theorem with suffix `_refuted`.

* (T) C06: `lubyR` returns 0 for the last two 32-bit indices.
* (T) C07: `advanceTo` computes in `double` and is wrong for lengths from about 2^25.
* (T) C08: merging literals and dividing the bound in `WeightLitsRep::create` can overflow 32 bits.
* (T) C09: `create_eq_bound` divides a bound without checking the remainder: the hard equality
  `2a+2b=3` accepts exactly one true literal; with an unassigned W an equality excludes "W false".
* (T) C12: `prepare` without forced simplification returns `[a]` for `{a,a,b}`;
  the watch order documented in clause.h:203-208 is not the one implemented for true literals.
* (T) C15: above a projective backtrack level `backtrack()` leaves stale implied entries.
* (T) C16, C19: replacing a learnt clause by the decision sequence, and cores, are wrong if a decision
  was flipped without a reason.
* (T) C20: a heuristic that returns a false literal makes search report an incomplete model.
* (T) C21: decisions alone (without flipped literals) hand over already visited parts.
* (T) C24: a multi-level user bound with hierarchical stepping declares a non-optimal model optimal; a bound
  component below the lower bound stops at once; an interrupted read of a step-less solver stops too early;
  cost differences that are multiples of 2^32 give step size 0; an unsatisfiable user bound with
  hierarchical stepping loops.
* (T) C27: changing the priority of a queued key without telling the queue leaves a wrong top.
* (T) C31: with blocked clauses on the stack, a second `extendModel` call for the same model (next combination of
  unconstrained eliminated variables) may return a non-model. clasp avoids it: `preserveModels` disables the technique
  when more than one model is wanted.
* (T) C31: after blocked clause elimination, a clause added in a later step over variables that were not eliminated can be
  broken by `extendModel`. `SatPreprocessor` itself does not guard against this: `freezeSeen` freezes variables for
  elimination, but clauses already on the stack stay blocked on them. Incremental logic programs freeze all atoms before
  the first step, so the case needs direct use of `SharedContext` with `sat-prepro` level 2 or more and one model.
* C31: `Clause::simplify` keeps clauses of one literal in the clause list; strengthening such a clause reads the literal
  behind its end and leaves a live empty clause, found only when clauses are handed over. The model keeps that memory, the
  theorems cover the case.
* (T) C28: the 31-bit capacity of `left_right_sequence` overflows beyond 1431655775 bytes.
* (T) C30: `PropagatorList::add` does not detect that the last member is added again.
* (T) C33: `PBBuilder` keeps its products over `startProgram`.
* (T) C34: soft constraints over one literal ignore the equality flag and cost although they are satisfied
  for bounds <= 0; soft equalities exclude assignments.
* (T) C35: deferred clean-up removes all watches of a constraint in dirty lists even if one was requested.
* (T) C38: `QueryFinder::selectOpen` can pick a query that is already implied but not propagated, and
  a true cautious consequence is lost.
* (T) C41: `RuleTransform::transform` throws on a sum with a negative bound although its body is true; shifting a
  disjunction in place loses answer sets (`a|b. a:-b. b:-a.`).
* (T) C42: `simplifyNormal` and `simplifySum` leave the flags of the active rule set when a check throws in the
  middle of a rule; if the program object is used further, the next rule loses body literals.
* `PrgBody::scc` looks up the component of a head in a 64 bit mask of the components of the positive subgoals, and
  compares exactly only if a subgoal has a component above 63. A head with a component above 63 could thus be mistaken
  for one in the component of a subgoal below 64. It cannot happen within one step, because components are numbered
  against the dependencies (c44_numbers_follow_dependencies, hypothesis gi_order of C46).
* `UncoreMinimize::initLevel` (/repo/src/minimize_constraint.cpp:864-911): a level without open literals whose cost is strictly below its bound is passed over, but the next level still starts with its own bound. With lexicographic bounds of the user (5, 0) and costs (0, 1) the search ends without the model (`c49_user_bounds_refuted`).
* `UncoreMinimize::addOllCon` (/repo/src/minimize_constraint.cpp:1355): `(1-B)*weight` multiplies two `int32`; with weight 2^30 and four literals of a core true on level 0 it is 2^31 (`c49_raise_overflow_refuted`). From reading: `lower_ - upper_` and `upper_ - lower_` (minimize_constraint.h:549, minimize_constraint.cpp:965) overflow when a level with negative weights is reached while its bound is still the maximum.
* `ParallelSolve::requestWork` (/repo/src/parallel_solve.cpp:511-531): the check for a synchronisation is made again after `SharedData::requestWork` returned no work. A thread woken by a restart request returns no work because of the request; if the last thread clears the request in between, the first one calls `terminate(complete)` (`c50_restart_race_refuted`).
* `restart_abandoned_flag` (/repo/src/parallel_solve.cpp:577-592) is set and cleared by the last thread before the others wake up, so it has no effect. If the first model of an enumeration by backtracking forbids restarts while one is requested, the queue is not initialised but all threads give up their paths (`c50_restart_abandoned_refuted`).
* `terminate` (/repo/src/parallel_solve.cpp:537-552) sets `complete_flag` together with `sync_flag` when the optimum is known; a limit or interrupt before the synchronisation ends the search with the flag set (`c50_tentative_limit_refuted`).
* `exception` (/repo/src/parallel_solve.cpp:474-489): a thread out of memory pushes its path again, also when it has reported models of it by backtracking (`c50_memory_refuted`). From reading: the initial path, which is not owned, can be pushed and would be deleted by `clearQueue`; `clearQueue` runs without workM; after a stop conflict of a restart `DefaultMinimize::handleUnsat` commits a lower bound that was not proved; the local variable `a` of `requestWork` survives a synchronisation.
* `MPSCPtrQueue::push` (/repo/clasp/util/multi_queue.h:236-240) exchanges the head and then links: a thread stopped in between hides everything pushed after it, so `receive` can find nothing although nogoods of returned `publish` calls are waiting (`c51_empty_refuted`). They arrive once the thread goes on.
* `ShortImplicationsGraph::add` (/repo/src/shared_context.cpp:217-248) of a shared graph tests and adds in separate steps and adds to one list after the other: two threads can add the same clause (`c52_once_refuted`), and an addition can be refused because of a clause that is visible for one of its literals only (`c52_refused_visible_refuted`). Its counter (243) is a plain integer incremented by all threads (a data race); increments get lost even if every access is atomic (`c52_count_refuted`).
* `ShortImplicationsGraph::removeTrue` (/repo/src/shared_context.cpp:285-293) calls `simplifyLearnt` for lists of other literals, which drops all entries with a true literal, also those of clauses with another true literal that has not been removed yet. When that literal is removed, the clause is no longer found: it is not subtracted from the number of learnt clauses (`c53_learnt_count_refuted`) and its entry for a free literal stays (`c53_clean_learnt_refuted`). Harmless for results.
* `ExtDepGraph::attach` (/repo/src/dependency_graph.cpp:838-864), called again after edges between old nodes were added (incremental solving), reuses the watch that `getWatch` finds for the literal of an arc. `getWatch` returns the first one, so arcs with the same literal set the same watch one after the other and only the last keeps it. With three old arcs and three new arcs of one literal, two of which form a cycle, the cycle is never queued: the check passes although enabled edges are cyclic (`c54_attach_refuted`). Without shared literals, or when arcs are only appended, attach is right (`c54_reattach`, `c54_attach`).
* `c56_always_refuted`: clingo.h:68 promises, for undo mode Always, a call of undo on every level that was propagated or checked. If a watched literal becomes true after a check (for example through a clause added by the check) and a conflict arises before it is reported, `registerUndo` has replaced the mark of the check by an index, `prop_ > beg` is false and undo is not called.
* `c57_exact_refuted`: `ClingoPropagatorInit::init` brings a solver that missed steps up to date by adding the watches of the history; a watch that was removed in a missed step stays. (From reading: a solver other than the master misses a step that is prepared but not solved.)
* Not theorems, from reading: `bumpLbd(0)` makes a lbd unknown; `setActivity` and `setLbd` clear the bumped
  flag; `force(ImpliedLiteral)` can put a reason on an assumption; the tag check of conflict analysis skips the
  first literal; calling `assume` twice without propagation in between can miss consequences after
  backtracking (API contract); pushing an element of a `left_right_sequence` onto itself reads freed memory
  when the container grows.
