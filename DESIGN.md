# Formal model of pandaPIengine in Rocq (Coq 8.16.1)

## 1. What is here

* `properties.jsonl` – the semantic properties (C01, C02, ...).
* `rocq/theories/` – the model and the proofs. Every topic `T` consists of up to four files:
  * `T_model.v` – executable Gallina model of the C++ code, every definition citing file and lines in `/repo`;
  * `T_spec.v` – a small specification written without using the model's helper functions;
  * `T_proof.v` – lemmas and proofs;
  * `T_thm.v` – only the property theorems (each closed by `exact`), the non-vacuity `Example`s beside
    them, and `Print Assumptions`.
* `MANIFEST.json` – property -> theorem names and status.
* `seeded/LOG.jsonl` – record of the mutation experiments (section 6).

## 2. Modelling conventions

* `int` values are modelled by `nat`/`Z`/`N` without wrap-around unless the comment on a definition says otherwise.
  Places where the C++ code overflows or shifts by the word size are made explicit (distinct outcome or `mod 2^64`).
* Heap objects: where sharing matters (plan steps, search nodes) there is an explicit heap; elsewhere a mutated
  object becomes a function returning the new value.
* Array reads or writes outside the allocated range, null dereference, and uninitialised reads are undefined behaviour in
  C++. They become a distinct outcome (`None`, `UB`), never a default value that hides the error. Theorems either
  prove the outcome does not occur or state the guard.
* Loops are structural recursion or folds. Loops without an obvious bound use fuel with a distinct
  out-of-fuel outcome, and the theorem proves that the fuel given suffices.
* `std::set`/`std::map`/`unordered_set` are modelled by lists or functions with the same membership semantics; where iteration
  order is unspecified the theorem quantifies over it or does not depend on it.
* Timing, printing, memory exhaustion, threads and the SAT/FD/CPLEX back ends are not modelled.
* If the faithful model violates a property, the theorem is `..._refuted : exists ...` with a concrete witness,
  and beside it stands the strongest positive statement that holds (with the missing hypothesis explicit).

## 3. Models and proof ideas

The plan was written before the proofs; the table follows the files as they are now.

| properties | files | proof idea |
|----|-------|-----------|
| C01-C07, C10, C11, C52 | `Htn_problem.v` (grounded problem), `Htn_model.v`: heap of plan steps, search nodes, `apply`, `decompose`, `isApplicable`, `isGoal`, eager progression, expansion step, search loop over an abstract fringe/heuristic/choice oracle. `Htn_spec.v`: textbook HTN semantics – task networks over path-shaped ids, decomposition relation, executability of a linearisation, solution. `Htn_check.v`: decidable well-formedness for the examples. | Abstraction relation node -> task network; each successor operation is a simulation step in both directions; commutation lemmas for decompositions; invariant over all nodes of a search; completeness by induction on the witness. |
| C54, C55 | `Tree_*.v`: printed decomposition | invariant of the solution steps of every node |
| C08, C18, C88 | `Tab_*.v`: merge loops on sorted arrays, tables of the model | loop invariants, then induction over histories |
| C09, C98-C101 | `Mem_*.v`: stores with reference counters and freed cells, recursive destructors, the search with deletions | invariant counter = number of references; acyclicity; lockstep with `Htn_model` |
| C12-C14, C53 | `Order_*.v`: Warshall loop, reduction, DFS order, flags | loop invariants; well-founded induction |
| C15, C16, C50, C57 | `Scc_*.v`, `Reach_*.v`, `ReachHeap_proof.v` | Tarjan invariant (white paths); queue invariant; closure over the component graph |
| C17, C84, C85 | `Mix_*.v`: minimal implied values | invariant of the work list; induction on refinement trees |
| C19, C20, C87 | `Read_*.v`: reader on the characters of the file | induction over the description |
| C21 | `Heap_*.v` | heap order and permutation over all operation sequences |
| C22-C28 | `IntSet_model.v`, `NoDel_*`, `BInt_thm`, `Bucket_thm`, `DelIter_thm`, `Stack_thm`, `IntUtil_*` | refinement to lists/sets over all operation sequences |
| C29-C32, C60-C62 | `Trie_*.v`, `Vis_*.v`, `VisTop_proof.v`, `VisOrd_proof.v` | bit-level lemmas with `N.testbit`; trie = finite map on bit strings; separators |
| C33 | `Fringe_*.v` | deque refinement with chained containers; strict weak order |
| C63-C66 | `Astar_*.v` | A* invariant: a node on a cheapest path is in the fringe; visited lists |
| C34, C35, C37, C38, C56, C58, C59 | `Relax_*.v`, `Dij.v`, `Aff_proof.v`, `FF_proof.v`, `HMax_proof.v`, `LmCut_proof.v`, `Rc_*.v` | Dijkstra-style exploration invariants; cuts are disjunctive landmarks; cost partitioning; simulation of HTN refinement in the relaxed-composition model |
| C36, C89-C92 | `Pg_*.v` | invariant of the queue loop |
| C49, C93-C97 | `Lm_*.v` | post-fixpoint implies landmark by induction on derivations; work-list invariant; greatest fixpoint |
| C39, C40, C71, C72 | `Inv_*.v` | kept clauses are preserved by every action; induction over executions |
| C41, C42, C67 | `Sat_*.v`: at-most-one and at-most-k clauses | models in both directions |
| C43-C45, C68 | `Sf_*.v`: state formula, blocks, leaf pruning | model <-> execution by induction over time steps |
| C46, C47 | `To_spec.v`, `To_sem.v`, `Sog_*.v` | optimality of the dynamic programme; reachability in acyclic graphs |
| C69, C70 | `Pdt_*.v`: whole SAT pipeline for totally ordered problems | tree expansion invariant; model <-> decomposition |
| C73-C75 | `Mx_*.v`: the default configuration with mutex clauses and h2 pruning | clauses follow from invariants |
| C48, C76-C79 | `Posog_*.v`: merging of partially ordered methods | embedding invariant; order of leafs by paths |
| C80-C83 | `Pom_*.v`: matching formula of the partial order encoding | models <-> placements |
| C51, C86 | `Comb_*.v` | rank of a combination in lexicographic order |
| C102-C111 | `Sas_*.v`: translation of totally ordered problems to SAS+ | representation of state and stack; every operator simulates its tasks, both directions |
| C112-C113 | `Hddl_*.v`: decomposition tree printed for a translated plan | stack machine; rows found by task and stack position |
| C114-C121 | `Push_*.v`: translation of partially ordered problems with conditional effects | configurations of positions as task networks up to isomorphism; compaction by moves; FD variables simulate positions |
| C122 | `Pout_*.v`: the decomposition printed for plans with moves | refuted by evaluation on one plan of the written task |
| C123-C129 | `Strips_*.v`: translation of partially ordered problems without conditional effects, enumeration of choices | Pascal's triangle; networks of positions up to isomorphism; decomposition in place of a last task; the first free positions always suffice |
| C130-C136 | `Pseq_*.v`: translation with parallel sequences | rows of tasks as task networks; weakening of orderings; constraints between rows as variables |
| C137-C146 | `Pgb_*.v`: first bound of the translation, search over bounds | growing values below every refinement; bounded stack machine; weight of the queue loop; planner with a contract |
| C147, C148 | `Spr_*.v`: output of the SAT planner for totally ordered problems | numbered trees: subtrees <-> printed lines; induction over the path decomposition tree |
| C149-C151 | `Bdd_*.v`: variables, states, transition relations of the symbolic planner | BDDs as Boolean functions of valuations; layout of the variables; sorted effects |
| C152-C157 | `Aut_*.v`: the search of the symbolic planner (`build_automaton`) | edges of the automaton as sets of pairs of states; invariant: every pair on an edge, every epsilon entry and every queue entry is justified by a partial derivation within its costs; induction over layers |
| C158-C161 | `Pp_*.v`: whole SAT pipeline for partially ordered problems (tree with merged orders, leaf graph, matching, search over depths, printed plan) | the tree invariants of `Pdt_*.v` for another way to order subtasks; order of the leafs contains the order of the decomposition; an order of the actions plus a decomposition tree is a solution |
| C162-C164 | `Pc_*.v`: no new code; completeness of the pipeline of C158 under the condition that excludes the second refutation of C161 (`exact_merges`; effects of the actions exclude the first) | every solution has a decomposition tree with an order; the tree is followed through the rounds of the expansion; leafs the order of the merged graph relates are related by the tree; the chosen leafs give an assignment of the matching |
| C165-C168 | `Loc_*.v`: recursive local landmarks (traversal of the plan steps, intersection over methods, rounds) | position of copies in the stack bounds the traversal; fixpoint invariant of the rounds; induction on decompositions |
| C169-C176 | `Opt_*.v`: cost clauses, cost bound, optimisation loop of the SAT planner (totally ordered) | cost variables count the rounded cost because every leaf has at most one true action; loop invariant (last bound = cost of a printed plan - 1); measure depth + bound |
| C177-C184 | `Leaf_*.v`: the option methodPreconditionsInSeparateLeafs (compact SOG, selection of a child for inherited actions, one depth and the loop of the totally ordered planner) | kind of a vertex = mark of the vertex; purity as invariant of the expansion; the expansion is generic in the choice of the child (`expand_pick`), the partial choice is extended to a total one |
| C185-C192 | `Dof_*.v`: the delete- and ordering-free ILP heuristic (`hhDOfree.cpp`): the program of a node as variables with bounds, objective and linear constraints; the solver is specified by feasibility and optimality over the rationals | assignment of a solution: first achievers, number of different actions before the first use as times, balance of tasks under decomposition; relaxed plan by induction on the times; exact tables of producers and consumers |
| C193-C196 | `Tdg_*.v`: the constraints of the same program against disconnected cycles (`hhDOfree.cpp`, cTdgFull), on the components of `Scc_model.v`: layers R and I as further variables | connectedness by induction on the layers and along the predecessors of the components; the assignment of a solution sets a layer to the uses of the tasks that the used methods reach within as many steps, and as many steps as the component has tasks less one suffice |
| C197-C200, C206 | `Imp_*.v`: the implications between elements and their landmarks in the same program (`hhDOfree.cpp`, cAndOrLmsFull) and the iterator of `LmCausal.cpp`, on the landmark tables of `Lm_model.v` | every task, method and fact of a solution has a derivation that consists of elements of the solution, hence all its landmarks occur; exactness of the tables from C94 |
| C201-C205 | `Arg_*.v`: the arguments of the heuristics, `SearchEngine.cpp` 48-98 and 280-406: words of a stream, assignments to a map, options, table of heuristics | what is written is read (induction over the arguments, last value wins); keys and positions do not clash; invariant of the table: one object for each class of equal specifications |
| C207-C208 | `Bfs_thm.v`: breadth-first and depth-first search as options of `Astar_model.v` | states of the loop as a relation that the loop follows; every entry of the queue has the f value of its node; successors are deeper |
| C209 | `Tbl_thm.v`: the table of `Arg_model.v` in the search of `Astar_model.v` | `arg_objects` and `eval_hs_exact`: an address determines the function; induction over the heuristics with the addresses so far |

Not expressible in the model (no property is claimed about them): wall-clock limits, memory limits, the
behaviour of external solvers, the text printed besides the plan, thread scheduling of the (unused) interleaving SAT mode.

## 4. Trusted base

* Coq's kernel (8.16.1) and the `vm_compute` machine used for the concrete witnesses.
* `Print Assumptions` stands below every property theorem (in the `T_thm.v` files); each prints "Closed under the global context".
  No axiom is used, neither of the standard library nor of our own. (The seven names
  `Coq.ssr.ssrunder.Under_rel.*` reported when the whole context is listed belong to the standard library file loaded with
  `ssr`; no theorem depends on them.)
* The reading of the C++ code. The code was not executed; the only tie is the citation at every definition.
* External components appear as parameters or as quantified relations, never as axioms:
  * the SAT solver: theorems speak about every satisfying assignment of the clauses, or their non-existence;
  * the classical planner behind the translation: for the search over bounds a function with the contract `complete_planner`; elsewhere theorems speak about every plan of the written task (semantics: `Sas_spec.v`, `Push_spec.v`, `Strips_spec.v`);
  * `log` in the cost optimisation: an arbitrary cost table, in `true_costs_refuted` a function with truncated values ln 1 = 0, ln 7 = 1;
  * `log`/`ceil` of doubles in the at-most-one encoding: a number of bits with the contract `n <= 2^bits`;
  * heuristics and the order of equal elements in priority queues: arbitrary functions, or relations with the contract stated in the theorem;
  * hash values: arbitrary functions;
  * contents of uninitialised memory: quantified, or reading it is undefined behaviour.

Modelled parts of `/repo/src`: `SearchEngine.cpp` (arguments of the heuristics), `Model.cpp` (reader, tables, flags, `apply`, `decompose`, components, minimal implied values, contained
tasks), `ProgressionNetwork.*`, `search/*`, `VisitedList.cpp` (hashing, encoding of state and network, topological order, isomorphism check),
`intDataStructures/*` (both sequence sets, heap, stacks, sets, utilities), `heuristics/planningGraph.cpp`, `heuristics/rcHeuristics`
(RC model, `hsAddFF`, `hsLmCut`, `hsFilter`, `hhRC2.h`), `heuristics/dofHeuristics/hhDOfree.cpp` (see below), `heuristics/landmarks/lmExtraction/LmCausal.cpp`, `Invariants.cpp`, `sat/*` (except as
listed below), `translation/htnToSAS.cpp` (SAS+ conversion, totally ordered, push, `postrips` and parallel sequence encoding, output, printed actions and decompositions, combinations, first bound), `translation/translationController.cpp` (search over bounds), `symbolic_search/sym_variables.cpp` and `transition_relation.cpp`, `build_automaton` in `symbolic_search/automaton.cpp` (1145-1777).

Not modelled: `interactivePlanner.*`, `Debug.*`, option parsing (except for the heuristics) and output in `SearchEngine.cpp`, in `symbolic_search/`: the BDD library itself (relations between states are modelled as lists of pairs of bit vectors), plan extraction in `automaton.cpp` (lines 1-1144), merging of transition relations,
`heuristics/dofHeuristics`: `hhStatisticsCollector.*`, in `hhDOfree.cpp` external landmarks and the calls of CPLEX, `hhLMCount.*`, `LmFdConnector.*`, `LMsInAndOrGraphs.cpp` except the local landmarks (its AND/OR landmarks are superseded by `LmCausal.cpp` and used only in commented-out code), `hhRC.h` (replaced by `hhRC2.h`),
`hsAddFF-2`, `IntPairHeap-2` (unused alternatives), `StringUtil`; in `sat/`: the cost bound for partially ordered problems, time
limits and interleaving in `sat_planner.cpp`, `disabling_graph.cpp` beyond the graph used for blocks, the
option methodPreconditionsInSeparateLeafs together with the ladder encoding, mutexes or cost bounds;
in `translation/`: the encoding `htnToCond` (never called), the call of the external planner (`onlyGenerate`: the program then ends with an error, because no plan file exists).

General simplifications (besides those in the comments): unbounded numbers unless stated; names are numbers; text output is structured
data; lists instead of `std::set` with the same membership.

## 5. Findings

Disagreements between the code and a property. Each one is a theorem `..._refuted` (its concrete witness can be traced through the code).
In the manifest such properties have the status `not_applicable`, because the property does not hold; the note says so and the
neighbouring properties state what does hold.

| property | theorem | finding |
|---|---|---|
| C12 | `reduction_cyclic_refuted` | the reduction of cyclic orderings (not rejected by the reader) loses pairs |
| C14, C62 | `parallel_flag_refuted`, `visited_sequences_refuted` | `isParallelSequences` is kept for an initial method with joins; the visited list then reports a solvable problem as unsolvable |
| C20 | `conditional_effects_refuted` | conditional effects are read and ignored |
| C21 | `heap_size_zero_refuted`, `heap_pop_empty_refuted` | heap of initial size 0 (reachable in LmCausal with fewer than four nodes) |
| C23 | `intersection_refuted`, `intersection_out_of_bounds_refuted` | inverted bound test: the intersection is empty or reads outside |
| C24, C25, C27 | `bintset_erase_unsorted_refuted`, `bucket_erase_while_iterating_refuted`, `flexstack_size_zero_refuted`, `intstack_full_refuted` | containers outside their contract |
| C26 | `delIter_refuted`, `delIter_delete_refuted` | iteration stops after the first element |
| C30 | `trie_defined_refuted` | shift by 64 bits |
| C32 | `visited_partial_refuted` | default options, depth first search: a solvable partially ordered problem is reported unsolvable |
| C33 | `empty_assert_refuted` | an assertion of the fringe that does not hold (inactive in release builds) |
| C35, C38 | `unreachable_exact_precless_refuted`, `lmcut_precless_refuted` | operators without preconditions are not handled (the relaxed-composition model never contains one, `rc_model_wf`) |
| C48 | `merged_order_cyclic_refuted`, `merged_order_spurious_refuted` | merging three partially ordered methods gives a cyclic graph, or orders unordered subtasks |
| C56 | `ff_stack_refuted` | the stack of the plan extraction overflows |
| C61 | `visited_defined_refuted` | reads outside without hash values of the network |
| C66 | `astar_visited_optimal_refuted` | reopening compares f, not costs: not optimal for path-dependent admissible heuristics |
| C67 | `at_most_minus_one_refuted` | a bound of -1 restricts nothing |
| C68 | `overlapping_effects_refuted` | SAT: an action that adds and deletes a fact can never be chosen |
| C71, C72 | `rintanen_conflict_refuted`, `resolution_iterator_refuted` | invariants wrong for such actions; a set is changed while it is iterated |
| C75 | `h2_without_mutexes_refuted` | null pointers with h2 pruning and no mutexes |
| C83 | `po_shared_position_refuted`, `po_no_position_left_refuted` | partial order SAT encoding: leafs without effects share positions; unsound and incomplete |
| C84, C85 | `minimal_implied_overflow_refuted`, `minimal_implied_recursion_refuted` | overflow for unrefinable tasks; value 0 under recursion |
| C86 | `bin_overflow_refuted` | product overflows before the saturation test |
| C92 | `pg_exact_refuted` | effects of actions without preconditions are queued unconditionally and counted twice |
| C97 | `lm_copy_refuted` | landmarks of an underivable goal: reads beyond an empty container |
| C101 | `best_readable_refuted` | continued search deletes the node of the best solution |
| C106, C111 | `any_listing_refuted`, `reorder_permutes_refuted` | `reorderTasks` applies the inverse permutation, and loses subtasks of partial orders |
| C107, C113 | `all_printed_refuted`, `any_hddl_refuted` | operators written for inapplicable leading tasks are always applicable and their tasks are printed |
| C108 | `any_initial_refuted` | the search for the variable of an initial fact stops at `s0Size` |
| C109 | `any_leading_refuted` | only the first precondition of merged tasks on a variable is kept |
| C110 | `any_effects_refuted` | deleting wins over adding in the written task |
| C118, C119 | `any_memory_defined_refuted`, `any_memory_sound_refuted` | push encoding: two conditional effects of every move operator are written without being initialised |
| C120 | `any_po_listing_refuted` | push encoding: `reorderTasks` loses subtasks unless the last two are ordered |
| C121 | `pocond_sound_refuted` | encoding `pocond`: conditional effects, and with them all orderings, are not written |
| C122 | `any_push_tree_refuted` | default encoding: `subHeadsFixed` is set only by primitive lines, so a later move also changes the recorded place of a task already decomposed; its number is printed as -1 |
| C128 | `any_last_sound_refuted` | encoding `postrips`: `hasNoLastTask` tests the rewritten indices for a unique *first* subtask; the last subtask then takes the place of the decomposed task and later tasks do not wait for the others |
| C129 | `strips_same_cost_refuted` | encoding `postrips`: operators for empty tasks are written with the cost of the first action |
| C134 | `any_width_sound_refuted` | parallel sequences: the number of sequences is that of the first method of the initial task; other methods of it lose subtasks |
| C135 | `any_init_complete_refuted` | parallel sequences: methods of the initial task can be applied once only, although it may be a subtask |
| C136 | `any_order_complete_refuted` | parallel sequences (forced): partially ordered methods are executed in the order of their listing only |
| C143 | `always_defined_refuted` | first bound: the value of a recursive task without refinement grows until int overflows |
| C144 | `always_attained_refuted` | first bound: too small for recursive tasks (only costs iterations) |
| C145 | `po_bound_lower_refuted` | first bound: not a lower bound for partially ordered problems, whose unordered subtasks are assumed to be carried out in the order of their listing |
| C146 | `search_always_ends_refuted` | `--pgbsteps 0` is accepted and the search does not end |
| C148 | `listing_order_refuted` | the lines printed by the SAT planner list subtasks in execution order, not in the order of the method |
| C151 | `add_and_delete_refuted`, `missing_value_refuted` | symbolic planner: an action that adds and deletes the same single-fact variable deletes it; a variable without initial fact gets its second fact |
| C153 | `symbolic_defined_refuted` | symbolic planner: the last element of an empty map is read on a solvable problem (line 1309) |
| C154 | `symbolic_complete_refuted` | symbolic planner: a solvable problem is reported unsolvable |
| C155 | `symbolic_optimal_refuted` | symbolic planner: reported costs 5, optimal costs 4 |
| C156 | `symbolic_nonempty_refuted` | symbolic planner: stops with "state attached to edge is empty" on a solvable problem |
| C157 | `symbolic_any_listing_refuted` | symbolic planner: ordering 1 before 0 is executed as 0 before 1 (condition in line 1199 is never true) |
| C160 | `po_planner_effectless_refuted` | SAT planner, partially ordered: returns a plan for a problem without solutions (action without effects) |
| C161 | `po_planner_no_position_refuted`, `po_planner_spurious_order_refuted` | SAT planner, partially ordered: never finds a plan although there is a solution (no position for an action without effects; orders of one method imposed on another); C162 gives conditions that exclude this |
| C168 | `local_complete_refuted` | local landmarks: tasks below different subtasks of different methods are not found (limit of the approach, no defect) |
| C174 | `cost_bound_refuted`, `cheaper_next_refuted` | optimising SAT planner: with the initial unit 1000 actions that cost less count 0, so the next plan may be more expensive; after a free plan the bound -1 excludes nothing |
| C175 | `finer_unit_refuted` | optimising SAT planner: `depth + 15 < lastImprovedDepth` never holds, the fallback to unit 1 is dead code |
| C176 | `true_costs_refuted` | optimising SAT planner: it minimises the sum of 1 + log(cost), not the cost |
| C182 | `separate_leafs_read_refuted` | separate leaves: `numAdds[itsFirst]` is read for the first task of a child even if it is abstract (out of bounds), on a solvable totally ordered problem |
| C184 | `selection_exit_refuted` | separate leaves, partially ordered: "no proper child selectable" ends the program on a solvable problem |
| C190 | `dof_rejects_unsolvable_refuted` | `hhDOfree.cpp` 566: the constant 100 in "100 UF_p >= UA_a" makes the program infeasible if a plan needs an action with an initially false precondition more than 100 times; the initial node is then UNREACHABLE |
| C196 | `tdg_rejects_unsolvable_refuted` | `hhDOfree.cpp` 773: the constant 100 in "UA_t <= 100 R_t" and the set of incoming methods, which counts a method once however often it contains the task: if a method contains a recursive task 101 times, the program is infeasible and the initial node is UNREACHABLE |
| C200 | `imp_rejects_unsolvable_refuted` | `hhDOfree.h` 137: largeC = 100 bounds the uses of an element by 100 times the uses of each of its landmarks; a plan with 128 uses of an action and one use of the achiever of its precondition is excluded |
| C203 | `arg_pg_relaxed_refuted` | `SearchEngine.cpp` 375 tests `tdg_string` instead of `pg_string`: `dof(pg=relaxed)` uses no planning graph constraints, `tdg=relaxed` switches them on |
| C205 | `arg_equals_refuted` | `SearchEngine.cpp` 83-92: equals signs become white space, only the number of words is tested, hence `h==lmc` is accepted (also, the last character of the string is dropped whatever it is: `rc2(lmc` uses FF) |

Further observations made while reading, without a theorem: a node of the SAT tree whose abstract tasks have no methods gets no
vertices; the recursive destructors of plan and solution steps may exhaust the stack; an integer list line without the final -1
is read forever (`int_list_unterminated` shows that no such line yields a result).

## 6. Mutation experiments

`seeded/LOG.jsonl` has one line per experiment: the model definition edited in a scratch copy, the edit, the claim it
breaks, the theorems that failed to build, and theorems tightened as a consequence.
