{"id": "C01", "title": "Reported progression plans are HTN solutions", "statement": "Whenever progression search reports a solution, the printed sequence of actions is executable from the initial state, the state after it satisfies every goal fact, and the sequence is a linearisation of a primitive task network obtained from the initial abstract task by applying methods of the domain (orderings respected).", "quantifier": "every grounded HTN problem, every heuristic, every fringe order and random choice of the task to decompose, every number of search steps", "why_tests_cant": "A test validates the plans of a few benchmark runs; the claim covers every problem, every expansion order and plans of any length.", "anchors": ["src/search/PriorityQueueSearch.h: search", "src/Model.cpp: decompose, apply, isApplicable, isGoal", "src/ProgressionNetwork.cpp: extractSolutionFromSearchNode"]}
{"id": "C02", "title": "Proven unsolvable means no solution exists", "statement": "If progression search empties its fringe without having found a plan, and no node was discarded by the visited list or by a heuristic that calls a solvable node a dead end, then the problem has no HTN solution at all.", "quantifier": "every grounded HTN problem, every choice of the abstract task that is decomposed, every fringe order", "why_tests_cant": "Unsolvability is a statement about infinitely many decompositions; a test can only compare verdicts on instances whose status is already known.", "anchors": ["src/search/PriorityQueueSearch.h: search", "src/Model.cpp: decompose, apply"]}
{"id": "C03", "title": "Applying an action changes exactly its effects", "statement": "After progressing an action the new state contains exactly the facts the action adds plus the old facts it does not delete (adds win over deletes), and the parent node's state is unchanged.", "quantifier": "every state, every action, every fact", "why_tests_cant": "The state space is exponential; tests sample a few states and rarely actions that add and delete the same fact.", "anchors": ["src/Model.cpp: apply"]}
{"id": "C04", "title": "Applicability and goal tests are exact", "statement": "An action is reported applicable in a node exactly if all its precondition facts hold in the node's state; a node is reported a goal exactly if no task is left and all goal facts hold.", "quantifier": "every node and every action", "why_tests_cant": "Ranges over all states and task networks.", "anchors": ["src/Model.cpp: isApplicable, isGoal"]}
{"id": "C05", "title": "Decomposition replaces one task by the method's network", "statement": "The task network of the successor of a decomposition is the parent's network with the decomposed task replaced by one fresh task per subtask of the method, keeping the method's orderings, every task that had to come after the decomposed task now coming after all of the new tasks, everything else unchanged; the tasks offered as ready are exactly the ones without predecessor, split correctly into primitive and abstract ones.", "quantifier": "every reachable node, every ready abstract task, every method for it", "why_tests_cant": "Networks, orderings and methods are unbounded; a missing inherited ordering shows up only for particular shapes.", "anchors": ["src/Model.cpp: decompose, initializeMethod", "src/ProgressionNetwork.h: planStep, searchNode"]}
{"id": "C06", "title": "Progressing an action removes just that task", "statement": "The task network of the successor of an action application is the parent's network without the applied task; the tasks offered as ready are exactly the remaining tasks without predecessor, none listed twice.", "quantifier": "every reachable node and every ready applicable action", "why_tests_cant": "A successor may be blocked by other tasks along arbitrarily long chains; tests cover few network shapes.", "anchors": ["src/Model.cpp: apply"]}
{"id": "C07", "title": "Accumulated action costs equal the cost of the executed prefix", "statement": "The cost stored in a node is the sum of the costs of the actions executed on the path to it, so the reported plan cost is the sum of the costs of the printed actions.", "quantifier": "every node reachable by any sequence of decompositions and applications", "why_tests_cant": "Path lengths are unbounded.", "anchors": ["src/Model.cpp: decompose, apply", "src/search/PriorityQueueSearch.cpp: handleNewSolution"]}
{"id": "C08", "title": "Contained-task tables count the remaining tasks", "statement": "In every node the table of contained tasks lists, in strictly increasing order, exactly the tasks occurring in the remaining network together with their number of occurrences.", "quantifier": "every node reachable by any sequence of decompositions and applications", "why_tests_cant": "The tables are maintained incrementally by merging sorted arrays; an off-by-one appears only for particular overlaps of both lists and is only visible after long histories.", "anchors": ["src/Model.cpp: updateTaskCounterA, updateTaskCounterM"]}
{"id": "C09", "title": "Plan steps are freed exactly when unreachable", "statement": "Deleting search nodes in any order never frees a plan step that is still reachable from a live node, never frees one twice, and after all nodes are deleted every plan step has been freed.", "quantifier": "every history of node creations and deletions", "why_tests_cant": "Use-after-free depends on the interleaving of creations and deletions over a shared graph; tests observe only the crashes they happen to trigger.", "anchors": ["src/ProgressionNetwork.cpp: ~planStep, ~searchNode, ~solutionStep", "src/Model.cpp: decompose, apply"]}
{"id": "C10", "title": "Restricting to one ready task loses no solutions", "statement": "Search that, in a node with ready abstract tasks, branches only over the methods of one of them, and otherwise branches over the applicable ready actions, reaches a solution from every node from which a solution exists.", "quantifier": "every problem, every node, every policy choosing the task", "why_tests_cant": "Commutation of decompositions is a property of all decomposition histories.", "anchors": ["src/search/PriorityQueueSearch.h: search"]}
{"id": "C11", "title": "Eager progression of effectless actions is safe", "statement": "Progressing a ready applicable action without effects immediately, without branching over alternatives, neither adds nor removes solutions of a node.", "quantifier": "every node and every ready effectless applicable action", "why_tests_cant": "It is an exchange argument over all plans.", "anchors": ["src/search/PriorityQueueSearch.h: search", "src/SearchEngine.cpp: main"]}
{"id": "C12", "title": "Method orderings: transitive closure and reduction", "statement": "Preprocessing of method orderings leaves the ordering relation over subtasks semantically unchanged: the closure computed for a method relates two subtasks exactly if there is a chain of given orderings, and the reduced form has the same closure for acyclic input.", "quantifier": "every method with any number of subtasks and orderings", "why_tests_cant": "Graphs of unbounded size.", "anchors": ["src/Model.cpp: computeTransitiveChangeOfMethodOrderings"]}
{"id": "C13", "title": "The total-order flag is exact", "statement": "A problem is classified as totally ordered exactly if in every method every two different subtasks are ordered by a chain of orderings.", "quantifier": "every acyclic method ordering of any size", "why_tests_cant": "A wrong flag selects an unsound or incomplete solver path; inputs are unbounded.", "anchors": ["src/Model.cpp: isMethodTotallyOrdered, methodTopSortDFS"]}
{"id": "C14", "title": "The parallel-sequences flag is exact", "statement": "A problem is classified as 'parallel sequences' only if its initial method is a set of mutually unordered chains (and all other methods are totally ordered).", "quantifier": "every problem", "why_tests_cant": "Quantifies over all orderings of the initial method.", "anchors": ["src/Model.cpp: isParallelSequences, computeTransitiveChangeOfMethodOrderings"]}
{"id": "C15", "title": "Strongly connected components of the task hierarchy", "statement": "Two tasks get the same component number exactly if each can be reached from the other by decomposition; components are numbered so that decomposition never leads from a lower numbered component to a higher numbered one.", "quantifier": "every task hierarchy reachable from the initial task", "why_tests_cant": "Arbitrary directed graphs.", "anchors": ["src/Model.cpp: calcSCCs, tarjan", "src/sat/disabling_graph.cpp: graph::tarjan"]}
{"id": "C16", "title": "Graph reachability query is exact", "statement": "The query whether some node of one set can reach some node of another returns true exactly if there is a path.", "quantifier": "every directed graph and every pair of node sets", "why_tests_cant": "Arbitrary graphs.", "anchors": ["src/sat/disabling_graph.cpp: can_reach_any_of"]}
{"id": "C17", "title": "Minimal implied costs and distances are lower bounds", "statement": "The number of actions and decompositions (the cost of the actions) of every primitive refinement of a task is at least the precomputed minimal implied distance (cost) of that task; the same holds for the sums over the tasks of a network.", "quantifier": "every hierarchy (also recursive), every task, every refinement of it", "why_tests_cant": "Recursive tasks have infinitely many refinements.", "anchors": ["src/Model.cpp: calcMinimalImpliedX"]}
{"id": "C18", "title": "Subtask index tables are exact inverses", "statement": "The per-method table of distinct subtasks with multiplicities and the per-task table of methods containing the task describe exactly the subtask lists of the methods.", "quantifier": "every problem", "why_tests_cant": "Unbounded inputs with duplicates in arbitrary positions.", "anchors": ["src/Model.cpp: generateMethodRepresentation, generateVectorRepresentation"]}
{"id": "C19", "title": "Integer list lines are read back exactly", "statement": "Reading a line consisting of the decimal numbers of a list terminated by -1 yields that list; pairs read from a conditional-effect line keep all unconditional effects.", "quantifier": "every list of non-negative ints", "why_tests_cant": "Unbounded lists.", "anchors": ["src/Model.cpp: readIntList, readConditionalIntList"]}
{"id": "C20", "title": "Conditional effects are honoured", "statement": "An effect that is conditional in the input changes the state only if its condition holds (it is not silently dropped or made unconditional).", "quantifier": "every input with conditional effects", "why_tests_cant": "Universal over inputs.", "anchors": ["src/Model.cpp: readConditionalIntList, readClassical"]}
{"id": "C21", "title": "The pair heap is a priority queue", "statement": "After any sequence of add and pop calls the heap contains exactly the pairs added and not yet popped, and top always returns a pair with minimal key.", "quantifier": "every sequence of operations on keys above the sentinel", "why_tests_cant": "Operation sequences are unbounded.", "anchors": ["src/intDataStructures/IntPairHeap.h: add, pop, topKey, topVal"]}
{"id": "C22", "title": "The array-backed integer set is a set with iteration", "statement": "After any sequence of insert and clear calls, membership, size and the values enumerated by getFirst/getNext agree with the mathematical set (each member enumerated exactly once, terminated by a negative value); union and difference compute union and difference.", "quantifier": "every operation sequence over elements below the initialised size", "why_tests_cant": "Operation sequences are unbounded.", "anchors": ["src/intDataStructures/noDelIntSet.cpp"]}
{"id": "C23", "title": "Set intersection computes the intersection", "statement": "setIntersection(a,b) contains exactly the common elements of a and b.", "quantifier": "every pair of sets", "why_tests_cant": "All pairs of sets.", "anchors": ["src/intDataStructures/noDelIntSet.cpp: setIntersection"]}
{"id": "C24", "title": "The sorted integer set stays sorted and duplicate free", "statement": "After any sequence of insert and erase calls (append followed by sortSet included) the set's iteration enumerates exactly the mathematical set in increasing order.", "quantifier": "every operation sequence within the capacity", "why_tests_cant": "Operation sequences are unbounded.", "anchors": ["src/intDataStructures/bIntSet.cpp"]}
{"id": "C25", "title": "The bucket set is a set with ordered iteration", "statement": "After any sequence of insert, erase and clear calls membership and size agree with the mathematical set, and iteration (also with removal while iterating) enumerates its members in increasing order.", "quantifier": "every operation sequence over elements below the initialised size", "why_tests_cant": "Operation sequences are unbounded.", "anchors": ["src/intDataStructures/bucketSet.cpp"]}
{"id": "C26", "title": "The deletable iteration set iterates over all members", "statement": "Iteration over a delIterIntSet enumerates every inserted, not yet deleted element exactly once.", "quantifier": "every operation sequence", "why_tests_cant": "Operation sequences are unbounded.", "anchors": ["src/intDataStructures/delIterIntSet.cpp"]}
{"id": "C27", "title": "Integer stacks are LIFO and lose nothing when growing", "statement": "push/pop on the fixed and the growing stack behave like a mathematical stack, pop on an empty stack returns -1, and growing keeps all elements.", "quantifier": "every sequence of pushes and pops (within capacity for the fixed stack, positive initial capacity for the growing one)", "why_tests_cant": "Operation sequences are unbounded.", "anchors": ["src/intDataStructures/IntStack.cpp", "src/intDataStructures/FlexIntStack.cpp"]}
{"id": "C28", "title": "Array sorting and lookup helpers are correct", "statement": "sort yields a sorted permutation of the array section, makeSet yields the strictly increasing list of the distinct values, and indexOf on a sorted section returns an index holding the value exactly if it occurs (-1 otherwise).", "quantifier": "every array section", "why_tests_cant": "Arrays of any length and content, including duplicates and already sorted data.", "anchors": ["src/intDataStructures/IntUtil.cpp: sort, partition, indexOf, makeSet, containsInt"]}
{"id": "C29", "title": "Packed state encoding is injective", "statement": "Two states get the same packed 64-bit word vector exactly if they agree on every fact.", "quantifier": "every pair of states of equal size, any number of facts", "why_tests_cant": "Exponentially many states.", "anchors": ["src/VisitedList.cpp: state2Int"]}
{"id": "C30", "title": "The compressed bit-sequence trie is a map", "statement": "Inserting a bit string into the compressed sequence set reports 'new' exactly if that string was not inserted before and otherwise hands back the payload slot of the earlier insertion, for prefix-free key sets.", "quantifier": "every sequence of insertions of bit strings of any length", "why_tests_cant": "Splitting depends on 64-bit boundaries; the number of histories is unbounded.", "anchors": ["src/intDataStructures/CompressedSequenceSet.cpp: insert, split_me_at, compressed_sequence_trie"]}
{"id": "C31", "title": "Duplicate detection prunes only true duplicates (totally ordered problems)", "statement": "In totally ordered mode with exact sequence storage, a node is reported as already visited only if a node with the same state and the same remaining task sequence was recorded before.", "quantifier": "every history of recorded nodes", "why_tests_cant": "Histories and hash collisions cannot be enumerated.", "anchors": ["src/VisitedList.cpp: insertVisi, topSort, state2Int, ctor"]}
{"id": "C32", "title": "Duplicate detection prunes only true duplicates (partially ordered problems)", "statement": "With the graph-isomorphism check enabled, a node is reported as visited only if a recorded node has the same state and an isomorphic remaining task network.", "quantifier": "every pair of nodes", "why_tests_cant": "All pairs of task networks.", "anchors": ["src/VisitedList.cpp: matching, matchingDFS, matchingGenerate, insertVisi"]}
{"id": "C33", "title": "Fringes lose no node and respect their order", "statement": "Every node pushed into a fringe is popped exactly once before the fringe reports empty; the FIFO and LIFO fringes pop in insertion and reverse insertion order, and the A*/greedy fringe always pops a node with minimal f-value.", "quantifier": "every interleaving of pushes and pops", "why_tests_cant": "Operation sequences are unbounded (containers of fixed size are chained).", "anchors": ["src/search/UnsortedFringe.cpp", "src/search/QueueFringe.cpp", "src/search/StackFringe.cpp", "src/search/fringes/OneQueueWAStarFringe.cpp"]}
{"id": "C34", "title": "Relaxed-composition model: dead ends are real", "statement": "If, in the relaxed-composition model built for a node, the goal is not reachable under delete relaxation, then the node has no HTN solution; so pruning nodes whose RC heuristic value is 'unreachable' keeps all solutions.", "quantifier": "every HTN problem and every node", "why_tests_cant": "Universal over problems and over all refinements.", "anchors": ["src/heuristics/rcHeuristics/RCModelFactory.cpp: getRCmodelSTRIPS", "src/heuristics/rcHeuristics/hhRC2.h: setHeuristicValue"]}
{"id": "C35", "title": "Delete-relaxed reachability is exact", "statement": "The filter and additive heuristics answer 'unreachable' exactly if some goal fact cannot be reached from the state by the actions when deletes are ignored.", "quantifier": "every STRIPS task and state, every goal set", "why_tests_cant": "Fixpoint over arbitrary action graphs.", "anchors": ["src/heuristics/rcHeuristics/hsAddFF.cpp: getHeuristicValue", "src/heuristics/rcHeuristics/hsFilter.cpp"]}
{"id": "C36", "title": "Planning-graph reachability never misses a reachable task", "statement": "Every fact, action, method and task that is reachable in the delete relaxation restricted to the given tasks is contained in the computed reachability sets.", "quantifier": "every problem, state and set of tasks", "why_tests_cant": "Fixpoint over arbitrary graphs.", "anchors": ["src/heuristics/planningGraph.cpp: calcReachability"]}
{"id": "C37", "title": "hMax values are exact", "statement": "The h-max value computed for a fact is the least fixpoint of the max-cost equations (cost of the cheapest way to achieve its most expensive precondition).", "quantifier": "every STRIPS task with non-negative costs", "why_tests_cant": "Fixpoint over arbitrary graphs.", "anchors": ["src/heuristics/rcHeuristics/hsLmCut.cpp: getHMax"]}
{"id": "C38", "title": "LM-cut never overestimates", "statement": "The LM-cut value of a state is at most the cost of every delete-relaxed plan and hence of every plan; it is 'unreachable' only if no relaxed plan exists.", "quantifier": "every STRIPS task with non-negative costs, every state and goal", "why_tests_cant": "Quantifies over all plans.", "anchors": ["src/heuristics/rcHeuristics/hsLmCut.cpp: getHeuristicValue, calcGoalZone, forwardReachabilityDFS, getHMax"]}
{"id": "C39", "title": "Computed two-literal invariants hold in every reachable state", "statement": "Every clause of length two delivered by the invariant synthesis holds in every state reachable from the initial state by any sequence of actions.", "quantifier": "every STRIPS problem, every action sequence", "why_tests_cant": "Reachable states cannot be enumerated.", "anchors": ["src/Invariants.cpp: compute_Rintanen_Invariants and helpers"]}
{"id": "C40", "title": "Mutex queries are sound", "statement": "If two facts are reported as not able to co-occur, then no reachable state contains both.", "quantifier": "every reachable state", "why_tests_cant": "Reachable states cannot be enumerated.", "anchors": ["src/Invariants.cpp: can_state_features_co_occur, extract_invariants_from_parsed_model"]}
{"id": "C41", "title": "At-most-one encodings are exact", "statement": "The clauses emitted for 'at most one of these literals' are satisfied (for a suitable choice of the auxiliary variables) exactly by the assignments making at most one of them true, for the pairwise and for the logarithmic encoding.", "quantifier": "every list of distinct variables of any length and every assignment", "why_tests_cant": "2^n assignments, arbitrary n.", "anchors": ["src/sat/sat_encoder.cpp: atMostOneBinomial, atMostOne"]}
{"id": "C42", "title": "The at-most-K encoding is exact", "statement": "The clauses emitted for 'at most K of these variables' are satisfied (for a suitable choice of the auxiliary variables) exactly by the assignments making at most K of them true.", "quantifier": "every K >= 0 (negative bounds: C67), every list of variables, every assignment", "why_tests_cant": "2^n assignments, arbitrary n and K.", "anchors": ["src/sat/sat_encoder.cpp: atMostK"]}
{"id": "C43", "title": "The SAT state-transition formula encodes executability", "statement": "A choice of at most one action per time step extends to a model of the state-transition clauses exactly if executing the chosen actions in order is possible from the initial state and reaches the goal, and the state variables of a model are the visited states.", "quantifier": "every problem, every number of time steps, every assignment; from executions to models only if no chosen action adds a fact it deletes (C68)", "why_tests_cant": "Exponentially many assignments, arbitrary horizon.", "anchors": ["src/sat/state_formula.cpp: generate_state_transition_formula", "src/sat/sat_encoder.cpp"]}
{"id": "C44", "title": "Actions merged into one block are executable in leaf order", "statement": "If block compression puts several leaves into one block, then any set of actions satisfying the block's state-transition clauses can be executed in leaf order, with the result the clauses describe.", "quantifier": "every leaf sequence, every selection of actions", "why_tests_cant": "Universal over selections and states.", "anchors": ["src/sat/disabling_graph.cpp: doActionsInterfere, compute_block_compression", "src/sat/state_formula.cpp"]}
{"id": "C45", "title": "Leaf pruning removes only impossible actions", "statement": "An action pruned from a leaf by the forward-reachability filter cannot be executed at that leaf in any execution choosing at most one unpruned action per leaf.", "quantifier": "every leaf sequence and every execution", "why_tests_cant": "Universal over executions.", "anchors": ["src/sat/sat_planner.cpp: filter_leafs_ff, filter_leafs_Rintanen"]}
{"id": "C46", "title": "Totally ordered methods are placed order-preservingly", "statement": "Placing a totally ordered subtask sequence into the child sequence of a decomposition-tree node assigns every subtask its own position, keeps the order, and adds as few new labels as possible.", "quantifier": "every sequence not longer than the target", "why_tests_cant": "Dynamic programming over unbounded sequences.", "anchors": ["src/sat/sog.cpp: addSequenceToSOG"]}
{"id": "C47", "title": "Removing transitive edges keeps the order", "statement": "Dropping transitive edges of an acyclic leaf ordering changes neither which leaves are ordered before which others nor adds any ordering.", "quantifier": "every acyclic graph", "why_tests_cant": "Arbitrary graphs.", "anchors": ["src/sat/sog.cpp: removeTransitiveOrderings"]}
{"id": "C48", "title": "The merged ordering graph of partially ordered methods is acyclic", "statement": "The ordering graph obtained by merging the methods of partially ordered problems is a strict partial order that every method can be embedded in.", "quantifier": "every list of acyclic methods", "why_tests_cant": "Arbitrary method sets.", "anchors": ["src/sat/sog.cpp: runPOSOGOptimiser"]}
{"id": "C49", "title": "AND/OR landmarks are landmarks", "statement": "Every fact, task or method that the causal AND/OR landmark generator attributes to a task occurs in every way of deriving that task (bottom-up through methods, actions and facts) from the current state.", "quantifier": "every problem, state and derivation", "why_tests_cant": "Derivations are unbounded.", "anchors": ["src/heuristics/landmarks/lmExtraction/LmCausal.cpp: pCalcLMs, setUnion, setIntersection"]}
{"id": "C50", "title": "Task-reachability sets are the decomposition closure", "statement": "The set of tasks attached to a task as reachable is exactly the set of tasks that can occur in some decomposition of it (for action-only tracking: the actions among them).", "quantifier": "every hierarchy including recursion", "why_tests_cant": "Closure over arbitrary graphs.", "anchors": ["src/Model.cpp: calcSCCGraph, calcReachability, updateReachability"]}
{"id": "C51", "title": "Combination enumeration of the SAS translation", "statement": "The i-th combination routine enumerates, for i = 0..C(n,k)-1, every k-element subset of {0..n-1} exactly once, in lexicographic order.", "quantifier": "all n, k and i", "why_tests_cant": "All n and k.", "anchors": ["src/translation/htnToSAS.cpp: combination"]}
{"id": "C52", "title": "Progression search has no undefined behaviour and its inner loops terminate", "statement": "On a well-formed problem, for every number of iterations of the main loop, all array accesses made by apply, decompose, isApplicable, isGoal and the expansion of nodes are within bounds, null solution chains are never dereferenced, and the loop computing the new first tasks and the eager progression loops terminate.", "quantifier": "every well-formed grounded problem, every fringe order, every heuristic, every number of search iterations", "why_tests_cant": "Out-of-range accesses and non-termination depend on the whole history of a node; tests cover finitely many runs.", "anchors": ["src/Model.cpp: apply, decompose", "src/search/PriorityQueueSearch.h: search"]}
{"id": "C53", "title": "What the parallel-sequences and unique-paths flags mean", "statement": "After reading acyclic method orderings, isUniquePaths holds exactly if every method is totally ordered or decomposes the initial task and no subtask has two direct successors; isParallelSequences holds exactly if every method is totally ordered or decomposes the initial task and either no subtask has two direct successors or no subtask has two direct predecessors.", "quantifier": "every list of methods with acyclic orderings of any size", "why_tests_cant": "Quantifies over all orderings of all methods; the flags choose the duplicate detection used by search.", "anchors": ["src/Model.cpp: computeTransitiveChangeOfMethodOrderings", "src/VisitedList.cpp: VisitedList"]}
{"id": "C54", "title": "Depth counters", "statement": "For every node ever created, modificationDepth is the number of decompositions and actions on the path to it, and mixedModificationDepth is the accumulated action cost plus the number of decompositions, including all steps done by eager progressions.", "quantifier": "every problem, every sequence of node creations, every setting of the eager progressions", "why_tests_cant": "The counters are updated in several nested eager loops; a test observes finitely many paths.", "anchors": ["src/Model.cpp: decompose, apply"]}
{"id": "C55", "title": "The printed decomposition is a valid decomposition tree of the plan", "statement": "For every goal node, the printed actions, root and decomposition lines form a tree: numbers are distinct, the root line is a decomposition of the initial task, each line applies a method of its task and lists exactly one child per subtask with the right task in the right position, every other number is child of exactly one line and reachable from the root, and the printed action order never contradicts an ordering of a method between two children above the actions.", "quantifier": "every well-formed problem, every sequence of node creations, every fringe, heuristic and visited list", "why_tests_cant": "The tree depends on instance numbers assigned over the whole search and on parent pointers stored in shared plan steps.", "anchors": ["src/ProgressionNetwork.cpp: extractSolutionFromSearchNode", "src/Model.cpp: decompose, apply, initializeMethod"]}
{"id": "C56", "title": "h-FF: the extraction of the relaxed plan stays within its stack and yields a relaxed plan", "statement": "Whenever all goals are relaxed reachable, the extraction loop of h-FF never writes outside its stack (whose capacity is the number of facts), and the marked operators form a relaxed plan whose cost is the returned value.", "quantifier": "every STRIPS task, state and goal set", "why_tests_cant": "The number of pushed but not yet processed facts depends on the shape of the achiever graph, which is unbounded.", "anchors": ["src/heuristics/rcHeuristics/hsAddFF.cpp: getFF", "src/intDataStructures/IntStack.cpp: push"]}
{"id": "C57", "title": "Cyclicity of components of the task hierarchy", "statement": "A component is listed as cyclic exactly if some task of it can be reached from itself by at least one decomposition, and a component is flagged acyclic exactly if no such task can be reached from it.", "quantifier": "every task hierarchy reachable from the initial task", "why_tests_cant": "Arbitrary directed graphs; depends on every path of the hierarchy.", "anchors": ["src/Model.cpp: calcSCCs, constructSCCGraph, analyseSCCcyclicity"]}
{"id": "C58", "title": "Relaxed-composition heuristic with LM-cut never overestimates", "statement": "With LM-cut as inner heuristic and action costs (estCOSTS), with or without the admissible task-count correction, the heuristic value of every search node is at most the cost of every plan that solves the node, and it is 'unreachable' only if no plan does; without correction the distance and mixed estimates are bounded by the number of actions and method applications resp. by action costs plus method applications.", "quantifier": "every HTN problem, every node created by the search, every solution of the node", "why_tests_cant": "Universal over problems, nodes and all their (infinitely many) solutions.", "anchors": ["src/heuristics/rcHeuristics/hhRC2.h: setHeuristicValue", "src/heuristics/rcHeuristics/RCModelFactory.cpp: getRCmodelSTRIPS", "src/heuristics/rcHeuristics/hsLmCut.cpp"]}
{"id": "C59", "title": "Stored relaxed-composition landmarks are landmarks of the node", "statement": "Each landmark stored at a node by the relaxed-composition heuristic with LM-cut is split correctly into actions (entries before firstMethod) and methods (the rest, renumbered), and every solution of the node contains one of these actions or applies one of these methods.", "quantifier": "every HTN problem, every node created by the search, every cut, every solution", "why_tests_cant": "Universal over problems, nodes and all their solutions.", "anchors": ["src/heuristics/rcHeuristics/hhRC2.h: setHeuristicValue", "src/heuristics/landmarks/lmDataStructures/LMCutLandmark.cpp"]}
{"id": "C60", "title": "Visited list of parallel sequences", "statement": "If every task network of the problem is a set of sequences (the initial methods are parallel chains, all other methods are chains), the visited list in parallel-sequences mode rejects a node exactly if an earlier node has the same state and an isomorphic task network (and a value not larger, if nodes are reopened); hence the search loses no solution.", "quantifier": "all problems with such methods, all sequences of accesses by nodes of the search, all hash options", "why_tests_cant": "Exactness relates canonical sorted sequences to isomorphism of arbitrary task networks, for every history of accesses.", "anchors": ["src/VisitedList.cpp", "src/VisitedList.h"]}
{"id": "C61", "title": "Accesses of the visited list are defined", "statement": "In total order mode no access to the visited list reads outside the compressed key, whatever nodes were stored before.", "quantifier": "all totally ordered problems, all options, all sequences of accesses", "why_tests_cant": "The access is undefined only for keys of a multiple of 64 bits that are a proper prefix of another key in the same bucket.", "anchors": ["src/VisitedList.cpp", "src/CompressedSequenceTrie.cpp"]}
{"id": "C62", "title": "Parallel-sequences mode of the visited list is safe", "statement": "Whenever the flag for parallel sequences is computed as true, the search that uses the visited list in parallel-sequences mode loses no solution.", "quantifier": "all problems, all options", "why_tests_cant": "The flag also holds for initial methods with joins, whose networks are not sets of sequences; a lost solution looks like an unsolvable problem.", "anchors": ["src/Model.cpp", "src/VisitedList.cpp"]}
{"id": "C63", "title": "Heuristic search is sound and complete", "statement": "PriorityQueueSearch with OneQueueWAStarFringe and any array of heuristics returns only plans that solve the problem, with the reported costs, and if it reports unsolvability and no heuristic reports a wrong dead end, the problem has no solution.", "quantifier": "all problems, all heuristics that report dead ends only for unsolvable nodes, all queue implementations with the comparator, all random numbers, suboptimal search on and off", "why_tests_cant": "The values of heuristics, the queue order and the random numbers change which nodes are expanded; tests see a few runs.", "anchors": ["src/search/PriorityQueueSearch.h", "src/fringes/OneQueueWAStarFringe.cpp"]}
{"id": "C64", "title": "A* returns cheapest plans and weighted A* bounded ones", "statement": "With an admissible first heuristic, action-cost g values and late goal test, the costs of the returned plan are at most max(1, weight) times the costs of any plan; RC with LM-cut is an instance for weight 1.", "quantifier": "all problems, all admissible heuristics, all weights, all random numbers", "why_tests_cant": "Optimality quantifies over all plans of the problem, of which there can be infinitely many.", "anchors": ["src/search/PriorityQueueSearch.h", "src/fringes/OneQueueWAStarFringe.cpp", "src/heuristics/rcHeuristics/hhRC2.h"]}
{"id": "C65", "title": "A* with the visited list is optimal for heuristics of the task network", "statement": "For totally ordered problems and for problems whose networks are sets of sequences, A* with the visited list is optimal if the first heuristic is admissible and determined by the state and the remaining tasks (for instance blind search); no solution is lost for any heuristic.", "quantifier": "all such problems, all options of the visited list, all such heuristics", "why_tests_cant": "Reopening depends on the order in which two ways to reach the same network are found.", "anchors": ["src/search/PriorityQueueSearch.h", "src/VisitedList.cpp"]}
{"id": "C66", "title": "A* with the visited list is optimal for every admissible heuristic", "statement": "For totally ordered problems A* with the default visited list returns a cheapest plan for every admissible heuristic.", "quantifier": "all totally ordered problems, all admissible heuristics", "why_tests_cant": "The visited list compares f values instead of costs when it decides about reopening; only heuristics that differ for the same network show it.", "anchors": ["src/search/PriorityQueueSearch.h", "src/VisitedList.cpp"]}
{"id": "C67", "title": "A negative cost bound is unsatisfiable", "statement": "The clauses emitted for 'at most K of these variables' with a negative K have no model, so that the search for a plan cheaper than 0 reports that none exists.", "quantifier": "every list of variables", "why_tests_cant": "2^n assignments; the bound -1 only occurs after a plan of cost 0 was found.", "anchors": ["src/sat/sat_encoder.cpp: atMostK", "src/sat/sat_planner.cpp: optimise_with_sat_planner_linear_bound_increase"]}
{"id": "C68", "title": "The SAT encoding uses the same action semantics as the search", "statement": "An executable plan with actions that add a fact they delete (the search applies deletes before adds) is found by the SAT encoding, too.", "quantifier": "every problem and every plan", "why_tests_cant": "Needs an unusual, but accepted input.", "anchors": ["src/sat/state_formula.cpp: generate_state_transition_formula", "src/Model.cpp: apply"]}
{"id": "C69", "title": "Models of the totally ordered SAT encoding are plans", "statement": "For every totally ordered problem and every depth, the clauses created for that depth (with any of the pruning and block-compression settings and after any number of smaller depths on the same tree) are defined, and the plan printed for any satisfying assignment solves the problem.", "quantifier": "every totally ordered problem, depth and assignment", "why_tests_cant": "Universal over problems, depths and models of the formula.", "anchors": ["src/sat/sat_planner.cpp: createFormulaForDepth, printSolution, solve_with_sat_planner_linear_bound_increase", "src/sat/pdt.cpp: expandPDT, propagatePruning, assignVariableIDs, addDecompositionClauses", "src/sat/state_formula.cpp: generate_state_transition_formula"]}
{"id": "C70", "title": "The totally ordered SAT encoding finds every plan", "statement": "If a solution whose actions do not add facts they delete has a derivation of height at most the depth, the formula for the depth is created and has a model whose plan is that solution; with a correct solver the SAT planner finds a plan if such a solution exists.", "quantifier": "every totally ordered problem, depth and solution", "why_tests_cant": "Universal over problems and solutions; pruning must never remove what some plan needs.", "anchors": ["src/sat/sat_planner.cpp: createFormulaForDepth, filter_leafs_ff, solve_with_sat_planner_linear_bound_increase", "src/sat/pdt.cpp: expandPDT, propagatePruning, assignVariableIDs, addDecompositionClauses, addPrunedClauses"]}
{"id": "C71", "title": "Computed invariants also hold if actions add and delete the same fact", "statement": "The invariant synthesis delivers only clauses that hold in every reachable state even if actions add and delete the same fact.", "quantifier": "every STRIPS problem, also with actions whose add and delete lists overlap", "why_tests_cant": "Only problems with particular overlapping effects show the difference.", "anchors": ["src/Invariants.cpp: compute_Rintanten_action_effect (ensuresNegP)"]}
{"id": "C72", "title": "Resolution does not modify the set it iterates", "statement": "During the resolution over binary invariants no element is inserted into the unordered set that is being iterated.", "quantifier": "every consistent input", "why_tests_cant": "Iterator invalidation depends on rehashing and rarely shows.", "anchors": ["src/Invariants.cpp: extract_invariants_from_parsed_model"]}
{"id": "C73", "title": "The default SAT configuration returns only plans", "statement": "With mutex clauses and any leaf pruning mode (h2 only together with mutexes) the formula of every depth is defined, uses only existing variables, and the plan printed for any model is a solution.", "quantifier": "every totally ordered problem, every input of mutex groups, every depth, every model", "why_tests_cant": "Tests see one model per formula of a few instances; the claim is about all models of all formulas.", "anchors": ["src/sat/sat_planner.cpp: createFormulaForDepth, filter_leafs_Rintanen", "src/sat/state_formula.cpp: generate_mutex_formula"]}
{"id": "C74", "title": "Mutex clauses and h2 pruning lose no plan", "statement": "A plan with a derivation of height at most d, whose actions do not add and delete the same fact and which passes only through states in which the mutex groups of the input hold, is the plan of a model of the formula for depth d.", "quantifier": "every totally ordered problem, every plan, every pruning mode", "why_tests_cant": "A lost plan shows as a missing solution only if no other plan is left.", "anchors": ["src/sat/sat_planner.cpp: filter_leafs_Rintanen, createFormulaForDepth", "src/sat/state_formula.cpp: generate_mutex_formula"]}
{"id": "C75", "title": "h2 pruning works without mutex invariants", "statement": "The formula of every depth is defined with h2 pruning also when mutex invariants are switched off.", "quantifier": "every totally ordered problem", "why_tests_cant": "The combination of options is rarely run; the vectors are null only then.", "anchors": ["src/Invariants.cpp: compute_Rintanten_action_effect", "src/Model.cpp: generateVectorRepresentation", "src/SearchEngine.cpp: call under satmutexes"]}
{"id": "C76", "title": "Merging partially ordered methods embeds every method", "statement": "The graph obtained by merging the methods of a node is defined, its two edge sets are converse, no two vertices are ordered in both directions, and each method is embedded: different vertices with the right labels, joined by an edge exactly when the method orders the subtasks.", "quantifier": "every list of methods with transitively closed strict partial orders", "why_tests_cant": "The greedy choices depend on all methods merged before.", "anchors": ["src/sat/sog.cpp: runPOSOGOptimiser"]}
{"id": "C77", "title": "Successor and predecessor sets of the leaf graph are exact", "statement": "On an acyclic graph the depth first search computes for each vertex exactly the vertex itself and everything ordered after it.", "quantifier": "every acyclic graph and every iteration order of its edge sets", "why_tests_cant": "Arbitrary graphs.", "anchors": ["src/sat/sog.cpp: succdfs, calcSucessorSets, precdfs, calcPredecessorSets"]}
{"id": "C78", "title": "The leaf graph orders leafs as the tree does", "statement": "If every node graph of a decomposition tree is acyclic, the graph of its leafs is defined and acyclic, and one leaf precedes another exactly if the node where their paths separate orders the two children that way.", "quantifier": "every decomposition tree", "why_tests_cant": "Arbitrary trees.", "anchors": ["src/sat/sog.cpp: expandSOG, generateSOGForLeaf", "src/sat/pdt.cpp: getLeafSOG"]}
{"id": "C79", "title": "Actions without effects are kept in separate leafs on request", "statement": "With effectLessActionsInSeparateLeaf, no vertex of a merged graph carries both an action without effects and some other task.", "quantifier": "every list of methods", "why_tests_cant": "Depends on the order in which subtasks are placed.", "anchors": ["src/sat/sog.cpp: runPOSOGOptimiser"]}
{"id": "C80", "title": "The matching formula expresses placements", "statement": "The clauses of the matching formula can be satisfied, by choosing only the new variables, exactly if the leafs can be placed at positions such that active leafs are placed, leafs with effects at different positions, order is respected, and positions and leafs agree on the actions.", "quantifier": "every acyclic leaf graph, every set of leafs and positions", "why_tests_cant": "Arbitrary numbers of leafs and positions; transitive effect of the forbidden variables.", "anchors": ["src/sat/partial_order.cpp: generate_matching_formula"]}
{"id": "C81", "title": "Models of the partial order encoding are executable plans", "statement": "If leafs without effects never come after leafs with effects, every model of the action variables, state formula and matching formula gives an order of the active leafs that respects the leaf graph, is executable and reaches the goal; if all leafs have effects, the printed order is one.", "quantifier": "every well-formed problem, acyclic leaf graph and model", "why_tests_cant": "All plans and all placements.", "anchors": ["src/sat/partial_order.cpp", "src/sat/state_formula.cpp: get_partial_state_atoms, generate_state_transition_formula", "src/sat/sat_planner.cpp: printSolution"]}
{"id": "C82", "title": "The partial order encoding finds every executable order", "statement": "If the chosen actions can be executed in an order respecting the leaf graph and reach the goal, and a position is left for every leaf, the formula has a model with these choices; if all leafs have effects this is an equivalence.", "quantifier": "every well-formed problem, acyclic leaf graph and choice of actions", "why_tests_cant": "All orders of all plans.", "anchors": ["src/sat/partial_order.cpp", "src/sat/state_formula.cpp: get_partial_state_atoms"]}
{"id": "C83", "title": "The partial order encoding is exact for all leafs", "statement": "The models of the partial order encoding are exactly the executable orders, also with leafs that contain no action with effects.", "quantifier": "every well-formed problem and acyclic leaf graph", "why_tests_cant": "Needs an adversarial mix of leafs.", "anchors": ["src/sat/partial_order.cpp", "src/sat/state_formula.cpp: get_partial_state_atoms"]}
{"id": "C84", "title": "The computation of the minimal implied values ends", "statement": "The fixed-point computation of minimal implied costs and distances ends after finitely many steps; if every task with a method has refinements whose sums fit into an int, no addition overflows.", "quantifier": "every hierarchy, also recursive", "why_tests_cant": "Each pass may enqueue the same task again; only an argument over all values bounds the number of passes.", "anchors": ["src/Model.cpp: calcMinimalImpliedX"]}
{"id": "C85", "title": "Minimal implied values are exact without recursion", "statement": "If no task contains itself and every abstract task has a method, the computed cost (distance) of a task is the least cost (number of actions and decompositions) of any of its refinements.", "quantifier": "every acyclic hierarchy, every task", "why_tests_cant": "The number of refinements is exponential.", "anchors": ["src/Model.cpp: calcMinimalImpliedX"]}
{"id": "C86", "title": "Binomial coefficients saturate at INT_MAX", "statement": "For 0 <= k <= n, bin returns the minimum of C(n,k) and INT_MAX provided that no product i*C(n,i), i <= k, exceeds the range of long; for other arguments it returns -1.", "quantifier": "all n and k", "why_tests_cant": "All n and k.", "anchors": ["src/translation/htnToSAS.cpp: bin"]}
{"id": "C87", "title": "A file is read as the problem it describes", "statement": "For every text that follows the input format of a well-formed description, reading succeeds and stores the described facts, variables, mutexes, invariants, actions, tasks and methods (each precondition once, orderings reduced); the stored problem is well-formed and, if no effect is conditional, has exactly the solutions and plan costs of the described problem. The total order flag holds exactly if all methods are totally ordered.", "quantifier": "every description, every text of the format (any blanks, any leading zeros, any text behind)", "why_tests_cant": "All files.", "anchors": ["src/Model.cpp: read, readClassical, readHierarchical"]}
{"id": "C88", "title": "The tables from facts to actions are exact", "statement": "precToAction, addToAction and delToAction contain, for every fact, exactly the actions with this fact as precondition, add effect, delete effect, each once and in increasing order.", "quantifier": "every file that describes a well-formed problem", "why_tests_cant": "All files.", "anchors": ["src/Model.cpp: readClassical, calcAddToActionMapping"]}
{"id": "C89", "title": "Planning-graph reachability is exact without doubled initial facts", "statement": "If no fact is made true at the beginning in two ways (by the state or by an add effect of an allowed action without preconditions), the planning graph contains exactly the facts, tasks and methods that are reachable in the delete relaxation restricted to the allowed tasks.", "quantifier": "every problem, state and set of allowed tasks without such doubled facts", "why_tests_cant": "Least fixpoint over arbitrary graphs; spurious entries only show up as weaker pruning.", "anchors": ["src/heuristics/planningGraph.cpp: calcReachability"]}
{"id": "C90", "title": "Planning-graph tasks, methods and useful facts follow from its actions", "statement": "For the set A of actions the planning graph reaches, its tasks and methods are exactly those derivable bottom-up from A through methods of allowed tasks, and its useful facts are exactly the goal facts and preconditions of A that do not hold in the state; no set contains duplicates and the task stack never overflows.", "quantifier": "every problem, state and set of allowed tasks", "why_tests_cant": "Counters over arbitrary method graphs with repeated subtasks.", "anchors": ["src/heuristics/planningGraph.cpp: calcReachability"]}
{"id": "C91", "title": "Planning-graph pruning is safe", "statement": "If a task network can be refined to an executable goal-reaching plan from the state (the allowed tasks being closed under decomposition), then all its tasks and all goal facts are reachable in the planning graph.", "quantifier": "every problem, state, task network, set of allowed tasks and plan", "why_tests_cant": "Quantifies over all refinements and plans.", "anchors": ["src/heuristics/planningGraph.cpp: calcReachability, taskReachable, factReachable"]}
{"id": "C92", "title": "Planning-graph reachability contains only reachable elements", "statement": "Every fact, task and method in the planning graph is reachable in the delete relaxation.", "quantifier": "every problem, state and set of allowed tasks", "why_tests_cant": "A fact added by two actions without preconditions is processed twice and its users' counters are decremented twice; only visible as weaker pruning.", "anchors": ["src/heuristics/planningGraph.cpp: calcReachability 68-78"]}
{"id": "C93", "title": "AND/OR landmark sets are complete", "statement": "Without a planning graph, a node of the AND/OR graph keeps the full set exactly if it cannot be derived, and otherwise its set contains exactly the facts, tasks and methods that occur in every derivation; the fixed-point iteration ends and stays within its arrays.", "quantifier": "every problem, state, numbering of the components and earlier content of the containers", "why_tests_cant": "The order of updates depends on heap keys and on the sizes of changing sets; a lost update only shows as missing or spurious landmarks.", "anchors": ["src/heuristics/landmarks/lmExtraction/LmCausal.cpp: pCalcLMs 143-217, setUnion, setIntersection, resizeNOCOPY"]}
{"id": "C94", "title": "Landmarks with planning graph", "statement": "When the nodes are restricted to those reachable in the planning graph, the landmarks of every node still occur in every derivation from the allowed tasks, the tasks with the full set are exactly the underivable ones, and no landmark of a task is lost except facts of the state.", "quantifier": "every problem, state, set of allowed tasks and planning graph result below INT_MAX", "why_tests_cant": "Needs interplay of two analyses, one of which overapproximates (C92).", "anchors": ["src/heuristics/landmarks/lmExtraction/LmCausal.cpp: reachable 635-647", "src/heuristics/dofHeuristics/hhDOfree.cpp 817"]}
{"id": "C95", "title": "Global landmarks occur in every solution", "statement": "The landmarks returned for a search node occur in every solution of its task network: the facts hold at some time of the plan, the tasks are in some network on the way, the methods are applied; this holds without and with planning graph.", "quantifier": "every problem, state, task network, refinement, linearisation and plan", "why_tests_cant": "Solutions are unbounded and not enumerable.", "anchors": ["src/heuristics/landmarks/lmExtraction/LmCausal.cpp: copyGlobalLMsToResultSet 240-283", "src/heuristics/landmarks/hhLMCount.cpp: getHValue"]}
{"id": "C96", "title": "Global landmarks are the landmarks of tasks and goal", "statement": "If all contained tasks and goal facts are derivable, the returned set is exactly the union of their landmark sets, each element decoded to the right kind and number.", "quantifier": "every problem, state and set of contained tasks", "why_tests_cant": "Off-by-one of the node numbering decodes to other landmarks without crashing.", "anchors": ["src/heuristics/landmarks/lmExtraction/LmCausal.cpp: copyGlobalLMsToResultSet 240-304"]}
{"id": "C97", "title": "Global landmarks are defined for every node", "statement": "Collecting the global landmarks reads only elements of the containers, for every state and every set of contained tasks.", "quantifier": "every problem, state and set of contained tasks", "why_tests_cant": "Reading past the container of an underivable goal is undefined behaviour that usually goes unnoticed.", "anchors": ["src/heuristics/landmarks/lmExtraction/LmCausal.cpp: copyGlobalLMsToResultSet 240-266"]}
{"id": "C98", "title": "Solution steps are freed exactly when unreachable", "statement": "At any time the allocated solution steps are exactly those on the prev chains of existing search nodes.", "quantifier": "every history of node creations and deletions", "why_tests_cant": "The chains are shared between all successors of a node; a wrong counter shows only for particular deletion orders.", "anchors": ["src/ProgressionNetwork.cpp: ~solutionStep 27-34, ~searchNode 88-93", "src/Model.cpp: decompose 702-728, apply 1146-1165"]}
{"id": "C99", "title": "Node creation and deletion access only allocated objects", "statement": "Deleting an existing node, applying an applicable action and decomposing a ready task with one of its methods never read or write a freed object, and the results are those of a memory that never frees.", "quantifier": "every history of node creations and deletions, every configuration of the eager progressions", "why_tests_cant": "The deletion of intermediate nodes during eager progression touches objects shared with other nodes; a use after free mostly returns the old content.", "anchors": ["src/Model.cpp: decompose 604-956, apply 1001-1393", "src/ProgressionNetwork.cpp: destructors 27-104"]}
{"id": "C100", "title": "Deleting nodes does not change the search", "statement": "The search loop with its deletions returns the same result as without, and all steps of the returned solution are still allocated.", "quantifier": "every problem, configuration, fringe, visited list and heuristic that depend only on the content of nodes", "why_tests_cant": "A node deleted too early or twice depends on the run.", "anchors": ["src/search/PriorityQueueSearch.h: 74-256"]}
{"id": "C101", "title": "Continued search keeps its best solution", "statement": "If the search continues after the first solution, the solution steps of the best solution are still allocated when it is printed.", "quantifier": "every problem and configuration", "why_tests_cant": "Reading freed memory usually returns the old content.", "anchors": ["src/search/PriorityQueueSearch.h: 142-152, 208-218, 254-255, 281-292", "src/flags.h: 46, 54-59"]}
{"id": "C102", "title": "The translation of totally ordered problems is defined", "statement": "Translating the problem to SAS+ (sasPlus, reorderTasks, tohtnToStrips, writeToFastDown) reads and writes only inside its arrays and only initialised cells, for every progression bound of at least one.", "quantifier": "every well-formed totally ordered problem whose input variables and initial state meet the guards, every bound", "why_tests_cant": "Reads outside of an array usually return something.", "anchors": ["src/translation/htnToSAS.cpp: 67-366, 952-1166, 2208-2509"]}
{"id": "C103", "title": "The translation of totally ordered problems is sound", "statement": "The actions printed for a plan of the written task, without the operators written for inapplicable leading tasks, are a solution of the HTN problem and have the same cost.", "quantifier": "every such problem, bound, and plan (of any length) of the written task", "why_tests_cant": "Plans of all lengths for all bounds.", "anchors": ["src/translation/htnToSAS.cpp: 67-366, 952-1166, 2208-2509, 2594-2664"]}
{"id": "C104", "title": "The translation of totally ordered problems is complete", "statement": "For every solution there is a bound such that for all larger bounds the written task has a plan that prints this solution and has the same cost.", "quantifier": "every such problem, every solution and all sufficiently large bounds", "why_tests_cant": "Solutions of all lengths and all bounds.", "anchors": ["src/translation/htnToSAS.cpp: 67-366, 952-1166, 2208-2509", "src/translation/translationController.cpp: 158-240"]}
{"id": "C105", "title": "The written planning task is well-formed", "statement": "All values in the initial state, goal, prevail conditions and effects of the written task lie in the domains of their variables.", "quantifier": "every such problem and bound", "why_tests_cant": "A single operator out of range makes the planner reject or misread the file.", "anchors": ["src/translation/htnToSAS.cpp: 2208-2509"]}
{"id": "C106", "title": "Soundness does not depend on the listing of the subtasks", "statement": "Soundness of the translation also holds if the subtasks of a method are not listed in the order of their execution.", "quantifier": "every totally ordered problem", "why_tests_cant": "Most domains list the subtasks in order.", "anchors": ["src/translation/htnToSAS.cpp: 304-366"]}
{"id": "C107", "title": "Printed plans may contain every operator", "statement": "The actions printed for a plan are a solution also if the plan contains operators that were written for inapplicable leading tasks.", "quantifier": "every plan of the written task", "why_tests_cant": "An optimal planner rarely inserts such operators.", "anchors": ["src/translation/htnToSAS.cpp: 2357-2400, 2594-2664"]}
{"id": "C108", "title": "The initial state is translated correctly however it is listed", "statement": "Soundness holds for every initial state.", "quantifier": "every totally ordered problem", "why_tests_cant": "The grounder usually lists one fact for almost each variable.", "anchors": ["src/translation/htnToSAS.cpp: 170-188"]}
{"id": "C109", "title": "Leading tasks are merged correctly whatever their preconditions", "statement": "Soundness holds also if two leading tasks of a method require different values of a variable not changed in between.", "quantifier": "every totally ordered problem", "why_tests_cant": "Such methods are never applicable and thus rare.", "anchors": ["src/translation/htnToSAS.cpp: 218-301"]}
{"id": "C110", "title": "Adding wins over deleting in the written task", "statement": "Completeness holds also if actions add and delete the same fact.", "quantifier": "every totally ordered problem", "why_tests_cant": "Needs actions that add and delete a fact.", "anchors": ["src/translation/htnToSAS.cpp: 145-169"]}
{"id": "C111", "title": "Reordering keeps all subtasks", "statement": "The reordered list contains all subtasks of the method, for every partial order.", "quantifier": "every acyclic method", "why_tests_cant": "The encoding is meant for total orders but the function is called for every method.", "anchors": ["src/translation/htnToSAS.cpp: 304-366"]}
{"id": "C112", "title": "The decomposition tree printed for a translated plan is valid", "statement": "planToHddl reads only cells that were written, and the printed rows form a decomposition tree of the printed actions (root, every subtask present once with the right task, order of the actions respected), for every plan without operators written for inapplicable leading tasks.", "quantifier": "every totally ordered problem meeting the guards of the translation, every bound, every plan of any length", "why_tests_cant": "The search for the row of a subtask compares tasks and stack positions, both of which occur again and again in long plans.", "anchors": ["src/translation/htnToSAS.cpp: 2528-2734"]}
{"id": "C113", "title": "The decomposition tree is valid for all plans", "statement": "The rows printed for any plan of the written task form a decomposition tree.", "quantifier": "every plan of the written task", "why_tests_cant": "An optimal planner rarely inserts operators without effect.", "anchors": ["src/translation/htnToSAS.cpp: 2528-2734, 2357-2400"]}
{"id": "C114", "title": "The push translation of partially ordered problems is defined", "statement": "htnToCondSorted and writeToFastDown read only cells that exist and were written, so that a task is written.", "quantifier": "every partially ordered problem whose methods list their subtasks in line with the orderings, the last two ordered (unless there are no orderings); every bound >= 1; uninitialised memory zero", "why_tests_cant": "The arrays are indexed by triangular numbers of pairs of positions; their contents depend on the bound.", "anchors": ["src/translation/htnToSAS.cpp: 547-949, 2208-2509"]}
{"id": "C115", "title": "The push translation is sound", "statement": "The actions named by any plan of the written task with conditional effects are a solution of the HTN problem, with the same cost.", "quantifier": "every partially ordered problem whose methods list their subtasks in line with the orderings, the last two ordered (unless there are no orderings); every bound >= 1; uninitialised memory zero; every plan of any length", "why_tests_cant": "Constraints between positions are copied by conditional effects whenever a task is decomposed or moved; wrong copies only show for particular interleavings.", "anchors": ["src/translation/htnToSAS.cpp: 547-949, 2446-2491"]}
{"id": "C116", "title": "The push translation is complete", "statement": "For every solution there is a bound from which on all written tasks have a plan that names it, with the same cost.", "quantifier": "every partially ordered problem whose methods list their subtasks in line with the orderings, the last two ordered (unless there are no orderings); every bound >= 1; uninitialised memory zero; every solution", "why_tests_cant": "Holes between occupied positions have to be closed by moves that themselves have to be unlocked.", "anchors": ["src/translation/htnToSAS.cpp: 547-949"]}
{"id": "C117", "title": "The task written by the push translation is well-formed", "statement": "All values in initial state, goal, preconditions, effects and conditional effects lie in the domains of their variables.", "quantifier": "every problem, bound and memory contents for which the translation is defined", "why_tests_cant": "Facts are converted by an array over all variables; an index off by one is still a fact.", "anchors": ["src/translation/htnToSAS.cpp: 2208-2509"]}
{"id": "C118", "title": "The push translation is defined whatever the uninitialised memory contains", "statement": "A task is written for all contents of the memory.", "quantifier": "every contents of uninitialised memory", "why_tests_cant": "Fresh memory is usually zero.", "anchors": ["src/translation/htnToSAS.cpp: 714-730, 877-901, 2446-2491"]}
{"id": "C119", "title": "The push translation is sound whatever the uninitialised memory contains", "statement": "If a task is written its plans name solutions, for all contents of the memory.", "quantifier": "every contents of uninitialised memory", "why_tests_cant": "Fresh memory is usually zero.", "anchors": ["src/translation/htnToSAS.cpp: 714-730, 877-901, 2446-2491"]}
{"id": "C120", "title": "The push translation is sound for methods that order only some subtasks", "statement": "Plans name solutions if every method lists its subtasks in line with its orderings.", "quantifier": "every partially ordered problem listed in line with the orderings", "why_tests_cant": "Benchmarks often have total orders, no orderings at all or an ordering of the last two subtasks.", "anchors": ["src/translation/htnToSAS.cpp: 304-377"]}
{"id": "C121", "title": "The encoding pocond is sound", "statement": "Plans of the task written for BaseCondEffects name solutions.", "quantifier": "every problem meeting the guards", "why_tests_cant": "The flag passed to the writer is computed in another file.", "anchors": ["src/translation/translationController.cpp: 41-43, 73", "src/translation/htnToSAS.cpp: 2446-2450"]}
{"id": "C122", "title": "The decomposition printed for a plan of the push translation is a decomposition tree", "statement": "planToHddl prints, for every plan of the task written by the push translation, rows that form a valid decomposition tree of the HTN problem.", "quantifier": "every problem meeting the guards of the push translation; every plan of the written task", "why_tests_cant": "It goes wrong only if a task is moved to the place of another one that was decomposed before.", "anchors": ["src/translation/htnToSAS.cpp: 2528-2734"]}
{"id": "C123", "title": "The choices of positions are enumerated", "statement": "bin(n,k) is the binomial coefficient (before it is cut at INT_MAX); combination(n,k,i) for i below it yields increasing lists of k positions below n, each exactly once, and reads only its own array.", "quantifier": "every n and k <= n", "why_tests_cant": "The array is incremented in place with a carry; a wrong carry skips choices only for some n and k.", "anchors": ["src/translation/htnToSAS.cpp: 12-51"]}
{"id": "C124", "title": "The translation without conditional effects is defined", "statement": "htnToStrips and writeToFastDown read only cells that exist and were written, so that a task is written.", "quantifier": "every partially ordered problem whose methods list their subtasks in line with the orderings, the last two ordered (unless there are no orderings); every bound >= 1; at least one action or method; less than INT_MAX choices of positions for each method", "why_tests_cant": "Indices of constraints and operators are computed from the bound and the number of choices.", "anchors": ["src/translation/htnToSAS.cpp: 1481-1850, 2208-2509"]}
{"id": "C125", "title": "The translation without conditional effects is sound", "statement": "The actions named by any plan of the written task are a solution of the HTN problem; the cost of the plan is the cost of the solution plus the cost of the first action for each operator for an empty task.", "quantifier": "every partially ordered problem whose methods list their subtasks in line with the orderings, the last two ordered (unless there are no orderings); every bound >= 1; if the first subtask of a method precedes all others, then all others precede the last one; every plan of any length", "why_tests_cant": "Whether a method has a last task is decided on rewritten indices; wrong decisions only show for particular orders.", "anchors": ["src/translation/htnToSAS.cpp: 1481-1850, 312-330, 388-415"]}
{"id": "C126", "title": "The translation without conditional effects is complete", "statement": "For every solution there is a bound such that all tasks written for it or for larger bounds have a plan that names the solution.", "quantifier": "every partially ordered problem whose methods list their subtasks in line with the orderings, the last two ordered (unless there are no orderings); every bound >= 1; if the first subtask of a method precedes all others, then all others precede the last one; every solution", "why_tests_cant": "New subtasks have to be placed at the first free positions; whether these are marked as free depends on the whole execution.", "anchors": ["src/translation/htnToSAS.cpp: 1481-1850"]}
{"id": "C127", "title": "The task written by the translation without conditional effects is well-formed", "statement": "All values in initial state, goal, preconditions and effects lie in the domains of their variables.", "quantifier": "every problem and bound for which the translation is defined", "why_tests_cant": "Facts are converted by an array over all variables; an index off by one is still a fact.", "anchors": ["src/translation/htnToSAS.cpp: 1481-1850, 2208-2509"]}
{"id": "C128", "title": "The translation without conditional effects is sound for methods whose first subtask precedes all others", "statement": "Plans name solutions if every method lists its subtasks in line with its orderings, whatever subtask comes last.", "quantifier": "every partially ordered problem whose methods list their subtasks in line with the orderings, the last two ordered (unless there are no orderings); every bound >= 1", "why_tests_cant": "Methods with a first but no last subtask need at least four subtasks or unusual orderings.", "anchors": ["src/translation/htnToSAS.cpp: 312-330, 388-415, 1774-1811"]}
{"id": "C129", "title": "Plans of the translation without conditional effects cost as much as the solutions they print", "statement": "The cost of every plan of the written task equals the cost of the actions that are printed for it.", "quantifier": "every partially ordered problem whose methods list their subtasks in line with the orderings, the last two ordered (unless there are no orderings); every bound >= 1", "why_tests_cant": "The optimal plan is still a plan; only costs of problems with non-uniform costs differ.", "anchors": ["src/translation/htnToSAS.cpp: 1571-1599, 2350-2356"]}
{"id": "C130", "title": "The translation with parallel sequences is defined", "statement": "htnPS and writeToFastDown read and write only cells that exist, so that a task is written.", "quantifier": "every problem whose methods list their subtasks in line with the orderings, the last two ordered (unless there are no orderings), and whose methods of the initial task have the same number of subtasks; every bound >= 1; at least one method of the initial task", "why_tests_cant": "The cells for constraints have numbers computed from pairs of sequences with shifts by one; an index outside is not noticed by tests.", "anchors": ["src/translation/htnToSAS.cpp: 1169-1479, 2208-2509", "src/translation/translationController.cpp: 18-62, 190-203"]}
{"id": "C131", "title": "The translation with parallel sequences is sound", "statement": "The actions named by any plan of the written task are a solution of the HTN problem, and the costs are equal. Methods other than those of the initial task need not be totally ordered.", "quantifier": "every problem whose methods list their subtasks in line with the orderings, the last two ordered (unless there are no orderings), and whose methods of the initial task have the same number of subtasks; every bound >= 1", "why_tests_cant": "Wrong constraints between sequences only matter for plans that interleave them; the planner returns one plan.", "anchors": ["src/translation/htnToSAS.cpp: 1169-1479, 2208-2509", "src/translation/translationController.cpp: 18-62, 190-203"]}
{"id": "C132", "title": "The translation with parallel sequences is complete", "statement": "For every solution there is a bound such that all tasks written for it or for larger bounds have a plan that names the solution.", "quantifier": "every problem whose methods list their subtasks in line with the orderings, the last two ordered (unless there are no orderings), and whose methods of the initial task have the same number of subtasks; every bound >= 1; all methods but those of the initial task totally ordered; the initial task not a subtask; every solution", "why_tests_cant": "Absence of plans for some bound cannot be observed for all bounds.", "anchors": ["src/translation/htnToSAS.cpp: 1169-1479, 2208-2509", "src/Model.cpp: 3049-3075"]}
{"id": "C133", "title": "The task written by the translation with parallel sequences is well-formed", "statement": "All values in initial state, goal, preconditions and effects lie in the domains of their variables.", "quantifier": "every problem and bound for which the translation is defined", "why_tests_cant": "Facts are converted by an array over all variables; an index off by one is still a fact.", "anchors": ["src/translation/htnToSAS.cpp: 1169-1479, 2208-2509"]}
{"id": "C134", "title": "The translation with parallel sequences is sound for every initial method", "statement": "Plans name solutions, whatever the numbers of subtasks of the methods of the initial task.", "quantifier": "every problem whose methods list their subtasks in line with the orderings, the last two ordered (unless there are no orderings), totally ordered besides the methods of the initial task; every bound >= 1", "why_tests_cant": "Problems with several methods of the initial task are rare in benchmarks.", "anchors": ["src/translation/htnToSAS.cpp: 1398-1434", "src/translation/translationController.cpp: 190-203"]}
{"id": "C135", "title": "The translation with parallel sequences is complete for recursive initial tasks", "statement": "Every solution is named by a plan for all bounds large enough, even if the initial task is a subtask.", "quantifier": "every problem whose methods list their subtasks in line with the orderings, the last two ordered (unless there are no orderings), and whose methods of the initial task have the same number of subtasks; every bound >= 1; all methods but those of the initial task totally ordered; every solution", "why_tests_cant": "Absence of plans for all bounds cannot be observed.", "anchors": ["src/translation/htnToSAS.cpp: 1398-1434", "src/Model.cpp: 3049-3075"]}
{"id": "C136", "title": "The translation with parallel sequences is complete for partially ordered methods", "statement": "Every solution is named by a plan for all bounds large enough, even if methods below the initial task are not totally ordered.", "quantifier": "every problem whose methods list their subtasks in line with the orderings, the last two ordered (unless there are no orderings), and whose methods of the initial task have the same number of subtasks; every bound >= 1; the initial task not a subtask; every solution", "why_tests_cant": "Absence of plans for all bounds cannot be observed.", "anchors": ["src/translation/htnToSAS.cpp: 1435-1475, 388-415"]}
{"id": "C137", "title": "A bound admits exactly the solutions that need no more cells", "statement": "The plans of the task written for a bound by the encoding for total orders name exactly the solutions that can be carried out with a stack of that size.", "quantifier": "every problem with the subtasks of every method totally ordered and listed in this order, leading actions that agree on variables, s0 found; every bound >= 1; every action sequence", "why_tests_cant": "The set of plans for one bound is infinite; a bound handled one too small or too large only shows for problems at the limit.", "anchors": ["src/translation/htnToSAS.cpp: 952-1167", "src/translation/translationController.cpp: 18-62"]}
{"id": "C138", "title": "The first bound is a lower bound", "statement": "minImpliedPGB[t] is at most the number of cells of any refinement of t, at any time of the computation; tasks written for smaller bounds than the first one have no plan.", "quantifier": "every problem with the subtasks of every method totally ordered and listed in this order, leading actions that agree on variables, s0 found; every task, refinement, bound and plan", "why_tests_cant": "A bound that is too large skips solutions silently: larger bounds still have plans, only later.", "anchors": ["src/translation/htnToSAS.cpp: 420-539", "src/translation/translationController.cpp: 187-213"]}
{"id": "C139", "title": "The computation of the first bound ends", "statement": "calcMinimalProgressionBound ends regularly or with an overflow; regularly if every task with methods has a refinement whose number of cells is in the range of int.", "quantifier": "every problem; both modes", "why_tests_cant": "Termination is not observable by finite tests.", "anchors": ["src/translation/htnToSAS.cpp: 432-539"]}
{"id": "C140", "title": "The first bound is attained without recursion", "statement": "minImpliedPGB[t] is the least number of cells for every task.", "quantifier": "every totally ordered problem without recursion and empty methods, in which all tasks have methods", "why_tests_cant": "Minimality quantifies over all refinements.", "anchors": ["src/translation/htnToSAS.cpp: 471-527"]}
{"id": "C141", "title": "The search over bounds finds a solution with the least bound", "statement": "Starting from the first bound with steps of one, the search ends with a solution and the least possible bound if some solution can be carried out with at most 5000000 cells, otherwise without a solution.", "quantifier": "every problem with the subtasks of every method totally ordered and listed in this order, leading actions that agree on variables, s0 found; every complete planner", "why_tests_cant": "The loop depends on an external planner; needs all problems and planners.", "anchors": ["src/translation/translationController.cpp: 187-265", "src/translation/htnToSAS.cpp: 421-430"]}
{"id": "C142", "title": "The search over bounds is complete for partially ordered problems", "statement": "For every solvable problem there is a number such that the search with any start and step ends with a solution if the number plus the step is at most the maximal bound.", "quantifier": "every problem of C114-C117, every complete planner, start and step >= 1", "why_tests_cant": "Quantifies over all planners and start values.", "anchors": ["src/translation/translationController.cpp: 187-265"]}
{"id": "C143", "title": "The first bound is computed without overflow for every problem", "statement": "calcMinimalProgressionBound ends regularly.", "quantifier": "every totally ordered problem", "why_tests_cant": "Takes about 2^31 iterations to show.", "anchors": ["src/translation/htnToSAS.cpp: 471-527"]}
{"id": "C144", "title": "The first bound suffices for a refinement", "statement": "If the initial task has a refinement, it has one that needs at most the first bound.", "quantifier": "every totally ordered problem", "why_tests_cant": "The bound is only visible as the start of the search.", "anchors": ["src/translation/htnToSAS.cpp: 462-527"]}
{"id": "C145", "title": "The first bound is a lower bound for partially ordered problems", "statement": "Tasks written by the push encoding for smaller bounds than the first one have no plan.", "quantifier": "every problem of C114-C117, every bound and plan", "why_tests_cant": "A plan for a smaller bound is never searched for.", "anchors": ["src/translation/htnToSAS.cpp: 475-499", "src/translation/translationController.cpp: 187-213"]}
{"id": "C146", "title": "The search over bounds always ends", "statement": "The search ends for every step size.", "quantifier": "every complete planner, start and step size >= 0", "why_tests_cant": "Non-termination cannot be observed.", "anchors": ["src/translation/translationController.cpp: 219-260"]}
{"id": "C147", "title": "The SAT planner prints a decomposition of its plan", "statement": "For every model of the formula the output is defined; the printed actions are numbered from 0 on and are a solution; the lines, up to the order of subtasks within a line, are a decomposition tree of the initial task with exactly these actions; each line lists its subtasks in execution order.", "quantifier": "every totally ordered problem, every depth, every pruning mode with and without mutexes, every model of the formula", "why_tests_cant": "The models a SAT solver returns are arbitrary; numbering mistakes show only for particular shapes of the tree (tasks passed down, unused children).", "anchors": ["src/sat/sat_planner.cpp: 35-123", "src/sat/pdt.cpp: 620-688"]}
{"id": "C148", "title": "Printed lines list subtasks as the method does", "statement": "The j-th number of a printed line is the j-th subtask of the method in the input.", "quantifier": "every totally ordered problem and model", "why_tests_cant": "Only visible for methods whose listing differs from the order.", "anchors": ["src/sat/pdt.cpp: 673-688"]}
{"id": "C149", "title": "Images and preimages of the symbolic planner are exact", "statement": "The transition relation of every action is defined; the image of a BDD stands for exactly the states that result from executing the action in a state of the BDD, the preimage for exactly the states in which the action is executable and leads to a state of the BDD; both keep the auxiliary variables.", "quantifier": "every well-formed problem and layout of variables, every action, every BDD over current and auxiliary variables whose states give each multi-valued variable one value", "why_tests_cant": "BDDs denote sets of states that are too large to enumerate; a wrong index shows only for particular layouts of variables.", "anchors": ["src/symbolic_search/transition_relation.cpp: 19-111", "src/symbolic_search/sym_variables.cpp: 43-153"]}
{"id": "C150", "title": "BDDs of initial state and goal are exact", "statement": "The BDD of the initial state stands for exactly the initial state, the BDD of the goal for exactly the goal states.", "quantifier": "every well-formed problem and layout of variables", "why_tests_cant": "The sets of goal states are exponential in the number of variables.", "anchors": ["src/symbolic_search/sym_variables.cpp: 165-219", "src/symbolic_search/sym_variables.cpp: 241-262"]}
{"id": "C151", "title": "Exactness holds for every input", "statement": "C149 and C150 hold without assumptions on effects and initial values.", "quantifier": "every problem", "why_tests_cant": "Inputs with such effects are rare in benchmark sets.", "anchors": ["src/symbolic_search/transition_relation.cpp: 32-70", "src/symbolic_search/sym_variables.cpp: 165-219"]}
{"id": "C152", "title": "Costs reported by the symbolic planner are reached", "statement": "If the symbolic planner reports a plan, the problem has a solution whose costs are at most the reported costs; in particular unsolvable problems are never reported solved.", "quantifier": "every well-formed totally ordered problem whose methods list their subtasks in order, every number of steps", "why_tests_cant": "The automaton accumulates relations between states over unboundedly many layers of costs and depth; the states and recursive decompositions are unbounded.", "anchors": ["src/symbolic_search/automaton.cpp: 1145-1777"]}
{"id": "C153", "title": "The search of the symbolic planner is defined", "statement": "Running the symbolic planner reads only existing entries of its data structures.", "quantifier": "every well-formed totally ordered problem with at most two subtasks per method", "why_tests_cant": "An invalid read of an empty map needs not crash.", "anchors": ["src/symbolic_search/automaton.cpp: 1282-1312", "src/symbolic_search/automaton.cpp: 1507-1660"]}
{"id": "C154", "title": "Unsolvability reported by the symbolic planner is right", "statement": "If the symbolic planner reports that there is no plan, there is none.", "quantifier": "every well-formed totally ordered problem with at most two subtasks per method", "why_tests_cant": "Unsolvability cannot be tested for problems with infinitely many decompositions.", "anchors": ["src/symbolic_search/automaton.cpp: 1700-1777"]}
{"id": "C155", "title": "Plans of the symbolic planner are optimal", "statement": "The reported costs are the least costs of a solution.", "quantifier": "every well-formed totally ordered problem with at most two subtasks per method", "why_tests_cant": "The least costs are unknown for most problems.", "anchors": ["src/symbolic_search/automaton.cpp: 1230-1276", "src/symbolic_search/automaton.cpp: 1700-1764"]}
{"id": "C156", "title": "Edges in the queue of the symbolic planner have a state", "statement": "The search never stops because the state of an edge is empty.", "quantifier": "every well-formed totally ordered problem with at most two subtasks per method", "why_tests_cant": "Needs combinations of costs and recursion.", "anchors": ["src/symbolic_search/automaton.cpp: 1312-1325"]}
{"id": "C157", "title": "The symbolic planner respects orderings however subtasks are listed", "statement": "C152 holds for totally ordered methods whose subtasks are listed in another order.", "quantifier": "every well-formed totally ordered problem", "why_tests_cant": "Grounders usually list subtasks in order.", "anchors": ["src/symbolic_search/automaton.cpp: 1192-1204"]}
{"id": "C158", "title": "Models of the partially ordered SAT encoding are solutions", "statement": "For partially ordered problems the formula of every depth is defined; every model of it, if no leaf that contains only actions without effects is ordered after a leaf with effects, chooses the actions of a solution, and if every non-empty leaf contains an action with effects, the printed plan is a solution.", "quantifier": "every well-formed problem whose merged method orders are acyclic, every depth, every model", "why_tests_cant": "The formula grows exponentially with the depth, and the property concerns all its models.", "anchors": ["src/sat/sat_planner.cpp: 297-480", "src/sat/sat_planner.cpp: 93-115", "src/sat/pdt.cpp: 120-453", "src/sat/sog.cpp: 535-575"]}
{"id": "C159", "title": "The SAT planner for partially ordered problems returns solutions", "statement": "If every action has an effect, the search over depths is defined and returns only solutions, whatever models the solver returns.", "quantifier": "every well-formed problem whose merged method orders are acyclic, every sound solver, every number of rounds", "why_tests_cant": "The loop is unbounded and depends on the solver.", "anchors": ["src/sat/sat_planner.cpp: 782-836"]}
{"id": "C160", "title": "Plans of the SAT planner are solutions also with actions without effects", "statement": "C159 holds also if there are actions without effects.", "quantifier": "every well-formed problem whose merged method orders are acyclic, every sound solver", "why_tests_cant": "Needs an action without effects that depends on an earlier action.", "anchors": ["src/sat/sat_planner.cpp: 782-836", "src/sat/partial_order.cpp"]}
{"id": "C161", "title": "The SAT planner for partially ordered problems finds every solution", "statement": "If the problem has a solution, the formula of some depth is satisfiable.", "quantifier": "every well-formed problem whose merged method orders are acyclic, every solver", "why_tests_cant": "That all formulas of unboundedly many depths are unsatisfiable cannot be observed by running the planner.", "anchors": ["src/sat/sat_planner.cpp: 782-836", "src/sat/sog.cpp: 329-575"]}
{"id": "C162", "title": "The partially ordered SAT encoding is complete where merging methods adds no orderings", "statement": "If the methods of every task can be merged without imposing orderings of one method on another, every solution whose last action, if any, has an effect and whose actions add nothing they delete, makes the formula of every sufficiently large depth satisfiable.", "quantifier": "every well-formed problem with acyclic and exact merged orders, every such solution, every depth from some depth on", "why_tests_cant": "The depth is unbounded and the formula grows exponentially with it.", "anchors": ["src/sat/sat_planner.cpp: 297-480", "src/sat/pdt.cpp: 120-453", "src/sat/sog.cpp: 329-575"]}
{"id": "C163", "title": "The SAT planner for partially ordered problems decides solvability where merging methods adds no orderings", "statement": "If all actions have effects and add nothing they delete, the search over depths returns a plan after some number of rounds exactly if the problem has a solution, and every plan it returns is a solution.", "quantifier": "every well-formed problem with acyclic and exact merged orders, every sound and complete solver", "why_tests_cant": "The loop is unbounded and depends on the solver.", "anchors": ["src/sat/sat_planner.cpp: 782-836"]}
{"id": "C164", "title": "Merging totally ordered methods adds no orderings", "statement": "If all methods are totally ordered, the merged orders of the methods of every task impose on each method nothing but its own order; if the methods list their subtasks in order, the merged orders are acyclic as well.", "quantifier": "every well-formed problem, every set of methods", "why_tests_cant": "There are infinitely many problems.", "anchors": ["src/sat/sog.cpp: 329-575", "src/sat/pdt.cpp: 120-286"]}
{"id": "C165", "title": "The recursive local landmarks are computed exactly", "statement": "For every search node the generator of local landmarks terminates and returns exactly the tasks reachable from the tasks of the node by steps from a task to a common subtask of all its methods.", "quantifier": "every well-formed problem, every heap of plan steps, every node representing a task network", "why_tests_cant": "The traversal follows an arbitrary graph of plan steps and the rounds run to a fixpoint.", "anchors": ["src/heuristics/landmarks/lmExtraction/LMsInAndOrGraphs.cpp: 403-495"]}
{"id": "C166", "title": "Recursive local landmarks occur in every decomposition", "statement": "A recursive local landmark of a task of the network is in some network of every decomposition into actions.", "quantifier": "every well-formed problem, every network, every sequence of decompositions ending in a primitive network", "why_tests_cant": "There are infinitely many decompositions.", "anchors": ["src/heuristics/landmarks/lmExtraction/LMsInAndOrGraphs.cpp: 403-495"]}
{"id": "C167", "title": "The AND/OR landmarks contain the recursive local landmarks", "statement": "If the tasks and the goal are derivable, every recursive local landmark is among the landmarks of LmCausal.", "quantifier": "every well-formed problem, every node, every state", "why_tests_cant": "Relates two generators on all problems.", "anchors": ["src/heuristics/landmarks/lmExtraction/LMsInAndOrGraphs.cpp: 403-495", "src/heuristics/landmarks/lmExtraction/LmCausal.cpp: 143-283"]}
{"id": "C168", "title": "The recursive local landmarks contain all tasks that every decomposition contains", "statement": "Every task other than the initial one that is in some network of every decomposition of the initial network into actions is a recursive local landmark.", "quantifier": "every well-formed problem", "why_tests_cant": "Needs a statement about all decompositions.", "anchors": ["src/heuristics/landmarks/lmExtraction/LMsInAndOrGraphs.cpp: 403-495"]}
{"id": "C169", "title": "The formula with a cost bound is sound", "statement": "A model of the totally ordered formula with cost bound yields a solution whose cost, every action rounded down to the cost unit, is at most the bound; with unit 1 the cost is at most the bound.", "quantifier": "every well-formed totally ordered problem, cost table, bound, unit, depth, model", "why_tests_cant": "Quantifies over all formulas and models.", "anchors": ["src/sat/sat_planner.cpp: 481-514", "src/sat/sat_encoder.cpp: 221-260"]}
{"id": "C170", "title": "The formula with a cost bound is complete", "statement": "Every plan derived within the depth that costs at most the bound is the plan of a model.", "quantifier": "every problem, cost table, bound, unit, depth, plan", "why_tests_cant": "Unsatisfiability has to mean that no cheap plan exists.", "anchors": ["src/sat/sat_planner.cpp: 481-514"]}
{"id": "C171", "title": "All plans of the optimising SAT planner are solutions", "statement": "However long the optimisation runs, it is defined and prints only solutions, beginning with the plan printed without optimisation.", "quantifier": "every problem, every correct solver, every number of iterations", "why_tests_cant": "The loop does not end.", "anchors": ["src/sat/sat_planner.cpp: 707-780", "src/sat/sat_planner.cpp: 782-836"]}
{"id": "C172", "title": "The optimising SAT planner becomes optimal", "statement": "If all solutions cost less than 1000, then for every solution a plan that costs at most as much is printed eventually.", "quantifier": "every problem, every correct solver, every solution", "why_tests_cant": "A statement about an endless loop.", "anchors": ["src/sat/sat_planner.cpp: 707-780"]}
{"id": "C173", "title": "A new plan is cheaper", "statement": "Once a plan that costs less than 1000 was printed during the optimisation, a new plan is cheaper than an earlier one, unless that one is free.", "quantifier": "every problem, every correct solver, every iteration", "why_tests_cant": "The answers of the solver are arbitrary.", "anchors": ["src/sat/sat_planner.cpp: 758-764"]}
{"id": "C174", "title": "The cost bound holds for every plan", "statement": "Every plan printed by the optimisation is cheaper than the one before.", "quantifier": "every problem, every correct solver", "why_tests_cant": "Depends on the answers of the solver.", "anchors": ["src/sat/sat_planner.cpp: 28", "src/sat/sat_planner.cpp: 481-514", "src/sat/sat_planner.cpp: 715"]}
{"id": "C175", "title": "The optimisation returns to a finer unit", "statement": "If no plan was found for more than 15 depths, the cost unit becomes 1.", "quantifier": "every problem, every correct solver, every iteration", "why_tests_cant": "Concerns all reachable states of the loop.", "anchors": ["src/sat/sat_planner.cpp: 771-776"]}
{"id": "C176", "title": "The optimisation minimises the costs of the problem", "statement": "For every solution a plan that costs at most as much (in the costs of the input) is printed eventually.", "quantifier": "every problem, every correct solver, every solution", "why_tests_cant": "A statement about an endless loop.", "anchors": ["src/sat/sat_planner.cpp: 30", "src/sat/sat_planner.cpp: 1078-1086"]}
{"id": "C177", "title": "Compact sequences keep the order of methods", "statement": "With separate leaves for actions without effects, the subtasks of every totally ordered method go to increasing vertices along its total order, and every vertex is labelled with the subtasks placed on it.", "quantifier": "every well-formed totally ordered problem and every non-empty list of its methods", "why_tests_cant": "Quantifies over all sets of methods; greedy placement with gaps.", "anchors": ["src/sat/sog.cpp: 261-288", "src/sat/sog.cpp: 294-318"]}
{"id": "C178", "title": "Compact sequences separate actions without effects", "statement": "No vertex carries an action without effects together with an action with effects or an abstract task, and the vertices created for the first method carry no action without effects.", "quantifier": "every well-formed totally ordered problem and every list of its methods", "why_tests_cant": "Depends on the marks of all vertices after all methods.", "anchors": ["src/sat/sog.cpp: 261-288"]}
{"id": "C179", "title": "Leaves are not mixed", "statement": "In every tree built with separate leaves, no leaf has both actions with and without effects (so the state formula never ends the program), and no node has both abstract tasks and actions without effects.", "quantifier": "every well-formed problem, totally or partially ordered, every depth", "why_tests_cant": "Invariant of the recursive expansion including inherited actions.", "anchors": ["src/sat/pdt.cpp: 287-318", "src/sat/state_formula.cpp: 262-274"]}
{"id": "C180", "title": "The encoding with separate leaves is sound", "statement": "Whenever the formula of a depth is defined, the plans of its models are solutions; so are the plans printed by the planner.", "quantifier": "every totally ordered problem, depth, model, correct solver", "why_tests_cant": "Quantifies over all formulas and models.", "anchors": ["src/sat/sat_planner.cpp: 297-500", "src/sat/sat_planner.cpp: 782-836", "src/sat/pdt.cpp: 120-420"]}
{"id": "C181", "title": "The encoding with separate leaves is complete", "statement": "If the tree of a depth can be built, the formula is defined, and every plan with a derivation within the depth is the plan of a model; the planner does not give up if there is a solution.", "quantifier": "every totally ordered problem, depth, plan, correct solver", "why_tests_cant": "Unsatisfiability has to mean that there is no plan.", "anchors": ["src/sat/sat_planner.cpp: 297-500", "src/sat/sat_planner.cpp: 782-836"]}
{"id": "C182", "title": "Building the tree with separate leaves is defined", "statement": "The tree of every depth can be built without undefined behaviour.", "quantifier": "every well-formed totally ordered problem, every depth", "why_tests_cant": "Reading behind the end of an array need not be visible in a test.", "anchors": ["src/sat/pdt.cpp: 293-300"]}
{"id": "C183", "title": "A child is found for inherited actions (totally ordered)", "statement": "Expanding a node of a totally ordered problem never ends the program because no child suits an inherited action.", "quantifier": "every well-formed totally ordered problem, every node that occurs, every inherited action", "why_tests_cant": "Quantifies over all nodes of all trees.", "anchors": ["src/sat/pdt.cpp: 287-318", "src/sat/sog.cpp: 261-288"]}
{"id": "C184", "title": "A child is found for inherited actions (partially ordered)", "statement": "Expanding a node of a partially ordered problem never ends the program because no child suits an inherited action.", "quantifier": "every well-formed problem, every node that occurs, every inherited action", "why_tests_cant": "Quantifies over all nodes of all trees.", "anchors": ["src/sat/pdt.cpp: 287-318", "src/sat/sog.cpp: 539-575"]}
{"id": "C185", "title": "The ILP heuristic is admissible", "statement": "If a node has a solution that uses each action at most 100 times, hits the cuts of LM-cut and meets the landmarks, the node is not rejected and the value is at most the cost of the plan (optimal setting) or the number of its actions and method applications (satisficing setting), for every combination of planning graph and net change constraints, over the integers as well as the reals.", "quantifier": "every problem, node, solution, options, and optimal solution of the program", "why_tests_cant": "Quantifies over all plans of a node and all optima of the linear program.", "anchors": ["src/heuristics/dofHeuristics/hhDOfree.cpp: 428-1032"]}
{"id": "C186", "title": "The program is built from declared variables", "statement": "On every node the program is built without access outside an array; every variable is declared exactly once and only declared variables occur in constraints and objective, so that indices left from earlier calls are never used.", "quantifier": "every problem, node, options, cuts, landmarks", "why_tests_cant": "Stale indices of earlier calls silently name other variables.", "anchors": ["src/heuristics/dofHeuristics/hhDOfree.cpp: 463-550", "src/heuristics/dofHeuristics/hhDOfree.cpp: 552-979"]}
{"id": "C187", "title": "Integral solutions are relaxed plans", "statement": "With the full planning graph constraints, every action used by a feasible integral assignment can be executed and every goal fact be reached by used actions, if deletes are ignored (first achievers have no cycles).", "quantifier": "every problem, node, feasible integral assignment", "why_tests_cant": "Quantifies over all feasible assignments; cyclic support has to be excluded.", "anchors": ["src/heuristics/dofHeuristics/hhDOfree.cpp: 552-623"]}
{"id": "C188", "title": "Integral solutions are decompositions without order", "statement": "For every feasible integral assignment: the tasks of the network are used, each used abstract task has a used method, and the subtasks of used methods are used.", "quantifier": "every problem, node, options, feasible integral assignment", "why_tests_cant": "Quantifies over all feasible assignments.", "anchors": ["src/heuristics/dofHeuristics/hhDOfree.cpp: 625-655"]}
{"id": "C189", "title": "Early exits of the ILP heuristic are safe", "statement": "If the heuristic rejects a node because a goal fact or a task is not reachable, no plan solves the node; it returns 0 without a program only if the network is empty.", "quantifier": "every problem, node", "why_tests_cant": "Statement about the absence of plans.", "anchors": ["src/heuristics/dofHeuristics/hhDOfree.cpp: 428-461"]}
{"id": "C190", "title": "The ILP heuristic rejects no solvable problem", "statement": "The initial node of a solvable problem is never rejected.", "quantifier": "every problem, solution, options", "why_tests_cant": "Needs plans with very many uses of one action.", "anchors": ["src/heuristics/dofHeuristics/hhDOfree.cpp: 562-568"]}
{"id": "C191", "title": "Cuts and landmarks constrain the program", "statement": "Every feasible integral assignment uses a reachable action or method of every cut of LM-cut and every reachable task and method landmark; with the full planning graph constraints every reachable fact landmark is reached by the used actions.", "quantifier": "every problem, node, options, cuts, landmarks, feasible integral assignment", "why_tests_cant": "Quantifies over all feasible assignments.", "anchors": ["src/heuristics/dofHeuristics/hhDOfree.cpp: 795-841"]}
{"id": "C192", "title": "Net change constraints count the right actions", "statement": "For every feasible assignment and every reachable fact that does not hold, the actions that add the fact and do not need it are used at least as often as the actions that need it and add another value of its variable, and once more if the fact is a goal.", "quantifier": "every problem in finite domain form, node, fact, feasible assignment (integral or not)", "why_tests_cant": "Tables of producers and consumers have to be exact for all actions; a missing producer or consumer is visible on few inputs only.", "anchors": ["src/heuristics/dofHeuristics/hhDOfree.cpp: 258-318", "src/heuristics/dofHeuristics/hhDOfree.cpp: 929-979"]}
{"id": "C193", "title": "No disconnected cycles", "statement": "With the option cTdgFull every feasible integral assignment uses only tasks that come from a task of the network of the node by a chain of used methods.", "quantifier": "every problem, node, options, cuts, landmarks, feasible integral assignment", "why_tests_cant": "The constraints have to propagate through as many layers as a component has tasks, for components of any size and shape.", "anchors": ["src/heuristics/dofHeuristics/hhDOfree.cpp: 102-256", "src/heuristics/dofHeuristics/hhDOfree.cpp: 657-776"]}
{"id": "C194", "title": "Admissibility with cTdgFull", "statement": "The value of the heuristic with cTdgFull is at most the cost (satisficing: actions and methods) of every solution of the node that uses each recursive task at most 100 times.", "quantifier": "every problem, node, options, cuts and landmarks of the node, solution, result of the solver", "why_tests_cant": "Quantifies over all solutions and all assignments of the solver.", "anchors": ["src/heuristics/dofHeuristics/hhDOfree.cpp: 657-776", "src/heuristics/dofHeuristics/hhDOfree.cpp: 428-979"]}
{"id": "C195", "title": "The constraints of cTdgFull are defined", "statement": "The constraints are built without access outside an array and mention declared variables only.", "quantifier": "every problem, node, options", "why_tests_cant": "Index errors depend on the shape of the components.", "anchors": ["src/heuristics/dofHeuristics/hhDOfree.cpp: 102-256", "src/heuristics/dofHeuristics/hhDOfree.cpp: 657-776"]}
{"id": "C196", "title": "cTdgFull rejects no solvable problem", "statement": "With cTdgFull and no other constraints than those of the hierarchy the heuristic does not reject the initial node of a solvable problem.", "quantifier": "every solvable problem", "why_tests_cant": "Only fails for problems with many uses of a recursive task.", "anchors": ["src/heuristics/dofHeuristics/hhDOfree.cpp: 773"]}
{"id": "C197", "title": "Admissibility with the implications", "statement": "With cAndOrLmsFull the value of the heuristic is at most the cost (satisficing: actions and methods) of every solution of the node that uses each task and method at most 100 times, with and without cTdgFull.", "quantifier": "every problem, node, options, landmarks computed by LmCausal, solution, result of the solver", "why_tests_cant": "Quantifies over all solutions and all assignments; needs the soundness of the landmarks of every reachable task, method and fact, not only of the node.", "anchors": ["src/heuristics/dofHeuristics/hhDOfree.cpp: 842-927", "src/heuristics/landmarks/lmExtraction/LmCausal.cpp: 786-832"]}
{"id": "C198", "title": "Implications are enforced", "statement": "With cAndOrLmsFull every integral assignment that uses a derivable task, method or useful fact uses each of its landmarks that is a task, a method or a useful fact; fact landmarks are reachable.", "quantifier": "every problem, node, feasible integral assignment, element, landmark", "why_tests_cant": "Quantifies over all feasible assignments and all landmarks in the semantic sense.", "anchors": ["src/heuristics/dofHeuristics/hhDOfree.cpp: 842-927"]}
{"id": "C199", "title": "The implications are defined", "statement": "The iterators of LmCausal and the implications are built without access outside an array and mention declared variables only.", "quantifier": "every problem, node, options", "why_tests_cant": "Depends on the contents of the landmark tables.", "anchors": ["src/heuristics/dofHeuristics/hhDOfree.cpp: 842-927", "src/heuristics/landmarks/lmExtraction/LmCausal.cpp: 786-832"]}
{"id": "C200", "title": "The implications reject no solvable problem", "statement": "With cAndOrLmsFull and no planning graph constraints the heuristic does not reject the initial node of a solvable problem.", "quantifier": "every solvable problem", "why_tests_cant": "Only fails for plans with many uses of an action.", "anchors": ["src/heuristics/dofHeuristics/hhDOfree.h: 137", "src/heuristics/dofHeuristics/hhDOfree.cpp: 850-919"]}
{"id": "C201", "title": "Arguments of heuristics are read as written", "statement": "A heuristic with a list of arguments, given by position or by key, is read with its name and, for each key and position, the value that is given last; without a brace there are no arguments.", "quantifier": "every name without an opening brace, every list of arguments made of words", "why_tests_cant": "Quantifies over all strings and lists.", "anchors": ["src/SearchEngine.cpp: 48-98"]}
{"id": "C202", "title": "Arguments by position and by key are equivalent", "statement": "Arguments of rc2, dof and of the inverted heuristics in the order of the help text yield the same options as with their keys in any order, and the options described there.", "quantifier": "every list of values, every order of the keys", "why_tests_cant": "Quantifies over all values and permutations.", "anchors": ["src/SearchEngine.cpp: 119-158", "src/SearchEngine.cpp: 300-401"]}
{"id": "C203", "title": "pg=relaxed selects the relaxed planning graph", "statement": "The value relaxed of the argument pg of dof selects the time relaxed planning graph.", "quantifier": "every list of arguments", "why_tests_cant": "One value of one option.", "anchors": ["src/SearchEngine.cpp: 371-376", "src/SearchEngine.cpp: 152"]}
{"id": "C204", "title": "Equal heuristics are shared", "statement": "Two entries of the table of heuristics are the same object exactly if they have the same name and the same arguments, and each object is created for its first entry.", "quantifier": "every list of heuristics", "why_tests_cant": "Quantifies over all lists of strings.", "anchors": ["src/SearchEngine.cpp: 288-298"]}
{"id": "C205", "title": "More than one equals sign is rejected", "statement": "An argument with more than one equals sign ends the program.", "quantifier": "every argument", "why_tests_cant": "Only fails if nothing but white space is between the signs or before or after them.", "anchors": ["src/SearchEngine.cpp: 83-92"]}
{"id": "C206", "title": "Additional constraints never lower the value", "statement": "The value with the constraints against disconnected cycles is at least the value without, and the value with the implications between landmarks is at least the value without; rejected nodes stay rejected.", "quantifier": "every problem, node, options, result of the solver, as ILP and LP", "why_tests_cant": "Quantifies over all programs and all solver results.", "anchors": ["src/heuristics/dofHeuristics/hhDOfree.cpp: 657-776", "src/heuristics/dofHeuristics/hhDOfree.cpp: 842-927"]}
{"id": "C207", "title": "Breadth-first search", "statement": "With the heuristic zero and the g value path the search always takes a node of least depth from the queue, and the depth of the nodes taken never decreases.", "quantifier": "every problem, configuration, visited list, tie-breakers, every state of the search", "why_tests_cant": "Quantifies over all states of all searches.", "anchors": ["src/options.ggo: 38-40", "src/search/PriorityQueueSearch.h: 74-256", "src/search/fringes/OneQueueWAStarFringe.cpp: 11-48", "src/heuristics/hhZero.cpp: 20-28"]}
{"id": "C208", "title": "Depth-first search", "statement": "With the inverted heuristic modDepth, the g value none and a positive weight the search always takes a node of greatest depth from the queue.", "quantifier": "every problem, configuration, visited list, tie-breakers, every state of the search", "why_tests_cant": "Quantifies over all states of all searches.", "anchors": ["src/options.ggo: 38-40", "src/search/PriorityQueueSearch.h: 74-256", "src/search/fringes/OneQueueWAStarFringe.cpp: 11-48", "src/heuristics/hhSimple.cpp: 13-22"]}
{"id": "C209", "title": "Sharing heuristics does not change values", "statement": "Although equal specifications share one object, the search stores for every specification the value that it has on its own, drops a node exactly if one of them reports a dead end, and computes each object once per node.", "quantifier": "every list of specifications that can be parsed, every meaning of the names and arguments, every node", "why_tests_cant": "Quantifies over all lists of specifications and all heuristics.", "anchors": ["src/options.ggo: 33", "src/SearchEngine.cpp: 287-298", "src/search/PriorityQueueSearch.h: 117-136", "src/search/PriorityQueueSearch.h: 183-202"]}
