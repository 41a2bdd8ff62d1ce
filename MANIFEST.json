{
 "claims": [
  {
   "property": "C01",
   "status": "proved",
   "theorems": [
    "search_sound"
   ],
   "note": "Every Solved outcome of the modelled search prints an HTN solution; no assumption on visited list, heuristic, choice of task, fringe order (a bag)."
  },
  {
   "property": "C02",
   "status": "proved",
   "theorems": [
    "search_unsolvable"
   ],
   "note": "Unsolvable outcome implies no solution, for visited lists rejecting only nodes equal up to renaming and heuristics whose dead ends are dead ends."
  },
  {
   "property": "C03",
   "status": "proved",
   "theorems": [
    "apply_effects_exact",
    "apply_effects_defined"
   ],
   "note": "The parent is unchanged because the model is functional; aliasing of the state array is covered by the copy in apply (Model.cpp 1006-1008)."
  },
  {
   "property": "C04",
   "status": "proved",
   "theorems": [
    "isApplicable_exact",
    "isApplicable_defined",
    "isGoal_exact",
    "isGoal_rep"
   ],
   "note": ""
  },
  {
   "property": "C05",
   "status": "proved",
   "theorems": [
    "decompose_replaces_task",
    "history_represents"
   ],
   "note": "Rep relates a node to state and network; ready lists are exactly the minimal tasks."
  },
  {
   "property": "C06",
   "status": "proved",
   "theorems": [
    "apply_removes_task",
    "history_represents"
   ],
   "note": ""
  },
  {
   "property": "C07",
   "status": "proved",
   "theorems": [
    "search_cost",
    "history_represents"
   ],
   "note": ""
  },
  {
   "property": "C08",
   "status": "proved",
   "theorems": [
    "contained_exact"
   ],
   "note": "For every node of every history (any order of node creations, all eager progression settings) the modelled updateTaskCounterA/updateTaskCounterM never leave their arrays and the table is exactly the sorted multiset of task names of the represented network. The table is defined by folding the two updates over the chain of solution steps, which records the node creations."
  },
  {
   "property": "C09",
   "status": "proved",
   "theorems": [
    "plan_steps_exact",
    "all_freed",
    "counters_exact",
    "delete_defined"
   ],
   "note": "Stores with freed cells; any access to a freed cell is None. Histories of creation and deletion in any order; allocated = reachable from existing nodes; counters = number of pointers; deletion never touches a freed cell."
  },
  {
   "property": "C10",
   "status": "proved",
   "theorems": [
    "one_task_branching",
    "ready_action_branching",
    "search_unsolvable"
   ],
   "note": ""
  },
  {
   "property": "C100",
   "status": "proved",
   "theorems": [
    "search_memory_refines",
    "msearch_sound",
    "msearch_unsolvable",
    "msearch_no_crash"
   ],
   "note": "Lockstep of the search with deletions and the search of Htn_model; solution chain readable."
  },
  {
   "property": "C101",
   "status": "not_applicable",
   "theorems": [
    "best_readable_refuted"
   ],
   "note": "Refuted: with optimzeSol (OPTIMIZEUNTILTIMELIMIT or SAVESEARCHSPACE) the solution node is pushed to the fringe, popped and deleted while tnSol points to it."
  },
  {
   "property": "C102",
   "status": "proved",
   "theorems": [
    "to_defined"
   ],
   "note": "Guards: to_base, s0_found, single_effects, listed_in_order (Sas_spec.v)."
  },
  {
   "property": "C103",
   "status": "proved",
   "theorems": [
    "to_sound"
   ],
   "note": "Operators without conditions and effects are dropped before printing (see C107); guards as in C102 and leading_agree."
  },
  {
   "property": "C104",
   "status": "proved",
   "theorems": [
    "to_complete"
   ],
   "note": "Guards as in C103."
  },
  {
   "property": "C105",
   "status": "proved",
   "theorems": [
    "to_wf"
   ],
   "note": "Guards as in C103."
  },
  {
   "property": "C106",
   "status": "not_applicable",
   "theorems": [
    "any_listing_refuted"
   ],
   "note": "False: reorderTasks applies the inverse permutation; subtasks 1<0<2 are carried out as 0,2,1."
  },
  {
   "property": "C107",
   "status": "not_applicable",
   "theorems": [
    "all_printed_refuted"
   ],
   "note": "False: the operator for inapplicable leading tasks has no conditions and no effects, but its tasks are printed."
  },
  {
   "property": "C108",
   "status": "not_applicable",
   "theorems": [
    "any_initial_refuted"
   ],
   "note": "False: the search for the variable of a fact stops at the number of facts of the initial state."
  },
  {
   "property": "C109",
   "status": "not_applicable",
   "theorems": [
    "any_leading_refuted"
   ],
   "note": "False: calculatePrecsAndAdds keeps only the first precondition on a variable."
  },
  {
   "property": "C11",
   "status": "proved",
   "theorems": [
    "effectless_progression_safe",
    "eager_apply_safe"
   ],
   "note": ""
  },
  {
   "property": "C110",
   "status": "not_applicable",
   "theorems": [
    "any_effects_refuted"
   ],
   "note": "False: the negated fact follows the fact in the list of effects."
  },
  {
   "property": "C111",
   "status": "not_applicable",
   "theorems": [
    "reorder_permutes_refuted"
   ],
   "note": "False: order 0<1 of three subtasks gives [2;1;1]."
  },
  {
   "property": "C112",
   "status": "proved",
   "theorems": [
    "hddl_valid"
   ],
   "note": "Tree_spec.tree_ok is the specification of decomposition trees also used for the search engine"
  },
  {
   "property": "C113",
   "status": "not_applicable",
   "theorems": [
    "any_hddl_refuted"
   ],
   "note": "does not hold: operators written for inapplicable leading tasks are always applicable and get a row without a parent"
  },
  {
   "property": "C114",
   "status": "proved",
   "theorems": [
    "push_defined"
   ],
   "note": "Guards: base, listed_po, zeroed memory. Example PEx."
  },
  {
   "property": "C115",
   "status": "proved",
   "theorems": [
    "push_sound"
   ],
   "note": "Guards as in C114; equal cost included. Example PEx.plan_ex."
  },
  {
   "property": "C116",
   "status": "proved",
   "theorems": [
    "push_complete"
   ],
   "note": "Guards as in C114; holds for all bounds from a computable one on. Example PEx.complete_ex."
  },
  {
   "property": "C117",
   "status": "proved",
   "theorems": [
    "push_wf"
   ],
   "note": "For every memory contents and both values of hasCondEff. Example PEx.wf_ex."
  },
  {
   "property": "C118",
   "status": "not_applicable",
   "theorems": [
    "any_memory_defined_refuted"
   ],
   "note": "Does not hold: two conditional effects of every move operator are never initialised."
  },
  {
   "property": "C119",
   "status": "not_applicable",
   "theorems": [
    "any_memory_sound_refuted"
   ],
   "note": "Does not hold: an uninitialised conditional effect may set a goal fact."
  },
  {
   "property": "C12",
   "status": "proved",
   "theorems": [
    "closure_exact",
    "reduction_exact",
    "reduction_cyclic_refuted"
   ],
   "note": "Closure for every in-range ordering array; reduction for acyclic ones, with minimality. For cyclic orderings, which the reader does not reject, the reduction loses orderings (reduction_cyclic_refuted); the property excludes them."
  },
  {
   "property": "C120",
   "status": "not_applicable",
   "theorems": [
    "any_po_listing_refuted"
   ],
   "note": "Does not hold: reorderTasks loses a subtask, so that it is never executed."
  },
  {
   "property": "C121",
   "status": "not_applicable",
   "theorems": [
    "pocond_sound_refuted"
   ],
   "note": "Does not hold: the orderings are conditional effects, which are not written for this encoding."
  },
  {
   "property": "C122",
   "status": "not_applicable",
   "theorems": [
    "any_push_tree_refuted"
   ],
   "note": "The claim is false for the code: a move that arrives at the former place of a decomposed task overwrites the recorded head (subHeadsFixed is only set for primitive lines), so the printed row names -1 as subtask. Counterexample in the default configuration; see DESIGN.md section 5."
  },
  {
   "property": "C123",
   "status": "proved",
   "theorems": [
    "choices_enumerated"
   ],
   "note": "binom is the product before it is cut at INT_MAX, unbounded numbers"
  },
  {
   "property": "C124",
   "status": "proved",
   "theorems": [
    "strips_defined"
   ],
   "note": "guards to_base, s0_found, single_effects, listed_po, few_choices"
  },
  {
   "property": "C125",
   "status": "proved",
   "theorems": [
    "strips_sound"
   ],
   "note": "guards as C124 plus last_after_first; without it: C128. The statement includes the cost of the operators for empty tasks"
  },
  {
   "property": "C126",
   "status": "proved",
   "theorems": [
    "strips_complete"
   ],
   "note": "guards as C125"
  },
  {
   "property": "C127",
   "status": "proved",
   "theorems": [
    "strips_wf"
   ],
   "note": ""
  },
  {
   "property": "C128",
   "status": "not_applicable",
   "theorems": [
    "any_last_sound_refuted"
   ],
   "note": "refuted on the model: hasNoLastTask tests on rewritten indices whether the first subtask precedes all others; the last one is then put in the place of the decomposed task although other subtasks may come after it"
  },
  {
   "property": "C129",
   "status": "not_applicable",
   "theorems": [
    "strips_same_cost_refuted"
   ],
   "note": "refuted on the model: operators for empty tasks are written with the cost of the first action"
  },
  {
   "property": "C13",
   "status": "proved",
   "theorems": [
    "total_flag_exact",
    "total_order_test_exact"
   ],
   "note": "Both total-order tests of the code: the counting flag over all methods read and the depth first search over any listing of the successor sets."
  },
  {
   "property": "C130",
   "status": "proved",
   "theorems": [
    "pseq_defined"
   ],
   "note": ""
  },
  {
   "property": "C131",
   "status": "proved",
   "theorems": [
    "pseq_sound"
   ],
   "note": "With equal costs; only actions printed. Other methods need not be totally ordered."
  },
  {
   "property": "C132",
   "status": "proved",
   "theorems": [
    "pseq_complete"
   ],
   "note": ""
  },
  {
   "property": "C133",
   "status": "proved",
   "theorems": [
    "pseq_wf"
   ],
   "note": ""
  },
  {
   "property": "C134",
   "status": "not_applicable",
   "theorems": [
    "any_width_sound_refuted"
   ],
   "note": "False: the number of sequences is that of the first method of the initial task; further subtasks of other methods are dropped. Proved instead: pseq_sound for methods of the same width."
  },
  {
   "property": "C135",
   "status": "not_applicable",
   "theorems": [
    "any_init_complete_refuted"
   ],
   "note": "False: methods of the initial task are applicable once, in the first position. Proved instead: pseq_complete if the initial task is not a subtask."
  },
  {
   "property": "C136",
   "status": "not_applicable",
   "theorems": [
    "any_order_complete_refuted"
   ],
   "note": "False: the listing of the subtasks is the only order of execution (the code warns about it). Proved instead: pseq_complete for totally ordered methods."
  },
  {
   "property": "C137",
   "status": "proved",
   "theorems": [
    "bound_exact"
   ],
   "note": ""
  },
  {
   "property": "C138",
   "status": "proved",
   "theorems": [
    "values_lower",
    "bound_lower"
   ],
   "note": ""
  },
  {
   "property": "C139",
   "status": "proved",
   "theorems": [
    "bound_ends",
    "bound_defined"
   ],
   "note": "bound_ends: every problem, both modes; bound_defined: totally ordered problems."
  },
  {
   "property": "C14",
   "status": "not_applicable",
   "theorems": [
    "parallel_flag_refuted"
   ],
   "note": "False of the code: an initial method with a<c, b<c keeps isParallelSequences although it is not a set of unordered chains. What the flag does mean is C53."
  },
  {
   "property": "C140",
   "status": "proved",
   "theorems": [
    "bound_attained"
   ],
   "note": ""
  },
  {
   "property": "C141",
   "status": "proved",
   "theorems": [
    "to_search"
   ],
   "note": "The planner is a function with the contract complete_planner."
  },
  {
   "property": "C142",
   "status": "proved",
   "theorems": [
    "push_search"
   ],
   "note": "The planner is a function with the contract complete_planner."
  },
  {
   "property": "C143",
   "status": "not_applicable",
   "theorems": [
    "always_defined_refuted"
   ],
   "note": "False: the value of a task that is only refined by 1 -> 1 0 grows until the addition overflows. Proved instead: bound_defined."
  },
  {
   "property": "C144",
   "status": "not_applicable",
   "theorems": [
    "always_attained_refuted"
   ],
   "note": "False for recursive tasks: methods without primitive subtasks keep 0 until a subtask changes. Proved instead: bound_attained."
  },
  {
   "property": "C145",
   "status": "not_applicable",
   "theorems": [
    "po_bound_lower_refuted"
   ],
   "note": "False: unordered subtasks are treated as if the ones listed first were carried out first. Proved instead: bound_lower for total orders, push_search."
  },
  {
   "property": "C146",
   "status": "not_applicable",
   "theorems": [
    "search_always_ends_refuted"
   ],
   "note": "False for a step size of 0 (option --pgbsteps). Proved instead: to_search, push_search."
  },
  {
   "property": "C147",
   "status": "proved",
   "theorems": [
    "sat_output_correct",
    "full_output_correct"
   ],
   "note": ""
  },
  {
   "property": "C148",
   "status": "not_applicable",
   "theorems": [
    "listing_order_refuted"
   ],
   "note": "False: lines list subtasks in execution order. Proved instead: C147 (in_execution_order)."
  },
  {
   "property": "C149",
   "status": "proved",
   "theorems": [
    "image_exact",
    "preimage_exact",
    "valid_reachable"
   ],
   "note": ""
  },
  {
   "property": "C15",
   "status": "proved",
   "theorems": [
    "graph_sccs_exact",
    "sccs_from_exact",
    "task_sccs_exact",
    "unreachable_task_undefined"
   ],
   "note": "Both Tarjan implementations, any contents of the fresh arrays; fuel shown sufficient. task_sccs_exact needs every task to be reachable from the initial task (the code reads outside its arrays otherwise: unreachable_task_undefined)."
  },
  {
   "property": "C150",
   "status": "proved",
   "theorems": [
    "init_exact",
    "goal_exact"
   ],
   "note": ""
  },
  {
   "property": "C151",
   "status": "not_applicable",
   "theorems": [
    "add_and_delete_refuted",
    "missing_value_refuted"
   ],
   "note": "False: an action that adds and deletes the fact of a single-fact variable deletes it in the image; a multi-valued variable without initial fact gets its second fact. Proved with guards: C149, C150."
  },
  {
   "property": "C152",
   "status": "proved",
   "theorems": [
    "symbolic_sound",
    "symbolic_unsolvable"
   ],
   "note": ""
  },
  {
   "property": "C153",
   "status": "not_applicable",
   "theorems": [
    "symbolic_defined_refuted"
   ],
   "note": "False: the cost of the source edge is computed from two tracing fields that are equal also when the edge was not reached at the smaller cost, so the last element of an empty map is read (line 1309)."
  },
  {
   "property": "C154",
   "status": "not_applicable",
   "theorems": [
    "symbolic_complete_refuted"
   ],
   "note": "False: a solvable problem with costs 0 and one recursive method is reported unsolvable."
  },
  {
   "property": "C155",
   "status": "not_applicable",
   "theorems": [
    "symbolic_optimal_refuted"
   ],
   "note": "False: reported 5, a solution with costs 4 exists. The reported costs are always reached: C152."
  },
  {
   "property": "C156",
   "status": "not_applicable",
   "theorems": [
    "symbolic_nonempty_refuted"
   ],
   "note": "False: a solvable problem ends with the message that the state of an edge is empty."
  },
  {
   "property": "C157",
   "status": "not_applicable",
   "theorems": [
    "symbolic_any_listing_refuted"
   ],
   "note": "False: the condition for exchanging the subtasks tests that the ordering ends with a non-zero index, so 1 before 0 is never exchanged. Guard in C152: subtasks listed in order."
  },
  {
   "property": "C158",
   "status": "proved",
   "theorems": [
    "po_encoding_sound"
   ],
   "note": ""
  },
  {
   "property": "C159",
   "status": "proved",
   "theorems": [
    "po_planner_sound"
   ],
   "note": ""
  },
  {
   "property": "C16",
   "status": "proved",
   "theorems": [
    "can_reach_any_of_exact",
    "can_reach_any_of_directly_exact"
   ],
   "note": "Also the one-step query."
  },
  {
   "property": "C160",
   "status": "not_applicable",
   "theorems": [
    "po_planner_effectless_refuted"
   ],
   "note": "False: on a problem without solutions a plan is returned; an action without effects shares the position of the action that deletes its precondition. Guards in C158, C159."
  },
  {
   "property": "C161",
   "status": "not_applicable",
   "theorems": [
    "po_planner_no_position_refuted",
    "po_planner_spurious_order_refuted"
   ],
   "note": "False in two ways: no position is left for an action without effects, and the merged orders of the methods order subtasks that their own method leaves unordered; all depths are unsatisfiable although a solution exists."
  },
  {
   "property": "C162",
   "status": "proved",
   "theorems": [
    "po_encoding_complete"
   ],
   "note": ""
  },
  {
   "property": "C163",
   "status": "proved",
   "theorems": [
    "po_planner_exact"
   ],
   "note": ""
  },
  {
   "property": "C164",
   "status": "proved",
   "theorems": [
    "total_methods_exact",
    "listed_methods_exact"
   ],
   "note": ""
  },
  {
   "property": "C165",
   "status": "proved",
   "theorems": [
    "local_lms_exact",
    "local_lms_initial"
   ],
   "note": ""
  },
  {
   "property": "C166",
   "status": "proved",
   "theorems": [
    "local_lms_sound"
   ],
   "note": ""
  },
  {
   "property": "C167",
   "status": "proved",
   "theorems": [
    "local_dominated"
   ],
   "note": ""
  },
  {
   "property": "C168",
   "status": "not_applicable",
   "theorems": [
    "local_complete_refuted"
   ],
   "note": "False: a task below two different subtasks of two methods is not found. Not a defect; delimits C166."
  },
  {
   "property": "C169",
   "status": "proved",
   "theorems": [
    "cost_formula_sound"
   ],
   "note": ""
  },
  {
   "property": "C17",
   "status": "proved",
   "theorems": [
    "minimal_implied_lower",
    "minimal_implied_network",
    "minimal_implied_plans"
   ],
   "note": "Lower bounds of cost and of the number of actions and decompositions, also for networks and plans (the distance counts decompositions, too)."
  },
  {
   "property": "C170",
   "status": "proved",
   "theorems": [
    "cost_formula_complete"
   ],
   "note": ""
  },
  {
   "property": "C171",
   "status": "proved",
   "theorems": [
    "optimiser_sound"
   ],
   "note": ""
  },
  {
   "property": "C172",
   "status": "proved",
   "theorems": [
    "optimiser_optimal"
   ],
   "note": "For the costs in use (logarithms of the input's costs); see C176."
  },
  {
   "property": "C173",
   "status": "proved",
   "theorems": [
    "optimiser_progress"
   ],
   "note": ""
  },
  {
   "property": "C174",
   "status": "not_applicable",
   "theorems": [
    "cost_bound_refuted",
    "cheaper_next_refuted"
   ],
   "note": "False: the unit is 1000 at first, and actions below it count 0; the bound -1 after a free plan excludes nothing."
  },
  {
   "property": "C175",
   "status": "not_applicable",
   "theorems": [
    "finer_unit_refuted"
   ],
   "note": "False: the comparison in line 772 is the wrong way round, the branch is dead."
  },
  {
   "property": "C176",
   "status": "not_applicable",
   "theorems": [
    "true_costs_refuted"
   ],
   "note": "False: the costs are replaced by 1 + log(cost)."
  },
  {
   "property": "C177",
   "status": "proved",
   "theorems": [
    "compact_placement"
   ],
   "note": ""
  },
  {
   "property": "C178",
   "status": "proved",
   "theorems": [
    "compact_separated"
   ],
   "note": ""
  },
  {
   "property": "C179",
   "status": "proved",
   "theorems": [
    "separate_leafs_pure",
    "separate_leafs_pure_po"
   ],
   "note": "For all trees whose construction is defined (C182, C184)."
  },
  {
   "property": "C18",
   "status": "proved",
   "theorems": [
    "distinct_subtasks_exact",
    "st_to_method_exact",
    "task_to_methods_exact",
    "first_last_exact"
   ],
   "note": "Loops of generateMethodRepresentation and of the end of readHierarchical, with array bounds."
  },
  {
   "property": "C180",
   "status": "proved",
   "theorems": [
    "separate_leafs_sound",
    "separate_leafs_planner_sound"
   ],
   "note": "Totally ordered problems; whenever the run is defined (C182)."
  },
  {
   "property": "C181",
   "status": "proved",
   "theorems": [
    "separate_leafs_defined",
    "separate_leafs_complete",
    "separate_leafs_planner_complete"
   ],
   "note": "Totally ordered problems; the planner may end in undefined behaviour (C182) but does not report failure."
  },
  {
   "property": "C182",
   "status": "not_applicable",
   "theorems": [
    "separate_leafs_read_refuted"
   ],
   "note": "False: the first task of a child may be abstract, and its number is used as an index into numAdds."
  },
  {
   "property": "C183",
   "status": "proved",
   "theorems": [
    "some_child_selected"
   ],
   "note": ""
  },
  {
   "property": "C184",
   "status": "not_applicable",
   "theorems": [
    "selection_exit_refuted"
   ],
   "note": "False: if all children have actions without effects, the program ends although there is a solution."
  },
  {
   "property": "C185",
   "status": "proved",
   "theorems": [
    "dof_admissible"
   ],
   "note": "The limit of 100 uses is necessary (C190) and applies with planning graph constraints only. A solver that returns the optimum or reports infeasibility correctly is assumed. Net change: values of a variable exclude each other."
  },
  {
   "property": "C186",
   "status": "proved",
   "theorems": [
    "dof_defined"
   ],
   "note": ""
  },
  {
   "property": "C187",
   "status": "proved",
   "theorems": [
    "dof_relaxed_plan"
   ],
   "note": ""
  },
  {
   "property": "C188",
   "status": "proved",
   "theorems": [
    "dof_hierarchy"
   ],
   "note": ""
  },
  {
   "property": "C189",
   "status": "proved",
   "theorems": [
    "dof_exits_safe"
   ],
   "note": "For the exits after LM-cut; the exit of LM-cut is C34."
  },
  {
   "property": "C19",
   "status": "proved",
   "theorems": [
    "int_list_read",
    "nat_list_read",
    "effect_list_read",
    "int_list_fuel",
    "int_list_unterminated"
   ],
   "note": "On the characters of the line; also negative elements. int_list_fuel: the fuel of the model changes no result. int_list_unterminated: a line of non-negative numbers without -1 is read forever."
  },
  {
   "property": "C190",
   "status": "not_applicable",
   "theorems": [
    "dof_rejects_unsolvable_refuted"
   ],
   "note": "False: a useful precondition allows at most 100 uses of an action."
  },
  {
   "property": "C191",
   "status": "proved",
   "theorems": [
    "dof_landmarks_enforced"
   ],
   "note": "Fact landmarks with PgFull; the other modes have no times that exclude cyclic support."
  },
  {
   "property": "C192",
   "status": "proved",
   "theorems": [
    "dof_net_enforced"
   ],
   "note": "Assumes disjoint variables that cover the facts, sorted preconditions with at most one value per variable, and sorted goals."
  },
  {
   "property": "C193",
   "status": "proved",
   "theorems": [
    "tdg_connected"
   ],
   "note": "The tables of components are those computed by calcSCCs and constructSCCGraph (C15, C57)."
  },
  {
   "property": "C194",
   "status": "proved",
   "theorems": [
    "tdg_admissible"
   ],
   "note": "Assumes at most 100 uses of a recursive task (see C196) and, with planning graph constraints, of an action (see C190)."
  },
  {
   "property": "C195",
   "status": "proved",
   "theorems": [
    "tdg_defined"
   ],
   "note": "Declared variables; the base program is C186."
  },
  {
   "property": "C196",
   "status": "not_applicable",
   "theorems": [
    "tdg_rejects_unsolvable_refuted"
   ],
   "note": "Refuted: a method with 101 copies of a recursive task makes the program infeasible."
  },
  {
   "property": "C197",
   "status": "proved",
   "theorems": [
    "imp_admissible"
   ],
   "note": "Assumes at most 100 uses of a task and of a method (see C200)."
  },
  {
   "property": "C198",
   "status": "proved",
   "theorems": [
    "imp_enforced",
    "imp_model_enforced"
   ],
   "note": "For elements that are derivable in the delete relaxation; the planning graph may contain others (see pg_exact_refuted), their nodes keep the full set and have no implications."
  },
  {
   "property": "C199",
   "status": "proved",
   "theorems": [
    "imp_defined"
   ],
   "note": ""
  },
  {
   "property": "C20",
   "status": "not_applicable",
   "theorems": [
    "conditional_effects_refuted"
   ],
   "note": "False: the reader stores conditional effects but nothing uses them, so the read problem lacks them; the theorem gives a file whose only plan is lost."
  },
  {
   "property": "C200",
   "status": "not_applicable",
   "theorems": [
    "imp_rejects_unsolvable_refuted"
   ],
   "note": "Refuted: 128 uses of an action whose precondition is added by an action used once."
  },
  {
   "property": "C201",
   "status": "proved",
   "theorems": [
    "arg_roundtrip",
    "arg_bare"
   ],
   "note": ""
  },
  {
   "property": "C202",
   "status": "proved",
   "theorems": [
    "arg_rc2",
    "arg_dof",
    "arg_invert"
   ],
   "note": "The relaxed planning graph is described as in the code (see C203)."
  },
  {
   "property": "C203",
   "status": "not_applicable",
   "theorems": [
    "arg_pg_relaxed_refuted"
   ],
   "note": "Refuted: the code compares the string of tdg; dof(pg=relaxed) uses no planning graph constraints."
  },
  {
   "property": "C204",
   "status": "proved",
   "theorems": [
    "arg_objects"
   ],
   "note": ""
  },
  {
   "property": "C205",
   "status": "not_applicable",
   "theorems": [
    "arg_equals_refuted"
   ],
   "note": "Refuted: h==lmc is read as h=lmc."
  },
  {
   "property": "C206",
   "status": "proved",
   "theorems": [
    "tdg_dominates",
    "imp_dominates"
   ],
   "note": ""
  },
  {
   "property": "C207",
   "status": "proved",
   "theorems": [
    "bfs_order",
    "bfs_layers",
    "loop_next"
   ],
   "note": ""
  },
  {
   "property": "C208",
   "status": "proved",
   "theorems": [
    "dfs_order",
    "loop_next"
   ],
   "note": ""
  },
  {
   "property": "C209",
   "status": "proved",
   "theorems": [
    "table_values",
    "computed_once"
   ],
   "note": "the meaning of a specification is any function of its name and its map of arguments"
  },
  {
   "property": "C21",
   "status": "proved",
   "theorems": [
    "heap_is_priority_queue",
    "heap_drains_sorted",
    "heap_size_zero_refuted",
    "heap_pop_empty_refuted"
   ],
   "note": "Proved for every initial size of at least one and every legal operation sequence; the size 0 case (reachable in LmCausal with fewer than four nodes) is refuted."
  },
  {
   "property": "C22",
   "status": "proved",
   "theorems": [
    "nodel_is_set",
    "clone_correct",
    "union_correct",
    "union_into_correct",
    "minus_correct",
    "minus_into_correct"
   ],
   "note": "For every legal operation sequence and all reachable sets."
  },
  {
   "property": "C23",
   "status": "not_applicable",
   "theorems": [
    "intersection_always_empty",
    "intersection_refuted",
    "intersection_out_of_bounds_refuted"
   ],
   "note": "False of the code: the bound test is inverted, so the intersection over one universe is always empty (proved) and over different universes reads outside the array."
  },
  {
   "property": "C24",
   "status": "proved",
   "theorems": [
    "bintset_is_sorted_set",
    "bintset_erase_unsorted_refuted"
   ],
   "note": "Erase requires that sortSet was called after append; without it the erase is undefined behaviour (refuted)."
  },
  {
   "property": "C25",
   "status": "proved",
   "theorems": [
    "bucket_step_correct",
    "bucket_run_defined",
    "bucket_enumerates",
    "bucket_drains",
    "bucket_erase_while_iterating_refuted"
   ],
   "note": "Removal while iterating proved for removeFirst/removeNext; erase() while iterating with getNext loses members (refuted)."
  },
  {
   "property": "C26",
   "status": "not_applicable",
   "theorems": [
    "delIter_enumerates_only_first",
    "delIter_refuted",
    "delIter_delete_refuted"
   ],
   "note": "False of the code: for every insertion sequence iteration stops after the first inserted element (proved)."
  },
  {
   "property": "C27",
   "status": "proved",
   "theorems": [
    "intstack_lifo",
    "flexstack_lifo",
    "stack_iteration",
    "stack_iteration_empty",
    "flexstack_size_zero_refuted",
    "intstack_full_refuted"
   ],
   "note": "Fixed stack within capacity, growing stack from positive capacity; iteration from the bottom."
  },
  {
   "property": "C28",
   "status": "proved",
   "theorems": [
    "sort_correct",
    "indexOf_correct",
    "containsInt_correct",
    "makeSet_correct",
    "isSorted_correct",
    "copyExcluding_correct",
    "copyExcluding_once",
    "copyExcluding_absent_refuted"
   ],
   "note": "All array sections."
  },
  {
   "property": "C29",
   "status": "proved",
   "theorems": [
    "state2Int_exact",
    "state2Int_injective"
   ],
   "note": "The packed words hold exactly the bits, zero padding; equal words and padding imply equal vectors of any lengths."
  },
  {
   "property": "C30",
   "status": "proved",
   "theorems": [
    "trie_exact",
    "trie_defined",
    "trie_map",
    "trie_defined_refuted"
   ],
   "note": "trie_map: for prefix-free key sets any sequence of accesses behaves as a map. trie_exact needs no prefix-freeness; trie_defined: a shift by 64 bits (undefined) happens only if a key whose length is a multiple of 64 is a proper prefix of an earlier key, and trie_defined_refuted shows that it does happen then."
  },
  {
   "property": "C31",
   "status": "proved",
   "theorems": [
    "visited_total_exact",
    "visited_total_defined",
    "visited_total_ok",
    "visited_total_search"
   ],
   "note": "Total order mode with stored sequences: a node is rejected exactly if an earlier node had the same state and remaining tasks; no solution is lost; from the file through the flags in visited_total_search. Undefined accesses are characterised (see C61)."
  },
  {
   "property": "C32",
   "status": "not_applicable",
   "theorems": [
    "visited_partial_refuted"
   ],
   "note": "Refuted: with the default options, depth first search reports a solvable partially ordered problem as unsolvable, because the isomorphism check matches branches separately."
  },
  {
   "property": "C33",
   "status": "proved",
   "theorems": [
    "unsorted_fringe_refines",
    "queue_fifo",
    "stack_lifo",
    "comparator_strict_weak",
    "queue_pops_minimum",
    "pq_pop_ok",
    "empty_assert_refuted"
   ],
   "note": "All operation sequences of the chained containers behave like a double-ended queue (any container size >= 3); the comparator is a strict weak order and the queue pops a lexicographic minimum, given the C++ contract of std::priority_queue. The debug-build assertion in UnsortedFringe::empty is refuted."
  },
  {
   "property": "C34",
   "status": "proved",
   "theorems": [
    "rc_dead_end_safe",
    "rc_dead_ends_ok",
    "rc_model_wf"
   ],
   "note": "For every node of every search history, with the rows of reachable tasks as computed by updateReachability: UNREACHABLE implies no plan solves the node, for h-add, h-FF, filter and LM-cut inside; it discharges the dead-end contract of the search (C02). Hypotheses on the input: actions are the first tasks, no duplicate preconditions, every task reachable from the initial task."
  },
  {
   "property": "C35",
   "status": "proved",
   "theorems": [
    "unreachable_exact",
    "add_exact",
    "filter_exact",
    "unreachable_exact_precless_refuted",
    "rc_model_wf"
   ],
   "note": "Proved for STRIPS models in which every operator has a precondition (no_precless), with the modelled IntPairHeap as queue and arbitrary leftovers of previous calls in queue and reachedBy; add_exact also shows that the value is the sum of the cheapest additive derivation costs. With an operator without precondition the code is wrong: unreachable_exact_precless_refuted gives a model where an unreachable goal is reported reachable. The only models the program hands to these heuristics come from RCModelFactory, which never produces such an operator."
  },
  {
   "property": "C36",
   "status": "proved",
   "theorems": [
    "pg_complete",
    "pg_defined",
    "tables_of_wf"
   ],
   "note": "Completeness of facts, actions, tasks and methods for every input with exact tables whenever the computed operator values stay below INT_MAX (hValProp uses INT_MAX as 'unreachable'); pg_defined gives a bound on the costs under which this holds and nothing overflows; tables_of_wf: the modelled tables of class Model meet the requirements."
  },
  {
   "property": "C37",
   "status": "proved",
   "theorems": [
    "hmax_exact",
    "rc_model_wf"
   ],
   "note": "getHMax equals the maximum over the goals of the cost of a cheapest max-derivation, and is unreachable exactly if some goal is not relaxed reachable; for all cost vectors. Hypothesis: every operator has a precondition (true of the models built by RCModelFactory)."
  },
  {
   "property": "C38",
   "status": "proved",
   "theorems": [
    "lmcut_admissible",
    "lmcut_admissible_real",
    "lmcut_precless_refuted",
    "rc_model_wf"
   ],
   "note": "Value at most the cost of every relaxed plan and of every real plan (arbitrary deletes), at least h-max, unreachable exactly if no relaxed plan exists, every cut a disjunctive action landmark, termination and no access outside an array. Hypothesis: every operator has a precondition (true of the models built by RCModelFactory); without it the code reads an unset maxPrec (lmcut_precless_refuted)."
  },
  {
   "property": "C39",
   "status": "proved",
   "theorems": [
    "rintanen_invariants_hold"
   ],
   "note": "for problems in which no action adds and deletes the same fact (otherwise false, see C71); termination included"
  },
  {
   "property": "C40",
   "status": "proved",
   "theorems": [
    "mutex_queries_sound",
    "all_invariants_hold",
    "extracted_invariants_hold",
    "extraction_defined"
   ],
   "note": "for problems in which no action adds and deletes the same fact; the parsed mutex groups are assumed to hold in reachable states; extraction_defined: no undefined behaviour if no fact is static (otherwise see C72)"
  },
  {
   "property": "C41",
   "status": "proved",
   "theorems": [
    "at_most_one_exact",
    "at_most_one_pairwise_exact"
   ],
   "note": "Both encodings; the number of bits, computed with floating-point log, is a parameter with the contract n <= 2^bits."
  },
  {
   "property": "C42",
   "status": "proved",
   "theorems": [
    "at_most_k_exact"
   ],
   "note": "For every K >= 0 and every list of literals (repetitions count)."
  },
  {
   "property": "C43",
   "status": "proved",
   "theorems": [
    "state_formula_sound",
    "state_formula_complete",
    "state_formula_defined",
    "state_formula_fresh",
    "unit_blocks_independent"
   ],
   "note": "Both directions, visited states included; completeness for chosen actions without a fact both added and deleted (see C68)."
  },
  {
   "property": "C44",
   "status": "proved",
   "theorems": [
    "block_compression_independent",
    "block_compression_defined",
    "compression_equivalent",
    "state_formula_sound"
   ],
   "note": "Merged leaves are pairwise independent; models are executable in leaf order; equivalent to one step per leaf."
  },
  {
   "property": "C45",
   "status": "proved",
   "theorems": [
    "leaf_pruning_keeps_executions",
    "leaf_pruning_defined"
   ],
   "note": "The fixpoint of filter_leafs_ff (default pruning mode): no action of an execution taking at most one so far unpruned action per leaf is pruned; termination with the fuel used in createFormulaForDepth's model. The Rintanen filter is a separate model."
  },
  {
   "property": "C46",
   "status": "proved",
   "theorems": [
    "sequence_placement_optimal",
    "sequence_too_long",
    "node_placement"
   ],
   "note": "Own increasing positions, exact bookkeeping, minimal number of new labels; sequences up to 10^6 tasks (the code's 'impossible' constant); longer-than-target sequences are out-of-bounds writes."
  },
  {
   "property": "C47",
   "status": "proved",
   "theorems": [
    "transitive_edges_removed",
    "transitive_edges_of_cycle_lost"
   ],
   "note": "For acyclic graphs; the second theorem shows that a cyclic graph loses its order."
  },
  {
   "property": "C48",
   "status": "not_applicable",
   "theorems": [
    "merged_order_cyclic_refuted",
    "merged_order_spurious_refuted"
   ],
   "note": "Refuted: methods A<B, B<X, X<A yield a cyclic merged graph; and even an acyclic one may order two subtasks that their method leaves unordered, through a vertex of another method. What holds instead is C76."
  },
  {
   "property": "C49",
   "status": "proved",
   "theorems": [
    "lm_sound",
    "lm_defined"
   ],
   "note": "For all elements (facts, tasks, methods), with the graph, the fixed point and the set containers of the code; tables as built by class Model (lm_tables_wf)."
  },
  {
   "property": "C50",
   "status": "proved",
   "theorems": [
    "reachable_tasks_exact",
    "step_rows_exact"
   ],
   "note": "Table per task (calcSCCGraph) and rows per plan step (updateReachability, calcReachability) for every search history; last = numActions or numTasks."
  },
  {
   "property": "C51",
   "status": "proved",
   "theorems": [
    "combinations_enumerated",
    "combination_unique",
    "combination_past_end"
   ],
   "note": "Enumeration in lexicographic order without repetition; reading array[-1] for i = C(n,k)."
  },
  {
   "property": "C52",
   "status": "proved",
   "theorems": [
    "search_no_crash"
   ],
   "note": "Fuel of the inner loops only; the outer loop may run out of fuel (no termination claim)."
  },
  {
   "property": "C53",
   "status": "proved",
   "theorems": [
    "parallel_flag_characterised"
   ],
   "note": "Exact meaning of both flags."
  },
  {
   "property": "C54",
   "status": "proved",
   "theorems": [
    "depth_counters"
   ],
   "note": "Over all histories of node creations."
  },
  {
   "property": "C55",
   "status": "proved",
   "theorems": [
    "printed_tree_valid",
    "search_tree_valid"
   ],
   "note": "Output text is modelled as structured lines (names as numbers)."
  },
  {
   "property": "C56",
   "status": "not_applicable",
   "theorems": [
    "ff_stack_refuted",
    "ff_relaxed_plan",
    "ff_total_binary"
   ],
   "note": "The first half is false: ff_stack_refuted is a task on which the extraction pushes beyond the capacity of its stack. What holds: if the extraction finishes, the marked operators form a relaxed plan of the returned cost (ff_relaxed_plan), and it never overflows when every operator has at most two preconditions (ff_total_binary)."
  },
  {
   "property": "C57",
   "status": "proved",
   "theorems": [
    "cyclic_sccs_exact"
   ],
   "note": "Lists sccsCyclic and flags sccIsAcyclic."
  },
  {
   "property": "C58",
   "status": "proved",
   "theorems": [
    "rc_lmcut_admissible",
    "rc_lmcut_bound"
   ],
   "note": "Same hypotheses as C34; numbers without overflow. The table corrections (minImpliedDistance, minEstimatedCosts) are modelled but no bound is claimed for them: they are not admissible."
  },
  {
   "property": "C59",
   "status": "proved",
   "theorems": [
    "rc_landmarks_sound"
   ],
   "note": "Same hypotheses as C34."
  },
  {
   "property": "C60",
   "status": "proved",
   "theorems": [
    "visited_sequences_exact",
    "visited_sequences_ok"
   ],
   "note": "For methods that really are (sets of) sequences."
  },
  {
   "property": "C61",
   "status": "not_applicable",
   "theorems": [
    "visited_defined_refuted",
    "visited_total_defined"
   ],
   "note": "Refuted for an option setting without the hash values of the network; visited_total_defined characterises exactly when an access is undefined."
  },
  {
   "property": "C62",
   "status": "not_applicable",
   "theorems": [
    "visited_sequences_refuted"
   ],
   "note": "Refuted: the flag is also set for initial methods with joins (C14), and a solvable problem is reported unsolvable."
  },
  {
   "property": "C63",
   "status": "proved",
   "theorems": [
    "astar_sound",
    "astar_unsolvable",
    "astar_total_unsolvable",
    "eval_hs_exact"
   ],
   "note": "Loop of PriorityQueueSearch with the A* queue, heuristics as functions."
  },
  {
   "property": "C64",
   "status": "proved",
   "theorems": [
    "astar_bounded",
    "astar_optimal",
    "rc_astar_optimal"
   ],
   "note": "Visited list off for RC(LM-cut): its value may differ for isomorphic nodes (ties), see C66."
  },
  {
   "property": "C65",
   "status": "proved",
   "theorems": [
    "astar_total_optimal",
    "astar_sequences_optimal",
    "zero_admissible",
    "astar_total_unsolvable"
   ],
   "note": ""
  },
  {
   "property": "C66",
   "status": "not_applicable",
   "theorems": [
    "astar_visited_optimal_refuted"
   ],
   "note": "Refuted: reopening compares f values, not costs; an admissible, path-dependent heuristic gives costs 7 instead of 6."
  },
  {
   "property": "C67",
   "status": "not_applicable",
   "theorems": [
    "at_most_minus_one_refuted"
   ],
   "note": "Refuted: with K = -1 the clauses restrict nothing."
  },
  {
   "property": "C68",
   "status": "not_applicable",
   "theorems": [
    "overlapping_effects_refuted"
   ],
   "note": "Refuted: an action that deletes and adds the same fact can never be chosen."
  },
  {
   "property": "C69",
   "status": "proved",
   "theorems": [
    "sat_encoding_sound",
    "sat_planner_sound"
   ],
   "note": "Whole pipeline for totally ordered problems: tree expansion, pruning, variables, decomposition clauses, state formula, block compression, over all depths. Assumes conf_ok (method orders, sort, at most 10^6 subtasks, every abstract task has a method, sufficient bits) and an abstract initial task."
  },
  {
   "property": "C70",
   "status": "proved",
   "theorems": [
    "sat_encoding_complete",
    "sat_encoding_finds",
    "sat_planner_complete"
   ],
   "note": "Needs actions without a fact that is added and deleted (C68 refutes the unrestricted statement)."
  },
  {
   "property": "C71",
   "status": "not_applicable",
   "theorems": [
    "rintanen_conflict_refuted"
   ],
   "note": "refuted: ensuresNegP takes a deleted fact for false although the action also adds it"
  },
  {
   "property": "C72",
   "status": "not_applicable",
   "theorems": [
    "resolution_iterator_refuted"
   ],
   "note": "refuted: a derived unit clause makes the loop insert into the set it iterates"
  },
  {
   "property": "C73",
   "status": "proved",
   "theorems": [
    "full_encoding_sound",
    "full_planner_sound",
    "full_is_plain"
   ],
   "note": "Definedness is relative to the extraction of the invariants being defined (see C72)."
  },
  {
   "property": "C74",
   "status": "proved",
   "theorems": [
    "full_encoding_complete",
    "full_planner_complete"
   ],
   "note": "Assumes that no action of the plan adds and deletes the same fact (needed, see C68 and C71) and that the mutex groups of the input hold along the plan."
  },
  {
   "property": "C75",
   "status": "not_applicable",
   "theorems": [
    "h2_without_mutexes_refuted"
   ],
   "note": "False: without satmutexes addVectors/delVectors are null pointers, which h2 pruning dereferences."
  },
  {
   "property": "C76",
   "status": "proved",
   "theorems": [
    "methods_embedded"
   ],
   "note": "Direct edges only; paths through vertices of other methods are the subject of C48."
  },
  {
   "property": "C77",
   "status": "proved",
   "theorems": [
    "successor_sets_exact"
   ],
   "note": "The same code computes the predecessor sets from bdj."
  },
  {
   "property": "C78",
   "status": "proved",
   "theorems": [
    "leaf_order_exact"
   ],
   "note": "The hypothesis that node graphs are acyclic does not always hold, see C48."
  },
  {
   "property": "C79",
   "status": "proved",
   "theorems": [
    "effectless_separated"
   ],
   "note": ""
  },
  {
   "property": "C80",
   "status": "proved",
   "theorems": [
    "matching_exact",
    "po_formula_defined"
   ],
   "note": "On acyclic graphs; the contract on the number of bits of the logarithmic at-most-one encoding is a hypothesis."
  },
  {
   "property": "C81",
   "status": "proved",
   "theorems": [
    "po_formula_sound",
    "po_printed_sound"
   ],
   "note": "The decomposition clauses only enter through one_chosen (at most one action per leaf)."
  },
  {
   "property": "C82",
   "status": "proved",
   "theorems": [
    "po_formula_complete",
    "po_formula_exact"
   ],
   "note": "Room for every leaf and actions that do not add and delete the same fact are hypotheses; C83 and C68 show that they are needed."
  },
  {
   "property": "C83",
   "status": "not_applicable",
   "theorems": [
    "po_shared_position_refuted",
    "po_no_position_left_refuted"
   ],
   "note": "False: a leaf without effects may share the position of a leaf with effects that precedes it, so its precondition is checked too early (a non-executable plan is accepted), and no position exists after the last leaf with effects (a solution is lost). Both counterexamples are machine-checked."
  },
  {
   "property": "C84",
   "status": "proved",
   "theorems": [
    "minimal_implied_ends",
    "minimal_implied_defined",
    "minimal_implied_overflow_refuted"
   ],
   "note": "Ends on every input; without short refinements it ends by int overflow (minimal_implied_overflow_refuted)."
  },
  {
   "property": "C85",
   "status": "proved",
   "theorems": [
    "minimal_implied_exact",
    "minimal_implied_recursion_refuted"
   ],
   "note": "Exact without recursion; with recursion the values may be 0 (minimal_implied_recursion_refuted)."
  },
  {
   "property": "C86",
   "status": "proved",
   "theorems": [
    "bin_exact",
    "bin_invalid",
    "bin_defined",
    "bin_overflow_refuted"
   ],
   "note": "The saturation is checked after the loop only: for (100, 50) a product overflows (bin_overflow_refuted)."
  },
  {
   "property": "C87",
   "status": "proved",
   "theorems": [
    "file_read",
    "file_solutions",
    "written_file_read"
   ],
   "note": "The model works on the characters of the file. Names are skipped. wf_description includes range conditions; numbers have to be in the range of int."
  },
  {
   "property": "C88",
   "status": "proved",
   "theorems": [
    "fact_tables_exact"
   ],
   "note": ""
  },
  {
   "property": "C89",
   "status": "proved",
   "theorems": [
    "pg_exact"
   ],
   "note": "Exactness under no_conflict; in general it is refuted (C92)."
  },
  {
   "property": "C90",
   "status": "proved",
   "theorems": [
    "pg_relative"
   ],
   "note": ""
  },
  {
   "property": "C91",
   "status": "proved",
   "theorems": [
    "pg_prunes_safely"
   ],
   "note": "For sets of allowed tasks closed under decomposition."
  },
  {
   "property": "C92",
   "status": "not_applicable",
   "theorems": [
    "pg_exact_refuted"
   ],
   "note": "Refuted: actions without preconditions queue their effects unconditionally, so a fact is processed twice and counters are decremented twice."
  },
  {
   "property": "C93",
   "status": "proved",
   "theorems": [
    "lm_exact",
    "lm_defined",
    "lm_new_ok"
   ],
   "note": "A new generator needs at least four nodes: the queue has numNodes/4 entries (lm_new_ok)."
  },
  {
   "property": "C94",
   "status": "proved",
   "theorems": [
    "lm_pg"
   ],
   "note": "With the planning graph of C36 (its exactness is not needed)."
  },
  {
   "property": "C95",
   "status": "proved",
   "theorems": [
    "lm_solution",
    "lm_solution_pg",
    "solves_trace"
   ],
   "note": "solves_trace: solves_by describes the same plans as solves."
  },
  {
   "property": "C96",
   "status": "proved",
   "theorems": [
    "lm_result_exact"
   ],
   "note": ""
  },
  {
   "property": "C97",
   "status": "not_applicable",
   "theorems": [
    "lm_copy_refuted"
   ],
   "note": "False: for a goal fact or contained task without derivation the code reads numNodes entries of an empty container. Proved instead: lm_result_exact (defined if all are derivable) and lm_solution (defined for solvable networks)."
  },
  {
   "property": "C98",
   "status": "proved",
   "theorems": [
    "solution_steps_exact",
    "all_freed",
    "counters_exact"
   ],
   "note": "Same for solution steps."
  },
  {
   "property": "C99",
   "status": "proved",
   "theorems": [
    "delete_defined",
    "apply_defined",
    "decompose_defined",
    "steps_readable",
    "memory_refines"
   ],
   "note": "All operations are defined on every history; the nodes are those of Htn_model, whose heap never frees."
  }
 ]
}
