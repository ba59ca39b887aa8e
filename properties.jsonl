{"id": "C01", "title": "Each yielded set comes from one level of the consideration queue", "statement": "Every set yielded by Scheduler.run() contains no node twice and contains only nodes of one single level of Scheduler.consideration_queue; consequently in STANDARD mode a yielded set never contains both a node and one of its senders in Scheduler.graph.", "quantifier": "every scheduler state, graph, condition assignment, termination condition, execution id, set iteration order, and every point of every (possibly interleaved or abandoned) run", "why_tests_cant": "the set of reachable run states is unbounded; a unit test sees a handful of schedules", "anchors": ["src/graph_scheduler/scheduler.py:Scheduler.run", "src/graph_scheduler/scheduler.py:Scheduler.consideration_queue"]}
{"id": "C02", "title": "Within one pass senders precede receivers and no node runs twice", "statement": "During one pass the levels that produce yielded sets have strictly increasing positions in the consideration queue, so a node appears in at most one yielded set of a pass, and if a is a sender of b in the graph and both run in that pass then a is yielded in an earlier set than b.", "quantifier": "every pass of every run of every scheduler on every acyclic graph", "why_tests_cant": "needs an argument over all passes and all graphs, not a sampled schedule", "anchors": ["src/graph_scheduler/scheduler.py:Scheduler.run"]}
{"id": "C03", "title": "A node is only added when its condition is satisfied (soundness)", "statement": "Whenever a node is in a yielded set, its basic Condition evaluated to true in the scheduler state (counts, clock, execution_list, external state) that held at the moment it was considered, i.e. after the nodes added before it in the same set were counted.", "quantifier": "every run prefix, every condition assignment including arbitrary custom conditions", "why_tests_cant": "a test checks outputs for chosen conditions; this is for every condition and every moment", "anchors": ["src/graph_scheduler/scheduler.py:Scheduler.run", "src/graph_scheduler/condition.py:Condition.is_satisfied"]}
{"id": "C04", "title": "A consideration set is exhausted before it is yielded (maximality)", "statement": "When run() moves past a level (yielding or skipping it), no node of the level outside the chosen set has a satisfied condition in the resulting state, for conditions whose evaluation has no side effects; the do-while loop always terminates after at most |level|+1 rounds.", "quantifier": "every level, every condition assignment, every state", "why_tests_cant": "cascading adds within a level can be arbitrarily deep", "anchors": ["src/graph_scheduler/scheduler.py:Scheduler.run"]}
{"id": "C05", "title": "Order of nodes inside a consideration set is irrelevant", "statement": "The set chosen for a consideration set does not depend on its iteration order (it is a Python set) when the conditions involved are monotone in the call counts (Always, AfterNCalls, AfterCall, AfterNCallsCombined, AllHaveRun, EveryNCalls, time conditions, and All/Any of these). Whole runs then yield the same sets, return the same history and leave the same counts and clocks, provided EveryNCalls refers to nodes of other consideration sets, the termination conditions are not user functions, and no exception is raised. The documented unconditional claim is false: for BeforeNCalls, for EveryNCalls on a node of the same consideration set, for NWhen, for exceptions, and in exact time mode even for default conditions.", "quantifier": "every level, every run, every pair of iteration orders, every state, every assignment of conditions of that class", "why_tests_cant": "set iteration order varies with hash seeds; tests run one order", "anchors": ["src/graph_scheduler/scheduler.py:Scheduler.run", "src/graph_scheduler/condition.py:EveryNCalls", "src/graph_scheduler/condition.py:BeforeNCalls"]}
{"id": "C06", "title": "counts_total agrees with the yielded history", "statement": "At every point where user code runs, counts_total[eid][LIFE][n] equals the number of sets of execution_list[eid] containing n, counts_total[eid][ENVIRONMENT_STATE_UPDATE][n] equals the number of sets yielded by the current run containing n, and counts_total[eid][PASS][n] is 1 or 0 according to whether n was yielded in the current pass.", "quantifier": "every run prefix, including arbitrary changes to conditions, termination conditions, external state and other contexts between yields", "why_tests_cant": "counts are path dependent; all schedules must be covered", "anchors": ["src/graph_scheduler/scheduler.py:Scheduler.run", "src/graph_scheduler/scheduler.py:Scheduler._reset_counts_total", "src/graph_scheduler/scheduler.py:Scheduler._init_counts"]}
{"id": "C07", "title": "counts_useable[a][b] is the number of runs of a since b last ran", "statement": "After any run prefix, counts_useable[eid][a][b] for a != b is the number of times a was added after the last time b was added in this run (since the start of the run if b has not run), and counts_useable[eid][a][a] is 1 if a has run in this run and 0 otherwise.", "quantifier": "every run prefix, every pair of nodes", "why_tests_cant": "a quadratic table with resets and increments on every execution; only an invariant covers every history", "anchors": ["src/graph_scheduler/scheduler.py:Scheduler.run", "src/graph_scheduler/scheduler.py:Scheduler._reset_counts_useable"]}
{"id": "C08", "title": "EveryNCalls(dep, n) spaces executions by n calls of dep", "statement": "If a node's condition is EveryNCalls(dep, n) with dep another node, then in any run prefix between two consecutive executions of the node (and before the first) dep is executed at least n times; hence n * #runs(node) <= #runs(dep).", "quantifier": "every n, every run prefix, whatever the other nodes' conditions, termination conditions and graph are", "why_tests_cant": "holds for unboundedly many schedules", "anchors": ["src/graph_scheduler/condition.py:EveryNCalls", "src/graph_scheduler/scheduler.py:Scheduler.run"]}
{"id": "C09", "title": "Termination conditions stop the run", "statement": "run() yields a non-idle set only if both termination conditions were false when it was chosen; if a termination condition is true when the generator is started it returns without yielding; once one is true at the check after a consideration set no further set of the pass is executed, and if it is still true after the pass count was incremented the generator returns. (Refuted without the second clause: a condition that is true only in the middle of a pass does not end the run.)", "quantifier": "every scheduler state and every termination condition (stateless)", "why_tests_cant": "conditions can become true at any of unboundedly many points", "anchors": ["src/graph_scheduler/scheduler.py:Scheduler.run"]}
{"id": "C10", "title": "Every resumption of the generator makes progress", "statement": "Resuming run() always ends, by a yield, a return or an exception, after evaluating each level at most twice; it never spins silently when the graph is non-empty. (Refuted for an empty graph with an absolute-time termination condition.)", "quantifier": "every scheduler state and condition assignment (stateless termination conditions in absolute time mode)", "why_tests_cant": "termination of the internal loops must hold for every state", "anchors": ["src/graph_scheduler/scheduler.py:Scheduler.run"]}
{"id": "C11", "title": "Empty sets mark exactly the idle passes", "statement": "In non-absolute mode every pass yields at least one set, and run() yields an empty set if and only if no node ran in that pass, in which case it is the only set of the pass.", "quantifier": "every pass of every non-absolute run", "why_tests_cant": "quantifies over all passes of all runs", "anchors": ["src/graph_scheduler/scheduler.py:Scheduler.run"]}
{"id": "C12", "title": "The clock agrees with the yields", "statement": "During a run the clock's consideration-set-execution count within the current environment state update equals the number of completed yields of this run and its pass count equals the number of completed passes; a completed run increments the environment state update exactly once (not at all with skip_environment_state_update_time_increment).", "quantifier": "every run prefix starting from a clock at the beginning of an environment state update", "why_tests_cant": "unbounded histories", "anchors": ["src/graph_scheduler/scheduler.py:Scheduler.run", "src/graph_scheduler/time.py:Clock", "src/graph_scheduler/time.py:TimeHistoryTree.increment_time"]}
{"id": "C13", "title": "A default run executes the topological levels once, every time", "statement": "For a scheduler built from any acyclic dependency dict without conditions, every call list(run()) yields exactly the topological levels in order (as sets) and returns, no matter how many runs came before.", "quantifier": "every finite acyclic graph, every number of earlier runs, every iteration order", "why_tests_cant": "infinitely many graphs", "anchors": ["src/graph_scheduler/scheduler.py:Scheduler.run", "src/graph_scheduler/scheduler.py:Scheduler._validate_conditions"]}
{"id": "C14", "title": "execution_list is the history of the yields", "statement": "execution_list[eid] after a run prefix is execution_list[eid] before it followed by exactly the yielded sets in order; earlier entries never change; run() returns that list.", "quantifier": "every run prefix in every context", "why_tests_cant": "all histories", "anchors": ["src/graph_scheduler/scheduler.py:Scheduler.run"]}
{"id": "C15", "title": "Execution ids isolate runs", "statement": "Interleaving generators of one scheduler that use different, already initialised execution ids yields for each exactly what it yields when run alone, and leaves the other context's counts, clock and execution_list untouched (side-effect free conditions).", "quantifier": "every interleaving of resumptions of two generators", "why_tests_cant": "exponentially many interleavings", "anchors": ["src/graph_scheduler/scheduler.py:Scheduler.run", "src/graph_scheduler/scheduler.py:Scheduler._init_counts"]}
{"id": "C16", "title": "run() without an execution id uses default_execution_id", "statement": "Documented: 'default_execution_id: the execution_id to use if none is supplied to run'. Refuted: a scheduler with default_execution_id != None raises SchedulerError from run() without execution_id.", "quantifier": "every scheduler with a non-None default execution id", "why_tests_cant": "a configuration no existing test uses; the claim is for every graph", "anchors": ["src/graph_scheduler/scheduler.py:Scheduler.__init__", "src/graph_scheduler/scheduler.py:Scheduler.run", "src/graph_scheduler/scheduler.py:Scheduler._init_counts"]}
{"id": "C17", "title": "A new execution id starts from the base context", "statement": "run(execution_id=e) for an unseen e starts with counts_total and execution_list copied from base_execution_id (None by default), and fails with SchedulerError before yielding if that base is unknown. In absolute time mode a non-default execution id raises KeyError at its first yield (finding).", "quantifier": "every scheduler state, every unseen id", "why_tests_cant": "depends on arbitrary earlier history of the base context", "anchors": ["src/graph_scheduler/scheduler.py:Scheduler._init_counts", "src/graph_scheduler/scheduler.py:Scheduler.run"]}
{"id": "C18", "title": "Time conditions mean what their names say", "statement": "Before/At/After/AfterN/EveryN ConsiderationSetExecution, Pass, EnvironmentStateUpdate and EnvironmentSequence conditions are satisfied iff the number of the named units completed since the start of the enclosing time_scale unit is respectively < n, = n, > n, >= n, divisible by n.", "quantifier": "every n, every supported time scale, every history of clock increments", "why_tests_cant": "every history of increments", "anchors": ["src/graph_scheduler/condition.py:AtPass", "src/graph_scheduler/condition.py:AfterNEnvironmentStateUpdates", "src/graph_scheduler/condition.py:EveryNPasses", "src/graph_scheduler/time.py:TimeHistoryTree.get_total_times_relative"]}
{"id": "C19", "title": "Call-count conditions mean what their names say", "statement": "BeforeNCalls/AtNCalls/AfterCall/AfterNCalls/AfterNCallsCombined/AllHaveRun/JustRan are satisfied iff the number of runs of the dependencies in the chosen scope (current run / pass / life) satisfies the named comparison (JustRan: the dependency is in the last entry of execution_list).", "quantifier": "every dependency, n, scope and run prefix", "why_tests_cant": "every history", "anchors": ["src/graph_scheduler/condition.py:BeforeNCalls", "src/graph_scheduler/condition.py:AfterNCalls", "src/graph_scheduler/condition.py:AllHaveRun", "src/graph_scheduler/condition.py:JustRan"]}
{"id": "C20", "title": "NWhen is satisfied at most n times per execution id", "statement": "An NWhen(cond, n) object reports satisfied at most n times for each execution id over its whole life, only when cond is satisfied, and exactly min(n, number of evaluations at which cond holds) times.", "quantifier": "every sequence of evaluations, every n, every inner condition, every execution id", "why_tests_cant": "unbounded sequences of evaluations", "anchors": ["src/graph_scheduler/condition.py:NWhen"]}
{"id": "C21", "title": "All, Any, Not are the boolean connectives", "statement": "All/Any/Not of side-effect free conditions are satisfied iff all/any/none of the arguments are, with All() true and Any() false, and a short-circuited argument is never evaluated.", "quantifier": "every finite nesting of composite conditions, every state", "why_tests_cant": "unbounded nesting", "anchors": ["src/graph_scheduler/condition.py:All", "src/graph_scheduler/condition.py:Any", "src/graph_scheduler/condition.py:Not"]}
{"id": "C22", "title": "Default conditions reflect the graph at the first run", "statement": "Nodes without a basic condition get, at the start of run(), a condition satisfied iff each of their senders in the current graph has run since the node last ran; existing basic conditions are never replaced. Later graph changes do not update it (finding).", "quantifier": "every graph, every subset of nodes with user conditions", "why_tests_cant": "every graph shape", "anchors": ["src/graph_scheduler/scheduler.py:Scheduler._validate_conditions"]}
{"id": "C23", "title": "The consideration queue is a partition of the nodes", "statement": "For an acyclic graph (closed under senders) the consideration queue is a list of non-empty pairwise disjoint sets whose union is exactly the node set.", "quantifier": "every finite acyclic graph", "why_tests_cant": "all graphs", "anchors": ["src/graph_scheduler/scheduler.py:_build_consideration_queue"]}
{"id": "C24", "title": "A node's queue index is its longest-path depth", "statement": "consideration_queue_indices[n] is the length of the longest sender chain ending in n; in particular every sender of n other than n is at a strictly smaller index, and nodes with equal sender sets share a level.", "quantifier": "every finite acyclic graph, every node", "why_tests_cant": "all graphs", "anchors": ["src/graph_scheduler/scheduler.py:_generate_consideration_queue_indices", "src/graph_scheduler/scheduler.py:Scheduler.consideration_queue_indices"]}
{"id": "C25", "title": "A cycle is reported iff there is one", "statement": "run() raises SchedulerError for a cyclic dependency graph iff the graph has a cycle of length at least two; self-loops are ignored by the cycle check: a node with a self-loop and no condition is never executed and a default run on it never returns (finding).", "quantifier": "every finite graph", "why_tests_cant": "all graphs", "anchors": ["src/graph_scheduler/scheduler.py:Scheduler._validate_run_state", "src/graph_scheduler/scheduler.py:Scheduler._push_graph"]}
{"id": "C26", "title": "Operation members are the documented set operations", "statement": "KEEP, REPLACE, DISCARD, INTERSECTION, UNION/MERGE, DIFFERENCE, INVERSE_DIFFERENCE and SYMMETRIC_DIFFERENCE applied to source and comparison neighbours give the corresponding set.", "quantifier": "every pair of finite sets", "why_tests_cant": "all sets", "anchors": ["src/graph_scheduler/condition.py:Operation"]}
{"id": "C27", "title": "modify_graph leaves its argument unchanged and keeps the node set", "statement": "GraphStructureCondition.modify_graph of every built-in structural condition returns a new graph with the same keys in the same order, whose sender sets only mention nodes of the graph, and changes neither the input graph nor any of its set objects, none of which the result shares; the only exception it raises is ConditionError.", "quantifier": "every graph, owner, subjects, operations and flags", "why_tests_cant": "mutation and aliasing bugs depend on specific operation combinations", "anchors": ["src/graph_scheduler/condition.py:GraphStructureCondition.modify_graph", "src/graph_scheduler/condition.py:_GSCWithOperations"]}
{"id": "C28", "title": "AddEdgeTo and RemoveEdgeFrom change exactly one edge", "statement": "AddEdgeTo(n) owned by o yields the graph with the edge o->n added and nothing else changed; RemoveEdgeFrom(n) owned by o yields the graph with the edge n->o removed and nothing else changed; ConditionError is raised if one of the nodes is missing.", "quantifier": "every graph and every pair of nodes", "why_tests_cant": "all graphs", "anchors": ["src/graph_scheduler/condition.py:AddEdgeTo", "src/graph_scheduler/condition.py:RemoveEdgeFrom"]}
{"id": "C29", "title": "BeforeNodes/AfterNodes establish the requested edges", "statement": "After BeforeNodes(*S) (AfterNodes(*S)) owned by o is applied, o is a sender (receiver) of every node of S and, with the default operations, no reverse edge between o and a node of S exists unless the graph already satisfied the condition, in which case nothing changes. With the default operations ConditionError is raised exactly when the condition is not yet satisfied and some node of S is a sender of a node of S. The edges are established for all operations that do not make two nodes share a sender set object, and refuted for those that do.", "quantifier": "every graph, every owner and subject tuple", "why_tests_cant": "cycle pruning and reconnection run afterwards on arbitrary graphs and could remove the edge", "anchors": ["src/graph_scheduler/condition.py:BeforeNodes", "src/graph_scheduler/condition.py:AfterNodes", "src/graph_scheduler/condition.py:_GSCWithOperations._handle_prune_cycles"]}
{"id": "C30", "title": "WithNode makes the two nodes share their senders", "statement": "After WithNode(n) owned by o is applied with default arguments, no edge connects o and n and both have the same senders, namely all other nodes that were senders of either, unless their senders were the same before, in which case nothing changes; ConditionError is raised exactly when o or n is its own sender.", "quantifier": "every graph, every pair of nodes", "why_tests_cant": "post-processing runs on arbitrary graphs", "anchors": ["src/graph_scheduler/condition.py:WithNode"]}
{"id": "C31", "title": "Cycle pruning terminates and only removes edges", "statement": "The cycle pruning loop of the structural conditions terminates on every graph, whatever order the cycles are enumerated in, and the graph it returns has a subset of the edges it was given, none of the removed edges being one the condition is there to establish.", "quantifier": "every graph, every cycle enumeration", "why_tests_cant": "a while loop whose termination depends on graph shape", "anchors": ["src/graph_scheduler/condition.py:_GSCWithOperations._handle_prune_cycles", "src/graph_scheduler/condition.py:_GSCWithOperations._prune_owner_edge"]}
{"id": "C32", "title": "Operations on non-subject nodes: _GSCWithOperations edge semantics", "statement": "Without pruning and reconnecting the resulting graph gives owner and subjects exactly the receivers and senders the operations prescribe (receivers win when conflicts are ignored) and leaves every edge between two other nodes unchanged; ConditionError is raised exactly when an operation is missing or two prescriptions disagree and conflicts are not ignored.", "quantifier": "every graph, owner, subject tuple, operation assignment without aliasing", "why_tests_cant": "9^4 operation combinations times all graphs", "anchors": ["src/graph_scheduler/condition.py:_GSCWithOperations._process"]}
{"id": "C33", "title": "Scheduler.graph is the fold of the structural conditions", "statement": "After any sequence of add_condition, add_condition_set, remove_condition, graph accesses, termination condition assignments and generator resumptions in which no exception is raised and every structural condition object is added once, Scheduler.graph equals the base graph transformed by the currently registered structural conditions in the order they were added, and the consideration queue is the toposort of that graph; removing a condition undoes its effect. A cyclic graph has the queue [{}], so a run that is resumed with such a graph only yields empty sets. (Moving one condition object to another owner is not noticed: finding.)", "quantifier": "every sequence of additions and removals", "why_tests_cant": "the incremental push/pop algorithm must be right for every edit history", "anchors": ["src/graph_scheduler/scheduler.py:Scheduler._handle_modified_structural_conditions", "src/graph_scheduler/scheduler.py:Scheduler.graph"]}
{"id": "C34", "title": "A failing structural condition corrupts the graph (finding)", "statement": "Expected: if applying structural conditions raises, removing them again restores Scheduler.graph. True when a single condition is added to a scheduler whose graph is up to date; refuted in general: conditions applied before the one that failed stay applied although nothing is registered any more.", "quantifier": "edit histories containing a failing condition", "why_tests_cant": "needs a specific history", "anchors": ["src/graph_scheduler/scheduler.py:Scheduler._handle_modified_structural_conditions"]}
{"id": "C35", "title": "ConditionSet behaves like a map plus an ordered log", "statement": "After any sequence of add/remove calls, conditions_basic maps each owner to its last added, not removed basic condition, structural_condition_order lists the added, not removed structural conditions in order, conditions_structural groups the same conditions by owner, and the conditions property combines them. ConditionSet(s1, ..., sk) adds the sets one after the other; assignment to an item is add_condition when the owner has no structural conditions (and raises TypeError otherwise: finding).", "quantifier": "every sequence of add_condition/add_condition_set/remove_condition calls without errors", "why_tests_cant": "all histories", "anchors": ["src/graph_scheduler/condition.py:ConditionSet"]}
{"id": "C36", "title": "remove_condition returns the removed condition", "statement": "Removing a registered condition by the condition object returns it and unregisters exactly it. Documented also: returns the condition removed, or None if no condition removed. Refuted in both directions: by-owner removal returns None although a condition was removed, and removal of a condition that is not registered returns that condition; removing the only structural condition by owner raises IndexError.", "quantifier": "every condition set and argument", "why_tests_cant": "tests ignore the return value", "anchors": ["src/graph_scheduler/condition.py:ConditionSet.remove_condition"]}
{"id": "C37", "title": "A basic condition evaluates against the owner it was last given", "statement": "EveryNCalls used as a node's condition counts calls since that node's last run, provided the condition object was added to one owner only; adding the same object to a second owner silently re-targets the first (finding).", "quantifier": "every assignment of condition objects to owners", "why_tests_cant": "object sharing patterns", "anchors": ["src/graph_scheduler/condition.py:ConditionBase.owner", "src/graph_scheduler/condition.py:CompositeCondition.owner", "src/graph_scheduler/condition.py:Not.owner"]}
{"id": "C38", "title": "TimeHistoryTree counts match the increment history", "statement": "After any sequence of increment_time calls, get_total_times_relative(q, b) on the root returns the number of q increments since the last increment of scale b or coarser, total_times[q] at the root the total number of q increments.", "quantifier": "every sequence of increments, every pair of scales supported by the tree depth", "why_tests_cant": "unbounded histories", "anchors": ["src/graph_scheduler/time.py:TimeHistoryTree.increment_time", "src/graph_scheduler/time.py:TimeHistoryTree.get_total_times_relative"]}
{"id": "C39", "title": "Clock components are reset by coarser increments", "statement": "After any history the current Time's value for scale s is the number of s increments since the last increment of a coarser scale; previous_time is the time before the last increment.", "quantifier": "every history of increments", "why_tests_cant": "unbounded histories", "anchors": ["src/graph_scheduler/time.py:Time._increment_by_time_scale", "src/graph_scheduler/time.py:Time._reset_by_time_scale"]}
{"id": "C40", "title": "Past scopes can be queried", "statement": "get_total_times_relative(q, {ES: i, ESU: j}) returns the number of q increments that occurred during the j-th environment state update of the i-th environment sequence, and raises TimeScaleError if it does not exist.", "quantifier": "every history, every i, j", "why_tests_cant": "unbounded histories", "anchors": ["src/graph_scheduler/time.py:TimeHistoryTree.get_total_times_relative"]}
{"id": "C41", "title": "Time scale aliases round-trip", "statement": "set_time_scale_alias makes the name usable as a TimeScale and in the names of conditions, module exports and Time attributes, and changes no other name; removing the alias restores everything exactly, also with two aliases removed in either order, provided the names are fresh. Refused calls change nothing. Findings: an alias whose class form occurs inside an existing name (RUN in AllHaveRun) deletes that name on removal; a second alias of the same scale makes the first unremovable; names with an empty segment or of a member fail half way; aliases of PASS and LIFE cannot be read from SimpleTime.", "quantifier": "every registry state and fresh name", "why_tests_cant": "all registry states", "anchors": ["src/graph_scheduler/time.py:set_time_scale_alias", "src/graph_scheduler/time.py:remove_time_scale_alias"]}
{"id": "C42", "title": "The absolute interval divides every interval", "statement": "In absolute time mode the duration of a consideration set execution divides every registered repeat interval (times the queue length in STANDARD mode) and, in EXACT_TIME mode, every inclusive start, end and termination time, and it is the largest such duration, provided the lengths are whole numbers of units which are powers of ten of one unit; a given length is stored with its value unchanged. With a length stored in a binary unit ('8 days' becomes 675 kibiseconds) it need not divide it (finding).", "quantifier": "every set of absolute conditions", "why_tests_cant": "number-theoretic claim over all intervals", "anchors": ["src/graph_scheduler/scheduler.py:Scheduler._get_absolute_consideration_set_execution_unit"]}
{"id": "C43", "title": "TimeInterval executes at exactly its times in exact time mode", "statement": "In exact time mode a node with TimeInterval(repeat=r, start=s, end=e) is executed at exactly those consideration set executions whose absolute time t satisfies s <= t <= e (strict if not inclusive) and t - s divisible by r, and every such time between the first execution and the end of the run is visited. With an exclusive start such times need not be visited (finding), and an inclusive end without a start can make the clock begin at the end, skipping the times before it (finding).", "quantifier": "every r, s, e and every other condition", "why_tests_cant": "unbounded runs and all parameters", "anchors": ["src/graph_scheduler/condition.py:TimeInterval", "src/graph_scheduler/scheduler.py:Scheduler.run"]}
{"id": "C44", "title": "TimeTermination stops at its time", "statement": "A run whose environment state update terminates on TimeTermination(t) executes no consideration set at an absolute time >= t (> t if not inclusive), and ends; if nothing else ends it, it executes one at every multiple of the execution length before t from its first time on. If TimeTermination is the only absolute condition its first time is t, so nothing is executed (finding).", "quantifier": "every t, graph and conditions", "why_tests_cant": "unbounded runs", "anchors": ["src/graph_scheduler/condition.py:TimeTermination"]}
{"id": "C45", "title": "execution_timestamps matches execution_list in absolute mode", "statement": "In an absolute time run each yielded set gets one timestamp and consecutive timestamps differ by the absolute interval.", "quantifier": "every absolute run prefix", "why_tests_cant": "unbounded runs", "anchors": ["src/graph_scheduler/scheduler.py:Scheduler.run"]}
{"id": "C46", "title": "clone_graph is a faithful deep-enough copy", "statement": "clone_graph returns a graph with the same keys in order and equal sender sets (a non-iterable or string sender becomes a singleton); Scheduler construction adds exactly the missing senders with no dependencies.", "quantifier": "every dependency dict", "why_tests_cant": "all graphs", "anchors": ["src/graph_scheduler/utilities.py:clone_graph", "src/graph_scheduler/scheduler.py:Scheduler.__init__"]}
{"id": "C47", "title": "get_receivers transposes the graph", "statement": "r is in get_receivers(g)[s] iff s is in g[r]; applying it twice to a graph closed under senders gives back the graph (as sets).", "quantifier": "every graph", "why_tests_cant": "all graphs", "anchors": ["src/graph_scheduler/utilities.py:get_receivers"]}
{"id": "C48", "title": "get_ancestors/get_descendants are transitive closures", "statement": "get_ancestors(g)[n] is the set of nodes other than n with a non-empty path to n, get_descendants the converse.", "quantifier": "every graph closed under senders", "why_tests_cant": "all graphs", "anchors": ["src/graph_scheduler/utilities.py:get_ancestors", "src/graph_scheduler/utilities.py:get_descendants"]}
{"id": "C49", "title": "networkx conversion round-trips", "statement": "networkx_digraph_to_dependency_dict(dependency_dict_to_networkx_digraph(g)) has the same nodes (plus senders missing from the keys) and the same edges as g.", "quantifier": "every dependency dict", "why_tests_cant": "all graphs", "anchors": ["src/graph_scheduler/utilities.py:dependency_dict_to_networkx_digraph", "src/graph_scheduler/utilities.py:networkx_digraph_to_dependency_dict"]}
{"id": "C50", "title": "Argument pruning passes what the function accepts", "statement": "call_with_pruned_args never passes a keyword the function cannot accept, never drops one it can accept, and passes a prefix of the positional arguments of the length of the required parameters (all of them if the function takes *args). For functions without positional-only and required keyword-only parameters, the call raises TypeError exactly when a required parameter gets no value or a parameter gets two, and every parameter receives the value meant for it; the function of a Condition sees evaluation keywords before those given at creation. Findings: positional arguments for parameters with defaults are dropped; positional-only parameters receive nothing; Condition(func, execution_id=...) can never be evaluated.", "quantifier": "every signature and argument list", "why_tests_cant": "all signatures", "anchors": ["src/graph_scheduler/utilities.py:prune_unused_args", "src/graph_scheduler/utilities.py:call_with_pruned_args"]}
{"id": "C51", "title": "The cached graph functions may return stale or shared objects", "statement": "A cached graph function returns the value (or raises the exception) of the function on a graph equal to its argument as long as nobody mutates earlier results, even if argument sets are mutated in place provided hashes do not collide; a call changes no graph and no earlier result, and the cache never exceeds its size. Findings: mutation of a returned object is visible to later callers; in-place mutation with a hash collision returns a stale value.", "quantifier": "every sequence of calls", "why_tests_cant": "all call histories", "anchors": ["src/graph_scheduler/utilities.py:cached_graph_function", "src/graph_scheduler/utilities.py:HashableDict"]}
{"id": "C52", "title": "Termination conditions are merged over the defaults", "statement": "The termination conditions in force for run(tc) are tc's entries, and for missing time scales the scheduler's current ones, which setting termination_conds updates per time scale and None resets to the constructor's; invalid keys or values raise and leave the scheduler unchanged. The documented string keys raise RuntimeError and change the caller's dict unless the time scale is a key too, or has a default in the constructor (finding).", "quantifier": "every sequence of assignments and every dict", "why_tests_cant": "all histories", "anchors": ["src/graph_scheduler/scheduler.py:Scheduler._combine_termination_conditions", "src/graph_scheduler/scheduler.py:Scheduler._parse_termination_conditions"]}
{"id": "C53", "title": "Abandoning a run leaves the clock mid-run (finding)", "statement": "Expected: a new run() starts a new environment state update. Refuted: after a generator is dropped mid-run, the next run starts with the old pass count, so e.g. AtPass(0) is not satisfied in its first pass.", "quantifier": "every point at which a run is abandoned", "why_tests_cant": "crash points", "anchors": ["src/graph_scheduler/scheduler.py:Scheduler.run"]}
{"id": "C54", "title": "An exception in a condition does not corrupt the counts", "statement": "Expected: nodes not yielded are not counted. Refuted: if evaluating a condition raises while a level is being processed, nodes already accepted in that level stay counted although their set is never yielded.", "quantifier": "every point at which a condition can raise", "why_tests_cant": "crash points", "anchors": ["src/graph_scheduler/scheduler.py:Scheduler.run"]}
{"id": "C55", "title": "Threshold compares as specified", "statement": "Threshold(dep, param, thr, cmp, atol, rtol) is satisfied iff the parameter value compares to thr by cmp, '==' and '!=' meaning |value - thr| <= atol + rtol*|thr| and its negation; the value is the one at the moment of evaluation, read with the custom getter if given and taken at the indices (a TimeScale standing for its number, negative indices counting from the end). The constructor succeeds iff the parameter is accepted (by the custom validator, or it exists) and the comparator is one of the six, and otherwise raises ConditionError or what the validator throws.", "quantifier": "every value, threshold, tolerance, index list, getter and validator", "why_tests_cant": "all numbers and nested values", "anchors": ["src/graph_scheduler/condition.py:Threshold", "src/graph_scheduler/condition.py:comparison_operators"]}
{"id": "C56", "title": "Graph and conditions may be changed while a run is suspended", "statement": "Between two yields of a run the user may add and remove conditions of all kinds, read the graph, set termination conditions and run with other execution ids. What is yielded next is a duplicate-free part of one set of the consideration queue of that moment, holds no sender with its receiver in the graph of that moment, and contains exactly the nodes of that set whose conditions, as registered at that moment, are true; execution list, counts, clock and timestamps stay exact over the whole run. Findings: the position in the queue is kept, so a node can run twice in a pass or be passed over; removing a node's condition makes the run raise KeyError. When structural conditions that cannot be applied were left behind, next() yields nothing and the run is over.", "quantifier": "every run prefix, with arbitrary changes at every yield", "why_tests_cant": "all interleavings of changes with yields", "anchors": ["src/graph_scheduler/scheduler.py:Scheduler.run", "src/graph_scheduler/scheduler.py:Scheduler.add_condition", "src/graph_scheduler/scheduler.py:Scheduler.remove_condition", "src/graph_scheduler/scheduler.py:Scheduler.consideration_queue"]}
{"id": "C57", "title": "add_graph_edge and remove_graph_edge change exactly one edge", "statement": "After add_graph_edge(a, b) the scheduler's graph is the graph before plus exactly the edge from a to b, after remove_graph_edge(a, b) the graph before minus exactly that edge, whatever calls were made before; the graph after adding any structural condition is the graph before modified by it; basic conditions, termination conditions, clocks and counts are unchanged. Nodes that are missing and edges from a node to itself raise ConditionError.", "quantifier": "every scheduler, history of calls and pair of nodes", "why_tests_cant": "all histories", "anchors": ["src/graph_scheduler/scheduler.py:Scheduler.add_graph_edge", "src/graph_scheduler/scheduler.py:Scheduler.remove_graph_edge", "src/graph_scheduler/condition.py:ConditionSet.add_graph_edge", "src/graph_scheduler/condition.py:AddEdgeTo", "src/graph_scheduler/condition.py:RemoveEdgeFrom"]}
{"id": "C58", "title": "While, WhenFinished and start conditions mean what their names say", "statement": "While(f) is satisfied iff f returns true and WhileNot(f) iff it returns false, both calling f exactly once; WhenFinished, WhenFinishedAny and WhenFinishedAll are satisfied iff is_finished of the node, of some node, of all nodes is true at that moment (all nodes of the scheduler if none is given) and depend on nothing else; AtEnvironmentStateUpdateStart, AtEnvironmentStateUpdateNStart, AtEnvironmentSequenceStart and AtEnvironmentSequenceNStart are satisfied iff the clock's history says so.", "quantifier": "every state of the nodes, function and clock history", "why_tests_cant": "all histories and user functions", "anchors": ["src/graph_scheduler/condition.py:While", "src/graph_scheduler/condition.py:WhileNot", "src/graph_scheduler/condition.py:WhenFinished", "src/graph_scheduler/condition.py:WhenFinishedAny", "src/graph_scheduler/condition.py:WhenFinishedAll", "src/graph_scheduler/condition.py:AtEnvironmentStateUpdateStart", "src/graph_scheduler/condition.py:AtEnvironmentStateUpdateNStart", "src/graph_scheduler/condition.py:AtEnvironmentSequenceStart", "src/graph_scheduler/condition.py:AtEnvironmentSequenceNStart"]}
{"id": "C59", "title": "EveryNCalls(d, n) makes b run exactly once per n runs of d", "statement": "If d has its turn no later than b (always so if d is a sender of b), b has EveryNCalls(d, n) throughout the run and the termination conditions stay true over the end of a pass, then over the passes that are over b ran floor(runs of d / n) times, at any moment b is at most one run behind, and whenever b has just run d has run exactly n times as often. With termination conditions that become false at the next pass b can miss its turn (finding).", "quantifier": "every graph, n, other conditions and run prefix", "why_tests_cant": "unbounded runs", "anchors": ["src/graph_scheduler/condition.py:EveryNCalls", "src/graph_scheduler/scheduler.py:Scheduler.run"]}
{"id": "C60", "title": "A node whose condition depends on the pass runs once in each such pass and in no other", "statement": "If node b has condition c throughout a run and the termination conditions stay true until the next pass, then in each pass that is over b ran exactly once if c came out true at its turn and not at all otherwise; in particular with Always, Never, BeforePass, AtPass, AfterPass, AfterNPasses, EveryNPasses and All, Any, Not of them b ran exactly once in each such pass in which the condition holds, and in no other, whatever the rest of the graph does. With a termination condition that becomes false again at the next pass a node with Always can miss a pass (finding).", "quantifier": "every graph, conditions of the other nodes, scheduling mode and run prefix", "why_tests_cant": "unbounded runs", "anchors": ["src/graph_scheduler/scheduler.py:Scheduler.run", "src/graph_scheduler/condition.py:AtPass", "src/graph_scheduler/condition.py:BeforePass", "src/graph_scheduler/condition.py:AfterPass", "src/graph_scheduler/condition.py:AfterNPasses", "src/graph_scheduler/condition.py:EveryNPasses", "src/graph_scheduler/condition.py:Always"]}
{"id": "C61", "title": "Operations may be given by name and per node", "statement": "A structural condition constructed with operations given as Operation members or by their names in any case, for subjects one for all or a dict with one per node, is the condition with these operations: the constructor rejects the same arguments and modify_graph does the same to every graph. The constructor raises nothing but ConditionError, exactly if the number of nodes is wrong or a dict has a key that is not among the nodes. Findings: misspelt names and dicts without some node are accepted and fail only when the graph is needed; the caller's dict is changed in place.", "quantifier": "every argument, node list and graph", "why_tests_cant": "all arguments and graphs", "anchors": ["src/graph_scheduler/condition.py:_GSCWithOperations.__init__", "src/graph_scheduler/condition.py:_GSCWithOperations._parse_operation_arg", "src/graph_scheduler/condition.py:_GSCWithOperations._handle_subject_arg", "src/graph_scheduler/condition.py:_GSCWithOperations._get_subject_operation", "src/graph_scheduler/condition.py:Operation"]}
{"id": "C62", "title": "Runs with suitable conditions never raise", "statement": "If the graph is acyclic, the nodes that conditions name are nodes of the scheduler, call counts are given, periods are not zero, time scales are coarser than what is counted, methods and parameters that conditions read exist and user functions do not raise, then no run of the scheduler raises, at any resumption, in either scheduling mode, with or without absolute time, for a known execution id; in particular no run of a newly made scheduler with such conditions. Finding: the constructors accept conditions outside these limits, which then raise IndexError, KeyError, ZeroDivisionError, TimeScaleError or ConditionError in the middle of a run.", "quantifier": "every graph, set of suitable conditions, termination conditions, state of the outside world and number of resumptions", "why_tests_cant": "all runs of all schedulers", "anchors": ["src/graph_scheduler/scheduler.py:Scheduler.run", "src/graph_scheduler/scheduler.py:Scheduler.__init__", "src/graph_scheduler/condition.py:Condition.is_satisfied"]}
{"id": "C63", "title": "Runs whose termination conditions bound the number of passes come to an end", "statement": "If one of the termination conditions of a run never comes out false when evaluated in pass n (AtPass(n), AfterNPasses(m) with m <= n, AfterPass(m) with m < n, EveryNPasses(m) with m dividing n, Any with one of these, All of these), the conditions are suitable in the sense of C62, and pass n is not over when the run starts, then iterating over run() ends, and the run has yielded at most as many sets as there are consideration sets in the passes before pass n (one for an idle pass). It does so whatever the conditions of the nodes are, also if no node ever runs.", "quantifier": "every graph, set of suitable conditions, scheduling mode, termination scale and n", "why_tests_cant": "all runs of all schedulers; a test cannot tell a slow run from an endless one", "anchors": ["src/graph_scheduler/scheduler.py:Scheduler.run", "src/graph_scheduler/condition.py:AtPass", "src/graph_scheduler/condition.py:AfterNPasses", "src/graph_scheduler/condition.py:AfterPass", "src/graph_scheduler/condition.py:EveryNPasses", "src/graph_scheduler/condition.py:Any"]}
{"id": "C64", "title": "A node that is due runs in the current pass", "statement": "If node b has condition c throughout a run and the termination conditions stay true until the next pass, then in each pass that is over b either ran once, or c came out false in view of exactly what had been executed by the end of its turn: every node's executions in the earlier passes, and in this pass those of the nodes that are not in a later consideration set. So a node runs in every pass that is over by whose turn its AfterNCalls, EveryNCalls, AllHaveRun or pass conditions (or All, Any of them) have been met; no other circumstance keeps it from running.", "quantifier": "every graph, conditions of the other nodes, scheduling mode, run prefix and pass", "why_tests_cant": "unbounded runs", "anchors": ["src/graph_scheduler/scheduler.py:Scheduler.run", "src/graph_scheduler/condition.py:AfterNCalls", "src/graph_scheduler/condition.py:EveryNCalls", "src/graph_scheduler/condition.py:AllHaveRun", "src/graph_scheduler/condition.py:All", "src/graph_scheduler/condition.py:Any"]}
{"id": "C65", "title": "Runs end once the executions the termination condition waits for are due", "statement": "If by the conditions of the nodes alone it follows that each node d is executed N(d) times before pass p (its condition holds in that many of the passes; or it is EveryNCalls(d', n) of a node d' not later in the graph that is executed n times as often; or the nodes that its AfterNCalls, AllHaveRun, EveryNCalls, All, Any conditions wait for are executed often enough by its turn), then every run that gets as far as pass p has executed d that often; and a run with suitable conditions (C62) whose termination condition waits for no more than that (the default one waits for one execution of every node) returns, having yielded at most as many sets as there are consideration sets in the passes before pass p.", "quantifier": "every acyclic graph, conditions, scheduling mode, termination scale and p", "why_tests_cant": "all runs of all schedulers; a test cannot tell a slow run from an endless one", "anchors": ["src/graph_scheduler/scheduler.py:Scheduler.run", "src/graph_scheduler/scheduler.py:Scheduler._validate_run_state", "src/graph_scheduler/condition.py:AllHaveRun", "src/graph_scheduler/condition.py:EveryNCalls", "src/graph_scheduler/condition.py:AfterNCalls"]}
{"id": "C66", "title": "Consecutive runs are numbered, and nodes can be bound to a run by its number", "statement": "However often run() is called for one execution id, whether the generators are run to the end or given up, and whatever else is done in between: environment_state_update is the number of runs that returned since the last end_environment_sequence, environment_sequence the number of calls of end_environment_sequence, the clock tells for every past sequence how many runs returned in it and for every past run how many sets it executed, execution_list is the concatenation of all sets yielded, counts_total over LIFE counts all executions and over ENVIRONMENT_STATE_UPDATE those of the latest run. A node whose condition is a combination of conditions on the number of the run in its sequence, of the sequence and of the pass (AtEnvironmentStateUpdate(n), AtEnvironmentSequenceNStart(n), ...) runs exactly once in every completed pass in which the condition holds for these numbers, and in no other pass or run. Finding: counts_total over ENVIRONMENT_SEQUENCE is never set back.", "quantifier": "every sequence of runs and of ended sequences, run prefix and condition", "why_tests_cant": "unbounded histories of runs", "anchors": ["src/graph_scheduler/scheduler.py:Scheduler.run", "src/graph_scheduler/scheduler.py:Scheduler.end_environment_sequence", "src/graph_scheduler/scheduler.py:Scheduler._reset_counts_total", "src/graph_scheduler/condition.py:AtEnvironmentStateUpdate", "src/graph_scheduler/condition.py:AtEnvironmentSequence", "src/graph_scheduler/time.py:Clock"]}
{"id": "C67", "title": "TimeInterval in standard mode follows the passes", "statement": "In a run in absolute time, the (j+1)-th set yielded is drawn from consideration set j mod n (n being their number), belongs to the pass j / n after the first and is stamped j steps of the clock after the first set. In standard mode with two or more consideration sets, a node at position i with TimeInterval(repeat, start, end) is executed in a pass iff the time at which the pass began is a whole number of repeat intervals and the time of its own turn is not before start and not after end; with repeat only, in a run from time 0, in every N-th pass exactly, N being the number of passes that repeat lasts. Finding: start is not where the repetition is counted from in standard mode.", "quantifier": "every graph, set of conditions, run prefix and interval", "why_tests_cant": "unbounded runs, arbitrary rational lengths", "anchors": ["src/graph_scheduler/scheduler.py:Scheduler.run", "src/graph_scheduler/scheduler.py:Scheduler._get_absolute_consideration_set_execution_unit", "src/graph_scheduler/condition.py:TimeInterval"]}
{"id": "C68", "title": "Time conditions mean the times they are given", "statement": "TimeInterval(repeat, start, end, unit) raises ConditionError iff all three times are missing or start is strictly later than end, provided start and end are both numbers or both quantities; otherwise, whatever mix of numbers, strings and quantities is given, the condition holds at exactly the times that the arguments describe, and TimeTermination(t, inclusive, unit) ends at the time given. An interval that ends before it starts is never satisfied. Finding: start and end given as strings are compared character by character, so that start='9ms', end='10ms' is rejected and start='10ms', end='9ms' accepted.", "quantifier": "every unit registry, unit and combination of arguments", "why_tests_cant": "unbounded domain of arguments", "anchors": ["src/graph_scheduler/condition.py:TimeInterval.__init__", "src/graph_scheduler/condition.py:TimeTermination.__init__", "src/graph_scheduler/condition.py:_parse_absolute_unit", "src/graph_scheduler/condition.py:_reduce_quantity_to_integer"]}
{"id": "C69", "title": "Repositioning conditions keep graphs acyclic, where they do", "statement": "Pruning cycles is complete: no cycle left in the graph has an edge that pruning may remove. It does nothing else: cycles are cut one after the other, a longest one first, each while it is a cycle of the graph, and lose only those edges. On an acyclic graph, with the default arguments, BeforeNode gives an acyclic graph, so does BeforeNodes if no subject is an ancestor of another, AfterNodes if no subject is an ancestor of the owner, and WithNode if neither node is an ancestor of the other. Finding: without these restrictions each of BeforeNodes, AfterNode and WithNode turns some acyclic graph into a cyclic one.", "quantifier": "every graph, owner, list of subjects and enumeration of simple cycles", "why_tests_cant": "unbounded graphs; depends on the order in which networkx lists cycles", "anchors": ["src/graph_scheduler/condition.py:_GSCWithOperations._handle_prune_cycles", "src/graph_scheduler/condition.py:_GSCWithOperations._prune_owner_edge", "src/graph_scheduler/condition.py:_GSCReposition", "src/graph_scheduler/condition.py:BeforeNodes", "src/graph_scheduler/condition.py:AfterNodes", "src/graph_scheduler/condition.py:WithNode"]}
{"id": "C70", "title": "Keyword arguments of run() reach custom conditions and nothing else", "statement": "Keyword arguments given to run() whose names are not names of parameters of the built-in conditions in use: built-in conditions are evaluated as if they had not been given, and the function of each custom condition (Condition, While, WhileNot) receives those it names (all of them with **kwargs), together with scheduler, execution_id and the arguments given when the condition was created, in the same way however deeply it is nested in All, Any, Not and NWhen. Finding: run(n=...) makes BeforePass, AfterNCalls, NWhen and others raise TypeError whenever they are evaluated, and silently replaces n of AfterNCallsCombined; run(threshold=...) replaces the threshold of every Threshold.", "quantifier": "every nesting of conditions, signature of the custom functions and set of keyword arguments", "why_tests_cant": "unbounded nesting, arbitrary signatures and names", "anchors": ["src/graph_scheduler/scheduler.py:Scheduler.run", "src/graph_scheduler/condition.py:Condition.is_satisfied", "src/graph_scheduler/condition.py:All.satis", "src/graph_scheduler/condition.py:Any.satis", "src/graph_scheduler/condition.py:Not", "src/graph_scheduler/condition.py:NWhen.satis", "src/graph_scheduler/condition.py:WhileNot", "src/graph_scheduler/utilities.py:call_with_pruned_args"]}
{"id": "C71", "title": "Conditions call their function with the arguments they were created with", "statement": "Condition(func, *args, **kwargs), with no keyword that is the name of an attribute of conditions, has no owner and calls func with args and kwargs, overridden by what is given at evaluation. All and Any consist of the components given by position, followed by those of one sequence given by keyword. Finding: keywords named args, kwargs, owner, is_satisfied, is_absolute, _owner change the condition instead of being only passed on, and a component given to All or Any by keyword, or two keywords, raise TypeError.", "quantifier": "every signature, list of arguments and set of keywords", "why_tests_cant": "arbitrary signatures and names", "anchors": ["src/graph_scheduler/condition.py:ConditionBase.__init__", "src/graph_scheduler/condition.py:Condition.__init__", "src/graph_scheduler/condition.py:Condition.is_satisfied", "src/graph_scheduler/condition.py:All.__init__", "src/graph_scheduler/condition.py:Any.__init__"]}
{"id": "C72", "title": "The numbers along a chain of EveryNCalls multiply", "statement": "If b1 has the condition EveryNCalls(d, n1), b2 EveryNCalls(b1, n2) and so on, each node coming no earlier in the consideration queue than the one before, then over the passes that are over the last node of the chain has been executed once for every n1 * n2 * ... executions of d, rounded down. If d's condition depends on the pass only, the number is that of the passes in which it holds, divided by the product; if d is executed in every pass, the last node is executed once in the passes number N, 2N, 3N, ... of the run and in no other, N being the product.", "quantifier": "every graph, length of chain, numbers n1, n2, ..., other conditions and run prefix", "why_tests_cant": "unbounded chains and runs", "anchors": ["src/graph_scheduler/condition.py:EveryNCalls", "src/graph_scheduler/scheduler.py:Scheduler.run"]}
{"id": "C73", "title": "Debug logging displays every message once", "statement": "If the user has not configured the loggers of the package, then after any calls of enable_debug_logging() and disable_debug_logging(level), the former at least once, a message of the package is displayed exactly once, by one handler, if its level is at least the one the last call gave to the root logger, and not at all otherwise; the root logger keeps its handlers and has the level of the last call. Findings: disable_debug_logging() does not undo enable_debug_logging(), since messages of the package no longer reach the handlers of the root logger; enable_debug_logging() displays no debug messages if the package's logger has a handler or a level of its own.", "quantifier": "every sequence of calls, level and configuration of the root logger", "why_tests_cant": "unbounded sequences of calls", "anchors": ["src/graph_scheduler/utilities.py:enable_debug_logging", "src/graph_scheduler/utilities.py:disable_debug_logging"]}
{"id": "C74", "title": "Absolute time passes only in runs with absolute conditions", "statement": "During and after a run in which no condition of a node and no termination condition is, or combines with All and Any, a TimeInterval or TimeTermination, the clock shows the absolute time it showed before, the length of a step is unchanged and no timestamps are recorded. Findings: Not and NWhen hide absolute conditions, so that a node with the condition Not(TimeInterval(end=t)) never runs at all unless some unrelated condition makes the run keep absolute time; TimeInterval(repeat=...) as a termination condition makes every run raise UnboundLocalError.", "quantifier": "every graph, set of conditions, run prefix, interleaving with user code", "why_tests_cant": "unbounded runs, arbitrary conditions", "anchors": ["src/graph_scheduler/scheduler.py:Scheduler.run", "src/graph_scheduler/scheduler.py:Scheduler.get_absolute_conditions", "src/graph_scheduler/condition.py:AbsoluteCondition", "src/graph_scheduler/condition.py:CompositeCondition.is_absolute", "src/graph_scheduler/condition.py:TimeInterval"]}
{"id": "C75", "title": "Custom graph structure conditions work on a private copy of the graph", "statement": "CustomGraphStructureCondition(f): applying the condition calls f once, with a copy of the graph that has the same nodes and edges and shares no set object with any other graph, preceded by the condition if the first parameter of f is called self; if self is a later parameter, or the condition has no owner, ConditionError is raised instead. If f changes nothing but its argument, the graph it was applied to is unchanged, also if f works in place. Added to a scheduler in any state, the scheduler's graph becomes exactly what f returns for a copy of the graph before, and what f raises, add_condition raises. Finding: the result of f is not checked, so missing or additional nodes lead to KeyError in run.", "quantifier": "every function f, graph, and history of the scheduler", "why_tests_cant": "arbitrary user functions, unbounded histories", "anchors": ["src/graph_scheduler/condition.py:CustomGraphStructureCondition", "src/graph_scheduler/condition.py:GraphStructureCondition.modify_graph", "src/graph_scheduler/utilities.py:clone_graph", "src/graph_scheduler/scheduler.py:Scheduler.add_condition"]}
{"id": "C76", "title": "With the default termination conditions a run ends exactly when every node has run", "statement": "A run whose termination conditions are the default ones (AllHaveRun for the environment state update, Never for the environment sequence), or AllHaveRun of some nodes: when it returns, every node (every node listed) is in one of the sets it yielded; and as soon as every node is in one of them, the next resumption returns. This holds whatever the conditions of the nodes are. So if a node is in no consideration set, or its condition is never satisfied (Never, All with such a condition, and so on), the run never returns.", "quantifier": "every graph, set of conditions, run prefix, interleaving with user code", "why_tests_cant": "unbounded runs, arbitrary conditions", "anchors": ["src/graph_scheduler/scheduler.py:Scheduler.run", "src/graph_scheduler/scheduler.py:default_termination_conds", "src/graph_scheduler/condition.py:AllHaveRun", "src/graph_scheduler/condition.py:Never"]}
{"id": "C77", "title": "Schedules do not depend on what users do to the sets they receive", "statement": "If no condition of a node and no termination condition is built with JustRan or a user function that reads execution_list, then whatever a user does to the contents of execution_list between receiving sets (in particular changing the sets received, which are the objects kept in it), the run yields the same sets, ends in the same way and leaves the same counts, times and conditions; only the list returned differs. Findings: the sets yielded are the ones kept in execution_list, so a user who empties them loses the history; with JustRan they change what runs next.", "quantifier": "every graph, set of conditions without JustRan, run length, and sequence of changes", "why_tests_cant": "arbitrary user code between unboundedly many resumptions", "anchors": ["src/graph_scheduler/scheduler.py:Scheduler.run", "src/graph_scheduler/scheduler.py:Scheduler.execution_list", "src/graph_scheduler/condition.py:JustRan"]}
{"id": "C78", "title": "Runs depend on what is registered, not on how it came there", "statement": "Two schedulers for the same graph are set up in different ways: conditions given to the constructor, added one by one or as sets, replaced or removed, graphs read and termination conditions assigned in between. If in the end the same conditions are registered, the structural ones in the same order, and the termination conditions are the same, every run yields the same sets and ends in the same way, and leaves the same counts, histories, clocks and conditions. In particular conditions may be added in any order. (No exceptions in the set-up, no condition object used twice, no absolute conditions of nodes.)", "quantifier": "every graph, every two histories of set-up calls, every run", "why_tests_cant": "unbounded histories and runs", "anchors": ["src/graph_scheduler/scheduler.py:Scheduler.__init__", "src/graph_scheduler/scheduler.py:Scheduler.add_condition", "src/graph_scheduler/scheduler.py:Scheduler.add_condition_set", "src/graph_scheduler/scheduler.py:Scheduler.remove_condition", "src/graph_scheduler/scheduler.py:Scheduler.termination_conds", "src/graph_scheduler/scheduler.py:Scheduler.run", "src/graph_scheduler/condition.py:ConditionSet"]}
{"id": "C79", "title": "Unrelated parts of a graph do not influence each other", "statement": "Take some of the nodes of a graph, with their senders, whose conditions look only at passes (or coarser units of time) and at calls of these nodes: Always, Never, the conditions on passes, environment state updates and sequences, the ones on numbers of calls, EveryNCalls, AllHaveRun, All, Any and Not of these, and default conditions. In each pass these nodes are executed in the same sets in every scheduler that contains them with the same senders, the same order within consideration sets and the same conditions, whatever other nodes there are and whatever conditions those have, user functions included (termination conditions being ones that stay true over the end of a pass). Finding: JustRan and conditions on consideration set executions do see the other nodes.", "quantifier": "every two graphs containing the nodes, all conditions of the other nodes, every run prefix, pass and interleaving with user code", "why_tests_cant": "arbitrary surroundings, unbounded runs", "anchors": ["src/graph_scheduler/scheduler.py:Scheduler.run", "src/graph_scheduler/scheduler.py:Scheduler.consideration_queue", "src/graph_scheduler/condition.py:EveryNCalls", "src/graph_scheduler/condition.py:JustRan"]}
{"id": "C80", "title": "Runs go the same way every time if the conditions speak about the run only", "statement": "Let all conditions of the nodes and for termination depend on the current run only: on passes or consideration set executions of the environment state update, on calls counted within it, EveryNCalls, AllHaveRun, WhenFinished, Threshold, and All, Any, Not of such. A run() that starts where the previous one returned (or on a new scheduler) and yields ys before it returns: every later run() with the same arguments yields the same ys, and the history returned by the n-th is ys n times. Two schedulers set up alike yield the same sets whatever they did before and under whatever execution id. It fails with NWhen and with skip_environment_state_update_time_increment.", "quantifier": "every graph, all such conditions, every past and execution id, any number of runs", "why_tests_cant": "unbounded histories and numbers of runs", "anchors": ["src/graph_scheduler/scheduler.py:Scheduler.run", "src/graph_scheduler/scheduler.py:Scheduler._reset_counts_total", "src/graph_scheduler/scheduler.py:Scheduler._reset_counts_useable", "src/graph_scheduler/scheduler.py:Scheduler._increment_time", "src/graph_scheduler/condition.py:EveryNCalls", "src/graph_scheduler/condition.py:NWhen"]}
{"id": "C81", "title": "Termination conditions only decide when a run ends", "statement": "Take two runs of a scheduler from the same state with different termination conditions, each of which stays true until the end of the run once it is true (AfterNCalls, AfterNPasses, AllHaveRun and the like for the environment state update or a coarser scale, All and Any of such). Neither termination condition changes what is executed: one of the runs yields a beginning of what the other yields and returns, or both yield the same and end in the same way. The run with Any(c1, c2) is the shorter of the runs with c1 and c2, the run with All(c1, c2) is the longer; and it makes no difference which of the two time scales (ENVIRONMENT_STATE_UPDATE or ENVIRONMENT_SEQUENCE) has which condition. Finding: with a condition that becomes false again in the next pass the runs differ in the middle.", "quantifier": "every graph, all conditions of nodes without absolute time (user functions included), every state, every two such termination conditions, runs of any length", "why_tests_cant": "unbounded runs, arbitrary conditions and pairs of termination conditions", "anchors": ["src/graph_scheduler/scheduler.py:Scheduler.run", "src/graph_scheduler/scheduler.py:Scheduler._combine_termination_conditions", "src/graph_scheduler/scheduler.py:Scheduler.termination_conds", "src/graph_scheduler/condition.py:Any", "src/graph_scheduler/condition.py:All", "src/graph_scheduler/condition.py:AllHaveRun", "src/graph_scheduler/condition.py:AfterNCalls"]}
{"id": "C82", "title": "Names of the nodes do not matter", "statement": "Take two schedulers created from the same arguments, except that the nodes of the second have other names, one for one (and user functions, termination conditions and the outside world use those names). The second is created if and only if the first is, with the same error otherwise; and every sequence of calls (adding and removing basic and graph structure conditions, graph, consideration_queue, termination_conds, runs step by step, end_environment_sequence) gives the results of the first with the new names: the same sets in the same order, the same exceptions, the same counts and clocks.", "quantifier": "every injective renaming, every graph argument, every set of conditions of any class, every sequence of calls and every step of every run", "why_tests_cant": "Tests use a handful of node names and their sorted order; a dependence on names, hash values or name order shows for particular names only.", "anchors": ["src/graph_scheduler/scheduler.py:Scheduler", "src/graph_scheduler/condition.py:ConditionSet", "src/graph_scheduler/condition.py:GraphStructureCondition", "src/graph_scheduler/utilities.py:get_simple_cycles"]}
{"id": "C83", "title": "How often the conditions are evaluated", "statement": "A condition may be a function with side effects. During a run the condition of a node is evaluated only while its consideration set is considered: at each turn of this set at most as many times as the set has nodes, and (with termination conditions that stay true once true, or none) at least once; hence exactly once in each pass for a node alone in its set. When run() returns it is evaluated only if its set was still to come. A termination condition is evaluated at most once at the beginning of each pass and once before each consideration set, and exactly then while the termination conditions are false. Finding: with several nodes in a consideration set a condition that is false is evaluated again in the same pass when another node of the set was added.", "quantifier": "every graph, node, set of conditions whose other members do not call the function, every run prefix and interleaving with user code", "why_tests_cant": "arbitrary functions with side effects, unbounded runs", "anchors": ["src/graph_scheduler/scheduler.py:Scheduler.run", "src/graph_scheduler/condition.py:Condition.is_satisfied", "src/graph_scheduler/condition.py:While"]}
{"id": "C84", "title": "Reconnecting keeps the order of what was connected through the owner", "statement": "BeforeNode(s), AfterNode(s), WithNode and the other conditions with operations, with reconnect_non_subject_receivers=True (the default): for every sender s and every receiver r of the owner that is not a subject node, in the modified graph r still waits for s, through the owner or by an edge from s to r, unless r is now an ancestor of s. The option does nothing else: the condition raises exactly when it does without the option; no edge is lost; each added edge leads from a former sender to a former non-subject receiver of the owner, one of the two edges between them and the owner is gone, and it closes no cycle of several nodes. Findings: the edge is added although there is another path from s to r (the documentation says otherwise), and it can be an edge from a node to itself.", "quantifier": "every graph, owner, condition with any operations and flags, every enumeration of cycles", "why_tests_cant": "arbitrary graphs and operations", "anchors": ["src/graph_scheduler/condition.py:_GSCWithOperations", "src/graph_scheduler/condition.py:BeforeNodes", "src/graph_scheduler/condition.py:AfterNodes", "src/graph_scheduler/condition.py:WithNode"]}
{"id": "C85", "title": "Warnings say what happened", "statement": "The warnings of condition sets, structural conditions, schedulers and Threshold are given exactly when what they say is the case. After any calls: add_condition warns about replacing exactly if the node has a basic condition, and names the old and new one; add_condition_set warns as the single additions do; remove_condition warns exactly if nothing changes. RemoveEdgeFrom warns exactly if the edge is missing; the conditions that move a node name exactly the subjects that are already in place, and say 'ignored' exactly if no edge changes. A scheduler warns about a cycle exactly if the graph it is given, or the graph a newly added structural condition produces, has one, and names that condition; in exact time mode it warns at the beginning of a run exactly if there are structural conditions. A condition said to depend on its owner does. A Threshold that warns about its tolerances evaluates as without them. Findings: a condition whose second dependency is its owner, and a Threshold, are not reported; with several conditions applied at once the cycle is blamed on the last; a cycle that was there before is called created; in exact time mode structural conditions do have an effect.", "quantifier": "every sequence of calls, graph, condition and its nesting, operations and flags of structural conditions, tolerance and operator", "why_tests_cant": "arbitrary histories, graphs and nestings of conditions", "anchors": ["src/graph_scheduler/condition.py:ConditionSet.add_condition", "src/graph_scheduler/condition.py:ConditionSet.remove_condition", "src/graph_scheduler/condition.py:Condition.owner", "src/graph_scheduler/condition.py:RemoveEdgeFrom", "src/graph_scheduler/condition.py:_GSCReposition", "src/graph_scheduler/condition.py:Threshold", "src/graph_scheduler/scheduler.py:Scheduler._validate_conditions", "src/graph_scheduler/scheduler.py:Scheduler._push_graph"]}
{"id": "C86", "title": "Which conditions raise when evaluated, and what", "statement": "is_satisfied of every class of the library raises exactly in the following cases. Conditions on consideration set executions with time scale PASS: TimeScaleError. EveryNPasses(0): ZeroDivisionError. Counts of calls: KeyError if the execution id or the dependency is unknown to the scheduler; EveryNCalls also if the condition has no owner or the owner is not a node of the scheduler. AfterNCallsCombined without n: ConditionError. JustRan: KeyError for an unknown execution id, IndexError before the first execution. AllHaveRun, WhenFinished, WhenFinishedAny, WhenFinishedAll: ConditionError if a node is looked at that is unknown or has no is_finished; nodes are looked at in order until the result is decided. Threshold: AttributeError, IndexError or TypeError if the parameter is missing, cannot be indexed or is no number. TimeInterval with repeat: UnboundLocalError if the owner is in no consideration set (and there is no start in exact time mode), ZeroDivisionError for repeat=0. All, Any, Not and NWhen raise exactly if a component that is reached raises.", "quantifier": "every scheduler state, execution id, owner, condition and nesting", "why_tests_cant": "arbitrary states and nestings", "anchors": ["src/graph_scheduler/condition.py:Condition.is_satisfied", "src/graph_scheduler/condition.py:EveryNCalls", "src/graph_scheduler/condition.py:AllHaveRun", "src/graph_scheduler/condition.py:JustRan", "src/graph_scheduler/condition.py:TimeInterval", "src/graph_scheduler/condition.py:Threshold", "src/graph_scheduler/condition.py:All", "src/graph_scheduler/condition.py:Any"]}
{"id": "C87", "title": "Over any session the records of an execution id are what its callers received", "statement": "Take any sequence of public calls on one scheduler: conditions added and removed, the graph looked at, termination conditions set, environment sequences ended, and generators made by run() - several of the same and of other execution ids - resumed in any order, abandoned or ended by exceptions that the caller catches. The list of executions of an execution id then grows by exactly the sets its generators yielded, in the order in which the callers received them. The execution counts of a node for ENVIRONMENT_SEQUENCE and LIFE grow by the number of these sets that contain it, plus at most one for each exception; without exceptions exactly. A generator that returns gives the whole list of its execution id. For a new scheduler's own execution id, list and LIFE counts therefore agree at any time. (Generators of the same execution id do change what the others yield, and in absolute time mode an execution id other than the scheduler's own records a set that is never yielded.)", "quantifier": "every scheduler, session of calls, number and interleaving of generators, and point of failure", "why_tests_cant": "unbounded interleavings of calls, generators and exceptions", "anchors": ["src/graph_scheduler/scheduler.py:Scheduler.run", "src/graph_scheduler/scheduler.py:Scheduler._init_counts", "src/graph_scheduler/scheduler.py:Scheduler._reset_counts_total", "src/graph_scheduler/scheduler.py:Scheduler.end_environment_sequence", "src/graph_scheduler/scheduler.py:Scheduler.execution_list"]}
{"id": "C88", "title": "Over any session the clock of an execution id only moves forward", "statement": "Take any sequence of public calls on one scheduler: conditions added and removed, the graph looked at, termination conditions set, environment sequences ended, and generators made by run() resumed in any order, abandoned or ended by exceptions that the caller catches. The time of an execution id after the calls is never earlier than before them, where times are compared at the coarsest time scale at which they differ. Two sets yielded by the same generator have different times. The history of the clock is only extended. Absolute time does not go back either, as long as the units of time in the conditions are positive. The times recorded in execution_timestamps of a new scheduler are in order. (Sets yielded by different generators of one execution id may carry the same time.)", "quantifier": "every scheduler, session of calls, number and interleaving of generators, and point of failure", "why_tests_cant": "unbounded interleavings of calls, generators and exceptions", "anchors": ["src/graph_scheduler/scheduler.py:Scheduler.run", "src/graph_scheduler/scheduler.py:Scheduler.end_environment_sequence", "src/graph_scheduler/scheduler.py:Scheduler.execution_timestamps", "src/graph_scheduler/time.py:Clock", "src/graph_scheduler/time.py:Time._increment_by_time_scale"]}
{"id": "C89", "title": "A ConditionSet can be given where conditions are expected", "statement": "Let a ConditionSet be filled by any sequence of add and remove calls, and looked at in between. Adding it to another ConditionSet succeeds; every owner keeps its basic condition unless the added set has one for it, and gets the structural conditions of the added set after its own, in the same order; the conditions still have the same owners. The order of application across owners is kept if all structural conditions belong to one owner, but not in general: they are added owner by owner, so a scheduler made with the set can have another graph than one to which the same conditions are added one by one. Adding a set to itself keeps the basic conditions and repeats the structural ones; if an owner has at least two structural conditions and no basic one, the call never ends.", "quantifier": "every way to fill a condition set, every target set and number of owners and conditions", "why_tests_cant": "unbounded histories and sizes, and a call that does not end", "anchors": ["src/graph_scheduler/condition.py:ConditionSet.add_condition_set", "src/graph_scheduler/condition.py:ConditionSet.conditions", "src/graph_scheduler/condition.py:ConditionSet.__iter__", "src/graph_scheduler/condition.py:ConditionSet.add_condition"]}
{"id": "C90", "title": "What has happened has happened", "statement": "Conditions about counts over the environment sequence or the whole life (AfterCall, AfterNCalls, AfterNCallsCombined, AllHaveRun, AfterEnvironmentSequence, AfterPass and its relatives with LIFE as scale, All and Any of them, Not of the Before conditions), once satisfied for an execution id, are satisfied at any later moment, whatever public calls are made; the Before conditions, and Not of the others, once not satisfied never are again; so is TimeTermination while units of time are positive. Hence once such a condition is satisfied and it is the termination condition of the environment sequence, no generator of the execution id that goes by it yields anything any more, neither one under way nor one started later, even after end_environment_sequence. At finer scales, and for exact counts, it is not so.", "quantifier": "every session of public calls and interleaving of generators, every condition of these forms of any nesting", "why_tests_cant": "unbounded sessions, any nesting", "anchors": ["src/graph_scheduler/condition.py:AfterNCalls", "src/graph_scheduler/condition.py:AfterCall", "src/graph_scheduler/condition.py:BeforeNCalls", "src/graph_scheduler/condition.py:AllHaveRun", "src/graph_scheduler/condition.py:AfterNEnvironmentSequences", "src/graph_scheduler/condition.py:TimeTermination", "src/graph_scheduler/scheduler.py:Scheduler.run"]}
{"id": "C91", "title": "A limit on the calls of a node is kept", "statement": "If, whenever next() is called in a session, the condition of a node limits its calls at a scale to N (BeforeNCalls(node, N), AtNCalls(node, N - 1), Never, Not(AfterNCalls(node, N)), All with one of these, Any of these only), then no execution id ever counts more than N calls of the node at that scale; at the scale of the environment sequence or the whole life, the node occurs at most N times in everything that the generators of one execution id hand out. A limit per run limits only each run, and a limit on another node's calls does not limit the node.", "quantifier": "every session of public calls and interleaving of generators, every graph, scale, limit and nesting of All and Any", "why_tests_cant": "unbounded sessions, any nesting", "anchors": ["src/graph_scheduler/condition.py:BeforeNCalls", "src/graph_scheduler/condition.py:AtNCalls", "src/graph_scheduler/condition.py:All", "src/graph_scheduler/condition.py:Any", "src/graph_scheduler/scheduler.py:Scheduler.run"]}
